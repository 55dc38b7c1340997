(** Changes of variables, points with given x-coordinate, reduction of points *)
From Coq Require Import ZArith Znumtheory Lia List Bool QArith Qcanon Field.
From Verif Require Import Base RatModel MArithModel MArithProofs DivisorProofs CurveModel CurveProofs MinimalProofs PointsModel GroupLaw QcGroup
  PointsProofs PointsGroup.
Import ListNotations.
Open Scope Z_scope.

(** ** Change of variables over Q *)
Section Iso.
Open Scope Qc_scope.
Variables b1 b2 b3 b4 b6 u r s t : Qc.
Hypothesis U : u <> 0.
Let c1 := (b1 + s + s) / u.
Let c2 := (b2 - s * b1 + r + r + r - s * s) / (u * u).
Let c3 := (b3 + r * b1 + t + t) / (u * u * u).
Let c4 := (b4 - s * b3 + (r + r) * b2 - (t + r * s) * b1 + (r + r + r) * r - (s + s) * t) / (u * u * u * u).
Let c6 := (b6 + r * b4 + r * r * b2 + r * r * r - t * b3 - t * t - r * t * b1) / (u * u * u * u * u * u).
Definition phi (P : pt Qc) : pt Qc :=
  match P with Inf => Inf | Aff x y => Aff ((x - r) / (u * u)) ((y - s * (x - r) - t) / (u * u * u)) end.
Definition psi (P : pt Qc) : pt Qc :=
  match P with Inf => Inf | Aff x y => Aff (u * u * x + r) (u * u * u * y + s * (u * u * x) + t) end.
Lemma psi_phi P : psi (phi P) = P.
Proof. destruct P as [|x y]; [reflexivity|]. cbn [phi psi]. f_equal; field; auto. Qed.
Lemma phi_psi P : phi (psi P) = P.
Proof. destruct P as [|x y]; [reflexivity|]. cbn [phi psi]. f_equal; field; auto. Qed.
Lemma qsub_0 (a b : Qc) : a - b = 0 <-> a = b.
Proof. split; intros H; [|rewrite H; ring]. transitivity (a - b + b); [ring|]. rewrite H. ring. Qed.
Lemma phi_on P : qon_pt b1 b2 b3 b4 b6 P <-> qon_pt c1 c2 c3 c4 c6 (phi P).
Proof.
  destruct P as [|x y]; [reflexivity|]. unfold qon_pt, on_pt, phi, on. rewrite <- qsub_0. symmetry. rewrite <- qsub_0.
  match goal with |- ?l = 0 <-> ?m = 0 => assert (H : m = u * u * u * u * u * u * l) end.
  { unfold c1, c2, c3, c4, c6. field. auto. }
  split; intros K; [rewrite H, K; ring|].
  match goal with |- ?l = 0 => transitivity (u * u * u * u * u * u * l / (u * u * u * u * u * u)); [field; auto|] end.
  rewrite <- H, K. field. auto.
Qed.
Lemma phi_neg P : phi (qneg b1 b3 P) = qneg c1 c3 (phi P).
Proof. destruct P as [|x y]; [reflexivity|]. unfold qneg, neg, phi, c1, c3. f_equal. field. auto. Qed.
Lemma phi_x_eq x x' : (x - r) / (u * u) = (x' - r) / (u * u) <-> x = x'.
Proof.
  split; [|now intros ->]. intros H. transitivity ((x - r) / (u * u) * (u * u) + r); [field; auto|]. rewrite H. field. auto.
Qed.
Lemma phi_chord l x1 y1 x2 : phi (chord Qcplus Qcmult Qcminus Qcopp b1 b2 b3 l x1 y1 x2) =
  chord Qcplus Qcmult Qcminus Qcopp c1 c2 c3 ((l - s) / u) ((x1 - r) / (u * u)) ((y1 - s * (x1 - r) - t) / (u * u * u)) ((x2 - r) / (u * u)).
Proof. unfold chord, phi, c1, c2, c3. cbv zeta. f_equal; field; auto. Qed.
Lemma phi_add P Q : qon_pt b1 b2 b3 b4 b6 P -> qon_pt b1 b2 b3 b4 b6 Q ->
  phi (qadd b1 b2 b3 b4 P Q) = qadd c1 c2 c3 c4 (phi P) (phi Q).
Proof.
  destruct P as [|x1 y1]; [reflexivity|]. destruct Q as [|x2 y2]; [reflexivity|]. intros H1 H2.
  change (phi (Aff x1 y1)) with (Aff ((x1 - r) / (u * u)) ((y1 - s * (x1 - r) - t) / (u * u * u))).
  change (phi (Aff x2 y2)) with (Aff ((x2 - r) / (u * u)) ((y2 - s * (x2 - r) - t) / (u * u * u))).
  unfold qadd, add.
  destruct (Qc_eq_dec x1 x2) as [EX|NX];
    destruct (Qc_eq_dec ((x1 - r) / (u * u)) ((x2 - r) / (u * u))) as [EX'|NX'];
    rewrite phi_x_eq in *; try contradiction.
  - subst x2. match goal with |- context [Qc_eq_dec y1 ?z] => destruct (Qc_eq_dec y1 z) as [EY|NY] end;
      match goal with |- context [Qc_eq_dec ?a ?z] => destruct (Qc_eq_dec a z) as [EY'|NY'] end.
    + reflexivity.
    + exfalso. apply NY'. rewrite EY. unfold c1, c3. field. auto.
    + exfalso. apply NY. transitivity ((y1 - s * (x1 - r) - t) / (u * u * u) * (u * u * u) + s * (x1 - r) + t); [field; auto|].
      rewrite EY'. unfold c1, c3. field. auto.
    + destruct (@qsame_x b1 b2 b3 b4 b6 x1 y1 y2 H1 H2 NY) as [_ NF]. unfold qfy in NF.
      rewrite phi_chord. f_equal.
      unfold fx, fy, c1, c2, c3, c4 in *. field. repeat split; auto. intros K. apply NF. rewrite <- K. ring.
  - rewrite phi_chord. f_equal. field. repeat split; auto; intros K. apply NX. apply qsub_0. rewrite <- K. ring.
Qed.
End Iso.

(** ** transform *)
Section Tr.
Variables (E E' : curve) (u r s t : Z).
Hypothesis U : u <> 0.
Hypothesis T : carries u r s t E E'.
Lemma carries_q :
  zq (a1 E') = ((zq (a1 E) + zq s + zq s) / zq u)%Qc /\
  zq (a2 E') = ((zq (a2 E) - zq s * zq (a1 E) + zq r + zq r + zq r - zq s * zq s) / (zq u * zq u))%Qc /\
  zq (a3 E') = ((zq (a3 E) + zq r * zq (a1 E) + zq t + zq t) / (zq u * zq u * zq u))%Qc /\
  zq (a4 E') = ((zq (a4 E) - zq s * zq (a3 E) + (zq r + zq r) * zq (a2 E) - (zq t + zq r * zq s) * zq (a1 E) + (zq r + zq r + zq r) * zq r - (zq s + zq s) * zq t)
     / (zq u * zq u * zq u * zq u))%Qc /\
  zq (a6 E') = ((zq (a6 E) + zq r * zq (a4 E) + zq r * zq r * zq (a2 E) + zq r * zq r * zq r - zq t * zq (a3 E) - zq t * zq t - zq r * zq t * zq (a1 E))
     / (zq u * zq u * zq u * zq u * zq u * zq u))%Qc.
Proof.
  pose proof (zq_ne u U) as NU. unfold carries, tr_rst, scale_up in T. pose proof (f_equal a1 T) as T1. pose proof (f_equal a2 T) as T2. pose proof (f_equal a3 T) as T3. pose proof (f_equal a4 T) as T4. pose proof (f_equal a6 T) as T6. cbn [a1 a2 a3 a4 a6] in T1, T2, T3, T4, T6.
  assert (D : forall (a b c : Qc), (b <> 0 -> c = b * a -> a = c / b)%Qc) by (intros a b c Hb ->; field; auto).
  assert (M : forall a b : Qc, (a <> 0 -> b <> 0 -> a * b <> 0)%Qc) by (intros a b Ha Hb H; apply Qcmult_integral in H; tauto).
  repeat split; apply D; try solve [repeat apply M; auto].
  - transitivity (zq (a1 E + 2 * s)); [zqall; ring|]. rewrite T1. now zqall.
  - transitivity (zq (a2 E - s * a1 E + 3 * r - s ^ 2)); [zqall; ring|]. rewrite T2. now zqall.
  - transitivity (zq (a3 E + r * a1 E + 2 * t)); [zqall; ring|]. rewrite T3. now zqall.
  - transitivity (zq (a4 E - s * a3 E + 2 * r * a2 E - (t + r * s) * a1 E + 3 * r ^ 2 - 2 * s * t)); [zqall; ring|]. rewrite T4.
    replace (u ^ 4 * a4 E') with (u * u * u * u * a4 E') by ring. now zqall.
  - transitivity (zq (a6 E + r * a4 E + r ^ 2 * a2 E + r ^ 3 - t * a3 E - t ^ 2 - r * t * a1 E)); [zqall; ring|]. rewrite T6.
    replace (u ^ 6 * a6 E') with (u * u * u * u * u * u * a6 E') by ring. now zqall.
Qed.
Let ph := phi (zq u) (zq r) (zq s) (zq t).
Let ps := psi (zq u) (zq r) (zq s) (zq t).
Lemma aff_mk P : ~ (pX P = 0 /\ pY P = 0 /\ pZ P = 0) -> aff (mkpoint (pX P) (pY P) (pZ P)) = aff P.
Proof. intros H. apply aff_same. destruct (mkpoint_ok _ _ _ H) as (S & _). exact S. Qed.
Lemma scale_aff P back : pZ P <> 0 -> aff (p_scale P u back) =
  Aff (if back then zq u * zq u * (zq (pX P) / zq (pZ P)) else (zq (pX P) / zq (pZ P)) / (zq u * zq u))%Qc
      (if back then zq u * zq u * zq u * (zq (pY P) / zq (pZ P)) else (zq (pY P) / zq (pZ P)) / (zq u * zq u * zq u))%Qc.
Proof.
  intros N. pose proof (zq_ne u U) as NU. pose proof (zq_ne _ N) as NZ. unfold p_scale. destruct (Z.eqb_spec u 1) as [E1|N1].
  - unfold aff. destruct (Z.eqb_spec (pZ P) 0); [contradiction|]. rewrite E1, zq_1. destruct back; f_equal; field; auto; split; auto; discriminate.
  - cbv zeta. destruct back; rewrite mkpoint_aff by (repeat apply zne; auto); zqall; f_equal; field; auto.
Qed.
Lemma shift_aff P back : pZ P <> 0 -> aff (p_shift P r s t back) =
  Aff (if back then zq (pX P) / zq (pZ P) + zq r else zq (pX P) / zq (pZ P) - zq r)%Qc
      (if back then zq (pY P) / zq (pZ P) + zq s * (zq (pX P) / zq (pZ P)) + zq t
       else zq (pY P) / zq (pZ P) - zq s * (zq (pX P) / zq (pZ P) - zq r) - zq t)%Qc.
Proof.
  intros N. pose proof (zq_ne _ N) as NZ. unfold p_shift. destruct back; rewrite mkpoint_aff by auto; zqall; f_equal; field; auto.
Qed.
Lemma aff_fin P x y : aff P = Aff x y -> pZ P <> 0 /\ (zq (pX P) / zq (pZ P) = x)%Qc /\ (zq (pY P) / zq (pZ P) = y)%Qc.
Proof. unfold aff. destruct (Z.eqb_spec (pZ P) 0); [discriminate|]. intros H. apply Aff_inj in H. tauto. Qed.
Lemma transform_aff P back : aff (p_transform P u r s t back) = if back then ps (aff P) else ph (aff P).
Proof.
  unfold p_transform, p_iszero. destruct (Z.eqb_spec (pZ P) 0) as [E0|N].
  - apply aff_inf in E0. rewrite E0. now destruct back.
  - cbv zeta. match goal with |- aff (Pt (pX ?Q) _ _ _) = _ => transitivity (aff Q); [reflexivity|] end.
    unfold p_transform2. destruct back.
    + destruct (aff_fin _ _ _ (scale_aff P true N)) as (NZ & EX & EY).
      rewrite shift_aff, EX, EY by auto. unfold aff. destruct (Z.eqb_spec (pZ P) 0); [contradiction|]. reflexivity.
    + destruct (aff_fin _ _ _ (shift_aff P false N)) as (NZ & EX & EY).
      rewrite scale_aff, EX, EY by auto. unfold aff. destruct (Z.eqb_spec (pZ P) 0); [contradiction|]. reflexivity.
Qed.
Lemma ph_on Q : eon_pt E Q <-> eon_pt E' (ph Q).
Proof.
  destruct carries_q as (C1 & C2 & C3 & C4 & C6). unfold eon_pt. rewrite C1, C2, C3, C4, C6. unfold ph. exact (phi_on (zq (a1 E)) (zq (a2 E)) (zq (a3 E)) (zq (a4 E)) (zq (a6 E)) (zq u) (zq r) (zq s) (zq t) (zq_ne u U) Q).
Qed.
Lemma ph_add P Q : eon_pt E P -> eon_pt E Q -> ph (eadd E P Q) = eadd E' (ph P) (ph Q).
Proof.
  destruct carries_q as (C1 & C2 & C3 & C4 & C6). unfold eon_pt, eadd. rewrite C1, C2, C3, C4. unfold ph. exact (phi_add (zq (a1 E)) (zq (a2 E)) (zq (a3 E)) (zq (a4 E)) (zq (a6 E)) (zq u) (zq r) (zq s) (zq t) (zq_ne u U) P Q).
Qed.
Lemma ph_neg P : ph (eneg E P) = eneg E' (ph P).
Proof.
  destruct carries_q as (C1 & C2 & C3 & C4 & C6). unfold eneg. rewrite C1, C3. unfold ph. exact (phi_neg (zq (a1 E)) (zq (a3 E)) (zq u) (zq r) (zq s) (zq t) (zq_ne u U) P).
Qed.
Lemma aff_valid E0 P : pZ P <> 0 \/ pX P = 0 /\ pY P <> 0 -> eon_pt E0 (aff P) -> proj_on E0 P.
Proof.
  intros H HO. destruct (Z.eq_dec (pZ P) 0) as [EZ|NZ]; [|now apply aff_on].
  destruct H as [H|[HX HY]]; [contradiction|]. destruct P as [X Y W o]. cbn [pX pY pZ] in *. now apply inf_valid.
Qed.
Lemma tr_fin P back : pZ P <> 0 -> pZ (p_transform P u r s t back) <> 0.
Proof.
  intros N H. apply aff_inf in H. rewrite transform_aff in H. unfold aff in H. destruct (Z.eqb_spec (pZ P) 0); [contradiction|].
  unfold ph, ps, phi, psi in H. destruct back; discriminate.
Qed.
Lemma transform_valid_fwd P : proj_on E P -> proj_on E' (p_transform P u r s t false).
Proof.
  intros H. apply aff_valid; [|rewrite transform_aff; apply ph_on; now apply aff_on_all].
  destruct (Z.eq_dec (pZ P) 0) as [E0|N]; [|left; now apply tr_fin].
  right. unfold p_transform, p_iszero. rewrite E0. cbn. lia.
Qed.
Lemma transform_valid_back P : proj_on E' P -> proj_on E (p_transform P u r s t true).
Proof.
  intros H. apply aff_valid.
  - destruct (Z.eq_dec (pZ P) 0) as [E0|N]; [|left; now apply tr_fin].
    right. unfold p_transform, p_iszero. rewrite E0. cbn. lia.
  - rewrite transform_aff. apply ph_on. unfold ph, ps. rewrite (phi_psi (zq u) (zq r) (zq s) (zq t) (zq_ne u U)). now apply aff_on_all.
Qed.
Lemma transform_inverse P (back : bool) : proj_on (if back then E' else E) P -> same (p_transform (p_transform P u r s t back) u r s t (negb back)) P.
Proof.
  intros H. destruct back; cbn [negb].
  - apply (aff_eq_same E'); [apply transform_valid_fwd, transform_valid_back, H|auto|]. rewrite !transform_aff. unfold ph, ps. exact (phi_psi (zq u) (zq r) (zq s) (zq t) (zq_ne u U) (aff P)).
  - apply (aff_eq_same E); [apply transform_valid_back, transform_valid_fwd, H|auto|]. rewrite !transform_aff. unfold ph, ps. exact (psi_phi (zq u) (zq r) (zq s) (zq t) (zq_ne u U) (aff P)).
Qed.
Lemma transform_hom P Q : proj_on E P -> proj_on E Q ->
  same (p_transform (p_add E P Q) u r s t false) (p_add E' (p_transform P u r s t false) (p_transform Q u r s t false)).
Proof.
  intros HP HQ. destruct (add_spec E P Q HP HQ) as [A V].
  destruct (add_spec E' (p_transform P u r s t false) (p_transform Q u r s t false)) as [A' V']; try now apply transform_valid_fwd.
  apply (aff_eq_same E'); [now apply transform_valid_fwd|auto|]. rewrite A', !transform_aff, A. apply ph_add; now apply aff_on_all.
Qed.
End Tr.

(** ** Denominators of points *)
Lemma sq_divide d q : d <> 0 -> (d * d | q * q) -> (d | q).
Proof.
  intros D [c H]. set (g := Z.gcd d q). assert (G : g <> 0) by (unfold g; intros K; apply Z.gcd_eq_0 in K; tauto).
  destruct (Z.gcd_divide_l d q) as [d' Ed]. destruct (Z.gcd_divide_r d q) as [q' Eq]. fold g in Ed, Eq.
  assert (C : Z.gcd d' q' = 1).
  { assert (K := Z.gcd_div_gcd d q g G eq_refl). rewrite Ed, Eq, !Z.div_mul in K by auto. exact K. }
  assert (H' : q' * q' = c * d' * d').
  { apply (Z.mul_reg_l _ _ (g * g)); [now apply zne|]. transitivity (q * q); [rewrite Eq; ring|]. rewrite H, Ed. ring. }
  assert (R : rel_prime d' q') by now apply Zgcd_1_rel_prime.
  assert (D1 : (d' | 1)).
  { apply (Gauss d' q' 1); [|auto]. rewrite Z.mul_1_r. apply (Gauss d' q' q'); [|auto]. exists (c * d'). rewrite H'. ring. }
  rewrite Ed, Eq. apply Z.mul_divide_mono_r. apply (Z.divide_trans _ 1); [auto|]. apply Z.divide_1_l.
Qed.
Lemma coprime_pow_l n d m : Z.gcd n d = 1 -> Z.gcd (n * n * n + d * m) d = 1.
Proof.
  intros H. apply Zgcd_1_rel_prime. apply Zgcd_1_rel_prime in H.
  assert (K : rel_prime (n * n * n) d).
  { apply rel_prime_sym. apply rel_prime_mult; [apply rel_prime_mult|]; now apply rel_prime_sym. }
  apply Zgcd_1_rel_prime in K. apply Zgcd_1_rel_prime. rewrite <- K. rewrite Z.gcd_comm, (Z.gcd_comm (n * n * n)).
  rewrite (Z.mul_comm d m). now rewrite Z.gcd_add_mult_diag_r.
Qed.
(** a rational point with x = n/d in lowest terms has d = k^2 and y = m/k^3 *)
Lemma den_square E n d p q : 0 < d -> 0 < q -> Z.gcd n d = 1 -> Z.gcd p q = 1 ->
  p * p * (d * d * d) + a1 E * n * p * q * (d * d) + a3 E * p * q * (d * d * d) =
  q * q * (n * n * n + a2 E * (n * n) * d + a4 E * n * (d * d) + a6 E * (d * d * d)) ->
  exists k, 0 < k /\ d = k * k /\ q = k * k * k.
Proof.
  intros D Q Gn Gp H. set (c := n * n * n + d * (a2 E * (n * n) + a4 E * n * d + a6 E * (d * d))).
  assert (Gc : Z.gcd c d = 1) by now apply coprime_pow_l.
  assert (Rc : rel_prime d c) by (apply rel_prime_sym; now apply Zgcd_1_rel_prime).
  assert (H1 : q * q * c = d * d * (p * p * d + a1 E * n * p * q + a3 E * p * q * d)).
  { unfold c. transitivity (q * q * (n * n * n + a2 E * (n * n) * d + a4 E * n * (d * d) + a6 E * (d * d * d))); [ring|]. rewrite <- H. ring. }
  assert (Dq : (d | q)).
  { apply sq_divide; [clear - D; lia|]. assert (R2 : rel_prime (d * d) c) by (apply rel_prime_sym; apply rel_prime_mult; now apply rel_prime_sym).
    apply (Gauss (d * d) c (q * q)); [|auto]. exists (p * p * d + a1 E * n * p * q + a3 E * p * q * d). rewrite (Z.mul_comm c). rewrite H1. ring. }
  destruct Dq as [k Ek]. assert (K : 0 < k) by (clear - Ek D Q; nia).
  assert (H2 : k * k * c = d * (p * (p + (a1 E * n + a3 E * d) * k))).
  { apply (Z.mul_reg_l _ _ (d * d)); [apply zne; clear - D; lia|]. transitivity (q * q * c); [rewrite Ek; ring|]. rewrite H1, Ek. ring. }
  assert (D1 : (d | k * k)).
  { apply (Gauss d c (k * k)); [|auto]. rewrite (Z.mul_comm c), H2. apply Z.divide_factor_l. }
  assert (Rp : rel_prime k p).
  { apply rel_prime_sym. apply Zgcd_1_rel_prime. apply Z.gcd_unique_alt; [lia|]. intros z. split; [intros Hz; split; apply (Z.divide_trans _ 1); auto; apply Z.divide_1_l|].
    intros [A B]. rewrite <- Gp. apply Z.gcd_greatest; [auto|]. rewrite Ek. now apply Z.divide_mul_l. }
  assert (Rp2 : rel_prime k (p + (a1 E * n + a3 E * d) * k)).
  { apply Zgcd_1_rel_prime. rewrite Z.add_comm, Z.gcd_comm. rewrite Z.gcd_comm. rewrite Z.add_comm. rewrite Z.gcd_add_mult_diag_r. now apply Zgcd_1_rel_prime. }
  assert (D2 : (k * k | d)).
  { assert (R3 : rel_prime (k * k) (p * (p + (a1 E * n + a3 E * d) * k))).
    { apply rel_prime_sym. apply rel_prime_mult; apply rel_prime_sym; apply rel_prime_mult; auto. }
    apply (Gauss (k * k) (p * (p + (a1 E * n + a3 E * d) * k)) d); [|auto]. exists c. rewrite (Z.mul_comm _ d), <- H2. ring. }
  exists k. split; [auto|]. assert (ED : d = k * k).
  { apply Z.divide_antisym_nonneg; auto; clear - D K; nia. }
  split; [auto|]. rewrite Ek, ED. ring.
Qed.
(** the same for a point of the curve *)
Lemma point_shape E P n d : proj_on E P -> pZ P <> 0 -> 0 < d -> Z.gcd n d = 1 -> pX P * d = n * pZ P ->
  exists k m, 0 < k /\ d = k * k /\ pY P * (k * k * k) = m * pZ P /\
    m * m + (a1 E * n + a3 E * d) * k * m = n * n * n + a2 E * (n * n) * d + a4 E * n * (d * d) + a6 E * (d * d * d).
Proof.
  intros [_ HP] HZ D G HX. destruct P as [X Y W o]. cbn [pX pY pZ] in *.
  set (g := Z.gcd Y W). assert (Hg : 0 < g).
  { assert (0 <= g) by apply Z.gcd_nonneg. assert (g <> 0) by (unfold g; intros K; apply Z.gcd_eq_0 in K; tauto). lia. }
  destruct (Z.gcd_divide_l Y W) as [p0 EY]. destruct (Z.gcd_divide_r Y W) as [q0 EW]. fold g in EY, EW.
  assert (C : Z.gcd p0 q0 = 1).
  { assert (Ng : g <> 0) by lia. assert (K := Z.gcd_div_gcd Y W g Ng eq_refl). rewrite EY, EW, !Z.div_mul in K by auto. exact K. }
  assert (Nq : q0 <> 0) by (intros K; apply HZ; rewrite EW, K; ring).
  set (q := Z.abs q0). set (p := Z.sgn q0 * p0).
  assert (Hq : 0 < q) by (unfold q; clear - Nq; lia).
  assert (C' : Z.gcd p q = 1).
  { unfold p, q. rewrite Z.gcd_abs_r. destruct (Z.sgn_spec q0) as [[_ ->]|[[K _]|[_ ->]]]; [now rewrite Z.mul_1_l|congruence|].
    replace (-1 * p0) with (- p0) by ring. now rewrite Z.gcd_opp_l. }
  assert (YW : Y * q = p * W).
  { unfold p, q. rewrite EY, EW. rewrite <- (Z.sgn_abs q0). ring. }
  assert (NW3 : W * W * W <> 0) by (repeat apply zne; auto).
  assert (HE : p * p * (d * d * d) + a1 E * n * p * q * (d * d) + a3 E * p * q * (d * d * d) =
  q * q * (n * n * n + a2 E * (n * n) * d + a4 E * n * (d * d) + a6 E * (d * d * d))).
  { apply (Z.mul_reg_l _ _ (W * W * W)); auto.
    transitivity ((p * W) * (p * W) * W * (d * d * d) + a1 E * (n * W) * (p * W) * W * q * (d * d) + a3 E * (p * W) * W * W * q * (d * d * d)); [ring|].
    rewrite <- YW, <- HX.
    transitivity (q * q * (d * d * d) * (Y ^ 2 * W + a1 E * X * Y * W + a3 E * Y * W ^ 2)); [ring|]. rewrite HP.
    transitivity (q * q * ((X * d) * (X * d) * (X * d) + a2 E * ((X * d) * (X * d)) * W * d + a4 E * (X * d) * W * W * (d * d) + a6 E * W * W * W * (d * d * d))); [ring|].
    rewrite HX. ring. }
  destruct (den_square E n d p q D Hq G C' HE) as (k & K & Ed & Eq).
  exists k, p. split; [auto|]. split; [auto|]. split; [rewrite <- Eq; auto|].
  apply (Z.mul_reg_l _ _ (k * k * k * (k * k * k))); [repeat apply zne; clear - K; lia|].
  transitivity (p * p * (d * d * d) + a1 E * n * p * q * (d * d) + a3 E * p * q * (d * d * d)); [rewrite Eq, Ed; ring|].
  rewrite HE, Eq. ring.
Qed.

(** ** points_from_x *)
Definition xcoord (P : point) (n d : Z) : Prop := pZ P <> 0 /\ pX P * d = n * pZ P.
Lemma sq_half t w : t * t mod 4 = w * w mod 4 -> (t - w) mod 2 = 0.
Proof.
  intros H. rewrite (Z.div_mod t 2), (Z.div_mod w 2) in H |- * by lia.
  pose proof (Z.mod_pos_bound t 2 ltac:(lia)). pose proof (Z.mod_pos_bound w 2 ltac:(lia)).
  set (a := t / 2) in *. set (b := w / 2) in *. set (i := t mod 2) in *. set (j := w mod 2) in *.
  assert (E : forall a i, (2 * a + i) * (2 * a + i) mod 4 = i * i mod 4).
  { intros a' i'. replace ((2 * a' + i') * (2 * a' + i')) with (i' * i' + (a' * a' + a' * i') * 4) by ring. apply Z_mod_plus_full. }
  rewrite !E in H. assert (Ci : i = 0 \/ i = 1) by lia. assert (Cj : j = 0 \/ j = 1) by lia.
  destruct Ci as [-> | ->], Cj as [-> | ->]; cbn in H; try discriminate.
  - replace (2 * a + 0 - (2 * b + 0)) with ((a - b) * 2) by ring. apply Z_mod_mult.
  - replace (2 * a + 1 - (2 * b + 1)) with ((a - b) * 2) by ring. apply Z_mod_mult.
Qed.
Lemma xcoord_same P Q n d : same P Q -> d <> 0 -> xcoord P n d -> xcoord Q n d.
Proof.
  intros (k & l & K & L & HX & HY & HZ) D [N H]. split.
  - intros E0. rewrite E0, Z.mul_0_r in HZ. apply Z.mul_eq_0 in HZ. tauto.
  - apply (Z.mul_reg_l _ _ l); auto. transitivity (l * pX Q * d); [ring|]. rewrite <- HX.
    transitivity (k * (pX P * d)); [ring|]. rewrite H. transitivity (n * (k * pZ P)); [ring|]. rewrite HZ. ring.
Qed.
Lemma same_trans P Q R : same P Q -> same Q R -> same P R.
Proof.
  intros (k & l & K & L & HX & HY & HZ) (k' & l' & K' & L' & HX' & HY' & HZ').
  exists (k * k'), (l * l'). split; [now apply zne|]. split; [now apply zne|].
  assert (forall p q r, k * p = l * q -> k' * q = l' * r -> k * k' * p = l * l' * r).
  { clear. intros p q r H H'. transitivity (k' * (k * p)); [ring|]. rewrite H. transitivity (l * (k' * q)); [ring|]. rewrite H'. ring. }
  repeat split; eauto.
Qed.
Lemma proj_on_same E P Q : same P Q -> proj_on E P -> proj_on E Q.
Proof.
  intros (k & l & K & L & HX & HY & HZ) [N H]. split.
  - intros (EX & EY & EZ). rewrite EX in HX. rewrite EY in HY. rewrite EZ in HZ. rewrite Z.mul_0_r in HX, HY, HZ.
    apply Z.mul_eq_0 in HX, HY, HZ. tauto.
  - apply (Z.mul_reg_l _ _ (l * l * l)); [repeat apply zne; auto|].
    transitivity ((l * pY Q) * (l * pY Q) * (l * pZ Q) + a1 E * (l * pX Q) * (l * pY Q) * (l * pZ Q) + a3 E * (l * pY Q) * (l * pZ Q) * (l * pZ Q)); [ring|].
    rewrite <- HX, <- HY, <- HZ.
    transitivity (k * k * k * (pY P ^ 2 * pZ P + a1 E * pX P * pY P * pZ P + a3 E * pY P * pZ P ^ 2)); [ring|]. rewrite H.
    transitivity ((k * pX P) * (k * pX P) * (k * pX P) + a2 E * (k * pX P) * (k * pX P) * (k * pZ P) + a4 E * (k * pX P) * (k * pZ P) * (k * pZ P) + a6 E * (k * pZ P) * (k * pZ P) * (k * pZ P)); [ring|].
    rewrite HX, HZ. ring.
Qed.

Section FromX.
Variable E : curve.
Variables n d : Z.
Hypothesis D : 0 < d.
Hypothesis G : Z.gcd n d = 1.
Lemma pfx_ok : exists L, points_from_x E (sb2 E) (sb4 E) (sb6 E) (n, d) = Ok L /\
  (forall P, In P L -> proj_on E P /\ reduced P /\ xcoord P n d) /\
  (forall P, proj_on E P -> xcoord P n d -> exists Q, In Q L /\ same P Q) /\
  ForallOrdPairs (fun P Q => ~ same P Q) L.
Proof.
  unfold points_from_x. destruct (isqrt_ok d) as (ok & xd & E1 & S1 & C1). rewrite E1. cbn [bind]. destruct ok.
  2:{ exists []. split; [reflexivity|]. split; [contradiction|]. split; [|constructor].
      intros P HP [NZ HX]. destruct (point_shape E P n d HP NZ D G HX) as (k & m & K & Ed & _). discriminate C1. now exists k. }
  destruct (S1 eq_refl) as [P1 Ed]. clear S1 C1 E1. assert (K : 0 < xd) by (clear - P1 Ed D; nia).
  set (w := (a1 E * n + a3 E * d) * xd).
  set (f := n * n * n + a2 E * (n * n) * d + a4 E * n * (d * d) + a6 E * (d * d * d)).
  match goal with |- context [isqrt ?x] => set (s := x) end.
  assert (Es : s = w * w + 4 * f) by (unfold s, w, f, sb2, sb4, sb6; rewrite Ed; ring).
  clearbody s. destruct (isqrt_ok s) as (ok & t & E2 & S2 & C2). rewrite E2. cbn [bind].
  assert (NK : xd * xd * xd <> 0) by (repeat apply zne; clear - K; lia).
  destruct ok.
  2:{ exists []. split; [reflexivity|]. split; [contradiction|]. split; [|constructor].
      intros P HP [NZ HX]. destruct (point_shape E P n d HP NZ D G HX) as (k & m & K' & Ed' & _ & Q). discriminate C2.
      assert (k = xd) by (clear - Ed Ed' K K'; nia). subst k. exists (2 * m + w).
      fold f in Q. rewrite Es, <- Q. unfold w. ring. }
  destruct (S2 eq_refl) as [P2 Et]. clear S2 C2 E2. cbv zeta. fold w.
  assert (HM : (t - w) mod 2 = 0).
  { apply sq_half. rewrite <- Et, Es. replace (w * w + 4 * f) with (w * w + f * 4) by ring. apply Z_mod_plus_full. }
  set (m := (t - w) / 2). assert (Em : t - w = 2 * m) by (unfold m; rewrite (Z.div_mod (t - w) 2) at 1 by lia; rewrite HM; ring). clearbody m.
  assert (Q : m * m + w * m = f).
  { apply (Z.mul_reg_l _ _ 4); [lia|]. transitivity ((2 * m) * (2 * m + 2 * w)); [ring|]. rewrite <- Em.
    transitivity (t * t - w * w); [ring|]. rewrite <- Et, Es. ring. }
  assert (N0 : ~ (n * xd = 0 /\ m = 0 /\ d * xd = 0)) by (rewrite Ed; tauto).
  destruct (mkpoint_ok _ _ _ N0) as (S & R & O). set (P := mkpoint (n * xd) m (d * xd)) in *.
  assert (NZ : d * xd <> 0) by now rewrite Ed.
  assert (V0 : proj_on E (Pt (n * xd) m (d * xd) 0)).
  { split; [exact N0|]. cbn [pX pY pZ].
    transitivity (xd * d * (m * m + w * m)); [unfold w; rewrite Ed; ring|]. rewrite Q. unfold f. rewrite Ed. ring. }
  assert (V : proj_on E P) by (apply (proj_on_same E _ _ (same_sym _ _ S)); exact V0).
  assert (X : xcoord P n d).
  { apply (xcoord_same _ _ n d (same_sym _ _ S)); [clear - D; lia|]. split; [exact NZ|]. cbn [pX pZ]. ring. }
  assert (NV : proj_on E (p_neg E P)) by now apply neg_valid.
  assert (NR : reduced (p_neg E P)).
  { destruct P as [X0 Y0 Z0 o0]. destruct R as [R1 R2]. cbn [pX pY pZ] in *. unfold p_neg, reduced. cbn [pX pY pZ]. split; [|exact R2].
    rewrite <- R1. rewrite <- !Z.gcd_assoc. 
    assert (HH : forall z, (z | Z.gcd X0 (Z.gcd (- Y0 - a3 E * Z0 - a1 E * X0) Z0)) <-> (z | Z.gcd X0 (Z.gcd Y0 Z0))).
    { intros z. rewrite !Z.gcd_divide_iff. split; intros (A & B & C); repeat split; auto.
      - replace Y0 with (- ((- Y0 - a3 E * Z0 - a1 E * X0) + a3 E * Z0 + a1 E * X0)) by ring. apply Z.divide_opp_r.
        apply Z.divide_add_r; [apply Z.divide_add_r; [exact B|]|]; now apply Z.divide_mul_r.
      - apply Z.divide_sub_r; [apply Z.divide_sub_r; [now apply Z.divide_opp_r|]|]; now apply Z.divide_mul_r. }
    apply Z.divide_antisym_nonneg; try apply Z.gcd_nonneg; apply HH; apply Z.divide_refl. }
  assert (NX : xcoord (p_neg E P) n d) by exact X.
  (* the negative has y = (-t-w)/2 *)
  assert (NS : same (p_neg E P) (Pt (n * xd) (m - t) (d * xd) 0)).
  { destruct S as (k & l & K1 & L1 & SX & SY & SZ). cbn [pX pY pZ] in SX, SY, SZ. exists k, l. unfold p_neg. cbn [pX pY pZ].
    repeat split; auto. transitivity (- (k * pY P) - a1 E * (k * pX P) - a3 E * (k * pZ P)); [ring|]. rewrite SX, SY, SZ.
    replace (m - t) with (- m - w) by (clear - Em; lia). unfold w. ring. }
  exists (if negb (t =? 0) then [P; p_neg E P] else [P]). split; [reflexivity|]. split; [|split].
  - intros P0 H0. destruct (negb (t =? 0)); cbn [In] in H0; decompose [or] H0; subst; auto; contradiction.
  - intros P0 V1 [NZ1 HX1]. destruct (point_shape E P0 n d V1 NZ1 D G HX1) as (k & m1 & K' & Ed' & Y1 & Q1).
    assert (k = xd) by (clear - Ed Ed' K K'; nia). subst k. fold w f in Q1.
    assert (S0 : same P0 (Pt (n * xd) m1 (d * xd) 0)).
    { exists (xd * xd * xd), (pZ P0). cbn [pX pY pZ]. split; [auto|]. split; [auto|]. split; [|split].
      - transitivity (xd * (pX P0 * d)); [rewrite Ed; ring|]. rewrite HX1. ring.
      - rewrite Z.mul_comm, Y1. ring.
      - rewrite Ed. ring. }
    assert (CC : m1 = m \/ m1 = m - t).
    { assert (HH : (m1 - m) * (m1 - (m - t)) = 0).
      { replace (m - t) with (- m - w) by (clear - Em; lia). transitivity ((m1 * m1 + w * m1) - (m * m + w * m)); [ring|]. rewrite Q, Q1. ring. }
      apply Z.mul_eq_0 in HH. clear - HH. lia. }
    destruct CC as [-> | ->].
    + exists P. split; [destruct (negb (t =? 0)); left; reflexivity|]. apply (same_trans _ _ _ S0). now apply same_sym.
    + destruct (Z.eqb_spec t 0) as [T0|T0]; cbn [negb].
      * exists P. split; [left; reflexivity|]. rewrite T0, Z.sub_0_r in S0. apply (same_trans _ _ _ S0). now apply same_sym.
      * exists (p_neg E P). split; [right; left; reflexivity|]. apply (same_trans _ _ _ S0). now apply same_sym.
  - destruct (Z.eqb_spec t 0) as [T0|T0]; cbn [negb]; repeat constructor. intros HS.
    assert (S3 : same (Pt (n * xd) m (d * xd) 0) (Pt (n * xd) (m - t) (d * xd) 0)).
    { apply (same_trans _ _ _ (same_sym _ _ S)). apply (same_trans _ _ _ HS). exact NS. }
    destruct S3 as (k & l & K1 & L1 & SX & SY & SZ). cbn [pX pY pZ] in SX, SY, SZ.
    assert (k = l) by (apply (Z.mul_reg_r _ _ (d * xd)); auto). subst l. apply (Z.mul_reg_l _ _ k) in SY; auto. clear - SY T0. lia.
Qed.
End FromX.

(** ** reduction modulo a prime *)
(** partial derivatives of Y^2 Z + a1 XYZ + a3 YZ^2 - X^3 - a2 X^2 Z - a4 X Z^2 - a6 Z^3 *)
Definition dX (E : curve) X Y W := a1 E * Y * W - 3 * X ^ 2 - 2 * a2 E * X * W - a4 E * W ^ 2.
Definition dY (E : curve) X Y W := 2 * Y * W + a1 E * X * W + a3 E * W ^ 2.
Definition dZ (E : curve) X Y W := Y ^ 2 + a1 E * X * Y + 2 * a3 E * Y * W - a2 E * X ^ 2 - 2 * a4 E * X * W - 3 * a6 E * W ^ 2.
Definition sing_mod (E : curve) (p : Z) (P : point) : Prop :=
  (p | dX E (pX P) (pY P) (pZ P)) /\ (p | dY E (pX P) (pY P) (pZ P)) /\ (p | dZ E (pX P) (pY P) (pZ P)).
Lemma modb p z : p <> 0 -> (z mod p =? 0) = true <-> (p | z).
Proof. intros N. rewrite Z.eqb_eq. split; [apply Z.mod_divide; auto|apply Z.mod_divide; auto]. Qed.
Lemma good_red_ok E p P : prime p -> proj_on E P -> reduced P -> (good_red E p P = true <-> ~ sing_mod E p P).
Proof.
  intros Hp [N H] [G _]. destruct P as [X Y W o]. cbn [pX pY pZ] in *. unfold good_red, sing_mod. cbn [pX pY pZ].
  assert (p0 : p <> 0) by (destruct Hp; lia).
  destruct (W mod p =? 0) eqn:EW.
  - apply modb in EW; [|auto]. split; [|reflexivity]. intros _ (SX & SY & SZ).
    assert (HX : (p | X)).
    { assert (K : (p | X * X * X)).
      { replace (X * X * X) with ((Y ^ 2 + a1 E * X * Y + a3 E * Y * W - a2 E * X ^ 2 - a4 E * X * W - a6 E * W ^ 2) * W); [now apply Z.divide_mul_r|].
        transitivity (Y ^ 2 * W + a1 E * X * Y * W + a3 E * Y * W ^ 2 - a2 E * X ^ 2 * W - a4 E * X * W ^ 2 - a6 E * W ^ 3); [ring|]. rewrite H. ring. }
      apply (prime_mult p Hp) in K. destruct K as [K|K]; [|auto]. apply (prime_mult p Hp) in K. tauto. }
    assert (HY : (p | Y)).
    { assert (K : (p | Y * Y)).
      { replace (Y * Y) with (dZ E X Y W + (a2 E * X - a1 E * Y) * X + (2 * a4 E * X + 3 * a6 E * W - 2 * a3 E * Y) * W) by (unfold dZ; ring).
        apply Z.divide_add_r; [apply Z.divide_add_r; [auto|]|]; now apply Z.divide_mul_r. }
      apply (prime_mult p Hp) in K. tauto. }
    assert (K : (p | 1)) by (rewrite <- G; apply Z.gcd_greatest; [now apply Z.gcd_greatest|auto]).
    destruct Hp as [Hp _]. apply Z.divide_1_r_nonneg in K; lia.
  - assert (NW : ~ (p | W)) by (intros K; apply modb in K; congruence).
    assert (FY : (p | dY E X Y W) <-> (p | 2 * Y + a1 E * X + a3 E * W)).
    { replace (dY E X Y W) with ((2 * Y + a1 E * X + a3 E * W) * W) by (unfold dY; ring).
      split; [intros K; apply (prime_mult p Hp) in K; tauto|apply Z.divide_mul_l]. }
    replace (a1 E * Y * W - (3 * X * X + 2 * a2 E * X * W + a4 E * W * W)) with (dX E X Y W) by (unfold dX; ring).
    replace (Y * (Y + a1 E * X + 2 * a3 E * W) - (a2 E * X * X + 2 * a4 E * X * W + 3 * a6 E * W * W)) with (dZ E X Y W) by (unfold dZ; ring).
    rewrite FY. destruct ((2 * Y + a1 E * X + a3 E * W) mod p =? 0) eqn:E1; cbn [negb].
    + apply modb in E1; auto. destruct (dX E X Y W mod p =? 0) eqn:E2; cbn [negb].
      * apply modb in E2; auto. rewrite negb_true_iff. destruct (dZ E X Y W mod p =? 0) eqn:E3.
        -- apply modb in E3; auto. split; [discriminate|tauto].
        -- split; [intros _ (_ & _ & K)|reflexivity]. apply modb in K; [congruence|auto].
      * split; [intros _ (K & _)|reflexivity]. apply modb in K; [congruence|auto].
    + split; [intros _ (_ & K & _)|reflexivity]. apply modb in K; [congruence|auto].
Qed.

(** ** the group, in terms of the model *)
Section Group.
Variable E : curve.
Local Notation valid := (proj_on E).
Lemma neg_reduced P : reduced P -> reduced (p_neg E P).
Proof.
  intros R. destruct P as [X0 Y0 Z0 o0]. destruct R as [R1 R2]. cbn [pX pY pZ] in *. unfold p_neg, reduced. cbn [pX pY pZ]. split; [|exact R2].
  rewrite <- R1. rewrite <- !Z.gcd_assoc.
  assert (HH : forall z, (z | Z.gcd X0 (Z.gcd (- Y0 - a3 E * Z0 - a1 E * X0) Z0)) <-> (z | Z.gcd X0 (Z.gcd Y0 Z0))).
  { intros z. rewrite !Z.gcd_divide_iff. split; intros (A & B & C); repeat split; auto.
    - replace Y0 with (- ((- Y0 - a3 E * Z0 - a1 E * X0) + a3 E * Z0 + a1 E * X0)) by ring. apply Z.divide_opp_r.
      apply Z.divide_add_r; [apply Z.divide_add_r; [exact B|]|]; now apply Z.divide_mul_r.
    - apply Z.divide_sub_r; [apply Z.divide_sub_r; [now apply Z.divide_opp_r|]|]; now apply Z.divide_mul_r. }
  apply Z.divide_antisym_nonneg; try apply Z.gcd_nonneg; apply HH; apply Z.divide_refl.
Qed.
Lemma inf_reduced : reduced infpt. Proof. split; [reflexivity|cbn; lia]. Qed.
Lemma valid_mk P : valid P -> valid (mkpoint (pX P) (pY P) (pZ P)) /\ same (mkpoint (pX P) (pY P) (pZ P)) P /\ reduced (mkpoint (pX P) (pY P) (pZ P)).
Proof.
  intros H. destruct (mkpoint_ok (pX P) (pY P) (pZ P)) as (S & R & _); [exact (proj1 H)|].
  split; [|split; [exact S|exact R]]. apply (proj_on_same E P); [apply same_sym; exact S|exact H].
Qed.
Lemma twice_reduced P : valid P -> reduced (p_twice E P).
Proof.
  intros H. unfold p_twice. destruct (Z.eqb_spec (pZ P) 0); [apply inf_reduced|]. destruct (p_eq P (p_neg E P)) eqn:EN; [apply inf_reduced|].
  cbv zeta. match goal with |- reduced (mkpoint _ _ (?m * ?z * _ * _)) => set (M := m) end.
  assert (HM : M <> 0).
  { intros E0. apply not_true_iff_false in EN. apply EN. apply p_eq_cross. unfold p_neg. cbn [pX pY pZ].
    replace (- pY P - a3 E * pZ P - a1 E * pX P) with (pY P) by (unfold M in E0; lia). split; [ring|]. split; ring. }
  apply mkpoint_ok. intros (_ & _ & K). revert K. repeat apply zne; auto.
Qed.
Lemma add_reduced P Q : valid P -> valid Q -> reduced P -> reduced Q -> reduced (p_add E P Q).
Proof.
  intros HP HQ RP RQ. unfold p_add. destruct (Z.eqb_spec (pZ P) 0); [auto|]. unfold p_iszero. destruct (Z.eqb_spec (pZ Q) 0); [auto|].
  destruct (p_eq P Q) eqn:EE; [now apply twice_reduced|].
  destruct (p_eq P (p_neg E Q)) eqn:EN; [apply inf_reduced|].
  pose proof (add_spec E P Q HP HQ) as [A _]. unfold p_add in A.
  destruct (Z.eqb_spec (pZ P) 0); [contradiction|]. unfold p_iszero in A. destruct (Z.eqb_spec (pZ Q) 0); [contradiction|]. rewrite EE, EN in A.
  cbv zeta in *. match goal with |- reduced (mkpoint ?a ?b (?m * _)) => destruct (Z.eq_dec m 0) as [E0|N0] end.
  2:{ apply mkpoint_ok. intros (_ & _ & K). revert K. repeat apply zne; auto. }
  (* M = 0 is impossible: both x-coordinates would agree *)
  exfalso. pose proof (aff_on_all E P HP) as OP. pose proof (aff_on_all E Q HQ) as OQ.
  assert (EX : (zq (pX P) / zq (pZ P) = zq (pX Q) / zq (pZ Q))%Qc).
  { apply qc_div_eq; [now apply zq_ne|now apply zq_ne|]. rewrite <- !zq_mul. f_equal. lia. }
  apply not_true_iff_false in EE, EN. rewrite (p_eq_aff E P Q HP HQ) in EE. rewrite (p_eq_aff E P _ HP (neg_valid E Q HQ)), neg_aff in EN.
  unfold aff in EE, EN, OP, OQ. destruct (Z.eqb_spec (pZ P) 0); [contradiction|]. destruct (Z.eqb_spec (pZ Q) 0); [contradiction|].
  rewrite EX in EE, EN, OP. apply EE. f_equal.
  apply (@qsame_x (zq (a1 E)) (zq (a2 E)) (zq (a3 E)) (zq (a4 E)) (zq (a6 E)) (zq (pX Q) / zq (pZ Q))%Qc (zq (pY P) / zq (pZ P))%Qc (zq (pY Q) / zq (pZ Q))%Qc);
    [exact OP|exact OQ|]. intros C. apply EN. unfold eneg, qneg, neg. now f_equal.
Qed.
Lemma sub_spec P Q : valid P -> valid Q -> valid (p_sub E P Q) /\ same (p_sub E P Q) (p_add E P (p_neg E Q)) /\ reduced (p_sub E P Q) /\
  same (p_subeq E P Q) (p_sub E P Q).
Proof.
  intros HP HQ. pose proof (neg_valid E Q HQ) as NQ. destruct (add_spec E (p_neg E Q) P NQ HP) as [A V].
  destruct (add_spec E P (p_neg E Q) HP NQ) as [A' V']. unfold p_sub, p_subeq, p_addeq. cbv zeta.
  destruct (valid_mk _ V) as (V1 & S1 & R1). split; [exact V1|]. split.
  - apply (same_trans _ _ _ S1). apply (aff_eq_same E); auto. rewrite A, A'. apply eadd_comm; now apply aff_on_all.
  - split; [exact R1|]. apply (valid_mk _ V1).
Qed.
Lemma same_aff P Q : valid P -> valid Q -> (same P Q <-> aff P = aff Q).
Proof. intros HP HQ. split; [apply aff_same|now apply (aff_eq_same E)]. Qed.
Lemma group_laws : sdisc E <> 0 ->
  (forall P Q, valid P -> valid Q -> same (p_add E P Q) (p_add E Q P)) /\
  (forall P Q R, valid P -> valid Q -> valid R -> same (p_add E P (p_add E Q R)) (p_add E (p_add E P Q) R)) /\
  (forall P, valid P -> same (p_add E P infpt) P /\ same (p_add E infpt P) P) /\
  (forall P, valid P -> same (p_add E P (p_neg E P)) infpt).
Proof.
  intros D. pose proof (inf_val E) as VI. assert (AI : aff infpt = Inf) by now apply aff_inf.
  assert (AS : forall P Q, valid P -> valid Q -> aff (p_add E P Q) = eadd E (aff P) (aff Q)) by (intros P Q HP HQ; exact (proj1 (add_spec E P Q HP HQ))).
  assert (VS : forall P Q, valid P -> valid Q -> valid (p_add E P Q)) by (intros P Q HP HQ; exact (proj2 (add_spec E P Q HP HQ))).
  repeat split; intros; (apply (aff_eq_same E); [repeat apply VS; auto; now apply neg_valid|repeat apply VS; auto|]).
  - rewrite !AS by auto. apply eadd_comm; now apply aff_on_all.
  - rewrite !AS by (repeat apply VS; auto). apply eadd_assoc; auto; now apply aff_on_all.
  - rewrite AS by auto. rewrite AI. apply eadd_inf_r.
  - rewrite AS by auto. rewrite AI. reflexivity.
  - rewrite AS by (auto; now apply neg_valid). rewrite neg_aff, AI. apply eadd_neg_r.
Qed.
Lemma mul_nfold n P : sdisc E <> 0 -> valid P -> - max32 <= n <= max32 ->
  exists R, p_mul E n P = Ok R /\ valid R /\
    same R (if n <? 0 then p_neg E (nfold E (Z.to_nat (- n)) P) else nfold E (Z.to_nat n) P).
Proof.
  intros D H B. destruct (p_mul_spec E D n P H B) as (R & ER & V & A). exists R. split; [auto|]. split; [auto|].
  destruct (n <? 0).
  - destruct (nfold_spec E (Z.to_nat (- n)) P H) as [A1 V1]. apply (aff_eq_same E); [auto|now apply neg_valid|]. rewrite A, neg_aff, A1. reflexivity.
  - destruct (nfold_spec E (Z.to_nat n) P H) as [A1 V1]. apply (aff_eq_same E); auto. rewrite A, A1. reflexivity.
Qed.
End Group.
