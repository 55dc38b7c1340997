(** twoisog and threeisog: the arithmetic over Z *)
From Coq Require Import ZArith Znumtheory Lia List Bool QArith Qcanon Sorted.
From Verif Require Import Base RatModel CurveModel CurveProofs MinimalProofs DivPolModel DivPolProofs PointsModel GroupLaw QcGroup PointsProofs PointsGroup MArithProofs DivPolQ NagLutz RootsProofs TorsModel TorsProofs VeluGen VeluInt IsogModel.
Import ListNotations.
Open Scope Z_scope.

(** ** rational roots of monic polynomials *)
Lemma monic_div (n : nat) m z h : z <> 0 -> (forall g m' z', m = g * m' -> z = g * z' -> g <> 0 -> (z' | m' ^ Z.of_nat n)) -> h = Z.gcd m z -> (z | m).
Proof.
  intros Hz H Eh. assert (Hh : 0 < h). { assert (h <> 0) by (rewrite Eh; intros C; apply Z.gcd_eq_0_r in C; auto). pose proof (Z.gcd_nonneg m z). lia. }
  destruct (Z.gcd_divide_l m z) as (m' & Em). destruct (Z.gcd_divide_r m z) as (z' & Ez). rewrite <- Eh in Em, Ez.
  assert (G1 : Z.gcd m' z' = 1).
  { apply (Z.mul_cancel_l _ _ h); [lia|]. rewrite <- Z.gcd_mul_mono_l_nonneg by lia. rewrite (Z.mul_comm h m'), (Z.mul_comm h z'), <- Em, <- Ez, <- Eh. ring. }
  specialize (H h m' z' ltac:(lia) ltac:(lia) ltac:(lia)).
  assert (D1 : (z' | 1)).
  { apply (Z.gauss z' (m' ^ Z.of_nat n)); [now rewrite Z.mul_1_r|]. now apply gcd_pow. }
  rewrite Em, Ez. destruct D1 as (q & Hq). exists (m' * q). transitivity (m' * h * (q * z')); [rewrite <- Hq; ring|ring].
Qed.
Lemma monic3 m z b c d : z <> 0 -> m ^ 3 + b * m ^ 2 * z + c * m * z ^ 2 + d * z ^ 3 = 0 -> (z | m).
Proof.
  intros Hz H. apply (monic_div 3 m z (Z.gcd m z) Hz); [|reflexivity]. intros g m' z' -> -> Hg.
  change (Z.of_nat 3) with 3. exists (- (b * m' ^ 2 + c * m' * z' + d * z' ^ 2)).
  apply (Z.mul_cancel_l _ _ (g ^ 3)); [now apply Z.pow_nonzero|].
  transitivity (g ^ 3 * m' ^ 3 - ((g * m') ^ 3 + b * (g * m') ^ 2 * (g * z') + c * (g * m') * (g * z') ^ 2 + d * (g * z') ^ 3)); [rewrite H; ring|ring].
Qed.
Lemma monic4 m z b c d e : z <> 0 -> m ^ 4 + b * m ^ 3 * z + c * m ^ 2 * z ^ 2 + d * m * z ^ 3 + e * z ^ 4 = 0 -> (z | m).
Proof.
  intros Hz H. apply (monic_div 4 m z (Z.gcd m z) Hz); [|reflexivity]. intros g m' z' -> -> Hg.
  change (Z.of_nat 4) with 4. exists (- (b * m' ^ 3 + c * m' ^ 2 * z' + d * m' * z' ^ 2 + e * z' ^ 3)).
  apply (Z.mul_cancel_l _ _ (g ^ 4)); [now apply Z.pow_nonzero|].
  transitivity (g ^ 4 * m' ^ 4 - ((g * m') ^ 4 + b * (g * m') ^ 3 * (g * z') + c * (g * m') ^ 2 * (g * z') ^ 2 + d * (g * m') * (g * z') ^ 3 + e * (g * z') ^ 4)); [rewrite H; ring|ring].
Qed.

(** ** Curvedata(R,1) *)
Lemma curvedata_min pdivs R : pdivs_spec pdivs -> sdisc R <> 0 -> exists EE U r s v, curvedata_of pdivs R true = Ok EE /\
  0 < U /\ carries U r s v R (cv EE) /\ minimal (cv EE) /\ normal (cv EE).
Proof.
  intros PD HR. destruct (curvedata_of_ok pdivs R) as [_ H]. destruct (H HR) as (E0 & Q & EC & CO & _ & MF). subst R.
  destruct (minimalize_ok pdivs E0 PD CO HR MF) as (E' & U & r & s & v & M & _ & _ & _ & HU & CA & MI & NO).
  assert (INJ : forall A B : curvedata, Ok A = Ok B -> A = B) by (intros A B I; now inversion I).
  exists E', U, r, s, v. split; [|auto]. unfold curvedata_of in Q |- *. cbv zeta in Q |- *.
  match type of Q with (if ?b then _ else _) = _ => destruct b end; apply INJ in Q; [|now rewrite Q].
  exfalso. apply HR. rewrite <- Q. reflexivity.
Qed.

(** ** one step of twoisog *)
Section OnE.
Variable E : curve.
Hypothesis HD : sdisc E <> 0.
Variable pdivs : Z -> list Z.
Hypothesis PD : pdivs_spec pdivs.
Definition raw2 xi := let tau := 3 * xi * xi + 2 * sb2 E * xi + 8 * sb4 E in
  Cv (2 * a1 E) (4 * a2 E) (8 * a3 E) (16 * a4 E - 5 * tau) (64 * a6 E - 4 * sb2 E * tau - 7 * (xi * tau)).
Definition raw3 xi := let tau := (2 * xi + sb2 E) * xi + 3 * sb4 E in let w := ((10 * xi + 6 * sb2 E) * xi + 27 * sb4 E) * xi + 27 * sb6 E in
  Cv (3 * a1 E) (9 * a2 E) (27 * a3 E) (81 * a4 E - 135 * tau) (729 * a6 E - 243 * sb2 E * tau - 189 * w).
Definition root2 xi := xi ^ 3 + sb2 E * xi ^ 2 + 8 * sb4 E * xi + 16 * sb6 E = 0.
Definition root3 xi := xi ^ 4 + sb2 E * xi ^ 3 + 9 * sb4 E * xi ^ 2 + 27 * sb6 E * xi + 27 * sb8 E = 0.
Lemma raw2_disc xi : root2 xi -> sdisc (raw2 xi) <> 0.
Proof. intros RT. exact (two_disc Qc _ _ _ _ _ _ _ _ Qcft zq zq_1 zq_add zq_mul zq_inj0 E HD xi RT). Qed.
Lemma raw3_disc xi : root3 xi -> sdisc (raw3 xi) <> 0.
Proof. intros RT. exact (three_disc Qc _ _ _ _ _ _ _ _ Qcft Qc_eq_dec zq zq_1 zq_add zq_mul zq_inj0 E HD xi RT). Qed.

(** what the loop body returns for the root xi *)
Definition from2 xi (E' : curve) := root2 xi /\ exists U r s v, 0 < U /\ carries U r s v (raw2 xi) E' /\ minimal E' /\ normal E'.
Definition from3 xi (E' : curve) := root3 xi /\ exists U r s v, 0 < U /\ carries U r s v (raw3 xi) E' /\ minimal E' /\ normal E'.
Lemma two_root T : proj_on E T -> pZ T <> 0 -> emul E 2 (aff T) = Inf -> exists xi, 4 * pX T = xi * pZ T /\ root2 xi.
Proof.
  intros V NZ T2. pose proof (proj1 (aff_on E T NZ) V) as ON. unfold aff in ON, T2.
  destruct (Z.eqb_spec (pZ T) 0) as [C|_]; [contradiction|]. set (x := (zq (pX T) / zq (pZ T))%Qc) in *. set (y := (zq (pY T) / zq (pZ T))%Qc) in *.
  apply (two_t E x y ON) in T2. pose proof (t2_b E x y ON) as B. unfold qfy, fy in T2. rewrite T2 in B.
  assert (Ex : (x * zq (pZ T))%Qc = zq (pX T)) by (unfold x; field; now apply zq_ne).
  assert (H : (4 * pX T) ^ 3 + sb2 E * (4 * pX T) ^ 2 * pZ T + 8 * sb4 E * (4 * pX T) * pZ T ^ 2 + 16 * sb6 E * pZ T ^ 3 = 0).
  { apply zq_inj. rewrite zq_0. transitivity (zq 16 * zq (pZ T) * zq (pZ T) * zq (pZ T) * peval (div_pol_2 (a1 E) (a2 E) (a3 E) (a4 E) (a6 E)) x)%Qc; [|rewrite <- B; ring].
    unfold sb2, sb4, sb6. cbn [div_pol_2 peval]. change 16 with (2 * 2 * 2 * 2). change 8 with (2 * 2 * 2). change 4 with (2 * 2). replace ((2 * 2 * pX T) ^ 3) with (2 * 2 * pX T * (2 * 2 * pX T) * (2 * 2 * pX T)) by ring. replace (pZ T ^ 3) with (pZ T * pZ T * pZ T) by ring. rewrite !Z.pow_2_r.
    repeat (rewrite zq_add || rewrite zq_mul). rewrite <- Ex. ring. }
  destruct (monic3 (4 * pX T) (pZ T) (sb2 E) (8 * sb4 E) (16 * sb6 E) NZ H) as (xi & Hxi). exists xi. split; [auto|]. rewrite Hxi in H. unfold root2.
  refine (proj1 (Z.mul_cancel_l _ _ (pZ T ^ 3) (Z.pow_nonzero _ 3 NZ ltac:(lia))) _). rewrite Z.mul_0_r. match type of H with ?L = _ => transitivity L; [clear; ring|exact H] end.
Qed.
Lemma two_curve_ok T xi : pZ T <> 0 -> 4 * pX T = xi * pZ T -> root2 xi -> exists E', two_curve pdivs E (sb2 E) (sb4 E) T = Ok E' /\ from2 xi E'.
Proof.
  intros NZ Hx RT. unfold two_curve. rewrite zz_div_ok, bind_Ok by auto. rewrite Hx, Z_div_mult_full by auto.
  destruct (curvedata_min pdivs (raw2 xi) PD (raw2_disc xi RT)) as (EE & U & r & s & v & Q & H). unfold raw2 in Q at 1. cbv zeta in Q |- *.
  rewrite Q, bind_Ok. exists (cv EE). split; [reflexivity|]. split; [exact RT|]. now exists U, r, s, v.
Qed.
Lemma three_curve_ok xi : root3 xi -> exists E', three_curve pdivs E (sb2 E) (sb4 E) (sb6 E) xi = Ok E' /\ from3 xi E'.
Proof.
  intros RT. unfold three_curve. destruct (curvedata_min pdivs (raw3 xi) PD (raw3_disc xi RT)) as (EE & U & r & s & v & Q & H). unfold raw3 in Q at 1. cbv zeta in Q |- *.
  rewrite Q, bind_Ok. exists (cv EE). split; [reflexivity|]. split; [exact RT|]. now exists U, r, s, v.
Qed.
Lemma mapR_ok {A B} (f : A -> res B) (R : A -> B -> Prop) l : (forall x, In x l -> exists y, f x = Ok y /\ R x y) -> exists l', mapR f l = Ok l' /\ Forall2 R l l'.
Proof.
  induction l as [|x l IH]; intros H; cbn [mapR]; [exists []; auto|]. destruct (H x (or_introl eq_refl)) as (y & Ey & Ry). destruct IH as (l' & El & Rl); [intros z I; apply H; now right|].
  exists (y :: l'). rewrite Ey, bind_Ok, El, bind_Ok. auto.
Qed.
(** the list of two_torsion without its first element *)
Lemma tail_two l : tors_list E (wanted E 2 false) l -> tors_list E (pt_order E 2) (tl l).
Proof.
  intros (F & ND & S & I). assert (HI : In Inf (map aff l)) by (apply I; split; [exact Logic.I|reflexivity]).
  assert (O1 : pt_order E 1 Inf) by (split; [lia|]; split; [reflexivity|]; intros j Hj; lia).
  destruct l as [|P l]; [destruct HI|]. cbn [tl]. inversion F as [|? ? FP FL]; subst. inversion S as [|? ? S1 S2]; subst. cbn [map] in ND. inversion ND as [|? ? N1 N2]; subst.
  assert (AP : aff P = Inf).
  { cbn [map In] in HI. destruct HI as [Q|Q]; [auto|]. exfalso. apply in_map_iff in Q as (Q0 & EQ & IQ). rewrite Forall_forall in S2. destruct (S2 Q0 IQ) as (o & o' & OP & OQ & L).
    rewrite EQ in OQ. pose proof (pt_order_unique E _ _ _ OQ O1). subst o'. destruct OP as (Ho & _). destruct L as [L|(-> & L)]; [lia|].
    assert (ZQ : pZ Q0 = 0) by now apply (aff_inf Q0). rewrite Forall_forall in F. destruct (proj2 (F P (or_introl eq_refl))) as [_ P0]. rewrite ZQ in L. 
    destruct L as [L|[L _]]; [lia|]. apply N1. rewrite (proj2 (aff_inf P) L), <- EQ. now apply in_map. }
  split; [auto|]. split; [auto|]. split; [auto|]. intros T. specialize (I T). cbn [map In] in I. rewrite AP in I.
  assert (X : pt_order E 2 T <-> T <> Inf /\ emul E 2 T = Inf).
  { split.
    - intros (A & B & C). split; [|exact B]. intros ->. apply (C 1%nat); [change (Z.to_nat 2) with 2%nat; lia|reflexivity].
    - intros [A B]. split; [lia|]. split; [exact B|]. intros j Hj. change (Z.to_nat 2) with 2%nat in Hj. replace j with 1%nat by lia. cbn [emul]. now rewrite eadd_inf_r. }
  rewrite X. unfold wanted in I. change (Z.to_nat 2) with 2%nat in I. split.
  - intros H. destruct (proj1 I (or_intror H)) as [H1 H2]. split; [auto|]. split; [|auto]. intros ->. apply N1. now rewrite AP.
  - intros (H1 & H2 & H3). destruct (proj2 I (conj H1 H3)) as [Q|Q]; [now destruct H2|auto].
Qed.

Variable introots : poly -> res (list Z).
Hypothesis IR : introots_right introots.
Theorem twoisog_ok : Z.odd (a1 E) = true \/ Z.odd (a3 E) = true \/ a1 E = 0 /\ a3 E = 0 -> exists f0, forall fuel, (f0 <= fuel)%nat -> exists Ts l,
  twoisog introots pdivs E (sb2 E) (sb4 E) (sb6 E) fuel = Ok l /\ tors_list E (pt_order E 2) Ts /\
  Forall2 (fun T E' => exists xi, pZ T <> 0 /\ proj_on E T /\ 4 * pX T = xi * pZ T /\ from2 xi E') Ts l.
Proof.
  intros O. destruct (two_torsion_ok E HD introots IR false O) as (f0 & H). exists f0. intros fuel Hf. destruct (H fuel Hf) as (tt & Et & TL & _). apply tail_two in TL.
  exists (tl tt). unfold twoisog. rewrite Et, bind_Ok.
  destruct (mapR_ok (two_curve pdivs E (sb2 E) (sb4 E)) (fun T E' => exists xi, pZ T <> 0 /\ proj_on E T /\ 4 * pX T = xi * pZ T /\ from2 xi E') (tl tt)) as (l & El & Rl); [|exists l; auto].
  intros T IT. destruct TL as (F & _ & _ & I). rewrite Forall_forall in F. destruct (F T IT) as [V _]. destruct (proj1 (I (aff T)) (in_map aff _ _ IT)) as [_ O2].
  assert (NZ : pZ T <> 0). { intros Z0. apply aff_inf in Z0. destruct O2 as (_ & _ & C). apply (C 1%nat); [change (Z.to_nat 2) with 2%nat; lia|]. rewrite Z0. reflexivity. }
  destruct (two_root T V NZ (proj1 (proj2 O2))) as (xi & Hx & RT). destruct (two_curve_ok T xi NZ Hx RT) as (E' & EE & FE). exists E'. split; [exact EE|]. exists xi. auto.
Qed.
Theorem threeisog_ok : exists xs l, threeisog introots pdivs E (sb2 E) (sb4 E) (sb6 E) (sb8 E) = Ok l /\ StronglySorted Z.lt xs /\
  (forall xi, In xi xs <-> root3 xi) /\ Forall2 from3 xs l.
Proof.
  unfold threeisog, three_torsion_x. destruct (IR [27 * sb8 E; 27 * sb6 E; 9 * sb4 E; sb2 E; 1]) as (xs & Ex & I & S); [exists 4%nat; cbn; lia|].
  assert (I' : forall xi, In xi xs <-> root3 xi).
  { intros xi. rewrite I. assert (Q : peval [27 * sb8 E; 27 * sb6 E; 9 * sb4 E; sb2 E; 1] (zq xi) = zq (xi ^ 4 + sb2 E * xi ^ 3 + 9 * sb4 E * xi ^ 2 + 27 * sb6 E * xi + 27 * sb8 E)).
    { cbn [peval]. replace (xi ^ 4) with (xi * xi * xi * xi) by ring. replace (xi ^ 3) with (xi * xi * xi) by ring. rewrite Z.pow_2_r. repeat (rewrite zq_add || rewrite zq_mul). rewrite zq_1. ring. }
    rewrite Q. unfold root3. split; [apply zq_inj0|intros ->; reflexivity]. }
  destruct (mapR_ok (three_curve pdivs E (sb2 E) (sb4 E) (sb6 E)) from3 xs) as (l & El & Rl); [intros xi Ix; apply three_curve_ok, I', Ix|].
  exists xs, l. rewrite Ex, bind_Ok. auto.
Qed.
(** a rational abscissa n/d of a point of order 3 is xi/3 for a root xi *)
Lemma root3_of n d : d <> 0 -> 3 * n ^ 4 + sb2 E * n ^ 3 * d + 3 * sb4 E * n ^ 2 * d ^ 2 + 3 * sb6 E * n * d ^ 3 + sb8 E * d ^ 4 = 0 -> exists xi, 3 * n = xi * d /\ root3 xi.
Proof.
  intros Hd H. assert (H' : (3 * n) ^ 4 + sb2 E * (3 * n) ^ 3 * d + 9 * sb4 E * (3 * n) ^ 2 * d ^ 2 + 27 * sb6 E * (3 * n) * d ^ 3 + 27 * sb8 E * d ^ 4 = 0).
  { transitivity (27 * (3 * n ^ 4 + sb2 E * n ^ 3 * d + 3 * sb4 E * n ^ 2 * d ^ 2 + 3 * sb6 E * n * d ^ 3 + sb8 E * d ^ 4)); [ring|rewrite H; reflexivity]. }
  destruct (monic4 _ _ _ _ _ _ Hd H') as (xi & Hx). exists xi. split; [exact Hx|]. rewrite Hx in H'. unfold root3.
  refine (proj1 (Z.mul_cancel_l _ _ (d ^ 4) (Z.pow_nonzero _ 4 Hd ltac:(lia))) _). rewrite Z.mul_0_r. match type of H' with ?L = _ => transitivity L; [clear; ring|exact H'] end.
Qed.
End OnE.
