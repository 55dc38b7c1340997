(** solve_conic_diag of conic.cc: x^2 - a z^2 = b y^2 for square-free a and b, methods 0 to 3. *)
From Coq Require Import ZArith Lia List Bool Znumtheory.
From Verif Require Import Base RatModel MArithModel MArithProofs SqrtModProofs LegendreSpec JacobiMath DivisorProofs
  LegModel LegArith LegLem1 LegBody LegDescent LegReduce LegSolve ConicModel.
Import ListNotations.
Open Scope Z_scope.
Open Scope res_scope.

(** ** The equation *)
Definition dsol (a b : Z) (s : tri) : Prop :=
  let '(x, y, z) := s in x * x - a * (z * z) = b * (y * y) /\ nonzero3 x y z.
Definition dsoluble (a b : Z) : Prop := exists s, dsol a b s.
Definition csol (a b : Z) (s : tri) : Prop := dsol a b s /\ prim3 s.
Definition plist_of (n : Z) (l : list Z) : Prop := NoDup l /\ forall p, In p l <-> prime p /\ (p | n).
Definition pdivs_spec (pdivs : Z -> list Z) : Prop := forall n, n <> 0 -> plist_of n (pdivs n).

Lemma dsol_leg a b x y z : dsol a b (x, y, z) <-> leg_sol (- b) 1 (- a) (y, x, z).
Proof.
  unfold dsol, leg_sol, nonzero3. split; intros (E & N); (split; [lia|tauto]).
Qed.
Lemma sqf_nz a : square_free a -> a <> 0.
Proof. intros S ->. apply (S 2 prime_2). apply Z.divide_0_r. Qed.
Lemma sqf_opp a : square_free a -> square_free (- a).
Proof. intros S p Hp D. apply (S p Hp). now apply Z.divide_opp_r. Qed.
Lemma sqf_div a b : square_free a -> (b | a) -> square_free b.
Proof. intros S D p Hp D'. apply (S p Hp). eapply Z.divide_trans; eauto. Qed.
Lemma sqf_unit a k : square_free a -> (k * k | a) -> k = 1 \/ k = -1.
Proof.
  intros S D. pose proof (sqf_nz a S) as A.
  destruct (Z.eq_dec k 0) as [->|K0]. { destruct D as [q Hq]. lia. }
  destruct (Z_lt_dec 1 (Z.abs k)) as [L|L]; [|lia]. exfalso.
  apply (sqf_pos a (Z.abs k) S L). now rewrite Z.abs_square.
Qed.
Lemma reg_sqf_div c x : square_free c -> (c | x * x) -> (c | x).
Proof.
  intros SC Dxx. pose proof (sqf_nz c SC) as C0.
  assert (H : c / Z.gcd c x = 1 \/ c / Z.gcd c x = -1).
  { destruct (sq_quot c x) as [H _]; [exact C0|exact Dxx|]. rewrite Z.abs_square in H. now apply (sqf_unit c). }
  pose proof (Z.gcd_divide_l c x) as [q Hq].
  assert (G0 : Z.gcd c x <> 0) by (intros G; rewrite G in Hq; lia).
  assert (QE : c / Z.gcd c x = q) by (rewrite Hq at 1; now apply Z.div_mul).
  rewrite QE in H. destruct (Z.gcd_divide_r c x) as [r Hr].
  destruct H as [H|H]; rewrite H in Hq; [exists r|exists (- r)]; rewrite Hr at 1; rewrite Hq at 2; ring.
Qed.
(** a square-free a <> 1 is no square *)
Definition nonsq (a : Z) : Prop := forall x z, x * x = a * (z * z) -> x = 0 /\ z = 0.
Lemma sqf_nonsq a : square_free a -> a <> 1 -> nonsq a.
Proof.
  intros S A1 x z E. destruct (Z.eq_dec z 0) as [->|Z0].
  { split; [|reflexivity]. rewrite !Z.mul_0_r in E. apply Z.mul_eq_0 in E. tauto. }
  exfalso. destruct (sq_div z x) as [k Hk]. { exists a. exact E. }
  assert (EA : a = k * k).
  { apply (Z.mul_reg_r _ _ (z * z)); [now apply mul_nz|]. rewrite <- E, Hk. ring. }
  destruct (sqf_unit a k S) as [->| ->]; [rewrite EA; apply Z.divide_refl|lia|lia].
Qed.
Lemma norm_nz a m11 m21 : nonsq a -> (m11 <> 0 \/ m21 <> 0) -> m11 * m11 - a * (m21 * m21) <> 0.
Proof. intros NS N E. destruct (NS m11 m21); [lia|]. lia. Qed.
Lemma norm_mul a m n x z : (m * x + a * n * z) * (m * x + a * n * z) - a * ((n * x + m * z) * (n * x + m * z)) =
  (m * m - a * (n * n)) * (x * x - a * (z * z)).
Proof. ring. Qed.

(** ** modsqrt: size of the root *)
Section Conic.
Variable xgcd : Z -> Z -> Z * Z * Z.
Hypothesis X : xgcd_spec xgcd.
Variable srm : Z -> Z -> Z.
Hypothesis SR : sqrrootmod_spec srm.
Variable pdivs : Z -> list Z.
Hypothesis PD : pdivs_spec pdivs.

Lemma modsqrt_loop_bd a : forall ps x m y, Forall prime ps -> 0 < m -> - m < 2 * x <= m ->
  modsqrt_loop xgcd srm ps a x m = Ok (Some y) -> - (m * prodl ps) < 2 * y <= m * prodl ps.
Proof.
  induction ps as [|p ps IH]; intros x m y PR M B E.
  - cbn [modsqrt_loop] in E. injection E as <-. unfold prodl. cbn [fold_right]. lia.
  - cbn [modsqrt_loop] in E. inversion PR as [|? ? Hp PR']; subst. pose proof (prime_ge_2 p Hp) as P2.
    match type of E with bind ?t _ = _ => destruct t as [[xp|]| | |]; try discriminate end.
    rewrite bind_Ok in E. cbv beta iota in E.
    destruct (xgcd m p) as [[g u] v]. cbv beta iota in E.
    assert (MP : 0 < m * p) by (apply Z.mul_pos_pos; lia).
    destruct (mod_z_ok (x * v * p + xp * u * m) (m * p)) as (c & EC & _ & BC); [lia|].
    rewrite EC, bind_Ok in E. apply IH in E; [|exact PR'|exact MP|rewrite Z.abs_eq in BC; lia].
    rewrite prodl_cons, Z.mul_assoc. exact E.
Qed.
Lemma modsqrt_bd a ps y : Forall prime ps -> modsqrt xgcd srm a ps = Ok (Some y) -> - prodl ps < 2 * y <= prodl ps.
Proof.
  intros PR E. apply modsqrt_loop_bd in E; auto; lia.
Qed.

(** product of the primes of a square-free number *)
Lemma prodl_dvd n : forall l, NoDup l -> Forall prime l -> (forall p, In p l -> (p | n)) -> (prodl l | n).
Proof.
  induction l as [|p l IH]; intros ND PR D.
  - apply Z.divide_1_l.
  - inversion ND as [|? ? NI ND']; subst. inversion PR as [|? ? Hp PR']; subst. rewrite prodl_cons.
    apply cop_prod_div; [|apply D; now left|apply IH; auto; intros q I; apply D; now right].
    clear - Hp PR' NI. induction l as [|q l IH].
    + apply cop_1_r.
    + inversion PR' as [|? ? Hq PR]; subst. rewrite prodl_cons. apply cop_mul.
      * apply Zgcd_1_rel_prime, prime_rel_prime; [exact Hp|]. intros Dv.
        apply prime_div_prime in Dv; auto. subst q. apply NI. now left.
      * apply IH; auto. intros I. apply NI. now right.
Qed.
Lemma prodl_in p l : In p l -> (p | prodl l).
Proof.
  induction l as [|q l IH]; [intros []|]. intros [->|I]; rewrite prodl_cons; [apply Z.divide_factor_l|now apply Z.divide_mul_r, IH].
Qed.
Lemma plist_primes n l : plist_of n l -> Forall prime l.
Proof. intros (_ & H). apply Forall_forall. intros p I. now apply H. Qed.
Lemma prodl_sqf n l : square_free n -> plist_of n l -> prodl l = Z.abs n.
Proof.
  intros S P. pose proof (plist_primes n l P) as PR. pose proof (prodl_pos l PR) as PP. destruct P as (ND & H).
  assert (D : (prodl l | n)) by (apply prodl_dvd; auto; intros p I; now apply H).
  destruct D as [k Hk]. pose proof (sqf_nz n S) as N0.
  assert (K0 : k <> 0) by (intros ->; lia).
  destruct (Z_lt_dec 1 (Z.abs k)) as [L|L].
  - exfalso. destruct (prime_divisor_ex (Z.abs k) L) as (q & Hq & Dq). apply (proj1 (Z.divide_abs_r q k)) in Dq.
    assert (I : In q l) by (apply H; split; [exact Hq|]; rewrite Hk; now apply Z.divide_mul_l).
    apply (S q Hq). rewrite Hk. destruct Dq as [u Hu]. destruct (prodl_in q l I) as [v Hv]. exists (u * v). rewrite Hu, Hv. ring.
  - rewrite Hk, Z.abs_mul, (Z.abs_eq (prodl l)) by lia. assert (Z.abs k = 1) as -> by lia. lia.
Qed.

(** ** conic_diag_reduce *)
Lemma cop_gcd_quot a b a0 b0 : square_free a -> square_free b -> a = Z.gcd a b * a0 -> b = Z.gcd a b * b0 ->
  cop (Z.gcd a b) a0 /\ cop (Z.gcd a b) b0.
Proof.
  intros SA SB EA EB. set (c := Z.gcd a b) in *.
  assert (K : forall n n0, square_free n -> n = c * n0 -> cop c n0).
  { intros n n0 S E. apply cop_intro. intros d Hd D1 D2. destruct D1 as [u Hu], D2 as [v Hv].
    destruct (sqf_unit n d S) as [U|U]; [exists (u * v); rewrite E, Hu, Hv; ring|rewrite U; apply Z.divide_refl|lia]. }
  split; [now apply (K a)|now apply (K b)].
Qed.

Lemma leg_ok_sol a b c x y z : a <> 0 -> b <> 0 -> c <> 0 -> cop a b -> cop a c -> cop b c -> leg_sol a b c (x, y, z) -> leg_ok a b c.
Proof.
  intros A B C G1 G2 G3 (E & N). repeat (split; [assumption|]).
  assert (Sq : forall u, 0 <= u * u) by (intros u; apply Z.square_nonneg).
  assert (Sp : forall u, u <> 0 -> 0 < u * u) by (intros u U; apply Z.le_neq; split; [apply Sq|]; intros H; symmetry in H; revert H; now apply mul_nz).
  split.
  - intros (TA & TB & TC).
    pose proof (Z.mul_nonneg_nonneg a (x * x) (Z.lt_le_incl _ _ TA) (Sq x)) as Q1.
    pose proof (Z.mul_nonneg_nonneg b (y * y) (Z.lt_le_incl _ _ TB) (Sq y)) as Q2.
    pose proof (Z.mul_nonneg_nonneg c (z * z) (Z.lt_le_incl _ _ TC) (Sq z)) as Q3.
    destruct N as [N|[N|N]].
    + pose proof (Z.mul_pos_pos _ _ TA (Sp x N)) as Q. clear - Q Q2 Q3 E. lia.
    + pose proof (Z.mul_pos_pos _ _ TB (Sp y N)) as Q. clear - Q Q1 Q3 E. lia.
    + pose proof (Z.mul_pos_pos _ _ TC (Sp z N)) as Q. clear - Q Q1 Q2 E. lia.
  - intros (TA & TB & TC).
    pose proof (Z.mul_nonpos_nonneg a (x * x) (Z.lt_le_incl _ _ TA) (Sq x)) as Q1.
    pose proof (Z.mul_nonpos_nonneg b (y * y) (Z.lt_le_incl _ _ TB) (Sq y)) as Q2.
    pose proof (Z.mul_nonpos_nonneg c (z * z) (Z.lt_le_incl _ _ TC) (Sq z)) as Q3.
    destruct N as [N|[N|N]].
    + pose proof (Z.mul_neg_pos _ _ TA (Sp x N)) as Q. clear - Q Q2 Q3 E. lia.
    + pose proof (Z.mul_neg_pos _ _ TB (Sp y N)) as Q. clear - Q Q1 Q3 E. lia.
    + pose proof (Z.mul_neg_pos _ _ TC (Sp z N)) as Q. clear - Q Q1 Q2 E. lia.
Qed.

(** the equation c x^2 = a0 z^2 + b0 y^2 with a = c a0, b = c b0 *)
Lemma reduced_eqn a b c a0 b0 x y z : square_free a -> square_free b -> c <> 0 -> a = c * a0 -> b = c * b0 ->
  csol a b (x * c, y, z) <-> msol c (- a0) (- b0) (x, z, y).
Proof.
  intros SA SB C EA EB. unfold csol, msol, dsol, leg_sol. split.
  - intros ((E & N) & P). split; [split|].
    + apply (Z.mul_reg_l _ _ c); [exact C|]. rewrite Z.mul_0_r. rewrite EA, EB in E. clear - E. lia.
    + destruct N as [N|[N|N]]; [left; intros ->; apply N; reflexivity|now right; right|now right; left].
    + intros d D1 D2 D3. apply P; auto. now apply Z.divide_mul_l.
  - intros ((E & N) & P). split; [split|].
    + rewrite EA, EB. transitivity (c * (c * (x * x) - a0 * (z * z))); [ring|]. replace (c * (x * x) - a0 * (z * z)) with (b0 * (y * y)) by (clear - E; lia). ring.
    + destruct N as [N|[N|N]]; [left; now apply mul_nz|now right; right|now right; left].
    + intros d D1 D2 D3.
      assert (CD : cop d x).
      { apply cop_intro. intros e _ E1 E2. apply P; [exact E2|exact (Z.divide_trans _ _ _ E1 D3)|exact (Z.divide_trans _ _ _ E1 D2)]. }
      assert (DD : (d * d | c)).
      { apply (cop_sq_div d (x * x)).
        - now apply cop_mul.
        - destruct D2 as [y' ->], D3 as [z' ->]. exists (a0 * (z' * z') + b0 * (y' * y')). clear - E. lia. }
      destruct (sqf_unit a d SA) as [U|U]; [rewrite EA; now apply Z.divide_mul_l|rewrite U; apply Z.divide_refl|rewrite U; exists (-1); reflexivity].
Qed.

Lemma msol_perm2 a b c x y z : msol a b c (x, y, z) <-> msol b a c (y, x, z).
Proof.
  unfold msol, leg_sol, nonzero3, prim3. split; intros ((E & N) & P); (split; [split; [lia|tauto]|intros d D1 D2 D3; now apply P]).
Qed.

Lemma conic_diag_reduce_ok a b s : square_free a -> square_free b -> csol a b s ->
  exists s', conic_diag_reduce xgcd a b s = Ok s' /\ csol a b s'.
Proof.
  intros SA SB S. destruct s as [[x y] z]. unfold conic_diag_reduce. cbv zeta.
  pose proof (sqf_nz a SA) as A0. pose proof (sqf_nz b SB) as B0.
  destruct (gcd_split a b) as (a0 & b0 & EA & EB & CAB & GP); [now left|].
  destruct (cop_gcd_quot a b a0 b0 SA SB EA EB) as [CA CB]. set (c := Z.gcd a b) in *.
  assert (DX : (c | x)).
  { destruct S as ((E & _) & _).
    assert (Dxx : (c | x * x)).
    { exists (a0 * (z * z) + b0 * (y * y)). transitivity (a * (z * z) + b * (y * y)); [clear - E; lia|]. rewrite EA, EB at 1. ring. }
    apply (reg_sqf_div c x); [|exact Dxx]. apply (sqf_div a); [exact SA|rewrite EA; apply Z.divide_factor_l]. }
  destruct DX as [x' Hx].
  assert (G : Z.gcd x c = c).
  { rewrite Hx, Z.gcd_comm. apply Z.divide_gcd_iff; [lia|]. apply Z.divide_factor_r. }
  rewrite G.
  rewrite (zdiv_ex a c a0), (zdiv_ex b c b0) by (auto; lia). repeat (rewrite bind_Ok; cbv beta iota).
  assert (S1 : (if 1 <? c then x <- zz_div x c ;; y <- zz_div (y * c) c ;; z <- zz_div (z * c) c ;; Ok (x, y, z) else Ok (x, y * c, z * c)) = Ok (x', y, z)).
  { destruct (Z.ltb_spec 1 c).
    - rewrite (zdiv_ex x c x'), (zdiv_ex (y * c) c y), (zdiv_ex (z * c) c z) by lia. reflexivity.
    - assert (C1 : c = 1) by lia. rewrite C1 in *. f_equal. f_equal; [f_equal|]; lia. }
  rewrite S1, bind_Ok. cbv beta iota. clear S1. rewrite Hx in S.
  assert (C0 : c <> 0) by lia.
  apply (reduced_eqn a b c a0 b0 x' y z SA SB C0 EA EB) in S.
  assert (A00 : a0 <> 0) by (intros H; apply A0; rewrite EA, H; ring).
  assert (B00 : b0 <> 0) by (intros H; apply B0; rewrite EB, H; ring).
  assert (OK : leg_ok c (- a0) (- b0)).
  { eapply leg_ok_sol; [lia|lia|lia| | | |exact (proj1 S)]; [now apply cop_opp_r|now apply cop_opp_r|now apply cop_opp_l, cop_opp_r]. }
  destruct (Z.eqb_spec (if Z.sgn a =? -1 then 1 else if Z.sgn b =? 1 then 2 else 3) 1) as [I1|I1].
  - destruct (new_legendre_reduce_ok xgcd X c (- a0) (- b0) (x', z, y) OK S) as ([[x2 z2] y2] & -> & S2).
    repeat (rewrite bind_Ok; cbv beta iota). eexists. split; [reflexivity|].
    now apply (reduced_eqn a b c a0 b0).
  - destruct (Z.eqb_spec (if Z.sgn a =? -1 then 1 else if Z.sgn b =? 1 then 2 else 3) 2) as [I2|I2].
    + assert (OK2 : leg_ok a0 b0 (- c)).
      { destruct OK as (_ & _ & _ & _ & _ & _ & O1 & O2). repeat (split; [first [assumption|lia|now apply cop_opp_r, cop_sym]|]).
        clear - O1 O2. lia. }
      destruct (new_legendre_reduce_ok xgcd X a0 b0 (- c) (z, y, x') OK2) as ([[z2 y2] x2] & -> & S2).
      { apply msol_opp'. rewrite Z.opp_involutive. apply (msol_perm c (- a0) (- b0) x' z y) in S as (_ & _ & S). exact S. }
      repeat (rewrite bind_Ok; cbv beta iota). eexists. split; [reflexivity|].
      apply (reduced_eqn a b c a0 b0); auto. apply msol_opp in S2. rewrite Z.opp_involutive in S2.
      now apply msol_perm3.
    + assert (OK3 : leg_ok c (- b0) (- a0)).
      { destruct OK as (_ & _ & _ & _ & _ & _ & O1 & O2).
        repeat (split; [first [lia|now apply cop_opp_r|now apply cop_opp_l, cop_opp_r, cop_sym]|]). clear - O1 O2. lia. }
      destruct (new_legendre_reduce_ok xgcd X c (- b0) (- a0) (x', y, z) OK3) as ([[x2 y2] z2] & -> & S2).
      { now apply (msol_perm c (- a0) (- b0) x' z y) in S as (S & _ & _). }
      repeat (rewrite bind_Ok; cbv beta iota). eexists. split; [reflexivity|].
      apply (reduced_eqn a b c a0 b0); auto. now apply (msol_perm c (- b0) (- a0) x2 y2 z2) in S2 as (S2 & _ & _).
Qed.

(** ** The matrices of methods 0 to 3 *)
Lemma abs_lt_div t b n : b <> 0 -> n = b * t -> Z.abs n < b * b -> Z.abs t < Z.abs b.
Proof.
  intros B -> H. rewrite Z.abs_mul in H. rewrite <- (Z.abs_square b) in H.
  apply (Z.mul_lt_mono_pos_l (Z.abs b)); [lia|exact H].
Qed.
Lemma root_size a b x0 : Z.abs a < Z.abs b -> - Z.abs b < 2 * x0 <= Z.abs b -> Z.abs a + x0 * x0 < b * b.
Proof.
  intros A R.
  assert (H : 4 * (x0 * x0) <= Z.abs b * Z.abs b).
  { replace (4 * (x0 * x0)) with (Z.abs (2 * x0) * Z.abs (2 * x0)) by (rewrite Z.abs_square; ring).
    apply Z.mul_le_mono_nonneg; lia. }
  rewrite <- (Z.abs_square b). pose proof (Z.square_nonneg (Z.abs b - 1)). pose proof (Z.square_nonneg (Z.abs b)). lia.
Qed.
Lemma first_t a b x0 : Z.abs a < Z.abs b -> - Z.abs b < 2 * x0 <= Z.abs b -> nonsq a -> sqroot x0 a (Z.abs b) ->
  exists t, x0 * x0 - a = b * t /\ t <> 0 /\ Z.abs t < Z.abs b.
Proof.
  intros A R NS D. unfold sqroot in D. apply (proj1 (Z.divide_abs_l b _)) in D. destruct D as [t Ht].
  assert (B0 : b <> 0) by lia.
  assert (T0 : t <> 0).
  { intros ->. destruct (NS x0 1); [lia|]. discriminate. }
  exists t. rewrite (Z.mul_comm b t). split; [exact Ht|]. split; [exact T0|].
  apply (abs_lt_div t b (x0 * x0 - a)); [exact B0|lia|].
  pose proof (root_size a b x0 A R). pose proof (Z.square_nonneg x0). lia.
Qed.

Definition mat_ok (a b : Z) (r : Z * Z * Z * Z) : Prop :=
  let '(t, m11, m21, m33) := r in
  m11 * m11 - a * (m21 * m21) = b * t /\ (m33 = t \/ m33 = - t) /\ t <> 0 /\ Z.abs t < Z.abs b.

(** method 1 *)
Definition simon_inv (a b : Z) (s : Z * Z * Z * Z * Z * Z) : Prop :=
  let '(x0, t, newt, m11, m21, m33) := s in
  t <> 0 /\ newt <> 0 /\ x0 * x0 - a = t * newt /\
  ((t = b /\ m11 = 1 /\ m21 = 0 /\ m33 = 1 /\ Z.abs newt < Z.abs b) \/
   (m11 * m11 - a * (m21 * m21) = b * t /\ (m33 = t \/ m33 = - t) /\ Z.abs t < Z.abs b /\ (t | m11 + x0 * m21))).

Lemma simon_ok a b x0 newt : nonsq a -> b <> 0 -> newt <> 0 -> x0 * x0 - a = b * newt -> Z.abs newt < Z.abs b ->
  exists r, while (simon_step a) (zfuel b) (x0, b, newt, 1, 0, 1) = Ok r /\ mat_ok a b r.
Proof.
  intros NS B0 N0 E0 L0.
  apply (while_total (simon_step a) (simon_inv a b) (mat_ok a b) (fun s => Z.abs (snd (fst (fst (fst (fst s))))))).
  - intros s _. apply Z.abs_nonneg.
  - clear x0 newt N0 E0 L0. intros [[[[[x0 t] newt] m11] m21] m33] (T0 & N0 & E & I). cbn [fst snd]. unfold simon_step.
    destruct (Z.ltb_spec (Z.abs newt) (Z.abs t)) as [L|L].
    2: { left. eexists. split; [reflexivity|]. unfold mat_ok. destruct I as [(-> & _ & _ & _ & I)|(I1 & I2 & I3 & _)]; [lia|]. auto. }
    right. cbv zeta.
    destruct (mod_z_ok (- x0) newt N0) as (x' & -> & D & _). rewrite bind_Ok. destruct D as [k Hk].
    assert (EX : x' * x' - a = newt * (t + 2 * k * x0 + k * k * newt)).
    { assert (x' = - x0 - k * newt) as -> by (clear - Hk; lia).
      transitivity ((x0 * x0 - a) + newt * (2 * k * x0 + k * k * newt)); [ring|]. rewrite E. ring. }
    set (n2 := t + 2 * k * x0 + k * k * newt) in *.
    assert (N2 : n2 <> 0). { intros H. rewrite H, Z.mul_0_r in EX. destruct (NS x' 1); [lia|]. discriminate. }
    rewrite (zdiv_ex _ newt n2 N0 EX), bind_Ok.
    destruct I as [(-> & -> & -> & -> & LN)|(I1 & I2 & I3 & I4)].
    + rewrite Z.gcd_1_r.
      rewrite (zdiv_ex _ 1 x0), (zdiv_ex _ 1 1), (zdiv_ex 1 1 1) by lia. rewrite !bind_Ok.
      eexists. split; [reflexivity|]. split; [|cbn [fst snd]; lia]. split; [exact N0|]. split; [exact N2|]. split; [exact EX|].
      right. split; [lia|]. split; [left; lia|]. split; [exact LN|]. exists (- k). lia.
    + destruct I4 as [j Hj].
      assert (H11 : x0 * m11 + a * m21 = t * (x0 * j - newt * m21)).
      { transitivity (x0 * (m11 + x0 * m21) - (x0 * x0 - a) * m21); [ring|]. rewrite Hj, E. ring. }
      assert (HG : Z.gcd (Z.gcd (x0 * m11 + a * m21) (m11 + x0 * m21)) m33 = Z.abs t).
      { rewrite H11, Hj. apply Z.divide_antisym_nonneg; [apply Z.gcd_nonneg|apply Z.abs_nonneg| |].
        - apply Z.divide_abs_r. eapply Z.divide_trans; [apply Z.gcd_divide_r|]. destruct I2 as [->| ->]; [apply Z.divide_refl|exists (-1); lia].
        - apply Z.gcd_greatest; [apply Z.gcd_greatest|]; apply Z.divide_abs_l.
          + apply Z.divide_factor_l.
          + apply Z.divide_factor_r.
          + destruct I2 as [->| ->]; [apply Z.divide_refl|exists (-1); lia]. }
      rewrite HG.
      assert (AT : Z.abs t <> 0) by lia.
      assert (exists e, (e = 1 \/ e = -1) /\ t = e * Z.abs t) as (e & He & Et).
      { destruct (Z.abs_spec t) as [[_ H]|[_ H]]; rewrite H; [exists 1|exists (-1)]; (split; [tauto|lia]). }
      assert (EE : e * e = 1) by (destruct He as [->| ->]; reflexivity).
      assert (exists e', (e' = 1 \/ e' = -1) /\ m33 = e' * Z.abs t) as (e' & He' & Et').
      { destruct I2 as [->| ->]; [exists e|exists (- e)]; (split; [destruct He as [->| ->]; tauto|lia]). }
      rewrite (zdiv_ex _ (Z.abs t) (e * (x0 * j - newt * m21)) AT) by (rewrite H11, Et at 1; ring). rewrite bind_Ok.
      rewrite (zdiv_ex _ (Z.abs t) (e * j) AT) by (rewrite Hj, Et at 1; ring). rewrite bind_Ok.
      rewrite (zdiv_ex _ (Z.abs t) e' AT) by (rewrite Et' at 1; ring). rewrite bind_Ok.
      eexists. split; [reflexivity|]. split; [|cbn [fst snd]; lia]. split; [exact N0|]. split; [exact N2|]. split; [exact EX|].
      right. split; [|split; [|split]].
      * apply (Z.mul_reg_l _ _ (t * t)); [now apply mul_nz|].
        transitivity (e * e * ((t * (x0 * j - newt * m21)) * (t * (x0 * j - newt * m21)) - a * ((j * t) * (j * t)))); [ring|].
        rewrite EE, <- H11, <- Hj.
        transitivity ((m11 * m11 - a * (m21 * m21)) * (x0 * x0 - a)); [ring|]. rewrite I1, E. ring.
      * destruct He' as [->| ->]; [left|right]; lia.
      * lia.
      * exists (e * (- m21 - k * j)). assert (x' = - x0 - k * newt) as -> by (clear - Hk; lia). ring.
  - split; [exact B0|]. split; [exact N0|]. split; [exact E0|]. left. auto.
  - cbn [fst snd]. apply zfuel_lt.
Qed.

(** method 2 *)
Definition lnorm (a b x0 u v : Z) : Z := Z.abs a * (u * u) + (u * x0 + v * b) * (u * x0 + v * b).
Definition latt_inv (a b x0 : Z) (s : Z * Z * Z * Z * Z * Z) : Prop :=
  let '(u1, v1, u2, v2, n1, n2) := s in
  (u1 * v2 - u2 * v1 = 1 \/ u1 * v2 - u2 * v1 = -1) /\ n1 = lnorm a b x0 u1 v1 /\ n2 = lnorm a b x0 u2 v2 /\ n1 <= Z.abs a + x0 * x0.
Lemma lnorm_pos a b x0 u v : a <> 0 -> b <> 0 -> (u <> 0 \/ v <> 0) -> 0 < lnorm a b x0 u v.
Proof.
  intros A B N. unfold lnorm.
  destruct (Z.eq_dec u 0) as [->|U].
  - rewrite Z.mul_0_l, Z.mul_0_r, !Z.add_0_l || rewrite !Z.mul_0_l, Z.mul_0_r, !Z.add_0_l.
    assert (V : v * b <> 0) by (apply mul_nz; [lia|exact B]). pose proof (Z.square_nonneg (v * b)) as S1.
    pose proof (mul_nz _ _ V V). lia.
  - pose proof (Z.square_nonneg (u * x0 + v * b)) as S1. pose proof (Z.square_nonneg u) as S2. pose proof (mul_nz _ _ U U) as S3.
    assert (0 < Z.abs a * (u * u)) by (apply Z.mul_pos_pos; lia). lia.
Qed.
Lemma latt_ok a b x0 u2 v2 : a <> 0 -> b <> 0 -> (1 * v2 - u2 * 0 = 1) ->
  exists u1 v1, while (latt_step a b x0) (zfuel (Z.abs a + x0 * x0)) (1, 0, u2, v2, Z.abs a + x0 * x0, lnorm a b x0 u2 v2) = Ok (u1, v1) /\
    (u1 <> 0 \/ v1 <> 0) /\ lnorm a b x0 u1 v1 <= Z.abs a + x0 * x0.
Proof.
  intros A B I0.
  destruct (while_total (latt_step a b x0) (latt_inv a b x0)
    (fun r => (fst r <> 0 \/ snd r <> 0) /\ lnorm a b x0 (fst r) (snd r) <= Z.abs a + x0 * x0) (fun s => snd (fst s)))
    with (n := zfuel (Z.abs a + x0 * x0)) (s := (1, 0, u2, v2, Z.abs a + x0 * x0, lnorm a b x0 u2 v2)) as ([u1 v1] & E & H).
  - intros [[[[[u1 v1] u2'] v2'] n1] n2] (D & -> & _ & _). cbn [fst snd]. apply Z.lt_le_incl, lnorm_pos; auto. 
    clear - D. destruct (Z.eq_dec u1 0) as [->|]; [|tauto]. right. intros ->. lia.
  - clear u2 v2 I0. intros [[[[[u1 v1] u2] v2] n1] n2] (D & E1 & E2 & L). cbn [fst snd]. unfold latt_step.
    destruct (Z.leb_spec n1 n2) as [LE|GT].
    + left. exists (u1, v1). split; [reflexivity|]. cbn [fst snd]. rewrite <- E1. split; [|exact L].
      clear - D. destruct (Z.eq_dec u1 0) as [->|]; [|tauto]. right. intros ->. lia.
    + right. cbv zeta.
      assert (P2 : 0 < n2).
      { rewrite E2. apply lnorm_pos; auto. clear - D. destruct (Z.eq_dec u2 0) as [->|]; [|tauto]. right. intros ->. lia. }
      destruct (roundover_ok (Z.abs a * u2 * u1 + (u2 * x0 + v2 * b) * (u1 * x0 + v1 * b)) n2 P2) as (al & -> & _). rewrite bind_Ok.
      destruct (Z.eqb_spec al 0) as [->|AL].
      * eexists. split; [reflexivity|]. split; [|cbn [fst snd]; lia]. split; [|split; [exact E2|split; [exact E1|lia]]]. clear - D. lia.
      * eexists. split; [reflexivity|]. split; [|cbn [fst snd]; lia]. split; [|split; [exact E2|split; [reflexivity|lia]]].
        replace (u2 * (v1 - al * v2) - (u1 - al * u2) * v2) with (- (u1 * v2 - u2 * v1)) by ring. clear - D. lia.
  - split; [left; exact I0|]. split; [|split; [reflexivity|lia]]. unfold lnorm. ring.
  - cbn [fst snd]. pose proof (zfuel_lt (Z.abs a + x0 * x0)). lia.
  - exists u1, v1. split; [exact E|]. exact H.
Qed.

Lemma diag_matrix_ok method a b x0 : 0 <= method < 3 -> Z.abs a < Z.abs b -> nonsq a -> a <> 0 ->
  - Z.abs b < 2 * x0 <= Z.abs b -> sqroot x0 a (Z.abs b) ->
  exists r, diag_matrix method a b x0 = Ok r /\ mat_ok a b r.
Proof.
  intros M AB NS A R D. assert (B0 : b <> 0) by lia.
  destruct (first_t a b x0 AB R NS D) as (t & E & T0 & T1). unfold diag_matrix.
  rewrite (zdiv_ex _ b t B0 E), bind_Ok.
  destruct (Z.eqb_spec method 0) as [|M0].
  { eexists. split; [reflexivity|]. unfold mat_ok. rewrite !Z.mul_1_r. auto. }
  destruct (Z.eqb_spec method 1) as [|M1].
  { now apply simon_ok. }
  destruct (Z.eqb_spec method 2) as [|M2]; [|lia]. cbv zeta.
  pose proof (Z.square_nonneg x0) as SX.
  destruct (roundover_ok (b * x0) (Z.abs a + x0 * x0)) as (al & -> & _); [lia|]. rewrite bind_Ok.
  assert (exists u2, (if al =? 0 then (0, 1) else (0 - al * 1, 1 - al * 0)) = (u2, 1)) as (u2 & ->).
  { destruct (al =? 0); eexists; [reflexivity|]. f_equal. lia. }
  cbv beta iota.
  destruct (latt_ok a b x0 u2 1) as (u1 & v1 & HW & N & LE); auto; [lia|].
  unfold lnorm at 1 in HW. rewrite HW, bind_Ok. cbv beta iota. unfold lnorm in LE.
  set (m11 := u1 * x0 + v1 * b) in *.
  assert (EN : m11 * m11 - a * (u1 * u1) = b * (u1 * u1 * t + 2 * u1 * x0 * v1 + v1 * v1 * b)).
  { transitivity (u1 * u1 * (x0 * x0 - a) + b * (2 * u1 * x0 * v1 + v1 * v1 * b)); [unfold m11; ring|]. rewrite E. ring. }
  set (t' := u1 * u1 * t + 2 * u1 * x0 * v1 + v1 * v1 * b) in *.
  rewrite (zdiv_ex _ b t' B0 EN), bind_Ok. eexists. split; [reflexivity|].
  split; [exact EN|]. split; [now left|]. split.
  - intros H. rewrite H, Z.mul_0_r in EN. revert EN. apply norm_nz; [exact NS|].
    destruct (Z.eq_dec u1 0) as [U|U]; [left|now right]. unfold m11. rewrite U, Z.mul_0_l, Z.add_0_l. apply mul_nz; [lia|exact B0].
  - apply (abs_lt_div t' b _ B0 EN). pose proof (root_size a b x0 AB R) as RS.
    assert (Z.abs (m11 * m11 - a * (u1 * u1)) <= Z.abs a * (u1 * u1) + m11 * m11).
    { pose proof (Z.square_nonneg m11). pose proof (Z.square_nonneg u1).
      pose proof (Z.abs_triangle (m11 * m11) (- (a * (u1 * u1)))) as T. rewrite Z.abs_opp, (Z.abs_mul a) in T.
      rewrite (Z.abs_eq (m11 * m11)), (Z.abs_eq (u1 * u1)) in T by assumption.
      replace (m11 * m11 - a * (u1 * u1)) with (m11 * m11 + - (a * (u1 * u1))) by ring. lia. }
    lia.
Qed.

(** method 3 *)
Definition meth3_inv (a b : Z) (s : Z * Z * Z * Z * Z * Z) : Prop :=
  let '(u, v, uu, vv, c, newc) := s in
  c <> 0 /\ Z.abs c < Z.abs b /\ v * v - a * (u * u) = b * c /\ (c | uu - u) /\ (c | vv + v) /\
  vv * vv - a * (uu * uu) = c * newc.
Lemma meth3_ok a b s : meth3_inv a b s ->
  exists u v c, while (meth3_step a) (zfuel (snd (fst s))) s = Ok (u, v, c) /\
    v * v - a * (u * u) = b * c /\ c <> 0 /\ Z.abs c < Z.abs b.
Proof.
  intros I0.
  destruct (while_total (meth3_step a) (meth3_inv a b)
    (fun r => snd (fst r) * snd (fst r) - a * (fst (fst r) * fst (fst r)) = b * snd r /\ snd r <> 0 /\ Z.abs (snd r) < Z.abs b)
    (fun s => Z.abs (snd (fst s)))) with (n := zfuel (snd (fst s))) (s := s) as ([[u v] c] & E & H).
  - intros s' _. apply Z.abs_nonneg.
  - clear s I0. intros [[[[[u v] uu] vv] c] newc] (C0 & CB & E & Du & Dv & EN). cbn [fst snd]. unfold meth3_step.
    destruct (Z.eqb_spec newc 0) as [->|NC].
    { left. cbn [negb andb]. eexists. split; [reflexivity|]. cbn [fst snd]. auto. }
    destruct (Z.ltb_spec (Z.abs newc) (Z.abs c)) as [L|L].
    2: { left. cbn [negb andb]. eexists. split; [reflexivity|]. cbn [fst snd]. auto. }
    right. cbn [negb andb]. cbv zeta. destruct Du as [i Hi], Dv as [j Hj].
    assert (Eu : uu = u + i * c) by lia. assert (Ev : vv = - v + j * c) by lia.
    assert (EU : u * vv + v * uu = c * (u * j + v * i)) by (rewrite Eu, Ev; ring).
    assert (EV : v * vv + a * u * uu = c * (v * j + a * u * i - b)).
    { rewrite Eu, Ev. transitivity (c * (v * j + a * u * i) - (v * v - a * (u * u))); [ring|]. rewrite E. ring. }
    rewrite (zdiv_ex _ c _ C0 EU), (zdiv_ex _ c _ C0 EV), !bind_Ok.
    assert (NE : (v * j + a * u * i - b) * (v * j + a * u * i - b) - a * ((u * j + v * i) * (u * j + v * i)) = b * newc).
    { apply (Z.mul_reg_l _ _ (c * c)); [now apply mul_nz|].
      transitivity ((c * (v * j + a * u * i - b)) * (c * (v * j + a * u * i - b)) - a * ((c * (u * j + v * i)) * (c * (u * j + v * i)))); [ring|].
      rewrite <- EU, <- EV. transitivity ((v * v - a * (u * u)) * (vv * vv - a * (uu * uu))); [ring|]. rewrite E, EN. ring. }
    set (u' := u * j + v * i) in *. set (v' := v * j + a * u * i - b) in *. clearbody u' v'.
    destruct (mod_z_ok u' (Z.abs newc)) as (uu' & -> & D1 & _); [lia|]. rewrite bind_Ok.
    destruct (mod_z_ok (- v') (Z.abs newc)) as (vv' & -> & D2 & _); [lia|]. rewrite bind_Ok.
    apply (proj1 (Z.divide_abs_l newc _)) in D1. apply (proj1 (Z.divide_abs_l newc _)) in D2.
    destruct D1 as [k Hk], D2 as [l Hl].
    assert (EK : uu' = u' - k * newc) by lia. assert (EL : vv' = - v' - l * newc) by lia.
    rewrite (zdiv_ex _ newc (b + 2 * v' * l + l * l * newc + 2 * a * u' * k - a * k * k * newc) NC).
    2: { rewrite EK, EL. transitivity ((v' * v' - a * (u' * u')) + newc * (2 * v' * l + l * l * newc + 2 * a * u' * k - a * k * k * newc)); [ring|]. rewrite NE. ring. }
    rewrite bind_Ok. eexists. split; [reflexivity|]. split; [|cbn [fst snd]; lia].
    split; [exact NC|]. split; [lia|]. split; [exact NE|]. split; [exists (- k); lia|]. split; [exists (- l); lia|].
    rewrite EK, EL. transitivity ((v' * v' - a * (u' * u')) + newc * (2 * v' * l + l * l * newc + 2 * a * u' * k - a * k * k * newc)); [ring|]. rewrite NE. ring.
  - exact I0.
  - apply zfuel_lt.
  - exists u, v, c. split; [exact E|]. cbn [fst snd] in H. exact H.
Qed.

(** ** Recursion *)
Lemma combine_sol a b t m11 m21 x1 y1 z1 Y t0 t1 : nonsq a -> m11 * m11 - a * (m21 * m21) = b * t -> t = t0 * (t1 * t1) ->
  t <> 0 -> b <> 0 -> dsol a t0 (x1, y1, z1) -> (Y = t0 * t1 * y1 \/ Y = - (t0 * t1 * y1)) ->
  dsol a b (m11 * x1 + a * m21 * z1, Y, m21 * x1 + m11 * z1).
Proof.
  intros NS E T T0 B (E1 & N1) HY.
  assert (E2 : (m11 * x1 + a * m21 * z1) * (m11 * x1 + a * m21 * z1) - a * ((m21 * x1 + m11 * z1) * (m21 * x1 + m11 * z1)) = b * (Y * Y)).
  { rewrite norm_mul, E, E1, T. destruct HY as [->| ->]; ring. }
  split; [exact E2|]. unfold nonzero3.
  assert (t0 <> 0 /\ t1 <> 0) as [T00 T10].
  { split; intros H; apply T0; rewrite T, H; ring. }
  destruct (Z.eq_dec y1 0) as [Y0|Y0].
  - destruct (Z.eq_dec (m11 * x1 + a * m21 * z1) 0) as [H1|]; [|tauto].
    destruct (Z.eq_dec (m21 * x1 + m11 * z1) 0) as [H2|]; [|tauto]. exfalso.
    assert (D : b * t <> 0) by now apply mul_nz.
    assert (X0 : x1 = 0).
    { apply (Z.mul_reg_l _ _ (b * t)); [exact D|]. rewrite Z.mul_0_r, <- E.
      transitivity (m11 * (m11 * x1 + a * m21 * z1) - a * m21 * (m21 * x1 + m11 * z1)); [ring|]. rewrite H1, H2. ring. }
    assert (Z0 : z1 = 0).
    { apply (Z.mul_reg_l _ _ (b * t)); [exact D|]. rewrite Z.mul_0_r, <- E.
      transitivity (m11 * (m21 * x1 + m11 * z1) - m21 * (m11 * x1 + a * m21 * z1)); [ring|]. rewrite H1, H2. ring. }
    destruct N1 as [N|[N|N]]; contradiction.
  - right. left. assert (t0 * t1 * y1 <> 0) by (repeat apply mul_nz; assumption). lia.
Qed.
Lemma transfer a b t m11 m21 t0 t1 : nonsq a -> m11 * m11 - a * (m21 * m21) = b * t -> t = t0 * (t1 * t1) ->
  t <> 0 -> b <> 0 -> dsoluble a b -> dsoluble a t0.
Proof.
  intros NS E T T0 B ([[x y] z] & E1 & N1).
  assert (t0 <> 0 /\ t1 <> 0) as [T00 T10].
  { split; intros H; apply T0; rewrite T, H; ring. }
  exists (m11 * x + a * m21 * z, b * t1 * y, m21 * x + m11 * z).
  split.
  - rewrite norm_mul, E, E1, T. ring.
  - unfold nonzero3. destruct (Z.eq_dec y 0) as [Y0|Y0].
    + destruct (Z.eq_dec (m11 * x + a * m21 * z) 0) as [H1|]; [|tauto].
      destruct (Z.eq_dec (m21 * x + m11 * z) 0) as [H2|]; [|tauto]. exfalso.
      assert (D : b * t <> 0) by now apply mul_nz.
      assert (X0 : x = 0).
      { apply (Z.mul_reg_l _ _ (b * t)); [exact D|]. rewrite Z.mul_0_r, <- E.
        transitivity (m11 * (m11 * x + a * m21 * z) - a * m21 * (m21 * x + m11 * z)); [ring|]. rewrite H1, H2. ring. }
      assert (Z0 : z = 0).
      { apply (Z.mul_reg_l _ _ (b * t)); [exact D|]. rewrite Z.mul_0_r, <- E.
        transitivity (m11 * (m21 * x + m11 * z) - m21 * (m11 * x + a * m21 * z)); [ring|]. rewrite H1, H2. ring. }
      destruct N1 as [N|[N|N]]; contradiction.
    + right. left. repeat apply mul_nz; assumption.
Qed.

Lemma cancel1_csol a b x y z : dsol a b (x, y, z) -> exists s, cancel1 (x, y, z) = Ok s /\ csol a b s.
Proof.
  intros S. destruct (cancel1_ok x y z (proj2 S)) as ([[x' y'] z'] & g & EC & G & ES & P).
  exists (x', y', z'). split; [exact EC|]. split; [|exact P]. cbn [scal3] in ES.
  assert (Sx : x = g * x') by exact (f_equal (fun t : tri => fst (fst t)) ES).
  assert (Sy : y = g * y') by exact (f_equal (fun t : tri => snd (fst t)) ES).
  assert (Sz : z = g * z') by exact (f_equal snd ES).
  rewrite Sx, Sy, Sz in S. destruct S as (E & N). split.
  - apply (Z.mul_reg_l _ _ (g * g)); [apply mul_nz; lia|]. transitivity (g * x' * (g * x') - a * (g * z' * (g * z'))); [ring|]. rewrite E. ring.
  - destruct N as [H|[H|H]]; [left|right;left|right;right]; intros ->; apply H; ring.
Qed.

Lemma prim_ex a b c : soluble a b c -> exists x y z, leg_sol a b c (x, y, z) /\ prim3 (x, y, z).
Proof.
  intros ([[x y] z] & S). destruct (cancel1_sol a b c x y z S) as ([[x' y'] z'] & _ & S' & P). eauto.
Qed.
Lemma dsol_root a b : square_free b -> dsoluble a b -> exists n, sqroot n a (Z.abs b).
Proof.
  intros SB ([[x y] z] & S).
  destruct (prim_ex (- b) 1 (- a)) as (y' & x' & z' & S' & P).
  { exists (y, x, z). now apply dsol_leg. }
  destruct (sol_cert (- b) 1 (- a) y' x' z') as (n & Hn); auto.
  - pose proof (sqf_nz b SB). lia.
  - now apply sqf_opp.
  - apply cop_1_r.
  - exists n. rewrite Z.abs_opp in Hn. replace (- (1) * - a) with a in Hn by ring. exact Hn.
Qed.

Lemma sqfdecomp_f_ok t : t <> 0 -> exists t0 t1 l, sqfdecomp_f pdivs t = Ok (t0, t1, l) /\
  t = t0 * (t1 * t1) /\ 0 < t1 /\ square_free t0 /\ plist_of t0 l.
Proof.
  intros T. destruct (PD t T) as (ND & HP). unfold sqfdecomp_f.
  destruct (sqfdecomp_ok t (pdivs t) T) as (t0 & t1 & l & E & H1 & H2 & H3 & H4).
  { split; [exact ND|]. split; [apply Forall_forall; intros p I; now apply HP|]. intros p Hp D. now apply HP. }
  exists t0, t1, l. split; [exact E|]. repeat (split; [assumption|]). split; [|exact H4].
  unfold sqfdecomp in E. eapply sqfdecomp_loop_nodup; [|exact E]. exact ND.
Qed.
Lemma abs_le_sq t t0 t1 : t <> 0 -> t = t0 * (t1 * t1) -> Z.abs t0 <= Z.abs t.
Proof.
  intros T E. rewrite E, Z.abs_mul. assert (t1 <> 0) by (intros ->; apply T; rewrite E; ring).
  apply Z.le_mul_diag_r; [|]. { assert (t0 <> 0) by (intros ->; apply T; rewrite E; ring). lia. }
  rewrite Z.abs_mul. assert (0 < Z.abs t1 * Z.abs t1) by (apply Z.mul_pos_pos; lia). lia.
Qed.

Definition dres (a b : Z) (r : option tri) : Prop :=
  match r with Some s => csol a b s | None => ~ dsoluble a b end.
Definition dmeas (a b : Z) : Z := 2 * (Z.abs a + Z.abs b) + (if Z.abs b <? Z.abs a then 1 else 0).

Lemma nontriv_ok method rec a al b bl : 0 <= method <= 3 -> square_free a -> square_free b -> a <> 1 -> Z.abs a < Z.abs b ->
  plist_of a al -> plist_of b bl ->
  (forall t tl, square_free t -> plist_of t tl -> Z.abs t < Z.abs b -> exists r, rec a al t tl = Ok r /\ dres a t r) ->
  exists r, solve_conic_diag_nontriv xgcd srm pdivs method rec a al b bl = Ok r /\ dres a b r.
Proof.
  intros M SA SB A1 AB PA PB REC. unfold solve_conic_diag_nontriv.
  pose proof (sqf_nz a SA) as A0. pose proof (sqf_nz b SB) as B0. pose proof (sqf_nonsq a SA A1) as NS.
  pose proof (plist_primes b bl PB) as PR. pose proof (prodl_sqf b bl SB PB) as EP.
  destruct (modsqrt_ok xgcd X srm SR a bl (proj1 PB) PR) as (r & ER & HR). rewrite ER, bind_Ok.
  destruct r as [x0|].
  2: { eexists. split; [reflexivity|]. intros S. destruct (dsol_root a b SB S) as (n & Hn). apply (HR n). now rewrite EP. }
  apply modsqrt_bd in ER; [|exact PR]. rewrite EP in ER, HR.
  destruct (Z.ltb_spec method 3) as [M3|M3].
  - destruct (diag_matrix_ok method a b x0) as ([[[t m11] m21] m33] & -> & EN & E33 & T0 & TB); auto; [lia|].
    rewrite bind_Ok. cbv beta iota.
    destruct (Z.eqb_spec t 1) as [T1|T1].
    { eexists. split; [reflexivity|]. split; [split|].
      - rewrite EN, T1. ring.
      - right. left. discriminate.
      - intros d _ D _. exact D. }
    destruct (sqfdecomp_f_ok t T0) as (t0 & t1 & tl & -> & ET & P1 & ST & PT). rewrite bind_Ok. cbv beta iota.
    destruct (Z.eqb_spec t0 1) as [T01|T01].
    { destruct (cancel1_csol a b m11 t1 m21) as (s & -> & CS).
      - split; [rewrite EN, ET, T01; ring|]. right. left. lia.
      - rewrite bind_Ok. destruct (conic_diag_reduce_ok a b s SA SB CS) as (s' & -> & CS'). rewrite bind_Ok.
        eexists. split; [reflexivity|]. exact CS'. }
    assert (exists w, m33 = t1 * w /\ (w = t0 * t1 \/ w = - (t0 * t1))) as (w & E33' & HW).
    { destruct E33 as [->| ->]; [exists (t0 * t1)|exists (- (t0 * t1))]; (split; [rewrite ET; ring|tauto]). }
    rewrite (zdiv_ex m33 t1 w) by (auto; lia). rewrite bind_Ok.
    destruct (REC t0 tl ST PT) as (r & -> & HREC). { pose proof (abs_le_sq t t0 t1 T0 ET). lia. }
    rewrite bind_Ok. destruct r as [[[x1 y1] z1]|].
    + destruct HREC as (DS & _).
      destruct (cancel1_csol a b (m11 * x1 + a * m21 * z1) (w * y1) (m21 * x1 + m11 * z1)) as (s & -> & CS).
      { apply (combine_sol a b t m11 m21 x1 y1 z1 (w * y1) t0 t1); auto. destruct HW as [->| ->]; [left|right]; ring. }
      rewrite bind_Ok. destruct (conic_diag_reduce_ok a b s SA SB CS) as (s' & -> & CS'). rewrite bind_Ok.
      eexists. split; [reflexivity|]. exact CS'.
    + eexists. split; [reflexivity|]. intros DS. apply HREC. now apply (transfer a b t m11 m21 t0 t1).
  - destruct (first_t a b x0 AB ER NS HR) as (c & EC & C0 & CB).
    rewrite (zdiv_ex _ b c B0 EC), bind_Ok.
    destruct (mod_z_ok (- x0) c C0) as (vv & -> & [k Hk] & _). rewrite bind_Ok.
    assert (Evv : vv = - x0 - k * c) by lia.
    assert (EN : vv * vv - a * 1 * 1 = c * (b + 2 * x0 * k + k * k * c)).
    { rewrite Evv. transitivity ((x0 * x0 - a) + c * (2 * x0 * k + k * k * c)); [ring|]. rewrite EC. ring. }
    rewrite (zdiv_ex _ c _ C0 EN), bind_Ok.
    destruct (meth3_ok a b (1, x0, 1, vv, c, b + 2 * x0 * k + k * k * c)) as (u & v & c' & EW & E' & C0' & CB').
    { split; [exact C0|]. split; [exact CB|]. split; [lia|]. split; [exists 0; lia|]. split; [exists (- k); lia|].
      rewrite <- EN. ring. }
    cbn [fst snd] in EW. rewrite EW, bind_Ok. cbv beta iota.
    destruct (sqfdecomp_f_ok c' C0') as (t0 & t1 & tl & -> & ET & P1 & ST & PT). rewrite bind_Ok. cbv beta iota.
    destruct (REC t0 tl ST PT) as (r & -> & HREC). { pose proof (abs_le_sq c' t0 t1 C0' ET). lia. }
    rewrite bind_Ok. destruct r as [[[x1 y1] z1]|].
    + destruct HREC as (DS & _).
      destruct (cancel1_csol a b (v * x1 + a * u * z1) (t0 * t1 * y1) (u * x1 + v * z1)) as (s & -> & CS).
      { apply (combine_sol a b c' v u x1 y1 z1 _ t0 t1); auto. }
      rewrite bind_Ok. eexists. split; [reflexivity|]. exact CS.
    + eexists. split; [reflexivity|]. intros DS. apply HREC. now apply (transfer a b c' v u t0 t1).
Qed.

Lemma dsol_swap a b x y z : dsol a b (x, y, z) <-> dsol b a (x, z, y).
Proof. unfold dsol, nonzero3. split; intros (E & N); (split; [lia|tauto]). Qed.
Lemma plist_unit l : plist_of 1 l -> plist_of (-1) l.
Proof. intros (ND & H). split; [exact ND|]. intros p. rewrite H. now rewrite (Z.divide_opp_r p 1 : (p | -1) <-> (p | 1)). Qed.

Theorem solve_conic_diag_ok method : 0 <= method <= 3 -> forall f a al b bl, square_free a -> square_free b ->
  plist_of a al -> plist_of b bl -> dmeas a b < Z.of_nat f ->
  exists r, solve_conic_diag xgcd srm pdivs method f a al b bl = Ok r /\ dres a b r.
Proof.
  intros M. induction f as [|f IH]; intros a al b bl SA SB PA PB MF.
  { exfalso. unfold dmeas in MF. destruct (Z.abs b <? Z.abs a); lia. }
  cbn [solve_conic_diag]. pose proof (sqf_nz a SA) as A0. pose proof (sqf_nz b SB) as B0.
  destruct (Z.eqb_spec b 1) as [B1|B1].
  { eexists. split; [reflexivity|]. subst b. split; [split; [ring|left; discriminate]|]. intros d D _ _. exact D. }
  destruct (Z.eqb_spec a 1) as [A1|A1].
  { eexists. split; [reflexivity|]. subst a. split; [split; [ring|left; discriminate]|]. intros d D _ _. exact D. }
  unfold dmeas in MF.
  destruct (Z.ltb_spec (Z.abs b) (Z.abs a)) as [L|L].
  { destruct (IH b bl a al SB SA PB PA) as (r & -> & HR).
    { unfold dmeas. destruct (Z.ltb_spec (Z.abs a) (Z.abs b)); lia. }
    rewrite bind_Ok. destruct r as [[[x z] y]|].
    - eexists. split; [reflexivity|]. destruct HR as (DS & P). split; [now apply dsol_swap|]. intros d D1 D2 D3. now apply P.
    - eexists. split; [reflexivity|]. intros ([[x y] z] & DS). apply HR. exists (x, z, y). now apply dsol_swap. }
  destruct (Z.eqb_spec (- b) 1) as [BM|BM].
  { eexists. split; [reflexivity|]. intros ([[x y] z] & E & N).
    assert (a = -1) by lia. assert (b = -1) by lia. subst a b.
    pose proof (Z.square_nonneg x). pose proof (Z.square_nonneg y). pose proof (Z.square_nonneg z).
    assert (x * x = 0 /\ y * y = 0 /\ z * z = 0) as (Q1 & Q2 & Q3) by lia.
    apply Z.mul_eq_0 in Q1, Q2, Q3. unfold nonzero3 in N. tauto. }
  destruct (Z.eqb_spec b (- a)) as [BA|BA].
  { eexists. split; [reflexivity|]. subst b. split; [split; [ring|right; left; discriminate]|]. intros d _ D _. exact D. }
  destruct (Z.eqb_spec b a) as [BE|BE].
  { subst b. assert (S1 : square_free (-1)).
    { intros p Hp D. apply (prime_ge_2 p) in Hp as P2. apply (proj1 (Z.divide_opp_r (p * p) 1)) in D. apply Z.divide_1_r in D.
      assert (p * p >= 4) by nia. lia. }
    destruct (IH (-1) (pdivs 1) a al S1 SA) as (r & -> & HR).
    - apply plist_unit, PD. lia.
    - exact PA.
    - unfold dmeas. destruct (Z.ltb_spec (Z.abs a) (Z.abs (-1))); lia.
    - rewrite bind_Ok. destruct r as [[[y x] z]|].
      + eexists. split; [reflexivity|]. destruct HR as ((E & N) & P).
        split; [split|].
        * transitivity (a * (a * (x * x) - z * z)); [ring|]. rewrite <- E. ring.
        * destruct N as [N|[N|N]]; [now right; left|left; now apply mul_nz|now right; right].
        * intros d D1 D2 D3.
          assert (CD : cop d x).
          { apply cop_intro. intros e _ E1 E2. apply P; [exact (Z.divide_trans _ _ _ E1 D2)|exact E2|exact (Z.divide_trans _ _ _ E1 D3)]. }
          assert (DD : (d * d | a)).
          { apply (cop_sq_div d (x * x)).
            - now apply cop_mul.
            - destruct D2 as [y' ->], D3 as [z' ->]. exists (y' * y' + z' * z'). clear - E. lia. }
          destruct (sqf_unit a d SA DD) as [U|U]; rewrite U; [apply Z.divide_refl|exists (-1); reflexivity].
      + eexists. split; [reflexivity|]. intros ([[x y] z] & E & N). apply HR.
        assert (DX : (a | x)).
        { apply (reg_sqf_div a x SA). exists (z * z + y * y). lia. }
        destruct DX as [x' Hx]. exists (y, x', z). split.
        * apply (Z.mul_reg_l _ _ a A0). transitivity (a * (y * y) + a * (z * z)); [ring|]. 
          replace (a * (y * y)) with (x * x - a * (z * z)) by exact E. rewrite Hx. ring.
        * destruct N as [N|[N|N]]; [right; left; intros H; apply N; rewrite Hx, H; ring|now left|now right; right]. }
  apply nontriv_ok; auto; [lia|]. intros t tl ST PT LT. apply IH; auto.
  unfold dmeas. destruct (Z.ltb_spec (Z.abs t) (Z.abs a)); lia.
Qed.
End Conic.
