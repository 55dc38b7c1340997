(** Rational points of finite order at least 3 have integral coordinates. *)
From Coq Require Import ZArith Znumtheory Lia List Bool QArith Qcanon Arith.
From Verif Require Import Base JacobiMath CurveModel CurveProofs PointsModel DivPolModel DivPolProofs GroupLaw QcGroup PointsProofs PointsGroup PointsMore DivPolQ.
Import ListNotations.
Open Scope Z_scope.

(** ** fractions *)
Lemma qc_frac (x : Qc) : exists u v, 0 < v /\ Z.gcd u v = 1 /\ x = (zq u / zq v)%Qc.
Proof.
  destruct x as [q C]. exists (Qnum q), (Zpos (Qden q)). split; [lia|]. split; [now apply Qred_iff in C|].
  apply Qc_is_canon. Transparent zq. unfold Qcdiv, Qcmult, Qcinv, zq, Q2Qc, this. Opaque zq. rewrite !Qred_correct.
  destruct q as [n d]. unfold Qeq, Qmult, Qinv, inject_Z. cbn. lia.
Qed.
Lemma frac_eq a b c d : b <> 0 -> d <> 0 -> ((zq a / zq b)%Qc = (zq c / zq d)%Qc <-> a * d = c * b).
Proof.
  intros Hb Hd. rewrite qc_div_eq by now apply zq_ne. rewrite <- !zq_mul. split; [apply zq_inj|now intros ->].
Qed.
Lemma frac_one a : (zq a / zq 1)%Qc = zq a.
Proof. rewrite zq_1. field. discriminate. Qed.
Lemma frac_mul a b x : b <> 0 -> (zq a / zq b)%Qc = x -> zq a = (x * zq b)%Qc.
Proof. intros Hb <-. field. now apply zq_ne. Qed.

(** ** an integer polynomial at a fraction *)
Lemma peval_zero p x : (forall j, co p j = 0) -> peval p x = 0%Qc.
Proof.
  induction p as [|a p IH]; intros H; [reflexivity|]. cbn [peval]. rewrite (H O : a = 0), IH; [rewrite zq_0; ring|]. intros j. exact (H (S j)).
Qed.
Lemma zq_pow a n : zq (a ^ Z.of_nat (S n)) = (zq a * zq (a ^ Z.of_nat n))%Qc.
Proof. rewrite Nat2Z.inj_succ, Z.pow_succ_r by lia. apply zq_mul. Qed.
Lemma ld_hom D : forall p c u v, v <> 0 -> ld p D c ->
  exists h, (zq (v ^ Z.of_nat D) * peval p (zq u / zq v))%Qc = zq (c * u ^ Z.of_nat D + v * h) /\ (D = 0%nat -> h = 0).
Proof.
  induction D as [|D IH]; intros p c u v Hv [L1 L2].
  - destruct p as [|a p].
    + rewrite co_nil in L1. subst c. exists 0. cbn [peval]. split; [|auto]. cbn. rewrite Z.mul_0_r. rewrite zq_0. ring.
    + exists 0. split; [|auto]. cbn [peval]. rewrite peval_zero; [|intros j; apply (L2 (S j)); lia]. change (Z.of_nat 0) with 0. rewrite !Z.pow_0_r. cbn in L1. subst a.
      replace (c * 1 + v * 0) with c by ring. rewrite zq_1. ring.
  - destruct p as [|a p]; [exists 0; rewrite co_nil in L1; subst c; cbn [peval]; split; [|lia]; rewrite Z.mul_0_r, Z.mul_0_l; cbn; rewrite zq_0; ring|].
    destruct (IH p c u v Hv) as (h & Hh & _). { split; [exact L1|]. intros j Hj. apply (L2 (S j)). lia. }
    exists (a * v ^ Z.of_nat D + u * h). split; [|lia]. cbn [peval]. rewrite zq_pow.
    transitivity (zq a * (zq v * zq (v ^ Z.of_nat D)) + zq u * (zq (v ^ Z.of_nat D) * peval p (zq u / zq v)))%Qc; [field; now apply zq_ne|].
    rewrite Hh, <- !zq_mul, <- zq_add. f_equal. rewrite Nat2Z.inj_succ, Z.pow_succ_r by lia. ring.
Qed.
Lemma gcd_pow u v n : Z.gcd u v = 1 -> Z.gcd v (u ^ Z.of_nat n) = 1.
Proof.
  intros G. induction n as [|n IH]; [change (Z.of_nat 0) with 0; rewrite Z.pow_0_r; apply Z.gcd_1_r|].
  rewrite Nat2Z.inj_succ, Z.pow_succ_r by lia. apply Zgcd_1_rel_prime, rel_prime_mult; apply Zgcd_1_rel_prime; [now rewrite Z.gcd_comm|exact IH].
Qed.
(** the denominator of a root divides the leading coefficient *)
Lemma root_den p D c u v : 0 < v -> Z.gcd u v = 1 -> ld p D c -> peval p (zq u / zq v)%Qc = 0%Qc -> (v | c).
Proof.
  intros Hv G L R. destruct (ld_hom D p c u v ltac:(lia) L) as (h & Hh & _). rewrite R in Hh.
  assert (Z0 : c * u ^ Z.of_nat D + v * h = 0). { apply zq_inj. rewrite <- Hh, zq_0. ring. }
  apply (Z.gauss v (u ^ Z.of_nat D)); [|now apply gcd_pow]. exists (- h). lia.
Qed.

(** ** leading coefficients of the numerator and the denominator of multiplication by n *)
Section OnE.
Variable E : curve.
Hypothesis HD : sdisc E <> 0.
Local Notation dp := (dp (a1 E) (a2 E) (a3 E) (a4 E) (a6 E)).
Local Notation num f n := (mul_by_n_num (a1 E) (a2 E) (a3 E) (a4 E) (a6 E) f n).
Local Notation den f n := (mul_by_n_den (a1 E) (a2 E) (a3 E) (a4 E) (a6 E) f n).
Local Notation on := (eon_pt E).

Lemma num_ld f n : 2 <= n -> (Z.to_nat n + 1 < f)%nat -> exists p, num f n = Ok p /\ ld p (Z.to_nat n * Z.to_nat n) 1.
Proof.
  intros Hn Hf. unfold mul_by_n_num. cbv zeta. rewrite (dpo_dp _ _ _ _ _ _ n), bind_Ok by lia. rewrite (dpo_dp _ _ _ _ _ _ (n + 1)), bind_Ok by lia.
  rewrite (dpo_dp _ _ _ _ _ _ (n - 1)), bind_Ok by lia. eexists. split; [reflexivity|].
  replace (Z.to_nat (n + 1)) with (Z.to_nat n + 1)%nat by lia. replace (Z.to_nat (n - 1)) with (Z.to_nat n - 1)%nat by lia.
  destruct (even_eq n ltac:(lia)) as [_ ->]. set (m := Z.to_nat n). assert (Hm : (2 <= m)%nat) by (unfold m; lia). clearbody m. clear Hf Hn n f.
  assert (LX : ld pX 1 1). { split; [reflexivity|]. intros [|[|j]] Hj; try lia. unfold co, pX. cbn. now destruct j. }
  destruct (dp_ld (a1 E) (a2 E) (a3 E) (a4 E) (a6 E) m ltac:(lia)) as [EV OD].
  destruct (dp_ld (a1 E) (a2 E) (a3 E) (a4 E) (a6 E) (m + 1) ltac:(lia)) as [EV1 OD1].
  destruct (dp_ld (a1 E) (a2 E) (a3 E) (a4 E) (a6 E) (m - 1) ltac:(lia)) as [EV0 OD0].
  destruct (Nat.Even_or_Odd m) as [[j Hj]|[j Hj]].
  - replace (Nat.even m) with true by (symmetry; apply Nat.even_spec; now exists j).
    specialize (EV j Hj). specialize (OD1 j ltac:(lia)). specialize (OD0 (j - 1)%nat ltac:(lia)).
    eapply ld_eq; [eapply (ld_sub _ _ (m * m)%nat)| |].
    + eapply ld_eq; [eapply ld_mul; [eapply ld_mul; [eapply ld_mul; [exact LX|exact EV]|exact EV]|apply ld_P2]| |reflexivity].
      clear - Hj Hm. nia.
    + eapply ld_eq; [eapply ld_mul; [exact OD0|exact OD1]| |reflexivity]. clear - Hj Hm. nia.
    + reflexivity.
    + clear - Hj Hm. replace (2 * (j - 1) + 1)%nat with (2 * j - 1)%nat by lia. rewrite Nat2Z.inj_sub by lia. nia.
  - replace (Nat.even m) with false by (symmetry; subst m; rewrite Nat.even_add, Nat.even_mul; reflexivity).
    specialize (OD j Hj). specialize (EV1 (j + 1)%nat ltac:(lia)). specialize (EV0 j ltac:(lia)).
    eapply ld_eq; [eapply (ld_sub _ _ (m * m)%nat)| |].
    + eapply ld_eq; [eapply ld_mul; [eapply ld_mul; [exact LX|exact OD]|exact OD]| |reflexivity]. clear - Hj Hm. nia.
    + eapply ld_eq; [eapply ld_mul; [apply ld_P2|eapply ld_mul; [exact EV0|exact EV1]]| |reflexivity]. clear - Hj Hm. nia.
    + reflexivity.
    + clear - Hj Hm. nia.
Qed.
Lemma den_ld f n : 2 <= n -> (Z.to_nat n < f)%nat -> exists p c, den f n = Ok p /\ ld p (Z.to_nat n * Z.to_nat n - 1) c.
Proof.
  intros Hn Hf. unfold mul_by_n_den. rewrite dpo_dp, bind_Ok by lia.
  destruct (even_eq n ltac:(lia)) as [-> _]. set (m := Z.to_nat n). assert (Hm : (2 <= m)%nat) by (unfold m; lia). clearbody m. clear Hf Hn n f.
  destruct (dp_ld (a1 E) (a2 E) (a3 E) (a4 E) (a6 E) m ltac:(lia)) as [EV OD].
  destruct (Nat.Even_or_Odd m) as [[j Hj]|[j Hj]].
  - replace (Nat.even m) with true by (symmetry; apply Nat.even_spec; now exists j). specialize (EV j Hj). cbn [negb].
    eexists. eexists. split; [reflexivity|]. eapply ld_eq; [eapply ld_mul; [eapply ld_mul; [exact EV|exact EV]|apply ld_P2]| |reflexivity]. clear - Hj Hm. nia.
  - replace (Nat.even m) with false by (symmetry; subst m; rewrite Nat.even_add, Nat.even_mul; reflexivity). specialize (OD j Hj). cbn [negb].
    eexists. eexists. split; [reflexivity|]. eapply ld_eq; [eapply ld_mul; [exact OD|exact OD]| |reflexivity]. clear - Hj Hm. nia.
Qed.

(** ** points as triples of integers *)
Lemma lift_pt x y : on (Aff x y) -> exists P, proj_on E P /\ reduced P /\ aff P = Aff x y /\ ord P = 0.
Proof.
  intros H. destruct (qc_frac x) as (u & v & Hv & _ & Ex). destruct (qc_frac y) as (s & t & Ht & _ & Ey).
  assert (Nv : zq v <> 0%Qc) by (apply zq_ne; lia). assert (Nt : zq t <> 0%Qc) by (apply zq_ne; lia).
  exists (mkpoint (u * t) (s * v) (v * t)).
  assert (EX : (zq (u * t) / zq (v * t))%Qc = x) by (rewrite Ex, !zq_mul; field; auto).
  assert (EY : (zq (s * v) / zq (v * t))%Qc = y) by (rewrite Ey, !zq_mul; field; auto).
  assert (W : v * t <> 0) by nia. destruct (mkpoint_ok (u * t) (s * v) (v * t)) as (S1 & S2 & S3); [lia|].
  split; [apply mk_valid; [auto|]; now rewrite EX, EY|]. split; [exact S2|]. split; [|exact S3]. rewrite mkpoint_aff, EX, EY by auto. reflexivity.
Qed.
(** x = u/k^2 and y = m/k^3 *)
Lemma shape x y u v : on (Aff x y) -> 0 < v -> Z.gcd u v = 1 -> x = (zq u / zq v)%Qc ->
  exists k m, 0 < k /\ v = k * k /\ y = (zq m / zq (k * k * k))%Qc.
Proof.
  intros H Hv G Ex. destruct (lift_pt x y H) as (P & V & R & A & _).
  assert (NZ : pZ P <> 0). { intros Z0. apply aff_inf in Z0. congruence. }
  unfold aff in A. destruct (Z.eqb_spec (pZ P) 0) as [|_]; [contradiction|]. injection A as AX AY.
  rewrite Ex in AX. apply frac_eq in AX; [|auto|lia].
  destruct (point_shape E P u v V NZ Hv G AX) as (k & m & K & Ev & Y & _).
  exists k, m. split; [auto|]. split; [auto|]. rewrite <- AY. apply frac_eq; [auto| |exact Y].
  assert (0 < k * k) by (clear - K; nia). clear - K H0. nia.
Qed.

Lemma emul_mul P a b : on P -> emul E (a * b) P = emul E a (emul E b P).
Proof.
  intros H. induction a as [|a IH]; [reflexivity|]. cbn [Nat.mul emul]. rewrite emul_add, IH by auto. reflexivity.
Qed.

(** ** a prime in the denominator of x(P) is in that of x(nP) *)
Lemma den_mul p x y u v n x' y' u' v' : prime p -> on (Aff x y) -> x = (zq u / zq v)%Qc -> 0 < v -> Z.gcd u v = 1 -> (p | v) ->
  (1 <= n)%nat -> emul E n (Aff x y) = Aff x' y' -> x' = (zq u' / zq v')%Qc -> 0 < v' -> (p | v').
Proof.
  intros Hp H Ex Hv G Pv Hn M Ex' Hv'. destruct (Nat.eq_dec n 1) as [->|N1].
  - cbn [emul] in M. rewrite eadd_inf_r in M. injection M as <- _. rewrite Ex in Ex'. apply frac_eq in Ex'; [|lia|lia].
    destruct (prime_mult p Hp u v') as [D|D]; [|exfalso|exact D].
    + rewrite Ex'. now apply Z.divide_mul_r.
    + assert (D1 : (p | Z.gcd u v)) by now apply Z.gcd_greatest. rewrite G in D1. apply Z.divide_1_r_nonneg in D1; [|destruct Hp; lia]. destruct Hp. lia.
  - destruct (num_den E HD x y H (n + 2) (Z.of_nat n) ltac:(lia) ltac:(lia)) as (a & b & Ea & Eb & _ & S & _). rewrite Nat2Z.id in S.
    specialize (S _ _ M).
    destruct (num_ld (n + 2) (Z.of_nat n) ltac:(lia) ltac:(lia)) as (a' & Ea' & La). rewrite Ea in Ea'. injection Ea' as <-.
    destruct (den_ld (n + 2) (Z.of_nat n) ltac:(lia) ltac:(lia)) as (b' & c & Eb' & Lb). rewrite Eb in Eb'. injection Eb' as <-.
    rewrite Nat2Z.id in La, Lb.
    destruct (ld_hom _ _ _ u v ltac:(lia) La) as (h & Hh & _). destruct (ld_hom _ _ _ u v ltac:(lia) Lb) as (g & Hg & _).
    rewrite <- Ex in Hh, Hg. rewrite S in Hh.
    set (N := (n * n - 1)%nat) in *. replace (n * n)%nat with (Datatypes.S N) in * by (unfold N; nia).
    set (G' := c * u ^ Z.of_nat N + v * g) in *.
    assert (Q : (1 * u ^ Z.of_nat (Datatypes.S N) + v * h) * v' = u' * v * G').
    { apply zq_inj. rewrite zq_mul, <- Hh, !zq_mul, <- Hg, zq_pow, Ex'. field. apply zq_ne. lia. }
    destruct (prime_mult p Hp (1 * u ^ Z.of_nat (Datatypes.S N) + v * h) v') as [D|D]; [|exfalso|exact D].
    { rewrite Q. apply Z.divide_mul_l. now apply Z.divide_mul_r. }
    assert (D2 : (p | u ^ Z.of_nat (Datatypes.S N))).
    { rewrite Z.mul_1_l in D. apply (Z.divide_add_cancel_r p (v * h)); [now apply Z.divide_mul_l|]. now rewrite Z.add_comm. }
    assert (D1 : (p | Z.gcd v (u ^ Z.of_nat (Datatypes.S N)))) by now apply Z.gcd_greatest.
    rewrite gcd_pow in D1 by auto. apply Z.divide_1_r_nonneg in D1; [|destruct Hp; lia]. destruct Hp. lia.
Qed.

(** ** torsion points are integral *)
Lemma good_factor m : 3 <= m -> exists r k, m = r * k /\ 0 < k /\ (r = 4 \/ prime r /\ Z.odd r = true).
Proof.
  intros Hm. destruct (Zdivide_dec 4 m) as [[k Hk]|N4]; [exists 4, k; lia|].
  assert (exists m', Z.odd m' = true /\ 1 < m' /\ (m' | m)) as (m' & O & L & D).
  { destruct (Z.odd m) eqn:O; [exists m; repeat split; auto; [lia|apply Z.divide_refl]|].
    assert (EV : Z.even m = true) by (rewrite <- Z.negb_odd, O; reflexivity). apply Z.even_spec in EV as [j Hj].
    exists j. split; [|split; [lia|exists 2; lia]]. destruct (Z.odd j) eqn:Oj; [auto|].
    assert (EV : Z.even j = true) by (rewrite <- Z.negb_odd, Oj; reflexivity). apply Z.even_spec in EV as [i Hi]. exfalso. apply N4. exists i. lia. }
  destruct (prime_divisor_ex m' L) as (r & Hr & Dr).
  assert (Or : Z.odd r = true). { destruct Dr as [t ->]. rewrite Z.odd_mul in O. now apply andb_prop in O as [_ ->]. }
  destruct (Z.divide_trans _ _ _ Dr D) as [k Hk]. exists r, k. split; [lia|]. split; [|auto]. destruct Hr. nia.
Qed.
Definition has_order (m : nat) (P : pt Qc) := (1 <= m)%nat /\ emul E m P = Inf /\ forall j, (0 < j < m)%nat -> emul E j P <> Inf.
Theorem torsion_integral m x y : on (Aff x y) -> has_order m (Aff x y) -> (3 <= m)%nat -> exists u w, x = zq u /\ y = zq w.
Proof.
  intros H (_ & HO & HM) Hm. destruct (qc_frac x) as (u & v & Hv & G & Ex). destruct (shape x y u v H Hv G Ex) as (k & w & K & Ev & Ey).
  destruct (Z.eq_dec v 1) as [V1|NV].
  { assert (k = 1) by (clear - K V1 Ev; nia). subst k v. exists u, w. rewrite Ex, Ey, V1. split; apply frac_one. }
  exfalso. destruct (prime_divisor_ex v ltac:(lia)) as (p & Hp & Pv).
  destruct (good_factor (Z.of_nat m) ltac:(lia)) as (r & i & Em & Hi & Hr).
  assert (R2 : 3 <= r). { destruct Hr as [->|[Hr O]]; [lia|]. destruct Hr. assert (r <> 2) by (intros ->; discriminate O). lia. }
  assert (Em' : m = (Z.to_nat r * Z.to_nat i)%nat) by nia. assert (Hin : (1 <= Z.to_nat i)%nat) by lia.
  assert (Lt : (Z.to_nat i < m)%nat) by nia.
  destruct (emul E (Z.to_nat i) (Aff x y)) as [|x' y'] eqn:M; [apply (HM (Z.to_nat i)) in M; [auto|lia]|].
  pose proof (emul_on E (Z.to_nat i) _ H) as O'. rewrite M in O'.
  destruct (qc_frac x') as (u' & v' & Hv' & G' & Ex'). destruct (shape x' y' u' v' O' Hv' G' Ex') as (k' & w' & K' & Ev' & _).
  pose proof (den_mul p x y u v _ x' y' u' v' Hp H Ex Hv G Pv Hin M Ex' Hv') as Pv'.
  assert (Z0 : emul E (Z.to_nat r) (Aff x' y') = Inf) by (rewrite <- M, <- emul_mul, <- Em' by auto; exact HO).
  assert (Pk : (p | k')). { rewrite Ev' in Pv'. destruct (prime_mult p Hp k' k' Pv'); auto. }
  assert (P2 : (p * p | v')). { rewrite Ev'. now apply Z.mul_divide_mono_l with (p := p) in Pk as Q; destruct Pk as [t ->]; exists (t * t); ring. }
  assert (exists c D, ld (dp (Z.to_nat r)) D c /\ (c = 2 \/ prime c)) as (c & D & L & C).
  { destruct (dp_ld (a1 E) (a2 E) (a3 E) (a4 E) (a6 E) (Z.to_nat r) ltac:(lia)) as [EV OD]. destruct Hr as [->|[Hr Or]].
    - specialize (EV 2%nat eq_refl). eauto.
    - apply Z.odd_spec in Or as [j Hj]. specialize (OD (Z.to_nat j) ltac:(lia)). eexists. eexists. split; [exact OD|].
      right. replace (Z.of_nat (2 * Z.to_nat j + 1)) with r by lia. exact Hr. }
  assert (R0 : peval (dp (Z.to_nat r)) x' = 0%Qc).
  { rewrite <- dv_eq. apply (dv_zero E HD x' y' O'); [lia|]. split; [exact Z0|].
    destruct Hr as [->|[Hr Or]].
    - right. rewrite <- M, <- emul_mul by auto. apply HM. lia.
    - left. apply Z.odd_spec in Or as [j Hj]. replace (Z.to_nat r) with (2 * Z.to_nat j + 1)%nat by lia. rewrite Nat.even_add, Nat.even_mul. reflexivity. }
  rewrite Ex' in R0. pose proof (root_den _ _ _ _ _ Hv' G' L R0) as Dc.
  assert (Pc : (p * p | c)) by (eapply Z.divide_trans; eauto). assert (P1 : 1 < p) by (destruct Hp; auto).
  destruct C as [->|Pr].
  - apply Z.divide_pos_le in Pc; nia.
  - assert (C1 : 1 < c) by (destruct Pr; auto). destruct (prime_divisors c Pr p) as [Q|[Q|[Q|Q]]]; try lia.
    + eapply Z.divide_trans; [|exact Pc]. apply Z.divide_factor_l.
    + subst c. apply Z.divide_pos_le in Pc; nia.
Qed.
(** points of order 2: the denominators are 1 and 1, or 4 and 8 *)
Theorem two_torsion_den x y : on (Aff x y) -> emul E 2 (Aff x y) = Inf -> exists k u w, (k = 1 \/ k = 2) /\ x = (zq u / zq (k * k))%Qc /\ y = (zq w / zq (k * k * k))%Qc.
Proof.
  intros H HO. destruct (qc_frac x) as (u & v & Hv & G & Ex). destruct (shape x y u v H Hv G Ex) as (k & w & K & Ev & Ey).
  assert (R0 : peval (div_pol_2 (a1 E) (a2 E) (a3 E) (a4 E) (a6 E)) x = 0%Qc).
  { rewrite <- (t2_P2 E x y H). apply (two_t E x y H) in HO. rewrite HO. ring. }
  rewrite Ex in R0. pose proof (root_den _ _ _ _ _ Hv G (ld_P2 (a1 E) (a2 E) (a3 E) (a4 E) (a6 E)) R0) as Dc.
  exists k, u, w. split; [|split; [rewrite <- Ev; exact Ex|exact Ey]]. apply Z.divide_pos_le in Dc; [|lia]. assert (k < 3) by (clear - Dc Ev K; nia). lia.
Qed.
End OnE.
