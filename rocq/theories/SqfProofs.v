(** Proofs about SqfModel. *)
From Coq Require Import ZArith Znumtheory Lia List Bool.
From Verif Require Import Base RatModel LinModel LinProofs MArithModel MArithProofs BitModel BitSpec BitProofs SqfModel SqfSpec.
Import ListNotations.
Open Scope Z_scope.
Open Scope res_scope.

(** ** exact powers of a prime *)
Definition ev (p e n : Z) : Prop := 0 <= e /\ (p ^ e | n) /\ ~ (p ^ (e + 1) | n).
Lemma prime_ge p : prime p -> 2 <= p.
Proof. intros H. apply prime_ge_2 in H. lia. Qed.
Lemma ev_form p e n : prime p -> n <> 0 -> (ev p e n <-> 0 <= e /\ exists m, n = p ^ e * m /\ ~ (p | m)).
Proof.
  intros Hp Hn. apply prime_ge in Hp. unfold ev. split.
  - intros (He & (m & ->) & H). split; auto. exists m. split; [ring|]. intros (k & ->). apply H. exists k. rewrite Z.pow_add_r by lia. ring.
  - intros (He & m & -> & H). split; auto. split; [exists m; ring|]. intros (k & Hk). apply H. exists k. rewrite Z.pow_add_r in Hk by lia. assert (p ^ e <> 0) by (apply Z.pow_nonzero; lia). apply (Z.mul_cancel_l _ _ (p ^ e)); [auto|]. rewrite Hk. ring.
Qed.
Lemma ev_val p n : prime p -> n <> 0 -> exists e, val_z p n = Ok e /\ ev p e n.
Proof. intros Hp Hn. pose proof (prime_ge p Hp). destruct (val_z_ok p n Hn ltac:(lia)) as (e & E & H1 & H2 & H3). exists e. split; auto. split; auto. Qed.
Lemma ev_unique p e f n : prime p -> n <> 0 -> ev p e n -> ev p f n -> e = f.
Proof.
  intros Hp Hn (E0 & E1 & E2) (F0 & F1 & F2). pose proof (prime_ge p Hp). destruct (Z.lt_trichotomy e f) as [L|[->|L]]; auto; exfalso.
  - apply E2. apply Z.divide_trans with (p ^ f); auto. exists (p ^ (f - (e + 1))). rewrite <- Z.pow_add_r by lia. f_equal. lia.
  - apply F2. apply Z.divide_trans with (p ^ e); auto. exists (p ^ (e - (f + 1))). rewrite <- Z.pow_add_r by lia. f_equal. lia.
Qed.
Lemma ev_mul p e f a b : prime p -> a <> 0 -> b <> 0 -> ev p e a -> ev p f b -> ev p (e + f) (a * b).
Proof.
  intros Hp Ha Hb Ea Eb. apply ev_form in Ea; auto. apply ev_form in Eb; auto. apply ev_form; auto; [lia|]. destruct Ea as (He & m & -> & Hm), Eb as (Hf & n & -> & Hn). split; [lia|]. exists (m * n). split; [rewrite Z.pow_add_r by lia; ring|].
  intros H. apply prime_mult in H; auto. tauto.
Qed.
Lemma ev_sq p s x e : prime p -> s <> 0 -> x <> 0 -> ~ (p * p | s) -> ev p e (s * x ^ 2) -> (Z.odd e = true <-> (p | s)).
Proof.
  intros Hp Hs Hx Hsq He. destruct (ev_val p x Hp Hx) as (k & _ & Hk). destruct (ev_val p s Hp Hs) as (j & _ & Hj).
  assert (E : e = j + (k + k)). { apply (ev_unique p e _ (s * x ^ 2)); auto; [apply Z.neq_mul_0; split; auto; apply Z.pow_nonzero; lia|]. apply ev_mul; auto; [apply Z.pow_nonzero; lia|]. replace (x ^ 2) with (x * x) by ring. apply ev_mul; auto. }
  subst e. replace (j + (k + k)) with (j + 2 * k) by lia. rewrite Z.odd_add_mul_2. assert (J : j = 0 \/ j = 1). { destruct Hj as (J0 & J1 & _). destruct (Z.lt_ge_cases j 2); [lia|]. exfalso. apply Hsq. apply Z.divide_trans with (p ^ j); auto. exists (p ^ (j - 2)). replace (p * p) with (p ^ 2) by ring. rewrite <- Z.pow_add_r by lia. f_equal. lia. }
  destruct Hj as (_ & J1 & J2). destruct J as [-> | ->]; cbn [Z.odd].
  - split; [discriminate|]. intros D. exfalso. apply J2. rewrite Z.pow_1_r. exact D.
  - split; auto. intros _. rewrite Z.pow_1_r in J1. exact J1.
Qed.
Lemma ev_class p a s e : prime p -> a <> 0 -> s <> 0 -> sqclass a s -> ~ (p * p | s) -> ev p e a -> (Z.odd e = true <-> (p | s)).
Proof.
  intros Hp Ha Hs (x & y & Hx & Hy & E) Hsq He. destruct (ev_val p x Hp Hx) as (k & _ & Hk). assert (Q : ev p (e + (k + k)) (s * y ^ 2)).
  { rewrite <- E. apply ev_mul; auto; [apply Z.pow_nonzero; lia|]. replace (x ^ 2) with (x * x) by ring. apply ev_mul; auto. }
  rewrite <- (ev_sq p s y (e + (k + k)) Hp Hs Hy Hsq Q). replace (e + (k + k)) with (e + 2 * k) by lia. rewrite Z.odd_add_mul_2. tauto.
Qed.
(** ** products chosen by a mask *)
Definition okx (s : Z) : Prop := s = -1 \/ prime s.
Fixpoint sprod (k : Z) (supp : list Z) (m : Z) : Z :=
  match supp with [] => 1 | s :: supp => (if Z.testbit m k then s else 1) * sprod (k + 1) supp m end.
Lemma okx_nz s : okx s -> s <> 0.
Proof. intros [->|H]; [lia|]. apply prime_ge in H. lia. Qed.
Lemma sprod_nz supp : Forall okx supp -> forall k m, sprod k supp m <> 0.
Proof. induction 1 as [|s supp H _ IH]; intros k m; cbn [sprod]; [lia|]. apply Z.neq_mul_0. split; auto. destruct (Z.testbit m k); [apply okx_nz, H|lia]. Qed.
Lemma prime_not_unit p : prime p -> ~ (p | 1) /\ ~ (p | -1).
Proof. intros H. apply prime_ge in H. split; intros D; [apply Z.divide_1_r in D; lia|]. apply (Z.divide_opp_r p (-1)) in D. apply Z.divide_1_r in D. lia. Qed.
Lemma sprod_nodiv p supp : prime p -> Forall okx supp -> ~ In p supp -> forall k m, ~ (p | sprod k supp m).
Proof.
  intros Hp. induction 1 as [|s supp H _ IH]; intros N k m D; cbn [sprod] in D; [apply (proj1 (prime_not_unit p Hp)), D|]. apply prime_mult in D; auto. destruct D as [D|D]; [|apply (IH (fun Q => N (or_intror Q)) (k + 1) m D)].
  destruct (Z.testbit m k); [|apply (proj1 (prime_not_unit p Hp)), D]. destruct H as [->|H]; [apply (proj2 (prime_not_unit p Hp)), D|]. apply prime_div_prime in D; auto. apply N. left. auto.
Qed.
Lemma sprod_ext supp : forall k m m', (forall i, 0 <= i < Z.of_nat (length supp) -> Z.testbit m (k + i) = Z.testbit m' (k + i)) -> sprod k supp m = sprod k supp m'.
Proof.
  induction supp as [|s supp IH]; intros k m m' H; cbn [sprod length] in *; auto. rewrite (IH (k + 1) m m'); [|intros i Hi; rewrite <- !Z.add_assoc; apply H; lia]. specialize (H 0 ltac:(lia)). rewrite !Z.add_0_r in H. rewrite H. reflexivity.
Qed.
Lemma sprod_div supp : Forall okx supp -> NoDup supp -> forall k m i, (i < length supp)%nat -> prime (nth i supp 0) -> ((nth i supp 0 | sprod k supp m) <-> Z.testbit m (k + Z.of_nat i) = true).
Proof.
  induction 1 as [|s supp H Hs IH]; intros N k m [|i] Hi Hp; cbn [length nth sprod] in *; try lia; inversion N as [|? ? N1 N2]; subst.
  - rewrite Z.add_0_r. destruct (Z.testbit m k); [split; auto; intros _; exists (sprod (k + 1) supp m); ring|]. rewrite Z.mul_1_l. split; [|discriminate]. intros D. exfalso. apply (sprod_nodiv s supp Hp Hs N1 _ _ D).
  - replace (k + Z.of_nat (S i)) with (k + 1 + Z.of_nat i) by lia. rewrite <- IH by (auto; lia). split; [|intros D; apply Z.divide_mul_r, D]. intros D. apply prime_mult in D; auto. destruct D as [D|D]; auto. exfalso.
    destruct (Z.testbit m k); [|apply (proj1 (prime_not_unit _ Hp) D)]. destruct H as [->|H]; [apply (proj2 (prime_not_unit _ Hp) D)|]. apply prime_div_prime in D; auto. apply N1. rewrite <- D. apply nth_In. lia.
Qed.
Lemma sprod_sqf supp p : Forall okx supp -> NoDup supp -> prime p -> forall k m, ~ (p * p | sprod k supp m).
Proof.
  intros F N Hp. revert N. induction F as [|s supp H Hs IH]; intros N k m D; cbn [sprod] in D.
  - apply (proj1 (prime_not_unit p Hp)). apply Z.divide_trans with (p * p); auto. exists p. ring.
  - inversion N as [|? ? N1 N2]; subst. set (X := sprod (k + 1) supp m) in *. assert (D1 : ~ (p * p | X)) by (apply IH; auto). destruct (Z.testbit m k); [|rewrite Z.mul_1_l in D; auto].
    destruct H as [->|H]; [apply D1; replace X with (- (-1 * X)) by ring; apply Z.divide_opp_r, D|]. destruct (Z.eq_dec s p) as [->|n].
    + apply (sprod_nodiv p supp Hp Hs N1 (k + 1) m). fold X. destruct D as (q & Hq). exists q. apply prime_ge in Hp. nia.
    + apply D1. apply Gauss with s; auto. apply rel_prime_sym, rel_prime_mult; apply prime_rel_prime; auto; intros Q; apply prime_div_prime in Q; auto.
Qed.
Lemma gcd_scale_prime p x y : prime p -> ~ (p | y) -> Z.gcd (p * x) y = Z.gcd x y.
Proof.
  intros Hp Hy. apply Z.gcd_unique; [apply Z.gcd_nonneg|apply Z.divide_mul_r, Z.gcd_divide_l|apply Z.gcd_divide_r|]. intros q Q1 Q2. apply Z.gcd_greatest; auto. apply Gauss with p; auto.
  apply rel_prime_sym, prime_rel_prime; auto. intros D. apply Hy. apply Z.divide_trans with q; auto.
Qed.
Lemma sprod_lxor supp : Forall okx supp -> NoDup supp -> forall k a b, exists u v, sprod k supp a = u * Z.gcd (sprod k supp a) (sprod k supp b) /\ sprod k supp b = v * Z.gcd (sprod k supp a) (sprod k supp b) /\ u * v = sprod k supp (Z.lxor a b).
Proof.
  induction 1 as [|s supp H Hs IH]; intros N k a b; cbn [sprod]; [exists 1, 1; auto|]. inversion N as [|? ? N1 N2]; subst. destruct (IH N2 (k + 1) a b) as (u & v & E1 & E2 & E3). rewrite Z.lxor_spec.
  assert (ND : forall m, prime s -> ~ (s | sprod (k + 1) supp m)) by (intros m Hp; apply sprod_nodiv; auto).
  set (x := sprod (k + 1) supp a) in *. set (y := sprod (k + 1) supp b) in *. set (z := sprod (k + 1) supp (Z.lxor a b)) in *.
  destruct (Z.testbit a k), (Z.testbit b k); cbn [xorb]; rewrite ?Z.mul_1_l.
  - destruct H as [->|Hp].
    + exists (- u), (- v). replace (Z.gcd (-1 * x) (-1 * y)) with (Z.gcd x y) by (replace (-1 * x) with (- x) by ring; replace (-1 * y) with (- y) by ring; rewrite Z.gcd_opp_l, Z.gcd_opp_r; reflexivity). split; [rewrite E1 at 1; ring|]. split; [rewrite E2 at 1; ring|]. rewrite <- E3. ring.
    + exists u, v. rewrite Z.gcd_mul_mono_l_nonneg by (apply prime_ge in Hp; lia). split; [rewrite E1 at 1; ring|]. split; [rewrite E2 at 1; ring|]. exact E3.
  - destruct H as [->|Hp].
    + exists (- u), v. replace (-1 * x) with (- x) by ring. rewrite Z.gcd_opp_l. split; [rewrite E1 at 1; ring|]. split; auto. rewrite <- E3. ring.
    + exists (s * u), v. rewrite gcd_scale_prime by (auto; apply ND, Hp). split; [rewrite E1 at 1; ring|]. split; auto. rewrite <- E3. ring.
  - destruct H as [->|Hp].
    + exists u, (- v). replace (-1 * y) with (- y) by ring. rewrite Z.gcd_opp_r. split; auto. split; [rewrite E2 at 1; ring|]. rewrite <- E3. ring.
    + exists u, (s * v). rewrite (Z.gcd_comm x (s * y)), gcd_scale_prime by (auto; apply ND, Hp). rewrite (Z.gcd_comm y x). split; auto. split; [rewrite E2 at 1; ring|]. rewrite <- E3. ring.
  - exists u, v. auto.
Qed.
Lemma sqfmul_ok supp a b : Forall okx supp -> NoDup supp -> sqfmul (sprod 0 supp a) (sprod 0 supp b) = Ok (sprod 0 supp (Z.lxor a b)).
Proof.
  intros F N. destruct (sprod_lxor supp F N 0 a b) as (u & v & E1 & E2 & E3). unfold sqfmul. set (g := Z.gcd (sprod 0 supp a) (sprod 0 supp b)) in *. assert (g <> 0) by (intros Q; apply Z.gcd_eq_0 in Q; apply (sprod_nz supp F 0 a), Q).
  unfold zz_div. destruct (Z.eqb_spec g 0); [contradiction|]. rewrite !bind_Ok. rewrite E1, E2, !Z.div_mul by auto. rewrite E3. reflexivity.
Qed.
Lemma sprod_1 supp : forall k m, (forall i, 0 <= i < Z.of_nat (length supp) -> Z.testbit m (k + i) = false) -> sprod k supp m = 1.
Proof.
  intros k m H. rewrite (sprod_ext supp k m 0); [|intros i Hi; rewrite H, Z.bits_0; auto]. clear. revert k. induction supp as [|s supp IH]; intros k; cbn [sprod]; auto. rewrite Z.bits_0, IH. reflexivity.
Qed.
Lemma sprod_pow2 supp : forall k i, 0 <= k -> (i < length supp)%nat -> sprod k supp (2 ^ (k + Z.of_nat i)) = nth i supp 0.
Proof.
  induction supp as [|s supp IH]; intros k [|i] Hk Hi; cbn [length sprod nth] in *; try lia; rewrite Z.pow2_bits_eqb by lia.
  - rewrite Z.add_0_r, Z.eqb_refl, sprod_1; [ring|]. intros j Hj. rewrite Z.pow2_bits_eqb by lia. apply Z.eqb_neq. lia.
  - destruct (Z.eqb_spec (k + Z.of_nat (S i)) k); [lia|]. replace (k + Z.of_nat (S i)) with (k + 1 + Z.of_nat i) by lia. rewrite IH by lia. ring.
Qed.
(** masks of n entries *)
Definition rng (n : nat) (m : Z) : Prop := 0 <= m < 2 ^ Z.of_nat n.
Lemma rng_high n m k : rng n m -> Z.of_nat n <= k -> Z.testbit m k = false.
Proof. intros (H0 & H1) Hk. destruct (Z.eq_dec m 0) as [->|]; [apply Z.bits_0|]. apply Z.bits_above_log2; [lia|]. assert (Z.log2 m < Z.of_nat n) by (apply Z.log2_lt_pow2; lia). lia. Qed.
Lemma rng_bits n m : (forall k, Z.of_nat n <= k -> Z.testbit m k = false) -> rng n m.
Proof.
  intros H. assert (E : m = m mod 2 ^ Z.of_nat n). { apply Z.bits_inj. intros k. destruct (Z.lt_ge_cases k 0); [rewrite !Z.testbit_neg_r by auto; auto|]. destruct (Z.lt_ge_cases k (Z.of_nat n)); [rewrite Z.mod_pow2_bits_low by lia; auto|rewrite Z.mod_pow2_bits_high by lia; apply H; lia]. }
  rewrite E. apply Z.mod_pos_bound, Z.pow_pos_nonneg; lia.
Qed.
Lemma rng_lxor n a b : rng n a -> rng n b -> rng n (Z.lxor a b).
Proof. intros Ha Hb. apply rng_bits. intros k Hk. rewrite Z.lxor_spec, !(rng_high n) by auto. reflexivity. Qed.
Lemma rng_eq n a b : rng n a -> rng n b -> eqbits (Z.of_nat n) a b -> a = b.
Proof. intros Ha Hb H. apply (eqbits_range (Z.of_nat n)); auto. lia. Qed.
(** ** minus one and a list of primes *)
Definition primes (ps : list Z) : Prop := Forall prime ps /\ NoDup ps.
Lemma primes_okx ps : primes ps -> Forall okx (-1 :: ps) /\ NoDup (-1 :: ps).
Proof.
  intros (F & N). split; [constructor; [left; auto|]; apply Forall_impl with (2 := F); right; auto|]. constructor; auto. intros H. rewrite Forall_forall in F. apply F, prime_ge in H. lia.
Qed.
Definition dec (ps : list Z) (m : Z) : Z := sprod 0 (-1 :: ps) m.
Lemma sprod_pos ps : Forall prime ps -> forall k m, 0 < sprod k ps m.
Proof. induction 1 as [|p ps H _ IH]; intros k m; cbn [sprod]; [lia|]. specialize (IH (k + 1) m). apply prime_ge in H. destruct (Z.testbit m k); nia. Qed.
Section Ps.
Variable ps : list Z.
Hypothesis Hps : primes ps.
Let F : Forall okx (-1 :: ps) := proj1 (primes_okx ps Hps).
Let N : NoDup (-1 :: ps) := proj2 (primes_okx ps Hps).
Definition dm : nat := Datatypes.S (length ps).
Lemma dec_nz m : dec ps m <> 0. Proof. apply sprod_nz, F. Qed.
Lemma dec_neg m : dec ps m < 0 <-> Z.testbit m 0 = true.
Proof. unfold dec. cbn [sprod]. pose proof (sprod_pos ps (proj1 Hps) (0 + 1) m). destruct (Z.testbit m 0); split; intros; try lia; try discriminate; auto. Qed.
Lemma nth_prime i : (i < length ps)%nat -> prime (nth i ps 0).
Proof. intros H. apply (proj1 (Forall_forall prime ps) (proj1 Hps)). apply nth_In, H. Qed.
Lemma dec_div m i : (i < length ps)%nat -> ((nth i ps 0 | dec ps m) <-> Z.testbit m (Z.of_nat i + 1) = true).
Proof. intros H. pose proof (sprod_div (-1 :: ps) F N 0 m (Datatypes.S i)) as Q. cbn [length nth] in Q. rewrite Q by (try lia; apply nth_prime, H). replace (0 + Z.of_nat (Datatypes.S i)) with (Z.of_nat i + 1) by lia. tauto. Qed.
Lemma dec_ext a b : eqbits (Z.of_nat dm) a b -> dec ps a = dec ps b.
Proof. intros H. apply sprod_ext. intros i Hi. apply H. unfold dm. cbn [length] in Hi. lia. Qed.
(** the class of a product determines its mask *)
Lemma dec_class a b : sqclass (dec ps a) (dec ps b) -> eqbits (Z.of_nat dm) a b.
Proof.
  intros (x & y & Hx & Hy & E) i Hi. unfold dm in Hi. assert (X2 : 0 < x ^ 2) by nia. assert (Y2 : 0 < y ^ 2) by nia.
  apply eq_true_iff_eq. destruct (Z.eq_dec i 0) as [->|n].
  - rewrite <- !dec_neg. pose proof (dec_nz a). pose proof (dec_nz b). split; intros; nia.
  - set (j := Z.to_nat (i - 1)). replace i with (Z.of_nat j + 1) by lia. rewrite <- !dec_div by lia. set (p := nth j ps 0). assert (Hp : prime p) by (apply nth_prime; lia).
    destruct (ev_val p (dec ps a * x ^ 2) Hp) as (e & _ & He); [pose proof (dec_nz a); nia|]. rewrite <- (ev_sq p (dec ps a) x e); auto; [|apply dec_nz|apply sprod_sqf; auto]. rewrite E in He. rewrite <- (ev_sq p (dec ps b) y e); auto; [tauto|apply dec_nz|apply sprod_sqf; auto].
Qed.
Lemma dec_inj a b : rng dm a -> rng dm b -> dec ps a = dec ps b -> a = b.
Proof. intros Ha Hb E. apply (rng_eq dm); auto. apply dec_class. rewrite E. exists 1, 1. repeat split; lia. Qed.
Lemma dec_0 : dec ps 0 = 1. Proof. apply sprod_1. intros; apply Z.bits_0. Qed.
Lemma dec_m1 : dec ps 1 = -1.
Proof. unfold dec. cbn [sprod]. rewrite sprod_1; [reflexivity|]. intros i Hi. change 1 with (2 ^ 0) at 1. rewrite Z.pow2_bits_eqb by lia. apply Z.eqb_neq. lia. Qed.
Lemma dec_one m : rng dm m -> (dec ps m = 1 <-> m = 0).
Proof. intros H. split; [|intros ->; apply dec_0]. intros E. apply dec_inj; auto; [split; [lia|apply Z.pow_pos_nonneg; lia]|rewrite dec_0; auto]. Qed.
Lemma dec_mul a b : sqfmul (dec ps a) (dec ps b) = Ok (dec ps (Z.lxor a b)).
Proof. apply sqfmul_ok; auto. Qed.
(** up to squares *)
Lemma dec_lxor a b : exists g, g <> 0 /\ dec ps a * dec ps b = dec ps (Z.lxor a b) * g ^ 2.
Proof.
  destruct (sprod_lxor (-1 :: ps) F N 0 a b) as (u & v & E1 & E2 & E3). set (g := Z.gcd _ _) in *. exists g. split.
  - intros Q. rewrite Q in E1. apply (dec_nz a). unfold dec. rewrite E1. ring.
  - unfold dec. rewrite <- E3. rewrite E1, E2 at 1. ring.
Qed.
(** sqfred *)
Lemma sqfred_ok n a : a <> 0 -> sqclass a (dec ps n) -> sqfred a ps = Ok (dec ps n).
Proof.
  intros Ha Hc. unfold sqfred.
  assert (Sg : Z.sgn a = if Z.testbit n 0 then -1 else 1).
  { pose proof (dec_nz n). pose proof (dec_neg n). destruct Hc as (x & y & Hx & Hy & E). assert (0 < x ^ 2) by nia. assert (0 < y ^ 2) by nia. destruct (Z.testbit n 0).
    - apply Z.sgn_neg. assert (dec ps n < 0) by tauto. nia.
    - apply Z.sgn_pos. assert (~ dec ps n < 0) by (intros Q; apply H0 in Q; discriminate). nia. }
  rewrite Sg. clear Sg. unfold dec. cbn [sprod]. set (s := if Z.testbit n 0 then -1 else 1). clearbody s.
  assert (Q : forall l k s, (exists l1, ps = l1 ++ l /\ k = Z.of_nat (length l1) + 1) -> mfold (fun ans p => v <- val_z p a ;; Ok (if Z.odd v then ans * p else ans)) l s = Ok (s * sprod k l n)).
  { induction l as [|p l IH]; intros k s0 (l1 & E & Ek); cbn [mfold sprod]; [f_equal; ring|]. assert (Ep : nth (length l1) ps 0 = p) by (rewrite E, nth_middle; auto). assert (Lp : (length l1 < length ps)%nat) by (rewrite E, app_length; cbn; lia).
    assert (Hp : prime p) by (rewrite <- Ep; apply nth_prime, Lp). destruct (ev_val p a Hp Ha) as (e & -> & He). rewrite bind_Ok.
    pose proof (ev_class p a (dec ps n) e Hp Ha (dec_nz n) Hc (sprod_sqf (-1 :: ps) p F N Hp 0 n) He) as Po. rewrite <- Ep in Po. rewrite (dec_div n (length l1) Lp), <- Ek in Po. apply eq_true_iff_eq in Po. rewrite Po.
    rewrite bind_Ok. rewrite (IH (k + 1)); [|exists (l1 ++ [p]); split; [rewrite <- app_assoc; auto|rewrite app_length; cbn [length]; lia]]. f_equal. destruct (Z.testbit n k); ring. }
  apply Q. exists []. split; auto.
Qed.
End Ps.
