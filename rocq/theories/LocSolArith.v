(** p-adic arithmetic for the local solubility test: Taylor expansion, Hensel's lemma with
    coherent sequences, squares. *)
From Coq Require Import ZArith Lia List Bool Znumtheory.
From Verif Require Import Base RatModel MArithModel MArithProofs LegendreSpec SqrtModProofs LocSolModel LocSolSpec.
Import ListNotations.
Open Scope Z_scope.
Open Scope res_scope.

(** ** powers *)
Lemma pw_split p a b : 0 <= a -> 0 <= b -> p ^ (a + b) = p ^ a * p ^ b.
Proof. intros. apply Z.pow_add_r; auto. Qed.
Lemma pw_div p a b : 0 <= a <= b -> (p ^ a | p ^ b).
Proof. intros. exists (p ^ (b - a)). rewrite <- pw_split by lia. f_equal. lia. Qed.
Lemma pw_dvd p a b n : 0 <= a <= b -> (p ^ b | n) -> (p ^ a | n).
Proof. intros H D. exact (Z.divide_trans _ _ _ (pw_div p a b H) D). Qed.
Lemma dvd_trans a b c : (a | b) -> (b | c) -> (a | c).
Proof. apply Z.divide_trans. Qed.
Lemma pw_dvd1 p b n : 1 <= b -> (p ^ b | n) -> (p | n).
Proof. intros H D. rewrite <- (Z.pow_1_r p). apply pw_dvd with b; [lia|auto]. Qed.
Lemma pw_pos p a : 2 <= p -> 0 <= a -> 0 < p ^ a.
Proof. intros. apply Z.pow_pos_nonneg; lia. Qed.
Lemma dvd_cancel k a b : k <> 0 -> (k * a | k * b) -> (a | b).
Proof. intros K D. apply Z.mul_divide_cancel_l in D; auto. Qed.
(** divisibility of a congruent number *)
Lemma dvd_cong m a b : (m | a - b) -> (m | a) -> (m | b).
Proof. intros D E. replace b with (a - (a - b)) by ring. apply Z.divide_sub_r; auto. Qed.
Lemma dvd_cong' m a b : (m | a - b) -> (m | b) -> (m | a).
Proof. intros D E. replace a with (a - b + b) by ring. apply Z.divide_add_r; auto. Qed.

(** ** Taylor *)
Definition gtay (a b c x t : Z) : Z := a * (6 * x * x + 4 * x * t + t * t) + b * (3 * x + t) + c.
Lemma taylor a b c d e x t :
  gval a b c d e (x + t) = gval a b c d e x + t * gder a b c d x + t * t * gtay a b c x t.
Proof. unfold gval, gder, gtay. ring. Qed.
Lemma taylor' a b c d x t : exists k, gder a b c d (x + t) = gder a b c d x + t * k.
Proof.
  exists (4 * a * (3 * x * x + 3 * x * t + t * t) + 3 * b * (2 * x + t) + 2 * c). unfold gder. ring.
Qed.

(** exact power *)
Definition exact_pow (p k n : Z) : Prop := (p ^ k | n) /\ ~ (p ^ (k + 1) | n).
Lemma exact_split p k n : 2 <= p -> 0 <= k -> exact_pow p k n -> exists u, n = p ^ k * u /\ ~ (p | u).
Proof.
  intros P K ((u & ->) & N). exists u. split; [ring|]. intros (v & ->). apply N. exists v.
  rewrite pw_split, Z.pow_1_r by lia. ring.
Qed.
Lemma exact_of p k u : 2 <= p -> 0 <= k -> ~ (p | u) -> exact_pow p k (p ^ k * u).
Proof.
  intros P K N. split; [exists u; ring|]. intros D. apply N. pose proof (pw_pos p k P K).
  rewrite pw_split, Z.pow_1_r in D by lia. apply dvd_cancel in D; [auto|lia].
Qed.
Lemma exact_nz p k n : exact_pow p k n -> n <> 0.
Proof. intros (_ & N) ->. apply N. apply Z.divide_0_r. Qed.
Lemma exact_cong p k m n : 0 <= k -> exact_pow p k n -> (p ^ (k + 1) | m - n) -> exact_pow p k m.
Proof.
  intros K (D & N) C. split.
  - apply dvd_cong' with n; auto. apply pw_dvd with (k + 1); [lia|auto].
  - intros E. apply N. apply dvd_cong with m; auto.
Qed.
Lemma exact_le p k j n : 2 <= p -> 0 <= k -> 0 <= j -> exact_pow p k n -> (p ^ j | n) -> j <= k.
Proof.
  intros P K J (D & N) E. destruct (Z_le_gt_dec j k); auto. exfalso. apply N. apply pw_dvd with j; [lia|auto].
Qed.
Lemma exact_uniq p k j n : 2 <= p -> 0 <= k -> 0 <= j -> exact_pow p k n -> exact_pow p j n -> k = j.
Proof.
  intros P K J E F. pose proof (exact_le p k j n P K J E (proj1 F)).
  pose proof (exact_le p j k n P J K F (proj1 E)). lia.
Qed.

Lemma inverse_sig p w : prime p -> ~ (p | w) -> { v | (p | v * w - 1) }.
Proof.
  intros Hp N. destruct (euclid p w) as [u v g E G].
  assert (R : Zis_gcd p w 1) by (apply prime_rel_prime; auto).
  assert (g = 1 \/ g = -1).
  { destruct G as [G1 G2 G3]. pose proof (G3 1 (Z.divide_1_l _) (Z.divide_1_l _)).
    destruct R as [R1 R2 R3]. pose proof (R3 g G1 G2) as R4. apply Z.divide_1_r in R4. lia. }
  exists (v * g). exists (- (u * g)).
  assert (g * g = 1) by (destruct H as [-> | ->]; reflexivity).
  replace (v * g * w) with (g * (v * w)) by ring. rewrite <- H0. rewrite <- E at 2. ring.
Qed.

(** ** Hensel *)
Section Hensel.
Variables p a b c d e m mu x0 : Z.
Hypothesis Hp : prime p.
Hypothesis Hmu : 0 <= mu < m.
Hypothesis E0 : exact_pow p mu (gder a b c d x0).
Hypothesis D0 : (p ^ (m + mu) | gval a b c d e x0).

Definition hinv (k : Z) (x : Z) : Prop :=
  (p ^ m | x - x0) /\ exact_pow p mu (gder a b c d x) /\ (p ^ (m + mu + k) | gval a b c d e x).

Lemma hensel_step k x : 0 <= k -> hinv k x -> { x' | hinv (k + 1) x' /\ (p ^ (m + k) | x' - x) }.
Proof.
  intros K (I1 & I2 & I3). pose proof (prime_ge_2 p Hp) as P.
  pose proof (pw_pos p mu P ltac:(lia)) as PM.
  pose proof (pw_pos p (m + mu + k) P ltac:(lia)) as PK.
  set (w := gder a b c d x / p ^ mu). set (s := gval a b c d e x / p ^ (m + mu + k)).
  assert (W : gder a b c d x = p ^ mu * w).
  { unfold w. apply Z_div_exact_full_2; [lia|]. apply Z.mod_divide; [lia|apply I2]. }
  assert (Sv : gval a b c d e x = p ^ (m + mu + k) * s).
  { unfold s. apply Z_div_exact_full_2; [lia|]. apply Z.mod_divide; [lia|apply I3]. }
  assert (U : ~ (p | w)).
  { destruct (exact_split p mu _ P ltac:(lia) I2) as (u & E & N). rewrite W in E.
    apply Z.mul_reg_l in E; [congruence|lia]. }
  destruct (inverse_sig p w Hp U) as (v & V).
  set (t := p ^ (m + k) * (- s * v)).
  exists (x + t).
  assert (T : (p ^ (m + k) | t)) by (exists (- s * v); unfold t; ring).
  split; [split; [|split]|].
  - replace (x + t - x0) with (x - x0 + t) by ring. apply Z.divide_add_r; auto.
    apply pw_dvd with (m + k); [lia|auto].
  - destruct (taylor' a b c d x t) as (k' & ->). apply exact_cong with (gder a b c d x); [lia|auto|].
    replace (gder a b c d x + t * k' - gder a b c d x) with (t * k') by ring.
    apply Z.divide_mul_l. apply pw_dvd with (m + k); [lia|auto].
  - rewrite taylor, Sv, W. rewrite <- Z.add_assoc.
    replace (t * t * gtay a b c x t) with (p ^ (m + k) * p ^ (m + k) * (s * v * (s * v) * gtay a b c x t))
      by (unfold t; ring).
    rewrite <- pw_split by lia. rewrite Z.add_assoc. apply Z.divide_add_r.
    + replace (p ^ (m + mu + k) * s + t * (p ^ mu * w)) with (p ^ (m + mu + k) * (- s * (v * w - 1))).
      * rewrite (Z.add_assoc (m + mu) k 1), (pw_split p (m + mu + k) 1), Z.pow_1_r by lia. apply Z.mul_divide_mono_l.
        apply Z.divide_mul_r. exact V.
      * unfold t. replace (m + mu + k) with (m + k + mu) by ring. rewrite (pw_split p (m + k) mu) by lia. ring.
    + apply Z.divide_mul_l. apply pw_div. lia.
  - replace (x + t - x) with t by ring. exact T.
Qed.

Definition hstart : { x | hinv (Z.of_nat 0) x }.
Proof.
  exists x0. split; [exists 0; ring|]. split; [exact E0|]. rewrite Z.add_0_r. exact D0.
Defined.
Definition hnext n (s : { x | hinv (Z.of_nat n) x }) : { x | hinv (Z.of_nat (S n)) x }.
Proof.
  destruct (hensel_step (Z.of_nat n) (proj1_sig s) ltac:(lia) (proj2_sig s)) as (x' & Hx' & _).
  exists x'. rewrite Nat2Z.inj_succ. unfold Z.succ. exact Hx'.
Defined.
Fixpoint hseq (n : nat) : { x | hinv (Z.of_nat n) x } :=
  match n with O => hstart | S n => hnext n (hseq n) end.

Lemma hensel : exists f, coherent p f /\ (forall n, (p ^ m | f n - x0)) /\
  forall n, (p ^ Z.of_nat n | gval a b c d e (f n)).
Proof.
  exists (fun n => proj1_sig (hseq n)). split; [|split].
  - intros n. cbn [hseq]. unfold hnext.
    destruct (hensel_step (Z.of_nat n) (proj1_sig (hseq n)) _ _) as (x' & Hx' & D). cbn [proj1_sig].
    apply pw_dvd with (m + Z.of_nat n); [lia|exact D].
  - intros n. destruct (hseq n) as (x & H1 & H2 & H3). exact H1.
  - intros n. destruct (hseq n) as (x & H1 & H2 & H3). cbn [proj1_sig].
    apply pw_dvd with (m + mu + Z.of_nat n); [lia|exact H3].
Qed.
End Hensel.

(** ** squares *)
Definition padic_square (p a : Z) : Prop :=
  exists y, coherent p y /\ forall n, (p ^ Z.of_nat n | y n * y n - a).

Lemma unit_square_odd p u s : prime p -> p <> 2 -> ~ (p | u) -> (p | s * s - u) -> padic_square p u.
Proof.
  intros Hp N U S. pose proof (prime_ge_2 p Hp) as P.
  destruct (hensel p 0 0 1 0 (- u) 1 0 s Hp) as (f & C & _ & F).
  - lia.
  - split; [rewrite Z.pow_0_r; apply Z.divide_1_l|]. cbn [Z.add]. rewrite Z.pow_1_r. unfold gder.
    replace (((4 * 0 * s + 3 * 0) * s + 2 * 1) * s + 0) with (2 * s) by ring. intros D.
    apply (prime_mult p Hp) in D as [D|D].
    + apply Z.divide_pos_le in D; lia.
    + apply U. apply dvd_cong with (s * s); [exact S|]. apply Z.divide_mul_l, D.
  - rewrite Z.pow_1_r. unfold gval. replace ((((0 * s + 0) * s + 1) * s + 0) * s + - u) with (s * s - u) by ring. exact S.
  - exists f. split; [exact C|]. intros n. replace (f n * f n - u) with (gval 0 0 1 0 (- u) (f n)); [apply F|].
    unfold gval. ring.
Qed.
Lemma unit_square_2 u : (8 | u - 1) -> padic_square 2 u.
Proof.
  intros (k & K).
  destruct (hensel 2 0 0 1 0 (- u) 2 1 1 prime_2) as (f & C & _ & F).
  - lia.
  - split; [exists 1; reflexivity|]. intros (q & Q). unfold gder in Q. change (2 ^ (1 + 1)) with 4 in Q. lia.
  - exists (- k). unfold gval. change (2 ^ (2 + 1)) with 8. lia.
  - exists f. split; [exact C|]. intros n. replace (f n * f n - u) with (gval 0 0 1 0 (- u) (f n)); [apply F|].
    unfold gval. ring.
Qed.
Lemma square_scale p k u : padic_square p u -> padic_square p (k * k * u).
Proof.
  intros (y & C & Y). exists (fun n => k * y n). split.
  - intros n. rewrite <- Z.mul_sub_distr_l. apply Z.divide_mul_r, C.
  - intros n. replace (k * y n * (k * y n) - k * k * u) with (k * k * (y n * y n - u)) by ring.
    apply Z.divide_mul_r, Y.
Qed.
Lemma square_0 p : padic_square p 0.
Proof. exists (fun _ => 0). split; intros n; cbn; apply Z.divide_0_r. Qed.

(** obstructions: p^k u with k odd, or u not a square mod p (mod 4, mod 8 for p = 2) *)
Lemma square_exact p k u y N : prime p -> 0 <= k < N -> ~ (p | u) -> (p ^ N | y * y - p ^ k * u) ->
  exists z, k = 2 * (k / 2) /\ (p ^ (N - k) | z * z - u).
Proof.
  intros Hp K U D. pose proof (prime_ge_2 p Hp) as P.
  revert k N y K D.
  assert (G : forall n : nat, forall k N y, 0 <= k < N -> k <= Z.of_nat n -> (p ^ N | y * y - p ^ k * u) ->
     exists z, k = 2 * (k / 2) /\ (p ^ (N - k) | z * z - u)).
  2:{ intros k N y K D. apply (G (Z.to_nat k) k N y); auto. lia. }
  induction n as [|n IH]; intros k N y K Kn D.
  - assert (k = 0) by lia. subst k. exists y. split; [reflexivity|]. rewrite Z.sub_0_r. rewrite Z.pow_0_r, Z.mul_1_l in D. exact D.
  - destruct (Z.eq_dec k 0) as [->|K0].
    { exists y. split; [reflexivity|]. rewrite Z.sub_0_r. rewrite Z.pow_0_r, Z.mul_1_l in D. exact D. }
    assert (Y : (p | y)).
    { assert (Y : (p | y * y)).
      { apply dvd_cong' with (p ^ k * u).
        - apply pw_dvd1 with N; [lia|exact D].
        - apply Z.divide_mul_l. apply pw_dvd1 with k; [lia|apply Z.divide_refl]. }
      apply (prime_mult p Hp) in Y. tauto. }
    destruct Y as (y' & ->).
    assert (K2 : 2 <= k).
    { destruct (Z_le_gt_dec 2 k); auto. exfalso. assert (k = 1) by lia. subst k. apply U.
      rewrite Z.pow_1_r in D. assert (D2 : (p * p | y' * p * (y' * p) - p * u)).
      { replace (p * p) with (p ^ 2) by ring. apply pw_dvd with N; [lia|exact D]. }
      replace (y' * p * (y' * p) - p * u) with (p * (y' * y' * p - u)) in D2 by ring.
      apply dvd_cancel in D2; [|lia]. apply dvd_cong with (y' * y' * p); [exact D2|]. apply Z.divide_factor_r. }
    destruct (IH (k - 2) (N - 2) y') as (z & E & Z'); [lia|lia| |].
    + replace N with (2 + (N - 2)) in D by ring. rewrite pw_split in D by lia.
      replace (p ^ k) with (p ^ 2 * p ^ (k - 2)) in D by (rewrite <- pw_split by lia; f_equal; lia).
      replace (y' * p * (y' * p) - p ^ 2 * p ^ (k - 2) * u) with (p ^ 2 * (y' * y' - p ^ (k - 2) * u)) in D by ring.
      apply dvd_cancel in D; [exact D|]. pose proof (pw_pos p 2 P ltac:(lia)). lia.
    + exists z. split.
      * replace k with (k - 2 + 1 * 2) at 2 by ring. rewrite Z.div_add by lia. lia.
      * replace (N - k) with (N - 2 - (k - 2)) by ring. exact Z'.
Qed.
