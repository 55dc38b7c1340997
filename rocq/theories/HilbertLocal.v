(** local_hilbert of hilbert.cc decides solubility of a x^2 + b y^2 = z^2 over Q_p. *)
From Coq Require Import ZArith Lia List Bool Znumtheory.
From Verif Require Import Base RatModel RatProofs MArithModel MArithProofs LegendreSpec LegendreMath JacobiMath SqrtModProofs
  KroneckerProofs HilbertModel LocSolSpec HilbertSpec LocSolArith LocSolLocal.
Import ListNotations.
Open Scope Z_scope.
Open Scope res_scope.

(** ** p-adic sequences *)
Lemma coherent_le p s : coherent p s -> forall k n, (p ^ Z.of_nat n | s (n + k)%nat - s n).
Proof.
  intros C. induction k as [|k IH]; intros n.
  - rewrite Nat.add_0_r, Z.sub_diag. apply Z.divide_0_r.
  - replace (s (n + S k)%nat - s n) with (s (S (n + k)) - s (n + k)%nat + (s (n + k)%nat - s n))
      by (rewrite Nat.add_succ_r; ring).
    apply Z.divide_add_r; [|apply IH]. apply pw_dvd with (Z.of_nat (n + k)); [lia|apply C].
Qed.
Lemma coherent_scale p k s : coherent p s -> coherent p (fun n => k * s n).
Proof. intros C n. rewrite <- Z.mul_sub_distr_l. apply Z.divide_mul_r, C. Qed.

Lemma pow_exceeds p x : 2 <= p -> x <> 0 -> exists n : nat, ~ (p ^ Z.of_nat n | x).
Proof.
  intros P X. exists (Z.to_nat (Z.abs x)). intros D. apply Z.divide_abs_r in D. apply Z.divide_pos_le in D; [|lia].
  rewrite Z2Nat.id in D by lia. pose proof (Z.pow_gt_lin_r p (Z.abs x) ltac:(lia) ltac:(lia)). lia.
Qed.

(** ** What decides *)
Definition hcert (p a b : Z) : Prop :=
  (exists x y, ~ (x = 0 /\ y = 0) /\ padic_square p (a * x * x + b * y * y)) \/ padic_square p (- (a * b)).
Definition hobs (p a b : Z) : Prop :=
  forall x y z, (p ^ 4 | a * x * x + b * y * y - z * z) -> (p | x) /\ (p | y) /\ (p | z).

Lemma soluble_of_square p a b x y : 2 <= p -> ~ (x = 0 /\ y = 0) -> padic_square p (a * x * x + b * y * y) -> soluble_Qp p a b.
Proof.
  intros P XY (z & C & S). exists (fun _ => x), (fun _ => y), z.
  split; [apply coherent_const|]. split; [apply coherent_const|]. split; [exact C|]. split.
  - destruct (Z.eq_dec x 0) as [X|X].
    + assert (Y : y <> 0) by tauto. destruct (pow_exceeds p y P Y) as (n & N). exists n. tauto.
    + destruct (pow_exceeds p x P X) as (n & N). exists n. tauto.
  - intros n. rewrite <- Z.divide_opp_r. replace (- (a * x * x + b * y * y - z n * z n)) with (z n * z n - (a * x * x + b * y * y)) by ring.
    apply S.
Qed.
Lemma soluble_of_zero p a b : 2 <= p -> a <> 0 -> padic_square p (- (a * b)) -> soluble_Qp p a b.
Proof.
  intros P A (s & C & S). exists s, (fun _ => a), (fun _ => 0).
  split; [exact C|]. split; [apply coherent_const|]. split; [apply coherent_const|]. split.
  - destruct (pow_exceeds p a P A) as (n & N). exists n. tauto.
  - intros n. replace (a * s n * s n + b * a * a - 0 * 0) with (a * (s n * s n - - (a * b))) by ring.
    apply Z.divide_mul_r, S.
Qed.
Lemma cert_soluble p a b k l : 2 <= p -> k <> 0 -> l <> 0 -> a <> 0 -> hcert p a b -> soluble_Qp p (k * k * a) (l * l * b).
Proof.
  intros P K L A [(x & y & XY & S)|S].
  - apply soluble_of_square with (l * x) (k * y); auto.
    + intros (X & Y). apply XY. apply Z.mul_eq_0 in X, Y. tauto.
    + replace (k * k * a * (l * x) * (l * x) + l * l * b * (k * y) * (k * y)) with (k * l * (k * l) * (a * x * x + b * y * y)) by ring.
      apply square_scale, S.
  - apply soluble_of_zero; auto.
    + intros H. apply Z.mul_eq_0 in H as [H|H]; [apply Z.mul_eq_0 in H; tauto|contradiction].
    + replace (- (k * k * a * (l * l * b))) with (k * l * (k * l) * - (a * b)) by ring. apply square_scale, S.
Qed.

(** a non-trivial solution gives primitive ones modulo every power of p *)
Lemma descend_prim p a b : 2 <= p -> hobs p a b -> forall k x y z,
  (p ^ (2 * Z.of_nat k + 4) | a * x * x + b * y * y - z * z) ->
  (p ^ (Z.of_nat k + 1) | x) /\ (p ^ (Z.of_nat k + 1) | y) /\ (p ^ (Z.of_nat k + 1) | z).
Proof.
  intros P O. induction k as [|k IH]; intros x y z D.
  - cbn [Z.of_nat Z.mul Z.add] in *. rewrite Z.pow_1_r. apply O. exact D.
  - destruct (O x y z) as ((x' & X) & (y' & Y) & (z' & Z')).
    { apply pw_dvd with (2 * Z.of_nat (S k) + 4); [lia|exact D]. }
    subst x y z.
    replace (a * (x' * p) * (x' * p) + b * (y' * p) * (y' * p) - z' * p * (z' * p)) with
      (p ^ 2 * (a * x' * x' + b * y' * y' - z' * z')) in D by ring.
    replace (2 * Z.of_nat (S k) + 4) with (2 + (2 * Z.of_nat k + 4)) in D by lia. rewrite pw_split in D by lia.
    apply dvd_cancel in D; [|pose proof (pw_pos p 2 P ltac:(lia)); lia].
    destruct (IH x' y' z' D) as (DX & DY & DZ).
    replace (Z.of_nat (S k) + 1) with (Z.of_nat k + 1 + 1) by lia.
    rewrite (pw_split p (Z.of_nat k + 1) 1), Z.pow_1_r by lia.
    split; [|split]; apply Z.mul_divide_mono_r; assumption.
Qed.
Lemma obs_insoluble p a b i j : 2 <= p -> 0 <= i -> 0 <= j -> hobs p a b ->
  ~ soluble_Qp p (p ^ i * p ^ i * a) (p ^ j * p ^ j * b).
Proof.
  intros P I J O (x & y & z & C1 & C2 & C3 & (n & N) & S). apply N.
  set (m := (n + Z.to_nat i + Z.to_nat j)%nat).
  specialize (S (2 * m + 4 + n)%nat). set (M := (2 * m + 4 + n)%nat) in *.
  destruct (descend_prim p a b P O m (p ^ i * x M) (p ^ j * y M) (z M)) as (DX & DY & DZ).
  { replace (a * (p ^ i * x M) * (p ^ i * x M) + b * (p ^ j * y M) * (p ^ j * y M) - z M * z M) with
      (p ^ i * p ^ i * a * x M * x M + p ^ j * p ^ j * b * y M * y M - z M * z M) by ring.
    apply pw_dvd with (Z.of_nat M); [unfold M; lia|exact S]. }
  assert (K : forall s, coherent p s -> (p ^ Z.of_nat n | s M) -> (p ^ Z.of_nat n | s n)).
  { intros s C D. apply dvd_cong with (s M); [|exact D]. unfold M. rewrite Nat.add_comm. apply coherent_le, C. }
  assert (Q : forall h t, 0 <= h -> h <= Z.of_nat m - Z.of_nat n -> (p ^ (Z.of_nat m + 1) | p ^ h * t) -> (p ^ Z.of_nat n | t)).
  { intros h t H0 H1 D. replace (Z.of_nat m + 1) with (h + (Z.of_nat m + 1 - h)) in D by ring. rewrite pw_split in D by lia.
    apply dvd_cancel in D; [|pose proof (pw_pos p h P H0); lia]. apply pw_dvd with (Z.of_nat m + 1 - h); [lia|exact D]. }
  split; [|split].
  - apply K; auto. apply Q with i; [lia|unfold m; lia|exact DX].
  - apply K; auto. apply Q with j; [lia|unfold m; lia|exact DY].
  - apply K; auto. apply Q with 0; [lia|unfold m; lia|]. rewrite Z.pow_0_r, Z.mul_1_l. exact DZ.
Qed.

(** symmetry *)
Lemma hcert_sym p a b : hcert p a b -> hcert p b a.
Proof.
  intros [(x & y & XY & S)|S].
  - left. exists y, x. split; [tauto|]. rewrite Z.add_comm. exact S.
  - right. rewrite Z.mul_comm. exact S.
Qed.
Lemma hobs_sym p a b : hobs p a b -> hobs p b a.
Proof. intros O x y z D. destruct (O y x z) as (A & B & C); [|tauto]. rewrite Z.add_comm. exact D. Qed.

(** ** odd primes *)
Section Odd.
Variable p : Z.
Hypothesis Hp : prime p.
Hypothesis P2 : p <> 2.
Local Notation op := (prime_odd p Hp P2).

Lemma Lsym_square a : ~ (p | a) -> Lsym a p = 1 -> exists x, (p | x * x - a).
Proof.
  intros A L. destruct (Lsym_spec a op) as (_ & _ & H).
  destruct (sqroot_dec a p) as [E|E]; [pose proof (prime_ge_2 p Hp); lia|exact E|].
  exfalso. rewrite (H A E) in L. discriminate.
Qed.
Lemma Lsym_nonsquare a : ~ (p | a) -> Lsym a p = -1 -> ~ exists x, (p | x * x - a).
Proof.
  intros A L E. destruct (Lsym_spec a op) as (_ & H & _). rewrite (H A E) in L. discriminate.
Qed.
Lemma Lsym_padic a : ~ (p | a) -> Lsym a p = 1 -> padic_square p a.
Proof. intros A L. destruct (Lsym_square a A L) as (x & X). apply unit_square_odd with x; auto. Qed.

(** there is a non-residue of the form s^2 + 1 *)
Lemma nonresidue_succ : (exists a, ~ (p | a) /\ Lsym a p = -1) -> exists s, ~ (p | s * s + 1) /\ Lsym (s * s + 1) p = -1.
Proof.
  intros (a & A & L). pose proof (prime_ge_2 p Hp) as P.
  assert (G : forall n : nat, (Z.of_nat n < p) -> Lsym (Z.of_nat n) p = -1 -> exists s, ~ (p | s * s + 1) /\ Lsym (s * s + 1) p = -1).
  { induction n as [|n IH]; intros NP NL.
    - exfalso. rewrite (Lsym_dvd _ _ op) in NL by apply Z.divide_0_r. discriminate.
    - destruct n as [|n].
      { exfalso. change (Z.of_nat 1) with 1 in NL. rewrite (Lsym_1 _ op) in NL. discriminate. }
      assert (D : ~ (p | Z.of_nat (S n))) by (intros D; apply Z.divide_pos_le in D; lia).
      destruct (Lsym_nz (Z.of_nat (S n)) p op D) as [E|E]; [|apply IH; [lia|exact E]].
      destruct (Lsym_square _ D E) as (s & SS). exists s.
      assert (C : (p | s * s + 1 - Z.of_nat (S (S n)))).
      { replace (s * s + 1 - Z.of_nat (S (S n))) with (s * s - Z.of_nat (S n)) by lia. exact SS. }
      split.
      + intros D'. apply (dvd_cong p _ _ C) in D'. apply Z.divide_pos_le in D'; lia.
      + rewrite (@Lsym_mod _ (Z.of_nat (S (S n))) p C ltac:(lia)). exact NL. }
  pose proof (Z.mod_pos_bound a p ltac:(lia)) as B.
  apply (G (Z.to_nat (a mod p))); rewrite Z2Nat.id by lia; [lia|].
  rewrite <- (@Lsym_mod a (a mod p) p); [exact L| |lia]. apply divide_sub_mod. lia.
Qed.

Lemma cert_00 u v : ~ (p | u) -> ~ (p | v) -> hcert p u v.
Proof.
  intros U V. pose proof (prime_ge_2 p Hp) as P.
  destruct (Lsym_nz u p op U) as [LU|LU].
  { left. exists 1, 0. split; [lia|]. replace (u * 1 * 1 + v * 0 * 0) with u by ring. apply Lsym_padic; auto. }
  destruct (Lsym_nz v p op V) as [LV|LV].
  { left. exists 0, 1. split; [lia|]. replace (u * 0 * 0 + v * 1 * 1) with v by ring. apply Lsym_padic; auto. }
  destruct nonresidue_succ as (s & SN & SL); [exists u; auto|].
  (* u = n t^2, v = n r^2 up to squares: u n and v n are squares *)
  set (n := s * s + 1) in *.
  assert (UN : exists t, (p | t * t - u * n)).
  { apply Lsym_square.
    - intros D. apply (prime_mult p Hp) in D. tauto.
    - rewrite (Lsym_mul _ _ op), LU, SL. reflexivity. }
  assert (VN : exists r, (p | r * r - v * n)).
  { apply Lsym_square.
    - intros D. apply (prime_mult p Hp) in D. tauto.
    - rewrite (Lsym_mul _ _ op), LV, SL. reflexivity. }
  destruct UN as (t & T), VN as (r & R).
  assert (TN : ~ (p | t)).
  { intros D. assert (D' : (p | u * n)) by (apply dvd_cong with (t * t); [exact T|apply Z.divide_mul_l, D]).
    apply (prime_mult p Hp) in D'. tauto. }
  assert (RN : ~ (p | r)).
  { intros D. assert (D' : (p | v * n)) by (apply dvd_cong with (r * r); [exact R|apply Z.divide_mul_l, D]).
    apply (prime_mult p Hp) in D'. tauto. }
  (* u (r s)^2 n + v t^2 n = r^2 t^2 (s^2 + 1) = n (r t)^2; so u (rs)^2 + v t^2 = (r t)^2 modulo p *)
  left. exists (r * s), t. split.
  { intros (_ & H). apply TN. rewrite H. apply Z.divide_0_r. }
  apply unit_square_odd with (r * t); auto.
  - (* unit *) intros D.
    assert (D' : (p | n * (r * t * (r * t)))).
    { destruct T as (t' & T), R as (r' & R). destruct D as (d & D).
      exists (d * n + t' * r * s * (r * s) + r' * t * t).
      replace (n * (r * t * (r * t))) with (t * t * (r * s) * (r * s) + r * r * t * t) by (unfold n; ring).
      assert (T1 : t * t = u * n + t' * p) by lia. assert (R1 : r * r = v * n + r' * p) by lia.
      replace (t * t * (r * s) * (r * s) + r * r * t * t) with ((u * n + t' * p) * (r * s) * (r * s) + (v * n + r' * p) * t * t)
        by (rewrite <- T1, <- R1; ring).
      replace ((u * n + t' * p) * (r * s) * (r * s) + (v * n + r' * p) * t * t) with
        (n * (u * (r * s) * (r * s) + v * t * t) + t' * p * (r * s) * (r * s) + r' * p * t * t) by ring.
      rewrite D. ring. }
    apply (prime_mult p Hp) in D' as [D'|D']; [tauto|].
    apply (prime_mult p Hp) in D' as [D'|D']; apply (prime_mult p Hp) in D'; tauto.
  - apply (Gauss p n); [|apply prime_rel_prime; auto].
    destruct T as (t' & T), R as (r' & R). exists (t' * r * s * (r * s) + r' * t * t).
    assert (T1 : u * n = t * t - t' * p) by lia. assert (R1 : v * n = r * r - r' * p) by lia.
    replace (n * (r * t * (r * t) - (u * (r * s) * (r * s) + v * t * t))) with
      (n * (r * t * (r * t)) - (u * n) * (r * s) * (r * s) - v * n * t * t) by ring.
    rewrite T1, R1. unfold n. ring.
Qed.

Lemma obs_of_mod2 a b : (forall x y z, (p * p | a * x * x + b * y * y - z * z) -> (p | x) /\ (p | y) /\ (p | z)) -> hobs p a b.
Proof. intros H x y z D. apply H. replace (p * p) with (p ^ 2) by ring. apply pw_dvd with 4; [lia|exact D]. Qed.

Lemma cert_10 u v : ~ (p | v) -> Lsym v p = 1 -> hcert p (p * u) v.
Proof.
  intros V L. left. exists 0, 1. split; [lia|]. replace (p * u * 0 * 0 + v * 1 * 1) with v by ring.
  apply Lsym_padic; auto.
Qed.
Lemma nonsquare_both v y z : ~ (p | v) -> Lsym v p = -1 -> (p | v * y * y - z * z) -> (p | y) /\ (p | z).
Proof.
  intros V L D. pose proof (prime_ge_2 p Hp) as P.
  assert (Y : (p | y)).
  { destruct (Znumtheory.Zdivide_dec p y) as [Y|Y]; [exact Y|exfalso].
    apply (Lsym_nonsquare v V L). destruct (inverse_sig p y Hp Y) as (w & (k & W)). exists (z * w).
    destruct D as (d & D). exists (- d * w * w + v * k * (w * y + 1)).
    replace (z * w * (z * w)) with (z * z * w * w) by ring. replace (z * z) with (v * y * y - d * p) by lia.
    assert (E : w * y = 1 + k * p) by lia.
    replace ((v * y * y - d * p) * w * w - v) with (v * ((w * y) * (w * y) - 1) - d * p * w * w) by ring.
    rewrite E. ring. }
  split; [exact Y|]. assert (D' : (p | z * z)).
  { apply dvd_cong with (v * y * y); [exact D|]. apply Z.divide_mul_r, Y. }
  apply (prime_mult p Hp) in D'. tauto.
Qed.
Lemma obs_10 u v : ~ (p | u) -> ~ (p | v) -> Lsym v p = -1 -> hobs p (p * u) v.
Proof.
  intros U V L. pose proof (prime_ge_2 p Hp) as P. apply obs_of_mod2. intros x y z D.
  assert (D1 : (p | v * y * y - z * z)).
  { apply dvd_cong with (p * u * x * x + v * y * y - z * z).
    - exists (u * x * x). ring.
    - apply dvd_trans with (p * p); [exists p; ring|exact D]. }
  destruct (nonsquare_both v y z V L D1) as (Y & Z'). split; [|auto].
  destruct Y as (y' & ->), Z' as (z' & ->).
  replace (p * u * x * x + v * (y' * p) * (y' * p) - z' * p * (z' * p)) with (p * (u * x * x + p * (v * y' * y' - z' * z'))) in D by ring.
  apply dvd_cancel in D; [|lia].
  assert (D2 : (p | u * x * x)).
  { apply dvd_cong with (u * x * x + p * (v * y' * y' - z' * z')); [|exact D]. exists (v * y' * y' - z' * z'). ring. }
  apply (prime_mult p Hp) in D2 as [D2|D2]; [apply (prime_mult p Hp) in D2; tauto|exact D2].
Qed.
Lemma cert_11 u v : ~ (p | u) -> ~ (p | v) -> Lsym (- (u * v)) p = 1 -> hcert p (p * u) (p * v).
Proof.
  intros U V L. right. replace (- (p * u * (p * v))) with (p * p * - (u * v)) by ring. apply square_scale, Lsym_padic; auto.
  intros D. apply (proj1 (Z.divide_opp_r _ _)) in D. apply (prime_mult p Hp) in D. tauto.
Qed.
Lemma obs_11 u v : ~ (p | u) -> ~ (p | v) -> Lsym (- (u * v)) p = -1 -> hobs p (p * u) (p * v).
Proof.
  intros U V L. pose proof (prime_ge_2 p Hp) as P. apply obs_of_mod2. intros x y z D.
  assert (Z' : (p | z)).
  { assert (D1 : (p | z * z)).
    { apply dvd_cong with (z * z - (p * u * x * x + p * v * y * y)).
      - exists (- (u * x * x + v * y * y)). ring.
      - apply Z.divide_opp_r. replace (- (z * z - (p * u * x * x + p * v * y * y))) with (p * u * x * x + p * v * y * y - z * z) by ring.
        apply dvd_trans with (p * p); [exists p; ring|exact D]. }
    apply (prime_mult p Hp) in D1. tauto. }
  destruct Z' as (z' & ->).
  replace (p * u * x * x + p * v * y * y - z' * p * (z' * p)) with (p * (u * x * x + v * y * y - p * (z' * z'))) in D by ring.
  apply dvd_cancel in D; [|lia].
  assert (D1 : (p | u * x * x + v * y * y)).
  { apply dvd_cong with (u * x * x + v * y * y - p * (z' * z')); [|exact D]. exists (- (z' * z')). ring. }
  assert (UV : ~ (p | - (u * v))).
  { intros H. apply (proj1 (Z.divide_opp_r _ _)) in H. apply (prime_mult p Hp) in H. tauto. }
  (* (u x)^2 = - u v y^2 *)
  destruct (nonsquare_both (- (u * v)) y (u * x) UV L) as (Y & X).
  { replace (- (u * v) * y * y - u * x * (u * x)) with (- u * (u * x * x + v * y * y)) by ring. apply Z.divide_mul_r, D1. }
  split; [|split; [exact Y|exists z'; ring]]. apply (prime_mult p Hp) in X. tauto.
Qed.
End Odd.
