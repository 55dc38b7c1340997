(** Elliptic divisibility sequences: a sequence whose consecutive ratios are given by the
    abscissae of the multiples of a point satisfies the recursions of the division
    polynomials. *)
From Coq Require Import Ring Field Arith Lia.

Section Eds.
Variable K : Type.
Variables k0 k1 : K.
Variables kadd kmul ksub : K -> K -> K.
Variable kopp : K -> K.
Variable kdiv : K -> K -> K.
Variable kinv : K -> K.
Hypothesis Kft : field_theory k0 k1 kadd kmul ksub kopp kdiv kinv eq.
Hypothesis keq_dec : forall x y : K, {x = y} + {x <> y}.
Add Field Kfield : Kft.
Declare Scope K_scope.
Delimit Scope K_scope with K.
Bind Scope K_scope with K.
Local Notation "x + y" := (kadd x y) : K_scope.
Local Notation "x * y" := (kmul x y) : K_scope.
Local Notation "x - y" := (ksub x y) : K_scope.
Local Notation "- x" := (kopp x) : K_scope.
Local Notation "x / y" := (kdiv x y) : K_scope.
Local Notation "0" := k0 : K_scope.
Local Notation "1" := k1 : K_scope.

Lemma k_0 x y : (x * y = 0 -> x <> 0 -> y = 0)%K.
Proof. intros H N. transitivity (x * y / x)%K; [field; auto|]. rewrite H. field. auto. Qed.
Lemma k_sub x y : (x - y = 0 -> x = y)%K.
Proof. intros H. transitivity (x - y + y)%K; [ring|]. rewrite H. ring. Qed.
Lemma k_subne x y : (x <> y -> x - y <> 0)%K.
Proof. intros H E. apply H. now apply k_sub. Qed.
Lemma k_ne x y : (x <> 0 -> y <> 0 -> x * y <> 0)%K.
Proof. intros H1 H2 E. apply H2. now apply k_0 with x. Qed.
Lemma k_ne_l x y : (x * y <> 0 -> x <> 0)%K.
Proof. intros H E. apply H. rewrite E. ring. Qed.
Lemma k_ne_r x y : (x * y <> 0 -> y <> 0)%K.
Proof. intros H E. apply H. rewrite E. ring. Qed.
Lemma k_cancel z x y : (z <> 0 -> z * x = z * y -> x = y)%K.
Proof. intros N H. apply k_sub. apply k_0 with z; [|auto]. transitivity (z * x - z * y)%K; [ring|]. rewrite H. ring. Qed.
Lemma k_sq x : (x * x = 0 -> x = 0)%K.
Proof. intros H. destruct (keq_dec x 0%K) as [E|N]; [auto|]. exfalso. now apply (k_ne x x N N). Qed.

(** ** the relation between the terms of index m+n, m-n *)
Section Rel.
Variable s X : nat -> K.
Variable Bf : K -> K -> K -> K.
Hypothesis Bf12 : forall u v w, Bf u v w = Bf v u w.
Hypothesis Bf23 : forall u v w, Bf u v w = Bf u w v.
Variable N : nat.
Hypothesis s0 : s 0 = 0%K.
Hypothesis s1 : s 1 = 1%K.
Hypothesis sB : forall k, k < N -> (s (k + 2) * s k = s (k + 1) * s (k + 1) * (X 1 - X (k + 1)))%K.
Hypothesis sne : forall k, 1 <= k <= N -> s k <> 0%K.
Hypothesis Xne : forall n d, 1 <= n -> 1 <= d -> 2 * n + d <= N -> X n <> X (n + d).
Hypothesis XR : forall n d w, 1 <= n -> 1 <= d -> 2 * n + d <= N ->
  ((X (n + d) - X n) * (X (n + d) - X n) * (w - X (2 * n + d)%nat) * (w - X d) = Bf (X (n + d)) (X n) w)%K.
Hypothesis XD : 2 <= N -> forall w, (s 2 * s 2 * (X 2 - w) = Bf (X 1) (X 1) w)%K.

Definition rel n d := (s (2 * n + d)%nat * s d = s (n + d) * s (n + d) * (s n * s n) * (X n - X (n + d)))%K.
Lemma rel1 d : d < N -> rel 1 d.
Proof.
  intros H. unfold rel. replace (2 * 1 + d) with (d + 2) by lia. replace (1 + d) with (d + 1) by lia. rewrite sB, s1 by lia. ring.
Qed.
Lemma rel2 d : d + 3 <= N -> rel 2 d.
Proof.
  intros H. unfold rel. replace (2 * 2 + d) with (d + 4) by lia. replace (2 + d) with (d + 2) by lia.
  pose proof (sB d ltac:(lia)) as B0. pose proof (sB (d + 1) ltac:(lia)) as B1. pose proof (sB (d + 2) ltac:(lia)) as B2.
  replace (d + 1 + 2) with (d + 3) in B1 by lia. replace (d + 1 + 1) with (d + 2) in B1 by lia.
  replace (d + 2 + 2) with (d + 4) in B2 by lia. replace (d + 2 + 1) with (d + 3) in B2 by lia.
  pose proof (XR 1 (d + 1) (X 1) ltac:(lia) ltac:(lia) ltac:(lia)) as R. replace (1 + (d + 1)) with (d + 2) in R by lia.
  replace (2 * 1 + (d + 1)) with (d + 3) in R by lia.
  pose proof (XD ltac:(lia) (X (d + 2))) as D. rewrite (Bf23 (X 1)), (Bf12 (X 1)) in D.
  assert (S := sne (d + 2) ltac:(lia)).
  apply k_cancel with (s (d + 2) * s (d + 2))%K; [now apply k_ne|].
  transitivity (s (d + 4) * s (d + 2) * (s (d + 2) * s d))%K; [ring|]. rewrite B0, B2.
  transitivity ((s (d + 3) * s (d + 1)) * (s (d + 3) * s (d + 1)) * (X 1 - X (d + 1)) * (X 1 - X (d + 3)))%K; [ring|]. rewrite B1.
  transitivity (s (d + 2) * s (d + 2) * s (d + 2) * s (d + 2) *
    ((X (d + 2) - X 1) * (X (d + 2) - X 1) * (X 1 - X (d + 3)) * (X 1 - X (d + 1))))%K; [ring|].
  rewrite R, <- D. ring.
Qed.
Lemma rel_step n d : 2 <= n -> 1 <= d -> 2 * n + d + 2 <= N + 1 -> rel (n - 1) (d + 2) -> rel n (d + 1) -> rel (n + 1) d.
Proof.
  intros Hn Hd H P1 P2. unfold rel in *. destruct n as [|n]; [lia|]. replace (S n - 1) with n in P1 by lia.
  replace (2 * n + (d + 2)) with (2 * n + d + 2) in P1 by lia. replace (n + (d + 2)) with (n + d + 2) in P1 by lia.
  replace (2 * S n + (d + 1)) with (2 * n + d + 3) in P2 by lia. replace (S n + (d + 1)) with (n + d + 2) in P2 by lia.
  replace (2 * (S n + 1) + d) with (2 * n + d + 4) by lia. replace (S n + 1 + d) with (n + d + 2) by lia.
  replace (S n + 1) with (n + 2) by lia. replace (S n) with (n + 1) in P2 by lia.
  pose proof (sB n ltac:(lia)) as B0. pose proof (sB d ltac:(lia)) as B1. pose proof (sB (2 * n + d + 2) ltac:(lia)) as B2.
  replace (2 * n + d + 2 + 2) with (2 * n + d + 4) in B2 by lia. replace (2 * n + d + 2 + 1) with (2 * n + d + 3) in B2 by lia.
  pose proof (XR (n + 1) (d + 1) (X 1) ltac:(lia) ltac:(lia) ltac:(lia)) as R1.
  replace (n + 1 + (d + 1)) with (n + d + 2) in R1 by lia. replace (2 * (n + 1) + (d + 1)) with (2 * n + d + 3) in R1 by lia.
  pose proof (XR 1 n (X (n + d + 2)) ltac:(lia) ltac:(lia) ltac:(lia)) as R2.
  replace (1 + n) with (n + 1) in R2 by lia. replace (2 * 1 + n) with (n + 2) in R2 by lia.
  rewrite (Bf23 (X (n + 1))), (Bf12 (X (n + 1))), <- R1 in R2.
  pose proof (Xne n (d + 2) ltac:(lia) ltac:(lia) ltac:(lia)) as X1. replace (n + (d + 2)) with (n + d + 2) in X1 by lia.
  assert (Sm := sne (n + d + 2) ltac:(lia)). assert (Sn := sne n ltac:(lia)).
  set (m := n + d + 2) in *.
  apply k_cancel with (s m * s m * (s n * s n) * (X n - X m))%K; [repeat apply k_ne; auto; now apply k_subne|].
  rewrite <- P1 at 1.
  transitivity ((s (2 * n + d + 4)%nat * s (2 * n + d + 2)%nat) * (s (d + 2) * s d))%K; [ring|]. rewrite B1, B2.
  transitivity ((s (2 * n + d + 3)%nat * s (d + 1)) * (s (2 * n + d + 3)%nat * s (d + 1)) * ((X 1 - X (2 * n + d + 3)%nat) * (X 1 - X (d + 1))))%K; [ring|].
  rewrite P2.
  transitivity (s m * s m * (s m * s m) * (s (n + 1) * s (n + 1)) * (s (n + 1) * s (n + 1)) *
    ((X m - X (n + 1)) * (X m - X (n + 1)) * (X 1 - X (2 * n + d + 3)%nat) * (X 1 - X (d + 1))))%K; [ring|].
  rewrite <- R2.
  transitivity (s m * s m * (s m * s m) * ((s (n + 1) * s (n + 1) * (X 1 - X (n + 1))) * (s (n + 1) * s (n + 1) * (X 1 - X (n + 1)))) *
    ((X m - X (n + 2)) * (X m - X n)))%K; [ring|]. rewrite <- B0. ring.
Qed.
Lemma rel_all n : 1 <= n -> forall d, 1 <= d -> 2 * n + d <= N + 1 -> rel n d.
Proof.
  induction n as [n IH] using lt_wf_ind. intros Hn d Hd H.
  destruct (Nat.eq_dec n 1) as [->|]; [apply rel1; lia|]. destruct (Nat.eq_dec n 2) as [->|]; [apply rel2; lia|].
  replace n with (n - 1 + 1) by lia. apply rel_step; try lia; apply IH; lia.
Qed.
(** the two recursions of the division polynomials *)
Lemma eds n d : 1 <= n -> 1 <= d -> 2 * n + d <= N + 1 ->
  (s (2 * n + d)%nat * s d = s (n + d + 1) * s (n + d - 1) * (s n * s n) - s (n + 1) * s (n - 1) * (s (n + d) * s (n + d)))%K.
Proof.
  intros Hn Hd H. rewrite (rel_all n Hn d Hd H).
  pose proof (sB (n - 1) ltac:(lia)) as B1. replace (n - 1 + 2) with (n + 1) in B1 by lia. replace (n - 1 + 1) with n in B1 by lia.
  pose proof (sB (n + d - 1) ltac:(lia)) as B2. replace (n + d - 1 + 2) with (n + d + 1) in B2 by lia. replace (n + d - 1 + 1) with (n + d) in B2 by lia.
  rewrite B1, B2. ring.
Qed.
End Rel.

(** ** two sequences with the same recursions and initial values *)
Definition recs (N : nat) (s : nat -> K) : Prop :=
  (forall m, 2 <= m -> 2 * m + 1 <= N -> (s (2 * m + 1)%nat = s (m + 2)%nat * (s m * s m * s m) - s (m - 1)%nat * (s (m + 1)%nat * s (m + 1)%nat * s (m + 1)%nat))%K) /\
  (forall m, 3 <= m -> 2 * m <= N -> (s (2 * m)%nat * s 2 = s m * (s (m + 2)%nat * (s (m - 1)%nat * s (m - 1)%nat) - s (m - 2)%nat * (s (m + 1)%nat * s (m + 1)%nat)))%K).
Lemma recs_eq N s u : recs N s -> recs N u -> s 2 <> 0%K \/ N <= 2 -> (forall k, k <= 4 -> k <= N -> s k = u k) -> forall k, k <= N -> s k = u k.
Proof.
  intros [S1 S2] [U1 U2] H2 H0. induction k as [k IH] using lt_wf_ind. intros Hk.
  destruct (le_lt_dec k 4) as [L|L]; [apply H0; auto|]. destruct H2 as [H2|H2]; [|lia].
  assert (E2 : s 2 = u 2) by (apply IH; lia).
  destruct (Nat.Even_or_Odd k) as [[m ->]|[m ->]].
  - apply k_cancel with (s 2); [auto|].
    transitivity (s (2 * m)%nat * s 2)%K; [ring|]. transitivity (u (2 * m)%nat * u 2)%K; [|rewrite E2; ring].
    rewrite S2, U2 by lia. rewrite (IH m), (IH (m + 2)), (IH (m - 1)), (IH (m - 2)), (IH (m + 1)) by lia. reflexivity.
  - rewrite S1, U1 by lia. rewrite (IH m), (IH (m + 2)), (IH (m - 1)), (IH (m + 1)) by lia. reflexivity.
Qed.

Lemma stepB C u' v' w' p q r u v w e : (u * u' = C * (p * p) -> v * v' = C * (q * q) -> w * w' = C * (r * r) ->
  u' * v' = w' * w' * e -> p * q = r * r * e -> e <> 0 -> w' <> 0 -> u * v = w * w * e)%K.
Proof.
  intros H1 H2 H3 H4 H5 H6 H7. apply k_cancel with (w' * w' * e)%K; [repeat apply k_ne; auto|].
  rewrite <- H4 at 1. transitivity ((u * u') * (v * v'))%K; [ring|]. rewrite H1, H2.
  transitivity (C * C * (p * q) * (p * q))%K; [ring|]. rewrite H5.
  transitivity ((C * (r * r)) * (C * (r * r)) * e * e)%K; [ring|]. rewrite <- H3. ring.
Qed.
(** ** beyond the order of the point *)
Section Ord.
Variable s X : nat -> K.
Hypothesis s0 : s 0 = 0%K.
Hypothesis sE : forall n d, 1 <= n -> 1 <= d ->
  (s (2 * n + d)%nat * s d = s (n + d + 1) * s (n + d - 1) * (s n * s n) - s (n + 1) * s (n - 1) * (s (n + d) * s (n + d)))%K.
Variable o : nat.
Hypothesis o2 : 2 <= o.
Hypothesis so : s o = 0%K.
Hypothesis so1 : s (o + 1) <> 0%K.
Hypothesis sne : forall k, 1 <= k < o -> s k <> 0%K.
Hypothesis seven : o = 2 -> forall j, s (j * 2) = 0%K.
Hypothesis sB : forall k, 1 <= k < o -> (s (k + 1) * s (k - 1) = s k * s k * (X 1 - X k))%K.
Hypothesis Xper : forall k, X (k + o) = X k.
Hypothesis Xrefl : forall k, 1 <= k < o -> X (o - k) = X k.
Hypothesis Xone : forall n, 1 <= n -> ~ Nat.divide o n -> X n = X 1 -> Nat.divide o (n - 1) \/ Nat.divide o (n + 1).

Let c := (s (o + 1) * s (o - 1))%K.
Lemma c_ne : c <> 0%K.
Proof. apply k_ne; [auto|]. apply sne. lia. Qed.
Lemma per d : 1 <= d -> (s (2 * o + d)%nat * s d = - (c * (s (o + d) * s (o + d))))%K.
Proof. intros H. rewrite sE by lia. rewrite so. unfold c. ring. Qed.
Lemma refl k : 1 <= k < o -> (s (o + k) * s (o - k) = c * (s k * s k))%K.
Proof.
  intros H. pose proof (sE k (o - k) ltac:(lia) ltac:(lia)) as E. replace (2 * k + (o - k)) with (o + k) in E by lia.
  replace (k + (o - k)) with o in E by lia. rewrite E, so. unfold c. ring.
Qed.
Lemma ndiv_sub n : ~ Nat.divide o n -> o <= n -> ~ Nat.divide o (n - o).
Proof. intros H L [j E]. apply H. exists (S j). cbn. lia. Qed.
Lemma ndiv_pos n : ~ Nat.divide o n -> 1 <= n.
Proof. intros H. destruct n; [|lia]. destruct H. exists 0. reflexivity. Qed.
Lemma ord_ne n : ~ Nat.divide o n -> s n <> 0%K.
Proof.
  induction n as [n IH] using lt_wf_ind. intros H. pose proof (ndiv_pos n H) as G0.
  destruct (le_lt_dec o n) as [L|L]; [|apply sne; lia].
  pose proof (ndiv_sub n H L) as H1. pose proof (ndiv_pos _ H1) as G1'.
  assert (I1 := IH (n - o) ltac:(lia) H1).
  destruct (le_lt_dec (2 * o) n) as [L2|L2].
  - pose proof (ndiv_sub _ H1 ltac:(lia)) as H2. pose proof (ndiv_pos _ H2) as G2.
    pose proof (per (n - o - o) ltac:(lia)) as E. replace (2 * o + (n - o - o)) with n in E by lia. replace (o + (n - o - o)) with (n - o) in E by lia.
    apply k_ne_l with (s (n - o - o)). rewrite E. intros Z. apply (k_ne _ _ c_ne (k_ne _ _ I1 I1)).
    transitivity (- (- (c * (s (n - o) * s (n - o)))))%K; [ring|]. rewrite Z. ring.
  - pose proof (refl (n - o) ltac:(lia)) as E. replace (o + (n - o)) with n in E by lia.
    apply k_ne_l with (s (o - (n - o))). rewrite E. apply k_ne; [exact c_ne|]. now apply k_ne.
Qed.
Lemma ord_0 j : s (j * o) = 0%K.
Proof.
  destruct (Nat.eq_dec o 2) as [E|NE]; [rewrite E; now apply seven|].
  induction j as [j IH] using lt_wf_ind. destruct j as [|[|j]]; [exact s0|now rewrite Nat.mul_1_l|].
  pose proof (sE (o - 1) (j * o + 2) ltac:(lia) ltac:(lia)) as E.
  replace (2 * (o - 1) + (j * o + 2)) with (S (S j) * o) in E by (cbn; lia).
  replace (o - 1 + (j * o + 2)) with (S j * o + 1) in E by (cbn; lia). replace (S j * o + 1 - 1) with (S j * o) in E by lia.
  replace (o - 1 + 1) with o in E by lia. rewrite so, (IH (S j)) in E by lia.
  apply k_0 with (s (j * o + 2)).
  - transitivity (s (S (S j) * o) * s (j * o + 2))%K; [ring|]. rewrite E. ring.
  - apply ord_ne. intros [i Ei]. assert (i <= j \/ j < i) as [Q|Q] by lia.
    + pose proof (Nat.mul_le_mono_r i j o Q). lia.
    + pose proof (Nat.mul_le_mono_r (S j) i o Q). cbn in H. lia.
Qed.
Lemma ord_0' n : Nat.divide o n -> s n = 0%K.
Proof. intros [j ->]. apply ord_0. Qed.
Lemma Xper' k : o <= k -> X k = X (k - o).
Proof. intros H. replace k with (k - o + o) at 1 by lia. apply Xper. Qed.
Lemma ord_B n : ~ Nat.divide o n -> (s (n + 1) * s (n - 1) = s n * s n * (X 1 - X n))%K.
Proof.
  induction n as [n IH] using lt_wf_ind. intros H. pose proof (ndiv_pos n H) as G0.
  destruct (le_lt_dec o n) as [L|L]; [|apply sB; lia].
  destruct (keq_dec (X n) (X 1)) as [E1|N1].
  { rewrite E1. destruct (Xone n ltac:(lia) H E1) as [D|D]; apply ord_0' in D; rewrite D; ring. }
  pose proof (ndiv_sub n H L) as H1. pose proof (ndiv_pos _ H1) as G1'.
  assert (I1 := IH (n - o) ltac:(lia) H1). pose proof (Xper' n L) as EX. rewrite <- EX in I1. pose proof (ord_ne _ H1) as S1.
  pose proof (k_subne _ _ (not_eq_sym N1)) as DN.
  destruct (le_lt_dec (2 * o) n) as [L2|L2].
  - pose proof (ndiv_sub _ H1 ltac:(lia)) as H2. pose proof (ndiv_pos _ H2) as G2.
    assert (I2 := IH (n - o - o) ltac:(lia) H2). rewrite <- (Xper' (n - o)), <- EX in I2 by lia. pose proof (ord_ne _ H2) as S2.
    assert (G3 : n - o - o <> 1).
    { intros Z. apply N1. rewrite EX, (Xper' (n - o)), Z by lia. reflexivity. }
    pose proof (per (n - o - o) ltac:(lia)) as E. replace (2 * o + (n - o - o)) with n in E by lia. replace (o + (n - o - o)) with (n - o) in E by lia.
    pose proof (per (n - o - o + 1) ltac:(lia)) as E1. replace (2 * o + (n - o - o + 1)) with (n + 1) in E1 by lia. replace (o + (n - o - o + 1)) with (n - o + 1) in E1 by lia.
    pose proof (per (n - o - o - 1) ltac:(lia)) as E2. replace (2 * o + (n - o - o - 1)) with (n - 1) in E2 by lia. replace (o + (n - o - o - 1)) with (n - o - 1) in E2 by lia.
    apply (stepB (- c)%K (s (n - o - o + 1)) (s (n - o - o - 1)) (s (n - o - o)) (s (n - o + 1)) (s (n - o - 1)) (s (n - o))); auto.
    + rewrite E1. ring.
    + rewrite E2. ring.
    + rewrite E. ring.
  - set (r := n - o) in *. assert (G1 : r <> 1) by (intros Z; apply N1; now rewrite EX, Z).
    assert (G2 : r <> o - 1). { intros Z. apply N1. rewrite EX, Z. apply Xrefl. lia. }
    pose proof (refl r ltac:(lia)) as E. replace (o + r) with n in E by lia.
    pose proof (refl (r + 1) ltac:(lia)) as E1. replace (o + (r + 1)) with (n + 1) in E1 by lia. replace (o - (r + 1)) with (o - r - 1) in E1 by lia.
    pose proof (refl (r - 1) ltac:(lia)) as E2. replace (o + (r - 1)) with (n - 1) in E2 by lia. replace (o - (r - 1)) with (o - r + 1) in E2 by lia.
    pose proof (sB (o - r) ltac:(lia)) as I2. rewrite Xrefl, <- EX in I2 by lia.
    apply (stepB c (s (o - r - 1)) (s (o - r + 1)) (s (o - r)) (s (r + 1)) (s (r - 1)) (s r)); auto; [|apply sne; lia].
    rewrite <- I2. ring.
Qed.
End Ord.
End Eds.
