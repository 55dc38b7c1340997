(** Abelian groups: multiples, orders.  Specification for GrpModel. *)
From Coq Require Import ZArith Znumtheory Lia List Bool.
From Verif Require Import Base GrpModel.
Import ListNotations.
Open Scope Z_scope.

(** the laws; two points have the same x-coordinate exactly if they are equal or opposite *)
Record is_grp (g : grp) : Prop := {
  g_assoc : forall P Q R, gadd g P (gadd g Q R) = gadd g (gadd g P Q) R;
  g_comm : forall P Q, gadd g P Q = gadd g Q P;
  g_zero : forall P, gadd g (gz g) P = P;
  g_neg : forall P, gadd g P (gneg g P) = gz g;
  g_eq : forall P Q, geq g P Q = true <-> P = Q;
  g_xc : forall P Q, P <> gz g -> Q <> gz g -> (gx g P = gx g Q <-> P = Q \/ P = gneg g Q) }.

Section G.
Variable g : grp.
Hypothesis GG : is_grp g.
Notation "P +' Q" := (gadd g P Q) (at level 50, left associativity).
Notation "-' P" := (gneg g P) (at level 35, right associativity).
Notation "0'" := (gz g).

(** *** Multiples: n P = P + ... + P *)
Fixpoint nmul (n : nat) (P : el g) : el g := match n with O => 0' | S k => P +' nmul k P end.
Definition mul (n : Z) (P : el g) : el g := if n <? 0 then -' nmul (Z.to_nat (- n)) P else nmul (Z.to_nat n) P.

Lemma ga P Q R : P +' (Q +' R) = P +' Q +' R. Proof. apply (g_assoc g GG). Qed.
Lemma gc P Q : P +' Q = Q +' P. Proof. apply (g_comm g GG). Qed.
Lemma g0l P : 0' +' P = P. Proof. apply (g_zero g GG). Qed.
Lemma g0r P : P +' 0' = P. Proof. rewrite gc. apply g0l. Qed.
Lemma gnr P : P +' -' P = 0'. Proof. apply (g_neg g GG). Qed.
Lemma gnl P : -' P +' P = 0'. Proof. rewrite gc. apply gnr. Qed.
Lemma gcan P Q R : P +' Q = P +' R -> Q = R.
Proof. intros H. rewrite <- (g0l Q), <- (g0l R), <- (gnl P), <- !ga, H. reflexivity. Qed.
Lemma gneg_u P Q : P +' Q = 0' -> Q = -' P.
Proof. intros H. apply (gcan P). rewrite H, gnr. reflexivity. Qed.
Lemma gneg0 : -' 0' = 0'. Proof. symmetry. apply gneg_u. apply g0l. Qed.
Lemma gnn P : -' -' P = P. Proof. symmetry. apply gneg_u. apply gnl. Qed.
Lemma gnadd P Q : -' (P +' Q) = -' P +' -' Q.
Proof. symmetry. apply gneg_u. rewrite ga, <- (ga P Q (-' P)), (gc Q (-' P)), (ga P (-' P) Q), gnr, g0l, gnr. reflexivity. Qed.
Lemma gswap P Q R S : (P +' Q) +' (R +' S) = (P +' R) +' (Q +' S).
Proof. rewrite !ga. f_equal. rewrite <- !ga. f_equal. apply gc. Qed.
Lemma gsub P Q : P +' -' Q = 0' <-> P = Q.
Proof. split; [|intros ->; apply gnr]. intros H. apply (gcan (-' Q)). rewrite gnl, gc. exact H. Qed.
Lemma gmove P Q R : P = Q +' R <-> P +' -' R = Q.
Proof. split; [intros ->; rewrite <- ga, gnr, g0r|intros <-; rewrite <- ga, gnl, g0r]; reflexivity. Qed.

Lemma is0_iff P : is0 g P = true <-> P = 0'. Proof. apply (g_eq g GG). Qed.
Lemma is0_false P : is0 g P = false <-> P <> 0'.
Proof. rewrite <- is0_iff. destruct (is0 g P); intuition congruence. Qed.
Lemma geq_false P Q : geq g P Q = false <-> P <> Q.
Proof. rewrite <- (g_eq g GG). destruct (geq g P Q); intuition congruence. Qed.
Lemma eqdec (P Q : el g) : {P = Q} + {P <> Q}.
Proof. destruct (geq g P Q) eqn:E; [left; apply (g_eq g GG); exact E|right; apply geq_false; exact E]. Qed.

Lemma nmul_add a b P : nmul (a + b) P = nmul a P +' nmul b P.
Proof. induction a as [|a IH]; cbn [nmul plus]; [rewrite g0l; reflexivity|]. rewrite IH, ga. reflexivity. Qed.
Lemma nmul_gadd n P Q : nmul n (P +' Q) = nmul n P +' nmul n Q.
Proof. induction n as [|n IH]; cbn [nmul]; [rewrite g0l; reflexivity|]. rewrite IH. apply gswap. Qed.
Lemma nmul_neg n P : nmul n (-' P) = -' nmul n P.
Proof. induction n as [|n IH]; cbn [nmul]; [rewrite gneg0; reflexivity|]. rewrite IH, gnadd. reflexivity. Qed.

Lemma mul_nat n P : mul (Z.of_nat n) P = nmul n P.
Proof. unfold mul. destruct (Z.ltb_spec (Z.of_nat n) 0); [lia|]. rewrite Nat2Z.id. reflexivity. Qed.
Lemma mul_neg n P : mul (- n) P = -' mul n P.
Proof.
  unfold mul. destruct (Z.ltb_spec (- n) 0), (Z.ltb_spec n 0); try lia.
  - rewrite Z.opp_involutive. reflexivity.
  - rewrite gnn. reflexivity.
  - replace n with 0 by lia. cbn. rewrite gneg0. reflexivity.
Qed.
Lemma mul_0 P : mul 0 P = 0'. Proof. reflexivity. Qed.
Lemma mul_1 P : mul 1 P = P. Proof. change 1 with (Z.of_nat 1). rewrite mul_nat. cbn. apply g0r. Qed.
Lemma mul_succ n P : mul (n + 1) P = mul n P +' P.
Proof.
  destruct (Z.le_gt_cases 0 n) as [H|H].
  - rewrite <- (Z2Nat.id n H). replace (Z.of_nat (Z.to_nat n) + 1) with (Z.of_nat (S (Z.to_nat n))) by lia.
    rewrite !mul_nat. cbn [nmul]. apply gc.
  - replace n with (- Z.of_nat (S (Z.to_nat (- n - 1)))) at 2 by lia.
    replace (n + 1) with (- Z.of_nat (Z.to_nat (- n - 1))) by lia. rewrite !mul_neg, !mul_nat. cbn [nmul].
    rewrite gnadd, <- ga, (gc (-' nmul _ P) P), ga, gnl, g0l. reflexivity.
Qed.
Lemma mul_add a b P : mul (a + b) P = mul a P +' mul b P.
Proof.
  assert (N : forall k, mul (a + Z.of_nat k) P = mul a P +' mul (Z.of_nat k) P).
  { induction k as [|k IH]; [change (Z.of_nat 0) with 0; rewrite Z.add_0_r, mul_0, g0r; reflexivity|].
    rewrite Nat2Z.inj_succ, <- Z.add_1_r, Z.add_assoc, !mul_succ, IH, ga. reflexivity. }
  assert (M : forall k, mul (a - Z.of_nat k) P = mul a P +' mul (- Z.of_nat k) P).
  { induction k as [|k IH]; [change (Z.of_nat 0) with 0; rewrite Z.sub_0_r, mul_0, g0r; reflexivity|].
    apply (gcan P). rewrite (gc P), <- mul_succ. replace (a - Z.of_nat (S k) + 1) with (a - Z.of_nat k) by lia. rewrite IH.
    rewrite (gc P), <- ga, <- mul_succ. do 2 f_equal. lia. }
  destruct (Z.le_gt_cases 0 b) as [H|H].
  - rewrite <- (Z2Nat.id b H). apply N.
  - replace b with (- Z.of_nat (Z.to_nat (- b))) by lia. apply M.
Qed.
Lemma mul_sub a b P : mul (a - b) P = mul a P +' -' mul b P.
Proof. unfold Z.sub. rewrite mul_add, mul_neg. reflexivity. Qed.
Lemma mul_gadd n P Q : mul n (P +' Q) = mul n P +' mul n Q.
Proof. unfold mul. destruct (n <? 0); rewrite nmul_gadd; [rewrite gnadd|]; reflexivity. Qed.
Lemma mul_gneg n P : mul n (-' P) = -' mul n P.
Proof. unfold mul. destruct (n <? 0); rewrite nmul_neg; reflexivity. Qed.
Lemma mul_g0 n : mul n 0' = 0'.
Proof. apply (gcan (mul n 0')). rewrite <- mul_gadd, g0l, g0r. reflexivity. Qed.
Lemma mul_mul a b P : mul (a * b) P = mul a (mul b P).
Proof.
  assert (N : forall k, mul (Z.of_nat k * b) P = mul (Z.of_nat k) (mul b P)).
  { induction k as [|k IH]; [reflexivity|]. rewrite Nat2Z.inj_succ, <- Z.add_1_r, Z.mul_add_distr_r, Z.mul_1_l, mul_add, mul_succ, IH. reflexivity. }
  destruct (Z.le_gt_cases 0 a) as [H|H].
  - rewrite <- (Z2Nat.id a H). apply N.
  - replace a with (- Z.of_nat (Z.to_nat (- a))) by lia. rewrite Z.mul_opp_l, !mul_neg, N. reflexivity.
Qed.

(** the binary method *)
Lemma dbl_ok n : forall Q ans, dbl_loop g n Q ans = ans +' mul (Zpos n - (if Z.odd (Zpos n) then 1 else 0)) Q.
Proof.
  assert (ST : forall n', (forall Q ans, dbl_loop g n' Q ans = ans +' mul (Zpos n' - (if Z.odd (Zpos n') then 1 else 0)) Q) ->
    forall Q ans, dbl_loop g n' (Q +' Q) (if Z.odd (Zpos n') then ans +' (Q +' Q) else ans) = ans +' mul (2 * Zpos n') Q).
  { intros n' IH Q ans. rewrite IH. replace (Q +' Q) with (mul 2 Q) by (replace 2 with (1 + 1) by lia; rewrite mul_succ, mul_1; reflexivity).
    rewrite <- mul_mul. destruct (Z.odd (Zpos n')); [rewrite <- ga, <- mul_add|]; do 2 f_equal; lia. }
  induction n as [n IH|n IH|]; intros Q ans.
  - change (dbl_loop g n~1 Q ans) with (dbl_loop g n (Q +' Q) (if Z.odd (Zpos n) then ans +' (Q +' Q) else ans)).
    rewrite (ST n IH). do 2 f_equal.
  - change (dbl_loop g n~0 Q ans) with (dbl_loop g n (Q +' Q) (if Z.odd (Zpos n) then ans +' (Q +' Q) else ans)).
    rewrite (ST n IH). do 2 f_equal.
  - cbn [dbl_loop Z.odd Z.sub Z.add Z.opp Z.pos_sub]. rewrite mul_0, g0r. reflexivity.
Qed.
Lemma pt_mul_ok n P : pt_mul g n P = mul n P.
Proof.
  unfold pt_mul. destruct (is0 g P) eqn:E0; cbn [orb].
  { apply is0_iff in E0. rewrite E0, mul_g0. reflexivity. }
  destruct (Z.eqb_spec n 0) as [->|NZ]; [reflexivity|].
  set (r := match Z.abs n with 1 => P | 2 => P +' P | Zpos m => dbl_loop g m P (if Z.odd (Zpos m) then P else 0') | _ => 0' end).
  assert (R : r = mul (Z.abs n) P).
  { assert (L : forall m, dbl_loop g m P (if Z.odd (Zpos m) then P else 0') = mul (Zpos m) P).
    { intros m. rewrite dbl_ok. destruct (Z.odd (Zpos m)); [|rewrite g0l; f_equal; lia].
      rewrite <- (mul_1 P) at 1. rewrite <- mul_add. f_equal. lia. }
    unfold r. destruct (Z.abs n) as [|m|m] eqn:EA; [lia| |lia].
    destruct m as [m|[m|m|]|]; try apply L; [|rewrite mul_1; reflexivity].
    change 2 with (1 + 1). rewrite mul_succ, mul_1. reflexivity. }
  rewrite R. destruct (Z.ltb_spec n 0) as [H|H].
  - rewrite <- mul_neg. f_equal. lia.
  - f_equal. lia.
Qed.

(** *** Orders *)
Definition is_order (P : el g) (n : Z) : Prop := 0 < n /\ forall k, mul k P = 0' <-> (n | k).
Lemma order_unique P n m : is_order P n -> is_order P m -> n = m.
Proof.
  intros [N0 N] [M0 M]. apply Z.divide_antisym_nonneg; try lia; [apply N, M|apply M, N]; apply Z.divide_refl.
Qed.
Lemma order_exists P M : 0 < M -> mul M P = 0' -> exists n, is_order P n /\ (n | M).
Proof.
  intros M0 H.
  assert (EX : forall k, 0 <= k -> (exists n, 0 < n <= k /\ mul n P = 0' /\ forall m, 0 < m < n -> mul m P <> 0') \/
    (forall n, 0 < n <= k -> mul n P <> 0')).
  { apply natlike_ind; [right; intros; lia|]. intros k K [IH|IH].
    - left. destruct IH as (n & B & E & L). exists n. split; [lia|]. auto.
    - destruct (eqdec (mul (Z.succ k) P) 0') as [E|E].
      + left. exists (Z.succ k). split; [lia|]. split; [exact E|]. intros m Hm. apply IH. lia.
      + right. intros n Hn. destruct (Z.eq_dec n (Z.succ k)) as [->|]; [exact E|]. apply IH. lia. }
  destruct (EX M ltac:(lia)) as [(n & B & E & L)|F]; [|exfalso; apply (F M); [lia|exact H]].
  assert (O : forall k, mul k P = 0' -> (n | k)).
  { intros k Hk. apply Z.mod_divide; [lia|]. pose proof (Z.mod_pos_bound k n ltac:(lia)) as BB.
    destruct (Z.eq_dec (k mod n) 0) as [|NZ]; [assumption|]. exfalso. apply (L (k mod n)); [lia|].
    rewrite Z.mod_eq, mul_sub, Hk, Z.mul_comm, mul_mul, E, mul_g0, gneg0, g0l by lia. reflexivity. }
  exists n. split; [|apply O; exact H]. split; [lia|]. intros k. split; [apply O|].
  intros [c ->]. rewrite mul_mul, E, mul_g0. reflexivity.
Qed.
Lemma order_1 P : is_order P 1 <-> P = 0'.
Proof.
  split.
  - intros [_ H]. rewrite <- (mul_1 P). apply H. apply Z.divide_refl.
  - intros ->. split; [lia|]. intros k. rewrite mul_g0. split; [intros _; apply Z.divide_1_l|reflexivity].
Qed.
(** the order of a multiple *)
Lemma order_div P d k : 0 < d -> is_order P (d * k) -> is_order (mul d P) k.
Proof.
  intros D [O0 O]. split; [nia|]. intros j. rewrite <- mul_mul, O, (Z.mul_comm j d).
  apply Z.mul_divide_cancel_l. lia.
Qed.
Lemma order_neg P n : is_order P n -> is_order (-' P) n.
Proof.
  intros [N0 H]. split; [exact N0|]. intros k. rewrite mul_gneg, <- H. split; intros E.
  - rewrite <- (gnn (mul k P)), E. apply gneg0.
  - rewrite E. apply gneg0.
Qed.
(** the order of a sum of points of coprime orders *)
Lemma order_sum P Q a b : is_order P a -> is_order Q b -> rel_prime a b -> is_order (P +' Q) (a * b).
Proof.
  intros [A0 A] [B0 B] C. split; [nia|]. intros k. rewrite mul_gadd. split.
  - intros H. assert (Ka : (a | k)).
    { apply (Gauss a b); [|exact C]. apply A. rewrite mul_mul.
      replace (mul k P) with (-' mul k Q) by (symmetry; apply gneg_u; rewrite gc; exact H).
      rewrite mul_gneg, <- mul_mul. rewrite (proj2 (B (b * k))), gneg0; [reflexivity|apply Z.divide_factor_l]. }
    assert (Kb : (b | k)).
    { apply B. rewrite (proj2 (A k) Ka), g0l in H. exact H. }
    destruct Ka as [x ->]. rewrite Z.mul_comm in Kb.
    apply (Gauss b a) in Kb; [|apply rel_prime_sym; exact C]. destruct Kb as [y ->]. exists y. ring.
  - intros [c ->]. rewrite (proj2 (A (c * (a * b)))), (proj2 (B (c * (a * b)))), g0l; [reflexivity|exists (c * a); ring|exists (c * b); ring].
Qed.
End G.
