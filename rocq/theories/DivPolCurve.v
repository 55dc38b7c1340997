(** The values of the division polynomials at a point of a curve over any field. *)
From Coq Require Import Ring Field Arith Lia Bool.
From Verif Require Import GroupLaw DivPolEds.

Section Curve.
Variable K : Type.
Variables k0 k1 : K.
Variables kadd kmul ksub : K -> K -> K.
Variable kopp : K -> K.
Variable kdiv : K -> K -> K.
Variable kinv : K -> K.
Hypothesis Kft : field_theory k0 k1 kadd kmul ksub kopp kdiv kinv eq.
Hypothesis keq_dec : forall x y : K, {x = y} + {x <> y}.
Add Field Kfield : Kft.
Declare Scope K_scope.
Delimit Scope K_scope with K.
Bind Scope K_scope with K.
Local Notation "x + y" := (kadd x y) : K_scope.
Local Notation "x * y" := (kmul x y) : K_scope.
Local Notation "x - y" := (ksub x y) : K_scope.
Local Notation "- x" := (kopp x) : K_scope.
Local Notation "x / y" := (kdiv x y) : K_scope.
Local Notation "0" := k0 : K_scope.
Local Notation "1" := k1 : K_scope.
Local Notation "2" := (k1 + k1)%K : K_scope.
Local Notation "3" := (k1 + k1 + k1)%K : K_scope.
Variables a1 a2 a3 a4 a6 : K.
Local Notation on := (on kadd kmul a1 a2 a3 a4 a6).
Local Notation on_pt := (on_pt kadd kmul a1 a2 a3 a4 a6).
Local Notation fy := (fy kadd kmul a1 a3).
Local Notation fx := (fx k1 kadd kmul ksub a1 a2 a4).
Local Notation neg := (neg kmul ksub kopp a1 a3).
Local Notation add := (add k1 kadd kmul ksub kopp kdiv keq_dec a1 a2 a3 a4).
Local Notation k_ne := (k_ne K k0 k1 kadd kmul ksub kopp kdiv kinv Kft).
Local Notation k_subne := (k_subne K k0 k1 kadd kmul ksub kopp kdiv kinv Kft).
Local Notation k_cancel := (k_cancel K k0 k1 kadd kmul ksub kopp kdiv kinv Kft).
Local Notation k_0 := (k_0 K k0 k1 kadd kmul ksub kopp kdiv kinv Kft).
Local Notation k_sub := (k_sub K k0 k1 kadd kmul ksub kopp kdiv kinv Kft).

Definition b2 := (a1 * a1 + (2 + 2) * a2)%K.
Definition b4 := (2 * a4 + a1 * a3)%K.
Definition b6 := (a3 * a3 + (2 + 2) * a6)%K.
Definition b8 := (a1 * a1 * a6 + (2 + 2) * a2 * a6 - a1 * a3 * a4 + a2 * a3 * a3 - a4 * a4)%K.
Definition Bf (u v w : K) : K :=
  ((u - v) * (u - v) * w * w - (2 * u * v * (u + v) + b2 * u * v + b4 * (u + v) + b6) * w + u * u * v * v - b4 * u * v - b6 * (u + v) - b8)%K.
Lemma Bf12 u v w : Bf u v w = Bf v u w. Proof. unfold Bf. ring. Qed.
Lemma Bf23 u v w : Bf u v w = Bf u w v. Proof. unfold Bf. ring. Qed.

(** abscissae of the sum and the difference of two points, and of a double *)
Lemma sumprod x1 y1 x2 y2 xp yp xm ym w : on x1 y1 -> on x2 y2 -> x1 <> x2 ->
  add (Aff x1 y1) (Aff x2 y2) = Aff xp yp -> add (Aff x1 y1) (neg (Aff x2 y2)) = Aff xm ym ->
  ((x1 - x2) * (x1 - x2) * (w - xp) * (w - xm) = Bf x1 x2 w)%K.
Proof.
  intros H1 H2 N. cbn [GroupLaw.neg GroupLaw.add]. destruct (keq_dec x1 x2) as [E|_]; [contradiction|]. unfold chord.
  intros [= <- _] [= <- _]. apply k_subne in N. unfold GroupLaw.on in *.
  assert (H4 : a4 = ((y1 * y1 + a1 * x1 * y1 + a3 * y1 - x1 * x1 * x1 - a2 * x1 * x1 - (y2 * y2 + a1 * x2 * y2 + a3 * y2 - x2 * x2 * x2 - a2 * x2 * x2)) / (x1 - x2))%K).
  { apply k_cancel with (x1 - x2)%K; [auto|]. rewrite H1, H2. field. auto. }
  assert (H6 : a6 = (y1 * y1 + a1 * x1 * y1 + a3 * y1 - x1 * x1 * x1 - a2 * x1 * x1 - a4 * x1)%K). { rewrite H1. ring. }
  clear H1 H2. unfold Bf, b2, b4, b6, b8. rewrite H6. clear H6. rewrite H4. clear H4. field. auto.
Qed.
Lemma double x y xd yd w : on x y -> add (Aff x y) (Aff x y) = Aff xd yd -> (fy x y * fy x y * (xd - w) = Bf x x w)%K /\ fy x y <> 0%K.
Proof.
  intros H. cbn [GroupLaw.add]. destruct (keq_dec x x) as [_|E]; [|contradiction].
  destruct (keq_dec y _) as [E|N]; [discriminate|]. unfold chord. intros [= <- _].
  assert (F : fy x y <> 0%K).
  { intros F. apply N. unfold GroupLaw.fy in F. transitivity (y + y + a1 * x + a3 - y - a1 * x - a3)%K; [ring|]. rewrite F. ring. }
  split; [|auto]. unfold GroupLaw.on in H.
  assert (H6 : a6 = (y * y + a1 * x * y + a3 * y - x * x * x - a2 * x * x - a4 * x)%K). { rewrite H. ring. }
  unfold Bf, b2, b4, b6, b8. rewrite H6. clear H6 H. unfold GroupLaw.fx, GroupLaw.fy in *. field. auto.
Qed.

(** ** multiples of a point *)
Hypothesis assoc : forall A B C, on_pt A -> on_pt B -> on_pt C -> add (add A B) C = add A (add B C).
Hypothesis nonsing : forall x y, on x y -> fy x y <> 0%K \/ fx x y <> 0%K.
Variables x y : K.
Hypothesis Pon : on x y.
Local Notation P := (Aff x y).
Local Notation add_on := (add_on _ _ _ _ _ _ _ _ _ Kft keq_dec a1 a2 a3 a4 a6).
Local Notation neg_on := (neg_on _ _ _ _ _ _ _ _ _ Kft a1 a2 a3 a4 a6).
Local Notation add_comm := (add_comm _ _ _ _ _ _ _ _ _ Kft keq_dec a1 a2 a3 a4 a6).
Local Notation add_neg := (add_neg _ _ _ _ _ _ _ _ _ Kft keq_dec a1 a2 a3 a4 a6).
Local Notation add_neg_r := (add_neg_r _ _ _ _ _ _ _ _ _ Kft keq_dec a1 a2 a3 a4).
Local Notation neg_neg := (neg_neg _ _ _ _ _ _ _ _ _ Kft a1 a3).
Fixpoint mulP (n : nat) : pt K := match n with O => Inf | S k => add P (mulP k) end.
Definition X (n : nat) : K := match mulP n with Inf => 0%K | Aff u _ => u end.
Lemma P_on : on_pt P. Proof. exact Pon. Qed.
Lemma add_inf_r A : add A Inf = A. Proof. now destruct A. Qed.
Lemma mulP_on n : on_pt (mulP n).
Proof. induction n; cbn [mulP]; [exact I|]. apply add_on; auto. Qed.
Lemma mulP_add m n : mulP (m + n) = add (mulP m) (mulP n).
Proof. induction m as [|m IH]; cbn [mulP Nat.add]; [reflexivity|]. rewrite IH, assoc; auto using mulP_on. Qed.
Lemma mulP_1 : mulP 1 = P. Proof. reflexivity. Qed.
Lemma mulP_sub n d : mulP d = add (mulP (n + d)) (neg (mulP n)).
Proof.
  rewrite Nat.add_comm, mulP_add, assoc, add_neg_r, add_inf_r; auto using mulP_on, neg_on.
Qed.
Lemma mulP_2n n d : mulP (2 * n + d) = add (mulP (n + d)) (mulP n).
Proof. rewrite <- mulP_add. f_equal. lia. Qed.
Lemma same_or_neg u v v' : on u v -> on u v' -> Aff u v = Aff u v' \/ Aff u v = neg (Aff u v').
Proof.
  intros H1 H2. destruct (keq_dec v (- v' - a1 * u - a3)%K) as [E|E]; [right; cbn; now rewrite <- E|].
  left. f_equal. exact (proj1 (same_x _ _ _ _ _ _ _ _ _ Kft _ _ _ _ _ u v v' H1 H2 E)).
Qed.
Lemma X_eq n d : mulP n <> Inf -> mulP (n + d) <> Inf -> X n = X (n + d) -> mulP d = Inf \/ mulP (2 * n + d) = Inf.
Proof.
  intros H1 H2 E. unfold X in E. rewrite (mulP_sub n d), mulP_2n. pose proof (mulP_on n) as O1. pose proof (mulP_on (n + d)) as O2.
  destruct (mulP n) as [|u v]; [contradiction|]. destruct (mulP (n + d)) as [|u' v']; [contradiction|]. subst u'.
  destruct (same_or_neg u v' v O2 O1) as [->| ->]; [left; apply add_neg_r|right].
  rewrite add_comm by (auto using neg_on). apply add_neg_r.
Qed.
Lemma Xne N : (forall k, 1 <= k <= N -> mulP k <> Inf) -> forall n d, 1 <= n -> 1 <= d -> 2 * n + d <= N -> X n <> X (n + d).
Proof. intros NZ n d H1 H2 H3 E. destruct (X_eq n d) as [Z|Z]; auto; [apply NZ; lia|apply NZ; lia| |]; apply NZ in Z; lia || auto. Qed.
Lemma XR N : (forall k, 1 <= k <= N -> mulP k <> Inf) -> forall n d w, 1 <= n -> 1 <= d -> 2 * n + d <= N ->
  ((X (n + d) - X n) * (X (n + d) - X n) * (w - X (2 * n + d)%nat) * (w - X d) = Bf (X (n + d)) (X n) w)%K.
Proof.
  intros NZ n d w H1 H2 H3. pose proof (Xne N NZ n d H1 H2 H3) as NE.
  pose proof (NZ n ltac:(lia)) as Z1. pose proof (NZ d ltac:(lia)) as Z2. pose proof (NZ (n + d) ltac:(lia)) as Z3. pose proof (NZ (2 * n + d) ltac:(lia)) as Z4.
  pose proof (mulP_on n) as O1. pose proof (mulP_on (n + d)) as O2.
  pose proof (mulP_2n n d) as E1. pose proof (mulP_sub n d) as E2. unfold X in *.
  destruct (mulP (2 * n + d)) as [|xp yp]; [contradiction|]. destruct (mulP d) as [|xm ym]; [contradiction|].
  destruct (mulP n) as [|x2 y2]; [contradiction|]. destruct (mulP (n + d)) as [|x1 y1]; [contradiction|].
  apply (sumprod x1 y1 x2 y2 xp yp xm ym); auto.
Qed.
Local Notation t := (fy x y).
Lemma XD : mulP 2 <> Inf -> t <> 0%K /\ forall w, (t * t * (X 2 - w) = Bf (X 1) (X 1) w)%K.
Proof.
  intros H. unfold X. cbn [mulP] in *. rewrite add_inf_r in *. destruct (add P P) as [|xd yd] eqn:E; [contradiction|].
  split; [exact (proj2 (double x y xd yd 0%K Pon E))|]. intros w. exact (proj1 (double x y xd yd w Pon E)).
Qed.
Lemma two_inf : mulP 2 = Inf <-> t = 0%K.
Proof.
  split.
  - intros H. destruct (keq_dec t 0%K) as [E|N]; [auto|exfalso]. cbn [mulP] in H. rewrite add_inf_r in H. cbn [GroupLaw.add] in H.
    destruct (keq_dec x x); [|contradiction]. destruct (keq_dec y _) as [E|_]; [|discriminate]. apply N. unfold GroupLaw.fy. rewrite E at 1. ring.
  - intros H. destruct (mulP 2) eqn:E; [auto|]. destruct (XD ltac:(rewrite E; discriminate)) as [N _]. contradiction.
Qed.

(** ** the sequence of the multiples *)
Fixpoint sg (n : nat) : K * K :=
  match n with O => (1%K, t) | S k => let '(a, b) := sg k in (b, (b * b * (x - X (S (S k))) / a)%K) end.
Definition sigma (n : nat) : K := match n with O => 0%K | S k => fst (sg k) end.
Lemma sigma_SS n : sigma (S (S n)) = snd (sg n).
Proof. cbn [sigma sg]. now destruct (sg n). Qed.
Lemma sigma_SSS n : sigma (S (S (S n))) = (sigma (S (S n)) * sigma (S (S n)) * (x - X (S (S n))) / sigma (S n))%K.
Proof. rewrite !sigma_SS. cbn [sigma sg]. now destruct (sg n). Qed.
Lemma X1 : X 1 = x. Proof. reflexivity. Qed.
Lemma sigma_ne N : (forall k, 1 <= k <= N -> mulP k <> Inf) -> forall k, 1 <= k <= N -> sigma k <> 0%K.
Proof.
  intros NZ. induction k as [k IH] using lt_wf_ind. intros Hk. destruct k as [|[|[|k]]]; [lia| | |].
  - cbn. exact (F_1_neq_0 Kft).
  - cbn. intros E. apply two_inf in E. apply (NZ 2); auto.
  - rewrite sigma_SSS. assert (S1 := IH (S k) ltac:(lia) ltac:(lia)). assert (S2 := IH (S (S k)) ltac:(lia) ltac:(lia)).
    intros E. assert (sigma (S (S k)) * sigma (S (S k)) * (x - X (S (S k))) = 0)%K as E'.
    { transitivity (sigma (S k) * (sigma (S (S k)) * sigma (S (S k)) * (x - X (S (S k))) / sigma (S k)))%K; [field; auto|]. rewrite E. ring. }
    revert E'. repeat apply k_ne; auto. apply k_subne. rewrite <- X1. replace (S (S k)) with (1 + S k) by lia. apply (Xne N); auto; lia.
Qed.
Lemma sigma_B N : (forall k, 1 <= k <= N -> mulP k <> Inf) ->
  forall k, k < N -> (sigma (k + 2) * sigma k = sigma (k + 1) * sigma (k + 1) * (X 1 - X (k + 1)))%K.
Proof.
  intros NZ k Hk. destruct k as [|k]; [cbn [Nat.add]; rewrite X1; cbn [sigma]; ring|].
  replace (S k + 2) with (S (S (S k))) by lia. replace (S k + 1) with (S (S k)) by lia. rewrite sigma_SSS, X1. field.
  apply (sigma_ne N); auto; lia.
Qed.
Lemma sigma_eds N : (forall k, 1 <= k <= N -> mulP k <> Inf) -> forall n d, 1 <= n -> 1 <= d -> 2 * n + d <= N + 1 ->
  (sigma (2 * n + d)%nat * sigma d = sigma (n + d + 1) * sigma (n + d - 1) * (sigma n * sigma n) - sigma (n + 1) * sigma (n - 1) * (sigma (n + d) * sigma (n + d)))%K.
Proof.
  intros NZ. apply (eds K k0 k1 kadd kmul ksub kopp kdiv kinv Kft sigma X Bf Bf12 Bf23 N).
  - reflexivity.
  - now apply sigma_B.
  - now apply sigma_ne.
  - now apply Xne.
  - intros. now apply (XR N).
  - intros H. exact (proj2 (XD (NZ 2 ltac:(lia)))).
Qed.
Lemma sigma_recs N : (forall k, 1 <= k <= N -> mulP k <> Inf) -> recs K kmul ksub (N + 1) sigma.
Proof.
  intros NZ. split; intros m H1 H2.
  - pose proof (sigma_eds N NZ m 1 ltac:(lia) ltac:(lia) ltac:(lia)) as E. replace (m + 1 - 1) with m in E by lia. replace (m + 1 + 1) with (m + 2) in E by lia.
    change (sigma 1) with 1%K in E. transitivity (sigma (2 * m + 1)%nat * 1)%K; [ring|]. rewrite E. ring.
  - pose proof (sigma_eds N NZ (m - 1) 2 ltac:(lia) ltac:(lia) ltac:(lia)) as E. replace (2 * (m - 1) + 2) with (2 * m) in E by lia.
    replace (m - 1 + 2 + 1) with (m + 2) in E by lia. replace (m - 1 + 2 - 1) with m in E by lia. replace (m - 1 + 1) with m in E by lia.
    replace (m - 1 - 1) with (m - 2) in E by lia. replace (m - 1 + 2) with (m + 1) in E by lia. rewrite E. ring.
Qed.

(** ** the values of the division polynomials at P: [d n] is that of the polynomial the
    program computes, without the factor t for even n *)
Variable d : nat -> K.
Definition T2 (u : K) : K := ((2 + 2) * u * u * u + b2 * u * u + 2 * b4 * u + b6)%K.
Definition D3 (u : K) : K := (3 * u * u * u * u + b2 * u * u * u + 3 * b4 * u * u + 3 * b6 * u + b8)%K.
Definition D4 (u : K) : K :=
  (2 * u * u * u * u * u * u + b2 * u * u * u * u * u + (2 + 3) * b4 * u * u * u * u + 2 * (2 + 3) * b6 * u * u * u + 2 * (2 + 3) * b8 * u * u
   + (b2 * b8 - b4 * b6) * u + b4 * b8 - b6 * b6)%K.
Definition dsys (T : K) (d : nat -> K) : Prop :=
  d 0%nat = 0%K /\ d 1%nat = 1%K /\ d 2%nat = 1%K /\
  (forall m, 2 <= m -> d (2 * m + 1)%nat =
     let t1 := (d (m + 2)%nat * (d m * d m * d m))%K in let t2 := (d (m - 1)%nat * (d (m + 1)%nat * d (m + 1)%nat * d (m + 1)%nat))%K in
     if Nat.even m then (T * T * t1 - t2)%K else (t1 - T * T * t2)%K) /\
  (forall m, 3 <= m -> d (2 * m)%nat = (d m * (d (m + 2)%nat * (d (m - 1)%nat * d (m - 1)%nat) - d (m - 2)%nat * (d (m + 1)%nat * d (m + 1)%nat)))%K).
Hypothesis Hd : dsys (T2 x) d.
Hypothesis d3 : d 3 = D3 x.
Hypothesis d4 : d 4 = D4 x.
Definition psi (n : nat) : K := if Nat.even n then (t * d n)%K else d n.
Lemma t_T2 : (t * t = T2 x)%K.
Proof.
  pose proof Pon as H. unfold GroupLaw.on in H.
  assert (H6 : a6 = (y * y + a1 * x * y + a3 * y - x * x * x - a2 * x * x - a4 * x)%K). { rewrite H. ring. }
  unfold T2, b2, b4, b6. rewrite H6. unfold GroupLaw.fy. ring.
Qed.
Lemma even_S n : Nat.even (S n) = negb (Nat.even n).
Proof. now rewrite Nat.even_succ, <- Nat.negb_even. Qed.
Lemma psi_recs N : recs K kmul ksub N psi.
Proof.
  destruct Hd as (_ & _ & E2 & O & E). split; intros m H1 H2; unfold psi.
  - replace (Nat.even (2 * m + 1)) with false by (now rewrite Nat.add_1_r, Nat.even_succ, Nat.odd_mul). rewrite (O m H1). rewrite <- t_T2.
    replace (Nat.even (m + 2)) with (Nat.even m) by (symmetry; replace (m + 2) with (S (S m)) by lia; reflexivity).
    assert (Q : Nat.even (m - 1) = negb (Nat.even m) /\ Nat.even (m + 1) = negb (Nat.even m)).
    { destruct m as [|m]; [lia|]. replace (S m - 1) with m by lia. rewrite Nat.add_1_r, !even_S. now destruct (Nat.even m). }
    destruct Q as [-> ->]. cbv zeta. destruct (Nat.even m); cbn [negb]; ring.
  - replace (Nat.even (2 * m)) with true by (now rewrite Nat.even_mul). cbn [Nat.even]. rewrite (E m H1), E2.
    assert (Q : Nat.even (m - 1) = negb (Nat.even m) /\ Nat.even (m + 1) = negb (Nat.even m) /\ Nat.even (m - 2) = Nat.even m).
    { destruct m as [|[|m]]; [lia|lia|]. replace (S (S m) - 1) with (S m) by lia. replace (S (S m) - 2) with m by lia.
      rewrite Nat.add_1_r, !even_S. now destruct (Nat.even m). }
    replace (Nat.even (m + 2)) with (Nat.even m) by (symmetry; replace (m + 2) with (S (S m)) by lia; reflexivity).
    destruct Q as (-> & -> & ->). destruct (Nat.even m); cbn [negb]; ring.
Qed.
Lemma D3_Bf : D3 x = (- Bf x x x)%K.
Proof. unfold D3, Bf. ring. Qed.
Lemma D4_x3 u : (T2 x * (u - x) = - D3 x)%K -> T2 x <> 0%K -> (T2 x * T2 x * (Bf u x (x + 1) - (u - x) * (u - x)) = D4 x * T2 x)%K.
Proof.
  intros H N. assert (E0 : Bf u x x = 0%K).
  { transitivity (- (T2 x * (u - x)) - D3 x)%K; [unfold Bf, T2, D3; ring|]. rewrite H. ring. }
  transitivity (T2 x * T2 x * (Bf u x x - ((2 * 3 * x * x + b2 * x + b4) * (u - x) + T2 x)))%K; [unfold Bf, T2; ring|]. rewrite E0.
  transitivity (- (T2 x * ((2 * 3 * x * x + b2 * x + b4) * (T2 x * (u - x)) + T2 x * T2 x)))%K; [ring|]. rewrite H.
  transitivity (((2 * 3 * x * x + b2 * x + b4) * D3 x - T2 x * T2 x) * T2 x)%K; [ring|]. f_equal.
  unfold D4, D3, T2, b8, b2, b4, b6. ring.
Qed.
(** below the order of P the two sequences agree *)
Lemma psi_sigma N : 1 <= N -> (forall k, 1 <= k <= N -> mulP k <> Inf) -> forall k, k <= N + 1 -> psi k = sigma k.
Proof.
  intros HN NZ. destruct Hd as (E0 & E1 & E2 & _ & _). intros k Hk. symmetry. revert k Hk.
  apply (recs_eq K k0 k1 kadd kmul ksub kopp kdiv kinv Kft (N + 1)); [now apply sigma_recs|apply psi_recs| |].
  { destruct (le_lt_dec 2 N); [left|right; lia]. apply (sigma_ne N); auto. }
  assert (S3 : 2 <= N -> t <> 0%K /\ sigma 3 = D3 x /\ (T2 x * (X 2 - x) = - D3 x)%K).
  { intros H2. destruct (XD (NZ 2 ltac:(lia))) as [NT XX]. split; [auto|]. pose proof (XX x) as XX1. rewrite X1 in XX1. rewrite t_T2 in XX1.
    assert (E : (T2 x * (X 2 - x) = - D3 x)%K). { rewrite XX1, D3_Bf. ring. }
    split; [|auto]. rewrite sigma_SSS. cbn [sigma sg fst].
    transitivity (- (T2 x * (X 2 - x)))%K; [rewrite <- t_T2; field; exact (F_1_neq_0 Kft)|]. rewrite E. ring. }
  intros k H4 Hk. destruct k as [|[|[|[|[|k]]]]]; [| | | | |lia]; unfold psi; cbn [Nat.even].
  - rewrite E0. cbn. ring.
  - now rewrite E1.
  - rewrite E2. cbn. ring.
  - rewrite d3. apply S3. lia.
  - rewrite d4. destruct (S3 ltac:(lia)) as (NT & E3 & EX). 
    assert (NT2 : T2 x <> 0%K) by (rewrite <- t_T2; now apply k_ne).
    pose proof (XR N NZ 1 1 (x + 1)%K ltac:(lia) ltac:(lia) ltac:(lia)) as R. cbn [Nat.add Nat.mul] in R. rewrite X1 in R.
    pose proof (D4_x3 (X 2) EX NT2) as Q. rewrite <- R in Q.
    pose proof (sigma_B N NZ 2 ltac:(lia)) as B. cbn [Nat.add] in B. rewrite X1, E3 in B. change (sigma 2) with t in B.
    apply k_cancel with t; [auto|]. transitivity (sigma 4 * t)%K; [ring|]. rewrite B.
    apply k_cancel with (T2 x); [auto|]. transitivity (D4 x * T2 x * T2 x)%K; [|rewrite <- t_T2; ring]. rewrite <- Q.
    transitivity (T2 x * ((- D3 x) * (- D3 x)) * (x - X 3))%K; [ring|]. rewrite <- EX. ring.
Qed.
Lemma psi_B N : (forall k, 1 <= k <= N -> mulP k <> Inf) -> forall k, 1 <= k <= N ->
  psi k <> 0%K /\ (psi (k + 1) * psi (k - 1) = psi k * psi k * (X 1 - X k))%K.
Proof.
  intros NZ k Hk. pose proof (psi_sigma N ltac:(lia) NZ) as E. split; [rewrite E by lia; now apply (sigma_ne N)|].
  rewrite !E by lia. pose proof (sigma_B N NZ (k - 1) ltac:(lia)) as B.
  replace (k - 1 + 2) with (k + 1) in B by lia. replace (k - 1 + 1) with k in B by lia. exact B.
Qed.
Lemma psi_eds N : 1 <= N -> (forall k, 1 <= k <= N -> mulP k <> Inf) -> forall n d, 1 <= n -> 1 <= d -> 2 * n + d <= N + 1 ->
  (psi (2 * n + d)%nat * psi d = psi (n + d + 1) * psi (n + d - 1) * (psi n * psi n) - psi (n + 1) * psi (n - 1) * (psi (n + d) * psi (n + d)))%K.
Proof.
  intros HN NZ n e H1 H2 H3. rewrite !(psi_sigma N HN NZ) by lia. now apply (sigma_eds N).
Qed.
Lemma least n : (forall k, 1 <= k <= n -> mulP k <> Inf) \/ exists o, 1 <= o <= n /\ mulP o = Inf /\ forall k, 1 <= k < o -> mulP k <> Inf.
Proof.
  induction n as [|n [IH|(o & H1 & H2 & H3)]].
  - left. lia.
  - destruct (mulP (S n)) eqn:E.
    + right. exists (S n). split; [lia|]. split; [auto|]. intros k Hk. apply IH. lia.
    + left. intros k Hk. destruct (Nat.eq_dec k (S n)) as [->|]; [rewrite E; discriminate|apply IH; lia].
  - right. exists o. split; [lia|]. auto.
Qed.

Hypothesis psiE : forall n d, 1 <= n -> 1 <= d ->
  (psi (2 * n + d)%nat * psi d = psi (n + d + 1) * psi (n + d - 1) * (psi n * psi n) - psi (n + 1) * psi (n - 1) * (psi (n + d) * psi (n + d)))%K.
Section Ord.
Variable o : nat.
Hypothesis Ho : 1 <= o.
Hypothesis Oinf : mulP o = Inf.
Hypothesis Omin : forall k, 1 <= k < o -> mulP k <> Inf.
Lemma o_ge2 : 2 <= o.
Proof. destruct o as [|[|o']]; [lia| |lia]. discriminate Oinf. Qed.
Lemma mulP_per k : mulP (k + o) = mulP k.
Proof. now rewrite mulP_add, Oinf, add_inf_r. Qed.
Lemma mulP_jo j : mulP (j * o) = Inf.
Proof. induction j; cbn [Nat.mul]; [reflexivity|]. now rewrite Nat.add_comm, mulP_per. Qed.
Lemma mulP_mod n : mulP n = mulP (n mod o).
Proof.
  pose proof o_ge2. rewrite (Nat.div_mod n o) at 1 by lia. rewrite Nat.add_comm, (Nat.mul_comm o), mulP_add, mulP_jo. apply add_inf_r.
Qed.
Lemma mulP_div n : mulP n = Inf <-> Nat.divide o n.
Proof.
  pose proof o_ge2. rewrite mulP_mod. split.
  - intros E. apply Nat.mod_divide; [lia|]. pose proof (Nat.mod_upper_bound n o ltac:(lia)).
    destruct (n mod o) eqn:Q; [auto|]. exfalso. apply (Omin (S n0)); [lia|auto].
  - intros D. apply Nat.mod_divide in D; [|lia]. now rewrite D.
Qed.
Lemma mulP_refl k : k <= o -> mulP (o - k) = neg (mulP k).
Proof.
  intros H. rewrite (mulP_sub k (o - k)). replace (k + (o - k)) with o by lia. now rewrite Oinf.
Qed.
Lemma X_refl k : 1 <= k < o -> X (o - k) = X k.
Proof.
  intros H. unfold X. rewrite mulP_refl by lia. destruct (mulP k) eqn:E; reflexivity.
Qed.
Lemma X_one n : 1 <= n -> ~ Nat.divide o n -> X n = X 1 -> Nat.divide o (n - 1) \/ Nat.divide o (n + 1).
Proof.
  intros Hn D E. destruct (X_eq 1 (n - 1)) as [Z|Z].
  - discriminate.
  - replace (1 + (n - 1)) with n by lia. intros Z. apply D. now apply mulP_div.
  - replace (1 + (n - 1)) with n by lia. auto.
  - left. now apply mulP_div.
  - right. apply mulP_div. now replace (n + 1) with (2 * 1 + (n - 1)) by lia.
Qed.
Lemma mulP_o1 : mulP (o + 1) <> Inf.
Proof. rewrite Nat.add_comm, mulP_per. discriminate. Qed.
Lemma NZo : forall k, 1 <= k <= o - 1 -> mulP k <> Inf.
Proof. intros k Hk. apply Omin. pose proof o_ge2. lia. Qed.
Lemma psi_o : psi o = 0%K.
Proof.
  pose proof o_ge2. destruct (Nat.eq_dec o 2) as [E|NE].
  - pose proof Oinf as I. rewrite E in I. rewrite E. apply two_inf in I. unfold psi. cbn [Nat.even]. rewrite I. ring.
  - destruct (psi_B (o - 1) NZo (o - 1) ltac:(lia)) as [_ B]. replace (o - 1 + 1) with o in B by lia.
    rewrite (X_refl 1) in B by lia. destruct (psi_B (o - 1) NZo (o - 1 - 1) ltac:(lia)) as [NE2 _].
    apply k_0 with (psi (o - 1 - 1)); [|auto]. transitivity (psi o * psi (o - 1 - 1))%K; [ring|]. rewrite B. ring.
Qed.
Lemma D3_fx : t = 0%K -> D3 x = (- (fx x y * fx x y))%K.
Proof.
  intros H. transitivity (- (fx x y * fx x y) - t * (a1 * fx x y - (a2 + 3 * x) * t))%K; [|rewrite H; ring].
  pose proof Pon as Q. unfold GroupLaw.on in Q.
  assert (H6 : a6 = (y * y + a1 * x * y + a3 * y - x * x * x - a2 * x * x - a4 * x)%K). { rewrite Q. ring. }
  unfold D3, b2, b4, b6, b8. rewrite H6. unfold GroupLaw.fx, GroupLaw.fy. ring.
Qed.
Lemma D4_fy xd yd : t <> 0%K -> add P P = Aff xd yd -> (D4 x = t * t * t * fy xd yd)%K.
Proof.
  intros NT. cbn [GroupLaw.add]. destruct (keq_dec x x); [|contradiction]. destruct (keq_dec y _) as [E|_].
  { exfalso. apply NT. unfold GroupLaw.fy. rewrite E at 1. ring. }
  unfold chord. intros [= <- <-]. pose proof Pon as Q. unfold GroupLaw.on in Q.
  assert (H6 : a6 = (y * y + a1 * x * y + a3 * y - x * x * x - a2 * x * x - a4 * x)%K). { rewrite Q. ring. }
  unfold D4, b2, b4, b6, b8. rewrite H6. clear Q H6. unfold GroupLaw.fx, GroupLaw.fy in *. field. auto.
Qed.
Lemma psi_o1 : psi (o + 1) <> 0%K.
Proof.
  pose proof o_ge2 as G. destruct (le_lt_dec 4 o) as [L|L].
  - destruct (Nat.Even_or_Odd o) as [[m E]|[m E]].
    + pose proof (psiE m 1 ltac:(lia) ltac:(lia)) as Q. replace (2 * m + 1) with (o + 1) in Q by lia.
      destruct (psi_B (o - 1) NZo m ltac:(lia)) as [N1 B1]. destruct (psi_B (o - 1) NZo (m + 1) ltac:(lia)) as [N2 B2]. rewrite B1, B2 in Q.
      assert (XN : X m <> X (m + 1)).
      { intros EX. destruct (X_eq m 1) as [Z|Z]; auto; [apply Omin; lia|apply Omin; lia|discriminate|].
        replace (2 * m + 1) with (o + 1) in Z by lia. now apply mulP_o1. }
      apply (k_ne_l K k0 k1 kadd kmul ksub kopp kdiv kinv Kft) with (psi 1). rewrite Q. apply k_subne in XN.
      intros Z. apply (k_ne _ _ (k_ne _ _ N1 N1) (k_ne _ _ (k_ne _ _ N2 N2) XN)). rewrite <- Z. ring.
    + pose proof (psiE m 2 ltac:(lia) ltac:(lia)) as Q. replace (2 * m + 2) with (o + 1) in Q by lia.
      destruct (psi_B (o - 1) NZo m ltac:(lia)) as [N1 B1]. destruct (psi_B (o - 1) NZo (m + 2) ltac:(lia)) as [N2 B2]. rewrite B1, B2 in Q.
      assert (XN : X m <> X (m + 2)).
      { intros EX. destruct (X_eq m 2) as [Z|Z]; auto; [apply Omin; lia|apply Omin; lia|apply (Omin 2) in Z; [auto|lia]|].
        replace (2 * m + 2) with (o + 1) in Z by lia. now apply mulP_o1. }
      apply (k_ne_l K k0 k1 kadd kmul ksub kopp kdiv kinv Kft) with (psi 2). rewrite Q. apply k_subne in XN.
      intros Z. apply (k_ne _ _ (k_ne _ _ N1 N1) (k_ne _ _ (k_ne _ _ N2 N2) XN)). rewrite <- Z. ring.
  - assert (o = 2 \/ o = 3) as [E|E] by lia; pose proof Oinf as I; rewrite E in I; rewrite E.
    + apply two_inf in I. change (psi (2 + 1)) with (d 3). rewrite d3, (D3_fx I). intros Z.
      destruct (nonsing x y Pon) as [Q|Q]; [contradiction|]. apply (k_ne _ _ Q Q).
      transitivity (- (- (fx x y * fx x y)))%K; [ring|]. rewrite Z. ring.
    + assert (NT : t <> 0%K). { intros Z. apply two_inf in Z. apply (Omin 2); auto; lia. }
      change (psi (3 + 1)) with (t * d 4)%K. rewrite d4.
      assert (E2 : add P P = neg P). { pose proof (mulP_refl 1 ltac:(lia)) as R. rewrite E in R. cbn [Nat.sub mulP] in R. now rewrite !add_inf_r in R. }
      rewrite (D4_fy _ _ NT E2). repeat apply k_ne; auto. intros Z. apply NT. unfold GroupLaw.fy in *.
      transitivity (- (- y - a1 * x - a3 + (- y - a1 * x - a3) + a1 * x + a3))%K; [ring|]. rewrite Z. ring.
Qed.
Lemma psi_ord n : 1 <= n -> (psi n = 0%K <-> mulP n = Inf) /\ (mulP n <> Inf -> (psi (n + 1) * psi (n - 1) = psi n * psi n * (X 1 - X n))%K).
Proof.
  intros Hn. pose proof o_ge2 as G. destruct Hd as (E0 & _).
  assert (S0 : psi 0 = 0%K) by (unfold psi; cbn [Nat.even]; rewrite E0; ring).
  assert (SN : forall k, 1 <= k < o -> psi k <> 0%K) by (intros k Hk; apply (psi_B (o - 1) NZo k); lia).
  assert (SB : forall k, 1 <= k < o -> (psi (k + 1) * psi (k - 1) = psi k * psi k * (X 1 - X k))%K) by (intros k Hk; apply (psi_B (o - 1) NZo k); lia).
  assert (SE : o = 2 -> forall j, psi (j * 2) = 0%K).
  { intros E j. unfold psi. rewrite Nat.even_mul. cbn [Nat.even]. rewrite Bool.orb_true_r. pose proof Oinf as I. rewrite E in I. apply two_inf in I. rewrite I. ring. }
  assert (XP : forall k, X (k + o) = X k) by (intros k; unfold X; now rewrite mulP_per).
  pose proof (ord_ne K k0 k1 kadd kmul ksub kopp kdiv kinv Kft psi psiE o G psi_o psi_o1 SN SE) as ON.
  pose proof (ord_0' K k0 k1 kadd kmul ksub kopp kdiv kinv Kft psi S0 psiE o G psi_o psi_o1 SN SE) as OZ.
  pose proof (ord_B K k0 k1 kadd kmul ksub kopp kdiv kinv Kft keq_dec psi X S0 psiE o G psi_o psi_o1 SN SE SB XP X_refl X_one) as OB.
  split.
  - rewrite mulP_div. split; [|apply OZ]. intros Z. destruct (mulP n) eqn:E; [now apply mulP_div|].
    exfalso. apply (ON n); [|auto]. intros D. apply mulP_div in D. congruence.
  - intros NI. apply OB. intros D. apply NI. now apply mulP_div.
Qed.
End Ord.
Theorem psi_spec n : 1 <= n ->
  (psi n = 0%K <-> mulP n = Inf) /\ (forall u v, mulP n = Aff u v -> (psi (n + 1) * psi (n - 1) = psi n * psi n * (x - u))%K).
Proof.
  intros Hn. assert (G : (psi n = 0%K <-> mulP n = Inf) /\ (mulP n <> Inf -> (psi (n + 1) * psi (n - 1) = psi n * psi n * (X 1 - X n))%K)).
  { destruct (least n) as [NZ|(o & H1 & H2 & H3)].
    - destruct (psi_B n NZ n ltac:(lia)) as [N1 B1]. split; [|auto]. split; intros Z; [contradiction|]. apply NZ in Z; [contradiction|lia].
    - apply (psi_ord o); auto; lia. }
  destruct G as [G1 G2]. split; [auto|]. intros u v E. rewrite G2 by (rewrite E; discriminate). unfold X at 2. rewrite E. reflexivity.
Qed.
End Curve.
