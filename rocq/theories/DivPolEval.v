(** Evaluation of the integer polynomials of the program in a field *)
From Coq Require Import Ring Field ZArith Lia List Bool Arith.
From Verif Require Import Base DivPolModel DivPolProofs GroupLaw DivPolEds DivPolCurve.
Import ListNotations.

(** ** over the integers *)
Fixpoint pevZ (p : poly) (z : Z) : Z := match p with [] => 0%Z | c :: q => (c + z * pevZ q z)%Z end.
Lemma co_dec p : (forall j, co p j = 0%Z) \/ exists j, co p j <> 0%Z.
Proof.
  induction p as [|a p IH]; [left; intros; apply co_nil|].
  destruct (Z.eq_dec a 0) as [->|N]; [|right; exists O; exact N].
  destruct IH as [H|[j H]]; [left; intros [|j]; [reflexivity|apply H]|right; exists (S j); exact H].
Qed.
Lemma pevZ_zero p z : (forall j, co p j = 0%Z) -> pevZ p z = 0%Z.
Proof.
  induction p as [|a p IH]; intros H; [reflexivity|]. cbn [pevZ]. rewrite IH by (intros j; exact (H (S j))). rewrite (H O : a = 0%Z). lia.
Qed.
(** a nonzero polynomial has no large roots *)
Lemma roots_bound p : (exists j, co p j <> 0%Z) -> exists B, (0 <= B)%Z /\ forall z, (B < z)%Z -> pevZ p z <> 0%Z.
Proof.
  induction p as [|a p IH]; intros [j Hj]; [rewrite co_nil in Hj; lia|].
  destruct (co_dec p) as [Z0|NZ].
  - exists 0%Z. split; [lia|]. intros z _. cbn [pevZ]. rewrite pevZ_zero by auto. destruct j; [cbn in Hj; lia|]. exfalso. apply Hj, Z0.
  - destruct (IH NZ) as (B & HB & H). exists (Z.max B (Z.abs a)). split; [lia|]. intros z Hz. cbn [pevZ]. specialize (H z ltac:(lia)). nia.
Qed.
Lemma all_bound (ps : nat -> poly) N : (forall k, (k < N)%nat -> exists j, co (ps k) j <> 0%Z) ->
  exists B, (0 <= B)%Z /\ forall z, (B < z)%Z -> forall k, (k < N)%nat -> pevZ (ps k) z <> 0%Z.
Proof.
  induction N as [|N IH]; intros H; [exists 0%Z; split; [lia|]; intros; lia|].
  destruct IH as (B & HB & HH); [intros; apply H; lia|]. destruct (roots_bound (ps N) (H N ltac:(lia))) as (B' & HB' & HH').
  exists (Z.max B B'). split; [lia|]. intros z Hz k Hk. destruct (Nat.eq_dec k N) as [->|]; [apply HH'; lia|apply HH; lia].
Qed.

Section Eval.
Variable K : Type.
Variables k0 k1 : K.
Variables kadd kmul ksub : K -> K -> K.
Variable kopp : K -> K.
Variable kdiv : K -> K -> K.
Variable kinv : K -> K.
Hypothesis Kft : field_theory k0 k1 kadd kmul ksub kopp kdiv kinv eq.
Hypothesis keq_dec : forall x y : K, {x = y} + {x <> y}.
Add Field Kfield : Kft.
Declare Scope K_scope.
Delimit Scope K_scope with K.
Bind Scope K_scope with K.
Local Notation "x + y" := (kadd x y) : K_scope.
Local Notation "x * y" := (kmul x y) : K_scope.
Local Notation "x - y" := (ksub x y) : K_scope.
Local Notation "- x" := (kopp x) : K_scope.
Local Notation "x / y" := (kdiv x y) : K_scope.
Local Notation "0" := k0 : K_scope.
Local Notation "1" := k1 : K_scope.
Variable iz : Z -> K.
Hypothesis iz1 : iz 1 = 1%K.
Hypothesis iz_add : forall a b, (iz (a + b) = iz a + iz b)%K.
Hypothesis iz_mul : forall a b, (iz (a * b) = iz a * iz b)%K.
Hypothesis iz_inj : forall a, iz a = 0%K -> a = 0%Z.
Lemma iz0 : iz 0 = 0%K.
Proof. transitivity (iz 0 + iz 0 - iz 0)%K; [ring|]. rewrite <- iz_add. cbn [Z.add]. ring. Qed.
Lemma iz_opp a : (iz (- a) = - iz a)%K.
Proof. transitivity (iz (- a) + iz a - iz a)%K; [ring|]. rewrite <- iz_add. replace (- a + a)%Z with 0%Z by lia. rewrite iz0. ring. Qed.
Lemma iz_sub a b : (iz (a - b) = iz a - iz b)%K.
Proof. unfold Z.sub. rewrite iz_add, iz_opp. ring. Qed.
Fixpoint pev (p : poly) (u : K) : K := match p with [] => 0%K | c :: q => (iz c + u * pev q u)%K end.
Lemma pev_add p : forall q u, (pev (padd p q) u = pev p u + pev q u)%K.
Proof.
  induction p as [|a p IH]; intros q u; [cbn; ring|]. destruct q as [|b q]; cbn [padd pev]; [ring|]. rewrite IH, iz_add. ring.
Qed.
Lemma pev_scal c p u : (pev (pscal c p) u = iz c * pev p u)%K.
Proof. unfold pscal. induction p as [|a p IH]; cbn [map pev]; [ring|]. rewrite IH, iz_mul. ring. Qed.
Lemma pev_sub p q u : (pev (psub p q) u = pev p u - pev q u)%K.
Proof. unfold psub. change (-1)%Z with (- (1))%Z. rewrite pev_add, pev_scal, (iz_opp 1), iz1. ring. Qed.
Lemma pev_mul p q u : (pev (pmul p q) u = pev p u * pev q u)%K.
Proof. induction p as [|a p IH]; cbn [pmul pev]; [ring|]. rewrite pev_add, pev_scal. cbn [pev]. rewrite IH, iz0. ring. Qed.
Lemma pev_iz p z : pev p (iz z) = iz (pevZ p z).
Proof. induction p as [|a p IH]; cbn [pev pevZ]; [now rewrite iz0|]. rewrite IH, iz_add, iz_mul. reflexivity. Qed.
Lemma pev_zero p u : (forall j, co p j = 0%Z) -> pev p u = 0%K.
Proof.
  induction p as [|a p IH]; intros H; [reflexivity|]. cbn [pev]. rewrite IH by (intros j; exact (H (S j))). rewrite (H O : a = 0%Z), iz0. ring.
Qed.

Variables A1 A2 A3 A4 A6 : Z.
Local Notation a1 := (iz A1).
Local Notation a2 := (iz A2).
Local Notation a3 := (iz A3).
Local Notation a4 := (iz A4).
Local Notation a6 := (iz A6).
Local Notation dp := (dp A1 A2 A3 A4 A6).
Local Notation P2 := (div_pol_2 A1 A2 A3 A4 A6).
Local Notation P24 := (psi24 A1 A2 A3 A4 A6).
Local Notation T2 := (T2 K k1 kadd kmul a1 a2 a3 a4 a6).
Local Notation D3 := (D3 K k1 kadd kmul ksub a1 a2 a3 a4 a6).
Local Notation D4 := (D4 K k1 kadd kmul ksub a1 a2 a3 a4 a6).
Lemma iz2 : iz 2 = (1 + 1)%K. Proof. change 2%Z with (1 + 1)%Z. now rewrite iz_add, iz1. Qed.
Lemma iz3 : iz 3 = (1 + 1 + 1)%K. Proof. change 3%Z with (1 + 1 + 1)%Z. now rewrite !iz_add, iz1. Qed.
Lemma iz4 : iz 4 = (1 + 1 + (1 + 1))%K. Proof. change 4%Z with (2 + 2)%Z. now rewrite iz_add, iz2. Qed.
Ltac small := change 5%Z with (2 + 3)%Z; change 6%Z with (2 * 3)%Z; change 8%Z with (2 * 4)%Z; change 10%Z with (2 * (2 + 3))%Z;
   change 12%Z with (3 * 4)%Z; change 16%Z with (4 * 4)%Z; change 40%Z with (4 * (2 * (2 + 3)))%Z.
Ltac izs := small; repeat (rewrite iz_add || rewrite iz_mul || rewrite iz_sub || rewrite iz_opp || rewrite iz0 || rewrite iz1 || rewrite iz2 || rewrite iz3 || rewrite iz4).
Lemma ev_P2 u : pev P2 u = T2 u.
Proof. unfold div_pol_2, DivPolCurve.T2, b2, b4, b6. cbn [pev]. izs. ring. Qed.
Lemma ev_d3 u : pev (dp 3) u = D3 u.
Proof. rewrite dp3. unfold div_pol_3, DivPolCurve.D3, b2, b4, b6, b8. cbn [pev]. izs. ring. Qed.
Lemma ev_d4 u : pev (dp 4) u = D4 u.
Proof. rewrite dp4. unfold div_pol_4, DivPolCurve.D4, b2, b4, b6, b8. cbn [pev]. izs. ring. Qed.
Lemma ev_P24 u : pev P24 u = (T2 u * T2 u)%K.
Proof.
  unfold psi24. cbv zeta. rewrite pev_mul.
  assert (E : pev (padd (pscal 4 (dp_f1 A2 A4 A6)) (pmul (dp_f2 A1 A3) (dp_f2 A1 A3))) u = T2 u).
  { rewrite pev_add, pev_scal, pev_mul. unfold dp_f1, dp_f2, pX. rewrite !pev_add, !pev_mul, !pev_add, !pev_mul, !pev_add, !pev_scal.
    unfold DivPolCurve.T2, b2, b4, b6. cbn [pev]. izs. ring. }
  now rewrite E.
Qed.
Lemma dp_dsys u : dsys K k0 k1 kmul ksub (T2 u) (fun n => pev (dp n) u).
Proof.
  split; [rewrite dp0; cbn [pev]; rewrite iz0; ring|]. split; [rewrite dp1; cbn [pev]; rewrite iz1; ring|].
  split; [rewrite dp2; cbn [pev]; rewrite iz1; ring|]. split; intros m Hm.
  - rewrite dp_odd by auto. unfold odd1, odd2. cbv zeta. destruct (Nat.even m); rewrite pev_sub, !pev_mul, ev_P24; ring.
  - rewrite dp_even by auto. rewrite pev_mul, pev_sub, !pev_mul. ring.
Qed.

(** the curve is nonsingular *)
Local Notation on := (on kadd kmul a1 a2 a3 a4 a6).
Local Notation fy := (fy kadd kmul a1 a3).
Local Notation fx := (fx k1 kadd kmul ksub a1 a2 a4).
Definition discZ : Z :=
  let b2 := (A1 * A1 + 4 * A2)%Z in let b4 := (2 * A4 + A1 * A3)%Z in let b6 := (A3 * A3 + 4 * A6)%Z in
  let b8 := (A1 * A1 * A6 + 4 * A2 * A6 - A1 * A3 * A4 + A2 * A3 * A3 - A4 * A4)%Z in
  (- b2 * b2 * b8 - 8 * b4 * b4 * b4 - 27 * b6 * b6 + 9 * b2 * b4 * b6)%Z.
Lemma nonsing_iz : discZ <> 0%Z -> forall x y, on x y -> fy x y <> 0%K \/ fx x y <> 0%K.
Proof.
  intros D x y H. destruct (keq_dec (fy x y) 0%K) as [EY|]; [|auto]. destruct (keq_dec (fx x y) 0%K) as [EX|]; [|auto]. exfalso.
  apply D, iz_inj. unfold discZ. cbv zeta. change 27%Z with (3 * (3 * 3))%Z. change 9%Z with (3 * 3)%Z. izs.
  unfold GroupLaw.fy in EY. unfold GroupLaw.fx in EX. unfold GroupLaw.on in H.
  assert (H3 : a3 = (- y - y - a1 * x)%K). { transitivity ((y + y + a1 * x + a3) - y - y - a1 * x)%K; [ring|]. rewrite EY. ring. }
  assert (H4 : a4 = (a1 * y - (1 + 1 + 1) * x * x - (1 + 1) * a2 * x)%K).
  { transitivity (((1 + 1 + 1) * x * x + (1 + 1) * a2 * x + a4 - a1 * y) + a1 * y - (1 + 1 + 1) * x * x - (1 + 1) * a2 * x)%K; [ring|]. rewrite EX. ring. }
  assert (H6 : a6 = (y * y + a1 * x * y + a3 * y - x * x * x - a2 * x * x - a4 * x)%K). { rewrite H. ring. }
  rewrite H6, H4, H3. ring.
Qed.

Lemma lift_sq x r : (1 + 1 <> 0 -> r * r = (a1 * x + a3) * (a1 * x + a3) + (1 + 1) * (1 + 1) * (x * x * x + a2 * x * x + a4 * x + a6) ->
  on x ((r - (a1 * x + a3)) / (1 + 1)))%K.
Proof.
  intros N E. unfold GroupLaw.on. pose proof (DivPolEds.k_ne K k0 k1 kadd kmul ksub kopp kdiv kinv Kft _ _ N N) as N4.
  transitivity ((r * r - (a1 * x + a3) * (a1 * x + a3)) / ((1 + 1) * (1 + 1)))%K; [field; auto|]. rewrite E. field. auto.
Qed.

(** the relation of an elliptic divisibility sequence as an integer polynomial *)
Definition pT (n : nat) (p : poly) : poly := if Nat.even n then pmul P2 p else p.
Definition Ipol (n d : nat) : poly :=
  psub (pT d (pmul (dp (2 * n + d)) (dp d)))
    (psub (pmul (pT (n + d + 1) (pmul (dp (n + d + 1)) (dp (n + d - 1)))) (pT n (pmul (dp n) (dp n))))
          (pmul (pT (n + 1) (pmul (dp (n + 1)) (dp (n - 1)))) (pT (n + d) (pmul (dp (n + d)) (dp (n + d)))))).
Local Notation psi := (psi K kadd kmul a1 a3).
Lemma ev_psi2 x y m n : on x y -> Nat.even m = Nat.even n ->
  pev (pT m (pmul (dp m) (dp n))) x = (psi x y (fun n => pev (dp n) x) m * psi x y (fun n => pev (dp n) x) n)%K.
Proof.
  intros H E. pose proof (t_T2 K k0 k1 kadd kmul ksub kopp kdiv kinv Kft a1 a2 a3 a4 a6 x y H) as T.
  unfold pT, DivPolCurve.psi. rewrite E. destruct (Nat.even n); [|apply pev_mul]. rewrite !pev_mul, ev_P2, <- T. ring.
Qed.
Lemma even_2 n : Nat.even (S (S n)) = Nat.even n. Proof. reflexivity. Qed.
Lemma ev_Ipol x y n d : on x y -> (1 <= n)%nat -> (1 <= d)%nat -> let s := psi x y (fun n => pev (dp n) x) in
  (pev (Ipol n d) x = s (2 * n + d)%nat * s d - (s (n + d + 1)%nat * s (n + d - 1)%nat * (s n * s n) - s (n + 1)%nat * s (n - 1)%nat * (s (n + d)%nat * s (n + d)%nat)))%K.
Proof.
  intros H Hn Hd s. unfold Ipol. rewrite !pev_sub, !pev_mul.
  assert (E1 : pev (pT d (pmul (dp (2 * n + d)) (dp d))) x = (s (2 * n + d)%nat * s d)%K).
  { replace (pT d) with (pT (2 * n + d)); [apply ev_psi2; auto|]; unfold pT; rewrite ?Nat.even_add, Nat.even_mul; cbn; destruct (Nat.even d); reflexivity. }
  rewrite E1.
  assert (Q : forall m, (1 <= m)%nat -> Nat.even (m + 1) = Nat.even (m - 1)).
  { intros m Hm. replace (m + 1)%nat with (S (S (m - 1))) by lia. apply even_2. }
  rewrite !(ev_psi2 x y) by (auto; apply Q; lia). reflexivity.
Qed.
Local Notation on_pt := (on_pt kadd kmul a1 a2 a3 a4 a6).
Local Notation add := (add k1 kadd kmul ksub kopp kdiv keq_dec a1 a2 a3 a4).
Hypothesis assoc : forall A B C, on_pt A -> on_pt B -> on_pt C -> add (add A B) C = add A (add B C).
Hypothesis nonsing : forall x y, on x y -> fy x y <> 0%K \/ fx x y <> 0%K.
(** the relation holds at a point none of whose small multiples is zero *)
Lemma dp_ne n : (1 <= n)%nat -> exists j, co (dp n) j <> 0%Z.
Proof.
  intros Hn. destruct (dp_ld A1 A2 A3 A4 A6 n Hn) as [E O]. destruct (Nat.Even_or_Odd n) as [[j Ej]|[j Ej]].
  - destruct (E j Ej) as [H _]. eexists. rewrite H. lia.
  - destruct (O j Ej) as [H _]. eexists. rewrite H. lia.
Qed.
Local Notation mulP := (mulP K k1 kadd kmul ksub kopp kdiv keq_dec a1 a2 a3 a4).
Lemma generic N z y : on (iz z) y -> pevZ P2 z <> 0%Z -> (forall k, (1 <= k <= N)%nat -> pevZ (dp k) z <> 0%Z) ->
  forall k, (1 <= k <= N)%nat -> mulP (iz z) y k <> Inf.
Proof.
  intros H HP HD. destruct (least K k1 kadd kmul ksub kopp kdiv keq_dec a1 a2 a3 a4 (iz z) y N) as [G|(o & H1 & H2 & H3)]; [exact G|exfalso].
  pose proof (psi_o K k0 k1 kadd kmul ksub kopp kdiv kinv Kft keq_dec a1 a2 a3 a4 a6 assoc (iz z) y H (fun n => pev (dp n) (iz z)) (dp_dsys _) (ev_d3 _) (ev_d4 _) o ltac:(lia) H2 H3) as Z.
  unfold DivPolCurve.psi in Z. pose proof (t_T2 K k0 k1 kadd kmul ksub kopp kdiv kinv Kft a1 a2 a3 a4 a6 (iz z) y H) as T.
  assert (ND : pev (dp o) (iz z) <> 0%K) by (rewrite pev_iz; intros Q; apply iz_inj in Q; apply (HD o); auto; lia).
  destruct (Nat.even o); [|contradiction].
  assert (NT : fy (iz z) y <> 0%K). { intros Q. rewrite Q in T. apply HP, iz_inj. rewrite <- pev_iz, ev_P2, <- T. ring. }
  apply (DivPolEds.k_ne K k0 k1 kadd kmul ksub kopp kdiv kinv Kft _ _ NT ND). exact Z.
Qed.
Hypothesis lift_y : forall z, exists y, on (iz z) y.
Theorem Ipol_zero n d : (1 <= n)%nat -> (1 <= d)%nat -> forall j, co (Ipol n d) j = 0%Z.
Proof.
  intros Hn Hd. destruct (co_dec (Ipol n d)) as [G|NZ]; [exact G|exfalso].
  set (N := (2 * n + d)%nat).
  destruct (all_bound (fun k => dp (S k)) N) as (B1 & _ & HB1); [intros k _; apply dp_ne; lia|].
  destruct (roots_bound P2) as (B2 & _ & HB2); [exists 3%nat; cbn; lia|].
  destruct (roots_bound _ NZ) as (B3 & _ & HB3).
  set (z := (Z.max B1 (Z.max B2 B3) + 1)%Z). destruct (lift_y z) as [y Hy].
  assert (G : forall k, (1 <= k <= N)%nat -> mulP (iz z) y k <> Inf).
  { apply generic; auto; [apply HB2; lia|]. intros k Hk. replace k with (S (k - 1)) by lia. apply (HB1 z ltac:(lia) (k - 1)%nat). lia. }
  apply (HB3 z ltac:(lia)), iz_inj. rewrite <- pev_iz, (ev_Ipol _ y) by auto.
  pose proof (psi_eds K k0 k1 kadd kmul ksub kopp kdiv kinv Kft keq_dec a1 a2 a3 a4 a6 assoc (iz z) y Hy (fun n => pev (dp n) (iz z)) (dp_dsys _) (ev_d3 _) (ev_d4 _) N ltac:(lia) G n d Hn Hd ltac:(lia)) as E.
  rewrite E. ring.
Qed.
End Eval.
