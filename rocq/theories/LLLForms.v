(** The Gram minors of a list of vectors as bilinear forms: what a size reduction and a swap
    do to them. *)
From Coq Require Import ZArith Lia.
From Verif Require Import LLLDet.
Open Scope Z_scope.

Section Forms.
Variable V : Type.
Variable G : V -> V -> Z.
Hypothesis Gsym : forall x y, G x y = G y x.
Notation N := (minor G).
Notation D := (gdet G).

(** the first K determinants are positive *)
Definition pos (vs : nat -> V) (K : nat) : Prop := forall l, (l <= K)%nat -> 0 < D vs l.
Definition lin (x' x : V) (q : Z) (y : V) : Prop := forall z, G x' z = G x z - q * G y z.

Lemma pos_rec vs K l x y : pos vs K -> (l <= K)%nat ->
  D vs l * N vs (S l) x y = D vs (S l) * N vs l x y - N vs l x (vs l) * N vs l (vs l) y.
Proof. intros P H. apply minor_rec. specialize (P l H). lia. Qed.

Lemma N_sym vs K : pos vs K -> forall l x y, (l <= S K)%nat -> N vs l x y = N vs l y x.
Proof.
  intros P l. induction l as [|l IH]; intros x y H.
  - rewrite !minor0. apply Gsym.
  - pose proof (P l ltac:(lia)) as Pl.
    pose proof (pos_rec vs K l x y P ltac:(lia)) as E1. pose proof (pos_rec vs K l y x P ltac:(lia)) as E2.
    rewrite (IH y x), (IH y (vs l)), (IH (vs l) x) in E2 by lia.
    apply (Z.mul_reg_l _ _ (D vs l)); [lia|]. rewrite E1, E2. ring.
Qed.
Lemma N_lin vs K : pos vs K -> forall l x' x q y z, (l <= S K)%nat -> lin x' x q y -> N vs l x' z = N vs l x z - q * N vs l y z.
Proof.
  intros P l. induction l as [|l IH]; intros x' x q y z H L.
  - rewrite !minor0. apply L.
  - pose proof (P l ltac:(lia)) as Pl.
    pose proof (pos_rec vs K l x' z P ltac:(lia)) as E1. pose proof (pos_rec vs K l x z P ltac:(lia)) as E2.
    pose proof (pos_rec vs K l y z P ltac:(lia)) as E3.
    rewrite (IH x' x q y z), (IH x' x q y (vs l)) in E1 by (auto; lia).
    apply (Z.mul_reg_l _ _ (D vs l)); [lia|]. rewrite E1.
    transitivity (D vs l * N vs (S l) x z - q * (D vs l * N vs (S l) y z)); [rewrite E2, E3|]; ring.
Qed.
Lemma N_lin_r vs K l x' x q y z : pos vs K -> (l <= S K)%nat -> lin x' x q y -> N vs l z x' = N vs l z x - q * N vs l z y.
Proof. intros P H L. rewrite !(N_sym vs K P l z) by auto. now apply (N_lin vs K). Qed.
Lemma N_rad vs K : pos vs K -> forall l i y, (l <= S K)%nat -> (i < l)%nat -> N vs l (vs i) y = 0.
Proof.
  intros P l. induction l as [|l IH]; intros i y H Hi; [lia|].
  pose proof (P l ltac:(lia)) as Pl. pose proof (pos_rec vs K l (vs i) y P ltac:(lia)) as E.
  apply (Z.mul_reg_l _ _ (D vs l)); [lia|]. rewrite E, Z.mul_0_r.
  destruct (Nat.eq_dec i l) as [->|Ni].
  - rewrite gdetS. ring.
  - rewrite !(IH i) by lia. ring.
Qed.
Lemma N_rad_r vs K l i y : pos vs K -> (l <= S K)%nat -> (i < l)%nat -> N vs l y (vs i) = 0.
Proof. intros P H Hi. rewrite (N_sym vs K P) by auto. now apply (N_rad vs K). Qed.

(** size reduction of vector k by vector j < k *)
Section Redi.
Variables vs vs' : nat -> V.
Variables k j : nat.
Variable q : Z.
Hypothesis Hjk : (j < k)%nat.
Hypothesis Hoth : forall i, i <> k -> vs' i = vs i.
Hypothesis Hk : lin (vs' k) (vs k) q (vs j).

Lemma redi_forms K : pos vs K -> forall l, (l <= S K)%nat -> D vs' l = D vs l /\ forall x y, N vs' l x y = N vs l x y.
Proof.
  intros P l. induction l as [|l IH]; intros H.
  - rewrite !gdet0. split; [reflexivity|]. intros. now rewrite !minor0.
  - destruct (IH ltac:(lia)) as (ED & EN). pose proof (P l ltac:(lia)) as Pl.
    assert (A : forall x, N vs l x (vs' l) = N vs l x (vs l)).
    { intros x. destruct (Nat.eq_dec l k) as [->|Nl]; [|now rewrite Hoth].
      rewrite (N_lin_r vs K k _ _ _ _ x P ltac:(lia) Hk), (N_rad_r vs K k j x P) by lia. ring. }
    assert (B : forall x, N vs l (vs' l) x = N vs l (vs l) x).
    { intros x. now rewrite !(N_sym vs K P l _ x) by lia. }
    assert (ED' : D vs' (S l) = D vs (S l)).
    { rewrite !gdetS, EN, A, B. reflexivity. }
    split; [exact ED'|]. intros x y.
    assert (E1 := minor_rec G vs' l x y). rewrite ED in E1. specialize (E1 ltac:(lia)).
    rewrite ED', !EN, A, B in E1. rewrite <- (pos_rec vs K l x y P) in E1 by lia.
    apply Z.mul_reg_l in E1; lia.
Qed.
Lemma redi_pos K : pos vs K -> pos vs' K.
Proof. intros P l H. destruct (redi_forms K P l ltac:(lia)) as (-> & _). auto. Qed.
End Redi.

(** exchange of the vectors a and a+1 *)
Section Swap.
Variables vs vs' : nat -> V.
Variables a K : nat.
Hypothesis P : pos vs K.
Hypothesis Ha : (S (S a) <= K)%nat.
Hypothesis Hoth : forall i, i <> a -> i <> S a -> vs' i = vs i.
Hypothesis H0 : vs' a = vs (S a).
Hypothesis H1 : vs' (S a) = vs a.

Lemma swap_low l x y : (l <= a)%nat -> D vs' l = D vs l /\ N vs' l x y = N vs l x y.
Proof. intros H. split; [apply gdet_ext | apply minor_ext]; intros; apply Hoth; lia. Qed.
Lemma swap_bb : D vs (S a) * N vs a (vs (S a)) (vs (S a)) = D vs a * D vs (S (S a)) + N vs a (vs (S a)) (vs a) * N vs a (vs (S a)) (vs a).
Proof.
  rewrite (gdetS G vs (S a)).
  rewrite (pos_rec vs K a (vs (S a)) (vs (S a)) P) by lia. rewrite (N_sym vs K P a (vs a)) by lia. ring.
Qed.
Lemma swap_Da : D vs' (S a) = N vs a (vs (S a)) (vs (S a)).
Proof. rewrite gdetS, H0. apply swap_low. lia. Qed.
Lemma swap_Da_pos : 0 < D vs' (S a).
Proof.
  rewrite swap_Da. pose proof swap_bb. pose proof (P a ltac:(lia)). pose proof (P (S a) ltac:(lia)). pose proof (P (S (S a)) Ha). nia.
Qed.
Lemma swap_mid x y : D vs a * N vs' (S a) x y = N vs a (vs (S a)) (vs (S a)) * N vs a x y - N vs a x (vs (S a)) * N vs a (vs (S a)) y.
Proof.
  pose proof (minor_rec G vs' a x y) as E. destruct (swap_low a x y ltac:(lia)) as (ED & _).
  rewrite ED, swap_Da, H0 in E. specialize (E ltac:(pose proof (P a ltac:(lia)); lia)).
  rewrite E. now rewrite !(proj2 (swap_low a _ _ (le_n a))).
Qed.
Lemma swap_high : forall l, (S (S a) <= l)%nat -> (l <= S K)%nat -> D vs' l = D vs l /\ forall x y, N vs' l x y = N vs l x y.
Proof.
  intros l. induction l as [|l IH]; intros Hl HK; [lia|].
  destruct (Nat.eq_dec l (S a)) as [->|Nl].
  - pose proof (P a ltac:(lia)) as Pa. pose proof (P (S a) ltac:(lia)) as Pb.
    assert (ED : D vs' (S (S a)) = D vs (S (S a))).
    { rewrite (gdetS G vs'), H1, (gdetS G vs). apply (Z.mul_reg_l _ _ (D vs a)); [lia|].
      rewrite swap_mid, (pos_rec vs K a _ _ P) by lia. rewrite (gdetS G vs). ring. }
    split; [exact ED|]. intros x y.
    pose proof swap_Da_pos as Pd.
    pose proof (minor_rec G vs' (S a) x y ltac:(lia)) as E. rewrite ED, swap_Da, H1 in E.
    pose proof (pos_rec vs K (S a) x y P ltac:(lia)) as F.
    pose proof (swap_mid x y) as M1. pose proof (swap_mid x (vs a)) as M2. pose proof (swap_mid (vs a) y) as M3.
    pose proof (pos_rec vs K a x y P ltac:(lia)) as L1. pose proof (pos_rec vs K a x (vs (S a)) P ltac:(lia)) as L2.
    pose proof (pos_rec vs K a (vs (S a)) y P ltac:(lia)) as L3. pose proof swap_bb as BB.
    rewrite (N_sym vs K P a (vs (S a)) (vs a)) in * by lia. rewrite swap_Da in Pd.
    remember (N vs a (vs a) (vs (S a))) as pq. remember (N vs a (vs (S a)) (vs (S a))) as qq.
    remember (D vs a) as d0. remember (D vs (S a)) as d1. remember (D vs (S (S a))) as d2.
    remember (N vs a x y) as xy. remember (N vs a x (vs a)) as xp. remember (N vs a (vs a) y) as py.
    remember (N vs a x (vs (S a))) as xq. remember (N vs a (vs (S a)) y) as qy.
    remember (N vs' (S a) x y) as m1. remember (N vs' (S a) x (vs a)) as m2. remember (N vs' (S a) (vs a) y) as m3.
    remember (N vs (S a) x y) as l1. remember (N vs (S a) x (vs (S a))) as l2. remember (N vs (S a) (vs (S a)) y) as l3.
    remember (N vs' (S (S a)) x y) as R'. remember (N vs (S (S a)) x y) as R.
    clear - E F M1 M2 M3 L1 L2 L3 BB Pa Pb Pd.
    (* d0^2 d1 qq R' = d0^2 d1 qq R *)
    apply (Z.mul_reg_l _ _ (d0 * d0 * d1 * qq)); [nia|].
    transitivity (d0 * d0 * d1 * (qq * R')); [ring|]. transitivity (d0 * d0 * qq * (d1 * R)); [|ring].
    rewrite E, F.
    transitivity (d1 * ((d0 * d2) * (d0 * m1) - (d0 * m2) * (d0 * m3))); [ring|].
    transitivity (qq * ((d0 * d2) * (d0 * l1) - (d0 * l2) * (d0 * l3))); [|ring].
    rewrite M1, M2, M3, L1, L2, L3. replace (d0 * d2) with (d1 * qq - pq * pq) by lia. ring.
  - destruct (IH ltac:(lia) ltac:(lia)) as (ED & EN). pose proof (P l ltac:(lia)) as Pl.
    assert (Ev : vs' l = vs l) by (apply Hoth; lia).
    assert (ED' : D vs' (S l) = D vs (S l)) by (rewrite !gdetS, EN, Ev; reflexivity).
    split; [exact ED'|]. intros x y.
    pose proof (minor_rec G vs' l x y ltac:(lia)) as E. rewrite ED, ED', !EN, Ev in E.
    rewrite <- (pos_rec vs K l x y P) in E by lia. apply Z.mul_reg_l in E; lia.
Qed.
Lemma swap_pos : pos vs' K.
Proof.
  intros l H. destruct (Nat.le_gt_cases l a) as [L|L].
  - destruct (swap_low l (vs 0%nat) (vs 0%nat) L) as (-> & _). auto.
  - destruct (Nat.eq_dec l (S a)) as [->|Nl]; [apply swap_Da_pos|].
    destruct (swap_high l ltac:(lia) ltac:(lia)) as (-> & _). auto.
Qed.
(** the new entries of the columns a and a+1 of lambda *)
Lemma swap_la x : D vs (S a) * N vs' (S a) x (vs a) = D vs (S (S a)) * N vs a x (vs a) - N vs a (vs (S a)) (vs a) * N vs (S a) x (vs (S a)).
Proof.
  pose proof (P a ltac:(lia)) as Pa. pose proof (swap_mid x (vs a)) as M. pose proof swap_bb as BB.
  pose proof (pos_rec vs K a x (vs (S a)) P ltac:(lia)) as L.
  rewrite (N_sym vs K P a (vs a) (vs (S a))) in L by lia.
  apply (Z.mul_reg_l _ _ (D vs a)); [lia|].
  transitivity (D vs (S a) * (D vs a * N vs' (S a) x (vs a))); [ring|]. rewrite M.
  transitivity ((D vs a * D vs (S (S a))) * N vs a x (vs a) - N vs a (vs (S a)) (vs a) * (D vs a * N vs (S a) x (vs (S a)))); [|ring].
  rewrite L. replace (D vs a * D vs (S (S a))) with (D vs (S a) * N vs a (vs (S a)) (vs (S a)) - N vs a (vs (S a)) (vs a) * N vs a (vs (S a)) (vs a)) by lia. ring.
Qed.
Lemma swap_lb x : D vs (S (S a)) * N vs a x (vs (S a)) = N vs a (vs (S a)) (vs (S a)) * N vs (S a) x (vs (S a)) + N vs a (vs (S a)) (vs a) * N vs' (S a) x (vs a).
Proof.
  pose proof (P a ltac:(lia)) as Pa. pose proof (swap_mid x (vs a)) as M. pose proof swap_bb as BB.
  pose proof (pos_rec vs K a x (vs (S a)) P ltac:(lia)) as L.
  rewrite (N_sym vs K P a (vs a) (vs (S a))) in L by lia.
  apply (Z.mul_reg_l _ _ (D vs a)); [lia|].
  transitivity ((D vs a * D vs (S (S a))) * N vs a x (vs (S a))); [ring|].
  transitivity (N vs a (vs (S a)) (vs (S a)) * (D vs a * N vs (S a) x (vs (S a))) + N vs a (vs (S a)) (vs a) * (D vs a * N vs' (S a) x (vs a))); [|ring].
  rewrite L, M. replace (D vs a * D vs (S (S a))) with (D vs (S a) * N vs a (vs (S a)) (vs (S a)) - N vs a (vs (S a)) (vs a) * N vs a (vs (S a)) (vs a)) by lia. ring.
Qed.
End Swap.
End Forms.
