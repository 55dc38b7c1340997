(** Positivity of the Gram determinants and linear independence; the rational Gram-Schmidt
    vectors. *)
From Coq Require Import ZArith QArith Lia Lqa List Bool.
From Verif Require Import LinSpec LinProofs LLLSpec LLLDet LLLForms LLLProofs.
Import ListNotations.
Open Scope Z_scope.

Section Pos.
Variable m : nat.
Variable g : list Z.
Hypothesis Gpos : forall t, (t < m)%nat -> 0 < nth t g 0.
Notation Gf := (G m g).
Notation N := (minor Gf).
Notation D := (gdet Gf).
Variable v : nat -> list Z.
Definition wd (w : nat -> Z) (y : list Z) : Z := sumn m (fun t => nth t g 0 * w t * nth t y 0).

(** the form N_l is an inner product with a combination of x and v_0..v_{l-1} *)
Lemma N_vec K : pos _ Gf v K -> forall l x, (l <= S K)%nat -> exists e c, 0 < e /\
  forall y, wd (fun t => e * D v l * nth t x 0 + sumn l (fun i => c i * nth t (v i) 0)) y = e * N v l x y.
Proof.
  intros P l. induction l as [|l IH]; intros x Hl.
  - exists 1, (fun _ => 0). split; [lia|]. intros y. rewrite minor0, gdet0. unfold wd, G. cbn [sumn]. rewrite (Z.mul_1_l (sumn m _)).
    apply sumn_ext. intros. ring.
  - destruct (IH x ltac:(lia)) as (e1 & c1 & P1 & E1). destruct (IH (v l) ltac:(lia)) as (e2 & c2 & P2 & E2).
    pose proof (P l ltac:(lia)) as Pl.
    exists (e1 * e2 * D v l), (fun i => if Nat.eqb i l then - (e1 * N v l x (v l) * (e2 * D v l)) else e2 * D v (S l) * c1 i - e1 * N v l x (v l) * c2 i).
    split; [nia|]. intros y.
    transitivity (e2 * D v (S l) * wd (fun t => e1 * D v l * nth t x 0 + sumn l (fun i => c1 i * nth t (v i) 0)) y
       - e1 * N v l x (v l) * wd (fun t => e2 * D v l * nth t (v l) 0 + sumn l (fun i => c2 i * nth t (v i) 0)) y).
    + unfold wd. rewrite <- !sumn_mul, <- sumn_sub. apply sumn_ext. intros t _. cbn [sumn]. rewrite Nat.eqb_refl.
      rewrite (sumn_ext l (fun i => (if Nat.eqb i l then _ else _) * nth t (v i) 0)
         (fun i => e2 * D v (S l) * (c1 i * nth t (v i) 0) - e1 * N v l x (v l) * (c2 i * nth t (v i) 0))).
      2:{ intros i Hi. destruct (Nat.eqb_spec i l); [lia|ring]. }
      rewrite sumn_sub, !sumn_mul. ring.
    + rewrite E1, E2. pose proof (pos_rec _ Gf v K l x y P ltac:(lia)) as R.
      transitivity (e1 * e2 * (D v l * N v (S l) x y)); [rewrite R|]; ring.
Qed.
Lemma wd_comb w c l f : (forall t, (t < m)%nat -> f t = sumn l (fun i => c i * nth t (v i) 0)) ->
  sumn m (fun t => nth t g 0 * w t * f t) = sumn l (fun i => c i * wd w (v i)).
Proof.
  intros H. unfold wd. rewrite (sumn_ext m _ (fun t => sumn l (fun i => nth t g 0 * w t * (c i * nth t (v i) 0)))).
  - rewrite sumn_swap. apply sumn_ext. intros i _. rewrite <- sumn_mul. apply sumn_ext. intros. ring.
  - intros t Ht. rewrite H by auto. now rewrite <- sumn_mul.
Qed.
Lemma sumn_nonneg n f : (forall i, (i < n)%nat -> 0 <= f i) -> 0 <= sumn n f.
Proof. induction n; cbn [sumn]; intros H; [lia|]. specialize (IHn ltac:(auto)). specialize (H n ltac:(lia)). lia. Qed.
Lemma sumn_zero n f : (forall i, (i < n)%nat -> 0 <= f i) -> sumn n f = 0 -> forall i, (i < n)%nat -> f i = 0.
Proof.
  induction n; cbn [sumn]; intros H E i Hi; [lia|].
  pose proof (sumn_nonneg n f ltac:(auto)). pose proof (H n ltac:(lia)).
  destruct (Nat.eq_dec i n) as [->|]; [lia|]. apply IHn; auto; lia.
Qed.
Lemma N_nonneg K l x : pos _ Gf v K -> (l <= K)%nat -> 0 <= N v l x x /\
  (N v l x x = 0 -> exists e c, 0 < e /\ forall t, (t < m)%nat -> e * nth t x 0 + sumn l (fun i => c i * nth t (v i) 0) = 0).
Proof.
  intros P Hl. destruct (N_vec K P l x ltac:(lia)) as (e & c & He & E).
  pose proof (P l Hl) as Pl.
  set (w := fun t => e * D v l * nth t x 0 + sumn l (fun i => c i * nth t (v i) 0)) in *.
  assert (S2 : sumn m (fun t => nth t g 0 * w t * w t) = e * e * D v l * N v l x x).
  { rewrite (sumn_ext m _ (fun t => e * D v l * (nth t g 0 * w t * nth t x 0) + nth t g 0 * w t * sumn l (fun i => c i * nth t (v i) 0))).
    - rewrite sumn_add, sumn_mul. change (sumn m (fun t => nth t g 0 * w t * nth t x 0)) with (wd w x). rewrite E.
      rewrite (wd_comb w c l) by reflexivity.
      rewrite (sumn_ext l _ (fun _ => 0)); [rewrite sumn_0; ring|].
      intros i Hi. rewrite E. rewrite (N_rad_r _ Gf (Gsym m g) v K) by (auto; lia). ring.
    - intros t _. change (w t) with (e * D v l * nth t x 0 + sumn l (fun i => c i * nth t (v i) 0)) at 2. ring. }
  assert (W : forall t, (t < m)%nat -> 0 <= nth t g 0 * w t * w t) by (intros t Ht; specialize (Gpos t Ht); nia).
  pose proof (sumn_nonneg m _ W) as Pw. rewrite S2 in Pw. split; [nia|].
  intros E0. rewrite E0, Z.mul_0_r in S2. exists (e * D v l), c. split; [nia|].
  intros t Ht. pose proof (sumn_zero m _ W S2 t Ht) as Z0. cbv beta in Z0. specialize (Gpos t Ht). fold (w t). nia.
Qed.
(** positive determinants give independence *)
Lemma pos_indep n c : pos _ Gf v n -> (forall t, (t < m)%nat -> sumn n (fun i => c i * nth t (v i) 0) = 0) -> forall i, (i < n)%nat -> c i = 0.
Proof.
  intros P H. assert (K : forall k i, (n - k <= i)%nat -> (i < n)%nat -> c i = 0).
  { induction k as [|k IH]; intros i Hi Hn; [lia|].
    destruct (Nat.lt_ge_cases i (n - k)) as [Hlt|]; [|apply IH; lia].
    destruct (N_vec n P i (v i) ltac:(lia)) as (e & ce & He & E).
    set (w := fun t => e * D v i * nth t (v i) 0 + sumn i (fun j => ce j * nth t (v j) 0)) in *.
    assert (S0 : sumn n (fun j => c j * wd w (v j)) = 0).
    { rewrite <- (wd_comb w c n (fun _ => 0)); [|intros; symmetry; auto]. rewrite (sumn_ext m _ (fun _ => 0)); [apply sumn_0|intros; ring]. }
    rewrite (sumn_ext n _ (fun j => dlt j i * (c i * (e * D v (S i))))) in S0.
    - rewrite (sumn_dlt n i (fun _ => c i * (e * D v (S i)))) in S0 by auto. pose proof (P (S i) ltac:(lia)). nia.
    - intros j Hj. rewrite E. unfold dlt. destruct (Nat.eqb_spec j i) as [->|Nj].
      + rewrite gdetS. ring.
      + destruct (Nat.lt_ge_cases j i).
        * rewrite (N_rad_r _ Gf (Gsym m g) v n) by (auto; lia). ring.
        * rewrite (IH j) by lia. ring. }
  intros i Hi. apply (K n); lia.
Qed.

(** ** the rational vectors *)
Notation iz := inject_Z.
Fixpoint sq (l : nat) (x : list Z) : nat -> Q :=
  match l with
  | O => fun t => iz (nth t x 0)
  | S l => fun t => (sq l x t - (iz (N v l x (v l)) / iz (D v (S l))) * sq l (v l) t)%Q
  end.
Definition mu (i j : nat) : Q := (iz (N v j (v i) (v j)) / iz (D v (S j)))%Q.
Lemma sumq_ext n f h : (forall i, (i < n)%nat -> (f i == h i)%Q) -> (sumq n f == sumq n h)%Q.
Proof. induction n; cbn [sumq]; intros H; [reflexivity|]. rewrite IHn by auto. rewrite H by lia. reflexivity. Qed.
Lemma sumq_sub n f h : (sumq n (fun i => f i - h i) == sumq n f - sumq n h)%Q.
Proof. induction n; cbn [sumq]; [reflexivity|]. rewrite IHn. ring. Qed.
Lemma sumq_mul n k f : (sumq n (fun i => k * f i) == k * sumq n f)%Q.
Proof. induction n; cbn [sumq]; [ring|]. rewrite IHn. ring. Qed.
Lemma sumq_iz n f : (sumq n (fun i => iz (f i)) == iz (sumn n f))%Q.
Proof. induction n; cbn [sumq sumn]; [reflexivity|]. rewrite IHn, inject_Z_plus. reflexivity. Qed.
Lemma qdot_lin_r s x y k : (qdot m g s (fun t => x t - k * y t) == qdot m g s x - k * qdot m g s y)%Q.
Proof. unfold qdot. rewrite <- sumq_mul, <- sumq_sub. apply sumq_ext. intros. ring. Qed.
Lemma qdot_sym x y : (qdot m g x y == qdot m g y x)%Q.
Proof. unfold qdot. apply sumq_ext. intros. ring. Qed.
Lemma iz_pos z : 0 < z -> ~ (iz z == 0)%Q.
Proof. intros H E. assert (z = 0) by (apply inject_Z_injective; exact E). lia. Qed.
Lemma sq_dot K : pos _ Gf v K -> forall l x y, (l <= K)%nat -> (qdot m g (sq l x) (fun t => iz (nth t y 0%Z)) == iz (N v l x y) / iz (D v l))%Q.
Proof.
  intros P l. induction l as [|l IH]; intros x y Hl.
  - rewrite minor0, gdet0. unfold qdot. cbn [sq].
    rewrite (sumq_ext m _ (fun t => iz (nth t g 0 * nth t x 0 * nth t y 0)%Z)) by (intros; rewrite !inject_Z_mult; reflexivity).
    rewrite sumq_iz. change (iz 1) with 1%Q. fold (Gf x y). change (sumn m _) with (Gf x y). field.
  - rewrite qdot_sym. cbn [sq]. rewrite qdot_lin_r. rewrite !(qdot_sym (fun t => iz (nth t y 0%Z))). rewrite !IH by lia.
    pose proof (iz_pos _ (P l ltac:(lia))) as Pl. pose proof (iz_pos _ (P (S l) ltac:(lia))) as PS.
    pose proof (pos_rec _ Gf v K l x y P ltac:(lia)) as R.
    apply (f_equal iz) in R. unfold Zminus in R. rewrite inject_Z_plus, inject_Z_opp, !inject_Z_mult in R.
    assert (R2 : (iz (N v (S l) x y) == (iz (D v (S l)) * iz (N v l x y) - iz (N v l x (v l)) * iz (N v l (v l) y)) / iz (D v l))%Q).
    { rewrite <- (Qmult_inj_l _ _ (iz (D v l))) by auto. rewrite R. field. auto. }
    rewrite R2. field. auto.
Qed.
Lemma sq_sq K i x j z : pos _ Gf v K -> (i <= K)%nat -> (j <= i)%nat -> (qdot m g (sq i x) (sq j z) == iz (N v i x z) / iz (D v i))%Q.
Proof.
  intros P Hi. revert z. induction j as [|j IH]; intros z Hj.
  - apply (sq_dot K); auto.
  - cbn [sq]. rewrite qdot_lin_r, !IH by lia. rewrite (N_rad_r _ Gf (Gsym m g) v K i j) by (auto; lia).
    pose proof (iz_pos _ (P i ltac:(lia))) as Pl. pose proof (iz_pos _ (P (S j) ltac:(lia))) as PS.
    change (iz 0) with 0%Q. field. auto.
Qed.
Lemma sq_tele l x t : (iz (nth t x 0%Z) == sq l x t + sumq l (fun j => (iz (N v j x (v j)) / iz (D v (S j))) * sq j (v j) t))%Q.
Proof. induction l as [|l IH]; cbn [sq sumq]; [ring|]. rewrite IH. ring. Qed.
End Pos.

(** the integral conditions on the data give a reduced basis *)
Section Reduced.
Variables m n : nat.
Variable g : list Z.
Variable vs : list (list Z).
Hypothesis Hn : length vs = n.
Notation v := (fun i => nth i vs []).
Notation N := (minor (G m g)).
Notation D := (gdet (G m g)).
Lemma data_reduced : pos _ (G m g) v n ->
  (forall i j, (j < i)%nat -> (i < n)%nat -> 2 * Z.abs (N v j (v i) (v j)) <= D v (S j)) ->
  (forall i, (S i < n)%nat -> 3 * (D v (S i) * D v (S i)) <= 4 * (D v (S (S i)) * D v i + N v i (v (S i)) (v i) * N v i (v (S i)) (v i))) ->
  lll_reduced m g vs.
Proof.
  intros P H1 H2. exists (fun i => sq m g v i (v i)), (mu m g v). split; [split|split].
  - intros i t Hi Ht. unfold co. rewrite (sq_tele m g v i (nth i vs []) t). reflexivity.
  - intros i j Hji Hi. rewrite Hn in Hi. rewrite (sq_sq m g v n) by (auto; lia).
    rewrite (N_rad_r _ _ (Gsym m g) v n i j) by (auto; lia). change (inject_Z 0) with 0%Q. field. apply iz_pos. apply P. lia.
  - intros i j Hji Hi. rewrite Hn in Hi. specialize (H1 i j Hji Hi). pose proof (P (S j) ltac:(lia)) as Pj. unfold mu.
    remember (N v j (v i) (v j)) as x. remember (D v (S j)) as d. clear - H1 Pj.
    assert (Pd : (0 < inject_Z d)%Q) by (change 0%Q with (inject_Z 0); now rewrite <- Zlt_Qlt).
    split; [apply Qle_shift_div_l|apply Qle_shift_div_r]; auto; unfold Qle, Qmult, Qopp, inject_Z; cbn [Qnum Qden]; lia.
  - intros i Hi. rewrite Hn in Hi. specialize (H2 i Hi).
    rewrite !(sq_sq m g v n) by (auto; lia). rewrite <- !(gdetS (G m g) v). unfold mu.
    pose proof (P i ltac:(lia)) as P0. pose proof (P (S i) ltac:(lia)) as P1. pose proof (P (S (S i)) ltac:(lia)) as P2.
    remember (N v i (v (S i)) (v i)) as x. remember (D v i) as d0. remember (D v (S i)) as d1. remember (D v (S (S i))) as d2.
    clear - H2 P0 P1 P2.
    assert (E1 : (((3 # 4) - (inject_Z x / inject_Z d1) * (inject_Z x / inject_Z d1)) * (inject_Z d1 / inject_Z d0) ==
       (inject_Z (3 * (d1 * d1) - 4 * (x * x))) / inject_Z (4 * (d0 * d1)))%Q).
    { unfold Zminus. rewrite inject_Z_plus, inject_Z_opp, !inject_Z_mult. change (inject_Z 3) with 3%Q. change (inject_Z 4) with 4%Q. field. split; apply iz_pos; auto. }
    assert (E2 : (inject_Z d2 / inject_Z d1 == (inject_Z (4 * (d2 * d0)) / inject_Z (4 * (d0 * d1))))%Q).
    { rewrite !inject_Z_mult. change (inject_Z 4) with 4%Q. field. split; apply iz_pos; auto. }
    rewrite E1, E2.
    assert (Pd : 0 < 4 * (d0 * d1)) by nia. remember (4 * (d0 * d1)) as e.
    assert (HH : 3 * (d1 * d1) - 4 * (x * x) <= 4 * (d2 * d0)) by nia.
    apply Qmult_le_compat_r; [now rewrite <- Zle_Qle|].
    apply Qinv_le_0_compat. change 0%Q with (inject_Z 0). rewrite <- Zle_Qle. lia.
Qed.
End Reduced.
