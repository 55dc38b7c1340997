(** lll_reduce against the specification; the first vector of a reduced basis is short. *)
From Coq Require Import ZArith QArith Lia Lqa List Bool.
From Verif Require Import Base LinModel LinSpec LinProofs LLLModel LLLSpec LLLDet LLLForms LLLLoop LLLProofs LLLPos LLLMain.
Import ListNotations.
Open Scope Z_scope.

Lemma elem_lattice m n vs ws : length vs = n -> length ws = n -> elem m n (co vs) (co ws) ->
  same_lattice m vs ws /\ (lin_indep m vs <-> lin_indep m ws).
Proof.
  intros Hv Hw ((f & F1 & F2) & (h & H1 & H2)). unfold comb in *. split.
  - intros x. unfold in_lattice. rewrite Hv, Hw. split; intros (c & E).
    + exists (h c). intros t Ht. rewrite E, H1 by auto. reflexivity.
    + exists (f c). intros t Ht. rewrite E, F1 by auto. reflexivity.
  - unfold lin_indep. rewrite Hv, Hw. split; intros I c E.
    + apply F2. apply I. intros t Ht. rewrite <- F1 by auto. auto.
    + apply H2. apply I. intros t Ht. rewrite <- H1 by auto. auto.
Qed.

Lemma lll_spec n m g vs : length vs = n -> (1 <= n)%nat -> length g = m -> (forall i, (i < n)%nat -> length (nth i vs []) = m) ->
  (forall t, (t < m)%nat -> 0 < nth t g 0) ->
  exists ws fl, ev (exact_division (@Ok Z)) (fun dv f => lll_reduce dv f n (g :: vs)) (g :: ws, fl) /\
    length ws = n /\ (forall i, (i < n)%nat -> length (nth i ws []) = m) /\ same_lattice m vs ws /\ (lin_indep m vs <-> lin_indep m ws) /\
    (lin_indep m vs -> fl = true /\ lll_reduced m g ws) /\ (~ lin_indep m vs -> (2 <= n)%nat -> fl = false).
Proof.
  intros Hv Hn Hg Hl Gp.
  assert (B0 : bshape n m g (g :: vs)).
  { split; [cbn [length]; lia|]. split; [reflexivity|]. exact Hl. }
  destruct (Z.eq_dec (G m g (vc (g :: vs) 0) (vc (g :: vs) 0)) 0) as [Z0|Nz].
  - assert (Zv : forall t, (t < m)%nat -> co vs 0 t = 0).
    { intros t Ht. assert (W : forall t, (t < m)%nat -> 0 <= nth t g 0 * nth t (vc (g :: vs) 0) 0 * nth t (vc (g :: vs) 0) 0) by (intros s Hs; specialize (Gp s Hs); nia).
      pose proof (sumn_zero m _ W Z0 t Ht) as E. cbv beta in E. change (nth t (vc (g :: vs) 0) 0) with (co vs 0 t) in E. specialize (Gp t Ht). nia. }
    exists vs, (n =? 1)%nat. split; [apply (lll_zero n m g Hg); auto|].
    { intros y. unfold G. rewrite (sumn_ext m _ (fun _ => 0)); [apply sumn_0|]. intros t Ht. change (nth t (vc (g :: vs) 0) 0) with (co vs 0 t). rewrite Zv by auto. ring. }
    split; [auto|]. split; [auto|]. split; [intros x; tauto|]. split; [tauto|]. split.
    + intros I. exfalso. assert (dlt 0 0 = 0); [|discriminate]. apply (I (fun i => dlt i 0)); [|lia].
      intros t Ht. rewrite (sumn_dlt (length vs) 0 (fun i => co vs i t)) by lia. auto.
    + intros _ H2. destruct (Nat.eqb_spec n 1); [lia|reflexivity].
  - destruct (lll_ok n m g Hg Gp (g :: vs) B0 Hn Nz) as ([b fl] & E & El & Sb & Post).
    destruct Sb as (Lb & Eb & Eb'). destruct b as [|g' ws]; [cbn [length] in Lb; lia|]. cbn [nth] in Eb. subst g'.
    cbn [length] in Lb. injection Lb as Lw.
    change (cu (g :: vs)) with (co vs) in El. change (cu (g :: ws)) with (co ws) in El.
    destruct (elem_lattice m n vs ws Hv Lw El) as (SL & IN).
    exists ws, fl. split; [exact E|]. split; [auto|]. split; [exact Eb'|]. split; [exact SL|]. split; [exact IN|].
    change (vc (g :: ws)) with (fun i => nth i ws []) in Post.
    destruct fl.
    + destruct Post as (lam & d & [Rb Rl Rd Rk RP RD RN] & Ra & Rc). change (vc (g :: ws)) with (fun i => nth i ws []) in *.
      split.
      * intros _. split; [reflexivity|]. apply (data_reduced m n g ws Lw RP).
        -- intros i j Hj Hi. specialize (Ra i j Hj ltac:(lia)). rewrite RN, RD in Ra by lia. exact Ra.
        -- intros i Hi. specialize (Rc i ltac:(lia)). rewrite RN, !RD in Rc by lia. exact Rc.
      * intros NI _. exfalso. apply NI, IN. unfold lin_indep. rewrite Lw. intros c H. apply (pos_indep m g (fun i => nth i ws []) n c RP H).
    + destruct Post as (k & Hk & Pk & D0). split; [|auto].
      intros I. exfalso. apply IN in I.
      destruct (N_nonneg m g Gp (fun i => nth i ws []) k k (nth k ws []) Pk ltac:(lia)) as (_ & H).
      destruct H as (e & c & He & Hc); [rewrite <- D0, gdetS; reflexivity|].
      set (cc := fun i => if (i <? k)%nat then c i else if (i =? k)%nat then e else 0).
      assert (X : cc k = 0).
      { apply I; [|lia]. intros t Ht. rewrite <- (Hc t Ht). rewrite Lw.
        assert (K : forall q, (k < q)%nat -> sumn q (fun i => cc i * co ws i t) = e * nth t (nth k ws []) 0 + sumn k (fun i => c i * nth t (nth i ws []) 0)).
        { induction q as [|q IH]; intros Hq; [lia|]. cbn [sumn]. destruct (Nat.eq_dec q k) as [->|Nq].
          - rewrite (sumn_ext k _ (fun i => c i * nth t (nth i ws []) 0)).
            + unfold cc, co. rewrite Nat.ltb_irrefl, Nat.eqb_refl. ring.
            + intros i Hi. unfold cc. destruct (Nat.ltb_spec i k); [reflexivity|lia].
          - rewrite IH by lia. unfold cc. destruct (Nat.ltb_spec q k); [lia|]. destruct (Nat.eqb_spec q k); [lia|ring]. }
        apply K. exact Hk. }
      unfold cc in X. rewrite Nat.ltb_irrefl, Nat.eqb_refl in X. lia.
Qed.

(** ** the first vector of a reduced basis *)
Notation iz := inject_Z.
Lemma qdot_ext m g x x' y y' : (forall t, (t < m)%nat -> (x t == x' t)%Q) -> (forall t, (t < m)%nat -> (y t == y' t)%Q) -> (qdot m g x y == qdot m g x' y')%Q.
Proof. intros H K. unfold qdot. apply sumq_ext. intros t Ht. rewrite H, K by auto. reflexivity. Qed.
Lemma sumq_add n f h : (sumq n (fun i => f i + h i) == sumq n f + sumq n h)%Q.
Proof. induction n; cbn [sumq]; [reflexivity|]. rewrite IHn. ring. Qed.
Lemma qdot_add_l m g x y z : (qdot m g (fun t => x t + y t) z == qdot m g x z + qdot m g y z)%Q.
Proof. unfold qdot. rewrite <- sumq_add. apply sumq_ext. intros. ring. Qed.
Lemma qdot_mul_l m g k x z : (qdot m g (fun t => k * x t) z == k * qdot m g x z)%Q.
Proof. unfold qdot. rewrite <- sumq_mul. apply sumq_ext. intros. ring. Qed.
Lemma qdot_sum_l m g n f z : (qdot m g (fun t => sumq n (fun i => f i t)) z == sumq n (fun i => qdot m g (f i) z))%Q.
Proof.
  induction n; cbn [sumq].
  - unfold qdot. rewrite (sumq_ext m _ (fun _ => 0 * 0)%Q) by (intros; ring). rewrite sumq_mul. ring.
  - rewrite qdot_add_l, IHn. reflexivity.
Qed.
Lemma sumq_zero n f : (forall i, (i < n)%nat -> (f i == 0)%Q) -> (sumq n f == 0)%Q.
Proof. induction n; cbn [sumq]; intros H; [reflexivity|]. rewrite IHn by auto. rewrite H by lia. ring. Qed.
Lemma sumq_nonneg n f : (forall i, (i < n)%nat -> (0 <= f i)%Q) -> (0 <= sumq n f)%Q.
Proof. induction n; cbn [sumq]; intros H; [apply Qle_refl|]. specialize (IHn ltac:(auto)). specialize (H n ltac:(lia)). lra. Qed.
Lemma qdot_nonneg m g x : (forall t, (t < m)%nat -> 0 < nth t g 0) -> (0 <= qdot m g x x)%Q.
Proof.
  intros Gp. unfold qdot. apply sumq_nonneg. intros t Ht. specialize (Gp t Ht).
  assert (0 < iz (nth t g 0%Z))%Q by (change 0%Q with (iz 0); now rewrite <- Zlt_Qlt). 
  assert (0 <= x t * x t)%Q by (destruct (Qlt_le_dec (x t) 0); nra). nra.
Qed.
Lemma znorm_q m g x : (iz (znorm m g x) == qdot m g (fun t => iz (x t)) (fun t => iz (x t)))%Q.
Proof. unfold znorm, qdot. rewrite <- sumq_iz. apply sumq_ext. intros. rewrite !inject_Z_mult. reflexivity. Qed.

Section Short.
Variable m : nat.
Variable g : list Z.
Variable vs : list (list Z).
Hypothesis Gp : forall t, (t < m)%nat -> 0 < nth t g 0.
Notation n := (length vs).
Variables s mu : nat -> nat -> Q.
Hypothesis GS1 : forall i t, (i < n)%nat -> (t < m)%nat -> (iz (co vs i t) == s i t + sumq i (fun j => mu i j * s j t))%Q.
Hypothesis GS2 : forall i j, (j < i)%nat -> (i < n)%nat -> (qdot m g (s i) (s j) == 0)%Q.
Hypothesis SR : forall i j, (j < i)%nat -> (i < n)%nat -> (-(1 # 2) <= mu i j)%Q /\ (mu i j <= 1 # 2)%Q.
Hypothesis LO : forall i, (S i < n)%nat -> (((3 # 4) - mu (S i) i * mu (S i) i) * qdot m g (s i) (s i) <= qdot m g (s (S i)) (s (S i)))%Q.

Lemma gs_dot j i : (j <= i)%nat -> (i < n)%nat -> (qdot m g (fun t => iz (co vs j t)) (s i) == if (j =? i)%nat then qdot m g (s i) (s i) else 0)%Q.
Proof.
  intros Hj Hi. rewrite (qdot_ext m g _ (fun t => s j t + sumq j (fun k => mu j k * s k t))%Q (s i) (s i)) by (intros; try reflexivity; apply GS1; auto; lia).
  rewrite qdot_add_l, (qdot_sum_l m g j (fun k t => mu j k * s k t)%Q).
  rewrite (sumq_zero j).
  - destruct (Nat.eqb_spec j i) as [->|Nj]; [ring|]. rewrite (qdot_sym m g (s j)). rewrite GS2 by lia. ring.
  - intros k Hk. rewrite qdot_mul_l, (qdot_sym m g (s k)), GS2 by lia. ring.
Qed.
Lemma chain i : (i < n)%nat -> (qdot m g (s 0%nat) (s 0%nat) <= iz (2 ^ Z.of_nat i) * qdot m g (s i) (s i))%Q.
Proof.
  induction i as [|i IH]; intros Hi.
  - change (iz (2 ^ Z.of_nat 0)) with 1%Q. lra.
  - specialize (IH ltac:(lia)). specialize (LO i Hi). specialize (SR (S i) i ltac:(lia) Hi). destruct SR as (A & B).
    pose proof (qdot_nonneg m g (s i) Gp) as Pq.
    assert (M2 : (mu (S i) i * mu (S i) i <= 1 # 4)%Q) by nra.
    assert (H : (qdot m g (s i) (s i) <= 2 * qdot m g (s (S i)) (s (S i)))%Q) by nra.
    rewrite Nat2Z.inj_succ, Z.pow_succ_r, inject_Z_mult by lia. change (iz 2) with 2%Q.
    assert (P2 : (0 < iz (2 ^ Z.of_nat i))%Q) by (change 0%Q with (iz 0); rewrite <- Zlt_Qlt; apply Z.pow_pos_nonneg; lia).
    nra.
Qed.
Lemma short_q c i : (i < n)%nat -> c i <> 0 -> (forall j, (i < j)%nat -> (j < n)%nat -> c j = 0) ->
  znorm m g (fun t => co vs 0 t) <= 2 ^ Z.of_nat i * znorm m g (fun t => sumn n (fun j => c j * co vs j t)).
Proof.
  intros Hi Nc Hc. set (x := fun t => sumn n (fun j => c j * co vs j t)).
  assert (Ex : (qdot m g (fun t => iz (x t)) (s i) == iz (c i) * qdot m g (s i) (s i))%Q).
  { rewrite (qdot_ext m g _ (fun t => sumq n (fun j => iz (c j) * iz (co vs j t))%Q) (s i) (s i)).
    - rewrite (qdot_sum_l m g n (fun j t => iz (c j) * iz (co vs j t))%Q).
      assert (K : forall q, (i < q)%nat -> (q <= n)%nat -> (sumq q (fun j => qdot m g (fun t => iz (c j) * iz (co vs j t))%Q (s i)) == iz (c i) * qdot m g (s i) (s i))%Q).
      { induction q as [|q IH]; intros Hq Hqn; [lia|]. cbn [sumq]. rewrite qdot_mul_l. destruct (Nat.eq_dec q i) as [->|Nq].
        - rewrite (sumq_zero i); [|intros j Hj; rewrite qdot_mul_l, gs_dot by lia; destruct (Nat.eqb_spec j i); [lia|ring]].
          rewrite gs_dot by lia. rewrite Nat.eqb_refl. ring.
        - rewrite IH by lia. rewrite (Hc q) by lia. change (iz 0) with 0%Q. ring. }
      apply K; lia.
    - intros t Ht. unfold x. rewrite <- sumq_iz. apply sumq_ext. intros. rewrite inject_Z_mult. reflexivity.
    - intros. reflexivity. }
  assert (CS : (iz (c i) * iz (c i) * qdot m g (s i) (s i) <= iz (znorm m g x))%Q).
  { pose proof (qdot_nonneg m g (fun t => iz (x t) - iz (c i) * s i t)%Q Gp) as Q0.
    rewrite qdot_lin_r in Q0. rewrite !(qdot_sym m g (fun t => iz (x t) - _)%Q) in Q0. rewrite !qdot_lin_r in Q0.
    rewrite (qdot_sym m g (s i) (fun t => iz (x t))), Ex in Q0. rewrite znorm_q. lra. }
  assert (Z0 : (iz (znorm m g (fun t => co vs 0 t)) == qdot m g (s 0%nat) (s 0%nat))%Q).
  { rewrite znorm_q. apply qdot_ext; intros t Ht; rewrite GS1 by (auto; lia); cbn [sumq]; ring. }
  pose proof (chain i Hi) as Ch. pose proof (qdot_nonneg m g (s i) Gp) as Pq.
  assert (C1 : (1 <= iz (c i) * iz (c i))%Q) by (rewrite <- inject_Z_mult; change 1%Q with (iz 1); rewrite <- Zle_Qle; nia).
  rewrite Zle_Qle, inject_Z_mult, Z0.
  assert (P2 : (0 < iz (2 ^ Z.of_nat i))%Q) by (change 0%Q with (iz 0); rewrite <- Zlt_Qlt; apply Z.pow_pos_nonneg; lia).
  fold x. remember (iz (2 ^ Z.of_nat i)) as p2. remember (qdot m g (s i) (s i)) as qi. remember (iz (znorm m g x)) as X. remember (iz (c i) * iz (c i))%Q as cc.
  assert (H1 : (qi <= X)%Q) by (clear - CS C1 Pq; nra).
  clear - Ch H1 P2. nra.
Qed.
End Short.
Lemma reduced_short m g vs c : (forall t, (t < m)%nat -> 0 < nth t g 0) -> lll_reduced m g vs -> (exists i, (i < length vs)%nat /\ c i <> 0) ->
  znorm m g (fun t => co vs 0 t) <= 2 ^ Z.of_nat (length vs - 1) * znorm m g (fun t => sumn (length vs) (fun j => c j * co vs j t)).
Proof.
  intros Gp (s & mu & (G1 & G2) & SR & LO) Hex.
  assert (K : forall k, (k <= length vs)%nat -> (exists i, (i < k)%nat /\ c i <> 0) -> (forall j, (k <= j)%nat -> (j < length vs)%nat -> c j = 0) ->
     exists i, (i < length vs)%nat /\ c i <> 0 /\ forall j, (i < j)%nat -> (j < length vs)%nat -> c j = 0).
  { induction k as [|k IH]; intros Hk (i & Hi & Ni) Hj; [lia|].
    destruct (Z.eq_dec (c k) 0) as [E|Nk].
    - apply IH; [lia| |].
      + exists i. split; [|auto]. assert (i <> k) by (intros ->; contradiction). lia.
      + intros j H1 H2. destruct (Nat.eq_dec j k) as [->|]; [auto|apply Hj; lia].
    - exists k. split; [lia|]. split; [auto|]. intros j H1 H2. apply Hj; lia. }
  destruct (K (length vs) ltac:(lia) Hex ltac:(intros; lia)) as (i & Hi & Ni & Hj).
  pose proof (short_q m g vs Gp s mu G1 G2 SR LO c i Hi Ni Hj) as H.
  etransitivity; [exact H|]. apply Z.mul_le_mono_nonneg_r.
  - unfold znorm. apply sumn_nonneg. intros t Ht. specialize (Gp t Ht). nia.
  - apply Z.pow_le_mono_r; lia.
Qed.
