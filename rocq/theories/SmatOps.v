(** Proofs about SmatModel, second part: what each operation does to the matrix represented.
    [oc T x P]: x succeeds with P, or fails and then T does not hold.  T is [total S] (bigint) or True. *)
From Coq Require Import ZArith Lia List Bool Sorted.
From Verif Require Import Base LinModel LinSpec LinProofs LinAlg LinElim SvecModel SvecSpec SvecProofs SvecOps SvecMod SvecMore SmatModel SmatProofs.
Import ListNotations.
Open Scope Z_scope.
Open Scope res_scope.

Definition oc {A} (T : Prop) (x : res A) (P : A -> Prop) : Prop := match x with Ok a => P a | _ => ~ T end.
Lemma oc_ok {A} T (a : A) (P : A -> Prop) : P a -> oc T (Ok a) P.
Proof. auto. Qed.
Lemma oc_bind {A B} T (x : res A) (f : A -> res B) (P : A -> Prop) (Q : B -> Prop) : oc T x P -> (forall a, P a -> oc T (f a) Q) -> oc T (bind x f) Q.
Proof. intros H F. destruct x; cbn [oc bind] in *; auto. Qed.
Lemma oc_impl {A} T (x : res A) (P Q : A -> Prop) : oc T x P -> (forall a, P a -> Q a) -> oc T x Q.
Proof. intros H F. destruct x; cbn [oc] in *; auto. Qed.
Lemma oc_sim {A B} T (R : A -> B -> Prop) x y (P : B -> Prop) : simr R x y -> oc T y P -> oc T x (fun a => exists b, R a b /\ P b).
Proof. intros H F. destruct y; cbn [simr oc] in *; [destruct H as (a0 & -> & H); cbn [oc]; eauto|subst x; exact F..]. Qed.
Lemma oc_inv {A} T (x : res A) P a : oc T x P -> x = Ok a -> P a.
Proof. intros H ->. exact H. Qed.
Lemma oc_tot {A} (T : Prop) (x : res A) P : oc T x P -> T -> exists a, x = Ok a /\ P a.
Proof. intros H t. destruct x; cbn [oc] in H; [eauto|contradiction..]. Qed.
Lemma oc_of {A} T (x : res A) (P : A -> Prop) : (exists a, x = Ok a /\ P a) -> oc T x P.
Proof. intros (a & -> & H). exact H. Qed.
Lemma oc_both {A} (T : Prop) (x : res A) (P : A -> Prop) : (forall a, x = Ok a -> P a) -> (T -> exists a, x = Ok a) -> oc T x P.
Proof. intros H F. destruct x; cbn [oc]; auto; intros t; destruct (F t); discriminate. Qed.

Lemma oc_mmap {A B} T (da : A) (db : B) f l (P : nat -> B -> Prop) : (forall i, (i < length l)%nat -> oc T (f (nth i l da)) (P i)) ->
  oc T (mmap f l) (fun l' => length l' = length l /\ forall i, (i < length l)%nat -> P i (nth i l' db)).
Proof.
  revert P. induction l as [|a l IH]; intros P H; cbn [mmap]; [split; auto; cbn [length]; lia|].
  eapply oc_bind; [apply (H 0%nat); cbn [length]; lia|]. intros b Hb. eapply oc_bind; [apply (IH (fun i => P (Datatypes.S i)))|].
  - intros i Hi. apply (H (Datatypes.S i)). cbn [length]. lia.
  - intros l' (L & F). split; [cbn [length]; lia|]. intros [|i] Hi; cbn [nth]; auto. apply F. cbn [length] in Hi. lia.
Qed.
Lemma oc_mmap2 {A B C} T (da : A) (db : B) (dc : C) f l m (P : nat -> C -> Prop) : length l = length m -> (forall i, (i < length l)%nat -> oc T (f (nth i l da) (nth i m db)) (P i)) ->
  oc T (mmap2 f l m) (fun l' => length l' = length l /\ forall i, (i < length l)%nat -> P i (nth i l' dc)).
Proof.
  revert m P. induction l as [|a l IH]; intros [|b m] P E H; cbn [mmap2]; try discriminate E; [split; auto; cbn [length]; lia|].
  eapply oc_bind; [apply (H 0%nat); cbn [length]; lia|]. intros c Hc. eapply oc_bind; [apply (IH m (fun i => P (Datatypes.S i)))|].
  - cbn [length] in E. lia.
  - intros i Hi. apply (H (Datatypes.S i)). cbn [length]. lia.
  - intros l' (L & F). split; [cbn [length]; lia|]. intros [|i] Hi; cbn [nth]; auto. apply F. cbn [length] in Hi. lia.
Qed.
Lemma oc_mfold_seq {A} T (Inv : nat -> A -> Prop) f n : forall s a, Inv s a -> (forall i b, (s <= i < s + n)%nat -> Inv i b -> oc T (f b i) (Inv (Datatypes.S i))) ->
  oc T (mfold f (seq s n) a) (Inv (s + n)%nat).
Proof.
  induction n; intros s a H F; cbn [seq mfold]; [rewrite Nat.add_0_r; exact H|].
  eapply oc_bind; [apply F; [lia|exact H]|]. intros b Hb. replace (s + Datatypes.S n)%nat with (Datatypes.S s + n)%nat by lia. apply IHn; auto. intros. apply F; auto. lia.
Qed.
Lemma oc_mfold_idx {A C} T (d : C) (Inv : nat -> A -> Prop) f (l : list C) : forall s a, Inv s a ->
  (forall i b, (i < length l)%nat -> Inv (s + i)%nat b -> oc T (f b ((s + i)%nat, nth i l d)) (Inv (Datatypes.S (s + i)))) ->
  oc T (mfold f (combine (seq s (length l)) l) a) (Inv (s + length l)%nat).
Proof.
  induction l as [|x l IH]; intros s a H F; cbn [length seq combine mfold]; [rewrite Nat.add_0_r; exact H|].
  eapply oc_bind; [specialize (F 0%nat a); rewrite Nat.add_0_r in F; apply F; [cbn [length]; lia|exact H]|]. intros b Hb.
  replace (s + Datatypes.S (length l))%nat with (Datatypes.S s + length l)%nat by lia. apply IH; auto. intros i b' Hi Hb'.
  replace (Datatypes.S s + i)%nat with (s + Datatypes.S i)%nat in * by lia. apply (F (Datatypes.S i)); auto. cbn [length]. lia.
Qed.
Lemma oc_mfold_list {A C} T (Inv : list C -> A -> Prop) f (l : list C) : forall a, Inv l a -> (forall x t b, Inv (x :: t) b -> oc T (f b x) (Inv t)) -> oc T (mfold f l a) (Inv []).
Proof.
  induction l as [|x l IH]; intros a H F; cbn [mfold]; auto. eapply oc_bind; [apply F; exact H|]. intros b Hb. apply IH; auto.
Qed.
(** the same from the left: Inv speaks of what has been consumed *)
Lemma oc_mfold_pre {A C} T (Inv : list C -> A -> Prop) f (l : list C) : forall pre a, Inv pre a -> (forall x pre' b, In x l -> Inv pre' b -> oc T (f b x) (Inv (pre' ++ [x]))) -> oc T (mfold f l a) (Inv (pre ++ l)).
Proof.
  induction l as [|x l IH]; intros pre a H F; cbn [mfold]; [rewrite app_nil_r; auto|]. eapply oc_bind; [apply F; [left; auto|exact H]|]. intros b Hb.
  replace (pre ++ x :: l) with ((pre ++ [x]) ++ l) by (rewrite <- app_assoc; reflexivity). apply IH; auto. intros. apply F; auto. right; auto.
Qed.

(** ** sorted lists of entries *)
Lemma mval_nil k : mval [] k = 0.
Proof. reflexivity. Qed.
Lemma mval_above m k : (forall k' y, In (k', y) m -> k < k') -> mval m k = 0.
Proof. intros H. unfold mval. rewrite mget_above; auto. Qed.
Lemma canon_cons k x m : x <> 0 -> canon m -> canon ((k, x) :: m).
Proof. intros Hx H k'. cbn [mget]. destruct (k =? k'); [congruence|apply H]. Qed.
Lemma canon_uncons k x m : msorted ((k, x) :: m) -> canon ((k, x) :: m) -> x <> 0 /\ canon m.
Proof.
  intros Hs H. apply msorted_cons in Hs. destruct Hs as (Hs & Ha). split.
  - specialize (H k). cbn [mget] in H. rewrite Z.eqb_refl in H. congruence.
  - intros k'. specialize (H k'). cbn [mget] in H. destruct (Z.eqb_spec k k'); auto. subst k'. rewrite mget_above by auto. discriminate.
Qed.
Lemma canon_nil : canon [].
Proof. intros k. discriminate. Qed.
Definition inr (n : nat) (m : smap) : Prop := forall k x, In (k, x) m -> 1 <= k <= Z.of_nat n.
Lemma inr_inrange n m : msorted m -> (inr n m <-> inrange n m).
Proof. intros Hs. split; intros H k x Hk; [apply (H k x), mget_In, Hk|apply (H k x), In_mget; auto]. Qed.
Lemma inr_cons n k x m : inr n ((k, x) :: m) <-> 1 <= k <= Z.of_nat n /\ inr n m.
Proof. split; [intros H; split; [apply (H k x); left; auto|intros k' y Hk; apply (H k' y); right; auto]|intros (H1 & H2) k' y [[= <- <-]|Hk]; eauto]. Qed.
Lemma mval_out n m k : inr n m -> ~ (1 <= k <= Z.of_nat n) -> mval m k = 0.
Proof. intros H Hk. unfold mval. destruct (mget m k) eqn:E; auto. apply mget_In in E. apply H in E. tauto. Qed.

Section Merge.
Variable T : Prop.
Variable G : Z -> Z -> Z.
Variables (g : Z -> res Z) (h : Z -> Z -> res Z).
Hypothesis Hg : forall y, oc T (g y) (fun z => z = G 0 y).
Hypothesis Hh : forall x y, oc T (h x y) (fun z => z = G x y).
Hypothesis G0 : forall x, G x 0 = x.
Hypothesis Gz : forall y, G 0 y = 0 -> y = 0.
Definition mres (l1 l2 l : smap) : Prop :=
  msorted l /\ (forall k x, In (k, x) l -> (exists y, In (k, y) l1) \/ (exists y, In (k, y) l2)) /\ (forall k, mval l k = G (mval l1 k) (mval l2 k)) /\ (canon l1 -> canon l2 -> canon l).
Lemma mmap_g l2 : msorted l2 -> oc T (mmap (fun '(k, x) => bind (g x) (fun y => Ok (k, y))) l2) (fun l => msorted l /\ (forall k x, In (k, x) l -> exists y, In (k, y) l2) /\ (forall k, mval l k = G 0 (mval l2 k)) /\ (canon l2 -> canon l)).
Proof.
  induction l2 as [|(k2, x2) t2 IH]; intros Hs; cbn [mmap].
  - cbn [oc]. split; [constructor|]. split; [intros k x []|]. split; [intros k; rewrite mval_nil, G0; reflexivity|intros _; apply canon_nil].
  - pose proof Hs as Hs'. apply msorted_cons in Hs'. destruct Hs' as (Ht & Ha).
    eapply oc_bind; [eapply oc_bind; [apply Hg|]; intros y ->; apply (oc_ok _ _ (fun q => q = (k2, G 0 x2))); reflexivity|]. intros ? ->. eapply oc_bind; [apply IH, Ht|]. intros l (A1 & A2 & A3 & A4). cbn [oc].
    split; [apply msorted_cons; split; [exact A1|intros k' y Hk; apply A2 in Hk; destruct Hk as (y' & Hk); eapply Ha; eauto]|].
    split; [intros k x [[= <- <-]|Hk]; [eexists; left; eauto|apply A2 in Hk; destruct Hk as (y' & Hk); exists y'; right; auto]|].
    split; [intros k; rewrite !mval_cons; destruct (k2 =? k); auto|].
    intros C. apply canon_uncons in C; [|exact Hs]. destruct C as (C1 & C2). apply canon_cons; [intros E; apply C1, Gz, E|auto].
Qed.
Lemma rmerge_oc n : forall l1 l2, (length l1 + length l2 < n)%nat -> msorted l1 -> msorted l2 -> oc T (rmerge g h n l1 l2) (mres l1 l2).
Proof.
  unfold mres. induction n; intros l1 l2 Hn H1 H2; [lia|]. cbn [rmerge]. destruct l2 as [|(k2, x2) t2].
  { destruct l1 as [|(k1, x1) t1].
    - cbn [oc]. split; [exact H1|]. split; [intros k x []|]. split; [intros k; rewrite !mval_nil, G0; reflexivity|auto].
    - cbn [oc]. split; [exact H1|]. split; [eauto|]. split; [intros k; rewrite mval_nil, G0; reflexivity|auto]. }
  destruct l1 as [|(k1, x1) t1].
  { eapply oc_impl; [apply mmap_g, H2|]. intros l (A1 & A2 & A3 & A4). split; [exact A1|]. split; [intros k x Hk; right; eauto|]. split; [intros k; rewrite mval_nil; auto|auto]. }
  pose proof H1 as H1'. apply msorted_cons in H1'. destruct H1' as (Ht1 & Ha1). pose proof H2 as H2'. apply msorted_cons in H2'. destruct H2' as (Ht2 & Ha2).
  cbn [length] in Hn.
  destruct (Z.ltb_spec k1 k2) as [Lt|Ge].
  - eapply oc_bind; [apply (IHn t1 ((k2, x2) :: t2)); cbn [length]; auto; lia|]. intros l (A1 & A2 & A3 & A4). cbn [oc].
    assert (B : forall k' y, In (k', y) ((k2, x2) :: t2) -> k1 < k') by (intros k' y [[= <- <-]|Hk]; [lia|apply Ha2 in Hk; lia]).
    split; [apply msorted_cons; split; [exact A1|intros k' y Hk; apply A2 in Hk; destruct Hk as [(y' & Hk)|(y' & Hk)]; eauto]|].
    split; [intros k x [[= <- <-]|Hk]; [left; eexists; left; eauto|apply A2 in Hk; destruct Hk as [(y' & Hk)|Hk]; [left; exists y'; right; auto|right; auto]]|].
    split; [intros k; rewrite (mval_cons k1 x1 l), (mval_cons k1 x1 t1); destruct (Z.eqb_spec k1 k); auto; subst k; rewrite (mval_above _ k1 B); auto|].
    intros C1 C2. apply canon_uncons in C1; auto. destruct C1 as (C0 & C1). apply canon_cons; auto.
  - destruct (Z.ltb_spec k2 k1) as [Lt|Ge'].
    + eapply oc_bind; [apply Hg|]. intros y ->. eapply oc_bind; [apply (IHn ((k1, x1) :: t1) t2); cbn [length]; auto; lia|]. intros l (A1 & A2 & A3 & A4). cbn [oc].
      assert (B : forall k' y, In (k', y) ((k1, x1) :: t1) -> k2 < k') by (intros k' y [[= <- <-]|Hk]; [lia|apply Ha1 in Hk; lia]).
      split; [apply msorted_cons; split; [exact A1|intros k' y Hk; apply A2 in Hk; destruct Hk as [(y' & Hk)|(y' & Hk)]; eauto]|].
      split; [intros k x [[= <- <-]|Hk]; [right; eexists; left; eauto|apply A2 in Hk; destruct Hk as [Hk|(y' & Hk)]; [left; auto|right; exists y'; right; auto]]|].
      split; [intros k; rewrite (mval_cons k2 _ l), (mval_cons k2 x2 t2); destruct (Z.eqb_spec k2 k); auto; subst k; rewrite (mval_above _ k2 B); auto|].
      intros C1 C2. apply canon_uncons in C2; auto. destruct C2 as (C0 & C2). apply canon_cons; auto.
    + assert (k2 = k1) by lia. subst k2. eapply oc_bind; [apply Hh|]. intros y ->. eapply oc_bind; [apply (IHn t1 t2); auto; lia|]. intros l (A1 & A2 & A3 & A4). cbn [oc].
      assert (A : forall k x, In (k, x) l -> k1 < k) by (intros k x Hk; apply A2 in Hk; destruct Hk as [(y' & Hk)|(y' & Hk)]; eauto).
      assert (V : forall k, mval (if G x1 x2 =? 0 then l else (k1, G x1 x2) :: l) k = if k1 =? k then G x1 x2 else mval l k).
      { intros k. destruct (Z.eqb_spec (G x1 x2) 0) as [e|e]; [|apply mval_cons]. destruct (Z.eqb_spec k1 k); auto. subst k. rewrite e, mval_above; auto. }
      split; [destruct (_ =? _); auto; apply msorted_cons; auto|].
      split; [intros k x Hk; assert (Q : (k, x) = (k1, G x1 x2) \/ In (k, x) l) by (destruct (_ =? _); [auto|destruct Hk; auto]); destruct Q as [[= -> ->]|Q]; [left; eexists; left; eauto|]; apply A2 in Q; destruct Q as [(y' & Q)|(y' & Q)]; [left|right]; exists y'; right; auto|].
      split; [intros k; rewrite V, !mval_cons; destruct (k1 =? k); auto|].
      intros C1 C2. apply canon_uncons in C1; auto. apply canon_uncons in C2; auto. destruct (Z.eqb_spec (G x1 x2) 0); [tauto|apply canon_cons; tauto].
Qed.
End Merge.
