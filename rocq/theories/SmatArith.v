(** Proofs about SmatModel, fourth part: arithmetic. *)
From Coq Require Import ZArith Znumtheory Lia List Bool Sorted.
From Verif Require Import Base LinModel LinSpec LinProofs LinAlg LinElim LinKer SvecModel SvecSpec SvecProofs SvecOps SvecMod SvecMore SmatModel SmatProofs SmatOps SmatMat.
Import ListNotations.
Open Scope Z_scope.
Open Scope res_scope.

Lemma Forall2_mget (P : Z -> Z -> Prop) l l' : Forall2 (fun a b : Z * Z => fst b = fst a /\ P (snd a) (snd b)) l l' ->
  map fst l' = map fst l /\ (forall k, match mget l k, mget l' k with Some x, Some y => P x y | None, None => True | _, _ => False end) /\ (forall k y, In (k, y) l' -> exists x, In (k, x) l).
Proof.
  induction 1 as [|(k, x) (k', y) l l' (E & H) _ (IH1 & IH2 & IH3)]; cbn [fst snd] in *; [split; [reflexivity|]; split; [intros k; exact Logic.I|intros k y []]|]. subst k'. split; [cbn [map fst]; congruence|]. split.
  - intros k'. cbn [mget]. destruct (k =? k'); auto. apply IH2.
  - intros k' z [[= <- <-]|Hk]; [eexists; left; eauto|]. apply IH3 in Hk. destruct Hk as (x' & Hk). exists x'. right; auto.
Qed.
Lemma smap_map_oc T f (P : Z -> Z -> Prop) l : (forall k x, In (k, x) l -> oc T (f x) (P x)) -> oc T (smap_map f l) (fun l' => Forall2 (fun a b : Z * Z => fst b = fst a /\ P (snd a) (snd b)) l l').
Proof.
  unfold smap_map. induction l as [|(k, x) l IH]; intros H; cbn [mmap]; [constructor|].
  eapply oc_bind with (P := fun q => fst q = k /\ P x (snd q)).
  - eapply oc_bind; [apply (H k); left; auto|]. intros y Hy. cbn [oc fst snd]. auto.
  - intros q Hq. eapply oc_bind; [apply IH; intros; eapply H; right; eauto|]. intros l' Hl'. cbn [oc]. constructor; auto.
Qed.
Lemma lrow_map (c c' : Prop) nc f (P : Z -> Z -> Prop) l l' : lrow c nc f l -> Forall2 (fun a b : Z * Z => fst b = fst a /\ P (snd a) (snd b)) l l' -> P 0 0 -> (c' -> c) -> (c' -> forall x, P x 0 -> x = 0) ->
  lrow c' nc (fun j => mval l' (Z.of_nat j + 1)) l' /\ forall j, (j < nc)%nat -> P (f j) (mval l' (Z.of_nat j + 1)).
Proof.
  intros (A & B & C & D) F P0 Hc Hz. apply Forall2_mget in F. destruct F as (F1 & F2 & F3). split.
  - split; [unfold msorted; rewrite F1; exact A|]. split; [intros k y Hk; apply F3 in Hk; destruct Hk as (x & Hk); apply (B k x Hk)|]. split; [|auto].
    intros Hc' k Hk. specialize (F2 k). rewrite Hk in F2. destruct (mget l k) as [x|] eqn:E; [|contradiction]. apply Hz in F2; auto. subst x. exact (C (Hc Hc') k E).
  - intros j Hj. rewrite <- D by auto. specialize (F2 (Z.of_nat j + 1)). unfold mval. destruct (mget l _), (mget l' _); auto; contradiction.
Qed.
(** the entries as read from the storage *)
Definition dread (m : smat) (i j : nat) : Z := match rread (nth i (srows m) row0) with Ok l => mval l (Z.of_nat j + 1) | _ => 0 end.
Lemma sm_map_ok T (c c' : Prop) f (P : Z -> Z -> Prop) m nr nc e : rep c m nr nc e -> P 0 0 -> (c' -> c) -> (c' -> forall x, P x 0 -> x = 0) ->
  (forall i l k x, (i < nr)%nat -> rread (nth i (srows m) row0) = Ok l -> lrow c nc (e i) l -> In (k, x) l -> oc T (f x) (P x)) ->
  oc T (sm_map f m) (fun r => rep c' r nr nc (dread r) /\ forall i j, (i < nr)%nat -> (j < nc)%nat -> P (e i j) (dread r i j)).
Proof.
  intros R P0 Hc Hz Hf. unfold sm_map. pose proof R as (A & B & C). rewrite A.
  eapply oc_bind; [apply (oc_mmap T row0 row0 (rmap f) (srows m) (fun i r => exists l, rowok r l /\ lrow c' nc (fun j => mval l (Z.of_nat j + 1)) l /\ forall j, (j < nc)%nat -> P (e i j) (mval l (Z.of_nat j + 1))))|].
  - intros i Hi. destruct (rep_row _ _ _ _ _ i R ltac:(lia)) as (l & _ & E1 & E2 & Hl).
    eapply oc_impl; [eapply oc_sim; [apply rmap_sim, E1|apply (smap_map_oc T f P l); intros k x Hk; eapply Hf; eauto; lia]|]. intros r (l' & Hr & F). exists l'. split; auto. eapply lrow_map; eauto.
  - intros rs (L & H). cbn [oc]. split.
    + apply rep_sm; [lia|]. intros i Hi. destruct (H i ltac:(lia)) as (l & H1 & H2 & H3). exists l. split; auto. eapply lrow_ext; [exact H2| |auto]. intros j Hj. unfold dread. cbn [srows]. rewrite (rread_ok _ l H1). reflexivity.
    + intros i j Hi Hj. destruct (H i ltac:(lia)) as (l & H1 & H2 & H3). unfold dread. cbn [srows]. rewrite (rread_ok _ l H1). auto.
Qed.

Lemma at_set_ok (w : list Z) i x : (i < length w)%nat -> exists w', at_set w i x = Ok w' /\ length w' = length w /\ nth i w' 0 = x /\ forall j, j <> i -> nth j w' 0 = nth j w 0.
Proof.
  intros H. unfold at_set. destruct (Nat.ltb_spec i (length w)); [|lia]. destruct (put_ok 0 w i [x]) as (w' & E & L & H1 & H2); [cbn [length]; lia|]. exists w'. split; [exact E|]. split; [exact L|]. split.
  - rewrite H1 by (cbn [length]; lia). rewrite Nat.sub_diag. reflexivity.
  - intros j Hj. apply H2. cbn [length]. lia.
Qed.

Section Arith.
Variable S : scal.
Hypothesis X : exact S.
Let T := total S.
Lemma oc_add x y : oc T (s_add S x y) (fun z => z = x + y).
Proof. apply oc_both; [intros a H; apply (ex_add _ X) in H; auto|intros t; rewrite (to_add _ t); eauto]. Qed.
Lemma oc_sub x y : oc T (s_sub S x y) (fun z => z = x - y).
Proof. apply oc_both; [intros a H; apply (ex_sub _ X) in H; auto|intros t; rewrite (to_sub _ t); eauto]. Qed.
Lemma oc_mul x y : oc T (s_mul S x y) (fun z => z = x * y).
Proof. apply oc_both; [intros a H; apply (ex_mul _ X) in H; auto|intros t; rewrite (to_mul _ t); eauto]. Qed.
Lemma oc_neg x : oc T (s_neg S x) (fun z => z = - x).
Proof. apply oc_both; [intros a H; apply (ex_neg _ X) in H; auto|intros t; rewrite (to_neg _ t); eauto]. Qed.
Lemma oc_div x y : y <> 0 -> (y | x) -> oc T (s_div S x y) (fun z => y * z = x).
Proof. intros H D. apply oc_both; [intros a E; apply (ex_div _ X) in E; auto|intros t; destruct (to_div _ t x y H D) as (c & -> & _); eauto]. Qed.

Lemma lrow_merge (c c' : Prop) G nc f f' l1 l2 l : G 0 0 = 0 -> lrow c nc f l1 -> lrow c' nc f' l2 -> mres G l1 l2 l -> lrow (c /\ c') nc (fun j => G (f j) (f' j)) l.
Proof.
  intros G0 (A & B & C & D) (A' & B' & C' & D') (M1 & M2 & M3 & M4). split; [exact M1|]. split; [intros k x Hk; apply M2 in Hk; destruct Hk as [(y & Hk)|(y & Hk)]; eauto|]. split; [tauto|].
  intros j Hj. rewrite M3, D, D' by auto. reflexivity.
Qed.
Lemma sm_pm (c c' : Prop) G g h m s nr nc e e' : (forall y, oc T (g y) (fun z => z = G 0 y)) -> (forall x y, oc T (h x y) (fun z => z = G x y)) -> (forall x, G x 0 = x) -> (forall y, G 0 y = 0 -> y = 0) ->
  rep c m nr nc e -> rep c' s nr nc e' ->
  oc T (bind (mmap2 (fun x y => radd g h x y) (srows m) (srows s)) (fun l => Ok (Sm (snc m) l))) (fun r => rep (c /\ c') r nr nc (fun i j => G (e i j) (e' i j))).
Proof.
  intros Hg Hh G0 Gz R R'. pose proof R as (A & B & C). pose proof R' as (A' & B' & C').
  eapply oc_bind; [apply (oc_mmap2 T row0 row0 row0 (fun x y => radd g h x y) (srows m) (srows s) (fun i r => rrow (c /\ c') nc (fun j => G (e i j) (e' i j)) r)); [lia|]|].
  - intros i Hi. destruct (C i ltac:(lia)) as (l1 & H1 & L1). destruct (C' i ltac:(lia)) as (l2 & H2 & L2).
    eapply oc_impl; [eapply oc_sim; [apply (radd_sim g h _ _ l1 l2 H1 H2)|apply (rmerge_oc T G g h Hg Hh G0 Gz); [lia|apply L1|apply L2]]|].
    intros r (l & Hr & M). exists l. split; auto. eapply lrow_merge; eauto.
  - intros rs (L & H). cbn [oc]. rewrite A. apply rep_sm; [lia|]. intros i Hi. apply H. lia.
Qed.
Lemma sm_plus_ok (c c' : Prop) m s nr nc e e' : rep c m nr nc e -> rep c' s nr nc e' -> oc T (sm_plus S m s) (fun r => rep (c /\ c') r nr nc (fun i j => e i j + e' i j)).
Proof.
  intros R R'. unfold sm_plus, snr. rewrite (proj1 (proj2 R)), (proj1 (proj2 R')), Nat.eqb_refl.
  apply (sm_pm c c' (fun x y => x + y)); [intros y; reflexivity|intros; apply oc_add|intros; cbn beta; lia|intros y Hy; exact Hy|exact R|exact R'].
Qed.
Lemma sm_minus_ok (c c' : Prop) m s nr nc e e' : rep c m nr nc e -> rep c' s nr nc e' -> oc T (sm_minus S m s) (fun r => rep (c /\ c') r nr nc (fun i j => e i j - e' i j)).
Proof.
  intros R R'. unfold sm_minus, snr. rewrite (proj1 (proj2 R)), (proj1 (proj2 R')), Nat.eqb_refl.
  apply (sm_pm c c' (fun x y => x - y)); [intros y; eapply oc_impl; [apply oc_neg|]; intros a ->; reflexivity|intros; apply oc_sub|intros; cbn beta; lia|intros y Hy; cbn beta in Hy; lia|exact R|exact R'].
Qed.
(** different numbers of rows: nothing happens *)
Lemma sm_plus_dims m s : snr m <> snr s -> sm_plus S m s = Ok m /\ sm_minus S m s = Ok m.
Proof. intros H. unfold sm_plus, sm_minus. destruct (Nat.eqb_spec (snr m) (snr s)); [contradiction|auto]. Qed.

Lemma rdiag_oc T' k a l : a <> 0 -> msorted l -> (forall k x, In (k, x) l -> oc T' (s_add S x a) (fun z => z = x + a)) -> oc T' (rdiag S k a l) (fun l' => msorted l' /\ (forall k' x, In (k', x) l' -> k' = k \/ exists y, In (k', y) l) /\ (forall k', mval l' k' = mval l k' + (if k =? k' then a else 0)) /\ (canon l -> canon l')).
Proof.
  intros Ha. induction l as [|(k1, x) t IH]; intros H HA; cbn [rdiag].
  - cbn [oc]. split; [apply msorted_cons; split; [constructor|intros k' y []]|]. split; [intros k' x [[= <- <-]|[]]; auto|]. split; [intros k'; rewrite mval_cons, mval_nil; destruct (_ =? _); lia|intros _; apply canon_cons; [auto|apply canon_nil]].
  - pose proof H as H'. apply msorted_cons in H'. destruct H' as (Ht & A). destruct (Z.ltb_spec k1 k).
    + eapply oc_bind; [apply (IH Ht); intros; eapply HA; right; eauto|]. intros l' (M1 & M2 & M3 & M4). cbn [oc]. split; [apply msorted_cons; split; auto; intros k' y Hk; apply M2 in Hk; destruct Hk as [->|(z & Hk)]; eauto|].
      split; [intros k' y [[= <- <-]|Hk]; [right; eexists; left; eauto|apply M2 in Hk; destruct Hk as [->|(z & Hk)]; [left; auto|right; exists z; right; auto]]|].
      split; [intros k'; rewrite !mval_cons, M3; destruct (Z.eqb_spec k1 k'); auto; destruct (Z.eqb_spec k k'); lia|].
      intros C. apply canon_uncons in C; auto. apply canon_cons; tauto.
    + destruct (Z.eqb_spec k1 k) as [->|n].
      * eapply oc_bind; [apply (HA k x); left; auto|]. intros y ->. cbn [oc].
        assert (V : forall k', mval (if x + a =? 0 then t else (k, x + a) :: t) k' = if k =? k' then x + a else mval t k').
        { intros k'. destruct (Z.eqb_spec (x + a) 0) as [e|e]; [|apply mval_cons]. destruct (Z.eqb_spec k k'); auto. subst k'. rewrite e, mval_above; auto. }
        split; [destruct (_ =? _); auto; apply msorted_cons; auto|].
        split; [intros k' y Hk; assert (Q : (k', y) = (k, x + a) \/ In (k', y) t) by (destruct (_ =? _); [auto|destruct Hk; auto]); destruct Q as [[= -> ->]|Q]; [auto|right; exists y; right; auto]|].
        split; [intros k'; rewrite V, mval_cons; destruct (k =? k'); lia|].
        intros C. apply canon_uncons in C; auto. destruct (Z.eqb_spec (x + a) 0); [tauto|apply canon_cons; tauto].
      * cbn [oc]. assert (B : forall k' y, In (k', y) ((k1, x) :: t) -> k < k') by (intros k' y [[= <- <-]|Hk]; [lia|apply A in Hk; lia]).
        split; [apply msorted_cons; split; auto|]. split; [intros k' y [[= <- <-]|Hk]; [auto|right; eauto]|].
        split; [intros k'; rewrite (mval_cons k a); destruct (Z.eqb_spec k k') as [<-|]; [rewrite (mval_above _ k B); lia|lia]|]. intros C. apply canon_cons; auto.
Qed.
Lemma sm_adds_gen T' c m nr nc e a : rep c m nr nc e -> (nr <= nc)%nat -> (forall i j, (i < nr)%nat -> (j < nc)%nat -> oc T' (s_add S (e i j) a) (fun z => z = e i j + a)) -> oc T' (sm_adds S m a) (fun r => rep c r nr nc (fun i j => e i j + (if (i =? j)%nat then a else 0))).
Proof.
  intros R Hn HA. unfold sm_adds, snr. pose proof R as (A & B & C). destruct (Z.eqb_spec a 0) as [->|Ha].
  - cbn [oc]. eapply rep_ext; [exact R| |auto]. intros i j _ _. destruct (_ =? _)%nat; lia.
  - eapply oc_bind; [apply (oc_mmap T' (0%nat, row0) row0 _ (combine (seq 0 (length (srows m))) (srows m)) (fun i r => rrow c nc (fun j => e i j + (if (i =? j)%nat then a else 0)) r))|].
    + rewrite combine_length, seq_length, Nat.min_id. intros i Hi. rewrite combine_nth by apply seq_length. rewrite seq_nth by auto. cbn [Nat.add].
      destruct (rep_row _ _ _ _ _ i R ltac:(lia)) as (l & _ & E1 & -> & Hl). rewrite bind_Ok. destruct Hl as (L1 & L2 & L3 & L4).
      assert (HA' : forall k x, In (k, x) l -> oc T' (s_add S x a) (fun z => z = x + a)).
      { intros k x Hk. pose proof (L2 k x Hk). replace x with (e i (Z.to_nat (k - 1))); [apply HA; lia|].
        rewrite <- L4 by lia. replace (Z.of_nat (Z.to_nat (k - 1)) + 1) with k by lia. unfold mval. rewrite (In_mget l k x L1 Hk). reflexivity. }
      destruct (rdiag S (Z.of_nat i + 1) a l) as [l'| | |] eqn:E; cbn [bind].
      2-4: pose proof (rdiag_oc T' (Z.of_nat i + 1) a l Ha L1 HA') as Q; rewrite E in Q; exact Q.
      pose proof (oc_inv _ _ _ _ (rdiag_oc T' (Z.of_nat i + 1) a l Ha L1 HA') E) as (M1 & M2 & M3 & M4). apply rdiag_len in E.
      eapply oc_impl; [eapply (oc_sim T'); [apply rnew_sim, E|instantiate (1 := fun b => b = l'); reflexivity]|]. intros r (l'' & Hr & ->). exists l'. split; auto.
      split; [exact M1|]. split; [intros k x Hk; apply M2 in Hk; destruct Hk as [->|(y & Hk)]; [lia|eauto]|]. split; [auto|].
      intros j Hj. rewrite M3, L4 by auto. destruct (Nat.eqb_spec i j), (Z.eqb_spec (Z.of_nat i + 1) (Z.of_nat j + 1)); lia.
    + rewrite combine_length, seq_length, Nat.min_id. intros rs (L & H). cbn [oc]. rewrite A. apply rep_sm; [lia|]. intros i Hi. apply H. lia.
Qed.
Lemma sm_adds_ok c m nr nc e a : rep c m nr nc e -> (nr <= nc)%nat -> oc T (sm_adds S m a) (fun r => rep c r nr nc (fun i j => e i j + (if (i =? j)%nat then a else 0))).
Proof. intros R Hn. apply sm_adds_gen; auto. intros. apply oc_add. Qed.
Lemma sm_subs_ok c m nr nc e a : rep c m nr nc e -> (nr <= nc)%nat -> oc T (sm_subs S m a) (fun r => rep c r nr nc (fun i j => e i j - (if (i =? j)%nat then a else 0))).
Proof.
  intros R Hn. unfold sm_subs. eapply oc_bind; [apply oc_neg|]. intros b ->. eapply oc_impl; [apply sm_adds_ok; eauto|]. intros r H. eapply rep_ext; [exact H| |auto]. intros i j _ _. cbn beta. destruct (_ =? _)%nat; lia.
Qed.
Lemma sm_scale_ok c m nr nc e a : rep c m nr nc e -> oc T (sm_scale S m a) (fun r => rep (c /\ a <> 0) r nr nc (fun i j => a * e i j)).
Proof.
  intros R. unfold sm_scale. eapply oc_impl; [apply (sm_map_ok T c (c /\ a <> 0) _ (fun x y => y = x * a) m nr nc e R)|].
  - lia.
  - tauto.
  - intros (_ & Ha) x H. nia.
  - intros. apply oc_mul.
  - intros r (R' & H). eapply rep_ext; [exact R'| |auto]. intros i j Hi Hj. rewrite H by auto. lia.
Qed.
Lemma sm_div_ok c m nr nc e a : rep c m nr nc e -> a <> 0 -> (forall i j, (i < nr)%nat -> (j < nc)%nat -> (a | e i j)) ->
  oc T (sm_div S m a) (fun r => exists q, rep c r nr nc q /\ forall i j, (i < nr)%nat -> (j < nc)%nat -> a * q i j = e i j).
Proof.
  intros R Ha Hd. unfold sm_div. eapply oc_impl; [apply (sm_map_ok T c c _ (fun x y => a * y = x) m nr nc e R)|].
  - lia.
  - auto.
  - intros _ x H. lia.
  - intros i l k x Hi _ (L1 & L2 & L3 & L4) Hk. apply oc_div; auto. pose proof (L2 k x Hk). replace x with (e i (Z.to_nat (k - 1))); [apply Hd; lia|].
    rewrite <- L4 by lia. replace (Z.of_nat (Z.to_nat (k - 1)) + 1) with k by lia. unfold mval. rewrite (In_mget l k x L1 Hk). reflexivity.
  - intros r (R' & H). exists (dread r). auto.
Qed.
(** ** products *)
Lemma oc_mat_fill T' nr nc g (P : nat -> nat -> Z -> Prop) : (forall i j, (i < nr)%nat -> (j < nc)%nat -> oc T' (g i j) (P i j)) ->
  oc T' (mat_fill nr nc g) (fun r => msize r nr nc /\ forall i j, (i < nr)%nat -> (j < nc)%nat -> P i j (me r i j)).
Proof.
  intros Hg. unfold mat_fill. destruct (mat_new_ok nr nc) as (W0 & Z0).
  refine (oc_mfold_seq T' (fun k m => msize m nr nc /\ forall i j, (i < k)%nat -> (j < nc)%nat -> P i j (me m i j)) _ nr 0%nat (mat_new nr nc) _ _).
  { split; [split; [|split]; auto|]. intros; lia. }
  intros k m Hk (Hm & He).
  eapply oc_impl; [refine (oc_mfold_seq T' (fun t m => msize m nr nc /\ (forall i j, (i < k)%nat -> (j < nc)%nat -> P i j (me m i j)) /\ forall j, (j < t)%nat -> P k j (me m k j)) _ nc 0%nat m _ _)|].
  { split; auto. split; auto. intros; lia. }
  { intros t m1 Ht ((N1 & C1 & W1) & He1 & Hk1). eapply oc_bind; [apply Hg; lia|]. intros x Hx.
    destruct (mat_set_ok m1 k t x W1) as (m2 & -> & N2 & C2 & W2 & S2 & O2); [lia|lia|]. cbn [oc]. split; [split; [|split]; auto; congruence|]. split.
    - intros i j Hi Hj. rewrite O2 by lia. auto.
    - intros j Hj. destruct (Nat.eq_dec j t) as [->|]; [rewrite S2; auto|]. rewrite O2 by lia. apply Hk1. lia. }
  intros m' (Hm' & He' & Hk'). split; auto. intros i j Hi Hj. destruct (Nat.eq_dec i k) as [->|]; [apply Hk'; auto; lia|apply He'; auto; lia].
Qed.
(** a sum over the entries of a row *)
Lemma oc_rowsum T' n (f : Z -> Z * Z -> res Z) (g : Z -> Z) l : msorted l -> inr n l -> (forall s k x, In (k, x) l -> oc T' (f s (k, x)) (fun z => z = s + x * g k)) ->
  forall s, oc T' (mfold f l s) (fun z => z = s + sumn n (fun j => mval l (Z.of_nat j + 1) * g (Z.of_nat j + 1))).
Proof.
  intros Hs Hi. assert (Hr : inrange n l) by (apply inr_inrange; auto). rewrite <- (lprod_sumn n l g Hs Hr). clear Hr Hs Hi. induction l as [|(k, x) l IH]; intros H s; cbn [mfold lprod]; [cbn [oc]; lia|].
  eapply oc_bind; [apply H; left; auto|]. intros z ->. eapply oc_impl; [apply IH; intros; apply H; right; auto|]. intros a ->; lia.
Qed.
Lemma sm_mul_mat_ok c m nr nc e b nb : rep c m nr nc e -> msize b nc nb -> oc T (sm_mul_mat S m b) (fun r => msize r nr nb /\ forall i j, (i < nr)%nat -> (j < nb)%nat -> me r i j = sumn nc (fun k => e i k * me b k j)).
Proof.
  intros R (B1 & B2 & W). unfold sm_mul_mat, snr. rewrite (proj1 R), (proj1 (proj2 R)), B1, B2, Nat.eqb_refl.
  apply (oc_mat_fill T nr nb _ (fun i j z => z = sumn nc (fun k => e i k * me b k j))). intros i j Hi Hj. destruct (rep_row _ _ _ _ _ i R Hi) as (l & -> & _ & E & (L1 & L2 & _ & L4)). rewrite bind_Ok, E, bind_Ok.
  eapply oc_impl; [apply (oc_rowsum T nc _ (fun k => me b (Z.to_nat (k - 1)) j) l L1 L2)|].
  - intros s k x Hk. pose proof (L2 k x Hk). destruct (Z.leb_spec 1 k); [|lia]. rewrite mat_get_ok by (auto; lia). rewrite bind_Ok. eapply oc_bind; [apply oc_mul|]. intros t ->. apply oc_add.
  - intros z ->. rewrite Z.add_0_l. apply sumn_ext. intros k Hk. rewrite L4 by auto. f_equal. f_equal. lia.
Qed.
Lemma sm_mul_vec_ok c m nr nc e v : rep c m nr nc e -> length v = nc -> oc T (sm_mul_vec S m v) (fun w => length w = nr /\ forall i, (i < nr)%nat -> nth i w 0 = sumn nc (fun k => e i k * nth k v 0)).
Proof.
  intros R L. unfold sm_mul_vec, snr. rewrite (proj1 R), (proj1 (proj2 R)), L, Nat.eqb_refl.
  eapply oc_impl; [refine (oc_mfold_seq T (fun k w => length w = nr /\ forall i, (i < k)%nat -> nth i w 0 = sumn nc (fun k => e i k * nth k v 0)) _ nr 0%nat (zeros nr) _ _)|].
  - split; [apply repeat_length|intros; lia].
  - intros i w Hi (Lw & Hw). destruct (sm_row_ok _ _ _ _ _ i R ltac:(lia)) as (l & -> & Hl). rewrite bind_Ok. assert (Hr : inrange (length v) l) by (rewrite L; eapply lrow_inrange; eauto).
    eapply oc_bind; [apply (oc_both T (sv_dotv S (Sv (Z.of_nat nc) l) v) (fun z => z = sumn nc (fun k => e i k * nth k v 0)))|].
    + intros z H. apply (sv_dotv_inv S X) in H; [|apply Hl|exact Hr]. rewrite H, L. apply sumn_ext. intros k Hk. destruct Hl as (_ & _ & _ & D). cbn [sents]. rewrite D by auto. reflexivity.
    + intros t. apply (sv_dotv_tot S t); [apply Hl|exact Hr].
    + intros z ->. destruct (at_set_ok w i (sumn nc (fun k => e i k * nth k v 0))) as (w' & -> & L' & H1 & H2); [lia|]. cbn [oc]. split; [lia|]. intros j Hj. destruct (Nat.eq_dec j i) as [->|n]; [exact H1|]. rewrite H2 by auto. apply Hw. lia.
  - intros w (Lw & Hw). split; auto.
Qed.
Definition svrep (c : Prop) (v : svec) (n : nat) (f : nat -> Z) : Prop := sd v = Z.of_nat n /\ lrow c n f (sents v).
Lemma sm_mul_svec_ok (c c' : Prop) m nr nc e v f : rep c m nr nc e -> svrep c' v nc f -> oc T (sm_mul_svec S m v) (fun w => svrep True w nr (fun i => sumn nc (fun k => e i k * f k))).
Proof.
  intros R (L & Hv). unfold sm_mul_svec, snr. rewrite (proj1 R), (proj1 (proj2 R)), L, Z.eqb_refl.
  set (g := fun i => sumn nc (fun k => e i k * f k)).
  eapply oc_impl; [refine (oc_mfold_seq T (fun n w => sd w = Z.of_nat nr /\ lrow True n g (sents w)) _ nr 0%nat (Sv (Z.of_nat nr) []) _ _)|].
  - split; [reflexivity|]. split; [constructor|]. split; [intros k x []|]. split; [intros _; apply canon_nil|intros; lia].
  - intros i w Hi (Lw & Hw). destruct (sm_row_ok _ _ _ _ _ i R ltac:(lia)) as (l & -> & Hl). rewrite bind_Ok.
    eapply oc_bind; [apply (oc_both T (sv_dot S (Sv (Z.of_nat nc) l) v) (fun z => z = g i))|].
    + intros z H. apply (sv_dot_inv S X _ _ _ nc) in H; [|apply Hl|apply Hv|eapply lrow_inrange; eauto]. rewrite H. apply sumn_ext. intros k Hk. destruct Hl as (_ & _ & _ & D). destruct Hv as (_ & _ & _ & D'). cbn [sents]. rewrite D, D' by auto. reflexivity.
    + intros t. apply (sv_dot_tot S t).
    + intros z ->. cbn [oc]. destruct Hw as (A & B & C & D).
      assert (Bl : mval (sents w) (Z.of_nat i + 1) = 0) by (eapply mval_out; [exact B|lia]).
      destruct (Z.eqb_spec (g i) 0) as [e0|n0]; cbn [sd sents].
      * split; auto. split; [exact A|]. split; [intros k x Hk; apply B in Hk; lia|]. split; [auto|]. intros j Hj. destruct (Nat.eq_dec j i) as [->|]; [congruence|apply D; lia].
      * split; auto. split; [apply mset_sorted, A|]. split; [intros k x Hk; apply In_mset in Hk; destruct Hk as [->|Hk]; [lia|apply B in Hk; lia]|]. split; [intros _; apply canon_mset; auto|].
        intros j Hj. rewrite mval_mset. destruct (Z.eqb_spec (Z.of_nat i + 1) (Z.of_nat j + 1)); [f_equal; lia|apply D; lia].
  - intros w (Lw & Hw). split; auto.
Qed.
Lemma row1_ok c m nr nc e k : rep c m nr nc e -> 1 <= k <= Z.of_nat nr -> exists l, row1 m k = Ok (Sv (Z.of_nat nc) l) /\ lrow True nc (e (Z.to_nat (k - 1))) l.
Proof. intros R Hk. unfold row1. destruct (Z.leb_spec 1 k); [|lia]. apply (sm_row_ok _ _ _ _ _ _ R). lia. Qed.
Lemma sv_plus_oc (c c' : Prop) v w n f g : svrep c v n f -> svrep c' w n g -> oc T (sv_plus S false v w) (fun r => svrep (c /\ c') r n (fun j => f j + g j)).
Proof.
  intros (D1 & H1) (D2 & H2). pose proof H1 as (A & B & C & D). pose proof H2 as (A' & B' & C' & D'). unfold sv_plus, sv_merge. rewrite D1, D2, Z.eqb_refl.
  pose proof (merge_main (fun y => Ok y) (fun x y => s_add S x y) (sents v) (sents w) A A') as MM.
  eapply oc_bind; [apply (oc_both T _ (fun s => msorted (mm s) /\ forall k, mspec (fun y => Ok y) (fun x y => s_add S x y) (sents v) (sents w) k (mget (mm s) k)))|].
  - intros s E. destruct MM as [(s' & E' & M1 & M2 & _)|(M1 & M2)]; [|exfalso; eapply M2; exact E]. rewrite E in E'. injection E' as <-. split; auto.
  - intros t. apply (merge_total); auto; [discriminate|eauto|intros; rewrite (to_add _ t); eauto|discriminate].
  - intros s (M1 & M2). cbn [oc]. split; [reflexivity|]. cbn [sents]. split; [exact M1|]. split.
    + intros k x Hk. specialize (M2 k). rewrite (In_mget _ k x M1 Hk) in M2. destruct (mget (sents v) k) eqn:E1; [apply mget_In in E1; eauto|]. destruct (mget (sents w) k) eqn:E2; [apply mget_In in E2; eauto|].
      unfold mspec in M2. rewrite E2, E1 in M2. discriminate.
    + split.
      * intros (c1 & c2). eapply merge_canon; [apply C, c1|exact M2|]. intros k y r Hk [= ->] ->. exact (C' c2 k Hk).
      * intros j Hj. rewrite <- D, <- D' by auto. refine (merge_val _ _ (fun x y => x + y) _ _ _ _ (M2 _) _ _ _); [intros y r [= ->]; reflexivity|intros x y r H; apply (ex_add _ X) in H; exact H|intros; cbn beta; lia].
Qed.
Lemma sv_scale_oc (c : Prop) v n f a : svrep c v n f -> oc T (sv_scale S v a) (fun r => svrep (c /\ a <> 0) r n (fun j => a * f j)).
Proof.
  intros (D1 & H1). unfold sv_scale. eapply oc_bind; [apply (smap_map_oc T _ (fun x y => y = x * a)); intros; apply oc_mul|]. intros l' F. cbn [oc]. split; [exact D1|]. cbn [sents].
  destruct (lrow_map c (c /\ a <> 0) n f (fun x y => y = x * a) _ _ H1 F) as (L & H).
  - lia.
  - tauto.
  - intros (_ & Ha) x Hx. nia.
  - eapply lrow_ext; [exact L| |auto]. intros j Hj. specialize (H j Hj). cbn beta in *. lia.
Qed.
(** svec*smat: the rows are added one after the other *)
Lemma svec_mul_ok (c c' : Prop) m nr nc e v f : rep c m nr nc e -> svrep c' v nr f -> c' -> oc T (svec_mul S v m) (fun w => svrep True w nc (fun j => sumn nr (fun k => f k * e k j))).
Proof.
  intros R (L & Hv) Hc. unfold svec_mul, snr. rewrite (proj1 R), (proj1 (proj2 R)), L, Z.eqb_refl. pose proof Hv as (A & B & C & D). specialize (C Hc).
  assert (Hr : inrange nr (sents v)) by (eapply lrow_inrange; eauto).
  eapply oc_impl with (P := fun w => svrep True w nc (fun j => 0 + lprod (sents v) (fun k => e (Z.to_nat (k - 1)) j))).
  - clear L Hv D Hr. assert (G : forall l w f0, msorted l -> inr nr l -> canon l -> svrep True w nc f0 ->
      oc T (mfold (fun w '(k, x) => bind (row1 m k) (fun r => bind (sv_scale S r x) (fun r => sv_plus S false w r))) l w) (fun w => svrep True w nc (fun j => f0 j + lprod l (fun k => e (Z.to_nat (k - 1)) j)))).
    { induction l as [|(k, x) l IH]; intros w f0 A0 B0 C0 Hw; cbn [mfold lprod].
      - cbn [oc]. destruct Hw as (W1 & W2). split; auto. eapply lrow_ext; [exact W2|intros; lia|auto].
      - apply canon_uncons in C0; auto. destruct C0 as (Cx & C0). apply msorted_cons in A0. destruct A0 as (A0 & _). apply inr_cons in B0. destruct B0 as (B0 & B1).
        destruct (row1_ok _ _ _ _ _ k R B0) as (lr & -> & Hl). rewrite bind_Ok.
        eapply oc_bind with (P := fun w' => svrep True w' nc (fun j => f0 j + x * e (Z.to_nat (k - 1)) j)).
        + eapply oc_bind; [apply (sv_scale_oc True); split; [reflexivity|exact Hl]|]. intros r Hr. cbn beta in Hr. eapply oc_impl; [apply (sv_plus_oc _ _ _ _ _ _ _ Hw Hr)|]. intros q (Q1 & Q2). split; auto. eapply lrow_ext; [exact Q2|intros; reflexivity|tauto].
        + intros w' Hw'. eapply oc_impl; [apply (IH w' _ A0 B1 C0 Hw')|]. intros q (Q1 & Q2). split; auto. eapply lrow_ext; [exact Q2|intros; cbn beta; lia|auto]. }
    apply (G (sents v) _ (fun _ => 0)); auto. split; [reflexivity|]. apply lrow_nil.
  - intros w (W1 & W2). split; auto. eapply lrow_ext; [exact W2| |auto]. intros j Hj. cbn beta. rewrite Z.add_0_l, (lprod_sumn nr) by auto. apply sumn_ext. intros k Hk. rewrite D by auto. f_equal. f_equal. lia.
Qed.
Lemma rows_fold T' (c : Prop) (f : smat -> nat -> res smat) nr nc (g : nat -> nat -> Z) m0 e0 : rep c m0 nr nc e0 ->
  (forall m i e, (i < nr)%nat -> rep c m nr nc e -> (forall a b, (a < nr)%nat -> (b < nc)%nat -> e a b = if (a <? i)%nat then g a b else e0 a b) -> oc T' (f m i) (fun m' => rep c m' nr nc (fun a b => if (a =? i)%nat then g a b else e a b))) ->
  oc T' (mfold f (seq 0 nr) m0) (fun m => rep c m nr nc g).
Proof.
  intros R0 Hf. eapply oc_impl; [refine (oc_mfold_seq T' (fun i m => rep c m nr nc (fun a b => if (a <? i)%nat then g a b else e0 a b)) f nr 0%nat m0 _ _)|].
  - eapply rep_ext; [exact R0|intros; reflexivity|auto].
  - intros i m Hi R. eapply oc_impl; [eapply Hf; [lia|exact R|auto]|]. intros m' R'. eapply rep_ext; [exact R'| |auto]. intros a b Ha Hb. cbn beta.
    destruct (Nat.eqb_spec a i) as [->|n]; [destruct (Nat.ltb_spec i (Datatypes.S i)); [reflexivity|lia]|]. destruct (Nat.ltb_spec a i), (Nat.ltb_spec a (Datatypes.S i)); auto; lia.
  - intros m R. eapply rep_ext; [exact R| |auto]. intros a b Ha Hb. cbn [Nat.add]. destruct (Nat.ltb_spec a nr); [reflexivity|lia].
Qed.
Lemma sm_mul_ok (c c' : Prop) a b nr n nc ea eb : rep c a nr n ea -> rep c' b n nc eb -> oc T (sm_mul S a b) (fun r => rep True r nr nc (fun i j => sumn n (fun k => ea i k * eb k j))).
Proof.
  intros Ra Rb. unfold sm_mul. unfold snr. rewrite (proj1 Ra), (proj1 (proj2 Rb)), (proj1 (proj2 Ra)), (proj1 Rb), Nat.eqb_refl.
  eapply (rows_fold T True); [apply rep_new|]. intros m i e Hi R _. destruct (sm_row_ok _ _ _ _ _ i Ra Hi) as (l & -> & Hl). rewrite bind_Ok.
  eapply oc_bind; [eapply (svec_mul_ok c' True _ _ _ _ _ _ Rb); [split; [reflexivity|exact Hl]|exact Logic.I]|]. intros v (V1 & V2). cbn beta in V2.
  destruct (sm_setrow_ok True m nr nc e i _ v R Hi V2) as (m' & -> & R'). cbn [oc]. eapply rep_ext; [exact R'| |auto]. intros x y Hx Hy. cbn beta. destruct (Nat.eqb_spec x i) as [->|]; reflexivity.
Qed.
End Arith.
