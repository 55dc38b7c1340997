(** Proofs about SmatModel, third part: whole matrices. *)
From Coq Require Import ZArith Lia List Bool Sorted.
From Verif Require Import Base LinModel LinSpec LinProofs LinAlg LinElim SvecModel SvecSpec SvecProofs SvecOps SvecMod SvecMore SmatModel SmatProofs SmatOps.
Import ListNotations.
Open Scope Z_scope.
Open Scope res_scope.

Definition lrow (c : Prop) (nc : nat) (f : nat -> Z) (l : smap) : Prop :=
  msorted l /\ inr nc l /\ (c -> canon l) /\ forall j, (j < nc)%nat -> mval l (Z.of_nat j + 1) = f j.
Definition rrow c nc f r := exists l, rowok r l /\ lrow c nc f l.
Definition rep (c : Prop) (m : smat) (nr nc : nat) (e : nat -> nat -> Z) : Prop :=
  snc m = nc /\ length (srows m) = nr /\ forall i, (i < nr)%nat -> rrow c nc (e i) (nth i (srows m) row0).
Lemma lrow_ext (c c' : Prop) nc f f' l : lrow c nc f l -> (forall j, (j < nc)%nat -> f j = f' j) -> (c' -> c) -> lrow c' nc f' l.
Proof. intros (A & B & C & D) H H'. split; [exact A|]. split; [exact B|]. split; [auto|]. intros j Hj. rewrite D by auto. auto. Qed.
Lemma rrow_ext (c c' : Prop) nc f f' r : rrow c nc f r -> (forall j, (j < nc)%nat -> f j = f' j) -> (c' -> c) -> rrow c' nc f' r.
Proof. intros (l & H1 & H2) H H'. exists l. split; auto. eapply lrow_ext; eauto. Qed.
Lemma rep_ext (c c' : Prop) m nr nc e e' : rep c m nr nc e -> (forall i j, (i < nr)%nat -> (j < nc)%nat -> e i j = e' i j) -> (c' -> c) -> rep c' m nr nc e'.
Proof. intros (A & B & C) H H'. split; [exact A|]. split; [exact B|]. intros i Hi. eapply rrow_ext; eauto. Qed.
(** the row as a function of the position *)
Definition rowfun (nc : nat) (f : nat -> Z) (k : Z) : Z := if (1 <=? k) && (k <=? Z.of_nat nc) then f (Z.to_nat (k - 1)) else 0.
Lemma rowfun_in nc f j : (j < nc)%nat -> rowfun nc f (Z.of_nat j + 1) = f j.
Proof.
  intros H. unfold rowfun. destruct (Z.leb_spec 1 (Z.of_nat j + 1)); [|lia]. destruct (Z.leb_spec (Z.of_nat j + 1) (Z.of_nat nc)); [|lia]. cbn [andb]. f_equal. lia.
Qed.
Lemma rowfun_out nc f k : ~ (1 <= k <= Z.of_nat nc) -> rowfun nc f k = 0.
Proof. intros H. unfold rowfun. destruct (Z.leb_spec 1 k); auto. destruct (Z.leb_spec k (Z.of_nat nc)); auto. lia. Qed.
Lemma rowfun_case nc k : (exists j, (j < nc)%nat /\ k = Z.of_nat j + 1) \/ ~ (1 <= k <= Z.of_nat nc).
Proof. destruct (Z_le_dec 1 k); [|right; lia]. destruct (Z_le_dec k (Z.of_nat nc)); [|right; lia]. left. exists (Z.to_nat (k - 1)). split; lia. Qed.
Lemma lrow_val c nc f l k : lrow c nc f l -> mval l k = rowfun nc f k.
Proof.
  intros (A & B & C & D). destruct (rowfun_case nc k) as [(j & Hj & ->)|H]; [rewrite rowfun_in by auto; auto|rewrite rowfun_out by auto; eapply mval_out; eauto].
Qed.
Lemma lrow_den c nc f l : lrow c nc f l -> den (Sv (Z.of_nat nc) l) (Z.of_nat nc, rowfun nc f).
Proof. intros H. split; [reflexivity|]. intros k. cbn [sents snd]. eapply lrow_val; eauto. Qed.
Lemma lrow_of (c : Prop) nc f l : msorted l -> inr nc l -> (c -> canon l) -> (forall k, 1 <= k <= Z.of_nat nc -> mval l k = rowfun nc f k) -> lrow c nc f l.
Proof. intros A B C D. split; [exact A|]. split; [exact B|]. split; [exact C|]. intros j Hj. rewrite D by lia. apply rowfun_in, Hj. Qed.
Lemma lrow_inrange c nc f l : lrow c nc f l -> inrange nc l.
Proof. intros (A & B & _). apply inr_inrange; auto. Qed.
Lemma lrow_nil c nc : lrow c nc (fun _ => 0) [].
Proof. split; [constructor|]. split; [intros k x []|]. split; [intros _; apply canon_nil|]. intros; reflexivity. Qed.
(** of_list, nonzeros *)
Lemma lrow_of_list (c : Prop) v : lrow c (length v) (fun j => nth j v 0) (of_list 1 v).
Proof.
  split; [apply of_list_sorted|]. split; [intros k x H; apply of_list_In in H; lia|]. split; [intros _; apply of_list_canon|].
  intros j Hj. rewrite of_list_val. destruct (Z.leb_spec 1 (Z.of_nat j + 1)); [|lia]. f_equal. lia.
Qed.
Lemma In_nonzeros l k x : In (k, x) (nonzeros l) <-> In (k, x) l /\ x <> 0.
Proof. unfold nonzeros. rewrite filter_In. rewrite negb_true_iff, Z.eqb_neq. tauto. Qed.
Lemma nonzeros_sorted l : msorted l -> msorted (nonzeros l).
Proof.
  induction l as [|(k, x) l IH]; intros H; [constructor|]. apply msorted_cons in H. destruct H as (H & A). unfold nonzeros. cbn [filter]. fold (nonzeros l).
  destruct (negb _); auto. apply msorted_cons. split; auto. intros k' y Hk. apply In_nonzeros in Hk. apply (A k' y). tauto.
Qed.
Lemma nonzeros_val l k : msorted l -> mval (nonzeros l) k = mval l k.
Proof.
  induction l as [|(k', x) l IH]; intros H; [reflexivity|]. pose proof H as H'. apply msorted_cons in H'. destruct H' as (Hl & A). unfold nonzeros. cbn [filter]. fold (nonzeros l).
  destruct (Z.eqb_spec x 0) as [->|n]; cbn [negb]; rewrite !mval_cons; [|rewrite IH; auto].
  destruct (Z.eqb_spec k' k); [subst k'|apply IH, Hl]. apply mval_above. intros k' y Hk. apply In_nonzeros in Hk. apply (A k' y). tauto.
Qed.
Lemma lrow_nonzeros c nc f l : lrow c nc f l -> lrow True nc f (nonzeros l).
Proof.
  intros (A & B & C & D). split; [apply nonzeros_sorted, A|]. split; [intros k x H; apply In_nonzeros in H; apply (B k x); tauto|]. split.
  - intros _ k Hk. apply mget_In in Hk. apply In_nonzeros in Hk. tauto.
  - intros j Hj. rewrite nonzeros_val by auto. auto.
Qed.

(** ** rows of a matrix *)
Lemma rowat_ok m i : (i < length (srows m))%nat -> rowat m i = Ok (nth i (srows m) row0).
Proof. apply deref_ok. Qed.
Lemma rep_row c m nr nc e i : rep c m nr nc e -> (i < nr)%nat -> exists l, rowat m i = Ok (nth i (srows m) row0) /\ rowok (nth i (srows m) row0) l /\ rread (nth i (srows m) row0) = Ok l /\ lrow c nc (e i) l.
Proof.
  intros (A & B & C) Hi. destruct (C i Hi) as (l & H1 & H2). exists l. split; [apply rowat_ok; lia|]. split; auto. split; auto. apply rread_ok, H1.
Qed.
Lemma setrowat_ok c m nr nc e i r f : rep c m nr nc e -> (i < nr)%nat -> rrow c nc f r -> exists m', setrowat m i r = Ok m' /\ rep c m' nr nc (fun a b => if (a =? i)%nat then f b else e a b).
Proof.
  intros (A & B & C) Hi Hr. unfold setrowat. destruct (put_ok row0 (srows m) i [r]) as (l & -> & L & H1 & H2); [cbn [length]; lia|]. rewrite bind_Ok. eexists; split; [reflexivity|].
  split; [exact A|]. split; [cbn [srows]; lia|]. intros a Ha. cbn [srows]. destruct (Nat.eqb_spec a i) as [->|n].
  - rewrite H1 by (cbn [length]; lia). rewrite Nat.sub_diag. exact Hr.
  - rewrite H2 by (cbn [length]; lia). apply C, Ha.
Qed.
(** a matrix with a row replaced, up to the part of the matrix not touched *)
Lemma sm_set_row_ok c m nr nc e i f l : rep c m nr nc e -> (i < nr)%nat -> lrow False nc f l ->
  exists m', sm_set_row m i l = Ok m' /\ rep c m' nr nc (fun a b => if (a =? i)%nat then f b else e a b).
Proof.
  intros R Hi Hl. destruct (rep_row _ _ _ _ _ i R Hi) as (l0 & E1 & E2 & _ & _). unfold sm_set_row. rewrite E1, bind_Ok.
  destruct (simr_ok _ _ _ _ (rset_sim _ l0 l E2) eq_refl) as (r & -> & Hr). rewrite bind_Ok. apply setrowat_ok; auto. exists (nonzeros l). split; auto.
  eapply lrow_ext; [eapply lrow_nonzeros; exact Hl|auto|auto].
Qed.
Lemma sm_setrow_ok c m nr nc e i f v : rep c m nr nc e -> (i < nr)%nat -> lrow c nc f (sents v) ->
  exists m', sm_setrow m i v = Ok m' /\ rep c m' nr nc (fun a b => if (a =? i)%nat then f b else e a b).
Proof.
  intros R Hi Hl. destruct (rep_row _ _ _ _ _ i R Hi) as (l0 & E1 & E2 & _ & _). unfold sm_setrow. rewrite E1, bind_Ok.
  destruct (simr_ok _ _ _ _ (rsetsvec_sim _ l0 (sents v) E2) eq_refl) as (r & -> & Hr). rewrite bind_Ok. apply setrowat_ok; auto. exists (sents v). split; auto.
Qed.
Lemma rep_new nr nc c : rep c (sm_new nr nc) nr nc (fun _ _ => 0).
Proof.
  split; [reflexivity|]. split; [cbn [sm_new srows]; apply repeat_length|]. intros i Hi. cbn [sm_new srows]. rewrite nth_repeat. exists []. split; [apply row0_ok|apply lrow_nil].
Qed.
Lemma rep_sm c nc rs nr e : length rs = nr -> (forall i, (i < nr)%nat -> rrow c nc (e i) (nth i rs row0)) -> rep c (Sm nc rs) nr nc e.
Proof. intros A B. split; [reflexivity|]. split; [exact A|exact B]. Qed.
Lemma sm_copy_ok c m nr nc e : rep c m nr nc e -> exists m', sm_copy m = Ok m' /\ rep c m' nr nc e.
Proof.
  intros (A & B & C). unfold sm_copy.
  destruct (oc_tot True _ _ (oc_mmap True row0 row0 rcopy (srows m) (fun i r => rrow c nc (e i) r) ltac:(
    intros i Hi; destruct (C i ltac:(lia)) as (l & H1 & H2); eapply oc_impl; [eapply (oc_sim True); [apply rcopy_sim, H1|exact H2]|]; intros r Hr; exact Hr)) Logic.I) as (rs & -> & L & H).
  rewrite bind_Ok. eexists; split; [reflexivity|]. rewrite A. apply rep_sm; [lia|]. intros i Hi. apply H. lia.
Qed.
Lemma sm_of_mat_ok c m nr nc : msize m nr nc -> exists m', sm_of_mat m = Ok m' /\ rep c m' nr nc (me m).
Proof.
  intros (A & B & W). unfold sm_of_mat.
  destruct (oc_tot True _ _ (oc_mmap True 0%nat row0 (fun i => bind (seg (ents m) (i * nco m) (nco m)) (fun e => rnew (length (of_list 1 e)) (of_list 1 e))) (seq 0 (nro m)) (fun i r => rrow c nc (me m i) r) ltac:(
    intros i Hi; rewrite seq_length in Hi; rewrite seq_nth by auto; cbn [Nat.add];
    destruct (seg_row (nro m) (nco m) (ents m) i 0 (nco m) W Hi ltac:(lia)) as (v & E & L & H); rewrite Nat.add_0_r in E; rewrite E, bind_Ok;
    eapply oc_impl; [eapply (oc_sim True); [apply rnew_sim; apply Nat.le_refl|exact (lrow_of_list c v)]|]; intros r (l & H1 & H2); exists l; split; [exact H1|];
    rewrite L, B in H2; eapply lrow_ext; [exact H2| |auto]; intros j Hj; etransitivity; [apply (H j); lia|reflexivity])) Logic.I) as (rs & E & L & H).
  cbv zeta. rewrite E, bind_Ok. eexists; split; [reflexivity|]. rewrite B. rewrite seq_length in L, H. apply rep_sm; [lia|]. intros i Hi. apply H. lia.
Qed.
Lemma sm_assign_ok (c c' : Prop) (al : bool) m s nr nc nr' nc' e e' : rep c' m nr' nc' e' -> rep c s nr nc e -> (al = true -> s = m) -> exists m', sm_assign al m s = Ok m' /\ rep c m' nr nc e.
Proof.
  intros Rm Rs Al. unfold sm_assign. destruct al; [rewrite <- Al by auto; eauto|]. destruct Rm as (A & B & C). destruct Rs as (A' & B' & C').
  assert (R0 : exists rs, (if (snr m =? snr s)%nat then srows m else repeat row0 (snr s)) = rs /\ length rs = nr /\ forall i, (i < nr)%nat -> exists l, rowok (nth i rs row0) l).
  { eexists; split; [reflexivity|]. unfold snr. destruct (Nat.eqb_spec (length (srows m)) (length (srows s))) as [E|E].
    - split; [lia|]. intros i Hi. destruct (C i ltac:(lia)) as (l & H & _). eauto.
    - split; [rewrite repeat_length; lia|]. intros i Hi. rewrite nth_repeat. exists []. apply row0_ok. }
  destruct R0 as (rs & E & Lr & Hr). cbv zeta. rewrite E.
  destruct (oc_tot True _ _ (oc_mmap2 True row0 row0 row0 (fun x y => rassign x y) rs (srows s) (fun i r => rrow c nc (e i) r) ltac:(lia) ltac:(
    intros i Hi; destruct (Hr i ltac:(lia)) as (l0 & H0); destruct (C' i ltac:(lia)) as (l & H1 & H2); eapply oc_impl; [eapply (oc_sim True); [apply (rassign_sim _ _ _ _ H0 H1)|exact H2]|]; intros r Hr'; exact Hr')) Logic.I) as (q & -> & L & H).
  rewrite bind_Ok. eexists; split; [reflexivity|]. rewrite A'. apply rep_sm; [lia|]. intros i Hi. apply H. lia.
Qed.
Lemma sm_select_ok c m nr nc e rs : rep c m nr nc e -> Forall (fun r => (r < nr)%nat) rs -> exists m', sm_select m rs = Ok m' /\ rep True m' (length rs) nc (fun i j => e (nth i rs 0%nat) j).
Proof.
  intros R F. unfold sm_select. rewrite (proj1 R).
  refine (oc_tot True _ _ (oc_impl _ _ _ _ (oc_mfold_idx True 0%nat (fun i a => rep True a (length rs) nc (fun a b => if (a <? i)%nat then e (nth a rs 0%nat) b else 0)) _ rs 0%nat (sm_new (length rs) nc) _ _) _) Logic.I).
  - eapply rep_ext; [apply (rep_new _ _ True)|intros; reflexivity|auto].
  - intros i a Hi Ra. cbn [Nat.add] in *. rewrite Forall_forall in F. assert (Hr : (nth i rs 0 < nr)%nat) by (apply F, nth_In, Hi).
    destruct (rep_row _ _ _ _ _ _ R Hr) as (l & -> & _ & E & Hl). rewrite bind_Ok, E, bind_Ok.
    destruct (sm_set_row_ok _ a _ _ _ i (e (nth i rs 0%nat)) l Ra Hi) as (m' & -> & R'); [eapply lrow_ext; [exact Hl|auto|tauto]|]. cbn [oc].
    eapply rep_ext; [exact R'| |auto]. intros a' j Ha' Hj. cbn beta. destruct (Nat.eqb_spec a' i) as [->|n].
    + destruct (Nat.ltb_spec i (Datatypes.S i)); [reflexivity|lia].
    + destruct (Nat.ltb_spec a' i), (Nat.ltb_spec a' (Datatypes.S i)); auto; lia.
  - intros a Ra. eapply rep_ext; [exact Ra| |auto]. intros i j Hi Hj. cbn [Nat.add]. destruct (Nat.ltb_spec i (length rs)); [reflexivity|lia].
Qed.
(** ** reading *)
Lemma fold_set l : forall acc d, msorted l -> (forall k x k' y, In (k, x) acc -> In (k', y) l -> k < k') -> fold_left (fun v '(k, x) => sv_set v k x) l (Sv d acc) = Sv d (acc ++ nonzeros l).
Proof.
  induction l as [|(k, x) l IH]; intros acc d Hs Ha; cbn [fold_left]; [cbn; rewrite app_nil_r; reflexivity|]. apply msorted_cons in Hs. destruct Hs as (Hs & Hl).
  unfold sv_set, nonzeros. cbn [filter]. fold (nonzeros l). destruct (Z.eqb_spec x 0) as [->|n]; cbn [negb].
  - apply IH; auto. intros. eapply Ha; eauto. right; eauto.
  - cbn [sd sents]. assert (E : mset acc k x = acc ++ [(k, x)]).
    { clear -Ha. assert (H : forall k1 y, In (k1, y) acc -> k1 < k) by (intros k1 y H; eapply Ha; [exact H|left; reflexivity]). clear Ha. induction acc as [|(k1, y) acc IH]; cbn [mset app]; auto.
      assert (k1 < k) by (apply (H k1 y); left; auto). destruct (Z.ltb_spec k k1); [lia|]. destruct (Z.eqb_spec k k1); [lia|]. f_equal. apply IH. intros. eapply H. right; eauto. }
    rewrite E, IH; auto; [rewrite <- app_assoc; reflexivity|]. intros k1 y k2 z H1 H2. apply in_app_or in H1. destruct H1 as [H1|[[= <- <-]|[]]]; [eapply Ha; [exact H1|right; exact H2]|eauto].
Qed.
Lemma sm_row_ok c m nr nc e i : rep c m nr nc e -> (i < nr)%nat -> exists l, sm_row m i = Ok (Sv (Z.of_nat nc) l) /\ lrow True nc (e i) l.
Proof.
  intros R Hi. destruct (rep_row _ _ _ _ _ i R Hi) as (l & E1 & _ & E2 & Hl). unfold sm_row. rewrite E1, bind_Ok, E2, bind_Ok. rewrite fold_set; [|apply Hl|intros ? ? ? ? []].
  rewrite (proj1 R). eexists; split; [reflexivity|]. cbn [app]. eapply lrow_nonzeros; eauto.
Qed.
Lemma lookup_ok l j : msorted l -> lookup l j = mval l j.
Proof.
  induction l as [|(k, x) l IH]; intros H; cbn [lookup]; [reflexivity|]. apply msorted_cons in H. destruct H as (H & A). rewrite mval_cons. destruct (Z.ltb_spec k j).
  - destruct (Z.eqb_spec k j); [lia|auto].
  - destruct (Z.eqb_spec k j); auto. rewrite mval_above; auto. intros k' y Hk. apply A in Hk. lia.
Qed.
Lemma sm_elem_ok c m nr nc e i j : rep c m nr nc e -> sm_elem m i j = Ok (if (0 <? i) && (i <=? Z.of_nat nr) && (0 <? j) && (j <=? Z.of_nat nc) then e (Z.to_nat (i - 1)) (Z.to_nat (j - 1)) else 0).
Proof.
  intros R. unfold sm_elem, snr. rewrite (proj1 R), (proj1 (proj2 R)).
  destruct (Z.ltb_spec 0 i); cbn [andb]; auto. destruct (Z.leb_spec i (Z.of_nat nr)); cbn [andb]; auto. destruct (Z.ltb_spec 0 j); cbn [andb]; auto. destruct (Z.leb_spec j (Z.of_nat nc)); cbn [andb]; auto.
  destruct (rep_row _ _ _ _ _ (Z.to_nat (i - 1)) R) as (l & E1 & _ & E2 & Hl); [lia|]. rewrite E1, bind_Ok, E2, bind_Ok. f_equal. rewrite lookup_ok by apply Hl.
  destruct Hl as (_ & _ & _ & D). replace j with (Z.of_nat (Z.to_nat (j - 1)) + 1) at 1 by lia. apply D. lia.
Qed.
Lemma zput_row nr nc (e : list Z) r k x : length e = (nr * nc)%nat -> (r < nr)%nat -> 1 <= k <= Z.of_nat nc ->
  exists e', zput e (Z.of_nat r * Z.of_nat nc + k - 1) x = Ok e' /\ length e' = (nr * nc)%nat /\ (forall i j, (i < nr)%nat -> (j < nc)%nat -> ent nc e' i j = if (i =? r)%nat && (Z.of_nat j + 1 =? k) then x else ent nc e i j).
Proof.
  intros L Hr Hk. unfold zput. assert (0 <= Z.of_nat r * Z.of_nat nc + k - 1) by (clear - Hk; nia). destruct (Z.ltb_spec (Z.of_nat r * Z.of_nat nc + k - 1) 0); [lia|].
  replace (Z.to_nat (Z.of_nat r * Z.of_nat nc + k - 1)) with (r * nc + Z.to_nat (k - 1))%nat by lia.
  destruct (put_row nr nc e r (Z.to_nat (k - 1)) [x] L Hr) as (e' & E & L' & H1 & H2); [cbn [length]; lia|]. exists e'. split; [exact E|]. split; [exact L'|]. intros i j Hi Hj.
  destruct (Nat.eqb_spec i r) as [->|n]; cbn [andb].
  - destruct (Z.eqb_spec (Z.of_nat j + 1) k) as [e0|n].
    + rewrite H2 by (cbn [length]; lia). replace (j - Z.to_nat (k - 1))%nat with 0%nat by lia. reflexivity.
    + apply H1; auto. cbn [length]. right. lia.
  - apply H1; auto.
Qed.
Lemma sm_as_mat_ok c m nr nc e : rep c m nr nc e -> exists a, sm_as_mat m = Ok a /\ msize a nr nc /\ forall i j, (i < nr)%nat -> (j < nc)%nat -> me a i j = e i j.
Proof.
  intros R. unfold sm_as_mat, snr. rewrite (proj1 R). pose proof (proj1 (proj2 R)) as Lr. 
  assert (Q : exists en, mfold (fun en '(i, r) => bind (rread r) (fun l => mfold (fun en '(k, x) => zput en (Z.of_nat i * Z.of_nat nc + k - 1) x) l en)) (combine (seq 0 (length (srows m))) (srows m)) (zeros (length (srows m) * nc)) = Ok en /\
     (length en = (nr * nc)%nat /\ forall i j, (i < nr)%nat -> (j < nc)%nat -> ent nc en i j = if (i <? nr)%nat then e i j else 0)).
  { refine (oc_tot True _ _ (oc_impl _ _ _ _ (oc_mfold_idx True row0 (fun k en => length en = (nr * nc)%nat /\ forall i j, (i < nr)%nat -> (j < nc)%nat -> ent nc en i j = if (i <? k)%nat then e i j else 0) _ (srows m) 0%nat _ _ _) _) Logic.I).
    - rewrite Lr. unfold zeros. split; [apply repeat_length|]. intros i j Hi Hj. unfold ent. rewrite nth_repeat. reflexivity.
    - intros i en Hi (Le & He). cbn [Nat.add] in *. destruct (rep_row _ _ _ _ _ i R) as (l & _ & _ & -> & Hl); [lia|]. rewrite bind_Ok. destruct Hl as (A & B & _ & D).
      assert (G : forall l en, msorted l -> inr nc l -> length en = (nr * nc)%nat -> oc True (mfold (fun en '(k, x) => zput en (Z.of_nat i * Z.of_nat nc + k - 1) x) l en)
         (fun en' => length en' = (nr * nc)%nat /\ forall a j, (a < nr)%nat -> (j < nc)%nat -> ent nc en' a j = if (a =? i)%nat then match mget l (Z.of_nat j + 1) with Some x => x | None => ent nc en a j end else ent nc en a j)).
      { clear l A B D en Le He. induction l as [|(k, x) l IH]; intros en A B Le; cbn [mfold].
        - cbn [oc mget]. split; auto. intros a j _ _. destruct (_ =? _)%nat; auto.
        - apply msorted_cons in A. destruct A as (A & A'). apply inr_cons in B. destruct B as (B' & B). destruct (zput_row nr nc en i k x Le ltac:(lia) B') as (en1 & -> & L1 & H1). rewrite bind_Ok.
          eapply oc_impl; [apply (IH en1 A B L1)|]. intros en' (L' & H'). split; auto. intros a j Ha Hj. rewrite H', H1 by auto. cbn [mget]. destruct (Nat.eqb_spec a i); cbn [andb]; auto.
          rewrite (Z.eqb_sym k). destruct (Z.eqb_spec (Z.of_nat j + 1) k) as [e1|n]; auto. rewrite mget_above; auto. intros k' y Hk. apply A' in Hk. lia. }
      eapply oc_impl; [apply (G l en A B Le)|]. intros en' (L' & H'). split; auto. intros a j Ha Hj. rewrite H' by auto. destruct (Nat.eqb_spec a i) as [->|n].
      + destruct (Nat.ltb_spec i (Datatypes.S i)); [|lia]. rewrite <- D by auto. unfold mval. destruct (mget l _); auto. rewrite He by auto. destruct (Nat.ltb_spec i i); auto; lia.
      + rewrite He by auto. destruct (Nat.ltb_spec a i), (Nat.ltb_spec a (Datatypes.S i)); auto; lia.
    - intros en (Le & He). split; auto. intros i j Hi Hj. rewrite He by auto. cbn [Nat.add]. rewrite Lr. reflexivity. }
  destruct Q as (en & -> & Le & He). rewrite bind_Ok. eexists; split; [reflexivity|]. split; [split; [exact Lr|]; split; [reflexivity|]; unfold wfm; cbn [ents nro nco]; lia|].
  intros i j Hi Hj. unfold me. cbn [nco ents]. rewrite He by auto. destruct (Nat.ltb_spec i nr); [reflexivity|lia].
Qed.
