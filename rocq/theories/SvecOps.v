(** Proofs about SvecModel: every operation and every history. *)
From Coq Require Import ZArith Znumtheory Lia List Bool Sorted.
From Verif Require Import Base LinModel LinSpec LinProofs LinElim LinAlg SvecModel SvecSpec SvecProofs.
Import ListNotations.
Open Scope Z_scope.

(** no explicit zeros *)
Definition canon (m : smap) : Prop := forall k, mget m k <> Some 0.
Definition den (v : svec) (d : dvec) : Prop := sd v = fst d /\ forall k, mval (sents v) k = snd d k.
Definition good (v : svec) : Prop := msorted (sents v).

Lemma mval_canon m k : canon m -> (mval m k = 0 <-> mget m k = None).
Proof. intros C. unfold mval. specialize (C k). destruct (mget m k); [|tauto]. split; [intros ->; congruence|discriminate]. Qed.
Lemma mval_mset m k x k' : mval (mset m k x) k' = if k =? k' then x else mval m k'.
Proof. unfold mval. rewrite mget_mset. destruct (_ =? _); auto. Qed.
Lemma mval_mdel m k k' : msorted m -> mval (mdel m k) k' = if k =? k' then 0 else mval m k'.
Proof. intros H. unfold mval. rewrite mget_mdel by auto. destruct (_ =? _); auto. Qed.
Lemma canon_mset m k x : canon m -> x <> 0 -> canon (mset m k x).
Proof. intros C N k'. rewrite mget_mset. destruct (_ =? _); [congruence|apply C]. Qed.
Lemma canon_mdel m k : msorted m -> canon m -> canon (mdel m k).
Proof. intros H C k'. rewrite mget_mdel by auto. destruct (_ =? _); [discriminate|apply C]. Qed.

(** operations applied to every entry *)
Lemma smap_map_inv f m m' : smap_map f m = Ok m' -> map fst m' = map fst m /\
  forall k, match mget m k with None => mget m' k = None | Some x => exists y, f x = Ok y /\ mget m' k = Some y end.
Proof.
  unfold smap_map. revert m'. induction m as [|(k, x) m IH]; cbn [mmap]; intros m' H.
  - injection H as <-. split; auto. intros; reflexivity.
  - inv H. inv E. injection E as <-. inv H. injection H as <-. destruct (IH _ E) as (F & G). cbn [map fst]. split; [f_equal; auto|].
    intros k'. cbn [mget]. destruct (Z.eqb_spec k k'); [eauto|apply G].
Qed.
Lemma smap_map_ok f m : (forall k x, mget m k = Some x -> exists y, f x = Ok y) -> msorted m -> exists m', smap_map f m = Ok m'.
Proof.
  unfold smap_map. induction m as [|(k, x) m IH]; cbn [mmap]; intros H Sm; eauto.
  apply msorted_cons in Sm. destruct Sm as (Sm & F).
  destruct (H k x) as (y & ->). { cbn [mget]. rewrite Z.eqb_refl. auto. }
  rewrite !bind_Ok. destruct IH as (m' & ->); auto. 2:{ rewrite bind_Ok. eauto. }
  intros k' x' G. apply (H k' x'). cbn [mget]. destruct (Z.eqb_spec k k'); auto. apply mget_In, F in G. lia.
Qed.
Lemma smap_map_sorted f m m' : smap_map f m = Ok m' -> msorted m -> msorted m'.
Proof. intros H Sm. apply smap_map_inv in H. unfold msorted. rewrite (proj1 H). exact Sm. Qed.

Section Ops.
Variable S : scal.
Hypothesis X : exact S.

Lemma sv_set_den v i a d : den v d -> a <> 0 \/ snd d i = 0 -> den (sv_set v i a) (fst d, dset (snd d) i a).
Proof.
  intros (D1 & D2) H. unfold sv_set. destruct (Z.eqb_spec a 0).
  - split; cbn [fst snd]; auto. intros k. rewrite D2. unfold dset. destruct (Z.eqb_spec k i); subst; auto. destruct H; congruence.
  - split; cbn [fst snd sd sents]; auto. intros k. rewrite mval_mset. unfold dset. rewrite (Z.eqb_sym i k). destruct (_ =? _); auto.
Qed.
Lemma sv_set_good v i a : good v -> good (sv_set v i a).
Proof. unfold sv_set. destruct (_ =? _); auto. intros. apply mset_sorted; auto. Qed.
Lemma sv_set_canon v i a : canon (sents v) -> canon (sents (sv_set v i a)).
Proof. unfold sv_set. destruct (Z.eqb_spec a 0); auto. intros. apply canon_mset; auto. Qed.
Lemma sv_erase_den v i d : good v -> den v d -> den (sv_erase v i) (fst d, dset (snd d) i 0).
Proof.
  intros G (D1 & D2). unfold sv_erase. destruct (mget (sents v) i) eqn:E.
  - split; cbn [fst snd sd sents]; auto. intros k. rewrite mval_mdel by auto. unfold dset. rewrite (Z.eqb_sym i k). destruct (_ =? _); auto.
  - split; cbn [fst snd]; auto. intros k. unfold dset. destruct (Z.eqb_spec k i); subst; auto. unfold mval. rewrite E. auto.
Qed.
Lemma sv_erase_good v i : good v -> good (sv_erase v i).
Proof. unfold sv_erase. intros. destruct (mget _ _); auto. apply mdel_sorted; auto. Qed.
Lemma sv_erase_canon v i : good v -> canon (sents v) -> canon (sents (sv_erase v i)).
Proof. unfold sv_erase. intros. destruct (mget _ _); auto. apply canon_mdel; auto. Qed.

Definition okop (v : svec) (d : dvec) (r : svec) : Prop := den r d /\ good r /\ (canon (sents v) -> canon (sents r)).
Lemma sv_add1_inv v i a r d : sv_add1 S v i a = Ok r -> good v -> den v d -> okop v (fst d, dset (snd d) i (snd d i + a)) r.
Proof.
  intros H G (D1 & D2). unfold sv_add1 in H. destruct (Z.eqb_spec a 0).
  { injection H as <-. split; [|split; auto]. split; cbn [fst snd]; auto. intros k. rewrite D2. unfold dset. destruct (Z.eqb_spec k i); subst; auto. lia. }
  pose proof (D2 i) as Di. unfold mval in Di. destruct (mget (sents v) i) eqn:E.
  - inv H. apply (ex_add _ X) in E0. subst x. destruct (Z.eqb_spec (z + a) 0); injection H as <-; (split; [|split]).
    + split; cbn [fst snd sd sents]; auto. intros k. rewrite mval_mdel by auto. unfold dset. rewrite (Z.eqb_sym i k). destruct (Z.eqb_spec k i); auto. lia.
    + apply mdel_sorted; auto.
    + apply canon_mdel; auto.
    + split; cbn [fst snd sd sents]; auto. intros k. rewrite mval_mset. unfold dset. rewrite (Z.eqb_sym i k). destruct (Z.eqb_spec k i); auto. lia.
    + apply mset_sorted; auto.
    + intros. apply canon_mset; auto.
  - injection H as <-. split; [|split].
    + split; cbn [fst snd sd sents]; auto. intros k. rewrite mval_mset. unfold dset. rewrite (Z.eqb_sym i k). destruct (Z.eqb_spec k i); auto. lia.
    + apply mset_sorted; auto.
    + intros. apply canon_mset; auto.
Qed.
Lemma sv_sub1_inv v i a r d : sv_sub1 S v i a = Ok r -> good v -> den v d -> okop v (fst d, dset (snd d) i (snd d i - a)) r.
Proof.
  intros H G D. unfold sv_sub1 in H. destruct (Z.eqb_spec a 0).
  - injection H as <-. split; [|split; auto]. destruct D as (D1 & D2). split; cbn [fst snd]; auto. intros k. rewrite D2. unfold dset. destruct (Z.eqb_spec k i); subst; auto. lia.
  - inv H. apply (ex_neg _ X) in E. subst x. replace (snd d i - a) with (snd d i + - a) by lia. eapply sv_add1_inv; eauto.
Qed.
(** merging: values, for an exact pair of functions *)
Lemma merge_val cp cb g m w k o : mspec cp cb m w k o ->
  (forall y r, cp y = Ok r -> r = g 0 y) -> (forall x y r, cb x y = Ok r -> r = g x y) -> (forall x, g x 0 = x) ->
  match o with None => 0 | Some z => z end = g (mval m k) (mval w k).
Proof.
  unfold mspec, mval. intros H Hp Hb H0. destruct (mget m k), (mget w k).
  - destruct H as (r & H & ->). apply Hb in H. destruct (Z.eqb_spec r 0); congruence.
  - subst o. rewrite H0. reflexivity.
  - destruct H as (r & H & ->). apply Hp in H. auto.
  - subst o. rewrite H0. reflexivity.
Qed.
Lemma merge_canon cp cb m w m' : canon m -> (forall k, mspec cp cb m w k (mget m' k)) ->
  (forall k y r, mget w k = Some y -> cp y = Ok r -> r <> 0) -> canon m'.
Proof.
  intros Cm H Hp k E. specialize (H k). rewrite E in H. unfold mspec in H. specialize (Cm k). destruct (mget m k), (mget w k) eqn:Gw.
  - destruct H as (r & H & Q). destruct (Z.eqb_spec r 0); congruence.
  - congruence.
  - destruct H as (r & H & Q). eapply Hp; eauto. congruence.
  - discriminate.
Qed.
Lemma sv_merge_inv cp cb g al v w r dv dw : sv_merge cp cb al v w = Ok r -> good v -> good w -> (al = true -> w = v) -> den v dv -> den w dw ->
  (forall y r, cp y = Ok r -> r = g 0 y) -> (forall x y r, cb x y = Ok r -> r = g x y) -> (forall x, g x 0 = x) ->
  den r (dbin g dv dw) /\ good r /\ (canon (sents v) -> (forall k y r, mget (sents w) k = Some y -> cp y = Ok r -> r <> 0) -> canon (sents r)).
Proof.
  intros H Gv Gw Al (D1 & D2) (D3 & D4) Hp Hb H0. unfold sv_merge in H. unfold dbin. rewrite <- D1, <- D3.
  destruct (Z.eqb_spec (sd v) (sd w)); [|injection H as <-; split; [split; auto|split; auto]].
  inv H. injection H as <-. cbn [sents].
  assert (G : msorted (mm x) /\ forall k, mspec cp cb (sents v) (sents w) k (mget (mm x) k)).
  { destruct al.
    - rewrite (Al eq_refl) in *. destruct (merge_alias cp cb (sents v) (sents v) Gv) as [(s & E' & G1 & G2)|(_ & N)].
      + rewrite E in E'. injection E' as <-. auto.
      + exfalso. eapply N; eauto.
    - destruct (merge_main cp cb (sents v) (sents w) Gv Gw) as [(s & E' & G1 & G2 & _)|(_ & N)].
      + rewrite E in E'. injection E' as <-. auto.
      + exfalso. eapply N; eauto. }
  destruct G as (G1 & G2). split; [|split; auto].
  - split; cbn [fst snd sd sents]; auto. intros k. specialize (G2 k). eapply merge_val in G2; eauto. unfold mval at 1. rewrite G2, D2, D4. reflexivity.
  - intros C Hn. eapply merge_canon; eauto.
Qed.
Lemma sv_plus_inv al v w r dv dw : sv_plus S al v w = Ok r -> good v -> good w -> (al = true -> w = v) -> den v dv -> den w dw ->
  den r (dbin (fun x y => x + y) dv dw) /\ good r /\ (canon (sents v) -> canon (sents w) -> canon (sents r)).
Proof.
  intros H Gv Gw Al Dv Dw. destruct (sv_merge_inv _ _ (fun x y => x + y) _ _ _ _ _ _ H Gv Gw Al Dv Dw) as (R1 & R2 & R3).
  - intros y r0 [= <-]. reflexivity.
  - apply (ex_add _ X).
  - intros; lia.
  - split; auto. split; auto. intros C1 C2. apply R3; auto. intros k y r0 G [= <-]. specialize (C2 k). congruence.
Qed.
Lemma sv_scale_inv v c r d : sv_scale S v c = Ok r -> good v -> den v d -> den r (fst d, fun k => c * snd d k) /\ good r /\ (c <> 0 -> canon (sents v) -> canon (sents r)).
Proof.
  intros H G (D1 & D2). unfold sv_scale in H. inv H. injection H as <-. pose proof (smap_map_sorted _ _ _ E G) as SS. apply smap_map_inv in E. destruct E as (_ & E).
  split; [|split; auto].
  - split; cbn [fst snd sd sents]; auto. intros k. rewrite <- D2. specialize (E k). unfold mval. destruct (mget (sents v) k).
    + destruct E as (y & E & ->). apply (ex_mul _ X) in E. lia.
    + rewrite E. ring.
  - intros Hc C k Hk. cbn [sents] in Hk. specialize (E k). specialize (C k). destruct (mget (sents v) k) as [z|]; [|congruence].
    destruct E as (y & E & E'). apply (ex_mul _ X) in E. assert (y = 0) by congruence. assert (z <> 0) by congruence. nia.
Qed.
Lemma sv_neg_inv w r d : sv_neg S w = Ok r -> good w -> den w d -> den r (fst d, fun k => - snd d k) /\ good r /\ (canon (sents w) -> canon (sents r)).
Proof.
  intros H G D. apply (sv_scale_inv _ _ _ d) in H; auto. destruct H as ((H1 & H2) & H3 & H4). split; [|split; auto].
  - split; auto.
  - apply H4. lia.
Qed.
Lemma sv_minus_inv v w r dv dw : sv_minus S v w = Ok r -> good v -> good w -> den v dv -> den w dw ->
  den r (dbin (fun x y => x - y) dv dw) /\ good r /\ (canon (sents v) -> canon (sents w) -> canon (sents r)).
Proof.
  intros H Gv Gw Dv Dw. unfold sv_minus in H. inv H. apply (sv_neg_inv _ _ dw) in E; auto. destruct E as (E1 & E2 & E3).
  eapply sv_plus_inv in H; eauto; [|discriminate]. destruct H as (H1 & H2 & H3). split; [|split; auto].
  destruct H1 as (H1 & H1'). split.
  - rewrite H1. unfold dbin. cbn [fst snd]. destruct (_ =? _); auto.
  - intros k. rewrite H1'. unfold dbin. cbn [fst snd]. destruct (_ =? _); cbn [snd]; auto.
Qed.
Lemma sv_addst_inv al v w a r dv dw : sv_addst S al v w a = Ok r -> good v -> good w -> (al = true -> w = v) -> den v dv -> den w dw ->
  den r (dbin (fun x y => x + a * y) dv dw) /\ good r /\ (canon (sents v) -> canon (sents w) -> canon (sents r)).
Proof.
  intros H Gv Gw Al Dv Dw. unfold sv_addst in H. destruct (Z.eqb_spec (sd v) (sd w)).
  2:{ injection H as <-. split; [|split; auto]. destruct Dv as (D1 & D2), Dw as (D3 & D4). unfold dbin. destruct (Z.eqb_spec (fst dv) (fst dw)); [congruence|split; auto]. }
  destruct (Z.eqb_spec a 0).
  { injection H as <-. split; [|split; auto]. destruct Dv as (D1 & D2), Dw as (D3 & D4). unfold dbin. destruct (Z.eqb_spec (fst dv) (fst dw)); [|split; auto].
    split; cbn [fst snd]; auto. intros k. rewrite D2. subst a. lia. }
  destruct (sv_merge_inv _ _ (fun x y => x + a * y) _ _ _ _ _ _ H Gv Gw Al Dv Dw) as (R1 & R2 & R3).
  - intros y r0 E. apply (ex_mul _ X) in E. lia.
  - intros x y r0 E. inv E. apply (ex_mul _ X) in E0. apply (ex_add _ X) in E. subst. reflexivity.
  - intros; lia.
  - split; auto. split; auto. intros C1 C2. apply R3; auto. intros k y r0 G E. apply (ex_mul _ X) in E. specialize (C2 k). assert (y <> 0) by congruence. nia.
Qed.
Lemma sv_sum_inv v w r dv dw : sv_sum S v w = Ok r -> good v -> good w -> den v dv -> den w dw -> fst dv = fst dw ->
  den r (fst dv, fun k => snd dv k + snd dw k) /\ good r /\ (canon (sents v) -> canon (sents w) -> canon (sents r)).
Proof.
  intros H Gv Gw Dv Dw E. unfold sv_sum in H. destruct (_ <? _)%nat.
  - destruct (sv_plus_inv false _ _ _ dw dv H) as (H1 & H2 & H3); auto; [discriminate|]. split; [|split; auto].
    unfold dbin in H1. rewrite E, Z.eqb_refl in H1. destruct H1 as (H1 & H1'). split; cbn [fst snd] in *; [congruence|]. intros k. rewrite H1'. lia.
  - destruct (sv_plus_inv false _ _ _ dv dw H) as (H1 & H2 & H3); auto; [discriminate|]. split; [|split; auto].
    unfold dbin in H1. rewrite E, Z.eqb_refl in H1. destruct H1 as (H1 & H1'). split; cbn [fst snd] in *; [congruence|]. intros k. rewrite H1'. lia.
Qed.
Lemma sv_diff_inv v w r dv dw : sv_diff S v w = Ok r -> good v -> good w -> den v dv -> den w dw -> fst dv = fst dw ->
  den r (fst dv, fun k => snd dv k - snd dw k) /\ good r /\ (canon (sents v) -> canon (sents w) -> canon (sents r)).
Proof.
  intros H Gv Gw Dv Dw E. unfold sv_diff in H. inv H. apply (sv_neg_inv _ _ dw) in E0; auto. destruct E0 as (E1 & E2 & E3).
  eapply sv_sum_inv in H; eauto. destruct H as ((H1 & H1') & H2 & H3). split; [|split; auto]. split; cbn [fst snd] in *; auto.
Qed.

(** ** histories of exact operations *)
Definition agree (st : sstore) (d : dstore) : Prop := forall r, den (st r) (d r).
Definition goods (st : sstore) : Prop := forall r, good (st r).
Definition canons (st : sstore) : Prop := forall r, canon (sents (st r)).
Lemma agree_put st d r v dv : agree st d -> den v dv -> agree (sput st r v) (dput d r dv).
Proof. intros A H x. unfold sput, dput. destruct (_ =? _)%nat; auto. Qed.
Lemma goods_put st r v : goods st -> good v -> goods (sput st r v).
Proof. intros A H x. unfold sput. destruct (_ =? _)%nat; auto. Qed.
Lemma canons_put st r v : canons st -> canon (sents v) -> canons (sput st r v).
Proof. intros A H x. unfold sput. destruct (_ =? _)%nat; auto. Qed.
Lemma sstep_exact p st d o st' : sstep S p st o = Ok st' -> agree st d -> goods st -> legal d o ->
  agree st' (dstep d o) /\ goods st' /\ (canons st -> noscale0 o -> canons st').
Proof.
  intros H A G L. destruct o; cbn [sstep dstep legal] in *; try tauto.
  - injection H as <-. split; [apply agree_put; auto; apply sv_set_den; auto|]. split; [apply goods_put; auto; apply sv_set_good; auto|]. intros. apply canons_put; auto. apply sv_set_canon; auto.
  - injection H as <-. split; [apply agree_put; auto; apply sv_erase_den; auto|]. split; [apply goods_put; auto; apply sv_erase_good; auto|]. intros. apply canons_put; auto. apply sv_erase_canon; auto.
  - inv H. injection H as <-. destruct (sv_add1_inv _ _ _ _ _ E (G r) (A r)) as (Q1 & Q2 & Q3). split; [apply agree_put; auto|]. split; [apply goods_put; auto|]. intros. apply canons_put; auto.
  - inv H. injection H as <-. destruct (sv_sub1_inv _ _ _ _ _ E (G r) (A r)) as (Q1 & Q2 & Q3). split; [apply agree_put; auto|]. split; [apply goods_put; auto|]. intros. apply canons_put; auto.
  - inv H. injection H as <-. destruct (sv_plus_inv _ _ _ _ (d r) (d s) E (G r) (G s)) as (Q1 & Q2 & Q3); try apply A; [intros Q; apply Nat.eqb_eq in Q; subst; auto|]. split; [apply agree_put; auto|]. split; [apply goods_put; auto|]. intros. apply canons_put; auto.
  - inv H. injection H as <-. destruct (sv_minus_inv _ _ _ _ _ E (G r) (G s) (A r) (A s)) as (Q1 & Q2 & Q3). split; [apply agree_put; auto|]. split; [apply goods_put; auto|]. intros. apply canons_put; auto.
  - inv H. injection H as <-. destruct (sv_addst_inv _ _ _ _ _ (d r) (d s) E (G r) (G s)) as (Q1 & Q2 & Q3); try apply A; [intros Q; apply Nat.eqb_eq in Q; subst; auto|]. split; [apply agree_put; auto|]. split; [apply goods_put; auto|]. intros. apply canons_put; auto.
  - inv H. injection H as <-. destruct (sv_scale_inv _ _ _ _ E (G r) (A r)) as (Q1 & Q2 & Q3). split; [apply agree_put; auto|]. split; [apply goods_put; auto|]. cbn [noscale0]. intros. apply canons_put; auto.
  - injection H as <-. split; [apply agree_put; auto; split; cbn [fst snd sd sents]; [apply A|reflexivity]|]. split; [apply goods_put; auto; constructor|]. intros. apply canons_put; auto. intros k. discriminate.
  - injection H as <-. split; [apply agree_put; auto|]. split; [apply goods_put; auto|]. intros C _. apply canons_put; auto.
Qed.
Lemma srun_exact p os st d st' : srun S p os st = Ok st' -> agree st d -> goods st -> legals d os ->
  agree st' (drun os d) /\ goods st' /\ (canons st -> Forall noscale0 os -> canons st').
Proof.
  revert st d. induction os as [|o os IH]; cbn [srun mfold legals]; intros st d H A G L.
  - injection H as <-. auto.
  - inv H. destruct L as (L1 & L2). destruct (sstep_exact _ _ _ _ _ E A G L1) as (A1 & G1 & C1).
    destruct (IH _ _ H A1 G1 L2) as (A2 & G2 & C2). split; auto. split; auto. intros C F. inversion F; subst. auto.
Qed.
(** equality of representations is equality of vectors *)
Lemma sv_eqb_den v w dv dw : good v -> good w -> canon (sents v) -> canon (sents w) -> den v dv -> den w dw ->
  (sv_eqb v w = true <-> fst dv = fst dw /\ forall k, snd dv k = snd dw k).
Proof.
  intros Gv Gw Cv Cw (D1 & D2) (D3 & D4). unfold sv_eqb. rewrite andb_true_iff, Z.eqb_eq, smap_eqb_iff. split.
  - intros (E1 & E2). split; [congruence|]. intros k. rewrite <- D2, <- D4, E2. reflexivity.
  - intros (E1 & E2). split; [congruence|]. apply smap_ext; auto. intros k. specialize (E2 k). rewrite <- D2, <- D4 in E2.
    specialize (Cv k). specialize (Cw k). unfold mval in E2. destruct (mget (sents v) k), (mget (sents w) k); congruence.
Qed.
(** bigint: everything is defined, except adding -1 times a vector to itself *)
Hypothesis T : total S.
Lemma merge_total cp cb (al : bool) m w : msorted m -> msorted w -> (al = true -> w = m) ->
  (forall y, exists r, cp y = Ok r) -> (forall x y, exists r, cb x y = Ok r) -> (al = true -> forall k x, mget m k = Some x -> cb x x <> Ok 0) -> exists s, merge cp cb al m w = Ok s.
Proof.
  intros Sm Sw Al Hp Hb Ha. destruct al.
  - rewrite (Al eq_refl). destruct (merge_alias cp cb m m Sm) as [(s & E & _)|((k & x & G & N) & _)]; eauto.
    exfalso. destruct (Hb x x) as (r & E). eapply (Ha eq_refl k); eauto. rewrite E. f_equal. auto.
  - destruct (merge_main cp cb m w Sm Sw) as [(s & E & _)|((k & y & G & [(_ & N)|(x & _ & N)]) & _)]; eauto; exfalso.
    + destruct (Hp y) as (r & E). eapply N; eauto.
    + destruct (Hb x y) as (r & E). eapply N; eauto.
Qed.
Lemma sv_merge_total cp cb (al : bool) v w : good v -> good w -> (al = true -> w = v) ->
  (forall y, exists r, cp y = Ok r) -> (forall x y, exists r, cb x y = Ok r) -> (al = true -> forall k x, mget (sents v) k = Some x -> cb x x <> Ok 0) -> exists s, sv_merge cp cb al v w = Ok s.
Proof.
  intros Gv Gw Al Hp Hb Ha. unfold sv_merge. destruct (_ =? _); eauto.
  destruct (merge_total cp cb al (sents v) (sents w) Gv Gw) as (s & E); auto; [intros; rewrite Al; auto|]. rewrite E, bind_Ok. eauto.
Qed.
Lemma sv_scale_total v c : good v -> exists r, sv_scale S v c = Ok r.
Proof.
  intros G. unfold sv_scale. destruct (smap_map_ok (fun x => s_mul S x c) (sents v)) as (m & ->); auto.
  - intros. rewrite (to_mul _ T). eauto.
  - rewrite bind_Ok. eauto.
Qed.
Lemma sstep_total p st d o : agree st d -> goods st -> canons st -> legal d o -> noself o -> exists st', sstep S p st o = Ok st'.
Proof.
  intros A G C L N. destruct o; cbn [sstep legal noself] in *; try tauto; eauto.
  - unfold sv_add1. destruct (_ =? _); [rewrite bind_Ok; eauto|]. destruct (mget _ _); [rewrite (to_add _ T), bind_Ok; destruct (_ =? _); rewrite bind_Ok; eauto|rewrite bind_Ok; eauto].
  - unfold sv_sub1. destruct (_ =? _); [rewrite bind_Ok; eauto|]. rewrite (to_neg _ T), bind_Ok. unfold sv_add1. destruct (_ =? _); [rewrite bind_Ok; eauto|]. destruct (mget _ _); [rewrite (to_add _ T), bind_Ok; destruct (_ =? _); rewrite bind_Ok; eauto|rewrite bind_Ok; eauto].
  - unfold sv_plus. destruct (sv_merge_total (fun y => Ok y) (fun x y => s_add S x y) (r =? s)%nat (st r) (st s)) as (v & ->); auto; [intros Q; apply Nat.eqb_eq in Q; subst; auto|eauto|intros; rewrite (to_add _ T); eauto| |rewrite bind_Ok; eauto].
    intros _ k x E Q. rewrite (to_add _ T) in Q. injection Q as Q. apply (C r k). rewrite E. f_equal. lia.
  - unfold sv_minus, sv_neg. destruct (sv_scale_total (st s) (-1) (G s)) as (nw & E). rewrite E, bind_Ok.
    apply (sv_scale_inv _ _ _ (d s)) in E; auto. unfold sv_plus. destruct (sv_merge_total (fun y => Ok y) (fun x y => s_add S x y) false (st r) nw) as (v & ->); auto; try apply E; try discriminate; [eauto|intros; rewrite (to_add _ T); eauto|rewrite bind_Ok; eauto].
  - unfold sv_addst. destruct (_ =? _); [|rewrite bind_Ok; eauto]. destruct (Z.eqb_spec a 0); [rewrite bind_Ok; eauto|].
    match goal with |- context[sv_merge ?cp ?cb ?al ?v ?w] => destruct (sv_merge_total cp cb al v w) as (u & ->) end; auto; [intros Q; apply Nat.eqb_eq in Q; subst; auto|intros; rewrite (to_mul _ T); eauto|intros; rewrite (to_mul _ T), bind_Ok, (to_add _ T); eauto| |rewrite bind_Ok; eauto].
    intros Q k x E Q'. apply Nat.eqb_eq in Q. rewrite (to_mul _ T), bind_Ok, (to_add _ T) in Q'. injection Q' as Q'. apply (C r k). rewrite E. f_equal.
    destruct N as [N|N]; [congruence|]. assert ((1 + a) * x = 0) by lia. apply Z.mul_eq_0 in H. lia.
  - destruct (sv_scale_total (st r) a (G r)) as (v & ->). rewrite bind_Ok. eauto.
Qed.
Lemma srun_total p os st d : agree st d -> goods st -> canons st -> legals d os -> Forall noself os -> Forall noscale0 os -> exists st', srun S p os st = Ok st'.
Proof.
  revert st d. induction os as [|o os IH]; cbn [srun mfold legals]; intros st d A G C L F F'; eauto.
  inversion F; subst. inversion F'; subst. destruct L as (L1 & L2). destruct (sstep_total p st d o A G C L1 H1) as (st1 & E). rewrite E, bind_Ok.
  destruct (sstep_exact _ _ _ _ _ E A G L1) as (A1 & G1 & C1). eapply IH; eauto.
Qed.
End Ops.
