(** Proofs about SvecModel: the map, the merging loop. *)
From Coq Require Import ZArith Znumtheory Lia List Bool Sorted.
From Verif Require Import Base LinModel LinSpec LinProofs LinElim LinAlg SvecModel.
Import ListNotations.
Open Scope Z_scope.

Definition msorted (m : smap) : Prop := StronglySorted Z.lt (map fst m).
(** the value denoted *)
Definition mval (m : smap) (k : Z) : Z := match mget m k with Some x => x | None => 0 end.
Definition lt_it (k : Z) (it : option Z) : Prop := match it with None => True | Some k' => k < k' end.
Lemma lt_it_dec k it : {lt_it k it} + {~ lt_it k it}.
Proof. destruct it; cbn [lt_it]; [apply Z_lt_dec|left; exact I]. Defined.

(** ** the map *)
Lemma msorted_cons k x m : msorted ((k, x) :: m) <-> msorted m /\ forall k' y, In (k', y) m -> k < k'.
Proof.
  unfold msorted. cbn [map fst]. split.
  - intros H. inversion H; subst. split; auto. intros k' y Hy. rewrite Forall_forall in H3. apply H3. apply (in_map fst) in Hy. exact Hy.
  - intros (H & F). constructor; auto. apply Forall_forall. intros k' Hk. apply in_map_iff in Hk. destruct Hk as ((k1 & y) & <- & Hy). eapply F; eauto.
Qed.
Lemma mget_In m k x : mget m k = Some x -> In (k, x) m.
Proof.
  induction m as [|(k', y) m IH]; cbn [mget]; [discriminate|]. destruct (Z.eqb_spec k' k).
  - intros [= ->]. subst. left; auto.
  - right; auto.
Qed.
Lemma In_mget m k x : msorted m -> In (k, x) m -> mget m k = Some x.
Proof.
  induction m as [|(k', y) m IH]; intros H Hi; [destruct Hi|]. apply msorted_cons in H. destruct H as (H & F). cbn [mget].
  destruct Hi as [E|Hi].
  - injection E as -> ->. rewrite Z.eqb_refl. reflexivity.
  - specialize (F _ _ Hi). destruct (Z.eqb_spec k' k); [lia|]. auto.
Qed.
Lemma mget_above m k : (forall k' y, In (k', y) m -> k < k') -> mget m k = None.
Proof. intros H. destruct (mget m k) eqn:E; auto. apply mget_In, H in E. lia. Qed.
Lemma mget_mset m k x k' : mget (mset m k x) k' = if k =? k' then Some x else mget m k'.
Proof.
  induction m as [|(k0, y) m IH]; cbn [mset mget].
  - destruct (Z.eqb_spec k k'); reflexivity.
  - destruct (Z.ltb_spec k k0); [|destruct (Z.eqb_spec k k0)]; cbn [mget].
    + reflexivity.
    + subst k0. destruct (Z.eqb_spec k k'); auto.
    + rewrite IH. destruct (Z.eqb_spec k0 k'), (Z.eqb_spec k k'); auto. lia.
Qed.
Lemma In_mset m k x k' y : In (k', y) (mset m k x) -> k' = k \/ In (k', y) m.
Proof.
  induction m as [|(k0, y0) m IH]; cbn [mset].
  - intros [E|[]]. injection E; auto.
  - destruct (Z.ltb_spec k k0); [|destruct (Z.eqb_spec k k0)].
    + intros [E|E]; [injection E; auto|right; exact E].
    + intros [E|E]; [injection E; auto|right; right; exact E].
    + intros [E|E]; [right; left; exact E|]. apply IH in E. destruct E; auto. right; right; auto.
Qed.
Lemma mset_sorted m k x : msorted m -> msorted (mset m k x).
Proof.
  induction m as [|(k0, y) m IH]; intros H.
  - apply msorted_cons. split; [constructor|intros ? ? []].
  - cbn [mset]. pose proof H as H'. apply msorted_cons in H. destruct H as (H & F).
    destruct (Z.ltb_spec k k0); [|destruct (Z.eqb_spec k k0)].
    + apply msorted_cons. split; auto. intros k' z [E|E]; [injection E; lia|]. apply F in E. lia.
    + subst. apply msorted_cons. auto.
    + apply msorted_cons. split; auto. intros k' z Hz. apply In_mset in Hz. destruct Hz as [->|Hz]; [lia|eauto].
Qed.
Lemma In_mdel m k k' y : In (k', y) (mdel m k) -> In (k', y) m.
Proof.
  induction m as [|(k0, y0) m IH]; cbn [mdel]; auto. destruct (Z.eqb_spec k0 k).
  - right; auto.
  - intros [E|E]; [left; auto|right; auto].
Qed.
Lemma mdel_sorted m k : msorted m -> msorted (mdel m k).
Proof.
  induction m as [|(k0, y) m IH]; intros H; cbn [mdel]; auto.
  apply msorted_cons in H. destruct H as (H & F). destruct (Z.eqb_spec k0 k); auto.
  apply msorted_cons. split; auto. intros k' z Hz. apply In_mdel in Hz. eauto.
Qed.
Lemma mget_mdel m k k' : msorted m -> mget (mdel m k) k' = if k =? k' then None else mget m k'.
Proof.
  induction m as [|(k0, y) m IH]; intros H; cbn [mdel mget].
  - destruct (_ =? _); auto.
  - apply msorted_cons in H. destruct H as (H & F). destruct (Z.eqb_spec k0 k).
    + subst. destruct (Z.eqb_spec k k'); auto. subst. apply mget_above; auto.
    + cbn [mget]. rewrite IH by auto. destruct (Z.eqb_spec k0 k'), (Z.eqb_spec k k'); auto. lia.
Qed.
Lemma mafter_spec m k : msorted m -> lt_it k (mafter m k) /\
  match mafter m k with None => True | Some k1 => mget m k1 <> None end /\
  forall k', mget m k' <> None -> k < k' -> ~ lt_it k' (mafter m k).
Proof.
  induction m as [|(k0, y) m IH]; intros H; cbn [mafter mget].
  - cbn [lt_it]. split; auto.
  - apply msorted_cons in H. destruct H as (H & F). destruct (IH H) as (I1 & I2 & I3). destruct (Z.ltb_spec k k0).
    + cbn [lt_it]. split; auto. rewrite Z.eqb_refl. split; [discriminate|]. intros k' Hk Hlt.
      destruct (Z.eqb_spec k0 k'); [lia|]. destruct (mget m k') eqn:E; [|congruence]. apply mget_In, F in E. lia.
    + split; auto. split.
      * destruct (mafter m k); auto. destruct (Z.eqb_spec k0 z); [discriminate|auto].
      * intros k' Hk Hlt. destruct (Z.eqb_spec k0 k'); [lia|]. auto.
Qed.
Lemma mbegin_spec m : msorted m -> match mbegin m with None => True | Some k1 => mget m k1 <> None end /\
  forall k', mget m k' <> None -> ~ lt_it k' (mbegin m).
Proof.
  destruct m as [|(k0, y) m]; intros H; cbn [mbegin mget lt_it].
  - split; auto.
  - rewrite Z.eqb_refl. split; [discriminate|]. apply msorted_cons in H. destruct H as (H & F). intros k' Hk.
    destruct (Z.eqb_spec k0 k'); [lia|]. destruct (mget m k') eqn:E; [|congruence]. apply mget_In, F in E. lia.
Qed.
Lemma mincr_inv m k it : msorted m -> mincr m k = Ok it -> mget m k <> None /\ lt_it k it /\
  match it with None => True | Some k1 => mget m k1 <> None end /\ forall k', mget m k' <> None -> k < k' -> ~ lt_it k' it.
Proof.
  unfold mincr. intros H E. destruct (mget m k) eqn:G; [|discriminate]. injection E as <-. split; [discriminate|]. apply mafter_spec, H.
Qed.
Lemma mincr_ok m k : mget m k <> None -> exists it, mincr m k = Ok it.
Proof. unfold mincr. destruct (mget m k); [eauto|congruence]. Qed.
Lemma mderef_ok m k x : mget m k = Some x -> mderef m k = Ok x.
Proof. unfold mderef. intros ->. reflexivity. Qed.
(** two maps with the same values are equal *)
Lemma smap_ext m n : msorted m -> msorted n -> (forall k, mget m k = mget n k) -> m = n.
Proof.
  revert n. induction m as [|(k, x) m IH]; intros [|(k', x') n] Hm Hn E; auto.
  - specialize (E k'). cbn [mget] in E. rewrite Z.eqb_refl in E. discriminate.
  - specialize (E k). cbn [mget] in E. rewrite Z.eqb_refl in E. discriminate.
  - apply msorted_cons in Hm. destruct Hm as (Hm & Fm). apply msorted_cons in Hn. destruct Hn as (Hn & Fn).
    assert (k = k').
    { destruct (Z.lt_trichotomy k k') as [L|[L|L]]; auto.
      - specialize (E k). cbn [mget] in E. rewrite Z.eqb_refl in E. destruct (Z.eqb_spec k' k); [lia|].
        rewrite mget_above in E; [discriminate|]. intros a b H. apply Fn in H. lia.
      - specialize (E k'). cbn [mget] in E. rewrite Z.eqb_refl in E. destruct (Z.eqb_spec k k'); [lia|].
        rewrite mget_above in E; [discriminate|]. intros a b H. apply Fm in H. lia. }
    subst k'. pose proof (E k) as E0. cbn [mget] in E0. rewrite Z.eqb_refl in E0. injection E0 as <-. f_equal.
    apply IH; auto. intros a. specialize (E a). cbn [mget] in E. destruct (Z.eqb_spec k a); auto.
    subst a. rewrite !mget_above; auto.
Qed.
Lemma smap_eqb_iff m n : smap_eqb m n = true <-> m = n.
Proof.
  revert n. induction m as [|(k, x) m IH]; intros [|(k', x') n]; cbn [smap_eqb]; split; intros H; try discriminate; auto.
  - apply andb_true_iff in H. destruct H as (H & H2). apply andb_true_iff in H. destruct H as (H0 & H1).
    apply Z.eqb_eq in H0, H1. apply IH in H2. congruence.
  - injection H as -> -> ->. rewrite !Z.eqb_refl. cbn [andb]. apply IH. reflexivity.
Qed.

(** number of elements not before an iterator *)
Definition cnt (l : smap) (it : option Z) : nat := match it with None => 0%nat | Some k => length (filter (fun q => k <=? fst q) l) end.
Lemma cnt_le l it : (cnt l it <= length l)%nat.
Proof.
  destruct it; cbn [cnt]; [|lia]. induction l as [|q l IH]; cbn [filter length]; [lia|]. destruct (_ <=? _); cbn [length]; lia.
Qed.
Lemma cnt_mono l k it : lt_it k it -> (cnt l it <= cnt l (Some k))%nat.
Proof.
  destruct it as [k'|]; cbn [cnt lt_it]; [|lia]. intros H. induction l as [|q l IH]; cbn [filter length]; [lia|].
  destruct (Z.leb_spec k' (fst q)), (Z.leb_spec k (fst q)); cbn [length]; lia.
Qed.
Lemma cnt_lt l k it : mget l k <> None -> lt_it k it -> (cnt l it < cnt l (Some k))%nat.
Proof.
  intros H L. induction l as [|(k0, y) l IH]; cbn [mget] in H; [congruence|].
  destruct (Z.eqb_spec k0 k).
  - subst k0. pose proof (cnt_mono l k it L) as Hm. destruct it as [k'|]; cbn [cnt filter fst lt_it] in *.
    + destruct (Z.leb_spec k' k); [lia|]. rewrite Z.leb_refl. cbn [length]. lia.
    + rewrite Z.leb_refl. cbn [length]. lia.
  - specialize (IH H). destruct it as [k'|]; cbn [cnt filter fst lt_it] in *.
    + destruct (Z.leb_spec k' k0), (Z.leb_spec k k0); cbn [length]; lia.
    + destruct (Z.leb_spec k k0); cbn [length]; lia.
Qed.

(** ** the merging loop *)
Section Merge.
Variables (cp : Z -> res Z) (cb : Z -> Z -> res Z).
Definition mspec (m0 w : smap) (k : Z) (o : option Z) : Prop :=
  match mget m0 k, mget w k with
  | x, None => o = x
  | None, Some y => exists r, cp y = Ok r /\ o = Some r
  | Some x, Some y => exists r, cb x y = Ok r /\ o = if r =? 0 then None else Some r
  end.
Record minv (m0 w : smap) (s : mst) : Prop := {
  mi_s : msorted (mm s);
  mi_done : forall k, lt_it k (mw s) -> mspec m0 w k (mget (mm s) k);
  mi_todo : forall k, ~ lt_it k (mw s) -> mget (mm s) k = mget m0 k;
  mi_v : forall k, ~ lt_it k (mv s) -> mget (mm s) k = mget m0 k;
  mi_vw : forall k, mget m0 k <> None -> lt_it k (mv s) -> lt_it k (mw s);
  mi_iv : match mv s with None => True | Some k => mget (mm s) k <> None end;
  mi_iw : match mw s with None => True | Some k => mget w k <> None end;
  mi_on : forall k, In k (mn s) <-> mget m0 k = None /\ mget (mm s) k <> None;
  mi_off : forall k, In k (mf s) <-> mget m0 k <> None /\ mget (mm s) k = None
}.
Lemma mspec_eq m0 w k : mget w k = None -> mspec m0 w k (mget m0 k).
Proof. unfold mspec. intros ->. destruct (mget m0 k); reflexivity. Qed.

(** some entry needed cannot be computed *)
Definition mbad (m0 w : smap) : Prop := exists k y, mget w k = Some y /\
  ((mget m0 k = None /\ forall r, cp y <> Ok r) \/ exists x, mget m0 k = Some x /\ forall r, cb x y <> Ok r).
Definition okdec {A} (r : res A) : {x | r = Ok x} + {forall x, r <> Ok x}.
Proof. destruct r; [left; eauto|right; discriminate..]. Defined.
Lemma bind_nok {A B} (r : res A) (f : A -> res B) : (forall x, r <> Ok x) -> forall b, bind r f <> Ok b.
Proof. destruct r; cbn [bind]; try discriminate. intros H. exfalso. eapply H; reflexivity. Qed.

Ltac ltk := match goal with H : context[lt_it] |- _ => cbn [lt_it] in H end.
Lemma merge_step_ok m0 w s : msorted m0 -> msorted w -> minv m0 w s ->
  (mw s = None /\ merge_step cp cb false w s = Ok (inr s)) \/
  (exists s', merge_step cp cb false w s = Ok (inl s') /\ minv m0 w s' /\ (cnt m0 (mv s') + cnt w (mw s') < cnt m0 (mv s) + cnt w (mw s))%nat) \/
  (mbad m0 w /\ forall r, merge_step cp cb false w s <> Ok r).
Proof.
  intros S0 Sw I. unfold merge_step. destruct (mw s) as [kw|] eqn:Ew; [right|left; auto].
  pose proof (mi_iw _ _ _ I) as Iw. rewrite Ew in Iw. destruct (mget w kw) as [y|] eqn:Gw; [|congruence].
  rewrite (mderef_ok _ _ _ Gw), bind_Ok.
  destruct (mincr_ok w kw) as (wi & Eincr); [congruence|].
  destruct (mincr_inv w kw wi Sw Eincr) as (_ & W1 & W2 & W3).
  assert (Wn : forall k, lt_it k wi -> kw < k -> mget w k = None).
  { intros k Hk Hlt. destruct (mget w k) eqn:G; auto. exfalso. eapply W3; eauto. congruence. }
  assert (Wdec : forall k, lt_it k wi -> k < kw \/ k = kw \/ (kw < k /\ mget w k = None)).
  { intros k Hk. destruct (Z.lt_trichotomy k kw) as [|[|]]; auto. }
  assert (Cw : (cnt w wi < cnt w (Some kw))%nat) by (apply cnt_lt; congruence).
  assert (Wlt : forall k, k < kw -> lt_it k (mw s)) by (intros; rewrite Ew; exact H).
  assert (Wge : forall k, kw <= k -> ~ lt_it k (mw s)) by (intros; rewrite Ew; cbn [lt_it]; lia).
  assert (Wgt : forall k, ~ lt_it k wi -> kw < k) by (destruct wi; cbn [lt_it] in *; intros k Hk; [lia|tauto]).
  (* insertion of w's entry *)
  assert (INS : mget m0 kw = None -> lt_it kw (mv s) ->
    (exists s', bind (cp y) (fun x => bind (mincr w kw) (fun wi => Ok (@inl mst mst (Mst (mset (mm s) kw x) (mv s) wi (kw :: mn s) (mf s))))) = Ok (inl s') /\ minv m0 w s' /\ (cnt m0 (mv s') + cnt w (mw s') < cnt m0 (mv s) + cnt w (Some kw))%nat) \/
    (mbad m0 w /\ forall r, bind (cp y) (fun x => bind (mincr w kw) (fun wi => Ok (@inl mst mst (Mst (mset (mm s) kw x) (mv s) wi (kw :: mn s) (mf s))))) <> Ok r)).
  { intros G0 Hv. destruct (okdec (cp y)) as [(x & Ex)|Hn].
    2:{ right. split; [exists kw, y; split; auto|]. apply bind_nok, Hn. }
    left. rewrite Ex, bind_Ok, Eincr, bind_Ok. eexists; split; [reflexivity|]. cbn [mv mw]. split; [|lia].
    constructor; cbn [mm mv mw mn mf].
    - apply mset_sorted, (mi_s _ _ _ I).
    - intros k Hk. rewrite mget_mset. destruct (Z.eqb_spec kw k) as [<-|].
      + unfold mspec. rewrite G0, Gw. eauto.
      + destruct (Wdec k Hk) as [L|[L|(L & N)]]; [apply (mi_done _ _ _ I); auto|lia|].
        rewrite (mi_todo _ _ _ I) by (apply Wge; lia). apply mspec_eq, N.
    - intros k Hk. apply Wgt in Hk. rewrite mget_mset. destruct (Z.eqb_spec kw k); [lia|]. apply (mi_todo _ _ _ I), Wge. lia.
    - intros k Hk. rewrite mget_mset. destruct (Z.eqb_spec kw k); [subst; tauto|]. apply (mi_v _ _ _ I), Hk.
    - intros k Hk Hl. pose proof (mi_vw _ _ _ I k Hk Hl) as L. rewrite Ew in L. cbn [lt_it] in L. destruct wi; cbn [lt_it] in *; [lia|auto].
    - pose proof (mi_iv _ _ _ I) as L. destruct (mv s); auto. rewrite mget_mset. destruct (_ =? _); [discriminate|auto].
    - exact W2.
    - intros k. rewrite mget_mset. cbn [In]. rewrite (mi_on _ _ _ I). destruct (Z.eqb_spec kw k); [subst; split; [intros _; split; [auto|discriminate]|auto]|]. split; [intros [?|?]; [congruence|auto]|auto].
    - intros k. rewrite mget_mset. rewrite (mi_off _ _ _ I). destruct (Z.eqb_spec kw k); [|tauto]. subst. split; [tauto|]. intros (_ & ?); discriminate. }
  destruct (mv s) as [kv|] eqn:Ev.
  2:{ apply INS; [|cbn [lt_it]; exact Logic.I]. destruct (mget m0 kw) eqn:G0; auto. exfalso.
      assert (L : lt_it kw (mw s)) by (apply (mi_vw _ _ _ I); [congruence|rewrite Ev; exact Logic.I]). rewrite Ew in L; cbn [lt_it] in L; lia. }
  pose proof (mi_iv _ _ _ I) as Iv. rewrite Ev in Iv.
  assert (G0v : mget (mm s) kv = mget m0 kv) by (apply (mi_v _ _ _ I); rewrite Ev; cbn [lt_it]; lia).
  destruct (mincr_ok (mm s) kv Iv) as (vi & Evi). destruct (mincr_inv _ _ _ (mi_s _ _ _ I) Evi) as (_ & V1 & V2 & V3).
  assert (Vgt : forall k, ~ lt_it k vi -> kv < k) by (destruct vi; cbn [lt_it] in *; intros k Hk; [lia|tauto]).
  assert (Vvw : forall k, mget m0 k <> None -> lt_it k vi -> k <= kv).
  { intros k Hk Hl. destruct (Z.le_gt_cases k kv) as [|L]; auto. exfalso. apply (V3 k); auto.
    rewrite (mi_v _ _ _ I); [auto|]. rewrite Ev. cbn [lt_it]. lia. }
  assert (Cv : (cnt m0 vi < cnt m0 (Some kv))%nat) by (apply cnt_lt; auto; congruence).
  destruct (Z.ltb_spec kv kw) as [L|L].
  { left. rewrite Evi, bind_Ok. eexists; split; [reflexivity|]. cbn [mv mw]. split; [|lia].
    constructor; cbn [mm mv mw mn mf]; try rewrite Ew; try apply I.
    - intros k Hk. apply (mi_done _ _ _ I). rewrite Ew. exact Hk.
    - intros k Hk. apply (mi_todo _ _ _ I). rewrite Ew. exact Hk.
    - intros k Hk. apply (mi_v _ _ _ I). rewrite Ev. cbn [lt_it]. apply Vgt in Hk. lia.
    - intros k Hk Hl. apply Vvw in Hl; auto. cbn [lt_it]. lia.
    - exact V2.
    - congruence. }
  destruct (Z.ltb_spec kw kv) as [L'|L'].
  { destruct (mget m0 kw) eqn:G0; [|apply INS; auto].
    exfalso. assert (Q : lt_it kw (mw s)) by (apply (mi_vw _ _ _ I); [congruence|rewrite Ev; exact L']). rewrite Ew in Q; cbn [lt_it] in Q; lia. }
  assert (kv = kw) by lia. subst kv. clear L L' INS.
  destruct (mget (mm s) kw) as [x|] eqn:Gx; [|congruence]. rewrite (mderef_ok _ _ _ Gx), bind_Ok.
  destruct (okdec (cb x y)) as [(r & Er)|Hn].
  2:{ right. split; [|apply bind_nok, Hn]. exists kw, y. split; auto. right. exists x. split; auto. }
  left. rewrite Er, bind_Ok, Evi, bind_Ok.
  assert (SPEC : mspec m0 w kw (if r =? 0 then None else Some r)) by (unfold mspec; rewrite <- G0v, Gw; eauto).
  destruct (r =? 0) eqn:R0.
  - rewrite Eincr, bind_Ok. eexists; split; [reflexivity|]. cbn [mv mw]. split; [|lia].
    pose proof (mi_s _ _ _ I) as SM.
    constructor; cbn [mm mv mw mn mf]; auto.
    + apply mdel_sorted; auto.
    + intros k Hk. rewrite mget_mdel by auto. destruct (Z.eqb_spec kw k) as [<-|]; auto.
      destruct (Wdec k Hk) as [L|[L|(L & N)]]; [apply (mi_done _ _ _ I); auto|lia|].
      rewrite (mi_todo _ _ _ I) by (apply Wge; lia). apply mspec_eq, N.
    + intros k Hk. apply Wgt in Hk. rewrite mget_mdel by auto. destruct (Z.eqb_spec kw k); [lia|]. apply (mi_todo _ _ _ I), Wge. lia.
    + intros k Hk. apply Vgt in Hk. rewrite mget_mdel by auto. destruct (Z.eqb_spec kw k); [lia|]. apply (mi_v _ _ _ I). rewrite Ev. cbn [lt_it]. lia.
    + intros k Hk Hl. apply Vvw in Hl; auto. destruct wi; cbn [lt_it] in *; [lia|auto].
    + destruct vi; auto. rewrite mget_mdel by auto. cbn [lt_it] in V1. destruct (Z.eqb_spec kw z); [lia|auto].
    + intros k. rewrite mget_mdel by auto. rewrite (mi_on _ _ _ I). destruct (Z.eqb_spec kw k); [|tauto]. subst. split; [intros (? & ?); congruence|tauto].
    + intros k. rewrite mget_mdel by auto. cbn [In]. rewrite (mi_off _ _ _ I). destruct (Z.eqb_spec kw k); [subst; split; [intros _; split; congruence|auto]|]. split; [intros [?|?]; [congruence|auto]|auto].
  - rewrite Eincr, bind_Ok. eexists; split; [reflexivity|]. cbn [mv mw]. split; [|lia].
    constructor; cbn [mm mv mw mn mf]; auto.
    + apply mset_sorted, I.
    + intros k Hk. rewrite mget_mset. destruct (Z.eqb_spec kw k) as [<-|]; auto.
      destruct (Wdec k Hk) as [L|[L|(L & N)]]; [apply (mi_done _ _ _ I); auto|lia|].
      rewrite (mi_todo _ _ _ I) by (apply Wge; lia). apply mspec_eq, N.
    + intros k Hk. apply Wgt in Hk. rewrite mget_mset. destruct (Z.eqb_spec kw k); [lia|]. apply (mi_todo _ _ _ I), Wge. lia.
    + intros k Hk. apply Vgt in Hk. rewrite mget_mset. destruct (Z.eqb_spec kw k); [lia|]. apply (mi_v _ _ _ I). rewrite Ev. cbn [lt_it]. lia.
    + intros k Hk Hl. apply Vvw in Hl; auto. destruct wi; cbn [lt_it] in *; [lia|auto].
    + destruct vi; auto. rewrite mget_mset. destruct (Z.eqb_spec kw z); [discriminate|exact V2].
    + intros k. rewrite mget_mset. rewrite (mi_on _ _ _ I). destruct (Z.eqb_spec kw k); [|tauto]. subst. split; intros (? & _); congruence.
    + intros k. rewrite mget_mset. rewrite (mi_off _ _ _ I). destruct (Z.eqb_spec kw k); [|tauto]. subst. rewrite Gx. split; [intros (_ & ?); discriminate|]. intros (_ & ?); discriminate.
Qed.
Lemma merge_loop_ok m0 w n s : msorted m0 -> msorted w -> minv m0 w s -> (cnt m0 (mv s) + cnt w (mw s) < n)%nat ->
  (exists s', merge_loop cp cb false w n s = Ok s' /\ minv m0 w s' /\ mw s' = None) \/
  (mbad m0 w /\ forall r, merge_loop cp cb false w n s <> Ok r).
Proof.
  intros S0 Sw. revert s. induction n; intros s I Hn; [lia|]. cbn [merge_loop].
  destruct (merge_step_ok m0 w s S0 Sw I) as [(E & ->)|[(s' & -> & I' & L)|(B & H)]].
  - left. rewrite bind_Ok. eauto.
  - rewrite bind_Ok. apply IHn; auto. lia.
  - right. split; auto. apply bind_nok, H.
Qed.
Lemma merge_main m0 w : msorted m0 -> msorted w ->
  (exists s, merge cp cb false m0 w = Ok s /\ msorted (mm s) /\ (forall k, mspec m0 w k (mget (mm s) k)) /\
    (forall k, In k (mn s) <-> mget m0 k = None /\ mget (mm s) k <> None) /\
    (forall k, In k (mf s) <-> mget m0 k <> None /\ mget (mm s) k = None)) \/
  (mbad m0 w /\ forall r, merge cp cb false m0 w <> Ok r).
Proof.
  intros S0 Sw. unfold merge. set (s0 := Mst _ _ _ _ _).
  assert (I : minv m0 w s0).
  { destruct (mbegin_spec m0 S0) as (B1 & B2). destruct (mbegin_spec w Sw) as (C1 & C2).
    constructor; cbn [s0 mm mv mw mn mf]; auto.
    - intros k Hk. apply mspec_eq. destruct (mget w k) eqn:G; auto. exfalso. eapply C2; eauto. congruence.
    - intros k Hk Hl. exfalso. eapply B2; eauto.
    - intros k. cbn [In]. split; [tauto|]. intros (? & ?); tauto.
    - intros k. cbn [In]. split; [tauto|]. intros (? & ?); tauto. }
  destruct (merge_loop_ok m0 w (Datatypes.S (length m0 + length w)) s0 S0 Sw I) as [(s' & E & I' & N)|B].
  - cbn [s0 mv mw]. pose proof (cnt_le m0 (mbegin m0)). pose proof (cnt_le w (mbegin w)). lia.
  - left. exists s'. split; auto. split; [apply I'|]. split; [|split; apply I'].
    intros k. apply (mi_done _ _ _ I'). rewrite N. exact Logic.I.
  - right. exact B.
Qed.
(** ** the same object on both sides *)
Lemma merge_alias_loop m0 n m it on off : msorted m0 -> msorted m ->
  (forall k, lt_it k it -> exists x r, (mget m0 k = None /\ mget m k = None) \/ (mget m0 k = Some x /\ cb x x = Ok r /\ r <> 0 /\ mget m k = Some r)) ->
  (forall k, ~ lt_it k it -> mget m k = mget m0 k) ->
  match it with None => True | Some k => mget m0 k <> None end -> (cnt m0 it < n)%nat ->
  (exists s', merge_loop cp cb true [] n (Mst m it it on off) = Ok s' /\ msorted (mm s') /\ forall k, match mget m0 k with None => mget (mm s') k = None | Some x => exists r, cb x x = Ok r /\ r <> 0 /\ mget (mm s') k = Some r end) \/
  ((exists k x, mget m0 k = Some x /\ forall r, cb x x = Ok r -> r = 0) /\ forall r, merge_loop cp cb true [] n (Mst m it it on off) <> Ok r).
Proof.
  intros S0. revert m it. induction n; intros m it Sm Hd Ht Hi Hc; [lia|]. cbn [merge_loop]. unfold merge_step. cbn [mw mv mm mn mf].
  destruct it as [kw|].
  2:{ left. rewrite bind_Ok. eexists; split; [reflexivity|]. cbn [mm]. split; auto. intros k.
      destruct (Hd k Logic.I) as (x & r & [(H1 & H2)|(H1 & H2 & H3 & H4)]); rewrite H1; auto. exists r. auto. }
  destruct (mget m0 kw) as [x|] eqn:G0; [|congruence].
  assert (G : mget m kw = Some x) by (rewrite Ht; [auto|cbn [lt_it]; lia]).
  rewrite (mderef_ok _ _ _ G), bind_Ok, Z.ltb_irrefl, bind_Ok.
  destruct (okdec (cb x x)) as [(r & Er)|Hn].
  2:{ right. split; [exists kw, x; split; auto; intros r Hr; exfalso; eapply Hn; eauto|]. apply bind_nok, bind_nok, Hn. }
  rewrite Er, bind_Ok. destruct (mincr_ok m kw) as (vi & Ei); [congruence|]. rewrite Ei, bind_Ok.
  destruct (mincr_inv _ _ _ Sm Ei) as (_ & V1 & V2 & V3).
  destruct (Z.eqb_spec r 0) as [R|R].
  { right. split; [exists kw, x; split; auto; intros; congruence|]. unfold mincr. rewrite mget_mdel by auto. rewrite Z.eqb_refl. discriminate. }
  set (m' := mset m kw r). assert (Sm' : msorted m') by (apply mset_sorted; auto).
  assert (Gm' : forall k, mget m' k = if kw =? k then Some r else mget m k) by (intros; apply mget_mset).
  destruct (mincr_ok m' kw) as (wi & Ew); [rewrite Gm', Z.eqb_refl; discriminate|]. rewrite Ew, bind_Ok, bind_Ok.
  destruct (mincr_inv _ _ _ Sm' Ew) as (_ & W1 & W2 & W3).
  assert (wi = vi).
  { assert (A : forall a b, match a with None => True | Some k => mget m k <> None /\ kw < k end -> (forall k, mget m k <> None -> kw < k -> ~ lt_it k b) -> match b, a with Some kb, Some ka => kb <= ka | None, Some _ => False | _, _ => True end).
    { intros a b Ha Hb. destruct a as [ka|]; [|destruct b; auto]. destruct Ha as (Ha & Ha'). specialize (Hb ka Ha Ha'). destruct b; cbn [lt_it] in Hb; [lia|tauto]. }
    assert (Q : forall k, kw < k -> mget m' k = mget m k) by (intros k Hk; rewrite Gm'; destruct (Z.eqb_spec kw k); [lia|auto]).
    assert (A1 := A wi vi). assert (A2 := A vi wi).
    destruct vi as [kv|], wi as [kw'|]; auto; cbn [lt_it] in *.
    - f_equal. assert (kv <= kw') by (apply A1; auto; split; [rewrite <- Q by auto; auto|auto]).
      assert (kw' <= kv) by (apply A2; [split; auto|]; intros k Hk Hlt; apply (W3 k); auto; rewrite Q by auto; auto). lia.
    - exfalso. apply A2; [split; auto|]. intros k Hk Hlt. apply (W3 k); auto. rewrite Q by auto; auto.
    - exfalso. apply A1; auto. split; [rewrite <- Q by auto; auto|auto]. }
  subst wi.
  apply IHn; auto.
  - intros k Hk. rewrite Gm'. destruct (Z.eqb_spec kw k) as [<-|].
    + exists x, r. right. auto.
    + destruct (Z.lt_ge_cases k kw) as [L|L]; [apply Hd; exact L|].
      assert (N : mget m k = None). { destruct (mget m k) eqn:Gk; auto. exfalso. apply (V3 k); auto; [congruence|lia]. }
      exists 0, 0. left. split; auto. rewrite <- Ht; [auto|cbn [lt_it]; lia].
  - intros k Hk. assert (kw < k) by (destruct vi; cbn [lt_it] in *; [lia|tauto]). rewrite Gm'. destruct (Z.eqb_spec kw k); [lia|]. apply Ht. cbn [lt_it]. lia.
  - destruct vi; auto. cbn [lt_it] in V1. rewrite <- Ht; [auto|cbn [lt_it]; lia].
  - assert (L : (cnt m0 vi < cnt m0 (Some kw))%nat) by (apply cnt_lt; [congruence|auto]). lia.
Qed.
Lemma alias_w n s w w' : merge_loop cp cb true w n s = merge_loop cp cb true w' n s.
Proof.
  revert s. induction n; intros s; cbn [merge_loop]; auto.
  change (merge_step cp cb true w' s) with (merge_step cp cb true w s).
  destruct (merge_step cp cb true w s) as [[s'|s']| | |]; cbn [bind]; auto.
Qed.
Lemma merge_alias m0 w : msorted m0 ->
  (exists s', merge cp cb true m0 w = Ok s' /\ msorted (mm s') /\ forall k, mspec m0 m0 k (mget (mm s') k)) \/
  ((exists k x, mget m0 k = Some x /\ forall r, cb x x = Ok r -> r = 0) /\ forall r, merge cp cb true m0 w <> Ok r).
Proof.
  intros S0. unfold merge. rewrite (alias_w _ _ w []).
  destruct (mbegin_spec m0 S0) as (B1 & B2).
  destruct (merge_alias_loop m0 (Datatypes.S (length m0 + length w)) m0 (mbegin m0) [] [] S0 S0) as [(s' & E & Sm & H)|B]; auto.
  - intros k Hk. exists 0, 0. left. assert (mget m0 k = None); [|auto]. destruct (mget m0 k) eqn:G; auto. exfalso. eapply B2; eauto. congruence.
  - pose proof (cnt_le m0 (mbegin m0)). lia.
  - left. exists s'. split; auto. split; auto. intros k. specialize (H k). unfold mspec. destruct (mget m0 k) eqn:G; auto.
    destruct H as (r & H1 & H2 & H3). exists r. split; auto. apply Z.eqb_neq in H2. rewrite H2. auto.
Qed.
End Merge.
