(** Proofs about SmatModel, fifth part: equality, transpose, scalar matrices, operations modulo p. *)
From Coq Require Import ZArith Znumtheory Lia List Bool Sorted.
From Verif Require Import Base LinModel LinSpec LinProofs LinAlg LinElim LinKer SvecModel SvecSpec SvecProofs SvecOps SvecMod SvecMore SmatModel SmatProofs SmatOps SmatMat SmatArith.
Import ListNotations.
Open Scope Z_scope.
Open Scope res_scope.

(** ** the lists of entries behind a matrix *)
Lemma rep_list c m nr nc e : rep c m nr nc e -> exists L : list smap, length L = nr /\ forall i, (i < nr)%nat -> rowok (nth i (srows m) row0) (nth i L []) /\ lrow c nc (e i) (nth i L []).
Proof.
  intros R. exists (map (fun r => match rread r with Ok l => l | _ => [] end) (srows m)). split; [rewrite map_length; apply R|].
  intros i Hi. destruct (rep_row _ _ _ _ _ i R Hi) as (l & _ & H1 & H2 & H3).
  replace (nth i (map _ (srows m)) []) with l; [auto|]. symmetry. etransitivity; [apply (nth_indep _ [] ((fun r => match rread r with Ok l => l | _ => [] end) row0)); rewrite map_length; destruct R as (_ & -> & _); auto|].
  rewrite (map_nth (fun r => match rread r with Ok l => l | _ => [] end)). rewrite H2. reflexivity.
Qed.
Lemma lrow_eq (c c' : Prop) nc f g l l' : lrow c nc f l -> lrow c' nc g l' -> c -> c' -> (l = l' <-> forall j, (j < nc)%nat -> f j = g j).
Proof.
  intros H H' Hc Hc'. pose proof H as (A & B & C & D). pose proof H' as (A' & B' & C' & D'). split.
  - intros <- j Hj. rewrite <- D, <- D' by auto. reflexivity.
  - intros E. apply smap_ext; auto. intros k. pose proof (lrow_val _ _ _ _ k H) as V. pose proof (lrow_val _ _ _ _ k H') as V'.
    assert (Q : rowfun nc f k = rowfun nc g k) by (destruct (rowfun_case nc k) as [(j & Hj & ->)|Hk]; [rewrite !rowfun_in by auto; auto|rewrite !rowfun_out by auto; auto]).
    rewrite <- V, <- V' in Q. specialize (C Hc k). specialize (C' Hc' k). unfold mval in Q. destruct (mget l k), (mget l' k); congruence.
Qed.
Lemma eqrows_ok f (Q : nat -> Prop) rs rs' (L L' : list smap) : length rs = length rs' -> length L = length rs -> length L' = length rs ->
  (forall i, (i < length rs)%nat -> rowok (nth i rs row0) (nth i L []) /\ rowok (nth i rs' row0) (nth i L' []) /\
     exists b, (if (length (nth i L []) =? length (nth i L' []))%nat then f (nth i L []) (nth i L' []) else Ok false) = Ok b /\ (b = true <-> Q i)) ->
  exists b, eqrows f rs rs' = Ok b /\ (b = true <-> forall i, (i < length rs)%nat -> Q i).
Proof.
  revert Q rs' L L'. induction rs as [|r rs IH]; intros Q [|r' rs'] [|l L] [|l' L'] E EL EL' H; try discriminate; cbn [eqrows].
  - exists true. split; auto. split; auto. intros _ i Hi. cbn [length] in Hi. lia.
  - cbn [length] in *. destruct (H 0%nat) as (H1 & H2 & b & Hb & Hq); [lia|]. cbn [nth] in *. rewrite (rread_ok _ _ H1), bind_Ok, (rread_ok _ _ H2), bind_Ok, Hb, bind_Ok. destruct b.
    + destruct (IH (fun i => Q (Datatypes.S i)) rs' L L') as (b & Eb & Hb'); [lia..| |].
      { intros i Hi. apply (H (Datatypes.S i)). lia. }
      exists b. split; auto. rewrite Hb'. split.
      * intros F [|i] Hi; [tauto|apply F; lia].
      * intros F i Hi. apply F. lia.
    + exists false. split; auto. split; [discriminate|]. intros F. apply Hq, F. lia.
Qed.
Lemma sm_eqb_ok (c c' : Prop) m s nr nr' nc e e' : rep c m nr nc e -> rep c' s nr' nc e' -> c -> c' ->
  exists b, sm_eqb m s = Ok b /\ (b = true <-> nr = nr' /\ forall i j, (i < nr)%nat -> (j < nc)%nat -> e i j = e' i j).
Proof.
  intros R R' Hc Hc'. destruct (rep_list _ _ _ _ _ R) as (L & EL & HL). destruct (rep_list _ _ _ _ _ R') as (L' & EL' & HL').
  pose proof R as (A & B & _). pose proof R' as (A' & B' & _). unfold sm_eqb, snr. rewrite B, B'. destruct (Nat.eqb_spec nr nr') as [<-|n].
  - destruct (eqrows_ok (fun a b => Ok (smap_eqb a b)) (fun i => forall j, (j < nc)%nat -> e i j = e' i j) (srows m) (srows s) L L') as (b & Eb & Hb); [lia..| |].
    + rewrite B. intros i Hi. destruct (HL i Hi) as (H1 & H2). destruct (HL' i Hi) as (H3 & H4). split; auto. split; auto.
      pose proof (lrow_eq _ _ _ _ _ _ _ H2 H4 Hc Hc') as Q. destruct (Nat.eqb_spec (length (nth i L [])) (length (nth i L' []))) as [E|E].
      * eexists; split; [reflexivity|]. rewrite smap_eqb_iff. exact Q.
      * exists false. split; auto. split; [discriminate|]. intros F. apply Q in F. congruence.
    + exists b. split; auto. rewrite Hb, B. split; [intros F; split; auto|intros (_ & F) i Hi; auto].
  - exists false. split; auto. split; [discriminate|tauto].
Qed.

(** ** transpose *)
Fixpoint colof (s : nat) (L : list smap) (k : Z) : smap :=
  match L with [] => [] | l :: L => match mget l k with Some x => (Z.of_nat s + 1, x) :: colof (Datatypes.S s) L k | None => colof (Datatypes.S s) L k end end.
Lemma colof_app L1 : forall s L2 k, colof s (L1 ++ L2) k = colof s L1 k ++ colof (s + length L1) L2 k.
Proof.
  induction L1 as [|l L1 IH]; intros s L2 k; cbn [colof app length]; [rewrite Nat.add_0_r; reflexivity|]. rewrite IH. replace (Datatypes.S s + length L1)%nat with (s + Datatypes.S (length L1))%nat by lia. destruct (mget l k); reflexivity.
Qed.
Lemma colof_In L : forall s k i x, In (i, x) (colof s L k) -> Z.of_nat s + 1 <= i <= Z.of_nat (s + length L) /\ mget (nth (Z.to_nat (i - 1) - s) L []) k = Some x.
Proof.
  induction L as [|l L IH]; intros s k i x H; cbn [colof] in H; [destruct H|]. cbn [length].
  assert (Q : (i, x) = (Z.of_nat s + 1, x) /\ mget l k = Some x \/ In (i, x) (colof (Datatypes.S s) L k)) by (destruct (mget l k); [destruct H as [[= <- <-]|H]; auto|auto]).
  destruct Q as [([= ->] & E)|Q].
  - split; [lia|]. replace (Z.to_nat (Z.of_nat s + 1 - 1) - s)%nat with 0%nat by lia. exact E.
  - apply IH in Q. destruct Q as (Q1 & Q2). split; [lia|]. replace (Z.to_nat (i - 1) - s)%nat with (Datatypes.S (Z.to_nat (i - 1) - Datatypes.S s)) by lia. exact Q2.
Qed.
Lemma colof_sorted L : forall s k, msorted (colof s L k).
Proof.
  induction L as [|l L IH]; intros s k; cbn [colof]; [constructor|]. destruct (mget l k); auto. apply msorted_cons. split; auto. intros i x H. apply colof_In in H. lia.
Qed.
Lemma colof_val L : forall s k i, (i < length L)%nat -> mval (colof s L k) (Z.of_nat (s + i) + 1) = mval (nth i L []) k.
Proof.
  induction L as [|l L IH]; intros s k i Hi; cbn [length] in Hi; [lia|]. cbn [colof]. destruct i as [|i].
  - rewrite Nat.add_0_r. cbn [nth]. unfold mval at 2. destruct (mget l k) as [x|].
    + rewrite mval_cons, Z.eqb_refl. reflexivity.
    + apply mval_above. intros k' y H. apply colof_In in H. lia.
  - cbn [nth]. replace (s + Datatypes.S i)%nat with (Datatypes.S s + i)%nat by lia. rewrite <- (IH (Datatypes.S s) k i) by lia. destruct (mget l k); auto. rewrite mval_cons. destruct (Z.eqb_spec (Z.of_nat s + 1) (Z.of_nat (Datatypes.S s + i) + 1)); auto; lia.
Qed.
Lemma lrow_colof c nr nc e (L : list smap) k : length L = nr -> (forall i, (i < nr)%nat -> lrow c nc (e i) (nth i L [])) -> (k < nc)%nat -> lrow c nr (fun i => e i k) (colof 0 L (Z.of_nat k + 1)).
Proof.
  intros EL H Hk. split; [apply colof_sorted|]. split; [intros i x Hx; apply colof_In in Hx; lia|]. split.
  - intros Hc i Hi. apply mget_In in Hi. apply colof_In in Hi. destruct Hi as (Hr & Hi). destruct (H (Z.to_nat (i - 1) - 0)%nat ltac:(lia)) as (_ & _ & C & _). exact (C Hc _ Hi).
  - intros i Hi. pose proof (colof_val L 0 (Z.of_nat k + 1) i ltac:(lia)) as V. cbn [Nat.add] in V. rewrite V. apply (H i Hi), Hk.
Qed.
Definition has (l : smap) (k : Z) : nat := match mget l k with Some _ => 1 | None => 0 end.
Lemma has_cons k x l k' : msorted ((k, x) :: l) -> has ((k, x) :: l) k' = ((if (k =? k')%Z then 1 else 0) + has l k')%nat.
Proof.
  intros H. apply msorted_cons in H. destruct H as (_ & A). unfold has. cbn [mget]. destruct (Z.eqb_spec k k') as [<-|]; auto. rewrite mget_above by auto. reflexivity.
Qed.
Lemma bump_ok w k : 1 <= k <= Z.of_nat (length w) -> exists w', bump w k = Ok w' /\ length w' = length w /\ forall c, nth c w' 0%nat = (nth c w 0 + (if (Z.of_nat c + 1 =? k)%Z then 1 else 0))%nat.
Proof.
  intros Hk. unfold bump. destruct (Z.ltb_spec k 1); [lia|]. rewrite (deref_ok 0%nat) by lia. rewrite bind_Ok. destruct (put_ok 0%nat w (Z.to_nat (k - 1)) [Datatypes.S (nth (Z.to_nat (k - 1)) w 0%nat)]) as (w' & E & L & H1 & H2); [cbn [length]; lia|].
  exists w'. split; [exact E|]. split; [exact L|]. intros c. destruct (Z.eqb_spec (Z.of_nat c + 1) k) as [e|n].
  - rewrite H1 by (cbn [length]; lia). replace (c - Z.to_nat (k - 1))%nat with 0%nat by lia. cbn [nth]. replace (Z.to_nat (k - 1)) with c by lia. lia.
  - rewrite H2 by (cbn [length]; lia). lia.
Qed.
Lemma bumps_ok nc l : msorted l -> inr nc l -> forall w, length w = nc -> exists w', mfold (fun w '(k, _) => bump w k) l w = Ok w' /\ length w' = nc /\ forall c, nth c w' 0%nat = (nth c w 0 + has l (Z.of_nat c + 1))%nat.
Proof.
  induction l as [|(k, x) l IH]; intros Hs Hi w Lw; cbn [mfold]; [exists w; split; auto; split; auto; intros c; unfold has; cbn [mget]; lia|].
  pose proof (has_cons k x l) as HC. pose proof Hs as Hs'. apply msorted_cons in Hs'. apply inr_cons in Hi. destruct (bump_ok w k) as (w1 & -> & L1 & H1); [lia|]. rewrite bind_Ok.
  destruct (IH (proj1 Hs') (proj2 Hi) w1 ltac:(lia)) as (w' & E & L' & H'). exists w'. split; auto. split; auto. intros c. rewrite H', H1, HC by auto. rewrite (Z.eqb_sym k). lia.
Qed.
Lemma colof_snoc L l k : length (colof 0 (L ++ [l]) k) = (length (colof 0 L k) + has l k)%nat.
Proof. rewrite colof_app, app_length. f_equal. cbn [colof Nat.add]. unfold has. destruct (mget l k); reflexivity. Qed.
Lemma firstn_S {A} (d : A) l i : (i < length l)%nat -> firstn (Datatypes.S i) l = firstn i l ++ [nth i l d].
Proof. revert i. induction l as [|a l IH]; intros [|i] H; cbn [length firstn nth app] in *; try lia; auto. f_equal. apply IH. lia. Qed.
(** a row under construction: d slots, the first ones filled *)
Definition prow (r : srow) (d : nat) (l : smap) : Prop := exists xp xv,
  pm r = Some (Z.of_nat d) :: map (fun q => Some (fst q)) l ++ xp /\ vm r = map (fun q => Some (snd q)) l ++ xv /\ (length l + length xp = d)%nat /\ (length l + length xv = d)%nat.
Lemma prow_wr r d l q : prow r d l -> (length l < d)%nat -> exists r', wr (length l + 1) (length l) [q] r = Ok r' /\ prow r' d (l ++ [q]).
Proof.
  intros (xp & xv & Hp & Hv & Lp & Lv) H. destruct xp as [|a xp]; [cbn [length] in Lp; lia|]. destruct xv as [|b xv]; [cbn [length] in Lv; lia|]. cbn [length] in *.
  rewrite (wr_ok [q] (length l + 1) (length l) r (Some (Z.of_nat d) :: map (fun q => Some (fst q)) l) (a :: xp) (map (fun q => Some (snd q)) l) (b :: xv)); auto; try (cbn [length]; rewrite ?map_length; lia).
  eexists; split; [reflexivity|]. exists xp, xv. cbn [pm vm length skipn]. rewrite !map_app, !app_length, <- !app_assoc. cbn [map app length]. split; auto. split; auto. lia.
Qed.
Lemma prow_done r l : prow r (length l) l -> rowok r l.
Proof. intros (xp & xv & Hp & Hv & _ & _). exists xp, xv. auto. Qed.
Lemma sm_transpose_ok c m nr nc e : rep c m nr nc e -> exists t, sm_transpose m = Ok t /\ rep c t nc nr (fun i j => e j i).
Proof.
  intros R. destruct (rep_list _ _ _ _ _ R) as (L & EL & HL). pose proof R as (A & B & _). unfold sm_transpose, snr. rewrite A, B.
  set (len := fun i k => length (colof 0 (firstn i L) (Z.of_nat k + 1))).
  assert (W : exists wts, mfold (fun w r => bind (rread r) (fun l => mfold (fun w '(k, _) => bump w k) l w)) (srows m) (repeat 0%nat nc) = Ok wts /\ length wts = nc /\ forall k, nth k wts 0%nat = len nr k).
  { assert (G : forall n i w, (i + n = nr)%nat -> length w = nc -> (forall k, nth k w 0%nat = len i k) -> exists wts, mfold (fun w r => bind (rread r) (fun l => mfold (fun w '(k, _) => bump w k) l w)) (skipn i (srows m)) w = Ok wts /\ length wts = nc /\ forall k, nth k wts 0%nat = len nr k).
    { induction n; intros i w Hi Lw Hw.
      - rewrite skipn_all2 by lia. exists w. split; auto. split; auto. intros k. rewrite Hw. f_equal. lia.
      - assert (E : skipn i (srows m) = nth i (srows m) row0 :: skipn (Datatypes.S i) (srows m)).
        { clear -Hi B. revert Hi B. generalize (srows m) as l. intros l. revert i nr. induction l as [|a l IH]; intros [|i] nr Hi B; cbn [length] in B; cbn [skipn nth]; try lia; auto. apply (IH i (nr - 1)%nat); lia. }
        rewrite E. cbn [mfold]. destruct (HL i ltac:(lia)) as (H1 & (H2 & H3 & _)). rewrite (rread_ok _ _ H1), bind_Ok. destruct (bumps_ok nc _ H2 H3 w Lw) as (w' & -> & L' & H'). rewrite bind_Ok.
        apply (IHn (Datatypes.S i) w'); [lia|auto|]. intros k. rewrite H', Hw. unfold len. rewrite (firstn_S ([] : smap)) by lia. rewrite colof_snoc. reflexivity. }
    apply (G nr 0%nat); auto; [apply repeat_length|]. intros k. unfold len. cbn [firstn colof length]. clear. generalize nc as n. intros n. revert k. induction n; intros [|k]; cbn [repeat nth]; auto. }
  destruct W as (wts & -> & Lw & Hw). rewrite bind_Ok.
  destruct (oc_tot True _ _ (oc_mmap True 0%nat row0 (fun d => rset0 (fresh (d + 1) d) (Z.of_nat d)) wts (fun k r => prow r (len nr k) []) ltac:(
    intros k Hk; rewrite Hw; unfold fresh; rewrite Nat.add_1_r; cbn [repeat]; rewrite (rset0_ok _ None (repeat None (len nr k))) by reflexivity; cbn [oc vm]; exists (repeat None (len nr k)), (repeat None (len nr k)); cbn [pm vm map app length]; rewrite repeat_length; auto)) Logic.I) as (b & -> & Lb & Hb).
  rewrite bind_Ok. rewrite Lw in Lb, Hb.
  set (Inv := fun (i : nat) (s : list srow * list nat) => length (fst s) = nc /\ length (snd s) = nc /\ forall k, (k < nc)%nat -> nth k (snd s) 0%nat = len i k /\ prow (nth k (fst s) row0) (len nr k) (colof 0 (firstn i L) (Z.of_nat k + 1))).
  assert (Q : exists s, mfold (fun '(b, aux) '(i, r) => bind (rread r) (fun l => mfold (fun '(b, aux) '(k, x) => if k <? 1 then UB else
        bind (deref aux (Z.to_nat (k - 1))) (fun n => bind (deref b (Z.to_nat (k - 1))) (fun s => bind (wr (n + 1) n [(Z.of_nat i + 1, x)] s) (fun s => bind (put b (Z.to_nat (k - 1)) [s]) (fun b => bind (bump aux k) (fun aux => Ok (b, aux))))))) l (b, aux)))
      (combine (seq 0 nr) (srows m)) (b, repeat 0%nat nc) = Ok s /\ Inv nr s).
  { replace (seq 0 nr) with (seq 0 (length (srows m))) by (rewrite B; reflexivity). refine (oc_tot True _ _ (oc_impl _ _ _ _ (oc_mfold_idx True row0 Inv _ (srows m) 0%nat (b, repeat 0%nat nc) _ _) _) Logic.I).
    - split; [exact Lb|]. split; [apply repeat_length|]. intros k Hk. cbn [fst snd firstn colof]. split; [apply nth_repeat|apply Hb, Hk].
    - intros i (b1, aux1) Hi (I1 & I2 & I3). cbn [Nat.add fst snd] in *. destruct (HL i ltac:(lia)) as (H1 & (H2 & H3 & _)). rewrite (rread_ok _ _ H1), bind_Ok.
      set (P := fun (done : smap) (s : list srow * list nat) => length (fst s) = nc /\ length (snd s) = nc /\ forall k, (k < nc)%nat ->
         let col := colof 0 (firstn i L) (Z.of_nat k + 1) ++ match mget done (Z.of_nat k + 1) with Some x => [(Z.of_nat i + 1, x)] | None => [] end in
         nth k (snd s) 0%nat = length col /\ prow (nth k (fst s) row0) (len nr k) col).
      assert (Full : forall k, (len i k + has (nth i L []) (Z.of_nat k + 1) <= len nr k)%nat).
      { intros k. unfold len. rewrite <- colof_snoc, <- (firstn_S ([] : smap)) by lia. rewrite (firstn_all2 (n := nr)) by lia. rewrite <- (firstn_skipn (Datatypes.S i) L) at 2. rewrite colof_app, app_length. lia. }
      set (l := nth i L []) in *.
      assert (G : forall todo done s, done ++ todo = l -> P done s -> oc True (mfold (fun '(b, aux) '(k, x) => if k <? 1 then UB else
        bind (deref aux (Z.to_nat (k - 1))) (fun n => bind (deref b (Z.to_nat (k - 1))) (fun s => bind (wr (n + 1) n [(Z.of_nat i + 1, x)] s) (fun s => bind (put b (Z.to_nat (k - 1)) [s]) (fun b => bind (bump aux k) (fun aux => Ok (b, aux))))))) todo s) (P l)).
      { induction todo as [|(k, x) todo IH]; intros done (b2, aux2) E HP; cbn [mfold].
        - rewrite app_nil_r in E. subst done. exact HP.
        - assert (Hk : In (k, x) l) by (rewrite <- E; apply in_or_app; right; left; auto). pose proof (H3 k x Hk) as Rk. destruct (Z.ltb_spec k 1); [lia|].
          destruct HP as (P1 & P2 & P3). cbn [fst snd] in *. destruct (P3 (Z.to_nat (k - 1)) ltac:(lia)) as (P4 & P5). replace (Z.of_nat (Z.to_nat (k - 1)) + 1) with k in * by lia.
          assert (Nd : mget done k = None).
          { rewrite <- E in H2. clear -H2. induction done as [|(k1, y) done IH]; cbn [mget]; auto. cbn [app] in H2. apply msorted_cons in H2. destruct H2 as (H2 & H3). destruct (Z.eqb_spec k1 k) as [->|]; [|auto].
            specialize (H3 k x). rewrite in_app_iff in H3. cbn [In] in H3. specialize (H3 (or_intror (or_introl eq_refl))). lia. }
          rewrite Nd, app_nil_r in P4, P5. rewrite (deref_ok 0%nat) by lia. rewrite bind_Ok. rewrite (deref_ok row0) by lia. rewrite bind_Ok, P4.
          assert (Lt : (len i (Z.to_nat (k - 1)) < len nr (Z.to_nat (k - 1)))%nat).
          { specialize (Full (Z.to_nat (k - 1))). replace (Z.of_nat (Z.to_nat (k - 1)) + 1) with k in Full by lia. unfold has in Full. rewrite (In_mget l k x H2 Hk) in Full. lia. }
          replace (Z.of_nat (Z.to_nat (k - 1)) + 1) with k in * by lia.
          destruct (prow_wr _ _ _ (Z.of_nat i + 1, x) P5) as (r' & -> & Hr'); [unfold len in Lt at 1; replace (Z.of_nat (Z.to_nat (k - 1)) + 1) with k in Lt by lia; exact Lt|]. rewrite bind_Ok.
          destruct (put_ok row0 b2 (Z.to_nat (k - 1)) [r']) as (b3 & -> & L3 & O1 & O2); [cbn [length]; lia|]. rewrite bind_Ok.
          destruct (bump_ok aux2 k) as (aux3 & -> & L4 & O3); [lia|]. rewrite !bind_Ok. apply (IH (done ++ [(k, x)])); [rewrite <- app_assoc; exact E|].
          split; [cbn [fst]; lia|]. split; [cbn [snd]; lia|]. intros k' Hk'. cbn [fst snd]. cbv zeta. destruct (P3 k' Hk') as (P6 & P7). rewrite O3.
          assert (MG : mget (done ++ [(k, x)]) (Z.of_nat k' + 1) = if k =? Z.of_nat k' + 1 then Some x else mget done (Z.of_nat k' + 1)).
          { clear -Nd. destruct (Z.eqb_spec k (Z.of_nat k' + 1)) as [<-|n]; induction done as [|(k1, y) done IH]; cbn [app mget]; auto.
            - rewrite Z.eqb_refl; auto.
            - cbn [mget] in Nd. destruct (k1 =? k); [discriminate|auto].
            - destruct (Z.eqb_spec k (Z.of_nat k' + 1)); [contradiction|auto].
            - cbn [mget] in Nd. destruct (k1 =? k); [discriminate|]. destruct (k1 =? _); auto. }
          rewrite MG, (Z.eqb_sym k). destruct (Z.eqb_spec (Z.of_nat k' + 1) k) as [e0|n0].
          + rewrite e0 in *. assert (k' = Z.to_nat (k - 1)) by lia. subst k'. split; [rewrite P4, app_length; cbn [length]; lia|]. rewrite O1 by (cbn [length]; lia). rewrite Nat.sub_diag. exact Hr'.
          + split; [rewrite P6; lia|]. rewrite O2 by (cbn [length]; lia). exact P7. }
      eapply oc_impl; [apply (G l [] (b1, aux1)); [reflexivity|]|].
      + split; [exact I1|]. split; [exact I2|]. intros k Hk. cbn [mget fst snd]. rewrite app_nil_r. apply I3, Hk.
      + intros s (P1 & P2 & P3). split; [exact P1|]. split; [exact P2|]. intros k Hk. destruct (P3 k Hk) as (P4 & P5).
        assert (E : colof 0 (firstn (Datatypes.S i) L) (Z.of_nat k + 1) = colof 0 (firstn i L) (Z.of_nat k + 1) ++ match mget l (Z.of_nat k + 1) with Some x => [(Z.of_nat i + 1, x)] | None => [] end).
        { rewrite (firstn_S ([] : smap)) by lia. rewrite colof_app. f_equal. rewrite firstn_length_le by lia. cbn [colof Nat.add]. fold l. destruct (mget l _); reflexivity. }
        unfold len at 1. rewrite E. auto.
    - intros s Hs. cbn [Nat.add] in Hs. rewrite B in Hs. exact Hs. }
  destruct Q as ((b', aux') & Q & I1 & I2 & I3). cbv zeta. rewrite Q, bind_Ok. eexists; split; [reflexivity|]. cbn [fst snd] in *. apply rep_sm; [exact I1|].
  intros k Hk. destruct (I3 k Hk) as (_ & P). exists (colof 0 L (Z.of_nat k + 1)). split.
  - apply prow_done. unfold len in P. rewrite firstn_all2 in P by lia. exact P.
  - apply (lrow_colof c nr nc e L k EL); auto. intros i Hi. apply HL, Hi.
Qed.
(** ** scalar matrices *)
Lemma sm_scalar_ok n a : exists m, sm_scalar n a = Ok m /\ rep (a <> 0) m n n (fun i j => if (i =? j)%nat then a else 0).
Proof.
  unfold sm_scalar.
  destruct (oc_tot True _ _ (oc_mmap True 0%nat row0 (fun i => bind (rset0 row0 1) (fun r => wr 1 0 [(Z.of_nat i + 1, a)] r)) (seq 0 n) (fun i r => rrow (a <> 0) n (fun j => if (i =? j)%nat then a else 0) r) ltac:(
    intros i Hi; rewrite seq_length in Hi; rewrite seq_nth by auto; cbn [Nat.add oc bind rset0 put row0 pm vm length Nat.leb Nat.add firstn skipn app wr]; exists [(Z.of_nat i + 1, a)]; split; [exists [], []; split; reflexivity|];
    split; [apply msorted_cons; split; [constructor|intros k y []]|]; split; [intros k x [[= <- <-]|[]]; lia|]; split; [intros Ha; apply canon_cons; [exact Ha|apply canon_nil]|];
    intros j Hj; rewrite mval_cons, mval_nil; destruct (Nat.eqb_spec i j), (Z.eqb_spec (Z.of_nat i + 1) (Z.of_nat j + 1)); lia)) Logic.I) as (rs & -> & L & H).
  rewrite bind_Ok. eexists; split; [reflexivity|]. rewrite seq_length in *. apply rep_sm; auto.
Qed.
