(** The column update of clear_col on the lists of OrdModel: removals followed by put(L)
    never meet a left-over.  Also the iteration over a list. *)
From Coq Require Import ZArith Lia List Bool.
From Verif Require Import Base LinModel LinSpec LinProofs LinAlg SmatModel OrdModel OrdSpec OrdProofs.
Import ListNotations.
Open Scope Z_scope.
Open Scope res_scope.

Lemma orem_more l c x : holds l c -> In x c -> exists l', orem l x = Ok l' /\ opost l' (fun y => y <> x /\ In y c) /\ oidx l' = oidx l /\
  exists z, nth_error (oarr l') (onum l') = Some (Some z) /\ In z c.
Proof.
  intros H Hx. destruct (orem_ok 1 (le_n 1) l c x H Hx) as (l' & E0 & PO). exists l'. split; [exact E0|]. split; [exact PO|].
  pose proof (holds_cells _ _ H) as (Hc & Lc). pose proof H as (I & N & Ha). assert (P : (0 < length c)%nat) by (destruct c; [destruct Hx|cbn; lia]). unfold orem in E0.
  destruct (ofind_ok l c x 0 I P N Lc ltac:(lia) Hc ltac:(lia)) as (i & E & R1 & R2 & R3). change (Z.of_nat 0) with 0 in E. rewrite E, bind_Ok in E0. pose proof (proj1 (found_iff c x i I ltac:(lia) R2 R3) Hx) as (Li & Ex).
  rewrite (oget_cell l c 0 (length c)) in E0 by (auto; lia). rewrite bind_Ok, !Nat2Z.id, Ex, Z.eqb_refl in E0. rewrite N in E0. destruct (Z.leb_spec (Z.of_nat (length c)) (Z.of_nat i)); [lia|].
  destruct (seg_ok None (oarr l) (i + 1) (length c - 1 - i)) as (s & Es & Ls & Hs); [unfold ocap in Lc; lia|]. rewrite Es, bind_Ok in E0. destruct (put_ok None (oarr l) i s) as (a & Ea & La & O1 & O2); [unfold ocap in Lc; lia|]. rewrite Ea, bind_Ok in E0.
  injection E0 as <-. cbn [oarr onum oidx]. split; [reflexivity|]. exists (nth (length c - 1) c 0). split; [|apply nth_In; lia].
  apply cell_nth. rewrite O2 by lia. apply cell_nth, Hc. lia.
Qed.
Lemma orems_more l c L : holds l c -> incr L -> (forall x, In x L -> In x c) -> exists l', orems l L = Ok l' /\ opost l' (fun y => ~ In y L /\ In y c) /\
  (L = [] /\ l' = l \/ oidx l' = 0%nat /\ exists z, nth_error (oarr l') (onum l') = Some (Some z) /\ In z c).
Proof.
  intros H IL Hin. destruct (orems_ok 1 (le_n 1) l c L H IL Hin) as (l' & E0 & PO). exists l'. split; [exact E0|]. split; [exact PO|].
  pose proof (holds_cells _ _ H) as (Hc & Lc). pose proof H as (I & N & Ha). unfold orems in E0. destruct L as [|x L]; [left; split; auto; congruence|]. right.
  pose proof (Hin x (or_introl eq_refl)) as Hx. assert (P : (0 < length c)%nat) by (destruct c; [destruct Hx|cbn; lia]). destruct IL as (IL1 & IL2).
  destruct (ofind_ok l c x 0 I P N Lc ltac:(lia) Hc ltac:(lia)) as (i & E & R1 & R2 & R3). change (Z.of_nat 0) with 0 in E. rewrite E, bind_Ok in E0. pose proof (proj1 (found_iff c x i I ltac:(lia) R2 R3) Hx) as (Li & Ex).
  rewrite (oget_cell l c 0 (length c)) in E0 by (auto; lia). rewrite bind_Ok, !Nat2Z.id, Ex, Z.eqb_refl in E0. rewrite N in E0. replace (i + 1)%nat with (S i) in E0 by lia.
  assert (Lf : length (firstn i c) = i) by (rewrite firstn_length; lia).
  destruct (orems_loop_ok 1 (le_n 1) c I L [x] (oarr l) i i (firstn i c)) as (a' & ind' & ar' & k' & Eq & Q1 & Q2 & Q3 & Q4 & Q5 & Q6 & Q7 & Q8 & Q9); auto; try lia.
  - intros; apply Hin; right; auto.
  - intros j Hj. rewrite nth_firstn' by lia. apply Hc. lia.
  - intros j Hj. apply Hc. lia.
  - change (firstn i c) with (sl c 0 i); apply sl_incr; auto; lia.
  - intros y. rewrite !in_firstn by lia. cbn [In]. split.
    + intros (j & Hj & <-). pose proof (incr_nth c I j i ltac:(lia)). split; [exists j; split; auto; lia|intros [|[]]; lia].
    + intros ((j & Hj & <-) & Hn). exists j. split; auto. destruct (Nat.eq_dec j i) as [->|]; [exfalso; apply Hn; auto|lia].
  - rewrite Ex. exact IL1.
  - intros y [<-|[]]. lia.
  - rewrite Eq, bind_Ok in E0. cbn [onum] in E0. destruct (omove_ok 1 (le_n 1) c (length c) ltac:(lia) (length c) a' (S ind') ar' k' ltac:(lia) ltac:(lia) ltac:(lia) Q3 ltac:(unfold ocap in Lc; lia) Q5 Q6) as (a2 & Em & La2 & D1 & D2). rewrite Em, bind_Ok in E0.
    injection E0 as <-. cbn [oarr onum oidx]. split; [reflexivity|]. exists (nth (ar' + (length c - S ind')) c 0). split; [apply D2; lia|apply nth_In; lia].
Qed.
Lemma oput_idx ls l x l' : oput ls l x = Ok l' -> oidx l' = oidx l.
Proof.
  unfold oput. set (l0 := if (onum l =? ocap l)%nat then ogrow ls l else l). assert (E0 : oidx l0 = oidx l) by (unfold l0; destruct (_ =? _)%nat; reflexivity). rewrite <- E0. clearbody l0. clear E0.
  destruct (_ =? 0)%nat; intros H.
  - destruct (put _ _ _); cbn [bind] in H; try discriminate. injection H as <-. reflexivity.
  - destruct (ofind _ _ _ _) as [ind| | |]; cbn [bind] in H; try discriminate. destruct (if ind =? _ then _ else _) as [b| | |]; cbn [bind] in H; try discriminate. destruct b; [|injection H as <-; reflexivity].
    destruct (seg _ _ _); cbn [bind] in H; try discriminate. destruct (put _ _ _); cbn [bind] in H; try discriminate. destruct (put _ _ _); cbn [bind] in H; try discriminate. injection H as <-. reflexivity.
Qed.
Lemma oputs_idx ls l L l' : oputs ls l L = Ok l' -> L = [] /\ l' = l \/ oidx l' = 0%nat.
Proof.
  unfold oputs. destruct L as [|x0 L0]; intros H; [left; split; congruence|]. right. set (L := x0 :: L0) in *. cbn [onum] in H. destruct (_ =? 0)%nat.
  - assert (G : forall L l l', mfold (oput ls) L l = Ok l' -> oidx l' = oidx l).
    { clear. induction L as [|x L IH]; intros l l' H; cbn [mfold] in H; [congruence|]. destruct (oput ls l x) as [l1| | |] eqn:E1; cbn [bind] in H; try discriminate. apply IH in H. apply oput_idx in E1. congruence. }
    destruct (mfold _ _ _) as [l1| | |] eqn:E1; cbn [bind] in H; try discriminate. apply G in E1. injection H as <-. cbn [oidx] in *. exact E1.
  - destruct (mfold _ _ _) as [[[l1 out] ind]| | |]; cbn [bind] in H; try discriminate. destruct (ocopy _ _ _ _) as [[l2 out2]| | |]; cbn [bind] in H; try discriminate. destruct (put _ _ _); cbn [bind] in H; try discriminate. injection H as <-. reflexivity.
Qed.
(** the update of one column *)
Lemma col_update ls l c row out ins : (1 <= ls)%nat -> holds l c -> In row c -> incr out -> (forall x, In x out -> In x c /\ x <> row) -> incr ins -> (forall x, In x ins -> ~ In x c) ->
  exists l3, bind (orem l row) (fun l => bind (orems l out) (fun l => oputs ls l ins)) = Ok l3 /\
    opost l3 (fun y => In y ins \/ (In y c /\ y <> row /\ ~ In y out)) /\ (oidx l = 0%nat -> oidx l3 = 0%nat).
Proof.
  intros Hl H Hr Io Ho Ii Hi. destruct (orem_more l c row H Hr) as (l1 & -> & (c1 & H1 & M1) & X1 & z1 & Z1 & Y1). rewrite bind_Ok.
  destruct (orems_more l1 c1 out H1 Io) as (l2 & -> & (c2 & H2 & M2) & X2). { intros x Hx. apply M1. destruct (Ho x Hx). auto. } rewrite bind_Ok.
  destruct (oputs_ok ls Hl l2 c2 ins H2 Ii) as (l3 & E3 & (c3 & H3 & M3)).
  { right. intros x Hx. right. destruct X2 as [(-> & ->)|(_ & z & Z2 & Y2)].
    - exists z1. split; auto. intros ->. apply (Hi x Hx). auto.
    - exists z. split; auto. intros ->. apply (Hi x Hx). apply M1. auto. }
  exists l3. split; [exact E3|]. split.
  - exists c3. split; auto. intros y. rewrite M3, M2, M1. tauto.
  - intros Z0. destruct (oputs_idx _ _ _ _ E3) as [(_ & ->)|Z3]; auto. destruct X2 as [(_ & ->)|(Z2 & _)]; congruence.
Qed.
Lemma incr_eq a : forall b, incr a -> incr b -> (forall y, In y a <-> In y b) -> a = b.
Proof.
  induction a as [|u a IH]; intros [|v b] J1 J2 Q; auto.
  - destruct (proj2 (Q v)). left; auto.
  - destruct (proj1 (Q u)). left; auto.
  - destruct J1 as (A1 & A2), J2 as (B1 & B2). assert (E : u = v) by (destruct (proj1 (Q u) (or_introl eq_refl)) as [|Hu]; auto; destruct (proj2 (Q v) (or_introl eq_refl)) as [|Hv]; auto; apply A1 in Hv; apply B1 in Hu; lia). subst v.
    f_equal. apply IH; auto. intros y. specialize (Q y). cbn [In] in Q. split; intros Hy.
    + destruct (proj1 Q (or_intror Hy)) as [<-|]; auto. apply A1 in Hy. lia.
    + destruct (proj2 Q (or_intror Hy)) as [<-|]; auto. apply B1 in Hy. lia.
Qed.
(** next *)
Lemma onext_at l c i : holds l c -> (i < length c)%nat -> oidx l = i -> onext l = Ok (nth i c 0, Ol (oarr l) (onum l) (i + 1)).
Proof.
  intros H Li <-. pose proof (holds_cells _ _ H) as (Hc & _). destruct H as (_ & N & _). destruct l as [a n ix]; cbn [oidx oarr onum] in *. subst n.
  apply (onext_ok 1 (le_n 1) a (length c) ix c (length c)); auto. intros j Hj. apply Hc. lia.
Qed.
Lemma holds_idx l c i : holds l c -> holds (Ol (oarr l) (onum l) i) c.
Proof. intros H. exact H. Qed.
