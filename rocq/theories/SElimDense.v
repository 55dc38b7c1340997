(** The dense end of the elimination of SElimModel. *)
From Coq Require Import ZArith Znumtheory Lia List Bool.
From Verif Require Import Base ArithModel RatModel MArithModel LinModel LinSpec LinProofs LinElim LinKer LinAlg SvecModel SmatModel OrdModel OrdSpec OrdProofs OrdMore SElimModel SElimRow SElimInv SElimPivot SElimSteps SElimStep0 SElimStd.
Import ListNotations.
Open Scope Z_scope.
Open Scope res_scope.

(** the contract of the dense elimination: reduced echelon form modulo p, zero rows dropped *)
Definition dense_rref (p : Z) (V : Z -> Prop) (rref : mat -> mat * list nat) : Prop := forall d, wfm d -> Forall V (ents d) ->
  let R := fst (rref d) in let pc := snd (rref d) in
  msize R (length pc) (nco d) /\ (length pc <= nro d)%nat /\ (forall j, In j pc -> (j < nco d)%nat) /\ NoDup pc /\ eqspan p (nco d) (nro d) (me d) (length pc) (me R) /\
  (forall i k, (i < length pc)%nat -> (k < length pc)%nat -> cong p (me R i (nth k pc 0%nat)) (if (i =? k)%nat then 1 else 0)) /\
  (forall i j, (i < length pc)%nat -> (j < nco d)%nat -> V (me R i j) /\ (cong p (me R i j) 0 -> me R i j = 0)).

Lemma flat_incr {A} (t : nat -> A -> bool) (o : Z) l : forall s n, let L := flat_map (fun '(i, a) => if t i a then [Z.of_nat i + o] else []) (combine (seq s n) l) in incr L /\ forall y, In y L -> Z.of_nat s + o <= y.
Proof.
  induction l as [|a l IH]; intros s [|n]; cbn [seq combine flat_map]; try (split; [exact Logic.I|intros y []]). destruct (IH (S s) n) as (H1 & H2). destruct (t s a); cbn [app]; split; auto.
  - split; auto. intros y H. apply H2 in H. lia.
  - intros y [<-|H]; [lia|]. apply H2 in H. lia.
  - intros y H. apply H2 in H. lia.
Qed.
Lemma flat_map_ext' {A B} (f g : A -> list B) l : (forall x, f x = g x) -> flat_map f l = flat_map g l.
Proof. intros H. induction l; cbn; auto. rewrite H, IHl. auto. Qed.
Lemma cols_incr f st : incr (cols_with f st).
Proof. unfold cols_with. destruct (flat_incr (fun _ l => f (Z.of_nat (onum l))) 1 (ecols st) 0 (enco st)) as (H & _). exact H. Qed.
Lemma rows_incr st : incr (active_rows st).
Proof.
  unfold active_rows. destruct (flat_incr (fun _ x => (0 <? length (fst x : smap))%nat && (snd x =? -1)) 0 (combine (erows st) (epos st)) 0 (enro st)) as (H & _).
  erewrite flat_map_ext'; [exact H|]. intros (i & (l & q)). cbn [fst snd]. rewrite Z.add_0_r. reflexivity.
Qed.
Lemma incr_nth_inj l i j : incr l -> (i < length l)%nat -> (j < length l)%nat -> nth i l 0 = nth j l 0 -> i = j.
Proof. intros I Hi Hj H. apply (NoDup_nth l 0); auto. apply incr_nodup, I. Qed.

Lemma skip_cols_ok rc k : incr rc -> forall n j jk, (jk < length rc)%nat -> nth jk rc 0 = k -> (j <= jk)%nat -> (jk - j < n)%nat -> skip_cols n rc (Z.of_nat j) k = Ok (Z.of_nat jk).
Proof.
  intros I. induction n as [|n IH]; intros j jk L E H Hn; [lia|]. cbn [skip_cols]. rewrite (zget_nat 0) by lia. rewrite bind_Ok. destruct (Nat.eq_dec j jk) as [->|N]; [rewrite E, Z.ltb_irrefl; auto|].
  assert (nth j rc 0 < k) by (rewrite <- E; apply incr_nth; [auto|lia]). destruct (Z.ltb_spec (nth j rc 0) k); [|lia]. replace (Z.of_nat j + 1) with (Z.of_nat (S j)) by lia. apply IH; auto; lia.
Qed.
Lemma put_ents rc i l : incr rc -> incr (keys l) -> forall m j, wfm m -> (i < nro m)%nat -> nco m = length rc -> (forall k, In k (keys l) -> exists t, (j <= t < length rc)%nat /\ nth t rc 0 = k) ->
  exists m' j', mfold (fun '(m, j) '(k, x) => j <- skip_cols (length rc + 1) rc j k ;; m <- mat_set m i (Z.to_nat j) x ;; Ok (m, j)) l (m, Z.of_nat j) = Ok (m', j') /\ nro m' = nro m /\ nco m' = nco m /\ wfm m' /\
    (forall a t, (a < nro m)%nat -> (t < nco m)%nat -> a <> i -> me m' a t = me m a t) /\
    (forall t, (t < nco m)%nat -> (In (nth t rc 0) (keys l) -> me m' i t = lookup l (nth t rc 0)) /\ (~ In (nth t rc 0) (keys l) -> me m' i t = me m i t)).
Proof.
  intros Ir. induction l as [|(k, x) l IH]; intros Il m j W Hi Hn Hk; cbn [mfold].
  - exists m, (Z.of_nat j). split; auto. split; auto. split; auto. split; auto. split; auto. intros t _. split; [intros []|auto].
  - destruct (Hk k (or_introl eq_refl)) as (tk & Ht & Ek). rewrite (skip_cols_ok rc k Ir _ j tk) by (auto; lia). rewrite bind_Ok, Nat2Z.id. destruct (mat_set_ok m i tk x W Hi ltac:(lia)) as (m1 & -> & N1 & C1 & W1 & S1 & O1). cbn [bind].
    pose proof Il as (I1 & I2). fold (keys l) in I1, I2. cbn [fst] in I1.
    destruct (IH I2 m1 tk W1 ltac:(lia) ltac:(lia)) as (m' & j' & -> & N' & C' & W' & H1 & H2).
    + intros k' Hk'. destruct (Hk k' (or_intror Hk')) as (t' & Ht' & Et'). exists t'. split; auto. split; [|lia]. apply I1 in Hk'. destruct (Nat.le_gt_cases tk t'); auto. assert (nth t' rc 0 < nth tk rc 0) by (apply incr_nth; [auto|lia]). lia.
    + exists m', j'. split; auto. split; [lia|]. split; [lia|]. split; auto. split.
      * intros a t Ha Hlt Na. rewrite H1 by (auto; lia). apply O1; auto.
      * intros t Hlt. destruct (H2 t ltac:(lia)) as (Ha & Hb). rewrite lookup_cons by exact Il. cbn [keys map In fst]. fold (keys l). destruct (Z.eqb_spec k (nth t rc 0)) as [e|e].
        -- assert (t = tk) by (apply (incr_nth_inj rc); auto; try lia; congruence). subst t. split; [intros _|tauto]. rewrite Hb; [exact S1|]. intros H. apply I1 in H. lia.
        -- assert (t <> tk) by (intros ->; congruence). split; [intros [H'|H']; [congruence|auto]|]. intros H'. rewrite Hb by tauto. apply O1; auto.
Qed.
Lemma lookup_nonzeros rc v : incr rc -> length v = length rc -> incr (keys (nonzeros (combine rc v))) /\ (forall k x, In (k, x) (nonzeros (combine rc v)) <-> x <> 0 /\ exists t, (t < length rc)%nat /\ nth t rc 0 = k /\ nth t v 0 = x).
Proof.
  revert v. induction rc as [|a rc IH]; intros [|b v] I L; try discriminate.
  - split; [exact Logic.I|]. intros k x. cbn. split; [tauto|]. intros (_ & t & H & _). lia.
  - destruct I as (I1 & I2). destruct (IH v I2 ltac:(cbn in L; lia)) as (H1 & H2). cbn [combine]. unfold nonzeros in *. cbn [filter].
    assert (G : forall k x, (x <> 0 /\ exists t, (t < length (a :: rc))%nat /\ nth t (a :: rc) 0 = k /\ nth t (b :: v) 0 = x) <-> (x <> 0 /\ k = a /\ x = b) \/ In (k, x) (filter (fun '(_, x) => negb (x =? 0)) (combine rc v))).
    { intros k x. rewrite H2. split.
      - intros (Nx & [|t] & Lt & <- & <-); cbn [nth]; [auto|]. right. split; [exact Nx|]. exists t. cbn in Lt. split; [lia|auto].
      - intros [(Nx & -> & ->)|(Nx & t & Lt & <- & <-)]; (split; [exact Nx|]); [exists 0%nat|exists (S t)]; cbn; split; auto; lia. }
    destruct (Z.eqb_spec b 0) as [->|Nb]; cbn [negb].
    + split; auto. intros k x. rewrite G. split; [auto|]. intros [(Nx & _ & ->)|H]; [congruence|auto].
    + split.
      * split; auto. intros y Hy. cbn [fst]. fold (keys (filter (fun '(_, x) => negb (x =? 0)) (combine rc v))) in Hy. apply in_keys in Hy. destruct Hy as (x & Hy). apply H2 in Hy. destruct Hy as (_ & t & Lt & <- & _). apply I1. apply nth_In. auto.
      * intros k x. rewrite G. cbn [In]. split; [intros [H|H]; [injection H as <- <-; auto|auto]|]. intros [(Nx & -> & ->)|H]; auto.
Qed.

Section Dense.
Variables (E : esc) (p : Z) (V : Z -> Prop) (nr nc : nat) (A0 : nat -> nat -> Z).
Hypothesis M : emod E p V.
Let P : prime p := em_prime _ _ _ M.
Notation wf := (wfrow p V nc).
Notation invx := (inv p V nr nc A0).
Notation inv := (invx nc).
Notation core := (core p V nr nc A0).
Lemma V0 : V 0.
Proof.
  destruct (em_neg _ _ _ M 1 (em_1 _ _ _ M)) as (_ & V1). assert (N1 : forall x, x = 1 \/ x = -1 -> ~ cong p x 0).
  { intros x Hx H. unfold cong in H. rewrite Z.sub_0_r in H. assert (D : (p | 1)) by (destruct Hx as [->| ->]; [auto|apply Z.divide_opp_r in H; exact H]). apply Z.divide_1_r in D. destruct P. lia. }
  destruct (em_add _ _ _ M 1 (-1) (em_1 _ _ _ M) V1 (N1 1 ltac:(auto)) (N1 (-1) ltac:(auto))) as (r & _ & Vr & Cr & Zr). rewrite <- (Zr Cr). exact Vr.
Qed.
Lemma arows pv st k : core pv st -> (In k (active_rows st) <-> exists i, k = Z.of_nat i /\ (i < nr)%nat /\ act st i /\ rw st i <> []).
Proof.
  intros K. pose proof (k_nr _ _ _ _ _ _ _ K) as H1. pose proof (k_np _ _ _ _ _ _ _ K) as H2. unfold active_rows, enro. rewrite (in_flat_seq _ (nil, 0)) by (rewrite combine_length; lia). rewrite H1.
  assert (G : forall i, nth i (combine (erows st) (epos st)) ([], 0) = (rw st i, po st i)) by (intros i; rewrite combine_nth by exact (eq_trans H1 (eq_sym H2)); reflexivity).
  split.
  - intros (i & Li & H). rewrite G in H. cbn [Nat.add] in H. destruct (rw st i) as [|y l] eqn:Er; [destruct H|]. cbn [length Nat.ltb Nat.leb andb] in H. destruct (Z.eqb_spec (po st i) (-1)) as [A|A]; [|destruct H]. destruct H as [<-|[]]. exists i. split; auto. split; auto. split; auto. congruence.
  - intros (i & -> & Li & A & N). exists i. split; auto. rewrite G. cbn [Nat.add]. destruct (rw st i) as [|y l]; [congruence|]. cbn [length Nat.ltb Nat.leb andb]. rewrite A. left. reflexivity.
Qed.
Lemma acols pv st k : inv pv st -> (In k (active_cols st) <-> exists c, k = ck c /\ (c < nc)%nat /\ exists i, (i < nr)%nat /\ act st i /\ has st i c).
Proof.
  intros I. unfold active_cols. rewrite (cols_with_in nc) by apply I. split; intros (c & -> & Lc & H); exists c; split; auto; split; auto.
  - destruct (proj1 (opost_pos _ _ (i_col _ _ _ _ _ _ _ _ I c Lc)) ltac:(lia)) as (y & i & _ & H'). eauto.
  - destruct H as (i & H). assert (0 < onum (cl st c))%nat; [|lia]. apply (opost_pos _ _ (i_col _ _ _ _ _ _ _ _ I c Lc)). exists (Z.of_nat i), i. tauto.
Qed.
Definition rn (l : list Z) (i : nat) : nat := Z.to_nat (nth i l 0).
Definition cn (l : list Z) (j : nat) : nat := Z.to_nat (nth j l 0 - 1).
Section One.
Variables (pv : list (nat * nat)) (st : est).
Hypothesis I : inv pv st.
Let K : core pv st := i_core _ _ _ _ _ _ _ _ I.
Let rr := active_rows st.
Let rc := active_cols st.
Lemma rn_ok i : (i < length rr)%nat -> nth i rr 0 = Z.of_nat (rn rr i) /\ (rn rr i < nr)%nat /\ act st (rn rr i) /\ rw st (rn rr i) <> [].
Proof. intros H. apply (nth_In rr 0) in H. unfold rn. apply (arows pv st _ K) in H. destruct H as (a & -> & H). rewrite Nat2Z.id. auto. Qed.
Lemma cn_ok j : (j < length rc)%nat -> nth j rc 0 = ck (cn rc j) /\ (cn rc j < nc)%nat /\ ~ In (cn rc j) (map snd pv).
Proof. intros H. apply (nth_In rc 0) in H. unfold cn. apply (acols pv st _ I) in H. destruct H as (a & -> & La & i & Li & A & H). rewrite ck_nat. split; auto. split; auto. apply (act_free _ _ _ _ _ _ _ _ _ K Li A H). Qed.
Lemma rn_inj i j : (i < length rr)%nat -> (j < length rr)%nat -> rn rr i = rn rr j -> i = j.
Proof. intros Hi Hj H. apply (incr_nth_inj rr); auto; [apply rows_incr|]. rewrite (proj1 (rn_ok i Hi)), (proj1 (rn_ok j Hj)). congruence. Qed.
Lemma cn_inj i j : (i < length rc)%nat -> (j < length rc)%nat -> cn rc i = cn rc j -> i = j.
Proof. intros Hi Hj H. apply (incr_nth_inj rc); auto; [apply cols_incr|]. rewrite (proj1 (cn_ok i Hi)), (proj1 (cn_ok j Hj)). congruence. Qed.
Lemma rn_in i : (i < nr)%nat -> act st i -> rw st i <> [] -> exists t, (t < length rr)%nat /\ rn rr t = i.
Proof. intros Li A N. assert (H : In (Z.of_nat i) rr) by (apply (arows pv st _ K); eauto). apply (In_nth _ _ 0) in H. destruct H as (t & Lt & Et). exists t. split; auto. unfold rn. rewrite Et. lia. Qed.
Lemma cn_in i c : (i < nr)%nat -> act st i -> has st i c -> exists t, (t < length rc)%nat /\ cn rc t = c.
Proof. intros Li A H. assert (G : In (ck c) rc). { apply (acols pv st _ I). destruct (has_range p V nr nc A0 pv st i (ck c) K H) as (d & e & Ld & _). apply ck_inj in e. subst d. exists c. split; [auto|]. split; [auto|]. exists i. auto. } apply (In_nth _ _ 0) in G. destruct G as (t & Lt & Et). exists t. split; auto. unfold cn. rewrite Et. apply ck_nat. Qed.
Lemma dense_part_ok : exists d, dense_part st rr rc = Ok d /\ nro d = length rr /\ nco d = length rc /\ wfm d /\ forall i t, (i < length rr)%nat -> (t < length rc)%nat -> me d i t = se st (rn rr i) (cn rc t).
Proof.
  pose (dinv := fun (k : nat) (d : mat) => nro d = length rr /\ nco d = length rc /\ wfm d /\ forall i t, (i < length rr)%nat -> (t < length rc)%nat -> me d i t = if (i <? k)%nat then se st (rn rr i) (cn rc t) else 0).
  unfold dense_part. rewrite (mfold_combine 0). match goal with |- exists d, ?x = _ /\ _ => assert (exists d, x = Ok d /\ dinv (0 + length rr)%nat d) as (d & Ed & N & C & W & H); [apply mfold_seq|] end.
  - destruct (mat_new_ok (length rr) (length rc)) as (W0 & Z0). split; auto. 
  - intros k m Hk (N & C & W & H). rewrite Nat.sub_0_r. destruct (rn_ok k ltac:(lia)) as (Er & Lr & Ar & _). rewrite Er. rewrite (zget_nat (nil : smap)) by (rewrite (k_nr _ _ _ _ _ _ _ K); auto). fold (rw st (rn rr k)). rewrite bind_Ok.
    destruct (put_ents rc k (rw st (rn rr k)) (cols_incr _ _) (proj1 (k_row _ _ _ _ _ _ _ K _)) m 0 W ltac:(lia) C) as (m' & j' & Em & N' & C' & W' & H1 & H2).
    { intros y Hy. destruct (has_range p V nr nc A0 pv st _ y K Hy) as (c & -> & Lc & Hc). destruct (cn_in _ c Lr Ar Hc) as (t & Lt & Et). exists t. split; [lia|]. rewrite (proj1 (cn_ok t Lt)), Et. reflexivity. }
    cbn [Z.of_nat] in Em. match goal with |- exists a', bind ?X0 _ = _ /\ _ => change X0 with (mfold (fun '(m, j) '(k0, x) => j <- skip_cols (length rc + 1) rc j k0 ;; m <- mat_set m k (Z.to_nat j) x ;; Ok (m, j)) (rw st (rn rr k)) (m, 0)) end. rewrite Em, bind_Ok. exists m'. split; [reflexivity|]. split; [lia|]. split; [lia|]. split; auto. intros i t Hi Ht. destruct (Nat.eq_dec i k) as [->|Ni].
    + destruct (Nat.ltb_spec k (k + 1)) as [_|]; [|lia]. destruct (H2 t ltac:(lia)) as (Ha & Hb). unfold se. rewrite <- (proj1 (cn_ok t Ht)). destruct (in_dec Z.eq_dec (nth t rc 0) (keys (rw st (rn rr k)))) as [G|G]; [auto|]. rewrite Hb by auto. rewrite H by auto. destruct (Nat.ltb_spec k k); [lia|]. symmetry. apply lookup_notin; [apply K|exact G].
    + rewrite H1 by (auto; lia). rewrite H by auto. destruct (Nat.ltb_spec i k), (Nat.ltb_spec i (k + 1)); auto; lia.
  - exists d. split; auto. split; auto. split; auto. split; auto. intros i t Hi Ht. rewrite H by auto. destruct (Nat.ltb_spec i (0 + length rr)); [auto|lia].
Qed.
(** the rows are put back *)
Variables (R : mat) (pc : list nat).
Hypothesis HR : msize R (length pc) (length rc) /\ (length pc <= length rr)%nat /\ (forall j, In j pc -> (j < length rc)%nat) /\ NoDup pc /\
  eqspan p (length rc) (length rr) (fun i t => se st (rn rr i) (cn rc t)) (length pc) (me R) /\
  (forall i k, (i < length pc)%nat -> (k < length pc)%nat -> cong p (me R i (nth k pc 0%nat)) (if (i =? k)%nat then 1 else 0)) /\
  (forall i j, (i < length pc)%nat -> (j < length rc)%nat -> V (me R i j) /\ (cong p (me R i j) 0 -> me R i j = 0)).
Definition newrow (i : nat) (l : smap) : Prop := wf l /\ (forall t, (t < length rc)%nat -> lookup l (nth t rc 0) = if (i <? length pc)%nat then me R i t else 0) /\ (forall k, In k (keys l) -> In k rc) /\ ((length pc <= i)%nat -> l = []).
Lemma newrow_ok i : exists l, (if (i <? nro R)%nat then v <- mat_row R i ;; Ok (nonzeros (combine rc v)) else Ok []) = Ok l /\ newrow i l.
Proof.
  destruct HR as ((N & C & W) & L1 & L2 & L3 & S & H1 & H2). rewrite N. destruct (Nat.ltb_spec i (length pc)) as [Hi|Hi].
  - unfold mat_row. destruct (seg_ok 0 (ents R) (i * nco R) (nco R)) as (v & -> & Lv & Hv). { unfold wfm in W. rewrite W, N, C. nia. }
    rewrite bind_Ok. eexists. split; [reflexivity|]. destruct (lookup_nonzeros rc v (cols_incr _ _) ltac:(lia)) as (G1 & G2). set (l := nonzeros (combine rc v)) in *.
    assert (Hm : forall t, (t < length rc)%nat -> nth t v 0 = me R i t) by (intros t Ht; rewrite Hv by lia; reflexivity).
    split; [|split; [|split]].
    + split; auto. intros k x Hx. apply G2 in Hx. destruct Hx as (Nx & t & Lt & <- & <-). destruct (cn_ok t Lt) as (-> & Lc & _). split; [unfold ck; lia|]. rewrite Hm in * by auto. destruct (H2 i t Hi Lt) as (Hv1 & Hv2). split; auto.
    + intros t Ht. destruct (Nat.ltb_spec i (length pc)); [|lia]. destruct (Z.eq_dec (me R i t) 0) as [Z0|Z0].
      * rewrite Z0. apply lookup_notin; auto. intros Hk. apply in_keys in Hk. destruct Hk as (x & Hx). apply G2 in Hx. destruct Hx as (Nx & t' & Lt' & E1 & E2). apply (incr_nth_inj rc) in E1; auto; [|apply cols_incr]. subst t'. rewrite Hm in E2 by auto. congruence.
      * apply lookup_in; auto. apply G2. split; auto. exists t. rewrite Hm; auto.
    + intros k Hk. apply in_keys in Hk. destruct Hk as (x & Hx). apply G2 in Hx. destruct Hx as (_ & t & Lt & <- & _). apply nth_In. auto.
    + lia.
  - exists []. split; auto. split; [apply wfrow_nil|]. split; [|split; [intros k []|auto]]. intros t _. destruct (Nat.ltb_spec i (length pc)); [lia|auto].
Qed.
Lemma put_back_ok : exists st1, put_back st rr rc R = Ok st1 /\ (exists rs, st1 = set_rows st rs /\ length rs = nr) /\ (forall i, (i < length rr)%nat -> newrow i (rw st1 (rn rr i))) /\ (forall a, ~ (exists i, (i < length rr)%nat /\ rn rr i = a) -> rw st1 a = rw st a).
Proof.
  pose (pinv := fun (k : nat) (st1 : est) => (exists rs, st1 = set_rows st rs /\ length rs = nr) /\ (forall i, (i < k)%nat -> newrow i (rw st1 (rn rr i))) /\ (forall a, ~ (exists i, (i < k)%nat /\ rn rr i = a) -> rw st1 a = rw st a)).
  unfold put_back. rewrite (mfold_combine 0). match goal with |- exists d, ?x = _ /\ _ => assert (exists st1, x = Ok st1 /\ pinv (0 + length rr)%nat st1) as (st1 & Ed & H); [apply mfold_seq|exists st1; split; auto] end.
  - split; [exists (erows st); split; [symmetry; apply set_rows_self|apply K]|]. split; [lia|auto].
  - intros k s Hk ((rs & -> & Lrs) & H1 & H2). rewrite Nat.sub_0_r. destruct (newrow_ok k) as (l & El & Hl). cbn [Nat.sub]. rewrite El, bind_Ok. destruct (rn_ok k ltac:(lia)) as (Er & Lr & Ar & _). rewrite Er. cbn [erows set_rows]. rewrite zset_nat by lia. rewrite bind_Ok. eexists. split; [reflexivity|].
    set (s' := set_rows _ _). assert (Rr : rw s' (rn rr k) = l) by (unfold rw, s'; cbn; apply upd_same; lia). assert (Ro : forall a, a <> rn rr k -> rw s' a = rw (set_rows st rs) a) by (intros a Ha; unfold rw, s'; cbn; apply upd_other; auto).
    split; [exists (upd rs (rn rr k) l); split; [reflexivity|rewrite upd_len; auto]|]. split.
    + intros i Hi. destruct (Nat.eq_dec i k) as [->|Ni]; [rewrite Rr; exact Hl|]. rewrite Ro; [apply H1; lia|]. intros e. apply Ni, rn_inj; auto; lia.
    + intros a Ha. rewrite Ro; [apply H2; intros (i & Hi & e); apply Ha; exists i; split; [lia|auto]|]. intros ->. apply Ha. exists k. split; [lia|auto].
Qed.
Lemma se_out a j : (a < length rr)%nat -> ~ (exists t, (t < length rc)%nat /\ cn rc t = j) -> cong p (se st (rn rr a) j) 0.
Proof. intros Ha Hj. destruct (rn_ok a Ha) as (_ & Lr & Ar & _). apply (hasnt_se _ _ _ _ _ _ _ _ _ K). intros H. apply Hj. apply (cn_in _ j Lr Ar H). Qed.
Lemma new_se st1 i t : newrow i (rw st1 (rn rr i)) -> (t < length rc)%nat -> se st1 (rn rr i) (cn rc t) = if (i <? length pc)%nat then me R i t else 0.
Proof. intros (_ & H & _) Ht. unfold se. rewrite <- (proj1 (cn_ok t Ht)). apply H, Ht. Qed.
Lemma new_out st1 i j : newrow i (rw st1 (rn rr i)) -> ~ (exists t, (t < length rc)%nat /\ cn rc t = j) -> se st1 (rn rr i) j = 0.
Proof.
  intros (W & _ & H & _) Hj. unfold se. apply lookup_notin; [apply W|]. intros Hk. apply H, (In_nth _ _ 0) in Hk. destruct Hk as (t & Lt & Et). apply Hj. exists t. split; auto. unfold cn. rewrite Et. apply ck_nat.
Qed.
Lemma col_dec j : (exists t, (t < length rc)%nat /\ cn rc t = j) \/ ~ (exists t, (t < length rc)%nat /\ cn rc t = j).
Proof.
  generalize (length rc). induction n as [|n [(t & Ht & e)|IH]]; [right; intros (t & H & _); lia|left; exists t; split; [lia|auto]|]. destruct (Nat.eq_dec (cn rc n) j) as [e|e]; [left; exists n; split; [lia|auto]|].
  right. intros (t & Ht & e'). destruct (Nat.eq_dec t n) as [->|]; [auto|]. apply IH. exists t. split; [lia|auto].
Qed.
Lemma row_dec a : (exists i, (i < length rr)%nat /\ rn rr i = a) \/ ~ (exists i, (i < length rr)%nat /\ rn rr i = a).
Proof.
  generalize (length rr). induction n as [|n [(t & Ht & e)|IH]]; [right; intros (t & H & _); lia|left; exists t; split; [lia|auto]|]. destruct (Nat.eq_dec (rn rr n) a) as [e|e]; [left; exists n; split; [lia|auto]|].
  right. intros (t & Ht & e'). destruct (Nat.eq_dec t n) as [->|]; [auto|]. apply IH. exists t. split; [lia|auto].
Qed.
Lemma dense_span st1 : (forall i, (i < length rr)%nat -> newrow i (rw st1 (rn rr i))) -> (forall a, ~ (exists i, (i < length rr)%nat /\ rn rr i = a) -> rw st1 a = rw st a) -> eqspan p nc nr (se st) nr (se st1).
Proof.
  intros H1 H2. destruct HR as (_ & L1 & _ & _ & S & _). 
  assert (Z0 : forall n (f : nat -> Z), (forall i, (i < n)%nat -> cong p (f i) 0) -> cong p (sumn n f) 0). { induction n; intros f Hf; cbn [sumn]; [apply cong_refl|]. replace 0 with (0 + 0) by ring. apply cong_add; [apply IHn; auto|apply Hf; lia]. }
  apply eqspan_rows; intros a La; (destruct (row_dec a) as [(i & Li & <-)|N]; [|first [apply (span_cong _ _ _ _ _ (se st a)); [intros j _; unfold se; rewrite H2 by auto; apply cong_refl|apply span_row; auto]|apply (span_cong _ _ _ _ _ (se st1 a)); [intros j _; unfold se; rewrite H2 by auto; apply cong_refl|apply span_row; auto]]]).
  - destruct (Nat.lt_ge_cases i (length pc)) as [Hi|Hi].
    + destruct (proj2 (S (me R i)) (span_row _ _ _ _ _ Hi)) as (c & Hc). apply (span_cong _ _ _ _ _ (fun j => sumn (length rr) (fun k => c k * se st (rn rr k) j))).
      * intros j _. destruct (col_dec j) as [(t & Ht & <-)|Nj].
        -- rewrite (new_se st1 i t) by auto. destruct (Nat.ltb_spec i (length pc)); [|lia]. apply Hc, Ht.
        -- rewrite (new_out st1 i j) by auto. apply cong_sym, Z0. intros k Hk. rewrite <- (Z.mul_0_r (c k)). apply cong_mul; [apply cong_refl|apply se_out; auto].
      * apply span_sum. intros k Hk. apply span_row. apply rn_ok, Hk.
    + apply (span_cong _ _ _ _ _ (fun _ => 0)); [|apply span_zero]. intros j _. apply cong_eq. unfold se. destruct (H1 i Li) as (_ & _ & _ & ->); auto.
  - destruct (proj1 (S (fun t => se st (rn rr i) (cn rc t))) (span_row p (length rc) (length rr) (fun i t => se st (rn rr i) (cn rc t)) i Li)) as (c & Hc). apply (span_cong _ _ _ _ _ (fun j => sumn (length pc) (fun k => c k * se st1 (rn rr k) j))).
    + intros j _. destruct (col_dec j) as [(t & Ht & <-)|Nj].
      * eapply cong_trans; [apply Hc, Ht|]. apply cong_eq. apply sumn_ext. intros k Hk. rewrite (new_se st1 k t) by (auto; apply H1; lia). destruct (Nat.ltb_spec k (length pc)); [auto|lia].
      * eapply cong_trans; [apply se_out; auto|]. apply cong_sym, Z0. intros k Hk. rewrite (new_out st1 k j) by (auto; apply H1; lia). rewrite Z.mul_0_r. apply cong_refl.
    + apply span_sum. intros k Hk. apply span_row. apply rn_ok. lia.
Qed.
Lemma dense_core st1 rs : st1 = set_rows st rs -> length rs = nr -> (forall i, (i < length rr)%nat -> newrow i (rw st1 (rn rr i))) -> (forall a, ~ (exists i, (i < length rr)%nat /\ rn rr i = a) -> rw st1 a = rw st a) -> core pv st1.
Proof.
  intros Es Ls H1 H2. pose proof (dense_span st1 H1 H2) as S. assert (Pe : forall a, po st1 a = po st a) by (intros a; rewrite Es; reflexivity). assert (Ce : forall c, ce st1 c = ce st c) by (intros c; rewrite Es; reflexivity).
  assert (NA : forall a, ~ act st a -> rw st1 a = rw st a). { intros a Ha. apply H2. intros (i & Hi & <-). apply Ha. apply rn_ok, Hi. }
  constructor.
  - rewrite Es. exact Ls.
  - rewrite Es. apply K.
  - rewrite Es. apply K.
  - intros a. destruct (row_dec a) as [(i & Li & <-)|N]; [apply (H1 i Li)|rewrite H2 by auto; apply K].
  - eapply eqspan_trans; [apply K|exact S].
  - rewrite Es. apply K.
  - apply K.
  - apply K.
  - intros r c H. destruct (k_pv _ _ _ _ _ _ _ K r c H) as (G1 & G2 & G3 & G4 & G5). rewrite Pe, Ce. repeat split; auto. unfold se. rewrite NA; [exact G5|]. unfold act, ck in *. lia.
  - intros i Li. unfold act. rewrite Pe. destruct (k_pos _ _ _ _ _ _ _ K i Li) as [A|[(Hp & Hr)|H]]; auto. right. left. split; auto. rewrite NA; auto. unfold act. lia.
  - intros c Lc. rewrite Ce. apply K, Lc.
  - intros pv1 r c pv2 Ep i Hi. assert (Hc : In c (map snd pv)) by (rewrite Ep, map_app, in_app_iff; right; left; auto).
    destruct (row_dec i) as [(t & Lt & <-)|N].
    + intros Hh. destruct (H1 t Lt) as (_ & _ & Hk & _). apply Hk, (In_nth _ _ 0) in Hh. destruct Hh as (u & Lu & Eu). destruct (cn_ok u Lu) as (E1 & _ & E3). rewrite E1 in Eu. apply ck_inj in Eu. subst c. auto.
    + unfold has. rewrite H2 by auto. apply (k_tri _ _ _ _ _ _ _ K pv1 r c pv2 Ep). unfold act in Hi. rewrite Pe in Hi. exact Hi.
Qed.
Definition fin (pv : list (nat * nat)) (s : est) : Prop := core pv s /\ forall i, (i < nr)%nat -> act s i -> rw s i = [].
Definition einv (st1 : est) (k : nat) (s : est) : Prop := exists pv', core pv' s /\ length (ecols s) = nc /\ erows s = erows st1 /\ (forall a, ~ (exists i, (i < k)%nat /\ rn rr i = a) -> po s a = po st a) /\
  (forall i, (i < k)%nat -> ~ act s (rn rr i)).
Lemma dense_elim st1 : (exists rs, st1 = set_rows st rs /\ length rs = nr) -> (forall i, (i < length rr)%nat -> newrow i (rw st1 (rn rr i))) -> (forall a, ~ (exists i, (i < length rr)%nat /\ rn rr i = a) -> rw st1 a = rw st a) ->
  exists st2, mfold (fun st i => j <- deref pc i ;; r <- deref rr i ;; c <- deref rc j ;; st <- eliminate st r c ;; free_space st c) (seq 0 (nro R)) st1 = Ok st2 /\ exists pv', fin pv' st2.
Proof.
  intros (rs & Es & Ls) H1 H2. destruct HR as ((N & _ & _) & L1 & L2 & L3 & _ & HD & _). rewrite N.
  destruct (mfold_seq (einv st1) (fun st i => j <- deref pc i ;; r <- deref rr i ;; c <- deref rc j ;; st <- eliminate st r c ;; free_space st c) 0 (length pc) st1) as (st2 & -> & (pv' & K2 & _ & R2 & P2 & A2)).
  - exists pv. split; [apply (dense_core st1 rs); auto|]. split; [rewrite Es; apply I|]. split; auto. split; [intros a _; rewrite Es; reflexivity|intros i Hi; lia].
  - intros k s Hk (pv' & K' & Nc' & R' & P' & A'). rewrite (deref_ok 0%nat) by lia. rewrite bind_Ok. rewrite (deref_ok 0) by lia. rewrite bind_Ok.
    assert (Lj : (nth k pc 0 < length rc)%nat) by (apply L2, nth_In; lia). rewrite (deref_ok 0) by auto. rewrite bind_Ok. set (j := nth k pc 0%nat) in *. destruct (rn_ok k ltac:(lia)) as (-> & Lr & Ar & _). destruct (cn_ok j Lj) as (-> & Lc & _).
    set (r := rn rr k) in *. set (c := cn rc j) in *.
    assert (As : act s r). { unfold act. rewrite P'; [exact Ar|]. intros (i & Hi & e). apply rn_inj in e; lia. }
    assert (Rs : forall a, rw s a = rw st1 a) by (intros a; unfold rw; rewrite R'; reflexivity).
    assert (Se : forall i, (i < length rr)%nat -> cong p (se s (rn rr i) c) (if (i =? k)%nat then 1 else 0)). { intros i Hi. unfold se. rewrite Rs. fold (se st1 (rn rr i) c). unfold c. rewrite (new_se st1 i j) by auto. destruct (Nat.ltb_spec i (length pc)) as [Hp|Hp]; [apply HD; lia|]. destruct (Nat.eqb_spec i k); [lia|apply cong_refl]. }
    assert (C1 : cong p (se s r c) 1) by (unfold r; pose proof (Se k ltac:(lia)) as G; rewrite Nat.eqb_refl in G; exact G).
    assert (N1 : ~ cong p 1 0). { intros H. unfold cong in H. rewrite Z.sub_0_r in H. apply Z.divide_1_r in H. destruct P. lia. }
    assert (Hs : has s r c). { apply (has_se _ _ _ _ _ _ _ _ _ K'). intros H. apply N1. eapply cong_trans; [apply cong_sym, C1|exact H]. }
    unfold eliminate. rewrite zset_ck by (rewrite (k_nc _ _ _ _ _ _ _ K'); auto). rewrite bind_Ok. rewrite zset_nat by (rewrite (k_np _ _ _ _ _ _ _ K'); auto). rewrite bind_Ok.
    pose proof (pv_room _ _ _ _ _ _ _ _ K' Lr As) as Rm. destruct (Nat.ltb_spec (length (erow s)) (enro s)) as [_|HH]; [|unfold enro in HH; rewrite (k_nr _ _ _ _ _ _ _ K'), (k_erow _ _ _ _ _ _ _ K'), map_length in HH; lia].
    cbn [bind]. unfold free_space. cbn [ecols]. rewrite zset_ck by lia. rewrite bind_Ok. eexists. split; [reflexivity|]. set (s' := set_cols _ _).
    assert (Rr : forall a, rw s' a = rw s a) by reflexivity.
    assert (Pr : po s' r = ck c) by (unfold po, s'; cbn; apply upd_same; rewrite (k_np _ _ _ _ _ _ _ K'); auto). assert (Po : forall a, a <> r -> po s' a = po s a) by (intros a Ha; unfold po, s'; cbn; apply upd_other; auto).
    exists (pv' ++ [(r, c)]). split; [|split; [unfold s'; cbn; rewrite upd_len; auto|split; [exact R'|split]]].
    + apply (core_pivot p V nr nc A0 pv' s s' r c K' Lr As Lc Hs). constructor.
      * reflexivity.
      * unfold s'; cbn. apply upd_len.
      * unfold s'; cbn. apply upd_len.
      * apply K'.
      * exists 1, 1. split; [apply cong_eq; ring|]. intros t. apply cong_eq. rewrite Z.mul_1_l. reflexivity.
      * exact C1.
      * reflexivity.
      * intros i _ _. exists 0. intros t. apply cong_eq. rewrite Z.mul_0_l, Z.add_0_r. reflexivity.
      * intros i Li Ni Ai Hi. change (has s i c) in Hi. destruct (row_dec i) as [(t & Lt & <-)|Nd].
        -- apply (has_se _ _ _ _ _ _ _ _ _ K') in Hi. apply Hi. eapply cong_trans; [apply Se, Lt|]. destruct (Nat.eqb_spec t k) as [->|]; [exfalso; auto|apply cong_refl].
        -- unfold has in Hi. rewrite Rs, H2 in Hi by auto. assert (Aa : act st i). { unfold act. rewrite <- P'; [exact Ai|]. intros (t & Ht & e). apply Nd. exists t. split; [lia|auto]. }
           apply Nd. apply rn_in; auto. intros Hn. rewrite Hn in Hi. destruct Hi.
      * exact Pr.
      * intros i _ Ni. left. apply Po, Ni.
      * unfold ce, s'; cbn. apply upd_same. rewrite (k_nc _ _ _ _ _ _ _ K'); auto.
      * intros d Nd. unfold ce, s'; cbn. apply upd_other; auto.
      * reflexivity.
    + intros a Ha. rewrite Po; [apply P'; intros (i & Hi & e); apply Ha; exists i; split; [lia|auto]|]. intros ->. apply Ha. exists k. split; [lia|auto].
    + intros i Hi. destruct (Nat.eq_dec i k) as [->|Ni]; [fold r; unfold act; rewrite Pr; unfold ck; lia|]. unfold act. rewrite Po; [apply A'; lia|]. intros e. apply rn_inj in e; lia.
  - cbn [Nat.add] in *. exists st2. split; auto. exists pv'. split; auto. intros i Li Ai. unfold rw. rewrite R2. fold (rw st1 i). destruct (row_dec i) as [(t & Lt & <-)|Nd].
    + destruct (Nat.lt_ge_cases t (length pc)) as [Ht|Ht]; [exfalso; apply (A2 t Ht Ai)|]. destruct (H1 t Lt) as (_ & _ & _ & G). auto.
    + rewrite H2 by auto. assert (Aa : act st i). { unfold act. rewrite <- P2; [exact Ai|]. intros (t & Ht & e). apply Nd. exists t. split; [lia|auto]. }
      destruct (rw st i) eqn:Er; auto. exfalso. apply Nd, rn_in; auto. congruence.
Qed.
End One.
(** ** the end of the elimination *)
Variable below : Z -> Z -> Z -> bool.
Variable rref : mat -> mat * list nat.
Hypothesis HF : dense_rref p V rref.
Lemma step5dense_ok std pv st : inv pv st -> active_rows st <> [] -> active_cols st <> [] -> exists st', step5dense rref std st = Ok st' /\ exists pv', fin pv' st'.
Proof.
  intros I N1 N2. unfold step5dense. cbv zeta. destruct (Z.eqb_spec (zlen (active_rows st) * zlen (active_cols st)) 0) as [H0|_].
  { exfalso. unfold zlen in H0. destruct (active_rows st); [auto|]. destruct (active_cols st); [auto|]. cbn [length] in H0. nia. }
  destruct (dense_part_ok pv st I) as (d & -> & Nd & Cd & Wd & Hd). rewrite bind_Ok. pose proof (HF d Wd) as F. destruct (rref d) as (R & pc). cbn [fst snd] in F.
  assert (HR : msize R (length pc) (length (active_cols st)) /\ (length pc <= length (active_rows st))%nat /\ (forall j, In j pc -> (j < length (active_cols st))%nat) /\ NoDup pc /\
    eqspan p (length (active_cols st)) (length (active_rows st)) (fun i t => se st (rn (active_rows st) i) (cn (active_cols st) t)) (length pc) (me R) /\
    (forall i k, (i < length pc)%nat -> (k < length pc)%nat -> cong p (me R i (nth k pc 0%nat)) (if (i =? k)%nat then 1 else 0)) /\
    (forall i j, (i < length pc)%nat -> (j < length (active_cols st))%nat -> V (me R i j) /\ (cong p (me R i j) 0 -> me R i j = 0))).
  { rewrite Cd, Nd in F. destruct F as (F1 & F2 & F3 & F4 & F5 & F6 & F7).
    - apply Forall_forall. intros x Hx. apply (In_nth _ _ 0) in Hx. destruct Hx as (k & Lk & Ek). unfold wfm in Wd. assert (0 < nco d)%nat by (rewrite Cd; destruct (active_cols st); [congruence|cbn; lia]). destruct (flat_idx (nco d) k H) as (i & j & -> & Lj). rewrite Wd in Lk. assert (i < nro d)%nat by nia.
      change (me d i j = x) in Ek. rewrite <- Ek, Hd by lia. unfold se. pose proof (k_row _ _ _ _ _ _ _ (i_core _ _ _ _ _ _ _ _ I) (rn (active_rows st) i)) as W. set (l := rw st _) in *. set (y := ck _). destruct (in_dec Z.eq_dec y (keys l)) as [G|G]; [apply (lookup_V p V nc); auto|]. rewrite lookup_notin by (auto; apply W). apply V0.
    - split; auto. split; auto. split; auto. split; auto. split; [|auto]. eapply eqspan_trans; [|exact F5]. apply eqspan_cong. intros i j Hi Hj. rewrite Hd by auto. apply cong_refl. }
  destruct (put_back_ok pv st I R pc HR) as (st1 & -> & X1 & X2 & X3). rewrite bind_Ok. apply (dense_elim pv st I R pc HR st1); auto.
Qed.
Lemma standard_ok pv st : inv pv st -> exists st', standard E p below rref 1 st = Ok st' /\ exists pv', fin pv' st'.
Proof.
  intros I. unfold standard. destruct (standard_while E p V nr nc A0 M below pv st I) as (st' & b & -> & pv' & I' & H). rewrite bind_Ok. destruct b; [exists st'; split; [reflexivity|]; exists pv'; split; [apply I'|auto]|].
  destruct H as (H1 & H2). apply (step5dense_ok _ pv'); auto.
Qed.
Lemma elim_ok pv st : inv pv st -> (forall i, (i < nr)%nat -> act st i) -> exists st', sparse_elimination E p below rref st = Ok st' /\ exists pv', fin pv' st'.
Proof.
  intros I A. unfold sparse_elimination. destruct (step0_ok E p V nr nc A0 M pv st I A) as (s0 & -> & pv0 & I0 & H0). rewrite bind_Ok.
  destruct (step1_ok E p V nr nc A0 M pv0 s0 I0 H0) as (s1 & -> & pv1 & I1 & H1). rewrite bind_Ok. destruct (step2_ok E p V nr nc A0 M pv1 s1 I1 H1) as (s2 & -> & pv2 & I2 & _). rewrite bind_Ok.
  destruct (step3_ok E p V nr nc A0 M pv2 s2 I2) as (s3 & -> & pv3 & I3). rewrite bind_Ok. destruct (step4_ok E p V nr nc A0 M pv3 s3 I3) as (s4 & -> & pv4 & I4). rewrite bind_Ok. apply (standard_ok pv4); auto.
Qed.
End Dense.
