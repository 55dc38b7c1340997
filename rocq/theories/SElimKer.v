(** Rank, back substitution and kernel of SElimModel. *)
From Coq Require Import ZArith Znumtheory Lia List Bool Sorted Permutation.
From Verif Require Import Base ArithModel RatModel MArithModel LinModel LinSpec LinProofs LinElim LinKer LinAlg SvecModel SmatModel OrdModel OrdSpec OrdProofs OrdMore SElimModel SElimRow SElimInv SElimPivot SElimSteps SElimStep0 SElimStd SElimDense.
Import ListNotations.
Open Scope Z_scope.
Open Scope res_scope.

Section Ker.
Variables (E : esc) (p : Z) (V : Z -> Prop) (nr nc : nat) (A0 : nat -> nat -> Z).
Hypothesis M : emod E p V.
Let P : prime p := em_prime _ _ _ M.
Notation wf := (wfrow p V nc).
Notation core := (core p V nr nc A0).
Notation fin := (fin p V nr nc A0).
Variable pv : list (nat * nat).
Definition prow (k : nat) : nat := fst (nth k pv (0%nat, 0%nat)).
Definition pcol (k : nat) : nat := snd (nth k pv (0%nat, 0%nat)).
Lemma pv_nth k : (k < length pv)%nat -> In (prow k, pcol k) pv.
Proof. intros H. unfold prow, pcol. rewrite <- surjective_pairing. apply nth_In, H. Qed.
Lemma pv_at r c : In (r, c) pv -> exists k, (k < length pv)%nat /\ prow k = r /\ pcol k = c.
Proof. intros H. apply (In_nth _ _ (0%nat, 0%nat)) in H. destruct H as (k & Lk & Ek). exists k. unfold prow, pcol. rewrite Ek. auto. Qed.
Lemma row_at r : In r (map fst pv) -> exists k, (k < length pv)%nat /\ prow k = r.
Proof. intros H. apply in_map_iff in H. destruct H as ((r0, c) & <- & H). apply pv_at in H. destruct H as (k & Lk & E1 & _). exists k. auto. Qed.
Lemma col_at c : In c (map snd pv) -> exists k, (k < length pv)%nat /\ pcol k = c.
Proof. intros H. apply in_map_iff in H. destruct H as ((r0, c0) & <- & H). apply pv_at in H. destruct H as (k & Lk & _ & E1). exists k. auto. Qed.
Lemma row_inj st j k : core pv st -> (j < length pv)%nat -> (k < length pv)%nat -> prow j = prow k -> j = k.
Proof. intros K Hj Hk H. unfold prow in H. rewrite <- !(map_nth fst) in H. apply (NoDup_nth (map fst pv) 0%nat) in H; rewrite ?map_length; auto. apply K. Qed.
Lemma col_inj st j k : core pv st -> (j < length pv)%nat -> (k < length pv)%nat -> pcol j = pcol k -> j = k.
Proof. intros K Hj Hk H. unfold pcol in H. rewrite <- !(map_nth snd) in H. apply (NoDup_nth (map snd pv) 0%nat) in H; rewrite ?map_length; auto. apply K. Qed.
Lemma split_nth {A} (d : A) l k : (k < length l)%nat -> l = firstn k l ++ nth k l d :: skipn (S k) l.
Proof. revert k. induction l as [|x l IH]; intros [|k] H; cbn in *; try lia; auto. f_equal. apply IH. lia. Qed.
Lemma tri_nth st a b : core pv st -> (a < b < length pv)%nat -> ~ has st (prow b) (pcol a).
Proof.
  intros K H. apply (k_tri _ _ _ _ _ _ _ K (firstn a pv) (prow a) (pcol a) (skipn (S a) pv)).
  - unfold prow, pcol. rewrite <- surjective_pairing. apply split_nth. lia.
  - left. unfold prow. rewrite <- (map_nth fst). cbn [fst]. replace (nth b (map fst pv) 0%nat) with (nth (b - S a) (map fst (skipn (S a) pv)) 0%nat).
    + apply nth_In. rewrite map_length, skipn_length. lia.
    + rewrite <- (firstn_skipn (S a) (map fst pv)) at 1. rewrite app_nth2; rewrite firstn_length, map_length; [|lia]. rewrite skipn_map. f_equal. lia.
Qed.
Lemma tri_from st : (forall a b, (a < b < length pv)%nat -> ~ has st (prow b) (pcol a)) -> (forall i a, (a < length pv)%nat -> (i < nr)%nat -> act st i -> ~ has st i (pcol a)) ->
  forall pv1 r c pv2, pv = pv1 ++ (r, c) :: pv2 -> forall i, In i (map fst pv2) \/ ((i < nr)%nat /\ act st i) -> ~ has st i c.
Proof.
  intros H1 H2 pv1 r c pv2 Ep i Hi. assert (Ec : c = pcol (length pv1)) by (unfold pcol; rewrite Ep, app_nth2, Nat.sub_diag by lia; reflexivity). assert (Lp : (length pv = length pv1 + S (length pv2))%nat) by (rewrite Ep, app_length; reflexivity).
  rewrite Ec. destruct Hi as [Hi|(Li & Ai)]; [|apply H2; auto; lia]. apply (In_nth _ _ 0%nat) in Hi. destruct Hi as (t & Lt & <-). rewrite map_length in Lt.
  replace (nth t (map fst pv2) 0%nat) with (prow (length pv1 + S t)); [apply H1; lia|]. unfold prow. rewrite Ep, app_nth2 by lia. replace (length pv1 + S t - length pv1)%nat with (S t) by lia. cbn [nth]. rewrite <- (map_nth fst). reflexivity.
Qed.
(** ** rank *)
Lemma sum_zero n (f : nat -> Z) : (forall i, (i < n)%nat -> cong p (f i) 0) -> cong p (sumn n f) 0.
Proof. induction n; intros Hf; cbn [sumn]; [apply cong_refl|]. replace 0 with (0 + 0) by ring. apply cong_add; [apply IHn; auto|apply Hf; lia]. Qed.
Lemma sum_one n (f : nat -> Z) k : (k < n)%nat -> (forall i, (i < n)%nat -> i <> k -> cong p (f i) 0) -> cong p (sumn n f) (f k).
Proof.
  intros Hk. induction n; intros Hf; [lia|]. cbn [sumn]. destruct (Nat.eq_dec k n) as [->|N].
  - replace (f n) with (0 + f n) at 2 by ring. apply cong_add; [|apply cong_refl]. apply sum_zero. intros i Hi. apply Hf; lia.
  - replace (f k) with (f k + 0) by ring. apply cong_add; [apply IHn; [lia|]; intros i Hi Ni; apply Hf; lia|apply Hf; lia].
Qed.
Lemma fin_span st : fin pv st -> eqspan p nc nr A0 (length pv) (fun k j => se st (prow k) j).
Proof.
  intros (K & F). eapply eqspan_trans; [apply K|]. apply eqspan_rows.
  - intros k Hk. apply span_row. apply (k_pv _ _ _ _ _ _ _ K _ _ (pv_nth k Hk)).
  - intros i Li. assert (Z : rw st i = [] -> inspan p nc (length pv) (fun k j => se st (prow k) j) (se st i)). { intros Hr. apply (span_cong _ _ _ _ _ (fun _ => 0)); [|apply span_zero]. intros j _. unfold se. rewrite Hr. apply cong_refl. }
    destruct (k_pos _ _ _ _ _ _ _ K i Li) as [A|[(_ & Hr)|H]]; [apply Z, F; auto|apply Z, Hr|]. apply row_at in H. destruct H as (k & Lk & <-). apply (span_row p nc (length pv) (fun k j => se st (prow k) j) k Lk).
Qed.
Lemma fin_indep st : core pv st -> indep p nc (length pv) (fun k j => se st (prow k) j).
Proof.
  intros K c Hc.
  assert (G : forall n i, (i < n)%nat -> (i < length pv)%nat -> cong p (c i) 0); [|intros i Hi; apply (G (S i)); lia].
  induction n as [|n IH]; intros i Hi Li; [lia|]. destruct (k_pv _ _ _ _ _ _ _ K _ _ (pv_nth i Li)) as (_ & Lc & _ & _ & C1).
  pose proof (Hc (pcol i) Lc) as H. assert (H' : cong p (sumn (length pv) (fun k => c k * se st (prow k) (pcol i))) (c i * se st (prow i) (pcol i))).
  { apply (sum_one (length pv) (fun k => c k * se st (prow k) (pcol i)) i Li). intros k Hk Nk. destruct (Nat.lt_ge_cases k i) as [L|L].
    - rewrite <- (Z.mul_0_l (se st (prow k) (pcol i))). apply cong_mul; [apply IH; lia|apply cong_refl].
    - rewrite <- (Z.mul_0_r (c k)). apply cong_mul; [apply cong_refl|]. apply (hasnt_se _ _ _ _ _ _ _ _ _ K). apply (tri_nth st); auto. lia. }
  eapply cong_trans; [|eapply cong_trans; [apply cong_sym, H'|exact H]]. rewrite <- (Z.mul_1_r (c i)) at 1. apply cong_mul; [apply cong_refl|apply cong_sym, C1].
Qed.
Lemma fin_rank st : fin pv st -> hasrank p nc nr A0 (length pv) /\ length (erow st) = length pv.
Proof. intros F. split; [exists (fun k j => se st (prow k) j); split; [apply fin_span, F|apply fin_indep, F]|]. rewrite (k_erow _ _ _ _ _ _ _ (proj1 F)), map_length. auto. Qed.
(** ** back substitution *)
Definition red (st : est) (t : nat) : Prop := forall a, (a < length pv)%nat -> a <> t -> ~ has st (prow t) (pcol a).
Definition badb (k : nat) (y : Z) : bool := existsb (fun a => (ck (pcol a) =? y) && negb (a =? k)%nat) (seq 0 (length pv)).
Lemma badb_iff k y : badb k y = true <-> exists a, (a < length pv)%nat /\ a <> k /\ y = ck (pcol a).
Proof.
  unfold badb. rewrite existsb_exists. split.
  - intros (a & Ha & H). apply in_seq in Ha. apply andb_true_iff in H. destruct H as (H1 & H2). exists a. destruct (Nat.eqb_spec a k); [discriminate|]. split; [lia|]. split; auto. lia.
  - intros (a & Ha & Na & ->). exists a. split; [apply in_seq; lia|]. rewrite Z.eqb_refl. destruct (Nat.eqb_spec a k); [congruence|auto].
Qed.
Lemma back_find_ok st k l : core pv st -> (k < length pv)%nat -> (forall y, In y (keys l) -> 1 <= y <= Z.of_nat nc) ->
  (back_find l (Z.of_nat (prow k)) st = Ok None /\ forall y, In y (keys l) -> badb k y = false) \/
  (exists a x, (a < length pv)%nat /\ a <> k /\ In (ck (pcol a), x) l /\ back_find l (Z.of_nat (prow k)) st = Ok (Some (Z.of_nat (prow a), x))).
Proof.
  intros K Hk. induction l as [|(y, x) l IH]; intros Hl; cbn [back_find]; [left; split; [auto|intros y []]|].
  assert (exists c, y = ck c /\ (c < nc)%nat) as (c & -> & Lc) by (specialize (Hl y (or_introl eq_refl)); exists (Z.to_nat (y - 1)); unfold ck; lia). rewrite (zget_ck 0) by (rewrite (k_nc _ _ _ _ _ _ _ K); auto). fold (ce st c). rewrite bind_Ok.
  destruct (k_ce _ _ _ _ _ _ _ K c Lc) as [Hc|Hc].
  - rewrite Hc. cbn [Z.eqb orb]. destruct IH as [(-> & H)|(a & x0 & H1 & H2 & H3 & ->)]; [intros y' H; apply Hl; right; auto| |].
    + left. split; auto. intros y' [<-|H']; [|auto]. cbn [fst]. destruct (badb k (ck c)) eqn:Eb; auto. apply badb_iff in Eb. destruct Eb as (a & Ha & _ & e). apply ck_inj in e. subst c. destruct (k_pv _ _ _ _ _ _ _ K _ _ (pv_nth a Ha)) as (_ & _ & _ & G & _). lia.
    + right. exists a, x0. split; auto. split; auto. split; [right; auto|auto].
  - apply col_at in Hc. destruct Hc as (a & Ha & <-). destruct (k_pv _ _ _ _ _ _ _ K _ _ (pv_nth a Ha)) as (_ & _ & _ & G & _). rewrite G. destruct (Z.eqb_spec (Z.of_nat (prow a)) (-1)) as [|_]; [lia|]. cbn [orb]. destruct (Z.eqb_spec (Z.of_nat (prow a)) (Z.of_nat (prow k))) as [e|e].
    + assert (a = k) by (apply (row_inj st); auto; lia). subst a. destruct IH as [(-> & H)|(a & x0 & H1 & H2 & H3 & ->)]; [intros y' H; apply Hl; right; auto| |].
      * left. split; auto. intros y' [<-|H']; [|auto]. cbn [fst]. destruct (badb k (ck (pcol k))) eqn:Eb; auto. apply badb_iff in Eb. destruct Eb as (a & Ha' & Na & e'). apply ck_inj in e'. exfalso. apply Na. apply (col_inj st); auto.
      * right. exists a, x0. split; auto. split; auto. split; [right; auto|auto].
    + right. exists a, x. split; auto. split; [intros ->; auto|]. split; [left; auto|auto].
Qed.
Lemma back_add st k a x l' : fin pv st -> (k < length pv)%nat -> (k < a < length pv)%nat -> wf l' -> (forall y, cong p (lookup l' y) (x * lookup (rw st (prow a)) y + lookup (rw st (prow k)) y)) ->
  let st' := set_rows st (upd (erows st) (prow k) l') in fin pv st' /\ rw st' (prow k) = l' /\ (forall i, i <> prow k -> rw st' i = rw st i).
Proof.
  intros (K & F) Hk Ha W' H. cbv zeta. set (st' := set_rows _ _). destruct (k_pv _ _ _ _ _ _ _ K _ _ (pv_nth k Hk)) as (Lr & Lc & Hp & He & C1). destruct (k_pv _ _ _ _ _ _ _ K _ _ (pv_nth a ltac:(lia))) as (Lra & _).
  assert (Rr : rw st' (prow k) = l') by (unfold rw, st'; cbn; apply upd_same; rewrite (k_nr _ _ _ _ _ _ _ K); auto). assert (Ro : forall i, i <> prow k -> rw st' i = rw st i) by (intros i Hi; unfold rw, st'; cbn; apply upd_other; auto).
  split; [|auto]. assert (Kr : forall i, wf (rw st' i)) by (intros i; destruct (Nat.eq_dec i (prow k)) as [->|N]; [rewrite Rr; auto|rewrite Ro; auto; apply K]).
  assert (Nak : prow a <> prow k) by (intros e; apply (row_inj st) in e; auto; lia).
  split.
  - constructor; try apply K.
    + unfold st'; cbn. rewrite upd_len. apply K.
    + exact Kr.
    + eapply eqspan_trans; [apply K|]. apply (eqspan_rowop p nc nr (se st) (se st') (prow k) (prow a) 1 1 x); auto.
      * apply cong_eq. ring.
      * intros i j _ _ Hi. unfold se. rewrite Ro by auto. apply cong_refl.
      * intros j _. unfold se. rewrite Rr. eapply cong_trans; [apply H|]. apply cong_eq. ring.
    + intros r c Hr. destruct (k_pv _ _ _ _ _ _ _ K r c Hr) as (G1 & G2 & G3 & G4 & G5). split; auto. split; auto. split; auto. split; auto. destruct (Nat.eq_dec r (prow k)) as [->|N]; [|unfold se; rewrite Ro by auto; exact G5].
      assert (c = pcol k) by (apply ck_inj; congruence). subst c. unfold se. rewrite Rr. eapply cong_trans; [apply H|]. replace 1 with (x * 0 + 1) by ring. apply cong_add; [apply cong_mul; [apply cong_refl|]|exact C1]. apply (hasnt_se _ _ _ _ _ _ _ _ _ K). apply (tri_nth st); auto.
    + intros i Li. destruct (Nat.eq_dec i (prow k)) as [->|N]; [right; right; apply (in_map fst) with (x := (prow k, pcol k)); apply pv_nth, Hk|]. destruct (k_pos _ _ _ _ _ _ _ K i Li) as [|[(G1 & G2)|]]; auto. right. left. rewrite Ro by auto. auto.
    + apply tri_from.
      * intros u v Huv. destruct (Nat.eq_dec (prow v) (prow k)) as [e|N]; [|unfold has; rewrite Ro by auto; apply (tri_nth st); auto]. apply (row_inj st) in e; auto; try lia. subst v.
        apply (hasnt_iff p V nc); [apply Kr|]. rewrite Rr. eapply cong_trans; [apply H|]. replace 0 with (x * 0 + 0) by ring. apply cong_add; [apply cong_mul; [apply cong_refl|]|]; apply (hasnt_se _ _ _ _ _ _ _ _ _ K); apply (tri_nth st); auto; lia.
      * intros i u Hu Li Ai. assert (i <> prow k) by (intros ->; unfold act in Ai; change (po st (prow k) = -1) in Ai; unfold ck in Hp; lia). unfold has. rewrite Ro by auto. rewrite (F i Li Ai). intros [].
  - intros i Li Ai. assert (i <> prow k) by (intros ->; unfold act in Ai; change (po st (prow k) = -1) in Ai; unfold ck in Hp; lia). rewrite Ro by auto. apply F; auto.
Qed.
Lemma filter_nodup {A} (f : A -> bool) l : NoDup l -> NoDup (filter f l).
Proof. apply NoDup_filter. Qed.
Lemma back_while st k : fin pv st -> (k < length pv)%nat -> (forall t, (k < t < length pv)%nat -> red st t) ->
  exists st', while (back_body E p (Z.of_nat (prow k))) (efuel st) st = Ok st' /\ fin pv st' /\ (forall t, (k <= t < length pv)%nat -> red st' t).
Proof.
  intros F Hk HR. set (Inv := fun s => fin pv s /\ forall t, (k < t < length pv)%nat -> red s t).
  destruct (while_total (back_body E p (Z.of_nat (prow k))) Inv (fun s => fin pv s /\ forall t, (k <= t < length pv)%nat -> red s t) (fun s => Z.of_nat (length (filter (badb k) (keys (rw s (prow k))))))) with (n := efuel st) (s := st) as (st' & Es & H); auto.
  - intros s _. lia.
  - clear st F HR. intros st (F & HR). pose proof (proj1 F) as K. destruct (k_pv _ _ _ _ _ _ _ K _ _ (pv_nth k Hk)) as (Lr & Lc & Hp & He & C1). unfold back_body. rewrite (zget_nat (nil : smap)) by (rewrite (k_nr _ _ _ _ _ _ _ K); auto). fold (rw st (prow k)). rewrite bind_Ok.
    set (l := rw st (prow k)). pose proof (k_row _ _ _ _ _ _ _ K (prow k)) as Wl. fold l in Wl.
    destruct (back_find_ok st k l K Hk) as [(-> & Hb)|(a & x & Ha & Na & Hx & ->)]; [intros y Hy; apply (key_range p V nc _ _ Wl Hy)| |]; rewrite bind_Ok.
    + left. exists st. split; [reflexivity|]. split; auto. intros t Ht. destruct (Nat.eq_dec t k) as [->|]; [|apply HR; lia]. intros a Ha Na Hh. pose proof (Hb _ Hh) as G. assert (badb k (ck (pcol a)) = true) by (apply badb_iff; eauto). congruence.
    + right. assert (Hh : has st (prow k) (pcol a)) by (unfold has; fold l; apply in_keys; eauto). assert (Hka : (k < a)%nat). { destruct (Nat.lt_ge_cases k a); auto. exfalso. apply (tri_nth st a k K); [lia|exact Hh]. }
      destruct (proj2 Wl _ _ Hx) as (_ & Vx & Nx). destruct (em_neg _ _ _ M x Vx) as (-> & Vn). rewrite bind_Ok. destruct (k_pv _ _ _ _ _ _ _ K _ _ (pv_nth a Ha)) as (Lra & _ & _ & _ & C1a). rewrite (zget_nat (nil : smap)) by (rewrite (k_nr _ _ _ _ _ _ _ K); auto). fold (rw st (prow a)). rewrite bind_Ok.
      assert (Nn : ~ cong p (- x) 0) by (intros H; apply Nx; apply cong_opp in H; rewrite Z.opp_involutive in H; exact H).
      destruct (rowadd_ok E p V nc M (- x) (rw st (prow a)) l Vn Nn (k_row _ _ _ _ _ _ _ K _) Wl) as (l' & tg & -> & W' & C' & _). rewrite bind_Ok. rewrite zset_nat by (rewrite (k_nr _ _ _ _ _ _ _ K); auto). rewrite bind_Ok. eexists. split; [reflexivity|].
      destruct (back_add st k a (- x) l' F Hk ltac:(lia) W' C') as (F' & Rr & Ro). set (st' := set_rows _ _) in *. split; [split; auto|].
      * intros t Ht u Hu Nu. unfold has. rewrite Ro; [apply HR; auto|]. intros e. apply (row_inj st) in e; auto; lia.
      * rewrite Rr. assert (Lk : lookup l (ck (pcol a)) = x) by (apply lookup_in; [apply Wl|auto]).
        assert (G : (length (ck (pcol a) :: filter (badb k) (keys l')) <= length (filter (badb k) (keys l)))%nat); [|fold l in G |- *; cbn [length] in G; lia].
        apply NoDup_incl_length.
        -- constructor; [|apply filter_nodup, incr_nodup, W']. rewrite filter_In. intros (Hin & _). apply (has_iff p V nc l' _ W') in Hin. apply Hin. eapply cong_trans; [apply C'|]. fold (se st (prow a) (pcol a)). rewrite Lk. eapply cong_trans; [apply cong_add; [apply cong_mul; [apply cong_refl|exact C1a]|apply cong_refl]|]. apply cong_eq. ring.
        -- intros y [<-|Hy]; [apply filter_In; split; [exact Hh|apply badb_iff; eauto]|]. apply filter_In in Hy. destruct Hy as (Hy & By). apply filter_In. split; [|auto]. apply (has_iff p V nc l' _ W') in Hy. apply (has_iff p V nc l _ Wl). intros Hz. apply Hy.
           apply badb_iff in By. destruct By as (u & Hu & Nu & ->). eapply cong_trans; [apply C'|]. destruct (Nat.eq_dec u a) as [->|Nua].
           ++ exfalso. apply (has_iff p V nc l _ Wl) in Hh. auto.
           ++ replace 0 with (- x * 0 + 0) by ring. apply cong_add; [apply cong_mul; [apply cong_refl|]|exact Hz]. apply (hasnt_se _ _ _ _ _ _ _ _ _ K). apply (HR a); auto.
  - split; auto.
  - destruct F as (K & _). pose proof (k_row _ _ _ _ _ _ _ K (prow k)) as W. pose proof (row_len p V nc _ W) as L1. assert (L2 : (length (filter (badb k) (keys (rw st (prow k)))) <= nc)%nat).
    { eapply Nat.le_trans; [|exact L1]. unfold keys. rewrite <- (map_length fst (rw st (prow k))). generalize (map fst (rw st (prow k))). intros ks. induction ks as [|y ks IH]; cbn; [lia|]. destruct (badb k y); cbn; lia. }
    unfold efuel, enro, enco. rewrite (k_nr _ _ _ _ _ _ _ K), (k_nc _ _ _ _ _ _ _ K). destruct (pow_big (Z.of_nat (2 * (nr + nc) + 4))) as [G|G]; lia.
  - exists st'. auto.
Qed.
Lemma mfold_map {A B C} (f : A -> C -> res A) (h : B -> C) l a : mfold f (map h l) a = mfold (fun a x => f a (h x)) l a.
Proof. revert a. induction l as [|x l IH]; intros a; cbn; auto. destruct (f a (h x)); cbn; auto. Qed.
Lemma back_sub_ok st : fin pv st -> exists st', back_sub E p st = Ok st' /\ fin pv st' /\ forall t, (t < length pv)%nat -> red st' t.
Proof.
  intros F. unfold back_sub. rewrite (k_erow _ _ _ _ _ _ _ (proj1 F)).
  assert (Em : map (fun x => Z.of_nat (fst x)) pv = map (fun k => Z.of_nat (prow k)) (seq 0 (length pv))).
  { apply (nth_ext _ _ 0 0); [rewrite !map_length, seq_length; auto|]. intros n Hn. rewrite map_length in Hn. rewrite (nth_indep _ 0 (Z.of_nat (fst (0%nat, 0%nat)))) by (rewrite map_length; auto). rewrite (map_nth (fun x => Z.of_nat (fst x))). rewrite (nth_indep _ 0 (Z.of_nat (prow 0))) by (rewrite map_length, seq_length; auto). rewrite (map_nth (fun k => Z.of_nat (prow k))). rewrite seq_nth by auto. reflexivity. }
  rewrite Em, <- map_rev, mfold_map.
  assert (G : forall n s, (n <= length pv)%nat -> fin pv s -> (forall t, (n <= t < length pv)%nat -> red s t) -> exists s', mfold (fun a k => while (back_body E p (Z.of_nat (prow k))) (efuel a) a) (rev (seq 0 n)) s = Ok s' /\ fin pv s' /\ forall t, (t < length pv)%nat -> red s' t).
  { induction n as [|n IH]; intros s Hn Fs Rs; [exists s; split; [reflexivity|]; split; [auto|]; intros t Ht; apply Rs; lia|]. rewrite seq_S, rev_app_distr. cbn [rev app Nat.add mfold].
    destruct (back_while s n Fs ltac:(lia)) as (s1 & -> & F1 & R1); [intros t Ht; apply Rs; lia|]. cbn [bind]. apply IH; auto; lia. }
  apply G; auto. intros t Ht. lia.
Qed.
End Ker.
