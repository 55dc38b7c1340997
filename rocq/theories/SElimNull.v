(** The kernel basis of SElimModel. *)
From Coq Require Import ZArith Znumtheory Lia List Bool Sorted Permutation.
From Verif Require Import Base ArithModel RatModel MArithModel LinModel LinSpec LinProofs LinElim LinKer LinAlg SvecModel SmatModel OrdModel OrdSpec OrdProofs OrdMore SElimModel SElimRow SElimInv SElimPivot SElimSteps SElimStep0 SElimStd SElimDense SElimKer.
Import ListNotations.
Open Scope Z_scope.
Open Scope res_scope.

Lemma fold_set {X} (nc : nat) (step : list smap -> X -> res (list smap)) (col : X -> nat) (val : X -> smap -> Prop) l :
  NoDup (map col l) -> (forall x, In x l -> (col x < nc)%nat) ->
  (forall x b, In x l -> length b = nc -> exists t, val x t /\ step b x = Ok (upd b (col x) t)) ->
  forall b, length b = nc -> exists b', mfold step l b = Ok b' /\ length b' = nc /\ (forall x, In x l -> val x (nth (col x) b' [])) /\ (forall c, ~ In c (map col l) -> nth c b' [] = nth c b []).
Proof.
  induction l as [|x l IH]; intros N L S b Lb; [exists b; repeat split; auto; intros x []|]. cbn [map] in N. apply NoDup_cons_iff in N. destruct N as (N1 & N2). destruct (S x b (or_introl eq_refl) Lb) as (t & Vt & Et). cbn [mfold]. rewrite Et. cbn [bind].
  destruct (IH N2) with (b := upd b (col x) t) as (b' & -> & Lb' & H1 & H2); [intros; apply L; right; auto|intros; apply S; auto; right; auto|rewrite upd_len; auto|].
  exists b'. split; auto. split; auto. split.
  - intros y [<-|Hy]; [|auto]. rewrite H2 by auto. assert (G : nth (col x) (upd b (col x) t) [] = t) by (apply upd_same; assert (col x < nc)%nat by (apply L; left; auto); lia). rewrite G. exact Vt.
  - intros c Hc. rewrite H2 by (intros H; apply Hc; right; auto). apply upd_other. intros e. apply Hc. left. exact e.
Qed.
Lemma flat_filter (f : Z -> bool) l s : flat_map (fun '(i, e) => if f e then [Z.of_nat i] else []) (combine (seq (S s) (length l)) l) = map ck (filter (fun c => f (nth (c - s) l 0)) (seq s (length l))).
Proof.
  revert s. induction l as [|e l IH]; intros s; [reflexivity|]. cbn [length seq combine flat_map filter]. rewrite Nat.sub_diag. cbn [nth]. rewrite IH.
  assert (Ef : filter (fun c => f (nth (c - S s) l 0)) (seq (S s) (length l)) = filter (fun c => f (nth (c - s) (e :: l) 0)) (seq (S s) (length l))).
  { apply filter_ext_in. intros c Hc. apply in_seq in Hc. replace (c - s)%nat with (S (c - S s)) by lia. reflexivity. }
  rewrite Ef. destruct (f e); cbn [app map]; [|reflexivity]. f_equal. unfold ck. lia.
Qed.
Lemma filter_split {A} (f : A -> bool) l : Permutation (filter f l ++ filter (fun x => negb (f x)) l) l.
Proof. induction l as [|x l IH]; cbn; auto. destruct (f x); cbn; [auto|]. apply Permutation_sym, Permutation_cons_app, Permutation_sym, IH. Qed.
Lemma filter_sorted (f : nat -> bool) l : StronglySorted lt l -> StronglySorted lt (filter f l).
Proof.
  induction 1 as [|x l S IH F]; cbn; [constructor|]. destruct (f x); auto. constructor; auto. rewrite Forall_forall in *. intros y Hy. apply filter_In in Hy. apply F, Hy.
Qed.
Lemma seq_sorted s n : StronglySorted lt (seq s n).
Proof. revert s. induction n; intros s; cbn; constructor; auto. apply Forall_forall. intros y Hy. apply in_seq in Hy. lia. Qed.
Lemma filter_splits (f : nat -> bool) nc : splits nc (filter f (seq 0 nc)) (filter (fun c => negb (f c)) (seq 0 nc)).
Proof. split; [apply filter_sorted, seq_sorted|]. split; [apply filter_sorted, seq_sorted|apply filter_split]. Qed.
Lemma map_ck_incr l : StronglySorted lt l -> incr (map ck l).
Proof. induction 1 as [|x l S IH F]; cbn; auto. split; auto. intros y Hy. apply in_map_iff in Hy. destruct Hy as (z & <- & Hz). rewrite Forall_forall in F. specialize (F z Hz). unfold ck. lia. Qed.
Lemma sum_two p n (f : nat -> Z) a b : (a < n)%nat -> (b < n)%nat -> a <> b -> (forall i, (i < n)%nat -> i <> a -> i <> b -> cong p (f i) 0) -> cong p (sumn n f) (f a + f b).
Proof.
  intros La Lb N H. rewrite (sumn_ext n f (fun i => (if Nat.eqb i a then f i else 0) + (if Nat.eqb i a then 0 else f i))) by (intros i _; destruct (Nat.eqb i a); ring). rewrite sumn_add. apply cong_add.
  - eapply cong_trans; [apply (sum_one p n _ a La)|]; [|cbv beta; rewrite Nat.eqb_refl; apply cong_refl]. intros i _ Ni. cbv beta. destruct (Nat.eqb_spec i a); [contradiction|apply cong_refl].
  - eapply cong_trans; [apply (sum_one p n _ b Lb)|]; cbv beta.
    + intros i Hi Ni. destruct (Nat.eqb_spec i a); [apply cong_refl|]. apply H; auto.
    + destruct (Nat.eqb_spec b a); [congruence|apply cong_refl].
Qed.

Section Null.
Variables (E : esc) (p : Z) (V : Z -> Prop) (nr nc : nat) (A0 : nat -> nat -> Z).
Hypothesis M : emod E p V.
Let P : prime p := em_prime _ _ _ M.
Notation wf := (wfrow p V nc).
Notation core := (core p V nr nc A0).
Notation fin := (fin p V nr nc A0).
Lemma lookup_low l k : incr (keys l) -> (forall y, In y (keys l) -> k < y) -> lookup l k = 0.
Proof. intros I H. apply (lookup_notin l k I). intros Hk. specialize (H k Hk). lia. Qed.
Lemma skip_ok l k : incr (keys l) -> l <> [] -> exists k' x t, skip_ents l k = (k', x) :: t /\ incr (keys ((k', x) :: t)) /\ (forall e, In e ((k', x) :: t) -> In e l) /\
  (forall y, k <= y -> lookup ((k', x) :: t) y = lookup l y) /\ (k' <> k -> lookup l k = 0) /\ (k' = k -> lookup l k = x).
Proof.
  induction l as [|(a, x) l IH]; intros I N; [congruence|]. cbn [skip_ents]. destruct l as [|b l].
  - exists a, x, []. split; auto. split; auto. split; auto. split; auto. split; intros H; cbn [lookup].
    + destruct (Z.ltb_spec a k); auto. destruct (Z.eqb_spec a k); [congruence|auto].
    + subst. destruct (Z.ltb_spec k k); [lia|]. rewrite Z.eqb_refl. auto.
  - cbn [fst]. destruct (Z.ltb_spec a k) as [L|L].
    + destruct I as (I1 & I2). destruct (IH I2 ltac:(congruence)) as (k' & x' & t & Es & J & In' & G & H1 & H2). exists k', x', t. split; auto. split; auto. split; [intros e He; right; auto|].
      assert (Ly : forall y, k <= y -> lookup ((a, x) :: b :: l) y = lookup (b :: l) y) by (intros y Hy; cbn [lookup]; destruct (Z.ltb_spec a y); [auto|lia]). rewrite (Ly k) by lia. split; [|auto]. intros y Hy. rewrite Ly by auto. auto.
    + exists a, x, (b :: l). split; auto. split; auto. split; auto. split; auto. split; intros H; cbn [lookup].
      * destruct (Z.ltb_spec a k); [lia|]. destruct (Z.eqb_spec a k); [congruence|auto].
      * subst. destruct (Z.ltb_spec k k); [lia|]. rewrite Z.eqb_refl. auto.
Qed.
Lemma ker_row_ok npc : incr npc -> forall l j, wf l -> l <> [] -> exists t, ker_row E l npc j = Ok t /\ incr (keys t) /\ (forall y x, In (y, x) t -> j <= y < j + zlen npc /\ V x /\ ~ cong p x 0) /\
  forall n, (n < length npc)%nat -> lookup t (j + Z.of_nat n) = - lookup l (nth n npc 0).
Proof.
  induction npc as [|k npc IH]; intros I l j W N; cbn [ker_row]; [exists []; split; auto; split; [exact Logic.I|]; split; [intros ? ? []|]; cbn; lia|].
  destruct I as (I1 & I2). destruct (skip_ok l k (proj1 W) N) as (k' & x & t & -> & J & Hin & G & H1 & H2). set (s := (k', x) :: t) in *.
  assert (Ws : wf s) by (split; auto; intros y z Hz; apply (proj2 W); auto). assert (Lz : forall A (e : A) l0, zlen (e :: l0) = zlen l0 + 1) by (intros; unfold zlen; cbn [length]; lia).
  destruct (IH I2 s (j + 1) Ws ltac:(discriminate)) as (t' & Et & It & Bt & Ct). rewrite Et.
  assert (Ct' : forall n, (n < length npc)%nat -> lookup t' (j + 1 + Z.of_nat n) = - lookup l (nth n npc 0)). { intros n Hn. rewrite Ct by auto. f_equal. apply G. assert (k < nth n npc 0) by (apply I1, nth_In; auto). lia. }
  assert (Lt : forall y, In y (keys t') -> j < y). { intros y Hy. apply in_map_iff in Hy. destruct Hy as ((y0, z) & <- & Hy). apply Bt in Hy. cbn [fst]. lia. }
  destruct (Z.eqb_spec k' k) as [->|Nk].
  - destruct (proj2 Ws k x (or_introl eq_refl)) as (_ & Vx & Nx). destruct (em_neg _ _ _ M x Vx) as (-> & Vn). rewrite !bind_Ok. eexists. split; [reflexivity|]. split; [split; auto|]. split.
    + intros y z [e|Hz].
      * injection e as <- <-. rewrite Lz. unfold zlen. split; [lia|]. split; auto. intros H; apply Nx; apply cong_opp in H; rewrite Z.opp_involutive in H; exact H.
      * apply Bt in Hz. rewrite Lz. destruct Hz as (Hz & Hz'). split; [lia|auto].
    + intros [|n] Hn; cbn [nth length] in *.
      * rewrite Z.add_0_r. cbn [lookup]. rewrite Z.ltb_irrefl, Z.eqb_refl. rewrite H2 by auto. auto.
      * cbn [lookup]. destruct (Z.ltb_spec j (j + Z.of_nat (S n))); [|lia]. rewrite <- Ct' by lia. f_equal. lia.
  - exists t'. split; auto. split; auto. split.
    + intros y z Hz. apply Bt in Hz. rewrite Lz. destruct Hz as (Hz & Hz'). split; [lia|auto].
    + intros [|n] Hn; cbn [nth length] in *.
      * rewrite H1 by auto. rewrite Z.add_0_r. apply lookup_low; auto.
      * rewrite <- Ct' by lia. f_equal. lia.
Qed.
Lemma cent0 : cent p 0.
Proof. pose proof (prime_ge_2 p P). unfold cent. lia. Qed.
Lemma red_em l : incr (keys l) -> (forall k x, In (k, x) l -> V x) ->
  exists l', red_map (e_sc E) l p = Ok l' /\ incr (keys l') /\ (forall k x, In (k, x) l' -> In k (keys l) /\ x <> 0 /\ cent p x) /\ (forall k, cong p (lookup l' k) (lookup l k) /\ cent p (lookup l' k)).
Proof.
  induction l as [|(k, x) l IH]; intros I H; cbn [red_map]; [exists []; split; auto; split; auto; split; [intros ? ? []|intros k; split; [apply cong_refl|apply cent0]]|].
  destruct I as (I1 & I2). destruct (em_mod _ _ _ M x (H _ _ (or_introl eq_refl))) as (a & -> & Ca & Na). rewrite bind_Ok. destruct IH as (l' & -> & J & B & C); [auto|intros; eapply H; right; eauto|]. rewrite bind_Ok. eexists. split; [reflexivity|].
  assert (Lw : forall y, In y (keys l') -> k < y). { intros y Hy. apply in_map_iff in Hy. destruct Hy as ((y0, z) & <- & Hy). apply B in Hy. apply I1, Hy. }
  destruct (Z.eqb_spec a 0) as [->|Za].
  - split; auto. split; [intros k0 x0 Hx; destruct (B _ _ Hx) as (B1 & B2); split; [right; auto|auto]|]. intros y. cbn [lookup]. destruct (Z.ltb_spec k y); [apply C|]. rewrite lookup_low; auto; [|intros z Hz; specialize (Lw z Hz); lia]. split; [|apply cent0]. destruct (Z.eqb_spec k y); [exact Ca|apply cong_refl].
  - split; [split; auto|]. split; [intros k0 x0 [e|Hx]; [injection e as <- <-; split; [left; auto|auto]|destruct (B _ _ Hx) as (B1 & B2); split; [right; auto|auto]]|]. intros y. cbn [lookup]. destruct (Z.ltb_spec k y); [apply C|]. destruct (Z.eqb_spec k y); [auto|]. split; [apply cong_refl|apply cent0].
Qed.
Variable pv : list (nat * nat).
Notation prow := (prow pv).
Notation pcol := (pcol pv).
Lemma pcol_dec c : (exists a, (a < length pv)%nat /\ c = pcol a) \/ (forall a, (a < length pv)%nat -> c <> pcol a).
Proof.
  destruct (in_dec Nat.eq_dec c (map snd pv)) as [H|H].
  - left. apply col_at in H. destruct H as (k & Lk & <-). eauto.
  - right. intros a Ha ->. apply H. apply (in_map snd) with (x := (prow a, pcol a)). apply pv_nth, Ha.
Qed.
Lemma ker_tri st x : core pv st -> inker p nc (length pv) (fun k j => se st (prow k) j) x -> (forall c, (c < nc)%nat -> (forall a, (a < length pv)%nat -> c <> pcol a) -> cong p (x c) 0) -> forall c, (c < nc)%nat -> cong p (x c) 0.
Proof.
  intros K Hx H0. assert (G : forall d k, (k < length pv)%nat -> (length pv - k <= d)%nat -> cong p (x (pcol k)) 0).
  { induction d as [|d IH]; intros k Hk Hd; [lia|]. destruct (k_pv _ _ _ _ _ _ _ K _ _ (pv_nth pv k Hk)) as (_ & Lc & _ & _ & C1). pose proof (Hx k Hk) as Hs. cbv beta in Hs.
    assert (H' : cong p (sumn nc (fun j => se st (prow k) j * x j)) (se st (prow k) (pcol k) * x (pcol k))).
    { apply (sum_one p nc (fun j => se st (prow k) j * x j) (pcol k) Lc). intros j Hj Nj. destruct (pcol_dec j) as [(a & Ha & ->)|Hn].
      - destruct (Nat.lt_trichotomy a k) as [L|[->|L]]; [|congruence|].
        + rewrite <- (Z.mul_0_l (x (pcol a))). apply cong_mul; [|apply cong_refl]. apply (hasnt_se _ _ _ _ _ _ _ _ _ K). apply (tri_nth p V nr nc A0 pv st); auto.
        + rewrite <- (Z.mul_0_r (se st (prow k) (pcol a))). apply cong_mul; [apply cong_refl|]. apply IH; lia.
      - rewrite <- (Z.mul_0_r (se st (prow k) j)). apply cong_mul; [apply cong_refl|]. apply H0; auto. }
    eapply cong_trans; [|eapply cong_trans; [apply cong_sym, H'|exact Hs]]. rewrite <- (Z.mul_1_l (x (pcol k))) at 1. apply cong_mul; [apply cong_sym, C1|apply cong_refl]. }
  intros c Lc. destruct (pcol_dec c) as [(a & Ha & ->)|Hn]; [apply (G (length pv)); lia|apply H0; auto].
Qed.
Definition smok (n : nat) (l : smap) : Prop := incr (keys l) /\ forall k x, In (k, x) l -> 1 <= k <= Z.of_nat n /\ x <> 0 /\ cent p x.
Lemma ker_basis_ok st : fin pv st -> ((length pv < nc)%nat -> forall t, (t < length pv)%nat -> red pv st t) ->
  exists bas pc npc, ker_basis E p st = Ok (bas, map ck pc, map ck npc) /\ length bas = nc /\ splits nc pc npc /\ length pc = length pv /\
    (forall i, (i < nc)%nat -> smok (length npc) (nth i bas [])) /\ kerbasis p nc nr A0 (fun i k => lookup (nth i bas []) (ck k)) npc.
Proof.
  intros F HR. pose proof (proj1 F) as K. unfold ker_basis. cbv zeta. unfold enco. rewrite (k_nc _ _ _ _ _ _ _ K).
  set (f := fun c : nat => -1 <? ce st c). set (pc := filter f (seq 0 nc)). set (npc := filter (fun c => negb (f c)) (seq 0 nc)). pose proof (filter_splits f nc : splits nc pc npc) as SP.
  assert (E1 : flat_map (fun '(i, e) => if -1 <? e then [Z.of_nat i] else []) (combine (seq 1 nc) (ecol st)) = map ck pc).
  { rewrite <- (k_nc _ _ _ _ _ _ _ K) at 1. rewrite (flat_filter (fun e => -1 <? e) (ecol st) 0). rewrite (k_nc _ _ _ _ _ _ _ K). f_equal. apply filter_ext_in. intros c _. rewrite Nat.sub_0_r. reflexivity. }
  assert (E2 : flat_map (fun '(i, e) => if -1 <? e then [] else [Z.of_nat i]) (combine (seq 1 nc) (ecol st)) = map ck npc).
  { rewrite <- (k_nc _ _ _ _ _ _ _ K) at 1. erewrite flat_map_ext; [rewrite (flat_filter (fun e => negb (-1 <? e)) (ecol st) 0)|].
    - rewrite (k_nc _ _ _ _ _ _ _ K). f_equal. apply filter_ext_in. intros c _. rewrite Nat.sub_0_r. reflexivity.
    - intros (i, e). destruct (-1 <? e); reflexivity. }
  rewrite E1, E2. clear E1 E2.
  assert (Pin : forall c, In c pc <-> exists a, (a < length pv)%nat /\ c = pcol a).
  { intros c. unfold pc. rewrite filter_In, in_seq. unfold f. split.
    - intros (Lc & Hc). destruct (k_ce _ _ _ _ _ _ _ K c ltac:(lia)) as [G|G]; [rewrite G in Hc; discriminate|]. apply col_at in G. destruct G as (a & Ha & <-). eauto.
    - intros (a & Ha & ->). destruct (k_pv _ _ _ _ _ _ _ K _ _ (pv_nth pv a Ha)) as (_ & Lc & _ & G & _). rewrite G. split; [lia|]. apply Z.ltb_lt. lia. }
  assert (Nin : forall c, In c npc <-> (c < nc)%nat /\ forall a, (a < length pv)%nat -> c <> pcol a).
  { intros c. split.
    - intros H. unfold npc in H. apply filter_In in H. destruct H as (H1 & H2). apply in_seq in H1. split; [lia|]. intros a Ha e. assert (Hc : In c pc) by (apply Pin; eauto). unfold pc in Hc. apply filter_In in Hc. destruct (f c); [discriminate|destruct Hc; discriminate].
    - intros (Lc & H). unfold npc. apply filter_In. split; [apply in_seq; lia|]. destruct (f c) eqn:Ef; auto. assert (Hc : In c pc) by (unfold pc; apply filter_In; split; [apply in_seq; lia|auto]). apply Pin in Hc. destruct Hc as (a & Ha & e). destruct (H a Ha e). }
  assert (Lpc : length pc = length pv).
  { rewrite <- (map_length snd pv). apply Nat.le_antisymm.
    - apply NoDup_incl_length; [apply NoDup_filter, seq_NoDup|]. intros c Hc. apply Pin in Hc. destruct Hc as (a & Ha & ->). apply (in_map snd) with (x := (prow a, pcol a)). apply pv_nth, Ha.
    - apply NoDup_incl_length; [apply K|]. intros c Hc. apply col_at in Hc. destruct Hc as (a & Ha & <-). apply Pin. eauto. }
  assert (Llen : (length pc + length npc = nc)%nat). { destruct SP as (_ & _ & SP). apply Permutation_length in SP. rewrite app_length, seq_length in SP. lia. }
  assert (NDn : NoDup npc) by (apply NoDup_filter, seq_NoDup). assert (NDp : NoDup pc) by (apply NoDup_filter, seq_NoDup).
  assert (In_n : incr (map ck npc)) by apply map_ck_incr, SP.
  (* the unit rows *)
  set (step1 := fun (b : list smap) '(n, k) => zset b (k - 1) [(Z.of_nat n, 1)]).
  destruct (fold_set nc step1 (fun x : nat * Z => Z.to_nat (snd x - 1)) (fun x t => t = [(Z.of_nat (fst x), 1)]) (combine (seq 1 (length (map ck npc))) (map ck npc))) with (b := repeat ([] : smap) nc) as (b1 & Eb1 & Lb1 & H1 & H1').
  { rewrite <- (map_map snd (fun y => Z.to_nat (y - 1))). assert (Em : forall (l : list Z) s, map snd (combine (seq s (length l)) l) = l) by (induction l; intros s; cbn; [auto|f_equal; auto]). rewrite Em, map_map. rewrite (map_ext _ (fun x => x)), map_id; auto. intros c. unfold ck. lia. }
  { intros (n, k) Hx. apply in_combine_r in Hx. apply in_map_iff in Hx. destruct Hx as (c & <- & Hc). apply Nin in Hc. cbn [snd]. unfold ck. lia. }
  { intros (n, k) b Hx Lb. exists [(Z.of_nat n, 1)]. split; auto. apply in_combine_r in Hx. apply in_map_iff in Hx. destruct Hx as (c & <- & Hc). apply Nin in Hc. unfold step1. cbn [snd]. rewrite zset_ck by (rewrite Lb; apply Hc). replace (Z.to_nat (ck c - 1)) with c by (unfold ck; lia). reflexivity. }
  { apply repeat_length. }
  match goal with |- context [mfold ?f (combine ?a ?b) ?c] => replace (mfold f (combine a b) c) with (Ok b1) by (symmetry; exact Eb1) end. rewrite bind_Ok.
  set (step2 := fun (b : list smap) k => e <- zget (ecol st) (k - 1) ;; l <- zget (erows st) e ;; t <- ker_row E l (map ck npc) 1 ;; zset b (k - 1) t).
  destruct (fold_set nc step2 (fun k => Z.to_nat (k - 1)) (fun k t => exists a, (a < length pv)%nat /\ k = ck (pcol a) /\ ker_row E (rw st (prow a)) (map ck npc) 1 = Ok t) (map ck pc)) with (b := b1) as (b2 & Eb2 & Lb2 & H2 & H2').
  { rewrite map_map. rewrite (map_ext _ (fun x => x)), map_id; auto. intros c. unfold ck. lia. }
  { intros k Hk. apply in_map_iff in Hk. destruct Hk as (c & <- & Hc). apply Pin in Hc. destruct Hc as (a & Ha & ->). destruct (k_pv _ _ _ _ _ _ _ K _ _ (pv_nth pv a Ha)) as (_ & Lc & _). unfold ck. lia. }
  { intros k b Hk Lb. apply in_map_iff in Hk. destruct Hk as (c & <- & Hc). apply Pin in Hc. destruct Hc as (a & Ha & ->). destruct (k_pv _ _ _ _ _ _ _ K _ _ (pv_nth pv a Ha)) as (Lr & Lc & _ & G & C1).
    destruct (ker_row_ok (map ck npc) In_n (rw st (prow a)) 1 (k_row _ _ _ _ _ _ _ K _)) as (t & Et & _). { intros Hn. unfold se in C1. rewrite Hn in C1. cbn in C1. pose proof (prime_ge_2 p P). destruct C1 as (q & Hq). assert (q = 0 \/ q <= -1 \/ 1 <= q) by lia. nia. }
    exists t. split; [exists a; auto|]. unfold step2. rewrite (zget_ck 0) by (rewrite (k_nc _ _ _ _ _ _ _ K); auto). fold (ce st (pcol a)). rewrite bind_Ok, G. rewrite (zget_nat (nil : smap)) by (rewrite (k_nr _ _ _ _ _ _ _ K); auto). rewrite bind_Ok. fold (rw st (prow a)). rewrite Et. rewrite bind_Ok. rewrite zset_ck by (rewrite Lb; auto). replace (Z.to_nat (ck (pcol a) - 1)) with (pcol a) by (unfold ck; lia). reflexivity. }
  { auto. }
  match goal with |- context [mfold ?f ?a b1] => replace (mfold f a b1) with (Ok b2) by (symmetry; exact Eb2) end. rewrite bind_Ok.
  (* the rows before reduction *)
  assert (RN : forall n, (n < length npc)%nat -> nth (nth n npc 0%nat) b2 [] = [(ck n, 1)]).
  { intros n Hn. set (c := nth n npc 0%nat). assert (Hc : In c npc) by (apply nth_In, Hn). rewrite H2'.
    - assert (Hx : In (S n, ck c) (combine (seq 1 (length (map ck npc))) (map ck npc))).
      { replace (S n, ck c) with (nth n (combine (seq 1 (length (map ck npc))) (map ck npc)) (1%nat, ck 0)); [apply nth_In; rewrite combine_length, seq_length, map_length; lia|]. rewrite combine_nth by (rewrite seq_length; auto). rewrite seq_nth by (rewrite map_length; auto). rewrite (map_nth ck). reflexivity. }
      specialize (H1 _ Hx). cbn [fst snd] in H1. replace (Z.to_nat (ck c - 1)) with c in H1 by (unfold ck; lia). rewrite H1. unfold ck. repeat f_equal. lia.
    - rewrite map_map. rewrite (map_ext _ (fun x => x)), map_id by (intros c'; unfold ck; lia). intros Hp. apply Nin in Hc. apply Pin in Hp. destruct Hp as (a & Ha & e). apply (proj2 Hc a Ha e). }
  assert (RP : forall a, (a < length pv)%nat -> let t := nth (pcol a) b2 [] in incr (keys t) /\ (forall y x, In (y, x) t -> 1 <= y <= Z.of_nat (length npc) /\ V x) /\ forall n, (n < length npc)%nat -> lookup t (ck n) = - se st (prow a) (nth n npc 0%nat)).
  { intros a Ha. cbv zeta. destruct (H2 (ck (pcol a))) as (a' & Ha' & e & Et); [apply in_map, Pin; eauto|]. apply ck_inj in e. apply (col_inj p V nr nc A0 pv st) in e; auto. subst a'. replace (Z.to_nat (ck (pcol a) - 1)) with (pcol a) in Et by (unfold ck; lia).
    destruct (k_pv _ _ _ _ _ _ _ K _ _ (pv_nth pv a Ha)) as (_ & _ & _ & _ & C1).
    destruct (ker_row_ok (map ck npc) In_n (rw st (prow a)) 1 (k_row _ _ _ _ _ _ _ K _)) as (t & Et' & It & Bt & Ct). { intros Hn. unfold se in C1. rewrite Hn in C1. cbn in C1. pose proof (prime_ge_2 p P). destruct C1 as (q & Hq). assert (q = 0 \/ q <= -1 \/ 1 <= q) by lia. nia. }
    rewrite Et in Et'. injection Et' as ->. split; auto. split.
    - intros y x Hx. apply Bt in Hx. unfold zlen in Hx. rewrite map_length in Hx. destruct Hx as (Hx1 & Hx2 & _). split; [lia|auto].
    - intros n Hn. replace (ck n) with (1 + Z.of_nat n) by (unfold ck; lia). rewrite Ct by (rewrite map_length; auto). unfold se. f_equal. f_equal. rewrite (nth_indep _ 0 (ck 0)) by (rewrite map_length; auto). apply map_nth. }
  assert (All : forall c, (c < nc)%nat -> incr (keys (nth c b2 [])) /\ forall y x, In (y, x) (nth c b2 []) -> 1 <= y <= Z.of_nat (length npc) /\ V x).
  { intros c Lc. destruct (pcol_dec c) as [(a & Ha & ->)|Hn]; [destruct (RP a Ha) as (Q1 & Q2 & _); auto|]. assert (Hc : In c npc) by (apply Nin; auto). apply (In_nth _ _ 0%nat) in Hc. destruct Hc as (n & Ln & <-). rewrite RN by auto. split; [cbn; tauto|]. intros y x [e|[]]. injection e as <- <-. split; [unfold ck; lia|apply M]. }
  destruct (mmap_ok ([] : smap) ([] : smap) (fun l l' : smap => (incr (keys l') /\ (forall k x, In (k, x) l' -> In k (keys l) /\ x <> 0 /\ cent p x)) /\ (forall k, cong p (lookup l' k) (lookup l k) /\ cent p (lookup l' k))) (fun l => red_map (e_sc E) l p) b2) as (bas & Eb & Lbas & Hb).
  { intros c Hc. rewrite Lb2 in Hc. destruct (All c Hc) as (Q1 & Q2). destruct (red_em (nth c b2 []) Q1) as (l' & El & J & B & C); [intros k x Hx; apply (Q2 k x Hx)|]. exists l'. auto. }
  rewrite Eb. rewrite bind_Ok. exists bas, pc, npc. split; auto. rewrite Lb2 in Hb, Lbas. split; auto. split; auto. split; auto.
  set (Km := fun i k => lookup (nth i bas []) (ck k)).
  split. { intros i Li. destruct (Hb i Li) as ((J & B) & _). split; auto. intros k x Hx. destruct (B k x Hx) as (B1 & B2). split; auto. apply in_map_iff in B1. destruct B1 as ((k0, x0) & <- & B1). apply (proj2 (All i Li) _ _ B1). }
  assert (KD : forall j k, (j < length npc)%nat -> (k < length npc)%nat -> Km (nth j npc 0%nat) k = if Nat.eqb j k then 1 else 0).
  { intros j k Hj Hk. assert (Lj : (nth j npc 0 < nc)%nat) by (apply Nin, nth_In; auto). destruct (Hb _ Lj) as (_ & C). specialize (C (ck k)). rewrite RN in C by auto. fold (Km (nth j npc 0%nat) k) in C. cbn [lookup] in C. destruct C as (C1 & C2). pose proof (prime_ge_2 p P) as P2. unfold cent in C2.
    assert (U : forall d, 0 <= d <= 1 -> cong p (Km (nth j npc 0%nat) k) d -> Km (nth j npc 0%nat) k = d). { intros d Hd (q & Hq). assert (q = 0 \/ q <= -1 \/ 1 <= q) as [->|[G|G]] by lia; [lia| |]; nia. }
    destruct (Nat.eqb_spec j k) as [->|Njk].
    - apply U; [lia|]. rewrite Z.ltb_irrefl, Z.eqb_refl in C1. exact C1.
    - apply U; [lia|]. destruct (ck j <? ck k); auto. destruct (Z.eqb_spec (ck j) (ck k)) as [e|]; auto. apply ck_inj in e. contradiction. }
  assert (KR : forall k, (k < length npc)%nat -> inker p nc (length pv) (fun t j => se st (prow t) j) (fun i => Km i k)).
  { intros k Hk t Ht. cbv beta. assert (Hc : In (nth k npc 0%nat) npc) by (apply nth_In, Hk). set (c := nth k npc 0%nat) in *. apply Nin in Hc. destruct Hc as (Lc & Nc). destruct (k_pv _ _ _ _ _ _ _ K _ _ (pv_nth pv t Ht)) as (_ & Lt & _ & _ & C1).
    eapply cong_trans; [apply (sum_two p nc (fun j => se st (prow t) j * Km j k) (pcol t) c)|]; auto.
    - intros e. apply (Nc t Ht). auto.
    - intros j Hj Nj1 Nj2. destruct (pcol_dec j) as [(a & Ha & ->)|Hn].
      + rewrite <- (Z.mul_0_l (Km (pcol a) k)). apply cong_mul; [|apply cong_refl]. apply (hasnt_se _ _ _ _ _ _ _ _ _ K). apply (HR ltac:(lia) t Ht a Ha). congruence.
      + assert (Hjn : In j npc) by (apply Nin; auto). apply (In_nth _ _ 0%nat) in Hjn. destruct Hjn as (n & Ln & <-). rewrite KD by auto. destruct (Nat.eqb_spec n k) as [e|]; [exfalso; apply Nj2; rewrite e; reflexivity|]. apply cong_eq. ring.
    - cbv beta. destruct (Hb _ Lt) as (_ & C). destruct (C (ck k)) as (C2 & _). destruct (RP t Ht) as (_ & _ & Q). rewrite Q in C2 by auto. fold c in C2. fold (Km (pcol t) k) in C2. unfold c at 2. rewrite KD by auto. rewrite Nat.eqb_refl.
      eapply cong_trans; [apply cong_add; [apply cong_mul; [exact C1|exact C2]|apply cong_refl]|]. apply cong_eq. fold c. ring. }
  pose proof (fin_span p V nr nc A0 pv st F) as SPN. split; [exact KD|]. split.
  - intros k Hk. apply (eqspan_ker p nc _ _ _ _ _ (eqspan_sym p nc _ _ _ _ SPN)). auto.
  - intros x Hx i Hi. pose proof (eqspan_ker p nc _ _ _ _ x SPN Hx) as HRx.
    assert (G : cong p (1 * x i + (-1) * sumn (length npc) (fun k => Km i k * x (nth k npc 0%nat))) 0).
    { apply (ker_tri st (fun i => 1 * x i + (-1) * sumn (length npc) (fun k => Km i k * x (nth k npc 0%nat))) K); auto.
      - apply ker_lin; auto. apply ker_sum. auto.
      - intros c Lc Hn. assert (Hc : In c npc) by (apply Nin; auto). apply (In_nth _ _ 0%nat) in Hc. destruct Hc as (k & Hk & <-). rewrite (sumn_ext (length npc) _ (fun t => dlt t k * x (nth t npc 0%nat))).
        + rewrite sumn_dlt by auto. apply cong_eq. ring.
        + intros t Ht. rewrite KD by auto. unfold dlt. rewrite Nat.eqb_sym. auto. }
    destruct G as [g G]. exists g. fold (Km i). lia.
Qed.
End Null.
