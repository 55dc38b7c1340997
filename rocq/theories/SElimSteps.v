(** The steps 0 to 4 and the standard loop of SElimModel keep the invariant and end. *)
From Coq Require Import ZArith Znumtheory Lia List Bool.
From Verif Require Import Base ArithModel RatModel MArithModel LinModel LinSpec LinProofs SvecModel SmatModel OrdModel OrdSpec OrdProofs OrdMore SElimModel SElimRow SElimInv SElimPivot.
Import ListNotations.
Open Scope Z_scope.
Open Scope res_scope.

(** lists made with flat_map *)
Lemma in_flat_seq {A B} (h : nat * A -> list B) (d : A) l : forall s n, length l = n -> forall x, In x (flat_map h (combine (seq s n) l)) <-> exists i, (i < n)%nat /\ In x (h ((s + i)%nat, nth i l d)).
Proof.
  induction l as [|a l IH]; intros s n <- x; cbn [length seq combine flat_map].
  - cbn. split; [tauto|]. intros (i & Hi & _). lia.
  - rewrite in_app_iff, (IH (S s) (length l) eq_refl). split.
    + intros [H|(i & Hi & H)]; [exists 0%nat; rewrite Nat.add_0_r; split; [lia|exact H]|]. exists (S i). split; [lia|]. cbn [nth]. replace (s + S i)%nat with (S s + i)%nat by lia. exact H.
    + intros ([|i] & Hi & H); [left; rewrite Nat.add_0_r in H; exact H|]. right. exists i. split; [lia|]. cbn [nth] in H. replace (S s + i)%nat with (s + S i)%nat by lia. exact H.
Qed.
Lemma flat_seq_len {A B} (h : nat * A -> list B) l : (forall x, (length (h x) <= 1)%nat) -> (length (flat_map h l) <= length l)%nat.
Proof. intros H. induction l as [|x l IH]; cbn; [lia|]. rewrite app_length. specialize (H x). lia. Qed.
Section Steps.
Variables (E : esc) (p : Z) (V : Z -> Prop) (nr nc : nat) (A0 : nat -> nat -> Z).
Hypothesis M : emod E p V.
Let P : prime p := em_prime _ _ _ M.
Notation wf := (wfrow p V nc).
Notation invx := (inv p V nr nc A0).
Notation inv := (invx nc).
Notation core := (core p V nr nc A0).
Notation cleared := (cleared p V nr nc).
Definition heavy (st : est) : Prop := forall i, (i < nr)%nat -> act st i -> rw st i <> [].

Lemma pv_room pv st r : core pv st -> (r < nr)%nat -> act st r -> (length pv < nr)%nat.
Proof.
  intros K Lr A. assert (H : (length (r :: map fst pv) <= length (seq 0 nr))%nat).
  { apply NoDup_incl_length; [constructor; [intros H; apply (pv_inact _ _ _ _ _ _ _ _ K H); auto|apply K]|]. intros i [<-|Hi]; [apply in_seq; lia|]. apply in_map_iff in Hi. destruct Hi as ((r', c) & <- & H). apply in_seq. cbn. destruct (k_pv _ _ _ _ _ _ _ K r' c H). lia. }
  rewrite seq_length in H. cbn in H. rewrite map_length in H. lia.
Qed.
Lemma finish ex fr pv st st2 r c : invx ex pv st -> (r < nr)%nat -> act st r -> (c < nc)%nat -> has st r c -> cong p (se st r c) 1 -> cleared fr st st2 r c ->
  exists st3 st4, eliminate st2 (Z.of_nat r) (ck c) = Ok st3 /\ inv (pv ++ [(r, c)]) st3 /\ free_space st3 (ck c) = Ok st4 /\ inv (pv ++ [(r, c)]) st4 /\
    erows st3 = erows st2 /\ erows st4 = erows st2 /\ (forall i, i <> r -> po st3 i = po st2 i) /\ (forall i, po st4 i = po st3 i) /\ ~ act st3 r.
Proof.
  intros I Lr A Lc H C1 D. pose proof (i_core _ _ _ _ _ _ _ _ I) as K. pose proof (pv_room _ _ _ K Lr A) as Rm.
  pose proof (k_nr _ _ _ _ _ _ _ K) as Nr. pose proof (k_np _ _ _ _ _ _ _ K) as Np. pose proof (k_nc _ _ _ _ _ _ _ K) as Nc.
  unfold eliminate. rewrite zset_ck by (rewrite (d_ec _ _ _ _ _ _ _ _ _ D); lia). rewrite bind_Ok. rewrite zset_nat by (rewrite (d_np _ _ _ _ _ _ _ _ _ D); lia). rewrite bind_Ok.
  assert (Le : length (erow st2) = length pv) by (rewrite (d_er _ _ _ _ _ _ _ _ _ D), (k_erow _ _ _ _ _ _ _ K), map_length; auto).
  destruct (Nat.ltb_spec (length (erow st2)) (enro st2)) as [_|HH]; [|unfold enro in HH; rewrite (d_nr _ _ _ _ _ _ _ _ _ D) in HH; lia].
  set (st3 := Es (erows st2) (upd (epos st2) r (ck c)) (upd (ecol st2) c (Z.of_nat r)) (erow st2 ++ [Z.of_nat r]) (ecols st2)).
  assert (Pr : po st3 r = ck c) by (unfold po, st3; cbn; apply upd_same; rewrite (d_np _ _ _ _ _ _ _ _ _ D); lia).
  assert (Po : forall i, i <> r -> po st3 i = po st2 i) by (intros i Hi; unfold po, st3; cbn; apply upd_other; auto).
  assert (Na : ~ act st3 r) by (unfold act; rewrite Pr; unfold ck; lia).
  assert (Q : pivoted p V nr nc st st3 r c).
  { constructor.
    - apply D.
    - unfold st3; cbn. rewrite upd_len. apply D.
    - unfold st3; cbn. rewrite upd_len. rewrite (d_ec _ _ _ _ _ _ _ _ _ D). reflexivity.
    - apply (d_row _ _ _ _ _ _ _ _ _ D).
    - exists 1, 1. split; [apply cong_eq; ring|]. intros j. unfold se. change (rw st3 r) with (rw st2 r). rewrite (d_r _ _ _ _ _ _ _ _ _ D). apply cong_eq. ring.
    - unfold se. change (rw st3 r) with (rw st2 r). rewrite (d_r _ _ _ _ _ _ _ _ _ D). exact C1.
    - intros i _ Hi. apply (d_in _ _ _ _ _ _ _ _ _ D i Hi).
    - intros i Ni Ai. destruct (d_act _ _ _ _ _ _ _ _ _ D i Ni Ai) as (m & Hm). exists m. intros j. unfold se at 3. change (rw st3 r) with (rw st2 r). rewrite (d_r _ _ _ _ _ _ _ _ _ D). apply Hm.
    - intros i. apply (d_clr _ _ _ _ _ _ _ _ _ D i).
    - exact Pr.
    - intros i _ Ni. rewrite Po by auto. destruct (d_po _ _ _ _ _ _ _ _ _ D i) as [|(H1 & H2 & H3 & H4)]; auto.
    - unfold ce, st3; cbn. apply upd_same. rewrite (d_ec _ _ _ _ _ _ _ _ _ D). lia.
    - intros d Nd. unfold ce, st3; cbn. rewrite upd_other by auto. rewrite (d_ec _ _ _ _ _ _ _ _ _ D). reflexivity.
    - unfold st3; cbn. rewrite (d_er _ _ _ _ _ _ _ _ _ D). reflexivity. }
  pose proof (core_pivot p V nr nc A0 pv st st3 r c K Lr A Lc H Q) as K3.
  assert (Cs : forall d y, colset nr st3 d y <-> exists i, y = Z.of_nat i /\ (i < nr)%nat /\ i <> r /\ act st i /\ has st2 i d).
  { intros d y. unfold colset. split; intros (i & -> & Hi).
    - destruct Hi as (Li & Ai & Hi). assert (Ni : i <> r) by (intros ->; auto). exists i. split; auto. split; auto. split; auto. split; [|exact Hi]. unfold act in Ai. rewrite Po in Ai by auto. destruct (d_po _ _ _ _ _ _ _ _ _ D i) as [Ep|(_ & Aa & _)]; auto. unfold act. congruence.
    - destruct Hi as (Li & Ni & Ai & Hi). exists i. split; auto. split; auto. split; [|exact Hi]. unfold act. rewrite Po by auto. destruct (d_po _ _ _ _ _ _ _ _ _ D i) as [->|(_ & _ & _ & He)]; auto. unfold has in Hi. rewrite He in Hi. destruct Hi. }
  assert (I3 : inv (pv ++ [(r, c)]) st3).
  { constructor; [exact K3|apply D| |].
    - intros d Ld. destruct (d_col _ _ _ _ _ _ _ _ _ D d Ld) as (l & Hl & Ml). exists l. split; [exact Hl|]. intros y. rewrite Ml, Cs. tauto.
    - intros d Ld _ Cd. assert (Nd : d <> c) by (intros ->; rewrite (q_cec _ _ _ _ _ _ _ _ Q) in Cd; lia). rewrite (q_ce _ _ _ _ _ _ _ _ Q) in Cd by auto. apply (d_idx _ _ _ _ _ _ _ _ _ D d Ld Nd Cd). }
  exists st3, (set_cols st3 (upd (ecols st3) c (onew 0))). split; [reflexivity|]. split; auto. split; [unfold free_space; rewrite zset_ck by (rewrite (i_ncs _ _ _ _ _ _ _ _ I3); lia); reflexivity|].
  split; [|auto 6]. constructor.
  - destruct K3. constructor; auto.
  - cbn. rewrite upd_len. apply D.
  - intros d Ld. destruct (Nat.eq_dec d c) as [->|Nd].
    + unfold cl. cbn. rewrite upd_same by (rewrite (d_ncs _ _ _ _ _ _ _ _ _ D); lia). exists []. split; [apply onew_holds|]. intros y. split; [intros []|]. intros Hy. change (colset nr st3 c y) in Hy. apply Cs in Hy. destruct Hy as (i & _ & Li & Ni & Ai & Hi). apply (d_clr _ _ _ _ _ _ _ _ _ D i Li Ni Ai Hi).
    + unfold cl. cbn. rewrite upd_other by auto. apply (i_col _ _ _ _ _ _ _ _ I3 d Ld).
  - intros d Ld Xd Cd. unfold cl. cbn. destruct (Nat.eq_dec d c) as [->|Nd]; [rewrite upd_same by (rewrite (d_ncs _ _ _ _ _ _ _ _ _ D); lia); reflexivity|]. rewrite upd_other by auto. apply (i_idx _ _ _ _ _ _ _ _ I3 d Ld Xd Cd).
Qed.
Lemma rw_erows st st' i : erows st' = erows st -> rw st' i = rw st i.
Proof. intros H. unfold rw. rewrite H. reflexivity. Qed.
Lemma keys_nil l l' : keys l' = keys l -> l <> [] -> l' <> [].
Proof. intros H N ->. destruct l; [auto|discriminate]. Qed.
Lemma pivot_ok ex (B : Z -> Prop) fr fc Mx pv st r c L li : (fr = true -> forall i, (i < nr)%nat -> B (Z.of_nat i)) -> (fc = true -> forall k, 1 <= k <= Z.of_nat nc -> B k) -> ex = c \/ ex = nc ->
  invx ex pv st -> (r < nr)%nat -> act st r -> (c < nc)%nat -> has st r c -> liok nc Mx li ->
  exists st' L' li', pivot E p st (Z.of_nat r) (ck c) L fr fc Mx li = Ok (st', (L', li')) /\ inv (pv ++ [(r, c)]) st' /\ qext B L (nr + nc) L' /\ liok nc Mx li' /\ (fr = true -> heavy st -> heavy st').
Proof.
  intros HBr HBc Xe I Lr A Lc H Y. unfold pivot. destruct (normalize_ok E p V nr nc A0 ex M pv st r c I Lr A H) as (st1 & -> & I1 & C1 & P1 & _ & _ & K1). rewrite bind_Ok.
  assert (A1 : act st1 r) by (unfold act; rewrite P1; exact A). assert (H1 : has st1 r c) by (unfold has; rewrite K1; exact H).
  destruct (clear_col_ok E p V nr nc A0 ex M B fr fc Mx pv st1 r c L li HBr HBc Xe I1 Lr A1 Lc H1 C1 Y) as (st2 & L' & li' & -> & D & Q & Y'). rewrite bind_Ok.
  destruct (finish ex fr pv st1 st2 r c I1 Lr A1 Lc H1 C1 D) as (st3 & st4 & -> & _ & F1 & I4 & R3 & R4 & P3 & P4 & N3). rewrite bind_Ok, F1, bind_Ok. exists st4, L', li'. split; [reflexivity|]. split; auto. split; auto. split; auto.
  intros F HH i Li Ai. assert (Ni : i <> r) by (intros ->; apply N3; unfold act in *; rewrite <- P4; auto). rewrite (rw_erows st2 st4 i R4).
  assert (A2 : act st2 i) by (unfold act in *; rewrite <- P3, <- P4; auto). apply (d_fr _ _ _ _ _ _ _ _ _ D F i Li Ni A2). apply (keys_nil (rw st i)); auto. apply HH; auto.
  destruct (d_po _ _ _ _ _ _ _ _ _ D i) as [Ep|(_ & Aa & _)]; unfold act in *; rewrite <- P1; auto. congruence.
Qed.
(** ** running the loops: the measure *)
Definition mu (st : est) : Z := Z.of_nat nr - Z.of_nat (length (erow st)).
Lemma mu_pos pv st : core pv st -> 0 <= mu st <= Z.of_nat nr.
Proof. intros K. unfold mu. rewrite (k_erow _ _ _ _ _ _ _ K), map_length. pose proof (pv_len _ _ _ _ _ _ _ K). lia. Qed.
Lemma mu_snoc pv r c st st' : core pv st -> core (pv ++ [(r, c)]) st' -> mu st' = mu st - 1.
Proof. intros K K'. unfold mu. rewrite (k_erow _ _ _ _ _ _ _ K), (k_erow _ _ _ _ _ _ _ K'), !map_length, app_length. cbn. lia. Qed.
Lemma pow_big n : n + 1 <= 2 ^ n \/ n < 0.
Proof. destruct (Z.le_gt_cases 0 n) as [H|H]; [left|lia]. revert n H. apply (natlike_ind (fun n => n + 1 <= 2 ^ n)); [cbn; lia|]. intros n Hn IH. rewrite Z.pow_succ_r by lia. lia. Qed.
Lemma fuel_ok pv st q : core pv st -> 0 <= q <= Z.of_nat (nr + nc) -> mu st * Z.of_nat (nr + nc + 1) + q < 2 ^ Z.of_nat (efuel st).
Proof.
  intros K Hq. pose proof (mu_pos _ _ K) as Hm. unfold efuel, enro, enco. rewrite (k_nr _ _ _ _ _ _ _ K), (k_nc _ _ _ _ _ _ _ K). set (n := Z.of_nat (nr + nc)) in *. replace (Z.of_nat (nr + nc + 1)) with (n + 1) by lia.
  replace (Z.of_nat (2 * (nr + nc) + 4)) with (n + n + 4) by lia. rewrite !Z.pow_add_r by lia. destruct (pow_big n) as [G|G]; [|lia]. change (2 ^ 4) with 16.
  assert (mu st <= n) by lia. assert ((n + 1) * (n + 1) <= 2 ^ n * 2 ^ n) by (apply Z.mul_le_mono_nonneg; lia). assert (mu st * (n + 1) <= n * (n + 1)) by (apply Z.mul_le_mono_nonneg_r; lia). nia.
Qed.
Lemma while_inv (step : est * list Z -> res ((est * list Z) + est)) (Inv : est -> list Z -> Prop) :
  (forall st L, Inv st L -> exists pv, inv pv st) ->
  (forall st, Inv st [] -> step (st, []) = Ok (inr st)) ->
  (forall st x L, Inv st (x :: L) -> exists st' L', step (st, x :: L) = Ok (inl (st', L')) /\ Inv st' L' /\
     ((mu st' = mu st /\ (length L' <= length L)%nat) \/ (mu st' <= mu st - 1 /\ (length L' <= length L + (nr + nc))%nat))) ->
  forall st L, Inv st L -> (length L <= nr + nc)%nat -> exists st', while step (efuel st) (st, L) = Ok st' /\ Inv st' [].
Proof.
  intros HI H0 H1 st L I Ln.
  destruct (while_total step (fun s => Inv (fst s) (snd s)) (fun r => Inv r []) (fun s => mu (fst s) * Z.of_nat (nr + nc + 1) + Z.of_nat (length (snd s)))) with (n := efuel st) (s := (st, L)) as (r & Er & Hr); auto.
  - intros (s & l) Hs. cbn [fst snd] in *. destruct (HI s l Hs) as (pv & Ip). pose proof (mu_pos _ _ (i_core _ _ _ _ _ _ _ _ Ip)). nia.
  - intros (s & [|x l]) Hs; cbn [fst snd] in *; [left; exists s; auto|]. right. destruct (H1 s x l Hs) as (s' & l' & Es & Is & Hm). exists (s', l'). cbn [fst snd length]. split; auto. split; auto.
    destruct Hm as [(-> & Hl)|(Hm & Hl)]; [lia|]. rewrite Nat2Z.inj_succ. assert (mu s' * Z.of_nat (nr + nc + 1) <= (mu s - 1) * Z.of_nat (nr + nc + 1)) by (apply Z.mul_le_mono_nonneg_r; lia). lia.
  - cbn [fst snd]. destruct (HI st L I) as (pv & Ip). apply (fuel_ok pv); [apply Ip|lia].
  - exists r. auto.
Qed.
Lemma qext_len B L n L' : qext B L n L' -> (length L' <= length L + n)%nat.
Proof. intros (ex & -> & H & _). rewrite app_length. lia. Qed.
Lemma qext_forall B L n L' : Forall B L -> qext B L n L' -> Forall B L'.
Proof. intros F (ex & -> & _ & H). apply Forall_app. auto. Qed.
(** ** choosing the pivots *)
Definition light1 (st : est) (d : nat) : Prop := forall i j, (i < nr)%nat -> (j < nr)%nat -> act st i -> has st i d -> act st j -> has st j d -> i = j.
Lemma opost_pos o (Q : Z -> Prop) : opost o Q -> ((0 < onum o)%nat <-> exists y, Q y).
Proof.
  intros (l & (_ & N & _) & Ml). split.
  - intros H. destruct l as [|y l]; [cbn in N; lia|]. exists y. apply Ml. left; auto.
  - intros (y & Hy). apply Ml in Hy. destruct l; [destruct Hy|cbn in N; lia].
Qed.
Lemma opost_one o (Q : Z -> Prop) : opost o Q -> (onum o = 1%nat <-> (exists y, Q y) /\ forall y z, Q y -> Q z -> y = z).
Proof.
  intros (l & (I & N & _) & Ml). split.
  - intros H. destruct l as [|y [|z l]]; cbn in N; try lia. split; [exists y; apply Ml; left; auto|]. intros a b Ha Hb. apply Ml in Ha, Hb. destruct Ha as [<-|[]], Hb as [<-|[]]. auto.
  - intros ((y & Hy) & U). apply Ml in Hy. destruct l as [|a [|b l]]; [destruct Hy|auto|]. destruct I as (I1 & _). specialize (I1 b (or_introl eq_refl)). assert (a = b) by (apply U; apply Ml; cbn; auto). lia.
Qed.
Lemma light_colset st d : light1 st d <-> forall y z, colset nr st d y -> colset nr st d z -> y = z.
Proof.
  unfold light1, colset. split.
  - intros H y z (i & -> & H1 & H2 & H3) (j & -> & H4 & H5 & H6). f_equal. apply H; auto.
  - intros H i j H1 H2 H3 H4 H5 H6. apply Nat2Z.inj, H; [exists i|exists j]; auto.
Qed.
Lemma first_at pv st d : inv pv st -> (d < nc)%nat -> (0 < onum (cl st d))%nat -> exists r, (r < nr)%nat /\ act st r /\ has st r d /\ ~ In d (map snd pv) /\
  onext (cl st d) = Ok (Z.of_nat r, Ol (oarr (cl st d)) (onum (cl st d)) 1) /\
  invx d pv (set_cols st (upd (ecols st) d (Ol (oarr (cl st d)) (onum (cl st d)) 1))).
Proof.
  intros I Ld H0. pose proof (i_core _ _ _ _ _ _ _ _ I) as K. destruct (i_col _ _ _ _ _ _ _ _ I d Ld) as (l & Hl & Ml). pose proof Hl as (_ & N & _). assert (L0 : (0 < length l)%nat) by lia. pose proof (nth_In l 0 L0) as Hy. apply Ml in Hy. destruct Hy as (r & Er & Lr & Ar & Hr).
  pose proof (act_free _ _ _ _ _ _ _ _ _ K Lr Ar Hr) as Nd. assert (Cd : ce st d = -1) by (destruct (k_ce _ _ _ _ _ _ _ K d Ld); [auto|tauto]). assert (X0 : oidx (cl st d) = 0%nat) by (apply I; auto; lia).
  exists r. split; auto. split; auto. split; auto. split; auto. split; [rewrite (onext_at _ l 0 Hl L0 X0), Er; reflexivity|]. constructor.
  - destruct K. constructor; auto.
  - cbn. rewrite upd_len. apply I.
  - intros c Lc. unfold cl at 1. cbn. destruct (Nat.eq_dec c d) as [->|Nc]; [rewrite upd_same by (rewrite (i_ncs _ _ _ _ _ _ _ _ I); auto); exists l; split; [exact Hl|exact Ml]|]. rewrite upd_other by auto. apply (i_col _ _ _ _ _ _ _ _ I c Lc).
  - intros c Lc Nc Cc. unfold cl. cbn. rewrite upd_other by auto. apply I; auto. lia.
Qed.
Lemma cols_with_in f st k : length (ecols st) = nc -> length (ecol st) = nc -> (In k (cols_with f st) <-> exists d, k = ck d /\ (d < nc)%nat /\ f (Z.of_nat (onum (cl st d))) = true).
Proof.
  intros H1 H2. unfold cols_with, enco. rewrite (in_flat_seq _ (onew 0)) by lia. rewrite H2. split.
  - intros (d & Ld & H). fold (cl st d) in H. destruct (f _) eqn:Ef; [|destruct H]. destruct H as [<-|[]]. exists d. auto.
  - intros (d & -> & Ld & H). exists d. split; auto. fold (cl st d). rewrite H. left. reflexivity.
Qed.
Lemma cols_with_len f st : length (ecols st) = nc -> length (ecol st) = nc -> (length (cols_with f st) <= nc)%nat.
Proof. intros H1 H2. unfold cols_with, enco. eapply Nat.le_trans; [apply flat_seq_len; intros (i, l); destruct (f _); cbn; lia|]. rewrite combine_length, seq_length. lia. Qed.
Lemma light_rows_in st w a k : length (erows st) = nr -> length (epos st) = nr -> (In k (light_rows st w a) <-> exists i, k = Z.of_nat i /\ (i < nr)%nat /\ (length (rw st i) < w)%nat /\ (a = true -> act st i)).
Proof.
  intros H1 H2. unfold light_rows, enro. rewrite (in_flat_seq _ (nil, 0)) by (rewrite combine_length; lia). rewrite H1. split.
  - intros (i & Li & H). rewrite combine_nth in H by exact (eq_trans H1 (eq_sym H2)). cbn beta iota in H. change (@nth (list (Z * Z)) i (erows st) nil) with (rw st i) in H. fold (po st i) in H. destruct (Nat.ltb_spec (length (rw st i)) w) as [Lw|Lw]; [|destruct H]. cbn [andb] in H. exists i. destruct (Z.eqb_spec (po st i) (-1)) as [Pa|Pa], a; cbn in H; try (destruct H as [<-|[]]; auto); try tauto. split; auto. split; auto. split; auto. discriminate.
  - intros (i & -> & Li & Lw & Ha). exists i. split; auto. rewrite combine_nth by exact (eq_trans H1 (eq_sym H2)). cbn beta iota. change (@nth (list (Z * Z)) i (erows st) nil) with (rw st i). fold (po st i). destruct (Nat.ltb_spec (length (rw st i)) w) as [_|]; [|lia]. cbn [andb]. destruct a; cbn; [|left; auto]. rewrite (Ha eq_refl). left. reflexivity.
Qed.
Lemma light_rows_len st w a : length (erows st) = nr -> length (epos st) = nr -> (length (light_rows st w a) <= nr)%nat.
Proof. intros H1 H2. unfold light_rows, enro. eapply Nat.le_trans; [apply flat_seq_len; intros (i, (l, q)); destruct (_ && _); cbn; lia|]. rewrite !combine_length, seq_length. lia. Qed.
(** ** step 1 *)
Definition inv1 (st : est) (L : list Z) : Prop := exists pv, inv pv st /\ heavy st /\ Forall (fun k => exists d, k = ck d /\ (d < nc)%nat /\ light1 st d) L.
Lemma step1_ok pv st : inv pv st -> heavy st -> exists st', step1 E p st = Ok st' /\ exists pv', inv pv' st' /\ heavy st'.
Proof.
  intros I HV. pose proof (i_core _ _ _ _ _ _ _ _ I) as K. pose proof (i_ncs _ _ _ _ _ _ _ _ I) as N. pose proof (k_nc _ _ _ _ _ _ _ K) as Nc.
  destruct (while_inv (step1_body E p) inv1) with (st := st) (L := cols_with (fun w => w =? 1) st) as (st' & Es & (pv' & I' & H' & _)).
  - intros s L (q & Iq & _). eauto.
  - reflexivity.
  - clear pv st I HV K N Nc. intros st x L (pv & I & HV & FL). inversion FL as [|? ? (d & -> & Ld & W1) FL' e1]; subst. pose proof (i_core _ _ _ _ _ _ _ _ I) as K. pose proof (i_ncs _ _ _ _ _ _ _ _ I) as N.
    unfold step1_body. rewrite (zget_ck (onew 0)) by lia. fold (cl st d). rewrite bind_Ok. destruct (Nat.ltb_spec (onum (cl st d)) 1) as [O1|O1].
    { exists st, L. split; [reflexivity|]. split; [exists pv; auto|]. left. auto. }
    destruct (first_at pv st d I Ld ltac:(lia)) as (r & Lr & Ar & Hr & Nd & -> & I1). rewrite bind_Ok. rewrite zset_ck by lia. rewrite bind_Ok. set (st1 := set_cols st _) in *.
    destruct (normalize_ok E p V nr nc A0 d M pv st1 r d I1 Lr Ar Hr) as (st2 & -> & I2 & C2 & P2 & Q2 & R2 & K2). rewrite bind_Ok. rewrite (zget_nat (nil : smap)) by (rewrite (k_nr _ _ _ _ _ _ _ (i_core _ _ _ _ _ _ _ _ I2)); auto). fold (rw st2 r). rewrite bind_Ok.
    assert (A2 : forall i, act st2 i <-> act st i) by (intros i; unfold act; rewrite P2; reflexivity). assert (H2 : forall i c, has st2 i c <-> has st i c) by (intros i c; unfold has; rewrite K2; reflexivity).
    assert (W2 : onum (cl st2 d) = 1%nat). { unfold cl. rewrite Q2. unfold st1. cbn. rewrite upd_same by lia. cbn [onum]. apply (opost_one _ _ (i_col _ _ _ _ _ _ _ _ I d Ld)). split; [exists (Z.of_nat r); apply colset_nat; auto|]. apply light_colset, W1. }
    set (B := fun k => exists c, k = ck c /\ (c < nc)%nat /\ forall i j, (i < nr)%nat -> (j < nr)%nat -> i <> r -> j <> r -> act st i -> has st i c -> act st j -> has st j c -> i = j).
    assert (B1 : forall k, In k L -> B k). { intros k Hk. rewrite Forall_forall in FL'. destruct (FL' k Hk) as (c & -> & Lc & Wc). exists c. split; auto. }
    destruct (clear_one p V nr nc A0 d B (fun s k l => w <- weight s k ;; Ok (if w =? 1 then l ++ [k] else l)) (qext B L) true pv st2 r d L 0 I2 Lr (proj2 (A2 r) Ar) Ld (proj2 (H2 r d) Hr) (or_introl eq_refl) W2) as (st3 & L' & Eq & D & Q & R3 & P3).
    + intros cs c n l Lcs Lc Po Hl. rewrite weight_ck by (cbn; lia). rewrite bind_Ok. eexists. split; [reflexivity|]. unfold cl. cbn. destruct (Z.eqb_spec (Z.of_nat (onum (nth c cs (onew 0)))) 1) as [Ow|Ow]; [|apply qext_S; auto]. apply qext_snoc; auto.
      exists c. split; auto. split; auto. intros i j Li Lj Ni Nj Ai Hi Aj Hj. apply Nat2Z.inj. apply (proj1 (opost_one _ _ Po) ltac:(lia)); (split; [lia|]); apply colset_nat; (split; [auto|]); split; try (apply A2; auto); apply H2; auto.
    + apply qext_0.
    + rewrite Eq, bind_Ok. destruct (finish d true pv st2 st3 r d I2 Lr (proj2 (A2 r) Ar) Ld (proj2 (H2 r d) Hr) C2 D) as (st4 & _ & -> & I4 & _ & _ & R4 & _ & P4 & _ & N4). rewrite bind_Ok. exists st4, L'. split; [reflexivity|].
      assert (Rw : forall i, rw st4 i = rw st2 i) by (intros i; unfold rw; rewrite R4, R3; reflexivity). assert (Aw : forall i, act st4 i -> i <> r /\ act st i). { intros i Ai. assert (Ni : i <> r) by (intros ->; auto). split; auto. apply A2. unfold act, po in *. rewrite <- P3, <- P4; auto. }
      split; [|right; split; [rewrite (mu_snoc pv r d st st4 K (i_core _ _ _ _ _ _ _ _ I4)); lia|]].
      * exists (pv ++ [(r, d)]). split; auto. split.
        -- intros i Li Ai. rewrite Rw. apply (keys_nil (rw st i)); [rewrite K2; reflexivity|]. apply HV; auto. apply Aw; auto.
        -- assert (FB : Forall B L') by (apply (qext_forall B L (0 + length (rw st2 r)) L'); [apply Forall_forall; exact B1|exact Q]). eapply Forall_impl; [|exact FB]. intros k (c & -> & Lc & Hc). exists c. split; auto. split; auto.
           intros i j Li Lj Ai Hi Aj Hj. destruct (Aw i Ai) as (Ni & Ai'), (Aw j Aj) as (Nj & Aj'). unfold has in Hi, Hj. rewrite Rw in Hi, Hj. apply Hc; auto; apply H2; auto.
      * apply qext_len in Q. pose proof (row_len p V nc _ (k_row _ _ _ _ _ _ _ (i_core _ _ _ _ _ _ _ _ I2) r)). lia.
  - exists pv. split; auto. split; auto. apply Forall_forall. intros k Hk. apply cols_with_in in Hk; auto. destruct Hk as (d & -> & Ld & Hw). exists d. split; auto. split; auto. apply light_colset. apply (opost_one _ _ (i_col _ _ _ _ _ _ _ _ I d Ld)). apply Z.eqb_eq in Hw. lia.
  - pose proof (cols_with_len (fun w => w =? 1) st N Nc). lia.
  - exists st'. split; [exact Es|]. eauto.
Qed.
(** ** step 2 *)
Lemma step2_ok pv st : inv pv st -> heavy st -> exists st', step2 E p st = Ok st' /\ exists pv', inv pv' st' /\ heavy st'.
Proof.
  intros I HV. pose proof (i_core _ _ _ _ _ _ _ _ I) as K. pose proof (k_nr _ _ _ _ _ _ _ K) as N1. pose proof (k_np _ _ _ _ _ _ _ K) as N2. set (B := fun k => exists i, k = Z.of_nat i /\ (i < nr)%nat).
  destruct (while_inv (step2_body E p) (fun s L => exists q, inv q s /\ heavy s /\ Forall B L)) with (st := st) (L := light_rows st 3 true) as (st' & Es & (pv' & I' & H' & _)).
  - intros s L (q & Iq & _). eauto.
  - reflexivity.
  - clear pv st I HV K N1 N2. intros st x L (pv & I & HV & FL). inversion FL as [|? ? (r & -> & Lr) FL' e1]; subst. pose proof (i_core _ _ _ _ _ _ _ _ I) as K. pose proof (k_nr _ _ _ _ _ _ _ K) as N1. pose proof (k_np _ _ _ _ _ _ _ K) as N2.
    unfold step2_body. rewrite (zget_nat 0) by lia. fold (po st r). rewrite bind_Ok. destruct (Z.eqb_spec (po st r) (-1)) as [A|A]; [|exists st, L; split; [reflexivity|]; split; [exists pv; auto|]; left; auto].
    rewrite (zget_nat (nil : smap)) by lia. fold (rw st r). rewrite bind_Ok. destruct (rw st r) as [|(k, v) t] eqn:Er; [exfalso; apply (HV r); auto|]. cbn. destruct (has_range p V nr nc A0 pv st r k K) as (c & -> & Lc & Hc); [rewrite Er; left; reflexivity|].
    destruct (pivot_ok nc B true false 0 pv st r c L []) as (st' & L' & li' & -> & I' & Q & _ & HV'); auto; [intros _ i Hi; exists i; auto|discriminate|intros H; lia|]. cbn. exists st', L'. split; [reflexivity|]. split; [|right; split].
    + exists (pv ++ [(r, c)]). split; auto. split; auto. apply (qext_forall B L _ L' FL' Q).
    + rewrite (mu_snoc pv r c st st' K (i_core _ _ _ _ _ _ _ _ I')). lia.
    + apply (qext_len B). exact Q.
  - exists pv. split; auto. split; auto. apply Forall_forall. intros k Hk. apply light_rows_in in Hk; auto. destruct Hk as (i & -> & Li & _). exists i. auto.
  - pose proof (light_rows_len st 3 true N1 N2). lia.
  - exists st'. split; [exact Es|]. eauto.
Qed.
(** ** step 3 *)
Lemma first_row_ok pv st d : inv pv st -> (d < nc)%nat -> (0 < onum (cl st d))%nat -> exists st1 r, first_row st (ck d) = Ok (st1, Z.of_nat r) /\ (r < nr)%nat /\ act st1 r /\ has st1 r d /\ invx d pv st1 /\ erow st1 = erow st.
Proof.
  intros I Ld H0. destruct (first_at pv st d I Ld H0) as (r & Lr & Ar & Hr & Nd & En & I1). unfold first_row. rewrite (zget_ck (onew 0)) by (rewrite (i_ncs _ _ _ _ _ _ _ _ I); auto). fold (cl st d). rewrite bind_Ok, En, bind_Ok. rewrite zset_ck by (rewrite (i_ncs _ _ _ _ _ _ _ _ I); auto). rewrite bind_Ok.
  eexists _, r. split; [reflexivity|]. split; auto.
Qed.
Lemma mu_erow st st' : erow st' = erow st -> mu st' = mu st.
Proof. intros H. unfold mu. rewrite H. reflexivity. Qed.
Lemma step3_ok pv st : inv pv st -> exists st', step3 E p st = Ok st' /\ exists pv', inv pv' st'.
Proof.
  intros I. pose proof (i_core _ _ _ _ _ _ _ _ I) as K. pose proof (i_ncs _ _ _ _ _ _ _ _ I) as N. pose proof (k_nc _ _ _ _ _ _ _ K) as Nc. set (B := fun k => exists d, k = ck d /\ (d < nc)%nat).
  destruct (while_inv (step3_body E p) (fun s L => exists q, inv q s /\ Forall B L)) with (st := st) (L := rev (cols_with (fun w => (w =? 2) || (w =? 1)) st)) as (st' & Es & (pv' & I' & _)).
  - intros s L (q & Iq & _). eauto.
  - reflexivity.
  - clear pv st I K N Nc. intros st x L (pv & I & FL). inversion FL as [|? ? (c & -> & Lc) FL' e1]; subst. pose proof (i_core _ _ _ _ _ _ _ _ I) as K. pose proof (i_ncs _ _ _ _ _ _ _ _ I) as N.
    unfold step3_body. rewrite weight_ck by lia. rewrite bind_Ok. destruct (Z.ltb_spec (Z.of_nat (onum (cl st c))) 1) as [W|W]; [exists st, L; split; [reflexivity|]; split; [exists pv; auto|]; left; auto|].
    destruct (first_row_ok pv st c I Lc ltac:(lia)) as (st1 & r & -> & Lr & Ar & Hr & I1 & R1). rewrite bind_Ok.
    destruct (pivot_ok c B false true 0 pv st1 r c L []) as (st' & L' & li' & -> & I' & Q & _ & _); auto; [discriminate|intros _ k Hk; exists (Z.to_nat (k - 1)); unfold ck; split; lia|intros H; lia|]. rewrite bind_Ok. exists st', L'. split; [reflexivity|]. split; [|right; split].
    + exists (pv ++ [(r, c)]). split; auto. apply (qext_forall B L _ L' FL' Q).
    + rewrite (mu_snoc pv r c st1 st' (i_core _ _ _ _ _ _ _ _ I1) (i_core _ _ _ _ _ _ _ _ I')), (mu_erow st st1 R1). lia.
    + apply (qext_len B). exact Q.
  - exists pv. split; auto. apply Forall_rev. apply Forall_forall. intros k Hk. apply cols_with_in in Hk; auto. destruct Hk as (i & -> & Li & _). exists i. auto.
  - rewrite rev_length. pose proof (cols_with_len (fun w => (w =? 2) || (w =? 1)) st N Nc). lia.
  - exists st'. split; [exact Es|]. eauto.
Qed.
End Steps.
