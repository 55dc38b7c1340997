(** Proofs about OrdModel. *)
From Coq Require Import ZArith Lia List Bool.
From Verif Require Import Base LinModel LinSpec LinProofs LinAlg SmatModel OrdModel OrdSpec.
Import ListNotations.
Open Scope Z_scope.
Open Scope res_scope.

Lemma incr_nth c : incr c -> forall i j, (i < j < length c)%nat -> nth i c 0 < nth j c 0.
Proof.
  induction c as [|x c IH]; intros H i j Hij; cbn [length] in Hij; [lia|]. destruct H as (H1 & H2). destruct i, j; cbn [nth]; try lia.
  - apply H1, nth_In. lia.
  - apply IH; auto. lia.
Qed.
Lemma nth_incr c : (forall i j, (i < j < length c)%nat -> nth i c 0 < nth j c 0) -> incr c.
Proof.
  induction c as [|x c IH]; intros H; cbn [incr]; auto. split.
  - intros y Hy. apply (In_nth _ _ 0) in Hy. destruct Hy as (j & Hj & <-). apply (H 0%nat (S j)). cbn [length]. lia.
  - apply IH. intros i j Hij. apply (H (S i) (S j)). cbn [length]. lia.
Qed.
Lemma incr_app a b : incr (a ++ b) <-> incr a /\ incr b /\ forall x y, In x a -> In y b -> x < y.
Proof.
  induction a as [|x a IH]; cbn [app incr].
  - split; [intros H; split; auto; split; auto; intros ? ? []|tauto].
  - rewrite IH. split.
    + intros (H1 & H2 & H3 & H4). split; [split; auto; intros y Hy; apply H1, in_or_app; auto|]. split; auto. intros u v [<-|Hu] Hv; [apply H1, in_or_app; auto|auto].
    + intros ((H1 & H2) & H3 & H4). split; [|split; auto; split; auto; intros u v Hu Hv; apply H4; auto; right; auto]. intros y Hy. apply in_app_or in Hy. destruct Hy; auto. apply H4; auto. left; auto.
Qed.
(** the array holds c from position s to position e (exclusive) *)
Definition cells (a : list (option Z)) (c : list Z) (s e : nat) : Prop := forall j, (s <= j < e)%nat -> nth_error a j = Some (Some (nth j c 0)).
Lemma holds_cells l c : holds l c -> cells (oarr l) c 0 (length c) /\ (length c <= ocap l)%nat.
Proof.
  intros (_ & _ & E). assert (L : length (firstn (length c) (oarr l)) = length c) by (rewrite E, map_length; reflexivity). rewrite firstn_length in L. unfold ocap. split; [|lia].
  intros j Hj. rewrite <- (firstn_skipn (length c) (oarr l)), E. rewrite nth_error_app1 by (rewrite map_length; lia). rewrite nth_error_map. rewrite (nth_error_nth' c 0) by lia. reflexivity.
Qed.
Lemma cells_holds a c n idx : cells a c 0 (length c) -> n = length c -> incr c -> holds (Ol a n idx) c.
Proof.
  intros H -> I. split; auto. split; auto. cbn [oarr]. clear I. assert (L : forall j, nth_error (firstn (length c) a) j = nth_error (map Some c) j).
  { intros j. destruct (Nat.lt_ge_cases j (length c)) as [Hj|Hj].
    - assert (Q : nth_error (firstn (length c) a) j = nth_error a j).
      { clear H. revert a j Hj. induction (length c) as [|k IH]; intros [|y a] [|j] Hj; cbn [firstn nth_error]; auto; try lia. apply IH. lia. }
      rewrite Q, H by lia. rewrite nth_error_map, (nth_error_nth' c 0) by lia. reflexivity.
    - assert (Q : nth_error (map Some c) j = None) by (apply nth_error_None; rewrite map_length; lia). rewrite Q. apply nth_error_None. rewrite firstn_length. lia. }
  revert L. generalize (firstn (length c) a) (map Some c). clear. intros l. induction l as [|x l IH]; intros [|y m] H; auto.
  - specialize (H 0%nat). discriminate.
  - specialize (H 0%nat). discriminate.
  - f_equal; [specialize (H 0%nat); cbn in H; congruence|apply IH; intros j; apply (H (S j))].
Qed.
Lemma oget_cell l c s e i : cells (oarr l) c s e -> Z.of_nat s <= i < Z.of_nat e -> oget l i = Ok (nth (Z.to_nat i) c 0).
Proof. intros H Hi. unfold oget, rdm. destruct (Z.ltb_spec i 0); [lia|]. rewrite (H (Z.to_nat i)) by lia. reflexivity. Qed.

(** find *)
Lemma ofind_loop_ok l c x s e : incr c -> cells (oarr l) c s e -> (e <= length c)%nat -> forall n lb ub, Z.of_nat s <= lb <= ub -> ub < Z.of_nat e -> x <= nth (Z.to_nat ub) c 0 -> (ub - lb < Z.of_nat n) ->
  exists i, ofind_loop n l x lb ub = Ok i /\ lb <= i <= ub /\ (forall j, lb <= Z.of_nat j < i -> nth j c 0 < x) /\ (forall j, i <= Z.of_nat j -> (j < e)%nat -> x <= nth j c 0).
Proof.
  intros I C Le. assert (Mo : forall i j, (i <= j < length c)%nat -> nth i c 0 <= nth j c 0) by (intros i j Hij; destruct (Nat.eq_dec i j) as [->|]; [lia|pose proof (incr_nth c I i j ltac:(lia)); lia]).
  induction n; intros lb ub Hlb Hub Hx Hn; [lia|]. cbn [ofind_loop]. rewrite (oget_cell l c s e) by (auto; lia). rewrite bind_Ok. destruct (Z.ltb_spec (nth (Z.to_nat lb) c 0) x) as [Lx|Lx].
  - assert (lb < ub) by (destruct (Z.eq_dec lb ub) as [->|]; lia). assert (Q : lb <= Z.quot (ub + lb) 2 < ub) by (rewrite Z.quot_div_nonneg by lia; split; [apply Z.div_le_lower_bound; lia|apply Z.div_lt_upper_bound; lia]).
    set (i := Z.quot (ub + lb) 2) in *. rewrite (oget_cell l c s e) by (auto; lia). rewrite bind_Ok. destruct (Z.ltb_spec (nth (Z.to_nat i) c 0) x) as [Ly|Ly].
    + destruct (IHn (i + 1) ub) as (r & -> & R1 & R2 & R3); [lia..|]. exists r. split; auto. split; [lia|]. split; auto. intros j Hj. destruct (Z_le_dec (Z.of_nat j) i); [|apply R2; lia]. pose proof (Mo j (Z.to_nat i) ltac:(lia)). lia.
    + destruct (IHn lb i) as (r & -> & R1 & R2 & R3); [lia..|]. exists r. split; auto. split; [lia|]. split; auto.
  - exists lb. split; auto. split; [lia|]. split; [lia|]. intros j Hj1 Hj2. pose proof (Mo (Z.to_nat lb) j ltac:(lia)). lia.
Qed.
Lemma ofind_ok l c x lb : incr c -> (0 < length c)%nat -> onum l = length c -> (length c <= ocap l)%nat -> (0 <= lb <= length c)%nat -> cells (oarr l) c (Nat.min lb (length c - 1)) (length c) -> (lb = length c -> nth (length c - 1) c 0 < x) ->
  exists i, ofind l x (Z.of_nat (onum l) - 1) (Z.of_nat lb) = Ok (Z.of_nat i) /\ (lb <= i <= length c)%nat /\ (forall j, (lb <= j < i)%nat -> nth j c 0 < x) /\ (forall j, (i <= j < length c)%nat -> x <= nth j c 0).
Proof.
  intros I P E Cap Hlb C Hx. unfold ofind. rewrite E. rewrite (oget_cell l c (Nat.min lb (length c - 1)) (length c)) by (auto; lia). rewrite bind_Ok.
  assert (Mo : forall i j, (i <= j < length c)%nat -> nth i c 0 <= nth j c 0) by (intros i j Hij; destruct (Nat.eq_dec i j) as [->|]; [lia|pose proof (incr_nth c I i j ltac:(lia)); lia]).
  replace (Z.to_nat (Z.of_nat (length c) - 1)) with (length c - 1)%nat by lia. destruct (Z.ltb_spec (nth (length c - 1) c 0) x) as [L|L].
  - exists (length c). split; [f_equal; lia|]. split; [lia|]. split; [|lia]. intros j Hj. pose proof (Mo j (length c - 1)%nat ltac:(lia)). lia.
  - assert (lb < length c)%nat by (destruct (Nat.eq_dec lb (length c)) as [e|]; [specialize (Hx e); lia|lia]).
    destruct (ofind_loop_ok l c x (Nat.min lb (length c - 1)) (length c) I C ltac:(lia) (ocap l + 1) (Z.of_nat lb) (Z.of_nat (length c) - 1)) as (i & -> & R1 & R2 & R3); [lia|lia| |lia|].
    + replace (Z.to_nat (Z.of_nat (length c) - 1)) with (length c - 1)%nat by lia. exact L.
    + exists (Z.to_nat i). split; [f_equal; lia|]. split; [lia|]. split; [intros j Hj; apply R2; lia|]. intros j Hj. apply R3; lia.
Qed.
(** membership and the position found *)
Lemma found_iff c x i : incr c -> (i <= length c)%nat -> (forall j, (0 <= j < i)%nat -> nth j c 0 < x) -> (forall j, (i <= j < length c)%nat -> x <= nth j c 0) -> (In x c <-> (i < length c)%nat /\ nth i c 0 = x).
Proof.
  intros I Li H1 H2. split.
  - intros H. apply (In_nth _ _ 0) in H. destruct H as (j & Hj & Ej). destruct (Nat.lt_trichotomy j i) as [L|[->|L]]; auto.
    + specialize (H1 j ltac:(lia)). lia.
    + pose proof (H2 i ltac:(lia)). pose proof (incr_nth c I i j ltac:(lia)). lia.
  - intros (H & <-). apply nth_In, H.
Qed.
Lemma cell_nth (a : list (option Z)) j v : nth_error a j = Some (Some v) <-> nth j a None = Some v.
Proof.
  split; [intros H; apply nth_error_nth with (d := None) in H; exact H|]. intros H. destruct (nth_error a j) eqn:E; [apply nth_error_nth with (d := None) in E; congruence|].
  apply nth_error_None in E. rewrite nth_overflow in H by auto. discriminate.
Qed.
Lemma put1_cells (a : list (option Z)) i x : (i < length a)%nat -> exists a', put a i [Some x] = Ok a' /\ length a' = length a /\ nth i a' None = Some x /\ forall j, j <> i -> nth j a' None = nth j a None.
Proof.
  intros H. destruct (put_ok None a i [Some x]) as (a' & E & L & O1 & O2); [cbn [length]; lia|]. exists a'. split; auto. split; auto. split; [rewrite O1 by (cbn [length]; lia); rewrite Nat.sub_diag; reflexivity|].
  intros j Hj. apply O2. cbn [length]. lia.
Qed.
Lemma incr_insert c x i : incr c -> (i <= length c)%nat -> (forall j, (0 <= j < i)%nat -> nth j c 0 < x) -> (forall j, (i <= j < length c)%nat -> x < nth j c 0) -> incr (firstn i c ++ x :: skipn i c).
Proof.
  intros I L H1 H2. assert (F : forall y, In y (firstn i c) -> y < x).
  { intros y Hy. apply (In_nth _ _ 0) in Hy. destruct Hy as (j & Hj & <-). rewrite firstn_length in Hj. rewrite nth_firstn' by lia. apply H1. lia. }
  assert (G : forall y, In y (skipn i c) -> x < y).
  { intros y Hy. apply (In_nth _ _ 0) in Hy. destruct Hy as (j & Hj & <-). rewrite skipn_length in Hj. rewrite nth_skipn'. apply H2. lia. }
  rewrite <- (firstn_skipn i c) in I. apply incr_app in I. destruct I as (I1 & I2 & I3). apply incr_app. split; auto. split; [split; auto|]. intros y z Hy [<-|Hz]; auto.
Qed.
Lemma grow_holds ls l c : holds l c -> holds (ogrow ls l) c.
Proof.
  intros H. pose proof (holds_cells _ _ H) as (_ & L). destruct H as (H1 & H2 & H3). split; auto. split; auto. unfold ogrow. cbn [oarr]. rewrite firstn_app. unfold ocap in L. replace (length c - length (oarr l))%nat with 0%nat by lia. cbn [firstn]. rewrite app_nil_r. exact H3.
Qed.
Lemma grow_cap ls l : (1 <= ls)%nat -> (ocap l < ocap (ogrow ls l))%nat.
Proof. intros H. unfold ogrow, ocap. cbn [oarr]. rewrite app_length, repeat_length. destruct (Nat.eqb_spec (length (oarr l)) 0); lia. Qed.
Lemma nth_app_snoc (c : list Z) x j : (j <= length c)%nat -> nth j (c ++ [x]) 0 = if (j =? length c)%nat then x else nth j c 0.
Proof. intros H. destruct (Nat.eqb_spec j (length c)) as [->|]; [rewrite app_nth2, Nat.sub_diag by lia; reflexivity|apply app_nth1; lia]. Qed.
(** slices *)
Definition sl (c : list Z) (a b : nat) : list Z := skipn a (firstn b c).
Lemma in_firstn (c : list Z) i y : (i <= length c)%nat -> (In y (firstn i c) <-> exists j, (j < i)%nat /\ nth j c 0 = y).
Proof.
  intros L. split.
  - intros H. apply (In_nth _ _ 0) in H. destruct H as (j & Hj & <-). rewrite firstn_length in Hj. exists j. split; [lia|]. rewrite nth_firstn' by lia. reflexivity.
  - intros (j & Hj & <-). rewrite <- (nth_firstn' 0 i c j) by lia. apply nth_In. rewrite firstn_length. lia.
Qed.
Lemma in_sl c a b y : (a <= b <= length c)%nat -> (In y (sl c a b) <-> exists j, (a <= j < b)%nat /\ nth j c 0 = y).
Proof.
  intros L. unfold sl. split.
  - intros H. apply (In_nth _ _ 0) in H. destruct H as (j & Hj & <-). rewrite skipn_length, firstn_length in Hj. exists (a + j)%nat. split; [lia|]. rewrite nth_skipn', nth_firstn' by lia. reflexivity.
  - intros (j & Hj & <-). replace (nth j c 0) with (nth (j - a) (skipn a (firstn b c)) 0); [apply nth_In; rewrite skipn_length, firstn_length; lia|]. rewrite nth_skipn'. replace (a + (j - a))%nat with j by lia. apply nth_firstn'. lia.
Qed.
Lemma sl_self c a : sl c a a = [].
Proof. unfold sl. apply skipn_all2. rewrite firstn_length. lia. Qed.
Lemma sl_step c a b : (a < b <= length c)%nat -> sl c a b = nth a c 0 :: sl c (S a) b.
Proof.
  intros H. unfold sl. assert (L : (a < length (firstn b c))%nat) by (rewrite firstn_length; lia). rewrite <- (nth_firstn' 0 b c a) by lia. revert L. generalize (firstn b c) as d. clear. intros d. revert a. induction d as [|y d IH]; intros [|a] L; cbn [length] in L; try lia; cbn [skipn nth]; auto. apply IH. lia.
Qed.
Lemma sl_length c a b : (a <= b <= length c)%nat -> length (sl c a b) = (b - a)%nat.
Proof. intros H. unfold sl. rewrite skipn_length, firstn_length. lia. Qed.
Lemma sl_incr c a b : incr c -> (a <= b <= length c)%nat -> incr (sl c a b).
Proof.
  intros I H. apply nth_incr. intros i j Hij. rewrite sl_length in Hij by auto. unfold sl. rewrite !nth_skipn', !nth_firstn' by lia. apply incr_nth; auto. lia.
Qed.
Section Ls.
Variable ls : nat.
Hypothesis Hls : (1 <= ls)%nat.
Definition opost (l' : olist) (P : Z -> Prop) : Prop := exists c, holds l' c /\ forall y, In y c <-> P y.
Lemma app_cells a c n x : cells a c 0 (length c) -> n = length c -> (n < length a)%nat -> exists a', put a n [Some x] = Ok a' /\ length a' = length a /\ cells a' (c ++ [x]) 0 (length (c ++ [x])).
Proof.
  intros H -> L. destruct (put1_cells a (length c) x L) as (a' & E & La & E1 & E2). exists a'. split; auto. split; auto. intros j Hj. rewrite app_length in Hj. cbn [length] in Hj. apply cell_nth. rewrite nth_app_snoc by lia. destruct (Nat.eqb_spec j (length c)) as [->|n]; auto.
  rewrite E2 by auto. apply cell_nth, H. lia.
Qed.
Lemma incr_snoc c x : incr c -> (forall y, In y c -> y < x) -> incr (c ++ [x]).
Proof. intros I H. apply incr_app. split; auto. split; [cbn; tauto|]. intros y z Hy [<-|[]]. auto. Qed.
Lemma oapp_ok l c x : holds l c -> (forall y, In y c -> y < x) -> exists l', oapp ls l x = Ok l' /\ holds l' (c ++ [x]).
Proof.
  intros H Hx. unfold oapp. set (l1 := if (ocap l <=? onum l)%nat then ogrow ls l else l). assert (H1 : holds l1 c) by (unfold l1; destruct (_ <=? _)%nat; [apply grow_holds|]; exact H).
  assert (C1 : (onum l1 < ocap l1)%nat) by (unfold l1; destruct (Nat.leb_spec (ocap l) (onum l)) as [Lc|Lc]; [|exact Lc]; pose proof (grow_cap ls l Hls); pose proof (holds_cells _ _ H); pose proof (proj1 (proj2 H)); cbn [ogrow onum]; lia).
  pose proof (holds_cells _ _ H1) as (Hc & _). pose proof H1 as (I & N & _). destruct (app_cells (oarr l1) c (onum l1) x Hc N C1) as (a' & -> & _ & Ha). rewrite bind_Ok. eexists; split; [reflexivity|].
  apply cells_holds; auto; [rewrite N, app_length; reflexivity|]. apply incr_snoc; auto.
Qed.
Lemma oput_ok l c x : holds l c -> (In x c \/ forall y z, In y c -> In z c -> x < y -> x < z -> y = z) -> exists l', oput ls l x = Ok l' /\ opost l' (fun y => y = x \/ In y c).
Proof.
  intros H Hx. unfold oput. set (l1 := if (onum l =? ocap l)%nat then ogrow ls l else l). assert (H1 : holds l1 c) by (unfold l1; destruct (_ =? _)%nat; [apply grow_holds|]; exact H).
  assert (C1 : (onum l1 < ocap l1)%nat) by (unfold l1; pose proof (holds_cells _ _ H) as (_ & Lc); pose proof (proj1 (proj2 H)); destruct (Nat.eqb_spec (onum l) (ocap l)); [pose proof (grow_cap ls l Hls); cbn [ogrow onum]; lia|lia]).
  pose proof (holds_cells _ _ H1) as (Hc & Lc). pose proof H1 as (I & N & _). clearbody l1. clear H l. destruct (Nat.eqb_spec (onum l1) 0) as [Z0|Z0].
  - destruct c; [|cbn [length] in N; lia]. destruct (app_cells (oarr l1) [] 0%nat x Hc eq_refl ltac:(unfold ocap in C1; lia)) as (a' & -> & _ & Ha). rewrite bind_Ok. eexists; split; [reflexivity|]. exists [x]. split; [apply cells_holds; auto; cbn; split; auto; intros ? []|]. intros y. cbn. intuition.
  - destruct (ofind_ok l1 c x 0 I ltac:(lia) N Lc ltac:(lia) ltac:(exact Hc) ltac:(lia)) as (i & E & R1 & R2 & R3). change (Z.of_nat 0) with 0 in E. rewrite E, bind_Ok. pose proof (found_iff c x i I ltac:(lia) R2 R3) as Fi. rewrite N.
    destruct (Z.eqb_spec (Z.of_nat i) (Z.of_nat (length c))) as [Ei|Ei].
    + rewrite bind_Ok. assert (i = length c) by lia. subst i. rewrite Nat2Z.id, Nat.sub_diag. destruct (seg_ok None (oarr l1) (length c - 1) 0) as (s & -> & Ls & _); [unfold ocap in *; lia|]. destruct s; [|discriminate]. rewrite bind_Ok.
      destruct (put_ok None (oarr l1) (length c) []) as (a1 & -> & La & _ & O2); [cbn [length]; unfold ocap in *; lia|]. rewrite bind_Ok.
      assert (Hc1 : cells a1 c 0 (length c)) by (intros j Hj; apply cell_nth; rewrite O2 by (cbn [length]; lia); apply cell_nth, Hc, Hj).
      destruct (app_cells a1 c (length c) x Hc1 eq_refl ltac:(unfold ocap in *; lia)) as (a' & -> & _ & Ha). rewrite bind_Ok. eexists; split; [reflexivity|]. exists (c ++ [x]). split.
      * apply cells_holds; auto; [rewrite app_length; reflexivity|]. apply incr_snoc; auto. intros y Hy. apply (In_nth _ _ 0) in Hy. destruct Hy as (j & Hj & <-). apply R2. lia.
      * intros y. rewrite in_app_iff. cbn. intuition.
    + rewrite (oget_cell l1 c 0 (length c)) by (auto; lia). rewrite !bind_Ok. rewrite Nat2Z.id. destruct (Z.eqb_spec (nth i c 0) x) as [Ex|Ex]; cbn [negb].
      * eexists; split; [reflexivity|]. exists c. split; auto. intros y. assert (In x c) by (apply Fi; lia). split; auto. intros [->|]; auto.
      * assert (Nx : ~ In x c) by (intros Q; apply Fi in Q; lia). destruct Hx as [Hx|Hx]; [contradiction|].
        assert (G : forall j, (i <= j < length c)%nat -> x < nth j c 0) by (intros j Hj; pose proof (R3 j Hj); destruct (Z.eq_dec x (nth j c 0)) as [->|]; [exfalso; apply Nx, nth_In; lia|lia]).
        assert (Ei' : i = (length c - 1)%nat). { destruct (Nat.eq_dec i (length c - 1)) as [|n]; auto. exfalso. pose proof (incr_nth c I i (length c - 1) ltac:(lia)). pose proof (Hx (nth i c 0) (nth (length c - 1) c 0) ltac:(apply nth_In; lia) ltac:(apply nth_In; lia) ltac:(apply G; lia) ltac:(apply G; lia)). lia. }
        replace (length c - i)%nat with 1%nat by lia. destruct (seg_ok None (oarr l1) (length c - 1) 1) as (s & -> & Ls & Hs); [unfold ocap in *; lia|]. rewrite bind_Ok.
        destruct s as [|s0 [|]]; cbn [length] in Ls; try lia. specialize (Hs 0%nat ltac:(lia)). cbn [nth] in Hs. rewrite Nat.add_0_r in Hs. assert (Es : s0 = Some (nth i c 0)) by (rewrite Hs, Ei'; apply cell_nth, Hc; lia). rewrite Es.
        destruct (app_cells (oarr l1) c (length c) (nth i c 0) Hc eq_refl ltac:(unfold ocap in *; lia)) as (a1 & -> & La & Ha1). rewrite bind_Ok.
        destruct (put1_cells a1 i x) as (a2 & -> & La2 & E1 & E2); [unfold ocap in *; lia|]. rewrite bind_Ok. eexists; split; [reflexivity|]. exists (firstn i c ++ x :: skipn i c). split.
        -- apply cells_holds; [| |apply incr_insert; auto; lia].
           ++ intros j Hj. rewrite app_length in Hj. cbn [length] in Hj. rewrite firstn_length, skipn_length in Hj. apply cell_nth. destruct (Nat.lt_trichotomy j i) as [L|[->|L]].
              ** rewrite E2 by lia. rewrite app_nth1 by (rewrite firstn_length; lia). rewrite nth_firstn' by lia. assert (Q := Ha1 j ltac:(rewrite app_length; cbn [length]; lia)). apply cell_nth in Q. rewrite Q. rewrite nth_app_snoc by lia. destruct (Nat.eqb_spec j (length c)); [lia|reflexivity].
              ** rewrite app_nth2 by (rewrite firstn_length; lia). rewrite firstn_length. replace (i - Nat.min i (length c))%nat with 0%nat by lia. exact E1.
              ** rewrite E2 by lia. assert (j = length c) by lia. subst j. rewrite app_nth2 by (rewrite firstn_length; lia). rewrite firstn_length. replace (length c - Nat.min i (length c))%nat with 1%nat by lia. cbn [nth]. rewrite nth_skipn', Nat.add_0_r.
                 assert (Q := Ha1 (length c) ltac:(rewrite app_length; cbn [length]; lia)). apply cell_nth in Q. rewrite Q. rewrite nth_app_snoc by lia. rewrite Nat.eqb_refl. reflexivity.
           ++ rewrite app_length. cbn [length]. rewrite firstn_length, skipn_length. lia.
        -- intros y. rewrite in_app_iff. cbn [In]. rewrite <- (firstn_skipn i c) at 3. rewrite in_app_iff. intuition.
Qed.
Lemma oputs_empty L : forall l c, incr L -> holds l c -> (forall x y, In x L -> In y c -> y < x) -> exists l', mfold (oput ls) L l = Ok l' /\ holds l' (c ++ L).
Proof.
  induction L as [|x L IH]; intros l c I H Hx; cbn [mfold]; [exists l; rewrite app_nil_r; auto|]. destruct I as (I1 & I2).
  destruct (oput_ok l c x H) as (l1 & -> & c1 & H1 & M1); [right; intros y z Hy Hz Ly; specialize (Hx x y (or_introl eq_refl) Hy); lia|]. rewrite bind_Ok.
  assert (E : c1 = c ++ [x]).
  { assert (J1 : incr c1) by apply H1. assert (J2 : incr (c ++ [x])) by (apply incr_snoc; [apply H|intros y Hy; apply (Hx x y); auto; left; auto]).
    assert (Q : forall y, In y c1 <-> In y (c ++ [x])) by (intros y; rewrite M1, in_app_iff; cbn; intuition). clear - J1 J2 Q. revert J1 J2 Q. generalize (c ++ [x]) as b. generalize c1 as a. clear.
    induction a as [|u a IH]; intros [|v b] J1 J2 Q; auto.
    - destruct (proj2 (Q v)). left; auto.
    - destruct (proj1 (Q u)). left; auto.
    - destruct J1 as (A1 & A2), J2 as (B1 & B2). assert (E : u = v) by (destruct (proj1 (Q u) (or_introl eq_refl)) as [|Hu]; auto; destruct (proj2 (Q v) (or_introl eq_refl)) as [|Hv]; auto; apply A1 in Hv; apply B1 in Hu; lia). subst v.
      f_equal. apply IH; auto. intros y. specialize (Q y). cbn [In] in Q. split; intros Hy.
      + destruct (proj1 Q (or_intror Hy)) as [<-|]; auto. apply A1 in Hy. lia.
      + destruct (proj2 Q (or_intror Hy)) as [<-|]; auto. apply B1 in Hy. lia. }
  subst c1. destruct (IH l1 (c ++ [x]) I2 H1) as (l' & E' & H'). { intros u y Hu Hy. apply in_app_or in Hy. destruct Hy as [Hy|[<-|[]]]; [apply (Hx u y); auto; right; auto|auto]. }
  exists l'. split; auto. rewrite <- app_assoc in H'. exact H'.
Qed.
(** put(L) *)
Lemma onext_ok a n idx c e : cells a c idx e -> (idx < e)%nat -> (idx < n)%nat -> onext (Ol a n idx) = Ok (nth idx c 0, Ol a n (idx + 1)).
Proof. intros H L N. unfold onext. cbn [oidx onum oarr]. destruct (Nat.ltb_spec idx n); [|lia]. rewrite (oget_cell (Ol a n idx) c idx e) by (auto; lia). rewrite bind_Ok, Nat2Z.id. reflexivity. Qed.
Lemma ocopy_ok a c lim : cells a c 0 (length c) -> (lim <= length c)%nat -> forall n idx out, (idx <= lim)%nat -> (lim - idx <= n)%nat -> ocopy n (Ol a (length c) idx) lim out = Ok (Ol a (length c) lim, out ++ sl c idx lim).
Proof.
  intros C Hl. induction n as [|n IH]; intros idx out H1 H2; cbn [ocopy].
  - assert (idx = lim) by lia. subst. rewrite sl_self, app_nil_r. reflexivity.
  - cbn [oidx]. destruct (Nat.ltb_spec idx lim) as [L|L].
    + rewrite (onext_ok a (length c) idx c (length c)) by (auto; try lia; intros j Hj; apply C; lia). rewrite bind_Ok. replace (idx + 1)%nat with (S idx) by lia. rewrite IH by lia. rewrite (sl_step c idx lim) by lia. rewrite <- app_assoc. reflexivity.
    + assert (idx = lim) by lia. subst. rewrite sl_self, app_nil_r. reflexivity.
Qed.
Definition pinv (c L1 : list Z) (idx ind : nat) (out : list Z) : Prop :=
  (idx <= ind <= length c)%nat /\ incr out /\ (forall y, In y out <-> In y (firstn idx c) \/ (In y L1 /\ ~ In y c)) /\ (forall y j, In y out -> (idx <= j < length c)%nat -> y < nth j c 0).
Lemma oputs_loop_ok a c : incr c -> cells a c 0 (length c) -> (0 < length c <= length a)%nat -> forall L L1 idx ind out, incr (L1 ++ L) -> pinv c L1 idx ind out -> (forall x j, In x L -> (j < ind)%nat -> nth j c 0 < x) ->
  (forall x, In x L -> (exists y, In y c /\ x <= y) \/ exists z, nth_error a (length c) = Some (Some z) /\ z <> x) ->
  exists idx' ind' out', mfold (fun '(l, out, ind) x => ind <- ofind l x (Z.of_nat (onum l) - 1) ind ;; y <- oget l ind ;;
          if y =? x then Ok (l, out, ind) else '(l, out) <- ocopy (onum l) l (Z.to_nat ind) out ;; Ok (l, out ++ [x], ind)) L (Ol a (length c) idx, out, Z.of_nat ind) = Ok (Ol a (length c) idx', out', Z.of_nat ind') /\ pinv c (L1 ++ L) idx' ind' out'.
Proof.
  intros I C La. induction L as [|x L IH]; intros L1 idx ind out IL P Hx St; cbn [mfold]; [exists idx, ind, out; rewrite app_nil_r; auto|].
  destruct P as (P1 & P2 & P3 & P4). set (l := Ol a (length c) idx).
  destruct (ofind_ok l c x ind I ltac:(lia) eq_refl ltac:(cbn; lia) ltac:(lia)) as (i & E & R1 & R2 & R3).
  { intros j Hj. apply C. lia. } { intros ->. apply Hx; [left; auto|lia]. }
  rewrite E, bind_Ok. assert (R2' : forall j, (0 <= j < i)%nat -> nth j c 0 < x) by (intros j Hj; destruct (Nat.lt_ge_cases j ind); [apply Hx; auto; left; auto|apply R2; lia]). clear R2 E.
  pose proof (found_iff c x i I ltac:(lia) R2' R3) as Fi. apply incr_app in IL. destruct IL as (IL1 & (IL2 & IL3) & IL4).
  assert (Lo : forall y, In y out -> y < x). { intros y Hy. apply P3 in Hy. destruct Hy as [Hy|(Hy & _)]; [|apply (IL4 y x); auto; left; auto]. apply in_firstn in Hy; [|lia]. destruct Hy as (j & Hj & <-). apply R2'. lia. }
  assert (Rest : forall z j, In z L -> (j < i)%nat -> nth j c 0 < z) by (intros z j Hz Hj; specialize (R2' j ltac:(lia)); specialize (IL2 z Hz); lia).
  assert (IL' : incr ((L1 ++ [x]) ++ L)) by (rewrite <- app_assoc; apply incr_app; split; auto; split; [split; auto|exact IL4]).
  assert (G : exists y, oget l (Z.of_nat i) = Ok y /\ (y = x <-> In x c)).
  { destruct (Nat.eq_dec i (length c)) as [->|n].
    - destruct (St x (or_introl eq_refl)) as [(y & Hy & Ly)|(z & Hz & Nz)].
      + exfalso. apply (In_nth _ _ 0) in Hy. destruct Hy as (j & Hj & <-). specialize (R2' j ltac:(lia)). lia.
      + exists z. unfold oget, rdm. destruct (Z.ltb_spec (Z.of_nat (length c)) 0); [lia|]. rewrite Nat2Z.id. unfold l. cbn [oarr]. rewrite Hz. split; auto. split; [contradiction|]. intros Q. apply Fi in Q. lia.
    - exists (nth i c 0). rewrite (oget_cell l c 0 (length c)) by (auto; lia). rewrite Nat2Z.id. split; auto. rewrite Fi. intuition lia. }
  destruct G as (y & -> & G). rewrite bind_Ok. destruct (Z.eqb_spec y x) as [Ey|Ey].
  - rewrite bind_Ok. apply G in Ey. destruct (IH (L1 ++ [x]) idx i out IL') as (idx' & ind' & out' & E' & P'); auto; [|intros z Hz; apply St; right; auto|].
    + split; [lia|]. split; auto. split; auto. intros z. rewrite P3, in_app_iff. cbn [In]. intuition. subst. contradiction.
    + exists idx', ind', out'. rewrite <- app_assoc in P'. auto.
  - assert (Nx : ~ In x c) by tauto. unfold l. cbn [onum]. rewrite Nat2Z.id, ocopy_ok by (auto; lia). rewrite !bind_Ok.
    assert (Go : forall y, In y out \/ In y (sl c idx i) \/ y = x <-> In y (firstn i c) \/ (In y (L1 ++ [x]) /\ ~ In y c)).
    { intros z. rewrite P3, in_app_iff, !in_firstn, in_sl by lia. cbn [In]. split.
      - intros [[(j & Hj & Ej)|(Hz & Nz)]|[(j & Hj & Ej)| ->]]; [left; exists j; split; [lia|auto]|auto|left; exists j; split; [lia|auto]|right; auto].
      - intros [(j & Hj & Ej)|([Hz|[<-|[]]] & Nz)]; auto. destruct (Nat.lt_ge_cases j idx); [left; left|right; left]; exists j; split; auto; lia. }
    destruct (IH (L1 ++ [x]) i i ((out ++ sl c idx i) ++ [x]) IL') as (idx' & ind' & out' & E' & P'); auto; [|intros z Hz; apply St; right; auto|].
    + split; [lia|]. split; [|split].
      * apply incr_snoc; [apply incr_app; split; auto; split; [apply sl_incr; auto; lia|]|].
        -- intros u v Hu Hv. apply in_sl in Hv; [|lia]. destruct Hv as (j & Hj & <-). apply P4; auto. lia.
        -- intros u Hu. apply in_app_or in Hu. destruct Hu as [Hu|Hu]; auto. apply in_sl in Hu; [|lia]. destruct Hu as (j & Hj & <-). apply R2'. lia.
      * intros z. rewrite <- Go. rewrite !in_app_iff. cbn [In]. intuition.
      * intros u j Hu Hj. assert (x < nth j c 0) by (pose proof (R3 j Hj); destruct (Z.eq_dec x (nth j c 0)) as [->|]; [exfalso; apply Nx, nth_In; lia|lia]).
        apply in_app_or in Hu. destruct Hu as [Hu|[<-|[]]]; auto. apply in_app_or in Hu. destruct Hu as [Hu|Hu]; [specialize (Lo u Hu); lia|]. apply in_sl in Hu; [|lia]. destruct Hu as (k & Hk & <-). specialize (R2' k ltac:(lia)). lia.
    + exists idx', ind', out'. rewrite <- app_assoc in P'. auto.
Qed.
Lemma pinv_len c L1 idx ind out : pinv c L1 idx ind out -> incr L1 -> (length out <= length c + length L1)%nat.
Proof.
  intros (P1 & P2 & P3 & _) I. rewrite <- app_length. apply NoDup_incl_length.
  - clear - P2. induction out as [|x out IH]; constructor; destruct P2 as (A & B); auto. intros Q. apply A in Q. lia.
  - intros y Hy. apply P3 in Hy. apply in_or_app. destruct Hy as [Hy|(Hy & _)]; auto. left. rewrite <- (firstn_skipn idx c). apply in_or_app. auto.
Qed.
Lemma oputs_ok l c L : holds l c -> incr L -> (c = [] \/ forall x, In x L -> (exists y, In y c /\ x <= y) \/ exists z, nth_error (oarr l) (onum l) = Some (Some z) /\ z <> x) -> exists l', oputs ls l L = Ok l' /\ opost l' (fun y => In y L \/ In y c).
Proof.
  intros H IL St. unfold oputs. destruct L as [|x0 L0]; [exists l; split; auto; exists c; split; auto; intros y; cbn; tauto|]. set (L := x0 :: L0) in *.
  pose proof (holds_cells _ _ H) as (Hc & Lc). pose proof H as (I & N & Ha). cbn [onum oarr]. rewrite N. destruct (Nat.eqb_spec (length c) 0) as [Z0|Z0].
  - destruct c; [|discriminate]. cbn [length]. destruct (oputs_empty L (Ol (oarr l) 0 0) [] IL) as (l' & -> & H'); [apply cells_holds; auto|intros ? ? ? []|]. rewrite bind_Ok. cbn [app] in H'. eexists; split; [reflexivity|]. exists L. split; [|intros y; cbn [In]; tauto].
    pose proof (holds_cells _ _ H') as (A & _). apply cells_holds; auto.
  - destruct St as [->|St]; [cbn in Z0; lia|]. rewrite N in St. destruct (oputs_loop_ok (oarr l) c I Hc ltac:(unfold ocap in Lc; lia) L [] 0 0 [] IL) as (idx & ind & out & E & P); auto.
    + split; [lia|]. split; [cbn; auto|]. split; [|intros ? ? []]. intros y. cbn. tauto.
    + intros; lia.
    + change (Z.of_nat 0) with 0 in E. rewrite E. rewrite bind_Ok. clear E. cbn [onum app] in *. pose proof (pinv_len _ _ _ _ _ P IL) as Lo. destruct P as (P1 & P2 & P3 & P4).
      rewrite ocopy_ok by (auto; lia). rewrite bind_Ok. assert (Ic : incr (out ++ sl c idx (length c))).
      { apply incr_app. split; auto. split; [apply sl_incr; auto; lia|]. intros u v Hu Hv. apply in_sl in Hv; [|lia]. destruct Hv as (j & Hj & <-). apply P4; auto. }
      assert (M : forall y, In y (out ++ sl c idx (length c)) <-> In y L \/ In y c).
      { intros y. rewrite in_app_iff, P3, in_sl, in_firstn by lia. split.
        - intros [[(j & Hj & <-)|]|(j & Hj & <-)]; [right; apply nth_In; lia|tauto|right; apply nth_In; lia].
        - intros Hy. destruct (in_dec Z.eq_dec y c) as [Hyc|Hyc]; [|tauto]. apply (In_nth _ _ 0) in Hyc. destruct Hyc as (j & Hj & Ej). destruct (Nat.lt_ge_cases j idx); [left; left|right]; exists j; split; auto; lia. }
      assert (Lk : (length (out ++ sl c idx (length c)) <= ocap l + length L)%nat).
      { etransitivity; [|apply Nat.add_le_mono_r, Lc]. rewrite <- app_length. apply NoDup_incl_length.
        - generalize Ic. generalize (out ++ sl c idx (length c)). clear. induction l as [|x out IH]; intros P2; constructor; destruct P2 as (A & B); auto. intros Q. apply A in Q. lia.
        - intros y Hy. apply M in Hy. apply in_or_app. tauto. }
      set (o := out ++ sl c idx (length c)) in *. clearbody o. unfold ocap. cbn [oarr]. destruct (put_ok None (repeat None (length (oarr l) + length L)) 0 (map Some o)) as (a' & E & La & O1 & _); [rewrite map_length, repeat_length; unfold ocap in Lk; lia|].
      rewrite E, bind_Ok. eexists; split; [reflexivity|]. exists o. split; auto. apply cells_holds; auto. intros j Hj. apply cell_nth. rewrite O1 by (rewrite map_length; lia). rewrite Nat.sub_0_r. rewrite (nth_indep _ None (Some 0)) by (rewrite map_length; lia). apply map_nth.
Qed.
(** remove *)
Lemma orem_ok l c x : holds l c -> In x c -> exists l', orem l x = Ok l' /\ opost l' (fun y => y <> x /\ In y c).
Proof.
  intros H Hx. pose proof (holds_cells _ _ H) as (Hc & Lc). pose proof H as (I & N & Ha). assert (P : (0 < length c)%nat) by (destruct c; [destruct Hx|cbn; lia]). unfold orem.
  destruct (ofind_ok l c x 0 I P N Lc ltac:(lia) Hc ltac:(lia)) as (i & E & R1 & R2 & R3). change (Z.of_nat 0) with 0 in E. rewrite E, bind_Ok. pose proof (proj1 (found_iff c x i I ltac:(lia) R2 R3) Hx) as (Li & Ex).
  rewrite (oget_cell l c 0 (length c)) by (auto; lia). rewrite bind_Ok, !Nat2Z.id, Ex, Z.eqb_refl. rewrite N. destruct (Z.leb_spec (Z.of_nat (length c)) (Z.of_nat i)); [lia|].
  destruct (seg_ok None (oarr l) (i + 1) (length c - 1 - i)) as (s & -> & Ls & Hs); [unfold ocap in Lc; lia|]. rewrite bind_Ok. destruct (put_ok None (oarr l) i s) as (a & -> & La & O1 & O2); [unfold ocap in Lc; lia|]. rewrite bind_Ok. eexists; split; [reflexivity|].
  exists (firstn i c ++ sl c (S i) (length c)). assert (Ln : length (firstn i c ++ sl c (S i) (length c)) = (length c - 1)%nat) by (rewrite app_length, firstn_length, sl_length by lia; lia). split.
  - apply cells_holds; auto.
    + intros j Hj. rewrite Ln in Hj. apply cell_nth. destruct (Nat.lt_ge_cases j i) as [L|L].
      * rewrite O2 by lia. rewrite app_nth1 by (rewrite firstn_length; lia). rewrite nth_firstn' by lia. apply cell_nth, Hc. lia.
      * rewrite O1 by lia. rewrite Hs by lia. rewrite app_nth2 by (rewrite firstn_length; lia). unfold sl. rewrite nth_skipn', nth_firstn' by (rewrite firstn_length; lia). rewrite firstn_length. replace (S i + (j - Nat.min i (length c)))%nat with (i + 1 + (j - i))%nat by lia. apply cell_nth, Hc. lia.
    + apply incr_app. split; [change (firstn i c) with (sl c 0 i); apply sl_incr; auto; lia|]. split; [apply sl_incr; auto; lia|]. intros u v Hu Hv. apply in_firstn in Hu; [|lia]. apply in_sl in Hv; [|lia]. destruct Hu as (j & Hj & <-), Hv as (k & Hk & <-). apply incr_nth; auto. lia.
  - intros y. rewrite in_app_iff, in_firstn, in_sl by lia. split.
    + intros [(j & Hj & <-)|(j & Hj & <-)]; (split; [|apply nth_In; lia]).
      * pose proof (incr_nth c I j i ltac:(lia)). lia.
      * pose proof (incr_nth c I i j ltac:(lia)). lia.
    + intros (Ny & Hy). apply (In_nth _ _ 0) in Hy. destruct Hy as (j & Hj & <-). destruct (Nat.lt_trichotomy j i) as [L|[->|L]]; [left|congruence|right]; exists j; split; auto; lia.
Qed.
Lemma omove_ok c lim : (lim <= length c)%nat -> forall n a idx ar k, (idx <= lim)%nat -> (lim - idx <= n)%nat -> (ar <= idx)%nat -> length k = ar -> (length c <= length a)%nat -> cells a k 0 ar -> cells a c ar (length c) ->
  exists a', omove n (Ol a (length c) idx) lim ar = Ok (Ol a' (length c) lim, ar + (lim - idx))%nat /\ length a' = length a /\ cells a' (k ++ sl c idx lim) 0 (ar + (lim - idx)) /\ cells a' c (ar + (lim - idx)) (length c).
Proof.
  intros Hl. induction n as [|n IH]; intros a idx ar k H1 H2 H3 Lk La C1 C2; cbn [omove].
  - assert (idx = lim) by lia. subst. exists a. rewrite sl_self, app_nil_r, Nat.sub_diag, Nat.add_0_r. auto.
  - cbn [oidx]. destruct (Nat.ltb_spec idx lim) as [L|L].
    + rewrite (onext_ok a (length c) idx c (length c)) by (auto; try lia; intros j Hj; apply C2; lia). rewrite bind_Ok. cbn [oarr onum oidx].
      destruct (put1_cells a ar (nth idx c 0)) as (a1 & -> & La1 & E1 & E2); [lia|]. rewrite bind_Ok. replace (idx + 1)%nat with (S idx) by lia. replace (ar + 1)%nat with (S ar) by lia.
      destruct (IH a1 (S idx) (S ar) (k ++ [nth idx c 0])) as (a' & E & La' & D1 & D2); [lia|lia|lia|rewrite app_length; cbn [length]; lia|lia| | |].
      * intros j Hj. apply cell_nth. rewrite nth_app_snoc by lia. destruct (Nat.eqb_spec j (length k)) as [->|nj]; [rewrite Lk; exact E1|]. rewrite E2 by lia. apply cell_nth, C1. lia.
      * intros j Hj. apply cell_nth. rewrite E2 by lia. apply cell_nth, C2. lia.
      * exists a'. replace (ar + (lim - idx))%nat with (S ar + (lim - S idx))%nat by lia. split; auto. split; [lia|]. split; [|auto]. rewrite (sl_step c idx lim) by lia. rewrite <- app_assoc in D1. exact D1.
    + assert (idx = lim) by lia. subst. exists a. rewrite sl_self, app_nil_r, Nat.sub_diag, Nat.add_0_r. auto.
Qed.
Lemma orems_loop_ok c : incr c -> forall L L1 a ind ar k, incr L -> (forall x, In x L -> In x c) -> (ind < length c)%nat -> (ar <= ind)%nat -> length k = ar -> (length c <= length a)%nat -> cells a k 0 ar -> cells a c ar (length c) -> incr k ->
  (forall y, In y k <-> In y (firstn (S ind) c) /\ ~ In y L1) -> (forall x, In x L -> nth ind c 0 < x) -> (forall x, In x L1 -> x <= nth ind c 0) ->
  exists a' ind' ar' k', orems_loop L (Ol a (length c) (S ind)) ar (Z.of_nat ind) = Ok (inr (Ol a' (length c) (S ind'), ar')) /\ (ind' < length c)%nat /\ (ar' <= ind')%nat /\ length k' = ar' /\ length a' = length a /\ cells a' k' 0 ar' /\ cells a' c ar' (length c) /\ incr k' /\
    (forall y, In y k' <-> In y (firstn (S ind') c) /\ ~ In y (L1 ++ L)) /\ (forall x, In x (L1 ++ L) -> x <= nth ind' c 0).
Proof.
  intros I. induction L as [|x L IH]; intros L1 a ind ar k IL Hin Li Ha Lk La C1 C2 Ik M Hx Hy; cbn [orems_loop].
  - exists a, ind, ar, k. rewrite app_nil_r in *. split; auto. split; [exact Li|]. split; [exact Ha|]. split; [exact Lk|]. split; [reflexivity|]. split; [exact C1|]. split; [exact C2|]. split; [exact Ik|]. split; [exact M|exact Hy].
  - destruct IL as (IL1 & IL2). set (l := Ol a (length c) (S ind)).
    destruct (ofind_ok l c x ind I ltac:(lia) eq_refl ltac:(cbn; lia) ltac:(lia)) as (i & E & R1 & R2 & R3); [intros j Hj; apply C2; lia|intros; lia|]. rewrite E, bind_Ok. clear E.
    assert (R2' : forall j, (0 <= j < i)%nat -> nth j c 0 < x). { intros j Hj. destruct (Nat.lt_ge_cases j ind) as [L0|]; [|apply R2; lia]. pose proof (incr_nth c I j ind ltac:(lia)). specialize (Hx x (or_introl eq_refl)). lia. }
    pose proof (proj1 (found_iff c x i I ltac:(lia) R2' R3) (Hin x (or_introl eq_refl))) as (Li' & Ex). assert (Lt : (ind < i)%nat) by (destruct (Nat.eq_dec i ind) as [->|]; [specialize (Hx x (or_introl eq_refl)); lia|lia]).
    rewrite (oget_cell l c ar (length c)) by (auto; lia). rewrite bind_Ok, Nat2Z.id, Ex, Z.eqb_refl. unfold l. cbn [onum].
    destruct (omove_ok c i ltac:(lia) (length c) a (S ind) ar k ltac:(lia) ltac:(lia) ltac:(lia) Lk La C1 C2) as (a1 & -> & La1 & D1 & D2). rewrite bind_Ok. cbn [oarr onum oidx]. replace (i + 1)%nat with (S i) by lia.
    destruct (IH (L1 ++ [x]) a1 i (ar + (i - S ind))%nat (k ++ sl c (S ind) i)) as (a' & ind' & ar' & k' & E & Q1 & Q2 & Q3 & Q4 & Q5 & Q6 & Q7 & Q8 & Q9); auto; try lia.
    + intros; apply Hin; right; auto.
    + rewrite app_length, sl_length by lia. lia.
    + apply incr_app. split; auto. split; [apply sl_incr; auto; lia|]. intros u v Hu Hv. apply M in Hu. destruct Hu as (Hu & _). apply in_firstn in Hu; [|lia]. apply in_sl in Hv; [|lia]. destruct Hu as (j & Hj & <-), Hv as (j' & Hj' & <-). apply incr_nth; auto. lia.
    + intros y. rewrite in_app_iff, M, !in_app_iff, in_sl, !in_firstn by lia. cbn [In]. split.
      * intros [((j & Hj & <-) & Hn)|(j & Hj & <-)].
        -- split; [exists j; split; auto; lia|]. intros [|[->|[]]]; auto. specialize (Hx (nth j c 0) (or_introl eq_refl)). destruct (Nat.eq_dec j ind) as [->|]; [lia|]. pose proof (incr_nth c I j ind ltac:(lia)). lia.
        -- pose proof (incr_nth c I j i ltac:(lia)). pose proof (incr_nth c I ind j ltac:(lia)). split; [exists j; split; auto; lia|]. intros [Hl|[e|[]]]; [apply Hy in Hl; lia|lia].
      * intros ((j & Hj & <-) & Hn). destruct (Nat.eq_dec j i) as [->|]; [exfalso; apply Hn; right; left; auto|]. destruct (Nat.lt_ge_cases j (S ind)); [left; split; [exists j; auto|tauto]|right; exists j; split; auto; lia].
    + rewrite Ex. exact IL1.
    + intros y Hu. apply in_app_or in Hu. destruct Hu as [Hu|[<-|[]]]; [|lia]. apply Hy in Hu. pose proof (incr_nth c I ind i ltac:(lia)). lia.
    + exists a', ind', ar', k'. rewrite <- app_assoc in Q8, Q9. split; auto. split; [exact Q1|]. split; [exact Q2|]. split; [exact Q3|]. split; [lia|]. split; [exact Q5|]. split; [exact Q6|]. split; [exact Q7|]. split; [exact Q8|exact Q9].
Qed.
Lemma orems_ok l c L : holds l c -> incr L -> (forall x, In x L -> In x c) -> exists l', orems l L = Ok l' /\ opost l' (fun y => ~ In y L /\ In y c).
Proof.
  intros H IL Hin. pose proof (holds_cells _ _ H) as (Hc & Lc). pose proof H as (I & N & Ha). unfold orems. destruct L as [|x L]; [exists l; split; auto; exists c; split; auto; intros y; cbn; tauto|].
  pose proof (Hin x (or_introl eq_refl)) as Hx. assert (P : (0 < length c)%nat) by (destruct c; [destruct Hx|cbn; lia]). destruct IL as (IL1 & IL2).
  destruct (ofind_ok l c x 0 I P N Lc ltac:(lia) Hc ltac:(lia)) as (i & E & R1 & R2 & R3). change (Z.of_nat 0) with 0 in E. rewrite E, bind_Ok. pose proof (proj1 (found_iff c x i I ltac:(lia) R2 R3) Hx) as (Li & Ex).
  rewrite (oget_cell l c 0 (length c)) by (auto; lia). rewrite bind_Ok, !Nat2Z.id, Ex, Z.eqb_refl. rewrite N. replace (i + 1)%nat with (S i) by lia.
  assert (Lf : length (firstn i c) = i) by (rewrite firstn_length; lia).
  destruct (orems_loop_ok c I L [x] (oarr l) i i (firstn i c)) as (a' & ind' & ar' & k' & -> & Q1 & Q2 & Q3 & Q4 & Q5 & Q6 & Q7 & Q8 & Q9); auto; try lia.
  - intros; apply Hin; right; auto.
  - intros j Hj. rewrite nth_firstn' by lia. apply Hc. lia.
  - intros j Hj. apply Hc. lia.
  - change (firstn i c) with (sl c 0 i); apply sl_incr; auto; lia.
  - intros y. rewrite !in_firstn by lia. cbn [In]. split.
    + intros (j & Hj & <-). pose proof (incr_nth c I j i ltac:(lia)). split; [exists j; split; auto; lia|intros [|[]]; lia].
    + intros ((j & Hj & <-) & Hn). exists j. split; auto. destruct (Nat.eq_dec j i) as [->|]; [exfalso; apply Hn; auto|lia].
  - rewrite Ex. exact IL1.
  - intros y [<-|[]]. lia.
  - rewrite bind_Ok. cbn [onum]. destruct (omove_ok c (length c) ltac:(lia) (length c) a' (S ind') ar' k' ltac:(lia) ltac:(lia) ltac:(lia) Q3 ltac:(unfold ocap in Lc; lia) Q5 Q6) as (a2 & -> & La2 & D1 & _). rewrite bind_Ok. cbn [oarr].
    eexists; split; [reflexivity|]. exists (k' ++ sl c (S ind') (length c)). assert (Ln : length (k' ++ sl c (S ind') (length c)) = (ar' + (length c - S ind'))%nat) by (rewrite app_length, sl_length by lia; lia). split.
    + apply cells_holds; auto; [rewrite Ln; exact D1|]. apply incr_app. split; auto. split; [apply sl_incr; auto; lia|]. intros u v Hu Hv. apply Q8 in Hu. destruct Hu as (Hu & _). apply in_firstn in Hu; [|lia]. apply in_sl in Hv; [|lia]. destruct Hu as (j & Hj & <-), Hv as (j' & Hj' & <-). apply incr_nth; auto. lia.
    + intros y. rewrite in_app_iff, Q8, in_sl, in_firstn by lia. cbn [app]. split.
      * intros [((j & Hj & <-) & Hn)|(j & Hj & <-)]; (split; [|apply nth_In; lia]); auto. intros Q. apply Q9 in Q. pose proof (incr_nth c I ind' j ltac:(lia)). lia.
      * intros (Hn & Hy). apply (In_nth _ _ 0) in Hy. destruct Hy as (j & Hj & <-). destruct (Nat.lt_ge_cases j (S ind')); [left; split; auto; exists j; auto|right; exists j; split; auto].
Qed.
(** histories *)
Lemma ostep_ok o l c P : holds l c -> (forall y, In y c <-> P y) -> olegal P l o -> exists l', ostep ls l o = Ok l' /\ opost l' (ostep_set P o).
Proof.
  intros H M Lg. destruct o as [x|x|L|x|L| |m]; cbn [ostep ostep_set olegal] in *.
  - destruct (oapp_ok l c x H) as (l' & -> & H'); [intros y Hy; apply Lg, M, Hy|]. exists l'. split; auto. exists (c ++ [x]). split; auto. intros y. rewrite in_app_iff, <- M. cbn. intuition.
  - destruct (oput_ok l c x H) as (l' & -> & c' & H' & M'); [destruct Lg as [Lg|Lg]; [left; apply M, Lg|right; intros y z Hy Hz; apply Lg; apply M; auto]|]. exists l'. split; auto. exists c'. split; auto. intros y. rewrite M', M. tauto.
  - destruct Lg as (IL & Lg). destruct (oputs_ok l c L H IL) as (l' & -> & c' & H' & M').
    + destruct Lg as [Lg|Lg]; [left; destruct c as [|z c]; auto; exfalso; apply (Lg z), M; left; auto|right]. intros x Hx. destruct (Lg x Hx) as [(y & Hy & Ly)|Q]; [left; exists y; split; auto; apply M, Hy|right; exact Q].
    + exists l'. split; auto. exists c'. split; auto. intros y. rewrite M', M. tauto.
  - destruct (orem_ok l c x H) as (l' & -> & c' & H' & M'); [apply M, Lg|]. exists l'. split; auto. exists c'. split; auto. intros y. rewrite M', M. tauto.
  - destruct Lg as (IL & Lg). destruct (orems_ok l c L H IL) as (l' & -> & c' & H' & M'); [intros x Hx; apply M, Lg, Hx|]. exists l'. split; auto. exists c'. split; auto. intros y. rewrite M', M. tauto.
  - pose proof (holds_cells _ _ H) as (Hc & Lc). pose proof H as (I & N & Ha). destruct l as [a n idx]. cbn [onum oarr] in *. subst n. destruct (Nat.lt_ge_cases idx (length c)) as [Li|Li].
    + rewrite (onext_ok a (length c) idx c (length c)) by (auto; intros j Hj; apply Hc; lia). rewrite bind_Ok. eexists; split; [reflexivity|]. exists c. split; auto.
    + unfold onext. cbn [oidx onum]. destruct (Nat.ltb_spec idx (length c)); [lia|]. rewrite bind_Ok. eexists; split; [reflexivity|]. exists c. split; auto.
  - eexists; split; [reflexivity|]. exists []. split; [|cbn; tauto]. split; [cbn; auto|]. split; auto.
Qed.
Lemma orun_ok os : forall l c P, holds l c -> (forall y, In y c <-> P y) -> olegals ls P l os -> exists l', orun ls os l = Ok l' /\ opost l' (orun_set os P).
Proof.
  induction os as [|o os IH]; intros l c P H M Lg; cbn [orun mfold orun_set fold_left olegals] in *; [exists l; split; auto; exists c; auto|]. destruct Lg as (L1 & L2).
  destruct (ostep_ok o l c P H M L1) as (l1 & E & c1 & H1 & M1). rewrite E, bind_Ok. destruct (IH l1 c1 _ H1 M1 (L2 l1 E)) as (l' & E' & R). exists l'. auto.
Qed.
Lemma onew_holds m : holds (onew m) [].
Proof. split; [exact Logic.I|]. split; reflexivity. Qed.
End Ls.
