(** A pivot of SElimModel (normalize, clear_col, eliminate, free_space) keeps the invariant. *)
From Coq Require Import ZArith Znumtheory Lia List Bool.
From Verif Require Import Base ArithModel RatModel MArithModel LinModel LinSpec LinProofs SvecModel SmatModel OrdModel OrdSpec OrdProofs OrdMore SElimModel SElimRow SElimInv.
Import ListNotations.
Open Scope Z_scope.
Open Scope res_scope.

Lemma set_cols_self st : set_cols st (ecols st) = st.
Proof. destruct st; reflexivity. Qed.
Lemma set_rows_self st : set_rows st (erows st) = st.
Proof. destruct st; reflexivity. Qed.
Lemma ck_nat c : Z.to_nat (ck c - 1) = c.
Proof. unfold ck. lia. Qed.
Lemma ck_inj c d : ck c = ck d -> c = d.
Proof. unfold ck. lia. Qed.
Lemma zget_ck {A} (d : A) l c : (c < length l)%nat -> zget l (ck c - 1) = Ok (nth c l d).
Proof. intros H. rewrite (zget_nth d) by (unfold zlen, ck; lia). rewrite ck_nat. reflexivity. Qed.
Lemma zset_ck {A} (l : list A) c x : (c < length l)%nat -> zset l (ck c - 1) x = Ok (upd l c x).
Proof. intros H. rewrite zset_upd by (unfold zlen, ck; lia). rewrite ck_nat. reflexivity. Qed.
Lemma weight_ck st c : (c < length (ecols st))%nat -> weight st (ck c) = Ok (Z.of_nat (onum (cl st c))).
Proof. intros H. unfold weight. rewrite (zget_ck (onew 0)) by auto. reflexivity. Qed.

(** loops over columns *)
Lemma col_loop_ok {D X} (f : D -> olist -> res olist) (g : est -> Z -> X -> res X) (XI : nat -> X -> Prop) (Post : nat -> olist -> Prop) nc st ks : forall x0 n0,
  length (ecols st) = nc -> NoDup (map fst ks) ->
  (forall k d, In (k, d) ks -> exists c, k = ck c /\ (c < nc)%nat /\ exists o, f d (cl st c) = Ok o /\ Post c o) ->
  (forall cs c n x, length cs = nc -> (c < nc)%nat -> Post c (nth c cs (onew 0)) -> XI n x -> exists x', g (set_cols st cs) (ck c) x = Ok x' /\ XI (S n) x') ->
  XI n0 x0 ->
  exists cs x', col_loop f g ks (st, x0) = Ok (set_cols st cs, x') /\ length cs = nc /\ (forall c, In (ck c) (map fst ks) -> Post c (nth c cs (onew 0))) /\
    (forall c, ~ In (ck c) (map fst ks) -> nth c cs (onew 0) = cl st c) /\ XI (n0 + length ks)%nat x'.
Proof.
  revert st. induction ks as [|(k, d) ks IH]; intros st x0 n0 N ND F G X0.
  - exists (ecols st), x0. rewrite set_cols_self. split; [reflexivity|]. split; auto. split; [intros c []|]. split; [reflexivity|]. rewrite Nat.add_0_r. auto.
  - cbn [map fst] in ND. inversion ND; subst. destruct (F k d (or_introl eq_refl)) as (c & -> & Lc & o & Eo & Po). destruct (G (upd (ecols st) c o) c n0 x0) as (x1 & E1 & X1); auto; [apply upd_len|rewrite upd_same; auto|].
    assert (Es : on_col st (ck c) (f d) = Ok (set_cols st (upd (ecols st) c o))) by (unfold on_col; rewrite (zget_ck (onew 0)) by auto; rewrite bind_Ok; fold (cl st c); rewrite Eo, bind_Ok, zset_ck by auto; reflexivity).
    change (col_loop f g ((ck c, d) :: ks) (st, x0)) with (bind (bind (on_col st (ck c) (f d)) (fun st => bind (g st (ck c) x0) (fun x => Ok (st, x)))) (fun s => col_loop f g ks s)). rewrite Es, bind_Ok, E1, !bind_Ok.
    assert (Nk : forall k' d', In (k', d') ks -> k' <> ck c) by (intros k' d' Hi ->; apply H1, in_map_iff; exists (ck c, d'); auto).
    destruct (IH (set_cols st (upd (ecols st) c o)) x1 (S n0)) as (cs & x' & E & L' & A1 & A2 & X'); auto.
    + cbn. apply upd_len.
    + intros k' d' Hi. destruct (F k' d' (or_intror Hi)) as (c' & -> & Lc' & o' & Eo' & Po'). exists c'. split; auto. split; auto. exists o'. split; auto. unfold cl. cbn. rewrite upd_other; auto. intros ->. apply (Nk _ _ Hi). reflexivity.
    + exists cs, x'. split; [exact E|]. split; auto. split; [|split].
      * intros c' [Hc|Hc]; [|apply A1; auto]. apply ck_inj in Hc. subst c'. rewrite A2 by auto. unfold cl. cbn. rewrite upd_same; auto.
      * intros c' Hc. rewrite A2 by (intros H; apply Hc; right; auto). unfold cl. cbn. apply upd_other. intros ->. apply Hc. left. reflexivity.
      * replace (n0 + length ((ck c, d) :: ks))%nat with (S n0 + length ks)%nat by (cbn; lia). exact X'.
Qed.
Lemma addtags_ok r tg : forall ins outs, length ins = length tg -> length outs = length tg ->
  length (fst (addtags r tg ins outs)) = length tg /\ length (snd (addtags r tg ins outs)) = length tg /\
  forall t, (t < length tg)%nat ->
    nth t (fst (addtags r tg ins outs)) [] = match nth t tg TSame with TIn => nth t ins [] ++ [r] | _ => nth t ins [] end /\
    nth t (snd (addtags r tg ins outs)) [] = match nth t tg TSame with TOut => nth t outs [] ++ [r] | _ => nth t outs [] end.
Proof.
  induction tg as [|a tg IH]; intros [|i ins] [|o outs] L1 L2; cbn [length] in *; try lia; cbn [addtags].
  - cbn. split; auto. split; auto. intros t Ht. lia.
  - destruct (IH ins outs ltac:(lia) ltac:(lia)) as (A & B & C). destruct (addtags r tg ins outs) as (ins', outs'). cbn [fst snd] in *. split; [cbn; lia|]. split; [cbn; lia|].
    intros [|t] Ht; cbn [nth]; [auto|]. apply C. lia.
Qed.
Lemma Forall2_nth {A B} (R : A -> B -> Prop) l m da db : Forall2 R l m -> length l = length m /\ forall t, (t < length l)%nat -> R (nth t l da) (nth t m db).
Proof.
  induction 1 as [|a b l m H F (L & IH)]; [split; auto; cbn; intros; lia|]. split; [cbn; lia|]. intros [|t] Ht; cbn [nth]; auto. apply IH. cbn in Ht. lia.
Qed.
Lemma nth_keys l t : (t < length l)%nat -> nth t (keys l) 0 = fst (nth t l (0, 0)).
Proof. intros H. unfold keys. change 0 with (fst (0, 0)). apply map_nth. Qed.
Lemma incr_nodup l : incr l -> NoDup l.
Proof. induction l as [|x l IH]; intros I; constructor; [|apply IH, I]. intros H. apply I in H. lia. Qed.
Lemma firstn_succ {A} (d : A) l k : (k < length l)%nat -> firstn (k + 1) l = firstn k l ++ [nth k l d].
Proof. revert k. induction l as [|x l IH]; intros [|k] H; cbn in *; try lia; auto. f_equal. apply IH. lia. Qed.
Lemma firstn_incr l k : incr l -> (k < length l)%nat -> forall y, In y (firstn k l) -> y < nth k l 0.
Proof. intros I H y Hy. apply in_firstn in Hy; [|lia]. destruct Hy as (j & Hj & <-). apply incr_nth; [auto|lia]. Qed.
Lemma in_firstn_in {A} (l : list A) k x : In x (firstn k l) -> In x l.
Proof. intros H. rewrite <- (firstn_skipn k l). apply in_or_app. auto. Qed.

Section Pivot.
Variables (E : esc) (p : Z) (V : Z -> Prop) (nr nc : nat) (A0 : nat -> nat -> Z) (ex : nat).
Hypothesis M : emod E p V.
Let P : prime p := em_prime _ _ _ M.
Notation wf := (wfrow p V nc).
Notation inv := (inv p V nr nc A0 ex).
Notation core := (core p V nr nc A0).

(** ** normalize *)
Lemma inv_scale pv st r l' u u' : inv pv st -> (r < nr)%nat -> act st r -> rw st r <> [] -> cong p (u * u') 1 -> wf l' -> keys l' = keys (rw st r) -> (forall k, cong p (lookup l' k) (u * lookup (rw st r) k)) ->
  inv pv (set_rows st (upd (erows st) r l')) /\ rw (set_rows st (upd (erows st) r l')) r = l' /\ (forall i, i <> r -> rw (set_rows st (upd (erows st) r l')) i = rw st i).
Proof.
  intros I Lr A Ne Cu W' K' C'. pose proof (i_core _ _ _ _ _ _ _ _ I) as K. set (st1 := set_rows st (upd (erows st) r l')).
  assert (Rr : rw st1 r = l') by (unfold rw, st1; cbn; apply upd_same; rewrite (k_nr _ _ _ _ _ _ _ K); auto). assert (Ro : forall i, i <> r -> rw st1 i = rw st i) by (intros i Hi; unfold rw, st1; cbn; apply upd_other; auto).
  assert (Kk : forall i, keys (rw st1 i) = keys (rw st i)) by (intros i; destruct (Nat.eq_dec i r) as [->|N]; [rewrite Rr; auto|rewrite Ro; auto]).
  assert (Hh : forall i d, has st1 i d <-> has st i d) by (intros i d; unfold has; rewrite Kk; tauto).
  split; [|auto]. destruct I as [_ Nc Cc Ic]. constructor; auto.
  - constructor; try apply K.
    + cbn. rewrite upd_len. apply K.
    + intros i. destruct (Nat.eq_dec i r) as [->|N]; [rewrite Rr; auto|rewrite Ro by auto; apply K].
    + eapply eqspan_trans; [apply K|]. apply (eqspan_scale p nc nr _ _ r u u'); auto.
      * intros i j Li Lj Hi. unfold se. rewrite Ro by auto. apply cong_refl.
      * intros j Lj. unfold se. rewrite Rr. apply C'.
    + intros r0 c0 H0. destruct (k_pv _ _ _ _ _ _ _ K r0 c0 H0) as (H1 & H2 & H3 & H4 & H5). split; auto. split; auto. split; auto. split; auto. unfold se. rewrite Ro; auto. intros ->. unfold act, ck in *. lia.
    + intros i Li. destruct (k_pos _ _ _ _ _ _ _ K i Li) as [|[(H1 & H2)|]]; auto. right. left. split; auto. rewrite Ro; auto. intros ->. auto.
    + intros pv1 r0 c0 pv2 E0 i Hi. rewrite Hh. apply (k_tri _ _ _ _ _ _ _ K pv1 r0 c0 pv2 E0 i Hi).
  - intros d Ld. destruct (Cc d Ld) as (l & Hl & Ml). exists l. split; [exact Hl|]. intros y. rewrite Ml. unfold colset. split; intros (i & E1 & E2 & E3 & E4); exists i; repeat split; auto; apply Hh; auto.
Qed.
Lemma has_ne st r c : has st r c -> rw st r <> [].
Proof. unfold has. intros H N. rewrite N in H. exact H. Qed.
Lemma unit_nz u x : cong p (x * u) 1 -> ~ cong p u 0.
Proof.
  intros Cu H0. assert (C1 : cong p 1 0) by (eapply cong_trans; [apply cong_sym, Cu|]; rewrite <- (Z.mul_0_r x); apply cong_mul; [apply cong_refl|exact H0]). unfold cong in C1. rewrite Z.sub_0_r in C1. apply Z.divide_1_r in C1. destruct P. lia.
Qed.
Lemma normalize_ok pv st r c : inv pv st -> (r < nr)%nat -> act st r -> has st r c ->
  exists st1, normalize E p st (Z.of_nat r) (ck c) = Ok st1 /\ inv pv st1 /\ cong p (se st1 r c) 1 /\ (forall i, po st1 i = po st i) /\ ecols st1 = ecols st /\ erow st1 = erow st /\ (forall i, keys (rw st1 i) = keys (rw st i)).
Proof.
  intros I Lr A H. pose proof (i_core _ _ _ _ _ _ _ _ I) as K. pose proof (k_row _ _ _ _ _ _ _ K r) as W. unfold normalize. rewrite (zget_nat (nil : smap)) by (rewrite (k_nr _ _ _ _ _ _ _ K); auto). fold (rw st r). rewrite bind_Ok.
  destruct (rlocate_ok (rw st r) (ck c) (proj1 W) H) as (t & -> & _). rewrite bind_Ok. fold (se st r c). set (x := se st r c).
  destruct (Z.eqb_spec x 1) as [X1|_].
  - exists st. split; auto. split; auto. split; [apply cong_eq, X1|]. auto.
  - assert (Vx : V x) by (apply (lookup_V p V nc); auto). assert (Nx : ~ cong p x 0) by (apply (has_se _ _ _ _ _ _ _ _ _ K); auto).
    destruct (em_inv _ _ _ M x Vx Nx) as (u & -> & Vu & Cu). rewrite bind_Ok.
    destruct (scale_ok E p V nc M u (rw st r) Vu (unit_nz _ _ Cu) W) as (l' & -> & W' & K' & C'). rewrite bind_Ok. rewrite zset_nat by (rewrite (k_nr _ _ _ _ _ _ _ K); auto). rewrite bind_Ok.
    destruct (inv_scale pv st r l' u x I Lr A (has_ne _ _ _ H)) as (I1 & Rr & Ro); auto; [rewrite Z.mul_comm; exact Cu|].
    eexists. split; [reflexivity|]. split; [exact I1|]. split; [|split; [reflexivity|split; [reflexivity|split; [reflexivity|]]]].
    + unfold se. rewrite Rr. eapply cong_trans; [apply C'|]. fold (se st r c). fold x. rewrite Z.mul_comm. exact Cu.
    + intros i. destruct (Nat.eq_dec i r) as [->|N]; [rewrite Rr; auto|rewrite Ro; auto].
Qed.

(** ** the queue and the light columns *)
Variable B : Z -> Prop.
Definition isbit (x : Z) : Prop := x = 0 \/ x = 1.
Definition qext (L0 : list Z) (n : nat) (L : list Z) : Prop := exists xs, L = L0 ++ xs /\ (length xs <= n)%nat /\ Forall B xs.
Definition liok (Mx : Z) (li : list Z) : Prop := Mx <> 0 -> length li = nc /\ Forall isbit li.
Lemma qext_0 L : qext L 0 L.
Proof. exists []. rewrite app_nil_r. auto. Qed.
Lemma qext_S L0 n L : qext L0 n L -> qext L0 (S n) L.
Proof. intros (xs & H1 & H2 & H3). exists xs. split; auto. Qed.
Lemma qext_le L0 n m L : (n <= m)%nat -> qext L0 n L -> qext L0 m L.
Proof. intros Hn (xs & H1 & H2 & H3). exists xs. split; auto. split; auto. lia. Qed.
Lemma qext_snoc L0 n L x : qext L0 n L -> B x -> qext L0 (S n) (L ++ [x]).
Proof. intros (xs & -> & H2 & H3) Hx. exists (xs ++ [x]). rewrite app_assoc. split; auto. split; [rewrite app_length; cbn; lia|]. apply Forall_app. auto. Qed.
Lemma qext_trans L0 n L1 m L2 : qext L0 n L1 -> qext L1 m L2 -> qext L0 (n + m) L2.
Proof. intros (xs & -> & H2 & H3) (ey & -> & H5 & H6). exists (xs ++ ey). rewrite app_assoc. split; auto. split; [rewrite app_length; lia|]. apply Forall_app. auto. Qed.
Lemma Forall_upd {A} (R : A -> Prop) l i x : Forall R l -> R x -> Forall R (upd l i x).
Proof. intros F. revert i. induction F as [|y l Hy F IH]; intros [|i] Hx; cbn [upd]; constructor; auto. Qed.
Lemma col_checks_ok fc Mx st c L0 n L li : (fc = true -> forall k, 1 <= k <= Z.of_nat nc -> B k) -> length (ecols st) = nc -> (c < nc)%nat -> qext L0 n L -> liok Mx li ->
  exists L' li', col_checks fc Mx st (ck c) (L, li) = Ok (L', li') /\ qext L0 (S n) L' /\ liok Mx li'.
Proof.
  intros HB N Lc Q Y. unfold col_checks. assert (L1 : exists L', (if fc then check_col st (ck c) L else Ok L) = Ok L' /\ qext L0 (S n) L').
  { destruct fc; [|exists L; split; auto; apply qext_S, Q]. unfold check_col. rewrite weight_ck by lia. rewrite bind_Ok. eexists. split; [reflexivity|]. destruct (_ || _); [apply qext_snoc; auto; apply HB; auto; unfold ck; lia|apply qext_S, Q]. }
  destruct L1 as (L' & -> & Q'). rewrite bind_Ok. destruct (Z.eqb_spec Mx 0) as [M0|M0]; [exists L', li; auto|].
  rewrite weight_ck by lia. rewrite bind_Ok. destruct (Y M0) as (Y1 & Y2). rewrite zset_ck by lia. rewrite bind_Ok. eexists L', _. split; [reflexivity|]. split; auto. intros _. rewrite upd_len. split; auto. apply Forall_upd; auto.
  unfold isbit. destruct (_ && _); auto.
Qed.
(** ** clear_col *)
Record cleared (fr : bool) (st st2 : est) (r c : nat) : Prop := {
  d_nr : length (erows st2) = length (erows st);
  d_np : length (epos st2) = length (epos st);
  d_ec : ecol st2 = ecol st;
  d_er : erow st2 = erow st;
  d_ncs : length (ecols st2) = nc;
  d_r : rw st2 r = rw st r;
  d_row : forall i, wf (rw st2 i);
  d_in : forall i, (~ act st i \/ (nr <= i)%nat) -> rw st2 i = rw st i;
  d_act : forall i, i <> r -> act st i -> exists m, forall j, cong p (se st2 i j) (se st i j + m * se st r j);
  d_clr : forall i, (i < nr)%nat -> i <> r -> act st i -> ~ has st2 i c;
  d_po : forall i, po st2 i = po st i \/ (i <> r /\ act st i /\ po st2 i = 0 /\ rw st2 i = []);
  d_fr : fr = true -> forall i, (i < nr)%nat -> i <> r -> act st2 i -> rw st i <> [] -> rw st2 i <> [];
  d_col : forall d, (d < nc)%nat -> opost (cl st2 d) (fun y => exists i, y = Z.of_nat i /\ (i < nr)%nat /\ i <> r /\ act st i /\ has st2 i d);
  d_idx : forall d, (d < nc)%nat -> d <> c -> ce st d = -1 -> oidx (cl st2 d) = 0%nat
}.
Lemma keys_ck pv st r k d : core pv st -> In (k, d) (rw st r) -> exists c, k = ck c /\ (c < nc)%nat /\ has st r c.
Proof. intros K H. apply (has_range p V nr nc A0 pv st r k K). apply in_keys. exists d. auto. Qed.
Lemma colset_nat st d i : colset nr st d (Z.of_nat i) <-> (i < nr)%nat /\ act st i /\ has st i d.
Proof. unfold colset. split; [intros (j & Hj & H); apply Nat2Z.inj in Hj; subst j; exact H|intros H; exists i; auto]. Qed.
(** only the pivotal row meets the column *)
Lemma clear_one {X} (g : est -> Z -> X -> res X) (XI : nat -> X -> Prop) fr pv st r c x0 n0 : inv pv st -> (r < nr)%nat -> act st r -> (c < nc)%nat -> has st r c -> ex = c \/ ex = nc -> onum (cl st c) = 1%nat ->
  (forall cs c n x, length cs = nc -> (c < nc)%nat -> opost (nth c cs (onew 0)) (fun y => y <> Z.of_nat r /\ colset nr st c y) -> XI n x -> exists x', g (set_cols st cs) (ck c) x = Ok x' /\ XI (S n) x') -> XI n0 x0 ->
  exists st2 x', col_loop (fun (_ : Z) o => orem o (Z.of_nat r)) g (rw st r) (st, x0) = Ok (st2, x') /\ cleared fr st st2 r c /\ XI (n0 + length (rw st r))%nat x' /\ erows st2 = erows st /\ epos st2 = epos st.
Proof.
  intros I Lr A Lc H Xe W1 G X0. pose proof (i_core _ _ _ _ _ _ _ _ I) as K. pose proof (k_row _ _ _ _ _ _ _ K r) as W.
  destruct (col_loop_ok (fun (_ : Z) o => orem o (Z.of_nat r)) g XI (fun d o => opost o (fun y => y <> Z.of_nat r /\ colset nr st d y) /\ (d <> ex -> ce st d = -1 -> oidx o = 0%nat)) nc st (rw st r) x0 n0) as (cs & x' & -> & L' & A1 & A2 & X'); auto.
  - apply I.
  - apply incr_nodup, W.
  - intros k v Hk. destruct (keys_ck _ _ _ _ _ K Hk) as (d & -> & Ld & Hd). exists d. split; auto. split; auto. destruct (i_col _ _ _ _ _ _ _ _ I d Ld) as (l & Hl & Ml).
    destruct (orem_more (cl st d) l (Z.of_nat r) Hl) as (o & Eo & (l' & Hl' & Ml') & Xo & _). { apply Ml, colset_nat. auto. }
    exists o. split; auto. split; [exists l'; split; auto; intros y; rewrite Ml', Ml; tauto|]. intros Xc Hc. rewrite Xo. apply I; auto.
  - intros cs d n x Ls Ld (Po & _) Hx. apply G; auto.
  - exists (set_cols st cs), x'. split; [reflexivity|]. split; [|auto].
    assert (On : forall i, (i < nr)%nat -> act st i -> has st i c -> i = r).
    { destruct (i_col _ _ _ _ _ _ _ _ I c Lc) as (l & Hl & Ml). pose proof Hl as (_ & Nl & _). rewrite W1 in Nl. destruct l as [|y [|z l]]; cbn in Nl; try lia.
      intros i Li Ai Hi. pose proof (proj2 (Ml (Z.of_nat i)) (proj2 (colset_nat _ _ _) (conj Li (conj Ai Hi)))) as [e1|[]]. pose proof (proj2 (Ml (Z.of_nat r)) (proj2 (colset_nat _ _ _) (conj Lr (conj A H)))) as [e2|[]]. lia. }
    constructor; try reflexivity.
    + exact L'.
    + apply K.
    + intros i _ _. exists 0. intros j. apply cong_eq. change (se (set_cols st cs) i j) with (se st i j). ring.
    + intros i Li Ni Ai Hi. apply Ni, On; auto.
    + intros i. left. reflexivity.
    + intros _ i _ _ _ Hi. exact Hi.
    + intros d Ld. assert (Eq : forall y, (exists i, y = Z.of_nat i /\ (i < nr)%nat /\ i <> r /\ act st i /\ has (set_cols st cs) i d) <-> y <> Z.of_nat r /\ colset nr st d y).
      { intros y. split; [intros (i & -> & H1 & H2 & H3 & H4); split; [lia|]; apply colset_nat; auto|intros (H1 & i & -> & H2 & H3 & H4); exists i; repeat split; auto; congruence]. }
      unfold cl. cbn. destruct (in_dec Z.eq_dec (ck d) (map fst (rw st r))) as [Hd|Hd].
      * destruct (A1 d Hd) as ((l & Hl & Ml) & _). exists l. split; auto. intros y. rewrite Ml, Eq. tauto.
      * rewrite A2 by auto. destruct (i_col _ _ _ _ _ _ _ _ I d Ld) as (l & Hl & Ml). exists l. split; auto. intros y. rewrite Ml, Eq. split; [|tauto]. intros Hy. split; auto. intros ->. apply colset_nat in Hy. apply Hd, Hy.
    + intros d Ld Nd Cd. assert (Nx : d <> ex) by (clear - Xe Nd Ld; lia). unfold cl. cbn. destruct (in_dec Z.eq_dec (ck d) (map fst (rw st r))) as [Hd|Hd]; [apply A1; auto|rewrite A2 by auto; apply I; auto].
Qed.
(** several rows meet the column *)
Definition linv (fr : bool) (st0 : est) (r c : nat) (cl0 : list Z) (arr : list (option Z)) (num : nat) (L0 : list Z) (k : nat) (s : est * olist * list (list Z) * list (list Z) * list Z) : Prop :=
  let '(st, col0, ins, outs, L) := s in let l1 := rw st0 r in
  (col0 = Ol arr num k /\ length (erows st) = length (erows st0) /\ length (epos st) = length (epos st0) /\ ecol st = ecol st0 /\ erow st = erow st0 /\ ecols st = ecols st0) /\
  ((forall i, (i = r \/ ~ In (Z.of_nat i) (firstn k cl0)) -> rw st i = rw st0 i) /\
   (forall i, i <> r -> In (Z.of_nat i) (firstn k cl0) -> merged p V nc l1 (ck c) (rw st0 i) (rw st i))) /\
  ((forall i, po st i = po st0 i \/ (i <> r /\ In (Z.of_nat i) (firstn k cl0) /\ po st i = 0 /\ rw st i = [])) /\
   (fr = true -> forall i, i <> r -> In (Z.of_nat i) (firstn k cl0) -> rw st i = [] -> po st i = 0)) /\
  (length ins = length l1 /\ length outs = length l1 /\ forall t, (t < length l1)%nat -> (incr (nth t ins []) /\ incr (nth t outs [])) /\
     (forall y, In y (nth t ins []) <-> In y (firstn k cl0) /\ y <> Z.of_nat r /\ ~ In (nth t (keys l1) 0) (keys (rw st0 (Z.to_nat y))) /\ In (nth t (keys l1) 0) (keys (rw st (Z.to_nat y)))) /\
     (forall y, In y (nth t outs []) <-> In y (firstn k cl0) /\ y <> Z.of_nat r /\ In (nth t (keys l1) 0) (keys (rw st0 (Z.to_nat y))) /\ ~ In (nth t (keys l1) 0) (keys (rw st (Z.to_nat y))))) /\
  qext L0 k L.
Lemma check_row_ok fr st d i L0 n L : (fr = true -> forall i, (i < nr)%nat -> B (Z.of_nat i)) -> length (erows st) = nr -> length (epos st) = nr -> (i < nr)%nat -> qext L0 n L ->
  exists ps L', (if fr then check_row st d (Z.of_nat i) L else Ok (st, L)) = Ok (set_pos st ps, L') /\ qext L0 (S n) L' /\ length ps = length (epos st) /\
    (forall j, nth j ps 0 = po st j \/ (j = i /\ nth j ps 0 = 0 /\ rw st i = [])) /\ (fr = true -> rw st i = [] -> nth i ps 0 = 0).
Proof.
  intros HB N1 N2 Li Q. assert (Ss : st = set_pos st (epos st)) by (destruct st; reflexivity). destruct fr.
  - unfold check_row. rewrite (zget_nat (nil : smap)) by lia. fold (rw st i). rewrite bind_Ok. destruct (Nat.ltb_spec (length (rw st i)) 3) as [H3|H3].
    + destruct (Nat.eqb_spec (length (rw st i)) 0) as [H0|H0].
      * rewrite zset_nat by lia. rewrite bind_Ok. eexists _, L. split; [reflexivity|]. apply length_zero_iff_nil in H0. split; [apply qext_S, Q|]. split; [apply upd_len|]. split; [|intros _ _; apply upd_same; lia].
        intros j. destruct (Nat.eq_dec j i) as [->|Nj]; [right; split; auto; split; auto; apply upd_same; lia|left; apply upd_other; auto].
      * eexists (epos st), _. rewrite Ss at 1. split; [reflexivity|]. split; [destruct (2 <? d)%nat; [apply qext_snoc; auto|apply qext_S, Q]|]. split; auto. split; [intros j; left; reflexivity|]. intros _ H. rewrite H in H0. cbn in H0. lia.
    + exists (epos st), L. rewrite Ss at 1. split; [reflexivity|]. split; [apply qext_S, Q|]. split; auto. split; [intros j; left; reflexivity|]. intros _ H. rewrite H in H3. cbn in H3. lia.
  - exists (epos st), L. rewrite Ss at 1. split; [reflexivity|]. split; [apply qext_S, Q|]. split; auto. split; [intros j; left; reflexivity|]. discriminate.
Qed.
Lemma clear_row_ok fr pv st0 r c cl0 L0 k s : (fr = true -> forall i, (i < nr)%nat -> B (Z.of_nat i)) -> inv pv st0 -> (r < nr)%nat -> act st0 r -> (c < nc)%nat -> cong p (se st0 r c) 1 ->
  holds (cl st0 c) cl0 -> (forall y, In y cl0 <-> colset nr st0 c y) -> (k < length cl0)%nat -> linv fr st0 r c cl0 (oarr (cl st0 c)) (onum (cl st0 c)) L0 k s ->
  exists s', clear_row E p (Z.of_nat r) (ck c) (rw st0 r) fr s = Ok s' /\ linv fr st0 r c cl0 (oarr (cl st0 c)) (onum (cl st0 c)) L0 (k + 1) s'.
Proof.
  intros HB I Lr A Lc C1 Hl Ml Lk HI. pose proof (i_core _ _ _ _ _ _ _ _ I) as K. destruct s as ((((st & col0) & ins) & outs) & L). cbn [linv] in HI.
  destruct HI as ((-> & N1 & N2 & N3 & N4 & N5) & (R1 & R2) & (P1 & P2) & (T1 & T2 & T3) & Q). rewrite (k_nr _ _ _ _ _ _ _ K) in N1. rewrite (k_np _ _ _ _ _ _ _ K) in N2.
  pose proof (holds_cells _ _ Hl) as (Hc & _). pose proof Hl as (Ic & Nc & _). unfold clear_row. rewrite (onext_ok 1 (le_n 1) _ _ k cl0 (length cl0)) by (auto; try lia; intros j Hj; apply Hc; lia). rewrite bind_Ok.
  set (l1 := rw st0 r) in *. pose proof (firstn_succ 0 cl0 k Lk) as Fs. pose proof (firstn_incr cl0 k Ic Lk) as Fi. pose proof (nth_In cl0 0 Lk) as Hy. apply Ml in Hy. destruct Hy as (i & Ey & Li & Ai & Hi). rewrite Ey in *.
  assert (Fn : ~ In (Z.of_nat i) (firstn k cl0)) by (intros H; apply Fi in H; lia).
  assert (Fz : forall y, In y (firstn k cl0) -> exists j, y = Z.of_nat j /\ j <> i). { intros y H. pose proof (Fi y H). apply in_firstn_in, Ml in H. destruct H as (j & -> & _). exists j. split; auto. lia. }
  destruct (Z.eqb_spec (Z.of_nat i) (Z.of_nat r)) as [Er|Er].
  - apply Nat2Z.inj in Er. subst i. eexists. split; [reflexivity|]. cbn [linv]. rewrite Fs. split; [rewrite N1, N2, (k_nr _ _ _ _ _ _ _ K), (k_np _ _ _ _ _ _ _ K); auto 7|]. split; [|split; [|split]].
    + split; [intros j [H|H]; apply R1; auto; right; intros H'; apply H, in_or_app; auto|]. intros j Hj H. apply R2; auto. apply in_app_or in H. destruct H as [|[H|[]]]; auto. apply Nat2Z.inj in H. congruence.
    + split; [intros j; destruct (P1 j) as [|(H1 & H2 & H3)]; auto; right; split; auto; split; auto; apply in_or_app; auto|]. intros F j Hj H. apply P2; auto. apply in_app_or in H. destruct H as [|[H|[]]]; auto. apply Nat2Z.inj in H. congruence.
    + split; auto. split; auto. intros t Ht. destruct (T3 t Ht) as (Ta & Tb & Tc). split; auto. split; intros y; [rewrite Tb|rewrite Tc]; rewrite in_app_iff; cbn [In]; split; try tauto; intros ([H|[H|[]]] & H'); auto; destruct H'; congruence.
    + replace (k + 1)%nat with (S k) by lia. apply qext_S, Q.
  - assert (Ni : i <> r) by congruence. rewrite (zget_nat (nil : smap)) by lia. fold (rw st i). rewrite bind_Ok. rewrite (R1 i) by auto. set (l2 := rw st0 i) in *.
    assert (W1 : wf l1) by apply K. assert (W2 : wf l2) by apply K. destruct (rlocate_ok l2 (ck c) (proj1 W2) Hi) as (t0 & -> & _). rewrite bind_Ok.
    assert (Vx : V (lookup l2 (ck c))) by (apply (lookup_V p V nc); auto). destruct (em_v2 _ _ _ M _ Vx) as (v2 & -> & Vv & Cv). rewrite bind_Ok.
    assert (Nv : ~ cong p v2 0). { intros H. apply (proj1 (has_iff p V nc l2 (ck c) W2) Hi). apply cong_sym in Cv. pose proof (cong_opp _ _ _ (cong_trans _ _ _ _ Cv H)) as H'. rewrite Z.opp_involutive in H'. exact H'. }
    destruct (rowadd_ok E p V nc M v2 l1 l2 Vv Nv W1 W2) as (l & tg & -> & Wl & Cl & Tl). rewrite bind_Ok. rewrite zset_nat by lia. rewrite bind_Ok.
    apply (Forall2_nth _ _ _ (0, 0) TSame) in Tl. destruct Tl as (Tn & Tl). destruct (addtags_ok (Z.of_nat i) tg ins outs ltac:(lia) ltac:(lia)) as (G1 & G2 & G3). destruct (addtags (Z.of_nat i) tg ins outs) as (ins' & outs'). cbn [fst snd] in *.
    set (st1 := set_rows st (upd (erows st) i l)).
    assert (Ri : rw st1 i = l) by (unfold rw, st1; cbn; apply upd_same; lia). assert (Ro : forall j, j <> i -> rw st1 j = rw st j) by (intros j Hj; unfold rw, st1; cbn; apply upd_other; auto).
    destruct (check_row_ok fr st1 (length l2) i L0 k L HB ltac:(cbn; rewrite upd_len; auto) N2 Li Q) as (ps & L' & -> & Q' & Lps & Ps & Pf). rewrite bind_Ok. eexists. split; [reflexivity|]. cbn [linv]. rewrite Fs. fold l1.
    assert (Rw : forall j, rw (set_pos st1 ps) j = rw st1 j) by reflexivity.
    split; [|split; [|split; [|split]]].
    + cbn. rewrite upd_len, N1, (k_nr _ _ _ _ _ _ _ K). split; [reflexivity|]. split; auto. split; [rewrite Lps; unfold st1; cbn; rewrite N2; symmetry; apply K|]. auto.
    + split; intros j; rewrite Rw.
      * intros H. assert (j <> i) by (intros ->; destruct H as [|H]; [auto|]; apply H, in_or_app; right; left; reflexivity). rewrite Ro by auto. apply R1. destruct H as [|H]; auto. right. intros H'. apply H, in_or_app. auto.
      * intros Nj H. destruct (Nat.eq_dec j i) as [->|Nji].
        -- rewrite Ri. split; auto. intros kk. fold l2. eapply cong_trans; [apply Cl|]. replace (lookup l2 kk - lookup l2 (ck c) * lookup l1 kk) with (- lookup l2 (ck c) * lookup l1 kk + lookup l2 kk) by ring. apply cong_add; [apply cong_mul; [exact Cv|]|]; apply cong_refl.
        -- rewrite Ro by auto. apply R2; auto. apply in_app_or in H. destruct H as [|[H|[]]]; auto. apply Nat2Z.inj in H. congruence.
    + split.
      * intros j. change (po (set_pos st1 ps) j) with (nth j ps 0). rewrite Rw. destruct (Ps j) as [Hp|(-> & Hp & He)].
        -- change (po st1 j) with (po st j) in Hp. rewrite Hp. destruct (P1 j) as [|(H1 & H2 & H3 & H4)]; auto. right. split; auto. split; [apply in_or_app; auto|]. split; auto. rewrite Ro; auto. intros ->. apply Fn, H2.
        -- right. split; auto. split; [apply in_or_app; right; left; reflexivity|]. auto.
      * intros F j Nj H. change (po (set_pos st1 ps) j) with (nth j ps 0). rewrite Rw. destruct (Nat.eq_dec j i) as [->|Nji]; [apply Pf; auto|]. rewrite Ro by auto. intros He. destruct (Ps j) as [Hp|(-> & Hp & _)]; auto. rewrite Hp. change (po st1 j) with (po st j). apply P2; auto. apply in_app_or in H. destruct H as [|[H|[]]]; auto. apply Nat2Z.inj in H. congruence.
    + split; [lia|]. split; [lia|]. intros t Ht. destruct (T3 t Ht) as ((Ta1 & Ta2) & Tb & Tc). destruct (G3 t ltac:(lia)) as (-> & ->). specialize (Tl t Ht). set (kt := nth t (keys l1) 0) in *. rewrite <- (nth_keys l1 t Ht) in * || idtac.
      assert (Kt : fst (nth t l1 (0, 0)) = kt) by (unfold kt; symmetry; apply nth_keys; auto). unfold tagok in Tl. rewrite Kt in Tl.
      assert (Si : forall x, In x (nth t ins []) -> x < Z.of_nat i) by (intros x Hx; apply Tb in Hx; apply Fi, Hx). assert (So : forall x, In x (nth t outs []) -> x < Z.of_nat i) by (intros x Hx; apply Tc in Hx; apply Fi, Hx).
      assert (Xi : forall y, In y (firstn k cl0) -> rw (set_pos st1 ps) (Z.to_nat y) = rw st (Z.to_nat y)) by (intros y Hy; destruct (Fz y Hy) as (j & -> & Hj); rewrite Nat2Z.id, Rw; apply Ro; auto).
      assert (Ii : rw (set_pos st1 ps) (Z.to_nat (Z.of_nat i)) = l) by (rewrite Nat2Z.id, Rw; exact Ri). assert (I2 : rw st0 (Z.to_nat (Z.of_nat i)) = l2) by (rewrite Nat2Z.id; reflexivity).
      split; [|split].
      * split; destruct (nth t tg TSame); auto; apply incr_snoc; auto.
      * intros y. rewrite in_app_iff. cbn [In]. assert (Eq : In y (nth t ins []) <-> In y (firstn k cl0) /\ y <> Z.of_nat r /\ ~ In kt (keys (rw st0 (Z.to_nat y))) /\ In kt (keys (rw (set_pos st1 ps) (Z.to_nat y)))).
        { rewrite Tb. split; intros (H1 & H2 & H3 & H4); repeat split; auto; [rewrite Xi by auto; auto|rewrite Xi in H4 by auto; auto]. }
        destruct (nth t tg TSame) eqn:Et; [rewrite in_app_iff; cbn [In]| |]; rewrite Eq; split; try tauto.
        -- intros [H|[<-|[]]]; [tauto|]. rewrite Ii, I2. split; [auto|]. split; [congruence|]. exact Tl.
        -- intros ([H|[<-|[]]] & H'); [tauto|]. rewrite Ii, I2 in H'. tauto.
        -- intros ([H|[<-|[]]] & H'); [tauto|]. rewrite Ii, I2 in H'. tauto.
      * intros y. rewrite in_app_iff. cbn [In]. assert (Eq : In y (nth t outs []) <-> In y (firstn k cl0) /\ y <> Z.of_nat r /\ In kt (keys (rw st0 (Z.to_nat y))) /\ ~ In kt (keys (rw (set_pos st1 ps) (Z.to_nat y)))).
        { rewrite Tc. split; intros (H1 & H2 & H3 & H4); repeat split; auto; [rewrite Xi by auto; auto|rewrite Xi in H4 by auto; auto]. }
        destruct (nth t tg TSame) eqn:Et; [|rewrite in_app_iff; cbn [In]|]; rewrite Eq; split; try tauto.
        -- intros ([H|[<-|[]]] & H'); [tauto|]. rewrite Ii, I2 in H'. tauto.
        -- intros [H|[<-|[]]]; [tauto|]. rewrite Ii, I2. split; [auto|]. split; [congruence|]. exact Tl.
        -- intros ([H|[<-|[]]] & H'); [tauto|]. rewrite Ii, I2 in H'. tauto.
    + replace (k + 1)%nat with (S k) by lia. exact Q'.
Qed.
Lemma row_len l : wf l -> (length l <= nc)%nat.
Proof.
  intros W. rewrite <- (map_length fst l). replace nc with (length (map Z.of_nat (seq 1 nc))) by (rewrite map_length, seq_length; auto). apply NoDup_incl_length; [apply incr_nodup, W|].
  intros k Hk. pose proof (key_range p V nc l k W Hk). apply in_map_iff. exists (Z.to_nat k). split; [lia|]. apply in_seq. lia.
Qed.
Lemma colset_len st d l : incr l -> (forall y, In y l -> colset nr st d y) -> (length l <= nr)%nat.
Proof.
  intros I H. replace nr with (length (map Z.of_nat (seq 0 nr))) by (rewrite map_length, seq_length; auto). apply NoDup_incl_length; [apply incr_nodup, I|]. intros k Hk. destruct (H k Hk) as (i & -> & Li & _). apply in_map, in_seq. lia.
Qed.
Lemma nth_repeat_nil {A} n t : nth t (repeat (nil : list A) n) [] = [].
Proof. revert t. induction n; intros [|t]; cbn; auto. Qed.
Lemma combine3_in {A B' C} (la : list A) (lb : list B') (lc : list C) a b c da db dc : length lb = length la -> length lc = length la -> In (a, (b, c)) (combine la (combine lb lc)) ->
  exists t, (t < length la)%nat /\ a = nth t la da /\ b = nth t lb db /\ c = nth t lc dc.
Proof.
  intros H1 H2 H. apply (In_nth _ _ (da, (db, dc))) in H. destruct H as (t & Ht & He). rewrite combine_length, combine_length in Ht. rewrite combine_nth in He by (rewrite combine_length; lia). rewrite combine_nth in He by lia. injection He as <- <- <-. exists t. split; [lia|auto].
Qed.
Lemma map_fst_combine {A B'} (la : list A) (lb : list B') : length lb = length la -> map fst (combine la lb) = la.
Proof. revert lb. induction la as [|a la IH]; intros [|b lb] H; cbn in *; try lia; auto. f_equal. apply IH. lia. Qed.
Lemma clear_col_ok fr fc Mx pv st r c L li : (fr = true -> forall i, (i < nr)%nat -> B (Z.of_nat i)) -> (fc = true -> forall k, 1 <= k <= Z.of_nat nc -> B k) -> ex = c \/ ex = nc ->
  inv pv st -> (r < nr)%nat -> act st r -> (c < nc)%nat -> has st r c -> cong p (se st r c) 1 -> liok Mx li ->
  exists st2 L' li', clear_col E p st (Z.of_nat r) (ck c) L fr fc Mx li = Ok (st2, (L', li')) /\ cleared fr st st2 r c /\ qext L (nr + nc) L' /\ liok Mx li'.
Proof.
  intros HBr HBc Xe I Lr A Lc H C1 Y. pose proof (i_core _ _ _ _ _ _ _ _ I) as K. unfold clear_col. rewrite (zget_ck (onew 0)) by (rewrite (i_ncs _ _ _ _ _ _ _ _ I); auto). fold (cl st c). rewrite bind_Ok.
  rewrite (zget_nat (nil : smap)) by (rewrite (k_nr _ _ _ _ _ _ _ K); auto). fold (rw st r). rewrite bind_Ok. pose proof (k_row _ _ _ _ _ _ _ K r) as W. pose proof (row_len _ W) as Wn.
  assert (GC : forall st0 L0 cs d n x, length cs = nc -> (d < nc)%nat -> (let '(L1, li1) := x in qext L0 n L1 /\ liok Mx li1) ->
    exists x', col_checks fc Mx (set_cols st0 cs) (ck d) x = Ok x' /\ let '(L1, li1) := x' in qext L0 (S n) L1 /\ liok Mx li1).
  { intros st0 L0 cs d n (L1, li1) Ls Ld (Q & Yl). destruct (col_checks_ok fc Mx (set_cols st0 cs) d L0 n L1 li1 HBc Ls Ld Q Yl) as (L2 & li2 & E2 & H2). exists (L2, li2). auto. }
  destruct (Nat.eqb_spec (onum (cl st c)) 1) as [O1|O1].
  - destruct (clear_one (col_checks fc Mx) (fun n x => let '(L1, li1) := x in qext L n L1 /\ liok Mx li1) fr pv st r c (L, li) 0 I Lr A Lc H Xe O1) as (st2 & (L' & li') & Eq & D & (Q & Yl) & _); [intros; apply GC; auto|split; [apply qext_0|auto]|].
    exists st2, L', li'. split; [exact Eq|]. split; auto. split; auto. apply (qext_le _ (0 + length (rw st r))); [lia|auto].
  - destruct (i_col _ _ _ _ _ _ _ _ I c Lc) as (cl0 & Hl & Ml). pose proof Hl as (Ic & Nc & _). pose proof (colset_len st c cl0 Ic (fun y => proj1 (Ml y))) as Cn. set (l1 := rw st r) in *.
    destruct (mfold_seq (linv fr st r c cl0 (oarr (cl st c)) (onum (cl st c)) L) (fun s _ => clear_row E p (Z.of_nat r) (ck c) l1 fr s) 0 (onum (cl st c)) (st, Ol (oarr (cl st c)) (onum (cl st c)) 0, repeat [] (length l1), repeat [] (length l1), L)) as (s & Es & HI).
    + cbn [linv firstn]. split; [auto 7|]. split; [split; [auto|intros i _ []]|]. split; [split; [auto|intros _ i _ []]|]. split; [|apply qext_0]. split; [apply repeat_length|]. split; [apply repeat_length|].
      intros t Ht. rewrite !nth_repeat_nil. split; [split; exact Logic.I|]. cbn. split; intros y; tauto.
    + intros k s Hk Hs. apply (clear_row_ok fr pv st r c cl0 L k s); auto. lia.
    + rewrite Es, bind_Ok. destruct s as ((((st1 & col0) & ins) & outs) & L1). cbn [linv] in HI. destruct HI as ((-> & N1 & N2 & N3 & N4 & N5) & (R1 & R2) & (P1 & P2) & (T1 & T2 & T3) & Q1).
      fold l1 in T1, T2, T3, R2, Wn. replace (0 + onum (cl st c))%nat with (length cl0) in * by lia. rewrite firstn_all in *. cbn [onum]. pose proof (i_ncs _ _ _ _ _ _ _ _ I) as Ncs. rewrite zset_ck by (rewrite N5; lia). rewrite bind_Ok. rewrite N5. rewrite Nc. set (st1' := set_cols st1 (upd (ecols st) c (Ol (oarr (cl st c)) (length cl0) (length cl0)))).
      assert (Hd : forall d, (d < nc)%nat -> opost (cl st1' d) (colset nr st d)).
      { intros d Ld. destruct (Nat.eq_dec d c) as [->|Nd].
        - exists cl0. split; [|exact Ml]. unfold cl, st1'. cbn. rewrite upd_same by lia. rewrite <- Nc. exact Hl.
        - unfold cl, st1'. cbn. rewrite upd_other by auto. apply I; auto. }
      assert (Xd : forall d, (d < nc)%nat -> d <> c -> ce st d = -1 -> oidx (cl st1' d) = 0%nat) by (intros d Ld Nd Cd; unfold cl, st1'; cbn; rewrite upd_other by auto; apply I; auto; clear - Xe Nd Ld; lia).
      assert (Ki : forall i, i <> r -> In (Z.of_nat i) cl0 -> (i < nr)%nat /\ act st i /\ has st i c) by (intros i _ Hi; apply Ml in Hi; apply colset_nat in Hi; auto).
      assert (Wi : forall i, wf (rw st1 i)). { intros i. destruct (Nat.eq_dec i r) as [->|Ni]; [rewrite R1 by auto; apply K|]. destruct (in_dec Z.eq_dec (Z.of_nat i) cl0) as [Hi|Hi]; [apply R2; auto|rewrite R1 by auto; apply K]. }
      set (ks := combine (map fst l1) (combine ins outs)). assert (Fk : map fst ks = keys l1) by (unfold ks; apply map_fst_combine; unfold keys; rewrite combine_length, ?map_length; lia).
      destruct (col_loop_ok (fun '(i, o) l => bind (orem l (Z.of_nat r)) (fun l => bind (orems l o) (fun l => oputs (length cl0) l i))) (col_checks fc Mx) (fun n x => let '(L2, li2) := x in qext L n L2 /\ liok Mx li2)
         (fun d o => opost o (fun y => exists i, y = Z.of_nat i /\ (i < nr)%nat /\ i <> r /\ act st i /\ has st1 i d) /\ (d <> c -> ce st d = -1 -> oidx o = 0%nat)) nc st1' ks (L1, li) (length cl0)) as (cs & (L' & li') & Eq & Lcs & A1 & A2 & (Q & Yl)).
      * unfold st1'. cbn. rewrite upd_len. exact Ncs.
      * rewrite Fk. apply incr_nodup, W.
      * intros k (i, o) Hk. unfold ks in Hk. apply (combine3_in _ _ _ _ _ _ 0 [] []) in Hk; [|unfold keys; rewrite ?map_length; lia|unfold keys; rewrite ?map_length; lia]. destruct Hk as (t & Ht & Ek & Ei & Eo). rewrite map_length in Ht. fold (keys l1) in Ek.
        destruct (has_range p V nr nc A0 pv st r k K) as (d & -> & Ld & Hrd); [fold l1; rewrite Ek; apply nth_In; unfold keys; rewrite map_length; auto|]. exists d. split; auto. split; auto.
        destruct (T3 t Ht) as ((Ia & Ib) & Tb & Tc). rewrite <- Ei in *. rewrite <- Eo in *. rewrite <- Ek in *. destruct (Hd d Ld) as (ld & Hld & Mld).
        assert (Lc1 : (1 <= length cl0)%nat). { assert (Hr0 : In (Z.of_nat r) cl0) by (apply Ml, colset_nat; auto). destruct cl0; [destruct Hr0|cbn; lia]. }
        destruct (col_update (length cl0) (cl st1' d) ld (Z.of_nat r) o i Lc1 Hld) as (l3 & E3 & (l3' & H3 & M3) & X3); auto.
        -- apply Mld, colset_nat. auto.
        -- intros x Hx. apply Tc in Hx. destruct Hx as (H1 & H2 & H3 & _). split; auto. apply Ml in H1. destruct H1 as (j & -> & Lj & Aj & _). rewrite Nat2Z.id in H3. apply Mld, colset_nat. auto.
        -- intros x Hx Hx'. apply Tb in Hx. destruct Hx as (H1 & H2 & H3 & _). apply Mld in Hx'. destruct Hx' as (j & -> & _ & _ & Hj). rewrite Nat2Z.id in H3. apply H3, Hj.
        -- exists l3. split; [exact E3|]. split; [|intros Nd Cd; apply X3, Xd; auto]. exists l3'. split; auto. intros y. rewrite M3. split.
           ++ intros [Hy|(Hy & Ny & Oy)].
              ** apply Tb in Hy. destruct Hy as (Y1 & Y2 & Y3 & Y4). apply Ml in Y1. destruct Y1 as (j & -> & Lj & Aj & _). rewrite Nat2Z.id in Y4. exists j. repeat split; auto; congruence.
              ** apply Mld in Hy. destruct Hy as (j & -> & Lj & Aj & Hj). exists j. split; auto. split; auto. split; [congruence|]. split; auto. unfold has in *. destruct (in_dec Z.eq_dec (Z.of_nat j) cl0) as [Hc|Hc]; [|rewrite R1 by auto; exact Hj].
                 destruct (in_dec Z.eq_dec (ck d) (keys (rw st1 j))) as [|Nh]; auto. exfalso. apply Oy, Tc. rewrite Nat2Z.id. auto.
           ++ intros (j & -> & Lj & Nj & Aj & Hj). assert (Nz : Z.of_nat j <> Z.of_nat r) by (clear - Nj; lia). unfold has in *. destruct (in_dec Z.eq_dec (ck d) (keys (rw st j))) as [Yh|Nh].
              ** right. split; [apply Mld, colset_nat; auto|]. split; auto. intros Ho. apply Tc in Ho. rewrite Nat2Z.id in Ho. tauto.
              ** left. apply Tb. rewrite Nat2Z.id. split; auto. destruct (in_dec Z.eq_dec (Z.of_nat j) cl0) as [|Hc]; auto. rewrite R1 in Hj by auto. tauto.
      * intros cs d n x Hcs Hd' _ Hx. apply GC; auto.
      * cbn. split; auto.
      * fold ks. rewrite Eq. exists (set_cols st1' cs), L', li'. split; [reflexivity|]. split; [|split; [|auto]].
        2:{ apply (qext_le _ (length cl0 + length ks)); auto. unfold ks. rewrite !combine_length, map_length. lia. }
        rewrite Fk in *. assert (Fr : forall d, has st r d <-> In (ck d) (keys l1)) by reflexivity.
        constructor; [exact N1|exact N2|exact N3|exact N4|exact Lcs|apply R1; auto|exact Wi|..].
        -- intros i Hi. apply R1. destruct (Nat.eq_dec i r); auto. right. intros Hc. destruct (Ki i ltac:(auto) Hc) as (? & ? & _). destruct Hi; [auto|lia].
        -- intros i Ni Ai. destruct (in_dec Z.eq_dec (Z.of_nat i) cl0) as [Hi|Hi].
           ++ destruct (R2 i Ni Hi) as (_ & Cm). exists (- lookup (rw st i) (ck c)). intros j. eapply cong_trans; [apply Cm|]. apply cong_eq. unfold se. fold l1. ring.
           ++ exists 0. intros j. apply cong_eq. unfold se. change (rw (set_cols st1' cs) i) with (rw st1 i). rewrite R1 by auto. ring.
        -- intros i Li Ni Ai. change (has (set_cols st1' cs) i c) with (has st1 i c). apply (hasnt_iff p V nc); [apply Wi|]. destruct (in_dec Z.eq_dec (Z.of_nat i) cl0) as [Hi|Hi].
           ++ destruct (R2 i Ni Hi) as (_ & Cm). eapply cong_trans; [apply Cm|]. replace 0 with (lookup (rw st i) (ck c) - lookup (rw st i) (ck c) * 1) by ring. apply cong_sub; [apply cong_refl|]. apply cong_mul; [apply cong_refl|exact C1].
           ++ rewrite R1 by auto. apply (hasnt_iff p V nc); [apply K|]. intros Hh. apply Hi, Ml, colset_nat. auto.
        -- intros i. destruct (P1 i) as [|(H1 & H2 & H3 & H4)]; auto. right. split; auto. split; [apply (Ki i H1 H2)|]. auto.
        -- intros F i Li Ni Ai Ne. change (rw (set_cols st1' cs) i) with (rw st1 i). change (act (set_cols st1' cs) i) with (act st1 i) in Ai. destruct (in_dec Z.eq_dec (Z.of_nat i) cl0) as [Hi|Hi]; [|rewrite R1 by auto; exact Ne].
           intros He. unfold act in Ai. rewrite (P2 F i Ni Hi He) in Ai. lia.
        -- intros d Ld. unfold cl. cbn. destruct (in_dec Z.eq_dec (ck d) (keys l1)) as [Hk|Hk]; [apply A1; auto|]. rewrite A2 by auto. destruct (Hd d Ld) as (ld & Hld & Mld). exists ld. split; auto. intros y. rewrite Mld.
           split; intros (i & -> & Hi).
           ++ destruct Hi as (Li & Ai & Hi). exists i. split; auto. split; auto. split; [intros ->; apply Hk, Hi|]. split; auto. change (has st1 i d). unfold has. destruct (in_dec Z.eq_dec (Z.of_nat i) cl0) as [Hc|Hc]; [|rewrite R1 by auto; exact Hi].
              assert (Ni : i <> r) by (intros ->; apply Hk, Hi). destruct (R2 i Ni Hc) as (Wm & Cm). apply (has_iff p V nc); [exact Wm|]. apply (has_iff p V nc) in Hi; [|apply K]. intros H0. apply Hi. eapply cong_trans; [|exact H0]. apply cong_sym. eapply cong_trans; [apply Cm|].
              rewrite (lookup_notin l1 (ck d)) by (auto; apply W). apply cong_eq. ring.
           ++ destruct Hi as (Li & Ni & Ai & Hi). apply colset_nat. split; auto. split; auto. change (has st1 i d) in Hi. unfold has in *. destruct (in_dec Z.eq_dec (Z.of_nat i) cl0) as [Hc|Hc]; [|rewrite R1 in Hi by auto; exact Hi].
              destruct (R2 i Ni Hc) as (Wm & Cm). apply (has_iff p V nc); [apply K|]. apply (has_iff p V nc) in Hi; [|exact Wm]. intros H0. apply Hi. eapply cong_trans; [apply Cm|].
              rewrite (lookup_notin l1 (ck d)) by (auto; apply W). rewrite Z.mul_0_r, Z.sub_0_r. exact H0.
        -- intros d Ld Nd Cd. unfold cl. cbn. destruct (in_dec Z.eq_dec (ck d) (keys l1)) as [Hk|Hk]; [apply A1; auto|]. rewrite A2 by auto. apply Xd; auto.
Qed.
End Pivot.
