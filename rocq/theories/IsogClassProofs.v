(** IsogenyClass::grow: the class is the closure of the first curve *)
From Coq Require Import ZArith List Bool Arith Lia.
From Verif Require Import Base CurveModel IsogClassModel.
Import ListNotations.
Local Open Scope nat_scope.

Lemma ceqb_ok c d : ceqb c d = true <-> c = d.
Proof.
  unfold ceqb. rewrite !andb_true_iff, !Z.eqb_eq. destruct c, d. cbn. split; [intros ((((-> & ->) & ->) & ->) & ->); reflexivity|]. intros H. injection H as -> -> -> -> ->. auto.
Qed.
Lemma upd_len {A} (x : A) l : forall n, length (upd l n x) = length l.
Proof. induction l as [|y l IH]; intros [|n]; cbn; auto. Qed.
Lemma upd_nth {A} (x d : A) l : forall n k, n < length l -> nth k (upd l n x) d = if Nat.eqb k n then x else nth k l d.
Proof. induction l as [|y l IH]; intros [|n] [|k] H; cbn in *; try lia; auto. apply IH. lia. Qed.

(** ** the matrix *)
Definition set2 (m : list Z) (i j : nat) (l : Z) : list Z := upd (upd m (i * MAXNCURVES + j) l) (j * MAXNCURVES + i) l.
Lemma set2_ok m i j l : i < 26 -> j < 26 -> length m = 676 -> (m1 <- matset m i j l ;; matset m1 j i l) = Ok (set2 m i j l).
Proof.
  intros Hi Hj Hm. unfold matset, set2, MAXNCURVES. rewrite Hm. replace (i * 26 + j <? 676) with true by (symmetry; apply Nat.ltb_lt; lia). rewrite bind_Ok, upd_len, Hm.
  replace (j * 26 + i <? 676) with true by (symmetry; apply Nat.ltb_lt; lia). reflexivity.
Qed.
Lemma set2_len m i j l : length (set2 m i j l) = length m.
Proof. unfold set2. now rewrite !upd_len. Qed.
Lemma set2_get m i j l a b : i < 26 -> j < 26 -> a < 26 -> b < 26 -> length m = 676 ->
  mat_entry (set2 m i j l) a b = if (Nat.eqb a i && Nat.eqb b j) || (Nat.eqb a j && Nat.eqb b i) then l else mat_entry m a b.
Proof.
  intros Hi Hj Ha Hb Hm. unfold mat_entry, set2, MAXNCURVES. rewrite !upd_nth by (rewrite ?upd_len, Hm; lia).
  destruct (Nat.eqb_spec (a * 26 + b) (j * 26 + i)) as [Q|Q].
  - assert (a = j /\ b = i) as [-> ->] by lia. rewrite !Nat.eqb_refl. cbn. now rewrite orb_true_r.
  - destruct (Nat.eqb_spec (a * 26 + b) (i * 26 + j)) as [Q1|Q1].
    + assert (a = i /\ b = j) as [-> ->] by lia. now rewrite !Nat.eqb_refl.
    + destruct (Nat.eqb_spec a i), (Nat.eqb_spec b j), (Nat.eqb_spec a j), (Nat.eqb_spec b i); subst; cbn; try reflexivity; exfalso; lia.
Qed.
Lemma scan_no newc i l cs : forall j b m, ~ In newc cs -> scan newc i l cs j b m = Ok (b, m).
Proof.
  induction cs as [|c cs IH]; intros j b m H; cbn [scan]; [reflexivity|]. destruct (ceqb newc c) eqn:Q; [apply ceqb_ok in Q; subst; exfalso; apply H; now left|].
  apply IH. intros I. apply H. now right.
Qed.
Lemma scan_yes newc i l cs : forall j b m k, NoDup cs -> nth_error cs k = Some newc -> i < 26 -> j + length cs <= 26 -> length m = 676 ->
  scan newc i l cs j b m = Ok (false, set2 m i (j + k) l).
Proof.
  induction cs as [|c cs IH]; intros j b m k ND Hk Hi Hj Hm; [destruct k; discriminate|]. cbn [length] in Hj. inversion ND as [|? ? N1 N2]; subst. cbn [scan]. destruct k as [|k].
  - injection Hk as ->. rewrite (proj2 (ceqb_ok _ _) eq_refl). pose proof (set2_ok m i j l Hi ltac:(lia) Hm) as Q. unfold bind in Q |- *.
    destruct (matset m i j l) as [m1| | |]; try discriminate. rewrite Q. rewrite Nat.add_0_r. now apply scan_no.
  - cbn [nth_error] in Hk. destruct (ceqb newc c) eqn:Q; [apply ceqb_ok in Q; subst; exfalso; apply N1; eapply nth_error_In; eauto|].
    rewrite (IH (S j) b m k); auto; [|lia]. now replace (j + S k) with (S j + k) by lia.
Qed.

Section OnClass.
Variable lisog : curve -> Z -> list curve.
Variable C0 : curve.
Variable ells : list Z.
Definition nonempty {A} (l : list A) : bool := match l with [] => false | _ => true end.
Definition good : list Z := filter (fun l => nonempty (lisog C0 l)) ells.
(** l is tried for the curve number i *)
Definition tried (i : nat) (l : Z) : Prop := In l ells /\ (i = 0 \/ In l good).
Variable S : list curve.
Hypothesis S0 : In C0 S.
Hypothesis Scl : forall c l d, In c S -> In l ells -> In d (lisog c l) -> In d S.
Hypothesis Slen : length S <= 26.
Hypothesis L0 : ~ In 0%Z ells.

Definition edge (cs : list curve) i j l : Prop := exists c d, nth_error cs i = Some c /\ nth_error cs j = Some d /\ In l ells /\ In d (lisog c l).
Record Inv (s : iclass) : Prop := {
  i_nd : NoDup (curves s); i_S : incl (curves s) S; i_n : ncurves s = length (curves s);
  i_f : length (fromlist s) = ncurves s; i_g : length (isoglist s) = ncurves s; i_m : length (matij s) = 676;
  i_0 : nth_error (curves s) 0 = Some C0;
  i_sym : forall a b, a < 26 -> b < 26 -> mat_entry (matij s) a b = mat_entry (matij s) b a;
  i_ent : forall a b, a < 26 -> b < 26 -> mat_entry (matij s) a b <> 0%Z -> edge (curves s) a b (mat_entry (matij s) a b) \/ edge (curves s) b a (mat_entry (matij s) a b);
  i_from : forall k c, 0 < k -> nth_error (curves s) k = Some c -> exists i l d, nth_error (fromlist s) k = Some i /\ nth_error (isoglist s) k = Some l /\
    i < k /\ nth_error (curves s) i = Some d /\ tried i l /\ In c (lisog d l) }.
(** what is kept *)
Definition ext (s s' : iclass) : Prop := (exists t, curves s' = curves s ++ t) /\ llist s' = llist s /\
  forall a b, a < 26 -> b < 26 -> mat_entry (matij s) a b <> 0%Z -> mat_entry (matij s') a b <> 0%Z.
Lemma ext_refl s : ext s s.
Proof. split; [exists []; now rewrite app_nil_r|auto]. Qed.
Lemma ext_trans s1 s2 s3 : ext s1 s2 -> ext s2 s3 -> ext s1 s3.
Proof. intros ((t & E1) & L1 & M1) ((u & E2) & L2 & M2). split; [exists (t ++ u); now rewrite E2, E1, app_assoc|]. split; [congruence|auto]. Qed.
Lemma nth_app1 {A} (l t : list A) k x : nth_error l k = Some x -> nth_error (l ++ t) k = Some x.
Proof. intros H. rewrite nth_error_app1; auto. apply nth_error_Some. congruence. Qed.
Lemma ext_nth s s' k c : ext s s' -> nth_error (curves s) k = Some c -> nth_error (curves s') k = Some c.
Proof. intros ((t & ->) & _) H. now apply nth_app1. Qed.
Lemma edge_ext cs t i j l : edge cs i j l -> edge (cs ++ t) i j l.
Proof. intros (c & d & A & B & R). exists c, d. split; [now apply nth_app1|]. split; [now apply nth_app1|auto]. Qed.
Lemma inv_le s : Inv s -> ncurves s <= 26.
Proof. intros I. rewrite (i_n s I). pose proof (NoDup_incl_length (i_nd s I) (i_S s I)). lia. Qed.

(** newc is recorded *)
Definition rec (i : nat) (newc : curve) (s : iclass) : Prop :=
  exists j, nth_error (curves s) j = Some newc /\ j < 26 /\ mat_entry (matij s) i j <> 0%Z.
Lemma rec_ext i c s s' : i < 26 -> ext s s' -> rec i c s -> rec i c s'.
Proof. intros Hi X (j & A & B & D). exists j. split; [eapply ext_nth; eauto|]. split; [auto|]. destruct X as (_ & _ & X). auto. Qed.
Lemma set2_inv s cs i j l newc c : Inv s -> (exists t, cs = curves s ++ t) -> nth_error (curves s) i = Some c -> tried i l -> In newc (lisog c l) -> i < 26 -> j < 26 -> nth_error cs j = Some newc ->
  let m := set2 (matij s) i j l in
  (forall a b, a < 26 -> b < 26 -> mat_entry m a b = mat_entry m b a) /\
  (forall a b, a < 26 -> b < 26 -> mat_entry m a b <> 0%Z -> edge cs a b (mat_entry m a b) \/ edge cs b a (mat_entry m a b)) /\
  (forall a b, a < 26 -> b < 26 -> mat_entry (matij s) a b <> 0%Z -> mat_entry m a b <> 0%Z) /\ mat_entry m i j <> 0%Z.
Proof.
  intros I (t & Et) Hc [Tl _] Hn Hi Hj Hcj m. assert (l0 : l <> 0%Z) by congruence. pose proof (i_m s I) as Hm.
  assert (E1 : edge cs i j l) by (exists c, newc; rewrite Et in *; split; [now apply nth_app1|auto]).
  split; [|split; [|split]].
  - intros a b Ha Hb. unfold m. rewrite !set2_get by auto. rewrite (i_sym s I a b) by auto. rewrite (andb_comm (Nat.eqb b i)), (andb_comm (Nat.eqb b j)), orb_comm. reflexivity.
  - intros a b Ha Hb. unfold m. rewrite set2_get by auto. destruct ((Nat.eqb a i && Nat.eqb b j) || (Nat.eqb a j && Nat.eqb b i)) eqn:Q.
    + intros _. apply orb_true_iff in Q as [Q|Q]; apply andb_true_iff in Q as [Q1 Q2]; apply Nat.eqb_eq in Q1, Q2; subst a b; auto.
    + intros H. rewrite Et. destruct (i_ent s I a b Ha Hb H); [left|right]; now apply edge_ext.
  - intros a b Ha Hb H. unfold m. rewrite set2_get by auto. destruct (_ || _); auto.
  - unfold m. rewrite set2_get by auto. now rewrite !Nat.eqb_refl.
Qed.
Lemma add_one_ok s i l newc c : Inv s -> nth_error (curves s) i = Some c -> tried i l -> In newc (lisog c l) ->
  exists s', add_one i l newc s = Ok s' /\ Inv s' /\ ext s s' /\ rec i newc s'.
Proof.
  intros I Hc T Hn. pose proof (inv_le s I) as LE. assert (Hi : i < length (curves s)) by (apply nth_error_Some; congruence). rewrite <- (i_n s I) in Hi. pose proof (i_m s I) as Hm. unfold add_one.
  destruct (in_dec (fun c d => match bool_dec (ceqb c d) true with left e => left (proj1 (ceqb_ok c d) e) | right n => right (fun q => n (proj2 (ceqb_ok c d) q)) end) newc (curves s)) as [IN|NI].
  - apply In_nth_error in IN as (j & Hj). assert (Lj : j < length (curves s)) by (apply nth_error_Some; congruence). rewrite <- (i_n s I) in Lj.
    rewrite (scan_yes newc i l (curves s) 0 true (matij s) j (i_nd s I) Hj ltac:(lia)) by (rewrite <- ?(i_n s I); auto). rewrite bind_Ok. cbn [Nat.add].
    destruct (set2_inv s (curves s) i j l newc c I (ex_intro _ [] (eq_sym (app_nil_r _))) Hc T Hn ltac:(lia) ltac:(lia) Hj) as (A & B & D & E).
    eexists. split; [reflexivity|]. destruct I. split; [constructor; cbn; auto; now rewrite set2_len|]. split; [split; [exists []; now rewrite app_nil_r|]; split; [reflexivity|exact D]|].
    exists j. cbn. split; [auto|]. split; [lia|exact E].
  - rewrite (scan_no newc i l (curves s) 0 true (matij s) NI), bind_Ok.
    assert (ND : NoDup (curves s ++ [newc])).
    { apply (NoDup_Add (a := newc) (l := curves s)); [|split; [apply (i_nd s I)|exact NI]]. pose proof (Add_app newc (curves s) []) as Q. now rewrite app_nil_r in Q. }
    assert (IS : incl (curves s ++ [newc]) S).
    { intros x Hx. apply in_app_iff in Hx as [Hx|[<-|[]]]; [now apply (i_S s I)|]. apply (Scl c l); [apply (i_S s I); eapply nth_error_In; eauto|apply T|exact Hn]. }
    pose proof (NoDup_incl_length ND IS) as LL. rewrite app_length in LL. cbn [length] in LL. rewrite <- (i_n s I) in LL.
    assert (Hj : nth_error (curves s ++ [newc]) (ncurves s) = Some newc) by (rewrite (i_n s I), nth_error_app2, Nat.sub_diag by lia; reflexivity).
    pose proof (set2_ok (matij s) i (ncurves s) l ltac:(lia) ltac:(lia) Hm) as Q. unfold bind in Q |- *. destruct (matset (matij s) i (ncurves s) l) as [m1| | |]; try discriminate. rewrite Q.
    destruct (set2_inv s (curves s ++ [newc]) i (ncurves s) l newc c I (ex_intro _ [newc] eq_refl) Hc T Hn ltac:(lia) ltac:(lia) Hj) as (A & B & D & E).
    eexists. split; [reflexivity|]. split; [|split; [split; [now exists [newc]|]; split; [reflexivity|exact D]|]].
    2:{ exists (ncurves s). cbn. split; [auto|]. split; [lia|exact E]. }
    destruct I. constructor; cbn [curves llist ncurves fromlist isoglist matij]; auto; rewrite ?app_length, ?set2_len; cbn [length]; try lia.
    + now apply nth_app1.
    + intros k d Hk Hd. destruct (Nat.lt_ge_cases k (length (curves s))) as [Lk|Lk].
      * rewrite nth_error_app1 in Hd by auto. destruct (i_from0 k d Hk Hd) as (i' & l' & d' & F1 & F2 & F3 & F4 & F5). exists i', l', d'. split; [now apply nth_app1|]. split; [now apply nth_app1|]. split; [exact F3|]. split; [now apply nth_app1|exact F5].
      * assert (k = ncurves s). { assert (k < length (curves s ++ [newc])) by (apply nth_error_Some; congruence). rewrite app_length in H. cbn in H. lia. }
        subst k. rewrite Hj in Hd. injection Hd as <-. exists i, l, c.
        rewrite !nth_error_app2 by lia. rewrite i_f0, i_g0, Nat.sub_diag. cbn [nth_error]. split; [reflexivity|]. split; [reflexivity|]. split; [lia|]. split; [now apply nth_app1|auto].
Qed.
Lemma add_all_ok i l c : forall cs s, Inv s -> nth_error (curves s) i = Some c -> tried i l -> incl cs (lisog c l) ->
  exists s', add_all i l cs s = Ok s' /\ Inv s' /\ ext s s' /\ forall d, In d cs -> rec i d s'.
Proof.
  induction cs as [|d cs IH]; intros s I Hc T Hn; cbn [add_all]; [exists s; split; [auto|]; split; [auto|]; split; [apply ext_refl|intros d []]|].
  destruct (add_one_ok s i l d c I Hc T (Hn d (or_introl eq_refl))) as (s1 & E1 & I1 & X1 & R1). rewrite E1, bind_Ok.
  destruct (IH s1 I1 (ext_nth _ _ _ _ X1 Hc) T (fun x h => Hn x (or_intror h))) as (s2 & E2 & I2 & X2 & R2). exists s2. split; [exact E2|]. split; [exact I2|]. split; [eapply ext_trans; eauto|].
  assert (Hi : i < 26). { pose proof (inv_le s I). assert (i < length (curves s)) by (apply nth_error_Some; congruence). rewrite <- (i_n s I) in H0. lia. }
  intros x [<-|Hx]; [eapply rec_ext; eauto|auto].
Qed.
Lemma ell_loop_ok i c : forall ls s, Inv s -> nth_error (curves s) i = Some c -> (forall l, In l ls -> tried i l) ->
  exists s', ell_loop lisog c i ls s = Ok (s', map (fun l => nonempty (lisog c l)) ls) /\ Inv s' /\ ext s s' /\ forall l d, In l ls -> In d (lisog c l) -> rec i d s'.
Proof.
  induction ls as [|l ls IH]; intros s I Hc T; cbn [ell_loop map]; [exists s; split; [auto|]; split; [auto|]; split; [apply ext_refl|intros l d []]|]. cbv zeta.
  destruct (add_all_ok i l c (lisog c l) s I Hc (T l (or_introl eq_refl)) (fun x h => h)) as (s1 & E1 & I1 & X1 & R1). rewrite E1, bind_Ok.
  destruct (IH s1 I1 (ext_nth _ _ _ _ X1 Hc) (fun x h => T x (or_intror h))) as (s2 & E2 & I2 & X2 & R2). rewrite E2, bind_Ok. exists s2. split; [reflexivity|]. split; [exact I2|]. split; [eapply ext_trans; eauto|].
  assert (Hi : i < 26). { pose proof (inv_le s I). assert (i < length (curves s)) by (apply nth_error_Some; congruence). rewrite <- (i_n s I) in H0. lia. }
  intros l' d [<-|Hl] Hd; [eapply rec_ext; eauto|eauto].
Qed.
Lemma good_eq ls : map fst (filter (fun p : Z * bool => snd p) (combine ls (map (fun l => nonempty (lisog C0 l)) ls))) = filter (fun l => nonempty (lisog C0 l)) ls.
Proof. induction ls as [|l ls IH]; cbn; [reflexivity|]. destruct (nonempty (lisog C0 l)); cbn; now rewrite IH. Qed.
(** curve number k has been processed *)
Definition done (k : nat) (s : iclass) : Prop := forall c l d, nth_error (curves s) k = Some c -> tried k l -> In d (lisog c l) -> rec k d s.
Lemma done_ext k s s' : Inv s -> k < ncurves s -> ext s s' -> done k s -> done k s'.
Proof.
  intros I Hk X D c l d Hc T Hd. pose proof (inv_le s I). rewrite (i_n s I) in Hk. destruct (nth_error (curves s) k) as [c'|] eqn:Q; [|apply nth_error_None in Q; lia].
  rewrite (ext_nth _ _ _ _ X Q) in Hc. injection Hc as ->. apply (rec_ext k d s s'); [rewrite <- (i_n s I) in Hk; lia|auto|]. eapply D; eauto.
Qed.
Definition st_ll (s : iclass) (l : list Z) : iclass := IC (curves s) l (ncurves s) (fromlist s) (isoglist s) (matij s).
Lemma process_ok k s : Inv s -> k < ncurves s -> llist s = (if Nat.eqb k 0 then ells else good) ->
  exists s', process lisog k s = Ok s' /\ Inv s' /\ llist s' = good /\ (exists t, curves s' = curves s ++ t) /\ (forall j, j < ncurves s -> done j s -> done j s') /\ done k s' .
Proof.
  intros I Hk HL. unfold process. rewrite (i_n s I) in Hk. destruct (nth_error (curves s) k) as [c|] eqn:Q; [|apply nth_error_None in Q; lia]. rewrite <- (i_n s I) in Hk.
  assert (T : forall l, In l (llist s) <-> tried k l).
  { intros l. rewrite HL. unfold tried. destruct (Nat.eqb_spec k 0) as [->|N]; [intuition|]. split; [|intros [_ [?|?]]; [lia|auto]]. intros H. split; [|auto]. apply filter_In in H. apply H. }
  destruct (ell_loop_ok k c (llist s) s I Q (fun l h => proj1 (T l) h)) as (s1 & E1 & I1 & X1 & R1). rewrite E1, bind_Ok. pose proof X1 as ((t & Et) & LL & MM).
  assert (D1 : done k s1) by (intros c' l d Hc Tl Hd; rewrite (ext_nth _ _ _ _ X1 Q) in Hc; injection Hc as <-; apply (R1 l d); auto; now apply T).
  destruct (Nat.eqb_spec k 0) as [->|N].
  - assert (Ec : c = C0) by (rewrite (i_0 s I) in Q; congruence). subst c. exists (st_ll s1 good). split; [rewrite LL, HL, good_eq; reflexivity|].
    assert (Z : forall j, done j s1 -> done j (st_ll s1 good)) by (intros j H; exact H).
    split; [destruct I1; now constructor|]. split; [reflexivity|]. split; [now exists t|]. split; [|now apply Z]. intros j Hj Dj. apply Z. apply (done_ext j s s1); auto.
  - exists s1. split; [reflexivity|]. split; [auto|]. split; [congruence|]. split; [now exists t|]. split; [|exact D1]. intros j Hj Dj. apply (done_ext j s s1); auto.
Qed.
Lemma grow_ok : forall fuel k s, Inv s -> k <= ncurves s -> 26 < fuel + k -> llist s = (if Nat.eqb k 0 then ells else good) -> (forall j, j < k -> done j s) ->
  exists s', grow_loop lisog fuel k s = Ok s' /\ Inv s' /\ forall j, j < ncurves s' -> done j s'.
Proof.
  induction fuel as [|fuel IH]; intros k s I Hk Hf HL HD; pose proof (inv_le s I) as LE; cbn [grow_loop]; destruct (Nat.ltb_spec k (ncurves s)) as [Lt|Ge]; try lia.
  - destruct (process_ok k s I Lt HL) as (s1 & E1 & I1 & L1 & (t & Et) & K & Dk). rewrite E1, bind_Ok.
    assert (NN : ncurves s <= ncurves s1) by (rewrite (i_n s I), (i_n s1 I1), Et, app_length; lia).
    apply IH; [exact I1|lia|lia|exact L1|]. intros j Hj. destruct (Nat.eq_dec j k) as [->|Nj]; [exact Dk|]. apply K; [lia|]. apply HD. lia.
  - exists s. split; [auto|]. split; [auto|]. intros j Hj. apply HD. lia.
Qed.
Lemma nth_repeat0 n k : nth k (repeat 0%Z n) 0%Z = 0%Z.
Proof. revert k. induction n; intros [|k]; cbn; auto. Qed.
Lemma start_ok : Inv (IC [C0] ells 1 [0] [0%Z] (repeat 0%Z (MAXNCURVES * MAXNCURVES))).
Proof.
  assert (M0 : forall a b, mat_entry (repeat 0%Z (MAXNCURVES * MAXNCURVES)) a b = 0%Z) by (intros a b; apply nth_repeat0).
  constructor; cbn [curves llist ncurves fromlist isoglist matij]; auto.
  - repeat constructor. intros [].
  - intros x [<-|[]]. exact S0.
  - intros a b _ _. now rewrite !M0.
  - intros a b _ _ H. now rewrite M0 in H.
  - intros k c Hk Hc. destruct k as [|[|k]]; cbn in Hc; [lia|discriminate|discriminate].
Qed.
Theorem grow_right fuel : 27 <= fuel -> exists s, grow lisog fuel (iclass_init C0 ells) = Ok s /\ Inv s /\ forall j, j < ncurves s -> done j s.
Proof.
  intros Hf. unfold grow, iclass_init. cbn [curves llist fromlist isoglist matij]. apply grow_ok; [exact start_ok|cbn; lia|lia|reflexivity|lia].
Qed.
End OnClass.
