(** Proofs about LinModel: echmodp, echmodp_uptri, oldpkernel, pkernel. *)
From Coq Require Import ZArith Znumtheory Lia List Bool Sorted Permutation.
From Verif Require Import Base ArithModel ArithProofs XModModel XModProofs MArithModel MArithProofs LinModel LinSpec LinProofs.
Import ListNotations.
Open Scope Z_scope.

(** what the scalar type must provide modulo p; D is the set of legal matrix entries *)
Record modok (S : scal) (D : Z -> Prop) (p : Z) : Prop := {
  mo_prime : prime p;
  mo_mod : forall x, D x -> exists r, s_mod S x p = Ok r /\ cong p r x /\ cent p r;
  mo_xmod : forall x, D x -> exists r, s_xmod S x p = Ok r /\ cong p r x /\ Z.abs r < p;
  mo_xmm : forall a b, Z.abs a < p -> Z.abs b < p -> exists r, s_xmm S a b p = Ok r /\ cong p r (a * b) /\ Z.abs r < p;
  mo_D : forall x, Z.abs x < 2 * p -> D x;
  mo_add : forall a b, Z.abs a < p -> Z.abs b < p -> s_add S a b = Ok (a + b);
  mo_sub : forall a b, Z.abs a < p -> Z.abs b < p -> s_sub S a b = Ok (a - b);
  mo_neg : forall a, Z.abs a < p -> s_neg S a = Ok (- a);
  mo_invx : forall a, cent p a -> a <> 0 -> exists x, s_invx S a p = Ok x /\ cong p (a * x) 1 /\ Z.abs x < p;
  mo_invm : forall a, cent p a -> a <> 0 -> exists x, s_invm S a p = Ok x /\ cong p (a * x) 1 /\ cent p x
}.
(** needed by echmodp_uptri: products of two residues do not overflow *)
Definition mulok (S : scal) (D : Z -> Prop) (p : Z) : Prop :=
  forall a b, cent p a -> cent p b -> s_mul S a b = Ok (a * b) /\ D (a * b).

Lemma sorted_snoc l c : StronglySorted lt l -> (forall x, In x l -> (x < c)%nat) -> StronglySorted lt (l ++ [c]).
Proof.
  induction 1 as [|a l H IH F]; intros Hc; cbn [app].
  - constructor; constructor.
  - constructor; [apply IH; intros; apply Hc; cbn; auto|].
    apply Forall_app. split; auto. constructor; [apply Hc; cbn; auto|constructor].
Qed.
Lemma sorted_app l m : StronglySorted lt l -> StronglySorted lt m -> (forall x y, In x l -> In y m -> (x < y)%nat) -> StronglySorted lt (l ++ m).
Proof.
  induction 1 as [|a l H IH F]; intros Hm Hc; cbn [app]; auto.
  constructor; [apply IH; auto; intros; apply Hc; cbn; auto|].
  apply Forall_app. split; auto. apply Forall_forall. intros y Hy. apply Hc; cbn; auto.
Qed.
Lemma sorted_seq n s : StronglySorted lt (seq s n).
Proof.
  revert s. induction n; intros s; cbn [seq]; constructor; auto.
  apply Forall_forall. intros x Hx. apply in_seq in Hx. lia.
Qed.
Lemma sorted_nth l i k : StronglySorted lt l -> (i < k < length l)%nat -> (nth i l 0 < nth k l 0)%nat.
Proof.
  intros H. revert i k. induction H as [|a l H IH F]; intros i k Hk; [cbn in Hk; lia|].
  cbn [length] in Hk. destruct k; [lia|]. destruct i; cbn [nth].
  - rewrite Forall_forall in F. apply F. apply nth_In. lia.
  - apply IH. lia.
Qed.

Lemma nth_map_seq (f : nat -> Z) n k : (k < n)%nat -> nth k (map f (seq 0 n)) 0 = f k.
Proof.
  intros H. rewrite (nth_indep _ 0 (f 0%nat)) by (rewrite map_length, seq_length; auto).
  rewrite map_nth, seq_nth; auto.
Qed.
Ltac sp := repeat match goal with |- _ /\ _ => split end.

Section Elim.
Variables (S : scal) (D : Z -> Prop) (p : Z).
Hypothesis M : modok S D p.
Lemma p_pos : 1 < p.
Proof. destruct (mo_prime _ _ _ M). lia. Qed.
Lemma cl x : cent p x -> Z.abs x < p.
Proof. apply cent_lt, p_pos. Qed.
Hint Resolve cl : core.
Lemma cu a b : cent p a -> cent p b -> cong p a b -> a = b.
Proof. apply cent_unique. pose proof p_pos; lia. Qed.
Lemma cent0 : cent p 0.
Proof. pose proof p_pos. unfold cent. lia. Qed.
Lemma cent1 : cent p 1.
Proof. pose proof p_pos. unfold cent. lia. Qed.
Lemma cu0 a : cent p a -> cong p a 0 -> a = 0.
Proof. intros. apply cu; auto using cent0. Qed.
Lemma cu1 a : cent p a -> cong p a 1 -> a = 1.
Proof. intros. apply cu; auto using cent1. Qed.

Ltac go := repeat match goal with
  | |- context[s_xmm S ?a ?b p] => let r := fresh "r" in let E := fresh "E" in let C := fresh "C" in let B := fresh "B" in
      destruct (mo_xmm _ _ _ M a b) as (r & E & C & B); [solve [auto]..|]; rewrite E, bind_Ok
  | |- context[s_add S ?a ?b] => rewrite (mo_add _ _ _ M a b) by auto; rewrite bind_Ok
  | |- context[s_sub S ?a ?b] => rewrite (mo_sub _ _ _ M a b) by auto; rewrite bind_Ok
  | |- context[s_mod S ?x p] => let r := fresh "r" in let E := fresh "E" in let C := fresh "C" in let B := fresh "B" in
      destruct (mo_mod _ _ _ M x) as (r & E & C & B); [apply (mo_D _ _ _ M); repeat match goal with H : cent p _ |- _ => apply cl in H end; lia|]; rewrite E
  end.
(** f x y = u*y - q*x *)
Definition lin2 (u q x y z : Z) : Prop := cent p z /\ cong p z (u * y - q * x).

Lemma elimp1_ok nr nc e r1 r2 pos : length e = (nr * nc)%nat -> (r1 < nr)%nat -> (r2 < nr)%nat -> (pos < nc)%nat -> r1 <> r2 ->
  (forall i j, (i < nr)%nat -> (j < nc)%nat -> cent p (ent nc e i j)) ->
  exists e', elimp1 S e nc r1 r2 pos p = Ok e' /\ length e' = (nr * nc)%nat /\
    (forall i j, (i < nr)%nat -> (j < nc)%nat -> cent p (ent nc e' i j)) /\
    (forall i j, (i < nr)%nat -> (j < nc)%nat -> i <> r2 \/ (j < pos)%nat -> ent nc e' i j = ent nc e i j) /\
    (forall j, (pos <= j < nc)%nat -> cong p (ent nc e' r2 j) (ent nc e r2 j - ent nc e r2 pos * ent nc e r1 j)).
Proof.
  intros L H1 H2 Hp Hn C. unfold elimp1. rewrite (deref_ent nr nc e r2 pos) by auto. rewrite bind_Ok.
  pose proof (C r2 pos H2 Hp) as Cq. destruct (mo_mod _ _ _ M (ent nc e r2 pos)) as (q & -> & Eq & Cq').
  { apply (mo_D _ _ _ M). apply cl in Cq. lia. }
  rewrite bind_Ok. apply cu in Eq; auto. subst q.
  set (q := ent nc e r2 pos) in *.
  destruct (Z.eqb_spec q 0) as [Hq|Hq].
  { exists e. sp; auto. intros j Hj. apply cong_eq. rewrite Hq. ring. }
  rewrite (mo_neg _ _ _ M) by auto. rewrite bind_Ok.
  match goal with |- context[row_op _ _ _ _ _ ?f] => destruct (row_op_ok (lin2 1 q) nr nc e r1 r2 pos f) as (e' & E & L' & Ho & Hr) end; auto; [lia| |].
  { intros j Hj. pose proof (C r1 j H1 ltac:(lia)) as Cx. pose proof (C r2 j H2 ltac:(lia)) as Cy.
    set (x := ent nc e r1 j) in *. set (y := ent nc e r2 j) in *. clearbody x y.
    assert (Bq : Z.abs q < p) by auto.
    assert (Bx : Z.abs x < p) by auto. assert (By : Z.abs y < p) by auto.
    unfold lin2. destruct (Z.eqb_spec (- q) 1); [|destruct (Z.eqb_spec q 1)].
    - go. eexists; split; [reflexivity|]. split; auto. replace (1 * y - q * x) with (y + x) by (replace q with (-1) by lia; ring). auto.
    - go. eexists; split; [reflexivity|]. split; auto. replace (1 * y - q * x) with (y - x) by (replace q with 1 by lia; ring). auto.
    - go. eexists; split; [reflexivity|]. split; auto. eapply cong_trans; [eassumption|].
      replace (1 * y) with y by ring. apply cong_sub; auto using cong_refl. }
  exists e'. rewrite E. sp; auto.
  - intros i j Hi Hj. destruct (Nat.eq_dec i r2) as [->|]; [|rewrite Ho; auto].
    destruct (lt_dec j pos); [rewrite Ho; auto|]. apply Hr. lia.
  - intros j Hj. destruct (Hr j Hj) as (_ & Hc). eapply cong_trans; [exact Hc|]. apply cong_eq. ring.
Qed.
Lemma elimp_ok nr nc e r1 r2 pos : length e = (nr * nc)%nat -> (r1 < nr)%nat -> (r2 < nr)%nat -> (pos < nc)%nat -> r1 <> r2 ->
  (forall i j, (i < nr)%nat -> (j < nc)%nat -> cent p (ent nc e i j)) ->
  exists e', elimp S e nc r1 r2 pos p = Ok e' /\ length e' = (nr * nc)%nat /\
    (forall i j, (i < nr)%nat -> (j < nc)%nat -> cent p (ent nc e' i j)) /\
    (forall i j, (i < nr)%nat -> (j < nc)%nat -> i <> r2 \/ (j < pos)%nat -> ent nc e' i j = ent nc e i j) /\
    ((ent nc e r2 pos = 0 /\ e' = e) \/
     forall j, (pos <= j < nc)%nat -> cong p (ent nc e' r2 j) (ent nc e r1 pos * ent nc e r2 j - ent nc e r2 pos * ent nc e r1 j)).
Proof.
  intros L H1 H2 Hp Hn C. unfold elimp.
  rewrite (deref_ent nr nc e r1 pos) by auto. rewrite bind_Ok.
  pose proof (C r1 pos H1 Hp) as Cu. destruct (mo_mod _ _ _ M (ent nc e r1 pos)) as (u & -> & Eu & Cu').
  { apply (mo_D _ _ _ M). apply cl in Cu. lia. }
  rewrite bind_Ok. apply cu in Eu; auto. subst u.
  rewrite (deref_ent nr nc e r2 pos) by auto. rewrite bind_Ok.
  pose proof (C r2 pos H2 Hp) as Cq. destruct (mo_mod _ _ _ M (ent nc e r2 pos)) as (q & -> & Eq & Cq').
  { apply (mo_D _ _ _ M). apply cl in Cq. lia. }
  rewrite bind_Ok. apply cu in Eq; auto. subst q.
  set (q := ent nc e r2 pos) in *. set (u := ent nc e r1 pos) in *.
  destruct (Z.eqb_spec q 0) as [Hq|Hq].
  { exists e. sp; auto. }
  rewrite (mo_neg _ _ _ M) by auto. rewrite bind_Ok.
  match goal with |- context[row_op _ _ _ _ _ ?f] => destruct (row_op_ok (lin2 u q) nr nc e r1 r2 pos f) as (e' & E & L' & Ho & Hr) end; auto; [lia| |].
  { intros j Hj. pose proof (C r1 j H1 ltac:(lia)) as Cx. pose proof (C r2 j H2 ltac:(lia)) as Cy.
    set (x := ent nc e r1 j) in *. set (y := ent nc e r2 j) in *. clearbody x y u q.
    assert (Bq : Z.abs q < p) by auto. assert (Bu : Z.abs u < p) by auto.
    assert (Bx : Z.abs x < p) by auto. assert (By : Z.abs y < p) by auto.
    unfold lin2. destruct (Z.eqb_spec u 1) as [->|]; [destruct (Z.eqb_spec q 1) as [->|]; [|destruct (Z.eqb_spec (- q) 1)]|destruct (Z.eqb_spec (- q) 1); [|destruct (Z.eqb_spec q 1) as [->|]]];
    go; (eexists; split; [reflexivity|]; split; [auto|]); (eapply cong_trans; [eassumption|]).
    - apply cong_eq. ring.
    - apply cong_eq. replace q with (-1) by lia. ring.
    - apply cong_sub; auto. apply cong_eq; ring.
    - replace (u * y - q * x) with (u * y + x) by (replace q with (-1) by lia; ring). apply cong_add; auto using cong_refl.
    - apply cong_sub; auto. apply cong_eq; ring.
    - apply cong_sub; auto. }
  exists e'. rewrite E. sp; auto.
  - intros i j Hi Hj. destruct (Nat.eq_dec i r2) as [->|]; [|rewrite Ho; auto].
    destruct (lt_dec j pos); [rewrite Ho; auto|]. apply Hr. lia.
  - right. intros j Hj. destruct (Hr j Hj) as (_ & Hc). exact Hc.
Qed.
Lemma scale_row_ok nr nc e r fac : length e = (nr * nc)%nat -> (r < nr)%nat -> Z.abs fac < p ->
  (forall i j, (i < nr)%nat -> (j < nc)%nat -> cent p (ent nc e i j)) ->
  exists e', scale_row S e nc r fac p = Ok e' /\ length e' = (nr * nc)%nat /\
    (forall i j, (i < nr)%nat -> (j < nc)%nat -> cent p (ent nc e' i j)) /\
    (forall i j, (i < nr)%nat -> (j < nc)%nat -> i <> r -> ent nc e' i j = ent nc e i j) /\
    (forall j, (j < nc)%nat -> cong p (ent nc e' r j) (fac * ent nc e r j)).
Proof.
  intros L Hr Hf C. unfold scale_row. rewrite <- (Nat.add_0_r (r * nc)).
  destruct (seg_row nr nc e r 0 nc L Hr ltac:(lia)) as (a & -> & La & Ha). rewrite bind_Ok.
  destruct (mmap_ok 0 0 (fun x y => cent p y /\ cong p y (fac * x)) (fun x => bind (s_xmm S fac x p) (fun y => s_mod S y p)) a) as (a' & -> & La' & Ha').
  { intros k Hk. rewrite Ha by lia. pose proof (C r (0 + k)%nat Hr ltac:(lia)) as Cx.
    set (x := ent nc e r (0 + k)) in *. clearbody x. assert (Bx : Z.abs x < p) by auto. go.
    eexists; split; [reflexivity|]. split; auto. eapply cong_trans; eassumption. }
  rewrite bind_Ok. destruct (put_row nr nc e r 0 a' L Hr ltac:(lia)) as (e' & -> & L' & Ho & Hi).
  assert (G : forall j, (j < nc)%nat -> cent p (ent nc e' r j) /\ cong p (ent nc e' r j) (fac * ent nc e r j)).
  { intros j Hj. rewrite Hi by lia. rewrite Nat.sub_0_r. specialize (Ha' j ltac:(lia)). rewrite Ha in Ha' by lia. exact Ha'. }
  exists e'. sp; auto.
  - intros i j Hi' Hj. destruct (Nat.eq_dec i r) as [->|]; [apply G; auto|rewrite Ho; auto].
  - intros j Hj. apply G; auto.
Qed.
Lemma scale_row'_ok nr nc e r fac : mulok S D p -> length e = (nr * nc)%nat -> (r < nr)%nat -> cent p fac ->
  (forall i j, (i < nr)%nat -> (j < nc)%nat -> cent p (ent nc e i j)) ->
  exists e', scale_row' S e nc r fac p = Ok e' /\ length e' = (nr * nc)%nat /\
    (forall i j, (i < nr)%nat -> (j < nc)%nat -> cent p (ent nc e' i j)) /\
    (forall i j, (i < nr)%nat -> (j < nc)%nat -> i <> r -> ent nc e' i j = ent nc e i j) /\
    (forall j, (j < nc)%nat -> cong p (ent nc e' r j) (fac * ent nc e r j)).
Proof.
  intros MU L Hr Hf C. unfold scale_row'. rewrite <- (Nat.add_0_r (r * nc)).
  destruct (seg_row nr nc e r 0 nc L Hr ltac:(lia)) as (a & -> & La & Ha). rewrite bind_Ok.
  destruct (mmap_ok 0 0 (fun x y => cent p y /\ cong p y (fac * x)) (fun x => bind (s_mul S fac x) (fun y => s_mod S y p)) a) as (a' & -> & La' & Ha').
  { intros k Hk. rewrite Ha by lia. pose proof (C r (0 + k)%nat Hr ltac:(lia)) as Cx.
    set (x := ent nc e r (0 + k)) in *. clearbody x. destruct (MU fac x Hf Cx) as (-> & Dx). rewrite bind_Ok.
    destruct (mo_mod _ _ _ M _ Dx) as (y & -> & ? & ?). eauto. }
  rewrite bind_Ok. destruct (put_row nr nc e r 0 a' L Hr ltac:(lia)) as (e' & -> & L' & Ho & Hi).
  assert (G : forall j, (j < nc)%nat -> cent p (ent nc e' r j) /\ cong p (ent nc e' r j) (fac * ent nc e r j)).
  { intros j Hj. rewrite Hi by lia. rewrite Nat.sub_0_r. specialize (Ha' j ltac:(lia)). rewrite Ha in Ha' by lia. exact Ha'. }
  exists e'. sp; auto.
  - intros i j Hi' Hj. destruct (Nat.eq_dec i r) as [->|]; [apply G; auto|rewrite Ho; auto].
  - intros j Hj. apply G; auto.
Qed.
Lemma piv_loop_ok nr nc e c : length e = (nr * nc)%nat -> (c < nc)%nat ->
  forall rs x r, (forall i, In i rs -> (i < nr)%nat) -> ent nc e r c = x -> (r < nr)%nat ->
  exists y s, piv_loop e nc c rs x r = Ok (y, s) /\ (s < nr)%nat /\ ent nc e s c = y /\ (s = r \/ In s rs) /\
    (y = 0 -> x = 0 /\ forall i, In i rs -> ent nc e i c = 0).
Proof.
  intros L Hc. induction rs as [|a rs IH]; intros x r Hrs Hx Hr; cbn [piv_loop].
  - exists x, r. sp; auto. intros Hy; split; auto. intros i [].
  - destruct (Z.eqb_spec x 0) as [E|E].
    + rewrite (deref_ent nr nc e a c) by (auto; apply Hrs; cbn; auto). rewrite bind_Ok.
      destruct (Z.eqb_spec (ent nc e a c) 0) as [E'|E'].
      * destruct (IH x r) as (y & s & -> & Hs & Hy & Hin & H0); auto. { intros i Hi. apply Hrs. cbn; auto. }
        exists y, s. sp; auto. { destruct Hin; cbn; auto. }
        intros Hy0; split; auto. intros i [->|Hi]; auto. apply H0; auto.
      * destruct (IH (ent nc e a c) a) as (y & s & -> & Hs & Hy & Hin & H0); auto. { intros i Hi. apply Hrs. cbn; auto. } { apply Hrs; cbn; auto. }
        exists y, s. sp; auto. { destruct Hin as [->|]; cbn; auto. }
        intros Hy0. destruct (H0 Hy0). contradiction.
    + exists x, r. sp; auto. intros; contradiction.
Qed.

(** the forward elimination: state before column c *)
Record fwd (nr nc : nat) (A : nat -> nat -> Z) (c : nat) (e : list Z) (r : nat) (pc npc : list nat) : Prop := {
  fw_len : length e = (nr * nc)%nat;
  fw_cent : forall i j, (i < nr)%nat -> (j < nc)%nat -> cent p (ent nc e i j);
  fw_span : eqspan p nc nr A nr (ent nc e);
  fw_r : r = length pc;
  fw_rn : (r <= nr)%nat;
  fw_spl : splits c pc npc;
  fw_piv : forall i, (i < r)%nat -> ent nc e i (nth i pc 0%nat) = 1;
  fw_zero : forall i j, (i < r)%nat -> (j < nth i pc 0)%nat -> ent nc e i j = 0;
  fw_below : forall i j, (r <= i < nr)%nat -> (j < c)%nat -> ent nc e i j = 0
}.
Lemma splits_pc c pc npc : splits c pc npc -> forall x, In x pc -> (x < c)%nat.
Proof.
  intros (_ & _ & P) x Hx. assert (In x (seq 0 c)) as Hs.
  { apply (Permutation_in _ P). apply in_or_app. auto. }
  apply in_seq in Hs. lia.
Qed.
Lemma splits_npc c pc npc : splits c pc npc -> forall x, In x npc -> (x < c)%nat.
Proof.
  intros (_ & _ & P) x Hx. assert (In x (seq 0 c)) as Hs.
  { apply (Permutation_in _ P). apply in_or_app. auto. }
  apply in_seq in Hs. lia.
Qed.
Lemma splits_len c pc npc : splits c pc npc -> (length pc + length npc = c)%nat.
Proof. intros (_ & _ & P). apply Permutation_length in P. rewrite app_length, seq_length in P. auto. Qed.
Lemma splits_snoc1 c pc npc : splits c pc npc -> splits (c + 1) (pc ++ [c]) npc.
Proof.
  intros H. pose proof H as (H1 & H2 & H3). unfold splits; sp; auto.
  - apply sorted_snoc; auto. eapply splits_pc; eauto.
  - replace (c + 1)%nat with (Datatypes.S c) by lia. rewrite seq_S. cbn [Nat.add].
    rewrite <- app_assoc. etransitivity; [apply Permutation_app_head, Permutation_app_comm|].
    rewrite app_assoc. apply Permutation_app_tail. auto.
Qed.
Lemma splits_snoc2 c pc npc : splits c pc npc -> splits (c + 1) pc (npc ++ [c]).
Proof.
  intros H. pose proof H as (H1 & H2 & H3). unfold splits; sp; auto.
  - apply sorted_snoc; auto. eapply splits_npc; eauto.
  - replace (c + 1)%nat with (Datatypes.S c) by lia. rewrite seq_S. cbn [Nat.add].
    rewrite app_assoc. apply Permutation_app_tail. auto.
Qed.
Lemma nth_snoc_lt {A} (d : A) l x i : (i < length l)%nat -> nth i (l ++ [x]) d = nth i l d.
Proof. apply app_nth1. Qed.
Lemma nth_snoc_eq {A} (d : A) l x : nth (length l) (l ++ [x]) d = x.
Proof. rewrite app_nth2 by lia. rewrite Nat.sub_diag. reflexivity. Qed.

Section Col.
Variables (nr nc : nat) (A : nat -> nat -> Z).
(** the elimination below the pivot row, given any way sc of scaling the pivot row *)
Lemma col_gen e r pc npc c inv sc :
  (forall a, cent p a -> a <> 0 -> exists x, inv a = Ok x /\ cong p (a * x) 1 /\
     forall e, length e = (nr * nc)%nat -> (forall i j, (i < nr)%nat -> (j < nc)%nat -> cent p (ent nc e i j)) ->
     exists e', sc e x = Ok e' /\ length e' = (nr * nc)%nat /\
      (forall i j, (i < nr)%nat -> (j < nc)%nat -> cent p (ent nc e' i j)) /\
      (forall i j, (i < nr)%nat -> (j < nc)%nat -> i <> r -> ent nc e' i j = ent nc e i j) /\
      (forall j, (j < nc)%nat -> cong p (ent nc e' r j) (x * ent nc e r j))) ->
  fwd nr nc A c e r pc npc -> (r < nr)%nat -> (c < nc)%nat ->
  exists e' r' pc' npc',
   bind (deref e (r * nc + c)) (fun x =>
   bind (piv_loop e nc c (seq (r + 1) (nr - (r + 1))) x r) (fun '(mmin, rmin) =>
    if mmin =? 0 then Ok (e, r, pc, npc ++ [c])
    else
     bind (if (r <? rmin)%nat then swaprows e nc r rmin else Ok e) (fun e =>
     bind (inv mmin) (fun fac =>
     bind (sc e fac) (fun e =>
     bind (mfold (fun e r3 => elimp1 S e nc r r3 c p) (seq (r + 1) (nr - (r + 1))) e) (fun e =>
      Ok (e, (r + 1)%nat, pc ++ [c], npc))))))) = Ok (e', r', pc', npc') /\ fwd nr nc A (c + 1) e' r' pc' npc'.
Proof.
  intros SC F Hr Hc. destruct F as [L C SP Er Ern SPL PIV ZERO BEL].
  rewrite (deref_ent nr nc e r c) by auto. rewrite bind_Ok.
  destruct (piv_loop_ok nr nc e c L Hc (seq (r + 1) (nr - (r + 1))) (ent nc e r c) r) as (mm & rm & -> & Hrm & Em & Hin & H0); auto.
  { intros i Hi. apply in_seq in Hi. lia. }
  rewrite bind_Ok. cbn beta iota.
  assert (Hrm' : (r <= rm)%nat) by (destruct Hin as [->|Hin]; [lia|apply in_seq in Hin; lia]).
  destruct (Z.eqb_spec mm 0) as [Z0|NZ].
  { exists e, r, pc, (npc ++ [c]). split; auto. constructor; auto.
    - apply splits_snoc2; auto.
    - intros i j Hi Hj. destruct (Nat.eq_dec j c) as [->|]; [|apply BEL; lia].
      destruct (H0 Z0) as (Hx & Hi0). destruct (Nat.eq_dec i r) as [->|]; auto. apply Hi0. apply in_seq. lia. }
  (* the swap *)
  assert (SW : exists e1, (if (r <? rm)%nat then swaprows e nc r rm else Ok e) = Ok e1 /\ length e1 = (nr * nc)%nat /\
     (forall i j, (i < nr)%nat -> (j < nc)%nat -> cent p (ent nc e1 i j)) /\ eqspan p nc nr A nr (ent nc e1) /\
     (forall i j, (i < r)%nat -> (j < nc)%nat -> ent nc e1 i j = ent nc e i j) /\
     (forall i j, (r <= i < nr)%nat -> (j < c)%nat -> ent nc e1 i j = 0) /\ ent nc e1 r c = mm).
  { destruct (Nat.ltb_spec r rm).
    - destruct (swaprows_ok nr nc e r rm L Hr Hrm ltac:(lia)) as (e1 & E1 & L1 & Ho & Hs).
      exists e1. sp; auto.
      + intros i j Hi Hj. destruct (Nat.eq_dec i r) as [->|]; [rewrite (proj1 (Hs j Hj)); auto|].
        destruct (Nat.eq_dec i rm) as [->|]; [rewrite (proj2 (Hs j Hj)); auto|]. rewrite Ho; auto.
      + eapply eqspan_trans; [exact SP|]. apply eqspan_swap with r rm; auto.
        * intros. apply cong_eq. auto.
        * intros j Hj. destruct (Hs j Hj) as (-> & ->). split; apply cong_refl.
      + intros i j Hi Hj. apply Ho; auto; lia.
      + intros i j Hi Hj. destruct (Nat.eq_dec i r) as [->|]; [rewrite (proj1 (Hs j ltac:(lia))); apply BEL; lia|].
        destruct (Nat.eq_dec i rm) as [->|]; [rewrite (proj2 (Hs j ltac:(lia))); apply BEL; lia|]. rewrite Ho by (auto; lia). apply BEL; lia.
      + rewrite (proj1 (Hs c Hc)). auto.
    - exists e. sp; auto. assert (rm = r) as -> by lia. auto. }
  destruct SW as (e1 & -> & L1 & C1 & SP1 & Hu1 & Hz1 & Hp1). rewrite bind_Ok.
  assert (Cm : cent p mm) by (rewrite <- Em; apply C; auto).
  destruct (SC mm Cm NZ) as (x & -> & Hx & SCe). rewrite bind_Ok.
  destruct (SCe e1 L1 C1) as (e2 & -> & L2 & C2 & Ho2 & Hs2). rewrite bind_Ok.
  assert (P2 : ent nc e2 r c = 1).
  { apply cu1; auto. eapply cong_trans; [apply Hs2; auto|]. rewrite Hp1. rewrite Z.mul_comm. auto. }
  assert (Z2 : forall i j, (r <= i < nr)%nat -> (j < c)%nat -> ent nc e2 i j = 0).
  { intros i j Hi Hj. destruct (Nat.eq_dec i r) as [->|]; [|rewrite Ho2 by (auto; lia); auto].
    apply cu0; [apply C2; lia|]. eapply cong_trans; [apply Hs2; lia|]. rewrite Hz1 by lia. apply cong_eq. ring. }
  assert (SP2 : eqspan p nc nr A nr (ent nc e2)).
  { eapply eqspan_trans; [exact SP1|]. apply eqspan_scale with r x mm; auto.
    - rewrite Z.mul_comm. auto.
    - intros. apply cong_eq. auto. }
  destruct (mfold_seq (fun k e => length e = (nr * nc)%nat /\
     (forall i j, (i < nr)%nat -> (j < nc)%nat -> cent p (ent nc e i j)) /\ eqspan p nc nr A nr (ent nc e) /\
     (forall i j, (i <= r)%nat -> (j < nc)%nat -> ent nc e i j = ent nc e2 i j) /\
     (forall i j, (r <= i < nr)%nat -> (j < c)%nat -> ent nc e i j = 0) /\
     (forall i, (r < i < k)%nat -> ent nc e i c = 0))
     (fun e r3 => elimp1 S e nc r r3 c p) (r + 1) (nr - (r + 1)) e2) as (e3 & -> & L3 & C3 & SP3 & Hu3 & Hz3 & Hc3).
  { sp; auto. intros i Hi; lia. }
  { clear - M Hr Hc P2. intros k e Hk (L & C & SP & Hu & Hz & Hzc).
    destruct (elimp1_ok nr nc e r k c L Hr ltac:(lia) Hc ltac:(lia) C) as (e' & -> & L' & C' & Ho & Hrow).
    exists e'. split; auto.
    assert (Prc : ent nc e r c = 1) by (rewrite Hu by lia; auto).
    sp; auto.
    - eapply eqspan_trans; [exact SP|]. apply (eqspan_rowop p nc nr _ _ k r 1 1 (- ent nc e k c)); auto; [lia|lia|apply cong_refl| |].
      + intros. apply cong_eq. auto.
      + intros j Hj. destruct (lt_dec j c).
        * rewrite Ho by (auto; lia). rewrite (Hz k j), (Hz r j) by lia. apply cong_eq. ring.
        * eapply cong_trans; [apply Hrow; lia|]. apply cong_eq. ring.
    - intros i j Hi Hj. rewrite Ho by (auto; lia). auto.
    - intros i j Hi Hj. rewrite Ho by (auto; lia). auto.
    - intros i Hi. destruct (Nat.eq_dec i k) as [->|].
      + apply cu0; [apply C'; lia|]. eapply cong_trans; [apply Hrow; lia|]. rewrite Prc. apply cong_eq. ring.
      + rewrite Ho by (auto; lia). apply Hzc; lia. }
  rewrite bind_Ok. exists e3, (r + 1)%nat, (pc ++ [c]), npc. split; auto.
  assert (Hlt : forall i, (i < r)%nat -> (nth i pc 0 < c)%nat).
  { intros i Hi. eapply splits_pc; [exact SPL|]. apply nth_In. lia. }
  assert (Keep : forall i j, (i < r)%nat -> (j < nc)%nat -> ent nc e3 i j = ent nc e i j).
  { intros i j Hi Hj. rewrite Hu3, Ho2, Hu1 by lia. auto. }
  constructor; auto.
  - rewrite app_length. cbn [length]. lia.
  - lia.
  - apply splits_snoc1; auto.
  - intros i Hi. destruct (Nat.eq_dec i r) as [->|].
    + rewrite Er, nth_snoc_eq, <- Er. rewrite Hu3 by lia. auto.
    + rewrite nth_snoc_lt by lia. specialize (Hlt i ltac:(lia)). rewrite Keep by lia. apply PIV; lia.
  - intros i j Hi Hj. destruct (Nat.eq_dec i r) as [->|].
    + rewrite Er, nth_snoc_eq in Hj. apply Hz3; lia.
    + rewrite nth_snoc_lt in Hj by lia. specialize (Hlt i ltac:(lia)). rewrite Keep by lia. apply ZERO; lia.
  - intros i j Hi Hj. destruct (Nat.eq_dec j c) as [->|]; [apply Hc3; lia|apply Hz3; lia].
Qed.
Lemma ech_col_ok e r pc npc c : fwd nr nc A c e r pc npc -> (r < nr)%nat -> (c < nc)%nat ->
  exists e' r' pc' npc', ech_col S nr nc p (e, r, pc, npc) c = Ok (e', r', pc', npc') /\ fwd nr nc A (c + 1) e' r' pc' npc'.
Proof.
  intros F Hr Hc. unfold ech_col.
  apply (col_gen e r pc npc c (fun a => s_invx S a p) (fun e x => scale_row S e nc r x p)); auto.
  intros a Ca Na. destruct (mo_invx _ _ _ M a Ca Na) as (x & -> & Hx & Bx). exists x. sp; auto.
  intros e0 L0 C0. apply scale_row_ok; auto.
Qed.
Lemma utri_col_ok e r pc npc c : mulok S D p -> fwd nr nc A c e r pc npc -> (r < nr)%nat -> (c < nc)%nat ->
  exists e' r' pc' npc', utri_col S nr nc p (e, r, pc, npc) c = Ok (e', r', pc', npc') /\ fwd nr nc A (c + 1) e' r' pc' npc'.
Proof.
  intros MU F Hr Hc. unfold utri_col.
  apply (col_gen e r pc npc c (fun a => s_invm S a p) (fun e x => scale_row' S e nc r x p)); auto.
  intros a Ca Na. destruct (mo_invm _ _ _ M a Ca Na) as (x & -> & Hx & Bx). exists x. sp; auto.
  intros e0 L0 C0. apply scale_row'_ok; auto.
Qed.
Lemma ech_cols_ok k : forall e r pc npc c, fwd nr nc A c e r pc npc -> (c + k = nc)%nat ->
  exists e' r' pc' npc' c', ech_cols S nr nc p (seq c k) (e, r, pc, npc) = Ok (e', r', pc', npc') /\ fwd nr nc A c' e' r' pc' npc' /\ (c' = nc \/ r' = nr /\ c' <= nc)%nat.
Proof.
  induction k; intros e r pc npc c F Hc; cbn [seq ech_cols].
  - exists e, r, pc, npc, c. split; auto. split; auto. left. lia.
  - cbn [fst snd]. destruct (Nat.ltb_spec r nr) as [Hr|Hr].
    + destruct (ech_col_ok e r pc npc c F Hr ltac:(lia)) as (e1 & r1 & pc1 & npc1 & -> & F1). rewrite bind_Ok.
      replace (Datatypes.S c) with (c + 1)%nat by lia. apply IHk; auto. lia.
    + exists e, r, pc, npc, c. split; auto. split; auto. right. pose proof (fw_rn _ _ _ _ _ _ _ _ F). lia.
Qed.
Lemma utri_cols_ok k : mulok S D p -> forall e r pc npc c, fwd nr nc A c e r pc npc -> (c + k = nc)%nat ->
  exists e' r' pc' npc' c', utri_cols S nr nc p (seq c k) (e, r, pc, npc) = Ok (e', r', pc', npc') /\ fwd nr nc A c' e' r' pc' npc' /\ (c' = nc \/ r' = nr /\ c' <= nc)%nat.
Proof.
  intros MU. induction k; intros e r pc npc c F Hc; cbn [seq utri_cols].
  - exists e, r, pc, npc, c. split; auto. split; auto. left. lia.
  - cbn [fst snd]. destruct (Nat.ltb_spec r nr) as [Hr|Hr].
    + destruct (utri_col_ok e r pc npc c MU F Hr ltac:(lia)) as (e1 & r1 & pc1 & npc1 & -> & F1). rewrite bind_Ok.
      replace (Datatypes.S c) with (c + 1)%nat by lia. apply IHk; auto. lia.
    + exists e, r, pc, npc, c. split; auto. split; auto. right. pose proof (fw_rn _ _ _ _ _ _ _ _ F). lia.
Qed.
Lemma splits_fill c k pc npc : splits c pc npc -> splits (c + k) pc (npc ++ seq c k).
Proof.
  intros H. pose proof H as (H1 & H2 & H3). unfold splits; sp; auto.
  - apply sorted_app; auto using sorted_seq. intros x y Hx Hy. apply (splits_npc _ _ _ H) in Hx. apply in_seq in Hy. lia.
  - rewrite seq_app, app_assoc. cbn [Nat.add]. apply Permutation_app_tail. auto.
Qed.
(** after filling in the remaining non-pivot columns *)
Lemma fwd_fill c e r pc npc : fwd nr nc A c e r pc npc -> (c = nc \/ r = nr /\ c <= nc)%nat ->
  fwd nr nc A nc e r pc (npc ++ seq (length pc + length npc) (nc - (length pc + length npc))).
Proof.
  intros F H. pose proof (splits_len _ _ _ (fw_spl _ _ _ _ _ _ _ _ F)) as El. rewrite El.
  destruct F as [L C SP Er Ern SPL PIV ZERO BEL]. constructor; auto.
  - replace nc with (c + (nc - c))%nat at 1 by lia. apply splits_fill; auto.
  - intros i j Hi Hj. destruct H as [->|(-> & _)]; [apply BEL; auto|lia].
Qed.
Lemma fwd_init e0 e : length e0 = (nr * nc)%nat -> length e = length e0 -> (forall k, (k < length e0)%nat -> cong p (nth k e 0) (nth k e0 0) /\ cent p (nth k e 0)) ->
  fwd nr nc (ent nc e0) 0 e 0 [] [].
Proof.
  intros L0 L H. assert (G : forall i j, (i < nr)%nat -> (j < nc)%nat -> cong p (ent nc e i j) (ent nc e0 i j) /\ cent p (ent nc e i j)).
  { intros i j Hi Hj. apply H. rewrite L0. apply idx_lt; auto. }
  constructor; auto; try lia.
  - intros i j Hi Hj. apply G; auto.
  - apply eqspan_cong. intros i j Hi Hj. apply cong_sym, G; auto.
  - unfold splits; sp; cbn; auto using SSorted_nil.
Qed.
End Col.

(** the final form of the modular echelon matrix *)
Record rref (nc rk : nat) (R : nat -> nat -> Z) (pc : list nat) : Prop := {
  rr_cent : forall i j, (i < rk)%nat -> (j < nc)%nat -> cent p (R i j);
  rr_id : forall i k, (i < rk)%nat -> (k < rk)%nat -> R i (nth k pc 0%nat) = if Nat.eqb i k then 1 else 0;
  rr_zero : forall i j, (i < rk)%nat -> (j < nth i pc 0)%nat -> R i j = 0
}.
Definition wfm (m : mat) : Prop := length (ents m) = (nro m * nco m)%nat.
Definition me (m : mat) : nat -> nat -> Z := ent (nco m) (ents m).
Lemma ech_fwd_ok m : wfm m -> Forall D (ents m) ->
  exists e r pc npc, ech_fwd S m p = Ok (e, r, pc, npc) /\ fwd (nro m) (nco m) (me m) (nco m) e r pc npc.
Proof.
  intros W HD. unfold ech_fwd.
  destruct (mmap_ok 0 0 (fun x r => cong p r x /\ cent p r) (fun x => s_mod S x p) (ents m)) as (e & -> & Le & He).
  { intros k Hk. apply (mo_mod _ _ _ M). rewrite Forall_forall in HD. apply HD, nth_In, Hk. }
  rewrite bind_Ok.
  destruct (ech_cols_ok (nro m) (nco m) (me m) (nco m) e 0 [] [] 0) as (e' & r' & pc' & npc' & c' & -> & F & Hc).
  { apply fwd_init; auto. } { lia. }
  rewrite bind_Ok. cbn beta iota. exists e', r', pc', (npc' ++ seq (length pc' + length npc') (nco m - (length pc' + length npc'))).
  split; auto. eapply fwd_fill; eauto.
Qed.
Lemma concat_rows nc : forall (rs : list (list Z)), (forall r, In r rs -> length r = nc) ->
  length (concat rs) = (length rs * nc)%nat /\ forall i j, (i < length rs)%nat -> (j < nc)%nat -> ent nc (concat rs) i j = nth j (nth i rs []) 0.
Proof.
  induction rs as [|r rs IH]; intros H; cbn [concat].
  - split; [reflexivity|]. cbn; lia.
  - destruct IH as (L & E). { intros; apply H; cbn; auto. }
    assert (Lr : length r = nc) by (apply H; cbn; auto). split.
    + rewrite app_length. cbn [length]. lia.
    + intros i j Hi Hj. unfold ent. destruct i; cbn [nth].
      * cbn [Nat.mul Nat.add]. rewrite app_nth1 by lia. auto.
      * rewrite app_nth2 by (rewrite Lr; cbn [Nat.mul]; lia). cbn [length] in Hi. rewrite <- E by lia. unfold ent. f_equal. rewrite Lr. cbn [Nat.mul]. lia.
Qed.
Lemma mat_slice_ok nr nc e rk : length e = (nr * nc)%nat -> (rk <= nr)%nat ->
  exists e', mat_slice (Mt nr nc e) 0 rk 0 nc = Ok (Mt rk nc e') /\ length e' = (rk * nc)%nat /\ forall i j, (i < rk)%nat -> (j < nc)%nat -> ent nc e' i j = ent nc e i j.
Proof.
  intros L Hrk. unfold mat_slice. cbn [ents nco]. rewrite !Nat.sub_0_r.
  destruct (mmap_ok 0%nat [] (fun i r => length r = nc /\ forall k, (k < nc)%nat -> nth k r 0 = ent nc e i k) (fun i => seg e (i * nc + 0) nc) (seq 0 rk)) as (rs & -> & Lr & Hr).
  { rewrite seq_length. intros k Hk. rewrite seq_nth by auto. cbn [Nat.add].
    destruct (seg_row nr nc e k 0 nc L ltac:(lia) ltac:(lia)) as (v & -> & Lv & Hv). eauto. }
  rewrite bind_Ok. rewrite seq_length in *.
  destruct (concat_rows nc rs) as (Lc & Hc).
  { intros r Hin. apply (In_nth _ _ []) in Hin. destruct Hin as (k & Hk & <-). apply Hr. lia. }
  eexists; split; [reflexivity|]. split; [lia|]. intros i j Hi Hj. rewrite Hc by lia.
  destruct (Hr i Hi) as (_ & Hv). rewrite seq_nth in Hv by auto. apply Hv; auto.
Qed.

(** ** echmodp *)
Lemma sorted_full l c : StronglySorted lt l -> Permutation l (seq 0 c) -> l = seq 0 c.
Proof.
  intros H. revert c. assert (G : forall s n, Permutation l (seq s n) -> l = seq s n); [|intros c; apply G].
  induction H as [|a l H IH F]; intros s n P.
  - apply Permutation_nil in P. auto.
  - destruct n; [apply Permutation_sym, Permutation_nil_cons in P; contradiction|]. cbn [seq] in *.
    assert (a = s) as ->.
    { assert (In s (a :: l)) as Hs by (apply (Permutation_in _ (Permutation_sym P)); cbn; auto).
      assert (In a (s :: seq (Datatypes.S s) n)) as Ha by (apply (Permutation_in _ P); cbn; auto).
      destruct Hs as [|Hs]; auto. rewrite Forall_forall in F. specialize (F _ Hs).
      destruct Ha as [|Ha]; auto. apply in_seq in Ha. lia. }
    f_equal. apply IH. eapply Permutation_cons_inv; eauto.
Qed.
Lemma echmodp_ok m : wfm m -> Forall D (ents m) ->
  exists R pc npc, echmodp S m p = Ok (R, pc, npc) /\ nro R = length pc /\ nco R = nco m /\ wfm R /\
    eqspan p (nco m) (nro m) (me m) (length pc) (me R) /\ splits (nco m) pc npc /\ rref (nco m) (length pc) (me R) pc.
Proof.
  intros W HD. unfold echmodp.
  destruct (ech_fwd_ok m W HD) as (e & r & pc & npc & -> & F). rewrite bind_Ok. cbn beta iota.
  set (nr := nro m) in *. set (nc := nco m) in *. set (A := me m) in *. clearbody A.
  destruct F as [L C SP Er Ern SPL PIV ZERO BEL]. subst r. set (rk := length pc) in *.
  assert (PL : forall i, (i < rk)%nat -> (nth i pc 0 < nc)%nat).
  { intros i Hi. eapply splits_pc; [exact SPL|]. apply nth_In, Hi. }
  assert (PS : forall i k, (i < k < rk)%nat -> (nth i pc 0 < nth k pc 0)%nat).
  { intros. apply sorted_nth; auto. apply SPL. }
  assert (END : forall e2, length e2 = (nr * nc)%nat -> eqspan p nc nr A rk (ent nc e2) -> rref nc rk (ent nc e2) pc ->
     exists R pc0 npc0, bind (mat_slice (Mt nr nc e2) 0 rk 0 nc) (fun R => Ok (R, pc, npc)) = Ok (R, pc0, npc0) /\
      nro R = length pc0 /\ nco R = nc /\ wfm R /\ eqspan p nc nr A (length pc0) (me R) /\ splits nc pc0 npc0 /\ rref nc (length pc0) (me R) pc0).
  { intros e2 L2 SP2 [R1 R2 R3]. destruct (mat_slice_ok nr nc e2 rk L2 Ern) as (e' & -> & Le' & He').
    rewrite bind_Ok. exists (Mt rk nc e'), pc, npc. sp; auto; unfold me; cbn [nco ents].
    - eapply eqspan_trans; [exact SP2|]. apply eqspan_cong. intros. apply cong_eq. symmetry; auto.
    - constructor.
      + intros i j Hi Hj. rewrite He' by auto. apply R1; auto.
      + intros i k Hi Hk. rewrite He' by auto. apply R2; auto.
      + intros i j Hi Hj. specialize (PL i Hi). rewrite He' by (auto; fold rk; lia). apply R3; auto. }
  destruct (Nat.ltb_spec 0 (length npc)) as [Hny|Hny].
  - (* back substitution *)
    destruct (mfold_seq (fun k e => length e = (nr * nc)%nat /\
       (forall i j, (i < nr)%nat -> (j < nc)%nat -> cent p (ent nc e i j)) /\ eqspan p nc nr A nr (ent nc e) /\
       (forall i, (i < rk)%nat -> ent nc e i (nth i pc 0%nat) <> 0) /\
       (forall i, (k <= i < rk)%nat -> ent nc e i (nth i pc 0%nat) = 1) /\
       (forall i j, (i < rk)%nat -> (j < nth i pc 0)%nat -> ent nc e i j = 0) /\
       (forall i j, (rk <= i < nr)%nat -> (j < nc)%nat -> ent nc e i j = 0) /\
       (forall i t, (i < k)%nat -> (i < t < rk)%nat -> ent nc e i (nth t pc 0%nat) = 0))
       (fun e r1 => mfold (fun e r2 => bind (at_ pc r2) (fun c => elimp S e nc r2 r1 c p)) (seq (r1 + 1) (rk - (r1 + 1))) e)
       0 rk e) as (e1 & -> & L1 & C1 & SP1 & N1 & _ & Z1 & B1 & T1).
    { sp; auto.
      - intros i Hi. rewrite PIV by auto. lia.
      - intros i Hi. apply PIV; lia.
      - intros i t Hi; lia. }
    { intros k e0 Hk (L0 & C0 & SP0 & N0 & P0 & Z0 & B0 & T0).
      destruct (mfold_seq (fun t e => length e = (nr * nc)%nat /\
         (forall i j, (i < nr)%nat -> (j < nc)%nat -> cent p (ent nc e i j)) /\ eqspan p nc nr A nr (ent nc e) /\
         (forall i j, (i < nr)%nat -> (j < nc)%nat -> i <> k -> ent nc e i j = ent nc e0 i j) /\
         ent nc e k (nth k pc 0%nat) <> 0 /\
         (forall j, (j < nth k pc 0)%nat -> ent nc e k j = 0) /\
         (forall s, (k < s < t)%nat -> ent nc e k (nth s pc 0%nat) = 0))
         (fun e r2 => bind (at_ pc r2) (fun c => elimp S e nc r2 k c p)) (k + 1) (rk - (k + 1)) e0) as (e1 & -> & L1 & C1 & SP1 & O1 & N1 & Z1 & T1).
      { sp; auto. { apply N0. lia. } { intros j Hj. apply Z0; auto; lia. } intros s Hs; lia. }
      { clear - M PL PS Ern P0 Z0 Hk. intros t e Ht (L1 & C1 & SP1 & O1 & N1 & Z1 & T1).
        rewrite (at_ok 0%nat) by (fold rk; lia). rewrite bind_Ok.
        pose proof (PL t ltac:(lia)) as Pt. pose proof (PS k t ltac:(lia)) as Pkt. set (c := nth t pc 0%nat) in *.
        destruct (elimp_ok nr nc e t k c L1 ltac:(lia) ltac:(lia) Pt ltac:(lia) C1) as (e' & -> & L' & C' & Ho & [(Hq & ->)|Hrow]).
        - exists e. split; auto. sp; auto. intros s Hs. destruct (Nat.eq_dec s t) as [->|]; auto. apply T1; lia.
        - exists e'. split; auto.
          assert (Pv : ent nc e t c = 1). { rewrite O1 by lia. apply P0. lia. }
          assert (Zt : forall j, (j < c)%nat -> ent nc e t j = 0). { intros j Hj. rewrite O1 by lia. apply Z0; auto; lia. }
          assert (Row : forall j, (j < nc)%nat -> cong p (ent nc e' k j) (1 * ent nc e k j + - ent nc e k c * ent nc e t j)).
          { intros j Hj. destruct (lt_dec j c).
            - rewrite Ho, Zt by (auto; lia). apply cong_eq. ring.
            - eapply cong_trans; [apply Hrow; lia|]. rewrite Pv. apply cong_eq. ring. }
          sp; auto.
          + eapply eqspan_trans; [exact SP1|]. apply (eqspan_rowop p nc nr _ _ k t 1 1 (- ent nc e k c)); auto; [lia|lia|lia|apply cong_refl|].
            intros. apply cong_eq. auto.
          + intros i j Hi Hj Hn. rewrite Ho by auto. auto.
          + rewrite Ho by (auto; lia). auto.
          + intros j Hj. rewrite Ho by (auto; lia). auto.
          + intros s Hs. destruct (Nat.eq_dec s t) as [->|].
            * apply cu0; [apply C'; lia|]. fold c. eapply cong_trans; [apply Row; lia|]. rewrite Pv. apply cong_eq. ring.
            * pose proof (PS s t ltac:(lia)). rewrite Ho by (auto; lia). apply T1. lia. }
      replace (k + 1 + (rk - (k + 1)))%nat with rk in * by lia.
      exists e1. split; auto. sp; auto.
      - intros i Hi. destruct (Nat.eq_dec i k) as [->|]; auto. rewrite O1 by (try lia; apply PL; lia). auto.
      - intros i Hi. rewrite O1 by (try lia; apply PL; lia). apply P0. lia.
      - intros i j Hi Hj. destruct (Nat.eq_dec i k) as [->|]; auto. specialize (PL i Hi). rewrite O1 by (auto; lia). auto.
      - intros i j Hi Hj. rewrite O1 by (auto; lia). auto.
      - intros i t Hi Ht. destruct (Nat.eq_dec i k) as [->|].
        + apply T1. lia.
        + rewrite O1 by (try lia; apply PL; lia). apply T0; lia. }
    rewrite bind_Ok. cbn [Nat.add] in T1.
    destruct (mfold_seq (fun k e => length e = (nr * nc)%nat /\
       (forall i j, (i < nr)%nat -> (j < nc)%nat -> cent p (ent nc e i j)) /\ eqspan p nc nr A nr (ent nc e) /\
       (forall i, (i < rk)%nat -> ent nc e i (nth i pc 0%nat) <> 0) /\
       (forall i, (i < k)%nat -> ent nc e i (nth i pc 0%nat) = 1) /\
       (forall i j, (i < rk)%nat -> (j < nth i pc 0)%nat -> ent nc e i j = 0) /\
       (forall i j, (rk <= i < nr)%nat -> (j < nc)%nat -> ent nc e i j = 0) /\
       (forall i t, (i < rk)%nat -> (i < t < rk)%nat -> ent nc e i (nth t pc 0%nat) = 0))
       (fun e r1 => bind (at_ pc r1) (fun c => bind (deref e (r1 * nc + c)) (fun fac => bind (s_invm S fac p) (fun fac => scale_row S e nc r1 fac p))))
       0 rk e1) as (e2 & -> & L2 & C2 & SP2 & N2 & P2 & Z2 & B2 & T2).
    { sp; auto. intros i Hi; lia. }
    { clear - M PL Ern. intros k e Hk (L & C & SP & N & P & Z & B & T).
      rewrite (at_ok 0%nat) by (fold rk; lia). rewrite bind_Ok.
      pose proof (PL k ltac:(lia)) as Pk. rewrite (deref_ent nr nc) by (auto; lia). rewrite bind_Ok.
      destruct (mo_invm _ _ _ M (ent nc e k (nth k pc 0%nat))) as (x & -> & Hx & Cx); [apply C; lia|apply N; lia|].
      rewrite bind_Ok. destruct (scale_row_ok nr nc e k x L ltac:(lia) (cl _ Cx) C) as (e' & -> & L' & C' & Ho & Hs).
      exists e'. split; auto.
      assert (K0 : forall j, (j < nc)%nat -> ent nc e k j = 0 -> ent nc e' k j = 0).
      { intros j Hj E. apply cu0; [apply C'; lia|]. eapply cong_trans; [apply Hs; auto|]. rewrite E. apply cong_eq. ring. }
      assert (K1 : ent nc e' k (nth k pc 0%nat) = 1).
      { apply cu1; [apply C'; lia|]. eapply cong_trans; [apply Hs; auto|]. rewrite Z.mul_comm. auto. }
      sp; auto.
      - eapply eqspan_trans; [exact SP|]. apply (eqspan_scale p nc nr _ _ k x (ent nc e k (nth k pc 0%nat))); auto; [lia| |].
        + rewrite Z.mul_comm; auto.
        + intros. apply cong_eq. auto.
      - intros i Hi. destruct (Nat.eq_dec i k) as [->|]; [rewrite K1; lia|]. rewrite Ho by (auto; lia). auto.
      - intros i Hi. destruct (Nat.eq_dec i k) as [->|]; auto. rewrite Ho by (auto; try lia; apply PL; lia). apply P; lia.
      - intros i j Hi Hj. specialize (PL i Hi). destruct (Nat.eq_dec i k) as [->|]; [apply K0; auto; lia|]. rewrite Ho by (auto; lia). auto.
      - intros i j Hi Hj. rewrite Ho by (auto; lia). auto.
      - intros i t Hi Ht. destruct (Nat.eq_dec i k) as [->|]; [apply K0; [apply PL; lia|auto]|]. rewrite Ho by (auto; try lia; apply PL; lia). auto. }
    cbn [Nat.add] in P2. rewrite bind_Ok.
    apply END; auto.
    + eapply eqspan_trans; [exact SP2|]. apply eqspan_drop; auto. intros i j Hi Hj. rewrite B2 by auto. apply cong_refl.
    + constructor; auto.
      * intros; apply C2; auto; lia.
      * intros i k Hi Hk. destruct (Nat.eqb_spec i k) as [->|]; [auto|].
        destruct (lt_dec i k); [apply T2; lia|]. apply Z2; auto. apply PS. lia.
  - (* full column rank *)
    assert (npc = []) as Enpc by (destruct npc; auto; cbn in Hny; lia). subst npc.
    pose proof (splits_len _ _ _ SPL) as El. cbn [length] in El. fold rk in El. rewrite Nat.add_0_r in El.
    assert (Epc : pc = seq 0 nc). { apply sorted_full; [apply SPL|]. destruct SPL as (_ & _ & P). rewrite app_nil_r in P. auto. }
    assert (Enth : forall i, (i < nc)%nat -> nth i pc 0%nat = i). { intros i Hi. rewrite Epc, seq_nth; auto. }
    destruct (mfold_seq (fun k e => length e = (nr * nc)%nat /\
       (forall i j, (i < k)%nat -> (j < nc)%nat -> ent nc e i j = if Nat.eqb i j then 1 else 0))
       (fun e i => bind (at_ pc i) (fun c => put e (i * nc) (map (fun j => if Nat.eqb j c then 1 else 0) (seq 0 nc)))) 0 rk e) as (e1 & -> & L1 & I1).
    { split; auto. intros i j Hi; lia. }
    { intros k e0 Hk (L0 & I0). rewrite (at_ok 0%nat) by (fold rk; lia). rewrite bind_Ok. rewrite Enth by lia.
      rewrite <- (Nat.add_0_r (k * nc)).
      destruct (put_row nr nc e0 k 0 (map (fun j => if Nat.eqb j k then 1 else 0) (seq 0 nc)) L0 ltac:(lia)) as (e' & -> & L' & Ho & Hi').
      { rewrite map_length, seq_length. lia. }
      rewrite map_length, seq_length in *. exists e'. sp; auto.
      intros i j Hi Hj. destruct (Nat.eq_dec i k) as [->|].
      - rewrite Hi' by lia. rewrite Nat.sub_0_r.
        rewrite (nth_map_seq (fun j => if Nat.eqb j k then 1 else 0)) by auto. rewrite Nat.eqb_sym. auto.
      - rewrite Ho by (auto; lia). apply I0; lia. }
    cbn [Nat.add] in I1. rewrite bind_Ok. apply END; auto.
    + intros v. split; intros _.
      * rewrite El. apply tri_span.
        -- intros i Hi. rewrite I1 by lia. rewrite Nat.eqb_refl. apply cong_refl.
        -- intros i j Hi Hj. rewrite I1 by lia. destruct (Nat.eqb_spec i j); [lia|apply cong_refl].
      * apply (proj2 (SP v)). apply (eqspan_drop p nc nr (ent nc e) rk Ern); [intros i j Hi Hj; rewrite BEL by (auto; lia); apply cong_refl|].
        rewrite El. apply tri_span.
        -- intros i Hi. rewrite <- (Enth i Hi) at 2. rewrite PIV by lia. apply cong_refl.
        -- intros i j Hi Hj. rewrite ZERO by (rewrite ?Enth; lia). apply cong_refl.
    + constructor.
      * intros i j Hi Hj. rewrite I1 by auto. destruct (Nat.eqb i j); auto using cent0, cent1.
      * intros i k Hi Hk. rewrite Enth by lia. rewrite I1 by lia. auto.
      * intros i j Hi Hj. rewrite Enth in Hj by lia. rewrite I1 by lia. destruct (Nat.eqb_spec i j); [lia|auto].
Qed.
End Elim.
