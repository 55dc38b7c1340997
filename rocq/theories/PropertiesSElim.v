(** Structured elimination of sparse matrices: C27 *)
From Coq Require Import ZArith Znumtheory Lia List Bool Sorted Permutation.
From Verif Require Import Base ArithModel RatModel MArithModel MArithProofs LinModel LinSpec LinProofs LinElim LinKer LinAlg LinRank SvecModel SmatModel OrdModel OrdSpec OrdProofs OrdMore
  SElimModel SElimRow SElimInv SElimPivot SElimSteps SElimStep0 SElimStd SElimDense SElimKer SElimNull SElimInst PropertiesMArith PropertiesLin.
Import ListNotations.
Open Scope Z_scope.

(** the entry in row i and column j, both counted from 0 *)
Definition entry (rows : list smap) (i j : nat) : Z := lookup (nth i rows []) (Z.of_nat j + 1).
(** the three scalar types; V: the values they can hold during the computation *)
Definition emodular (xgcd : Z -> Z -> Z * Z * Z) (E : esc) (V : Z -> Prop) (p : Z) : Prop :=
  (E = ec_int /\ V = (fun x => Z.abs x < p) /\ 2 * p <= max32) \/ (E = ec_long /\ V = (fun x => Z.abs x < p) /\ p * p <= max64) \/
  (E = ec_z xgcd /\ xgcd_spec xgcd /\ V = (fun _ => True)).
Lemma emodular_ok xgcd E V p : emodular xgcd E V p -> prime p -> emod E p V.
Proof. intros [(-> & -> & H)|[(-> & -> & H)|(-> & H & ->)]] P; [apply emod_int|apply emod_long|apply emod_z]; auto. Qed.
(** sparse rows: columns increasing and in range, values reduced and not 0 modulo p *)
Definition sparse (p : Z) (V : Z -> Prop) (nc : nat) (l : smap) : Prop :=
  StronglySorted Z.lt (map fst l) /\ forall k x, In (k, x) l -> 1 <= k <= Z.of_nat nc /\ V x /\ ~ (p | x).
Lemma sorted_incr l : StronglySorted Z.lt l -> incr l.
Proof. induction 1 as [|x l S IH F]; cbn; auto. split; auto. rewrite Forall_forall in F. auto. Qed.
Lemma sparse_wf p V nc l : sparse p V nc l -> wfrow p V nc l.
Proof. intros (S & H). split; [apply sorted_incr, S|]. intros k x Hx. destruct (H k x Hx) as (H1 & H2 & H3). split; auto. split; auto. unfold cong. rewrite Z.sub_0_r. auto. Qed.
Lemma sparse_rows p V nc rows : (forall l, In l rows -> sparse p V nc l) -> forall i, wfrow p V nc (nth i rows []).
Proof. intros H i. destruct (nth_in_or_default i rows ([] : smap)) as [G|G]; [apply sparse_wf, H, G|]. replace (nth i rows []) with ([] : smap) by (symmetry; exact G). split; [exact I|intros k x []]. Qed.

(** the rank: sparse_elimination as in smat::rank, whatever the density test answers and
    whatever row reduced matrix the dense part returns *)
Theorem C27_rank_partial xgcd E V p : emodular xgcd E V p -> prime p -> forall below rref rows nc, dense_rref p V rref -> (forall l, In l rows -> sparse p V nc l) ->
  exists r, sm_rank E p below rref rows nc = Ok (Z.of_nat r) /\ hasrank p nc (length rows) (entry rows) r.
Proof.
  intros MO P below rref rows nc HF W. pose proof (emodular_ok _ _ _ _ MO P) as M. pose proof (sparse_rows _ _ _ _ W) as W'. clear W. rename W' into W.
  destruct (einit_ok p V (length rows) nc (entry rows) rows eq_refl W (eqspan_refl _ _ _ _)) as (st & E0 & I0 & A0).
  destruct (elim_ok E p V (length rows) nc (entry rows) M below rref HF [] st I0 A0) as (st' & E1 & pv & F). destruct (fin_rank _ _ _ _ _ _ _ F) as (R & L).
  exists (length pv). split; auto. unfold sm_rank. rewrite E0. cbn [bind]. rewrite E1. cbn [bind]. unfold zlen. rewrite L. reflexivity.
Qed.
Print Assumptions C27_rank_partial.
(** rank and dense elimination mean what they should: the rank is unique *)
Theorem C27_rank_unique p : prime p -> forall nc nr A r r', hasrank p nc nr A r -> hasrank p nc nr A r' -> r = r' /\ (r <= nr)%nat.
Proof. intros P nc nr A r r' H H'. split; [exact (hasrank_unique p P nc nr A r r' H H')|exact (rank_le_rows p P nc nr A r H)]. Qed.
Print Assumptions C27_rank_unique.
(** the kernel: smat::kernel.  Column k of bas is a solution, every solution is the
    combination of the columns given by its coordinates npc, and the rows of bas are sparse
    rows with values in the symmetric residue system *)
Theorem C27_kernel_partial xgcd E V p : emodular xgcd E V p -> prime p -> forall below rref rows nc, dense_rref p V rref -> (forall l, In l rows -> sparse p V nc l) ->
  exists bas pc npc, sm_kernel E p below rref rows nc = Ok (bas, map (fun c => Z.of_nat c + 1) pc, map (fun c => Z.of_nat c + 1) npc) /\ length bas = nc /\
   splits nc pc npc /\ hasrank p nc (length rows) (entry rows) (length pc) /\
   (forall l, In l bas -> sparse p (cent p) (length npc) l) /\
   (forall j k, (j < length npc)%nat -> (k < length npc)%nat -> entry bas (nth j npc 0%nat) k = if Nat.eqb j k then 1 else 0) /\
   (forall k, (k < length npc)%nat -> inker p nc (length rows) (entry rows) (fun i => entry bas i k)) /\
   (forall x, inker p nc (length rows) (entry rows) x -> forall i, (i < nc)%nat -> cong p (x i) (sumn (length npc) (fun k => entry bas i k * x (nth k npc 0%nat)))).
Proof.
  intros MO P below rref rows nc HF W. pose proof (emodular_ok _ _ _ _ MO P) as M. pose proof (sparse_rows _ _ _ _ W) as W'. clear W. rename W' into W.
  destruct (einit_ok p V (length rows) nc (entry rows) rows eq_refl W (eqspan_refl _ _ _ _)) as (st & E0 & I0 & A0).
  destruct (elim_ok E p V (length rows) nc (entry rows) M below rref HF [] st I0 A0) as (st1 & E1 & pv & F). destruct (fin_rank _ _ _ _ _ _ _ F) as (R & L).
  assert (exists st2, (if 0 <? Z.of_nat nc - zlen (erow st1) then back_sub E p st1 else Ok st1) = Ok st2 /\ fin p V (length rows) nc (entry rows) pv st2 /\ ((length pv < nc)%nat -> forall t, (t < length pv)%nat -> red pv st2 t)) as (st2 & E2 & F2 & R2).
  { unfold zlen. rewrite L. destruct (Z.ltb_spec 0 (Z.of_nat nc - Z.of_nat (length pv))) as [G|G].
    - destruct (back_sub_ok E p V (length rows) nc (entry rows) M pv st1 F) as (st2 & Eb & F2 & R2). exists st2. auto.
    - exists st1. split; auto. split; auto. intros H. lia. }
  destruct (ker_basis_ok E p V (length rows) nc (entry rows) M pv st2 F2 R2) as (bas & pc & npc & Ek & Lb & SP & Lp & SM & K1 & K2 & K3).
  exists bas, pc, npc. split. { unfold sm_kernel. rewrite E0. cbn [bind]. rewrite E1. cbn [bind]. rewrite E2. exact Ek. }
  split; auto. split; auto. split; [rewrite Lp; auto|]. split.
  - intros l Hl. apply (In_nth _ _ ([] : smap)) in Hl. destruct Hl as (i & Li & <-). rewrite Lb in Li. destruct (SM i Li) as (S1 & S2). split.
    + clear - S1. fold (keys (nth i bas [])). induction (keys (nth i bas [])) as [|x l IH]; constructor; [apply IH, S1|]. apply Forall_forall. apply S1.
    + intros k x Hx. destruct (S2 k x Hx) as (H1 & H2 & H3). split; auto. split; auto. intros Hd. apply H2. apply (cent_zero p); auto. unfold cong. rewrite Z.sub_0_r. auto.
  - split; [exact K1|]. split; [exact K2|exact K3].
Qed.
Print Assumptions C27_kernel_partial.
(** any pivoting order: clearing with any row that still has position -1 and any of its
    columns, again and again, succeeds and keeps the row space *)
Fixpoint pivots (E : esc) (p : Z) (st : est) (L : list (nat * nat)) : res est :=
  match L with [] => Ok st | (r, c) :: L => bind (pivot E p st (Z.of_nat r) (Z.of_nat c + 1) [] false false 0 []) (fun x => pivots E p (fst x) L) end.
Fixpoint choices (E : esc) (p : Z) (st : est) (L : list (nat * nat)) : Prop :=
  match L with
  | [] => True
  | (r, c) :: L => (r < length (erows st))%nat /\ nth r (epos st) 0 = -1 /\ In (Z.of_nat c + 1) (map fst (nth r (erows st) [])) /\
      forall x, pivot E p st (Z.of_nat r) (Z.of_nat c + 1) [] false false 0 [] = Ok x -> choices E p (fst x) L
  end.
Theorem C27_any_order xgcd E V p : emodular xgcd E V p -> prime p -> forall rows nc, (forall l, In l rows -> sparse p V nc l) ->
  exists st0, einit rows nc = Ok st0 /\ forall L, choices E p st0 L -> exists st, pivots E p st0 L = Ok st /\
    eqspan p nc (length rows) (entry rows) (length rows) (entry (erows st)) /\ erow st = map (fun x => Z.of_nat (fst x)) L /\ NoDup (map fst L) /\ NoDup (map snd L).
Proof.
  intros MO P rows nc W. pose proof (emodular_ok _ _ _ _ MO P) as M. pose proof (sparse_rows _ _ _ _ W) as W'. clear W. rename W' into W.
  destruct (einit_ok p V (length rows) nc (entry rows) rows eq_refl W (eqspan_refl _ _ _ _)) as (st & E0 & I0 & _). exists st. split; auto.
  assert (G : forall L pv st, inv p V (length rows) nc (entry rows) nc pv st -> choices E p st L -> exists st', pivots E p st L = Ok st' /\ inv p V (length rows) nc (entry rows) nc (pv ++ L) st').
  { clear st E0 I0. induction L as [|(r, c) L IH]; intros pv st I C; cbn [pivots choices] in *; [exists st; rewrite app_nil_r; auto|]. destruct C as (C1 & C2 & C3 & C4).
    pose proof (i_core _ _ _ _ _ _ _ _ I) as K. rewrite (k_nr _ _ _ _ _ _ _ K) in C1. assert (Lc : (c < nc)%nat) by (pose proof (key_range p V nc _ _ (k_row _ _ _ _ _ _ _ K r) C3); lia).
    assert (C2' : act st r). { exact C2. }
    destruct (pivot_ok E p V (length rows) nc (entry rows) M nc (fun _ => True) false false 0 pv st r c [] []) as (st1 & L1 & li & E1 & I1 & _); auto; try discriminate.
    { intros H. lia. }
    fold (ck c) in *. rewrite E1. cbn [bind fst]. destruct (IH (pv ++ [(r, c)]) st1 I1) as (st2 & E2 & I2); [apply (C4 _ E1)|]. exists st2. split; auto. rewrite <- app_assoc in I2. exact I2. }
  intros L C. destruct (G L [] st I0 C) as (st' & E1 & I1). exists st'. split; auto. pose proof (i_core _ _ _ _ _ _ _ _ I1) as K. cbn [app] in K. split; [exact (k_span _ _ _ _ _ _ _ K)|]. split; [apply K|]. split; apply K.
Qed.
Print Assumptions C27_any_order.
(** not true for entries that are not reduced: the reduction in smat_elim::init is commented
    out, and a single entry p counts as a pivot *)
Theorem C27_unreduced_refuted : exists p rows nc below rref, prime p /\ dense_rref p (fun x => Z.abs x < p) rref /\ rows = [[(1, p)]] /\
  sm_rank ec_int p below rref rows nc = Ok 1 /\ hasrank p nc (length rows) (entry rows) 0.
Proof.
  exists 97, [[(1, 97)]], 1%nat, (fun _ _ _ => true), (rref_of sc_int 97). split; [apply prime97|]. split.
  - apply (rref_of_ok sc_int sym32); [apply modok_int; [apply prime97|unfold max32; lia]|unfold sym32, max32; intros; lia|unfold cent; intros; lia].
  - split; auto. split; [vm_compute; reflexivity|]. exists (fun _ _ => 0). split; [|intros c _ i Hi; lia].
    intros v. split; intros (c & H); exists (fun _ => 0); intros j Hj; assert (j = 0)%nat as -> by lia; specialize (H 0%nat Hj); cbn [sumn length] in *.
    + eapply cong_trans; [exact H|]. exists (c 0%nat). cbn. ring.
    + eapply cong_trans; [exact H|]. apply cong_eq. ring.
Qed.
Print Assumptions C27_unreduced_refuted.
(** a matrix of rank 3 for which every part of the elimination has something to do: with the
    density below the limit, and with the dense elimination *)
Definition exrows : list smap := [[(1, 3); (2, 5); (5, -7)]; [(1, 2); (3, 4); (4, 9); (5, 1)]; [(1, 5); (2, 5); (3, 4); (4, 9); (5, -6)]; [(2, 1); (3, 1); (4, 1)]].
Example C27_ex :
  sm_kernel ec_int 97 (fun _ _ _ => true) (rref_of sc_int 97) exrows 5 = Ok ([[(1, -47); (2, 8)]; [(1, -1); (2, -1)]; [(1, 1)]; [(2, 1)]; [(1, -7); (2, -25)]], [1; 2; 5], [3; 4]) /\
  sm_rank ec_int 97 (fun _ _ _ => true) (rref_of sc_int 97) exrows 5 = Ok 3 /\
  sm_rank ec_long 97 (fun _ _ _ => false) (rref_of sc_long 97) exrows 5 = Ok 3 /\
  sm_rank (ec_z xgcd_example) 97 (fun _ _ _ => false) (rref_of (sc_z xgcd_example) 97) exrows 5 = Ok 3.
Proof. repeat split; vm_compute; reflexivity. Qed.
Example C27_nonvacuous : emodular xgcd_example ec_int (fun x => Z.abs x < 97) 97 /\ prime 97 /\ dense_rref 97 (fun x => Z.abs x < 97) (rref_of sc_int 97) /\ (forall l, In l exrows -> sparse 97 (fun x => Z.abs x < 97) 5 l) /\
  emodular xgcd_example (ec_z xgcd_example) (fun _ => True) 97 /\ dense_rref 97 (fun _ => True) (rref_of (sc_z xgcd_example) 97).
Proof.
  split; [left; repeat split; auto; unfold max32; lia|]. split; [apply prime97|]. split.
  - apply (rref_of_ok sc_int sym32); [apply modok_int; [apply prime97|unfold max32; lia]|unfold sym32, max32; intros; lia|unfold cent; intros; lia].
  - split.
    + intros l Hl. cbn in Hl. repeat (destruct Hl as [<-|Hl]; [split; [repeat constructor|intros k x Hx; cbn in Hx; repeat (destruct Hx as [Hx|Hx]; [injection Hx as <- <-; split; [lia|split; [lia|intros (q & Hq); lia]]|]); destruct Hx]|]). destruct Hl.
    + split; [right; right; repeat split; auto using xgcd_contract_met|]. apply (rref_of_ok (sc_z xgcd_example) (fun _ => True)); auto. apply modok_z; [exact xgcd_contract_met|apply prime97].
Qed.
Example C27_order_ex : exists st, einit exrows 5 = Ok st /\ choices ec_int 97 st [(1%nat, 2%nat); (0%nat, 4%nat)].
Proof.
  eexists. split; [vm_compute; reflexivity|]. cbn [choices]. split; [cbn; lia|]. split; [reflexivity|]. split; [cbn; auto|]. intros x Hx. vm_compute in Hx. injection Hx as <-.
  cbn [fst]. split; [cbn; lia|]. split; [reflexivity|]. split; [cbn; auto|]. auto.
Qed.
