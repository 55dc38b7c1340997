(** Proofs about SmatModel, seventh part: histories. *)
From Coq Require Import ZArith Znumtheory Lia List Bool Sorted.
From Verif Require Import Base LinModel LinSpec LinProofs LinAlg LinElim LinKer SvecModel SvecSpec SvecProofs SvecOps SvecMod SvecMore SmatModel SmatProofs SmatOps SmatMat SmatArith SmatMore SmatModp SmatSpec.
Import ListNotations.
Open Scope Z_scope.
Open Scope res_scope.

Definition repd (c : Prop) (m : smat) (d : dmat) : Prop := rep c m (dnr d) (dnc d) (dent d).
Definition magree (c : Prop) (st : mstore) (d : dmstore) : Prop := forall r, repd c (st r) (d r).
Lemma magree_put (c : Prop) st d r m dm : magree c st d -> repd c m dm -> magree c (smput st r m) (dmput d r dm).
Proof. intros A H x. unfold smput, dmput. destruct (_ =? _)%nat; auto. Qed.
Lemma magree_weak (c c' : Prop) st d : magree c st d -> (c' -> c) -> magree c' st d.
Proof. intros A H r. eapply rep_ext; [apply (A r)|auto|auto]. Qed.
Lemma magree0 c : magree c mstore0 dmstore0.
Proof. intros r. apply rep_new. Qed.
Lemma listed_mval l j : listed l j = mval l j.
Proof. induction l as [|(k, x) l IH]; [reflexivity|]. cbn [listed]. rewrite mval_cons, IH. reflexivity. Qed.
Lemma increasing_lrow lo n l : increasing lo (Z.of_nat n) l -> 1 <= lo -> msorted l /\ forall k x, In (k, x) l -> lo <= k <= Z.of_nat n.
Proof.
  revert lo. induction l as [|(k, x) l IH]; intros lo H L; cbn [increasing] in H.
  - split; [constructor|intros ? ? []].
  - destruct H as (H1 & H2). destruct (IH (k + 1) H2 ltac:(lia)) as (I1 & I2). split.
    + apply msorted_cons. split; auto. intros k' y Hy. apply I2 in Hy. lia.
    + intros k' y Hy. apply in_inv in Hy. destruct Hy as [[= E1 E2]|Hy]; [lia|apply I2 in Hy; lia].
Qed.
Lemma lrow_listed n l : increasing 1 (Z.of_nat n) l -> lrow False n (fun j => listed l (Z.of_nat j + 1)) l.
Proof.
  intros H. destruct (increasing_lrow _ _ _ H ltac:(lia)) as (A & B). split; auto. split; [exact B|]. split; [contradiction|]. intros j Hj. rewrite listed_mval. reflexivity.
Qed.
Section Exact.
Variable S : scal.
Hypothesis X : exact S.
Let T := total S.
Lemma store_ok (c c' : Prop) st d r x dm : magree c st d -> oc T x (fun m => repd c' m dm) -> oc T (bind x (fun m => bind (sm_assign false (st r) m) (fun m => Ok (smput st r m)))) (fun st' => magree (c /\ c') st' (dmput d r dm)).
Proof.
  intros A H. eapply oc_bind; [exact H|]. intros m Hm. destruct (sm_assign_ok c' c false (st r) m _ _ _ _ _ _ (A r) Hm ltac:(discriminate)) as (m' & -> & R). rewrite bind_Ok. cbn [oc]. apply magree_put; [apply magree_weak with c; [exact A|tauto]|]. eapply rep_ext; [exact R|auto|tauto].
Qed.
Lemma keep_ok (c c' : Prop) st d r x dm : magree c st d -> oc T x (fun m => repd c' m dm) -> oc T (bind x (fun m => Ok (smput st r m))) (fun st' => magree (c /\ c') st' (dmput d r dm)).
Proof.
  intros A H. eapply oc_bind; [exact H|]. intros m Hm. cbn [oc]. apply magree_put; [apply magree_weak with c; [exact A|tauto]|]. eapply rep_ext; [exact Hm|auto|tauto].
Qed.
Lemma mstep_exact (c : Prop) p st d o : magree c st d -> mlegal d o -> oc T (mstep S p st o) (fun st' => magree (c /\ mnozero o) st' (dmstep d o)).
Proof.
  intros A L. assert (W : forall c' P (x : res mstore), oc T x (fun st' => magree (c /\ c') st' P) -> (c /\ mnozero o -> c') -> oc T x (fun st' => magree (c /\ mnozero o) st' P)).
  { intros c' P x H F. eapply oc_impl; [exact H|]. intros a Ha. eapply magree_weak; [exact Ha|tauto]. }
  destruct o; cbn [mlegal] in L; try contradiction; cbn [mstep dmstep].
  - apply (W True); [|auto]. apply store_ok; auto. apply rep_new.
  - apply (W (a <> 0)); [|cbn [mnozero]; tauto]. apply store_ok; auto. apply oc_of. apply sm_scalar_ok.
  - apply (W True); [|auto]. apply store_ok; auto. apply oc_of. apply (sm_of_mat_ok True m). split; [reflexivity|]. split; [reflexivity|exact L].
  - destruct (sm_assign_ok c c (r =? s)%nat (st r) (st s) _ _ _ _ _ _ (A r) (A s)) as (m' & -> & R); [intros E; apply Nat.eqb_eq in E; subst; reflexivity|]. rewrite bind_Ok. cbn [oc]. eapply magree_weak; [apply magree_put; [exact A|exact R]|tauto].
  - apply (W c); [|tauto]. apply keep_ok; auto. unfold zip_d. pose proof (A r) as Ar. pose proof (A s) as As. unfold repd in Ar, As. destruct (Nat.eqb_spec (dnr (d r)) (dnr (d s))) as [E|E].
    + rewrite <- E, <- (L E) in As. eapply oc_impl; [apply (sm_plus_ok S X); [exact Ar|exact As]|]. intros m Hm. eapply rep_ext; [exact Hm|reflexivity|tauto].
    + destruct (sm_plus_dims S (st r) (st s)) as (-> & _); [unfold snr; rewrite (proj1 (proj2 Ar)), (proj1 (proj2 As)); exact E|exact Ar].
  - apply (W c); [|tauto]. apply keep_ok; auto. unfold zip_d. pose proof (A r) as Ar. pose proof (A s) as As. unfold repd in Ar, As. destruct (Nat.eqb_spec (dnr (d r)) (dnr (d s))) as [E|E].
    + rewrite <- E, <- (L E) in As. eapply oc_impl; [apply (sm_minus_ok S X); [exact Ar|exact As]|]. intros m Hm. eapply rep_ext; [exact Hm|reflexivity|tauto].
    + destruct (sm_plus_dims S (st r) (st s)) as (_ & ->); [unfold snr; rewrite (proj1 (proj2 Ar)), (proj1 (proj2 As)); exact E|exact Ar].
  - apply (W c); [|tauto]. apply keep_ok; auto. apply (sm_adds_ok S X); [apply A|exact L].
  - apply (W c); [|tauto]. apply keep_ok; auto. apply (sm_subs_ok S X); [apply A|exact L].
  - apply (W (c /\ a <> 0)); [|cbn [mnozero]; tauto]. apply keep_ok; auto. apply (sm_scale_ok S X). apply A.
  - apply (W c); [|tauto]. apply keep_ok; auto. destruct L as (L1 & L2). eapply oc_impl; [apply (sm_div_ok S X); [apply A|exact L1|exact L2]|]. intros m (q & R & Hq). eapply rep_ext; [exact R| |auto].
    intros i j Hi Hj. cbn [map_d dent]. rewrite <- (Hq i j Hi Hj), Z.mul_comm, Z.div_mul by auto. reflexivity.
  - apply (W c); [|tauto]. apply keep_ok; auto. destruct L as (L1 & L2). apply oc_of. destruct (sm_setrow_ok c (st r) _ _ _ i (fun j => nth j v 0) (sv_of_vec v) (A r) L1) as (m' & -> & R); [cbn [sv_of_vec sents]; rewrite <- L2; apply lrow_of_list|]. eexists; split; [reflexivity|exact R].
  - apply (W c); [|tauto]. apply keep_ok; auto. destruct L as (L1 & L2). apply oc_of. destruct (sm_set_row_ok c (st r) _ _ _ i (fun j => listed l (Z.of_nat j + 1)) l (A r) L1 (lrow_listed _ _ L2)) as (m' & -> & R). eexists; split; [reflexivity|exact R].
  - apply (W True); [|auto]. apply store_ok; auto. apply oc_of. apply (sm_select_ok c (st s) _ _ _ rs (A s) L).
  - apply (W c); [|tauto]. apply store_ok; auto. apply oc_of. apply (sm_transpose_ok c). apply A.
  - apply (W True); [|auto]. apply store_ok; auto. pose proof (A s) as As. pose proof (A t) as At. unfold repd in As, At. rewrite <- L in At. apply (sm_mul_ok S X c c _ _ _ _ _ _ _ As At).
Qed.
Lemma smrun_exact p os : forall (c : Prop) st d, magree c st d -> mlegals d os -> oc T (smrun S p os st) (fun st' => magree (c /\ Forall mnozero os) st' (dmrun os d)).
Proof.
  induction os as [|o os IH]; intros c st d A L; unfold smrun; cbn [mfold].
  - cbn [oc]. apply magree_weak with c; [exact A|tauto].
  - destruct L as (L1 & L2). eapply oc_bind; [apply mstep_exact; [exact A|exact L1]|]. intros st' A'. eapply oc_impl; [apply (IH _ _ _ A' L2)|]. intros a Ha. eapply magree_weak; [exact Ha|]. intros (H1 & H2). inversion H2; subst; tauto.
Qed.
End Exact.

Section Mod.
Variables (S : scal) (D : Z -> Prop) (p : Z).
Hypothesis M : modok S D p.
Definition reppd (m : smat) (d : dmat) : Prop := repp p m (dnr d) (dnc d) (dent d).
Definition magreep (st : mstore) (d : dmstore) : Prop := forall r, reppd (st r) (d r).
Lemma magreep_put st d r m dm : magreep st d -> reppd m dm -> magreep (smput st r m) (dmput d r dm).
Proof. intros A H x. unfold smput, dmput. destruct (_ =? _)%nat; auto. Qed.
Lemma repp_of m nr nc e : rep True m nr nc e -> (forall i j, (i < nr)%nat -> (j < nc)%nat -> Z.abs (e i j) < p) -> repp p m nr nc e.
Proof. intros R H. exists e. split; auto. intros i j Hi Hj. split; [apply cong_refl|auto]. Qed.
Lemma magreep0 : magreep mstore0 dmstore0.
Proof. intros r. apply repp_of; [apply rep_new|]. intros. pose proof (p_pos _ _ _ M). cbn. lia. Qed.
Lemma store_mod st d r x dm : magreep st d -> (exists m, x = Ok m /\ reppd m dm) -> exists st', bind x (fun m => bind (sm_assign false (st r) m) (fun m => Ok (smput st r m))) = Ok st' /\ magreep st' (dmput d r dm).
Proof.
  intros A (m & -> & (e & R & H)). rewrite bind_Ok. destruct (A r) as (e1 & R1 & _). destruct (sm_assign_ok _ _ false (st r) m _ _ _ _ _ _ R1 R ltac:(discriminate)) as (m' & -> & R'). rewrite bind_Ok.
  eexists; split; [reflexivity|]. apply magreep_put; auto. exists e. auto.
Qed.
Lemma keep_mod st d r x dm : magreep st d -> (exists m, x = Ok m /\ reppd m dm) -> exists st', bind x (fun m => Ok (smput st r m)) = Ok st' /\ magreep st' (dmput d r dm).
Proof. intros A (m & -> & R). rewrite bind_Ok. eexists; split; [reflexivity|]. apply magreep_put; auto. Qed.
Lemma setrow_repp m nr nc e i f m' : repp p m nr nc e -> (forall j, (j < nc)%nat -> Z.abs (f j) < p) -> (forall e', rep True m nr nc e' -> rep True m' nr nc (fun a b => if (a =? i)%nat then f b else e' a b)) -> repp p m' nr nc (fun a b => if (a =? i)%nat then f b else e a b).
Proof.
  intros (e' & R & H) Hf F. exists (fun a b => if (a =? i)%nat then f b else e' a b). split; auto. intros a b Ha Hb. destruct (_ =? _)%nat; [split; [apply cong_refl|auto]|auto].
Qed.
Lemma mstep_mod st d o : magreep st d -> mlegalp D p d o -> exists st', mstep S p st o = Ok st' /\ magreep st' (dmstep d o).
Proof.
  intros A L. pose proof (p_pos _ _ _ M) as Pp. destruct o; cbn [mlegalp] in L; try contradiction; cbn [mstep dmstep].
  - apply store_mod; auto. eexists; split; [reflexivity|]. apply repp_of; [apply rep_new|intros; cbn; lia].
  - apply store_mod; auto. destruct (sm_scalar_ok n a) as (m & -> & R). eexists; split; [reflexivity|]. apply repp_of; [eapply rep_ext; [exact R|reflexivity|tauto]|]. intros i j _ _. cbn [dent]. unfold diag. destruct (_ =? _)%nat; lia.
  - apply store_mod; auto. destruct L as (L1 & L2). destruct (sm_of_mat_ok True m (nro m) (nco m)) as (m' & -> & R); [split; [reflexivity|]; split; [reflexivity|exact L1]|]. eexists; split; [reflexivity|]. apply repp_of; [exact R|]. intros; apply L2.
  - destruct (A r) as (e1 & R1 & _). destruct (A s) as (e2 & R2 & H2). destruct (sm_assign_ok _ _ (r =? s)%nat (st r) (st s) _ _ _ _ _ _ R1 R2) as (m' & -> & R); [intros E; apply Nat.eqb_eq in E; subst; reflexivity|]. rewrite bind_Ok. eexists; split; [reflexivity|]. apply magreep_put; auto. exists e2. auto.
  - apply keep_mod; auto. destruct L as (L1 & L2 & L3). destruct (A r) as (e1 & R1 & H1). destruct (sm_setrow_ok True (st r) _ _ _ i (fun j => nth j v 0) (sv_of_vec v) R1 L1) as (m' & -> & R'); [cbn [sv_of_vec sents]; rewrite <- L2; apply lrow_of_list|].
    eexists; split; [reflexivity|]. exists (fun a b => if (a =? i)%nat then nth b v 0 else e1 a b). split; [exact R'|]. intros a b Ha Hb. cbn [setrow_d dent]. destruct (_ =? _)%nat; [split; [apply cong_refl|apply L3]|apply H1; auto].
  - apply keep_mod; auto. destruct L as (L1 & L2 & L3). destruct (A r) as (e1 & R1 & H1). destruct (sm_set_row_ok True (st r) _ _ _ i (fun j => listed l (Z.of_nat j + 1)) l R1 L1 (lrow_listed _ _ L2)) as (m' & -> & R').
    eexists; split; [reflexivity|]. exists (fun a b => if (a =? i)%nat then listed l (Z.of_nat b + 1) else e1 a b). split; [exact R'|]. intros a b Ha Hb. cbn [setrow_d dent]. destruct (_ =? _)%nat; [split; [apply cong_refl|]|apply H1; auto].
    clear - L3 Pp. induction l as [|(k, x) l IH]; cbn [listed]; [lia|]. inversion L3; subst. destruct (_ =? _); auto.
  - apply store_mod; auto. destruct (A s) as (e2 & R2 & H2). destruct (sm_select_ok True (st s) _ _ _ rs R2 L) as (m' & -> & R'). eexists; split; [reflexivity|]. exists (fun i j => e2 (nth i rs 0%nat) j). split; [exact R'|].
    intros i j Hi Hj. cbn [dnr dnc dent] in *. apply H2; auto. rewrite Forall_forall in L. apply L, nth_In, Hi.
  - apply store_mod; auto. destruct (A s) as (e2 & R2 & H2). destruct (sm_transpose_ok True (st s) _ _ _ R2) as (m' & -> & R'). eexists; split; [reflexivity|]. exists (fun i j => e2 j i). split; [exact R'|]. intros i j Hi Hj. apply H2; auto.
  - apply store_mod; auto. destruct L as (L1 & L2). destruct (sm_of_mat_ok True m (nro m) (nco m)) as (m' & -> & R); [split; [reflexivity|]; split; [reflexivity|exact L1]|]. rewrite bind_Ok. apply (sm_reduce_ok S D p M _ _ _ _ _ R). intros i j Hi Hj. apply L2.
  - destruct (A r) as (e1 & R1 & H1). destruct (sm_reduce_ok S D p M _ _ _ _ _ R1) as (m' & -> & (e2 & R2 & H2)); [intros i j Hi Hj; apply (mo_D _ _ _ M); destruct (H1 i j Hi Hj); lia|]. rewrite bind_Ok. eexists; split; [reflexivity|].
    intros x. unfold smput. destruct (Nat.eqb_spec x r) as [->|]; [|apply A]. exists e2. split; auto. intros i j Hi Hj. destruct (H2 i j Hi Hj) as (Q1 & Q2). split; auto. eapply cong_trans; [exact Q1|apply H1; auto].
  - apply keep_mod; auto. destruct L as (L1 & L2). apply (sm_submod_ok S D p M _ _ _ _ _ (A r) L2 L1).
  - apply keep_mod; auto. destruct L as (L1 & L2). apply (sm_scalemod_ok S D p M _ _ _ _ _ (A r) L1 L2).
  - apply store_mod; auto. pose proof (A s) as As. pose proof (A t) as At. unfold reppd in As, At. rewrite <- L in At. apply (sm_mulmod_ok S D p M _ _ _ _ _ _ _ As At).
Qed.
Lemma smrun_mod os : forall st d, magreep st d -> mlegalsp D p d os -> exists st', smrun S p os st = Ok st' /\ magreep st' (dmrun os d).
Proof.
  induction os as [|o os IH]; intros st d A L; unfold smrun; cbn [mfold]; [eauto|].
  destruct L as (L1 & L2). destruct (mstep_mod st d o A L1) as (st' & -> & A'). rewrite bind_Ok. apply (IH st' _ A' L2).
Qed.
End Mod.
