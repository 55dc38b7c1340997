(** Sparse matrices: C26 *)
From Coq Require Import ZArith Znumtheory Lia List Bool Sorted.
From Verif Require Import Base ArithModel ArithProofs MArithModel LinModel LinSpec LinProofs LinElim LinKer LinAlg RatProofs
  SvecModel SvecSpec SvecProofs SvecOps SvecMod SvecMore SmatModel SmatProofs SmatOps SmatMat SmatArith SmatMore SmatModp SmatSpec SmatRun PropertiesMArith PropertiesLin.
Import ListNotations.
Open Scope Z_scope.

(** what the reading functions return for a matrix that should be d *)
Definition reads (m : smat) (d : dmat) : Prop :=
  snr m = dnr d /\ snc m = dnc d /\
  (forall i j, sm_elem m i j = Ok (if (0 <? i) && (i <=? Z.of_nat (dnr d)) && (0 <? j) && (j <=? Z.of_nat (dnc d)) then dent d (Z.to_nat (i - 1)) (Z.to_nat (j - 1)) else 0)) /\
  (exists a, sm_as_mat m = Ok a /\ nro a = dnr d /\ nco a = dnc d /\ full a /\ forall i j, (i < dnr d)%nat -> (j < dnc d)%nat -> dent (of_mat a) i j = dent d i j) /\
  (forall i, (i < dnr d)%nat -> exists v, sm_row m i = Ok v /\ sd v = Z.of_nat (dnc d) /\ forall j, (j < dnc d)%nat -> sv_elem v (Z.of_nat j + 1) = dent d i j).
Lemma rep_reads c m d : repd c m d -> reads m d.
Proof.
  intros R. split; [apply R|]. split; [apply R|]. split; [intros i j; apply (sm_elem_ok c), R|]. split.
  - destruct (sm_as_mat_ok _ _ _ _ _ R) as (a & E & (A1 & A2 & A3) & H). exists a. auto.
  - intros i Hi. destruct (sm_row_ok _ _ _ _ _ i R Hi) as (l & E & Hl). eexists; split; [exact E|]. split; [reflexivity|]. intros j Hj. destruct Hl as (_ & _ & _ & V). apply V, Hj.
Qed.
Definition same_d (d d' : dmat) : Prop := dnr d = dnr d' /\ forall i j, (i < dnr d)%nat -> (j < dnc d)%nat -> dent d i j = dent d' i j.
Lemma svrep_of v : svrep True (sv_of_vec v) (length v) (fun j => nth j v 0).
Proof. split; [reflexivity|apply lrow_of_list]. Qed.
(** the products with a vector or a dense matrix *)
Definition products (T : Prop) (S : scal) (m : smat) (d : dmat) : Prop :=
  (forall v, length v = dnc d -> oc T (sm_mul_vec S m v) (fun w => length w = dnr d /\ forall i, (i < dnr d)%nat -> nth i w 0 = sumn (dnc d) (fun k => dent d i k * nth k v 0))) /\
  (forall v, length v = dnc d -> oc T (sm_mul_svec S m (sv_of_vec v)) (fun w => sd w = Z.of_nat (dnr d) /\ forall i, (i < dnr d)%nat -> sv_elem w (Z.of_nat i + 1) = sumn (dnc d) (fun k => dent d i k * nth k v 0))) /\
  (forall v, length v = dnr d -> oc T (svec_mul S (sv_of_vec v) m) (fun w => sd w = Z.of_nat (dnc d) /\ forall j, (j < dnc d)%nat -> sv_elem w (Z.of_nat j + 1) = sumn (dnr d) (fun k => nth k v 0 * dent d k j))) /\
  (forall b, full b -> nro b = dnc d -> oc T (sm_mul_mat S m b) (fun r => nro r = dnr d /\ nco r = nco b /\ full r /\ forall i j, (i < dnr d)%nat -> (j < nco b)%nat -> dent (of_mat r) i j = sumn (dnc d) (fun k => dent d i k * dent (of_mat b) k j))).
Lemma rep_products S (X : exact S) c m d : repd c m d -> products (total S) S m d.
Proof.
  intros R. split; [|split; [|split]].
  - intros v L. apply (sm_mul_vec_ok S X c); auto.
  - intros v L. eapply oc_impl; [apply (sm_mul_svec_ok S X c True _ _ _ _ _ (fun j => nth j v 0) R); rewrite <- L; apply svrep_of|]. intros w (W1 & W2). split; auto. apply W2.
  - intros v L. eapply oc_impl; [apply (svec_mul_ok S X c True _ _ _ _ _ (fun j => nth j v 0) R); [rewrite <- L; apply svrep_of|exact Logic.I]|]. intros w (W1 & W2). split; auto. apply W2.
  - intros b F E. eapply oc_impl; [apply (sm_mul_mat_ok S X c _ _ _ _ b (nco b) R); split; [exact E|]; split; [reflexivity|exact F]|]. intros r ((R1 & R2 & R3) & H). auto.
Qed.

(** * every history of exact operations on int, long or bigint matrices that succeeds
    (nothing overflowed) gives the dense history, for all readings and products; and
    == decides equality unless zeros were stored by scalar_matrix(n,0) or *=0 *)
Theorem C26_histories_partial xgcd S : three_types xgcd S -> forall p os st, mlegals dmstore0 os -> smrun S p os mstore0 = Ok st ->
  forall r, let d := dmrun os dmstore0 in reads (st r) (d r) /\ products False S (st r) (d r) /\
  (Forall mnozero os -> forall s, dnc (d r) = dnc (d s) -> exists b, sm_eqb (st r) (st s) = Ok b /\ (b = true <-> same_d (d r) (d s))).
Proof.
  intros T p os st L H r d. pose proof (three_exact _ _ T) as X. pose proof (oc_inv _ _ _ _ (smrun_exact S X p os True _ _ (magree0 True) L) H) as A. split; [eapply rep_reads, A|]. split.
  - assert (W : forall B (x : res B) P, oc (total S) x P -> oc False x P) by (intros B [] P Q; cbn [oc] in *; auto). destruct (rep_products S X _ _ _ (A r)) as (P1 & P2 & P3 & P4). unfold products. auto 10.
  - intros F s E. pose proof (A r) as Ar. pose proof (A s) as As. unfold repd in Ar, As. fold d in Ar, As. rewrite <- E in As. apply (sm_eqb_ok _ _ _ _ _ _ _ _ _ Ar As); auto.
Qed.
Print Assumptions C26_histories_partial.
(** bigint: all these histories and products are defined (in particular no write leaves a row's arrays) *)
Theorem C26_histories_total xgcd : forall p os, mlegals dmstore0 os -> exists st, smrun (sc_z xgcd) p os mstore0 = Ok st /\ forall r, products True (sc_z xgcd) (st r) (dmrun os dmstore0 r).
Proof.
  intros p os L. destruct (oc_tot _ _ _ (smrun_exact _ (exact_z xgcd) p os True _ _ (magree0 True) L) (total_z xgcd)) as (st & E & A). exists st. split; auto. intros r.
  assert (W : forall B (x : res B) P, oc (total (sc_z xgcd)) x P -> oc True x P) by (intros B [] P Q; cbn [oc] in *; auto; intros _; apply Q, total_z).
  destruct (rep_products _ (exact_z xgcd) _ _ _ (A r)) as (P1 & P2 & P3 & P4). unfold products. auto 10.
Qed.
Print Assumptions C26_histories_total.
Definition ex_mos : list mop :=
  [MOfMat 0 (Mt 2 3 [1; 0; -2; 0; 5; 7]); MNew 1 2 3; MSetRow 1 0 [4; 0; 2]; MSetRowArr 1 1 [(1, 9); (3, 0)]; MPlus 0 1; MMinus 1 0; MScale 1 3; MAddS 0 (-5); MTrans 2 0; MMul 3 2 1; MSubS 3 1;
   MSelect 4 3 [2; 0; 2]%nat; MAssign 5 4; MScalar 6 3 2; MPlus 6 3; MDiv 6 1; MMul 4 4 6; MPlus 4 0; MAssign 4 4].
Example C26_histories_ex : mlegals dmstore0 ex_mos /\ Forall mnozero ex_mos /\ three_types xgcd_example sc_int /\
  match smrun sc_int 0 ex_mos mstore0 with Ok st => map (fun r => match sm_as_mat (st r) with Ok a => ents a | _ => [] end) [0; 1; 3; 5; 6]%nat | _ => [] end
  = [[0; 0; 0; 9; 0; 7]; [-3; 0; 6; 0; -15; -21]; [-1; -135; -189; 0; -1; 0; 0; -105; -148]; [0; -105; -148; -1; -135; -189; 0; -105; -148]; [1; -135; -189; 0; 1; 0; 0; -105; -146]].
Proof.
  split; [cbn [ex_mos mlegals mlegal]; repeat (split; [cbn; repeat first [exact Logic.I | reflexivity | lia | apply Forall_cons | apply Forall_nil | split | intros]|]); try exact Logic.I|].
  all: try (exists (dent (dmrun (firstn 15 ex_mos) dmstore0 6%nat) i j); cbn; lia).
  split; [unfold ex_mos; repeat (apply Forall_cons; [first [exact Logic.I | cbn [mnozero]; lia]|]); apply Forall_nil|].
  split; [left; reflexivity|]. vm_compute. reflexivity.
Qed.

(** * histories modulo a prime: defined, congruent to the dense history with entries
    smaller than p; the modular products; eqmodp decides congruence *)
Definition reads_mod (p : Z) (m : smat) (d : dmat) : Prop := exists d', reads m d' /\ dnr d' = dnr d /\ dnc d' = dnc d /\
  forall i j, (i < dnr d)%nat -> (j < dnc d)%nat -> cong p (dent d' i j) (dent d i j) /\ Z.abs (dent d' i j) < p.
Definition smallv (p : Z) (v : list Z) : Prop := forall i, Z.abs (nth i v 0) < p.
Definition products_mod (S : scal) (p : Z) (m : smat) (d : dmat) : Prop :=
  (forall v, length v = dnc d -> smallv p v -> exists w, sm_mulmod_vec S m v p = Ok w /\ length w = dnr d /\ forall i, (i < dnr d)%nat -> cent p (nth i w 0) /\ cong p (nth i w 0) (sumn (dnc d) (fun k => dent d i k * nth k v 0))) /\
  (forall v, length v = dnc d -> smallv p v -> exists w, sm_mulmod_svec S m (sv_of_vec v) p = Ok w /\ sd w = Z.of_nat (dnr d) /\ forall i, (i < dnr d)%nat -> cong p (sv_elem w (Z.of_nat i + 1)) (sumn (dnc d) (fun k => dent d i k * nth k v 0))) /\
  (forall v, length v = dnr d -> smallv p v -> exists w, svec_mulmod S (sv_of_vec v) m p = Ok w /\ sd w = Z.of_nat (dnc d) /\ forall j, (j < dnc d)%nat -> cong p (sv_elem w (Z.of_nat j + 1)) (sumn (dnr d) (fun k => nth k v 0 * dent d k j))).
Lemma svrepp_of p v : smallv p v -> svrepp p (sv_of_vec v) (length v) (fun j => nth j v 0).
Proof. intros H. exists (fun j => nth j v 0). split; [apply svrep_of|]. intros j _. split; [apply cong_refl|apply H]. Qed.
Lemma svrepp_elem p w n f j : svrepp p w n f -> (j < n)%nat -> cong p (sv_elem w (Z.of_nat j + 1)) (f j).
Proof. intros (g & (_ & (_ & _ & _ & V)) & H) Hj. change (sv_elem w (Z.of_nat j + 1)) with (mval (sents w) (Z.of_nat j + 1)). rewrite V by auto. apply H, Hj. Qed.
Lemma svrepp_dim p w n f : svrepp p w n f -> sd w = Z.of_nat n.
Proof. intros (g & (H & _) & _). exact H. Qed.
Theorem C26_histories_mod_partial xgcd S D p : modular xgcd S D p -> prime p -> forall os, mlegalsp D p dmstore0 os -> exists st, smrun S p os mstore0 = Ok st /\
  forall r, let d := dmrun os dmstore0 in reads_mod p (st r) (d r) /\ products_mod S p (st r) (d r) /\
  (forall s, dnc (d r) = dnc (d s) -> exists b, sm_eqmodp S (st r) (st s) p = Ok b /\
     (b = true <-> dnr (d r) = dnr (d s) /\ forall i j, (i < dnr (d r))%nat -> (j < dnc (d r))%nat -> cong p (dent (d r) i j) (dent (d s) i j))).
Proof.
  intros MO P os L. pose proof (modular_ok _ _ _ _ MO P) as M. destruct (smrun_mod S D p M os _ _ (magreep0 S D p M) L) as (st & E & A). exists st. split; auto. intros r d. refine (conj _ (conj (conj _ (conj _ _)) _)).
  - destruct (A r) as (e & R & H). exists (Dm (dnr (d r)) (dnc (d r)) e). split; [apply (rep_reads True), R|]. auto.
  - intros v Lv Hv. apply (sm_mulmod_vec_ok S D p M _ _ _ _ v (A r) Lv). intros; apply Hv.
  - intros v Lv Hv. pose proof (svrepp_of p v Hv) as V. rewrite Lv in V. destruct (sm_mulmod_svec_ok S D p M _ _ _ _ _ _ (A r) V) as (w & Ew & W). exists w. split; auto. split; [apply (svrepp_dim _ _ _ _ W)|]. intros i Hi. apply (svrepp_elem _ _ _ _ i W Hi).
  - intros v Lv Hv. pose proof (svrepp_of p v Hv) as V. rewrite Lv in V. destruct (svec_mulmod_ok S D p M _ _ _ _ _ _ (A r) V) as (w & Ew & W). exists w. split; auto. split; [apply (svrepp_dim _ _ _ _ W)|]. intros i Hi. apply (svrepp_elem _ _ _ _ i W Hi).
  - intros s Ec. pose proof (A r) as Ar. pose proof (A s) as As. unfold reppd in Ar, As. fold d in Ar, As. rewrite <- Ec in As. apply (sm_eqmodp_ok S D p M _ _ _ _ _ _ _ Ar As).
Qed.
Print Assumptions C26_histories_mod_partial.
Definition ex_mosp : list mop := [MLoad 0 (Mt 2 2 [1000; 97; -300; 5]); MSubMod 0 7; MScaleMod 0 60; MTrans 1 0; MMulMod 2 0 1; MSetRow 1 1 [96; 0]; MSetRowArr 1 0 [(2, -50)]; MReduce 1; MScalar 3 2 9; MMulMod 3 3 1; MSelect 4 2 [1; 1; 0]%nat].
Example C26_histories_mod_ex : modular xgcd_example sc_int sym32 97 /\ prime 97 /\ mlegalsp sym32 97 dmstore0 ex_mosp /\
  match smrun sc_int 97 ex_mosp mstore0 with Ok st => map (fun r => match sm_as_mat (st r) with Ok a => ents a | _ => [] end) [0; 1; 2; 3; 4]%nat | _ => [] end
  = [[22; 0; -55; -23]; [0; 47; -1; 0]; [-1; -46; -46; -35]; [0; 35; -9; 0]; [-46; -35; -46; -35; -1; -46]].
Proof.
  split; [left; split; [reflexivity|]; split; [reflexivity|]; unfold max32; lia|]. split; [exact prime97|]. split; [|vm_compute; reflexivity].
  cbn [ex_mosp mlegalsp mlegalp]. unfold sym32, max32.
  repeat match goal with
  | |- _ /\ _ => split | |- True => exact Logic.I | |- Forall _ _ => constructor | |- forall _, _ => intros i | |- ~ _ => intros (k & Hk); lia
  | |- full _ => reflexivity | |- context [nth ?i] => do 4 (destruct i as [|i]; [cbn; lia|]); destruct i; cbn; lia | |- _ => cbn; lia
  end.
Qed.

(** * what does not hold *)
(** setrow(i,vec) writes one position past the end whenever it reallocates for a non-zero row *)
Lemma wr_over po vo l : forall r, (1 <= length l)%nat -> (length (pm r) < po + length l)%nat -> (forall r', wr po vo l r <> Ok r').
Proof.
  revert po vo. induction l as [|(k, x) l IH]; intros po vo r L H r' E; cbn [length wr] in *; [lia|].
  apply bind_ok in E. destruct E as (p1 & E1 & E). apply bind_ok in E. destruct E as (v1 & E2 & E). pose proof (put_inv None _ _ _ _ E1) as Q. cbn [length] in Q. destruct Q as (Q1 & Q2 & _).
  destruct l as [|q l]; [cbn [length] in *; lia|]. apply (IH _ _ (Rw p1 v1)) in E; auto; cbn [length pm] in *; lia.
Qed.
Theorem C26_setrow_vec_refuted : forall nr nc i v, (i < nr)%nat -> length v = nc -> (exists j, nth j v 0 <> 0) -> forall m, sm_setrow_vec (sm_new nr nc) i v <> Ok m.
Proof.
  intros nr nc i v Hi Lv (j & Hj) m H. unfold sm_setrow_vec in H. destruct (rep_row True (sm_new nr nc) nr nc _ i (rep_new nr nc True) Hi) as (l & E1 & E2 & _). rewrite E1, bind_Ok in H. cbn [sm_new srows] in H. rewrite nth_repeat in H.
  unfold rsetvec in H. assert (L1 : (1 <= length (of_list 1 v))%nat).
  { destruct (lrow_of_list True v) as (_ & _ & _ & V). destruct (Nat.lt_ge_cases j (length v)) as [Hl|Hl]; [|rewrite nth_overflow in Hj by auto; congruence]. specialize (V j Hl). destruct (of_list 1 v); [cbn in V; congruence|cbn [length]; lia]. }
  change (rcount row0) with (@Ok Z 0) in H. rewrite bind_Ok in H. destruct (Z.eqb_spec 0 (Z.of_nat (length (of_list 1 v)))); [lia|].
  apply bind_ok in H. destruct H as (r & H & _). apply bind_ok in H. destruct H as (r0 & H0 & H). unfold rset0 in H0. apply bind_ok in H0. destruct H0 as (m0 & H0 & [= <-]). pose proof (put_inv None _ _ _ _ H0) as Q. unfold fresh in Q. cbn [pm] in Q. rewrite repeat_length in Q. destruct Q as (_ & Q & _).
  eapply wr_over; [exact L1| |exact H]. cbn [pm]. lia.
Qed.
Print Assumptions C26_setrow_vec_refuted.
Example C26_setrow_vec_ex : sm_setrow_vec (sm_new 1 2) 0 [0; 5] = UB /\ sm_setrow (sm_new 1 2) 0 (sv_of_vec [0; 5]) = Ok (Sm 2 [Rw [Some 1; Some 2] [Some 5]]).
Proof. split; reflexivity. Qed.
(** += and -= only compare the numbers of rows; += scalar assumes no more rows than columns:
    the result cannot be converted without writing outside the dense matrix *)
Theorem C26_columns_refuted xgcd S : three_types xgcd S -> exists os st r, smrun S 0 os mstore0 = Ok st /\ os = [MNew 0 1 1; MOfMat 1 (Mt 1 2 [0; 5]); MPlus 0 1] /\ snc (st r) = 1%nat /\ sm_as_mat (st r) = UB.
Proof. intros T. exists [MNew 0 1 1; MOfMat 1 (Mt 1 2 [0; 5]); MPlus 0 1]. destruct T as [->|[->| ->]]; eexists; exists 0%nat; (split; [reflexivity|]); repeat split; reflexivity. Qed.
Print Assumptions C26_columns_refuted.
Theorem C26_diagonal_refuted xgcd S : three_types xgcd S -> exists st, smrun S 0 [MNew 0 2 1; MAddS 0 3] mstore0 = Ok st /\ sm_as_mat (st 0%nat) = UB.
Proof. intros T. destruct T as [->|[->| ->]]; eexists; (split; [reflexivity|]); reflexivity. Qed.
Print Assumptions C26_diagonal_refuted.
(** == ignores the number of columns, and sees stored zeros *)
Theorem C26_equality_refuted : exists os st, smrun sc_int 0 os mstore0 = Ok st /\ mlegals dmstore0 os /\
  (sm_eqb (st 0%nat) (st 1%nat) = Ok true /\ dnc (dmrun os dmstore0 0%nat) <> dnc (dmrun os dmstore0 1%nat)) /\
  (sm_eqb (st 0%nat) (st 2%nat) = Ok false /\ dnc (dmrun os dmstore0 0%nat) = dnc (dmrun os dmstore0 2%nat) /\ same_d (dmrun os dmstore0 0%nat) (dmrun os dmstore0 2%nat)).
Proof.
  exists [MNew 0 1 1; MNew 1 1 2; MScalar 2 1 0]. eexists. split; [reflexivity|]. split; [cbn; auto|]. split; [split; [reflexivity|cbn; lia]|]. split; [reflexivity|]. split; [reflexivity|]. split; [reflexivity|].
  intros [|i] [|j] Hi Hj; cbn in *; try lia; reflexivity.
Qed.
Print Assumptions C26_equality_refuted.
