(** Fraction-free elimination, rational kernels, rank, characteristic polynomial: C21, C22 *)
From Coq Require Import ZArith Znumtheory Lia List Bool Sorted Permutation.
From Verif Require Import Base LinModel LinSpec LinProofs LinElim LinKer LinAlg Bareiss CharPoly EchModel EchProofs EchBack EchKer EchRef EchChar.
Import ListNotations.
Open Scope Z_scope.

(** what echelon() should return for m *)
Definition ech_spec (m R : mat) (pc npc : list nat) (d : Z) : Prop :=
  nro R = length pc /\ nco R = nco m /\ (length pc <= nro m)%nat /\ splits (nco m) pc npc /\
  rrefq (nco m) (length pc) (me R) pc d /\ eqq (nco m) (nro m) (me m) (length pc) (me R).
(** * C21: echelon form.  The scalars sc_x divide only when the quotient is exact; with them
    the result is the same, so every division made is exact. *)
Theorem C21_echelon_bigint xgcd m : wfm m ->
  exists R pc npc d, echelon0 (sc_z xgcd) m = Ok (R, pc, npc, d) /\ echelon0 sc_x m = Ok (R, pc, npc, d) /\ ech_spec m R pc npc d.
Proof.
  intros W. destruct (echelon0_x m W) as (R & pc & npc & d & E & NR & NC & LR & RN & SPL & RR & SP). exists R, pc, npc, d. split; [|split; auto].
  - apply (ref_F _ _ _ (ref_echelon0 False _ (sref_z xgcd) m) E).
  - unfold ech_spec. sp; auto.
Qed.
Print Assumptions C21_echelon_bigint.
Theorem C21_echelon_long m R pc npc d : wfm m -> echelon0 sc_long m = Ok (R, pc, npc, d) -> ech_spec m R pc npc d.
Proof.
  intros W H. destruct (echelon0_x m W) as (R' & pc' & npc' & d' & E & NR & NC & LR & RN & SPL & RR & SP).
  pose proof (ref_T _ _ _ _ (ref_echelon0 True _ sref_long m) E H) as EQ. injection EQ as -> -> -> ->. unfold ech_spec. sp; auto.
Qed.
Print Assumptions C21_echelon_long.
Theorem C21_echelon_int m R pc npc d : wfm m -> echelon0 sc_int m = Ok (R, pc, npc, d) -> ech_spec m R pc npc d.
Proof.
  intros W H. destruct (echelon0_x m W) as (R' & pc' & npc' & d' & E & NR & NC & LR & RN & SPL & RR & SP).
  pose proof (ref_T _ _ _ _ (ref_echelon0 True _ sref_int m) E H) as EQ. injection EQ as -> -> -> ->. unfold ech_spec. sp; auto.
Qed.
Print Assumptions C21_echelon_int.
Definition ech_ex : mat := Mt 3 4 [2; 4; 6; 1;  3; 6; 9; 5;  1; 2; 3; 7].
Example C21_echelon_ex : wfm ech_ex /\ exists R d, echelon0 sc_long ech_ex = Ok (R, [0; 3]%nat, [1; 2]%nat, d) /\ echelon0 sc_int ech_ex = Ok (R, [0; 3]%nat, [1; 2]%nat, d).
Proof. split; [reflexivity|]. do 2 eexists. split; vm_compute; reflexivity. Qed.
(** the number of pivots is the rank, and rank() returns it *)
Theorem C21_rank xgcd m : wfm m -> exists r, rank (sc_z xgcd) m = Ok r /\ hasrankq (nro m) (nco m) (me m) r /\
  (forall R pc npc d, echelon0 (sc_z xgcd) m = Ok (R, pc, npc, d) -> length pc = r) /\
  (forall r', rank sc_long m = Ok r' -> r' = r) /\ (forall r', rank sc_int m = Ok r' -> r' = r).
Proof.
  intros W. destruct (rank_x m W) as (r & E & Hr & K). exists r. sp; auto.
  - apply (ref_F _ _ _ (ref_rank False _ (sref_z xgcd) m) E).
  - intros R pc npc d H. destruct (C21_echelon_bigint xgcd m W) as (R' & pc' & npc' & d' & H1 & H2 & (NR & NC & RN & SPL & RR & SP)).
    rewrite H1 in H. injection H as -> -> -> ->. apply (hasrankq_unique (nro m) (nco m) (me m)); auto. exists (me R). split; auto. eapply rrefq_indep; eauto.
  - intros r' H. apply (ref_T _ _ _ _ (ref_rank True _ sref_long m) E H).
  - intros r' H. apply (ref_T _ _ _ _ (ref_rank True _ sref_int m) E H).
Qed.
Print Assumptions C21_rank.
Theorem C21_rank_unique nr nc A r r' : hasrankq nr nc A r -> hasrankq nr nc A r' -> r = r'.
Proof. exact (hasrankq_unique nr nc A r r'). Qed.
Print Assumptions C21_rank_unique.
Example C21_rank_ex : rank sc_long ech_ex = Ok 2%nat.
Proof. vm_compute. reflexivity. Qed.
(** kernel(): a basis of the rational kernel, in echelon position *)
Definition ker_spec (m : mat) (A : nat -> nat -> Z) (s : subspace) : Prop :=
  nro (basis s) = nco m /\ nco (basis s) = length (pivs s) /\ wfm (basis s) /\ 1 <= denom s /\
  (exists pc, splits (nco m) pc (pivs s) /\ hasrankq (nro m) (nco m) A (length pc)) /\ kerq (nro m) (nco m) A (me (basis s)) (pivs s) (denom s).
Lemma kernel_spec m : wfm m -> exists s, kernel sc_x m = Ok s /\ ker_spec m (me m) s.
Proof.
  intros W. destruct (kernel_x m W) as (K & npc & d & E & N & C & WK & D & (pc & SPL & _ & HR) & KE). exists (Sub K npc d). split; auto.
  unfold ker_spec. cbn [basis pivs denom]. sp; auto. exists pc; auto.
Qed.
Theorem C21_kernel xgcd m : wfm m -> exists s, kernel (sc_z xgcd) m = Ok s /\ ker_spec m (me m) s /\
  (forall s', kernel sc_long m = Ok s' -> s' = s) /\ (forall s', kernel sc_int m = Ok s' -> s' = s).
Proof.
  intros W. destruct (kernel_spec m W) as (s & E & K). exists s. sp; auto.
  - apply (ref_F _ _ _ (ref_kernel False _ (sref_z xgcd) m) E).
  - intros s' H. apply (ref_T _ _ _ _ (ref_kernel True _ sref_long m) E H).
  - intros s' H. apply (ref_T _ _ _ _ (ref_kernel True _ sref_int m) E H).
Qed.
Print Assumptions C21_kernel.
Example C21_kernel_ex : kernel sc_long ech_ex = Ok (Sub (Mt 4 2 [-2; -3; 1; 0; 0; 1; 0; 0]) [1; 2]%nat 1).
Proof. vm_compute. reflexivity. Qed.
(** image(): a basis of the space spanned by the columns *)
Definition im_spec (m : mat) (s : subspace) : Prop :=
  nro (basis s) = nro m /\ nco (basis s) = length (pivs s) /\ wfm (basis s) /\ 1 <= denom s /\
  eqq (nro m) (nco m) (fun j i => me m i j) (length (pivs s)) (fun k i => me (basis s) i k) /\ indepq (nro m) (length (pivs s)) (fun k i => me (basis s) i k) /\
  (forall i k, (i < length (pivs s))%nat -> (k < length (pivs s))%nat -> me (basis s) (nth i (pivs s) 0%nat) k = if (i =? k)%nat then denom s else 0).
Theorem C21_image xgcd m : wfm m -> exists s, image (sc_z xgcd) m = Ok s /\ im_spec m s /\
  (forall s', image sc_long m = Ok s' -> s' = s) /\ (forall s', image sc_int m = Ok s' -> s' = s).
Proof.
  intros W. destruct (image_x m W) as (B & pc & d & E & N & C & WB & D & SP & I & P). exists (Sub B pc d). sp; auto.
  - apply (ref_F _ _ _ (ref_image False _ (sref_z xgcd) m) E).
  - unfold im_spec. cbn [basis pivs denom]. sp; auto.
  - intros s' H. apply (ref_T _ _ _ _ (ref_image True _ sref_long m) E H).
  - intros s' H. apply (ref_T _ _ _ _ (ref_image True _ sref_int m) E H).
Qed.
Print Assumptions C21_image.
Example C21_image_ex : image sc_long ech_ex = Ok (Sub (Mt 3 2 [7; 0; 0; 7; -16; 13]) [0; 1]%nat 7).
Proof. vm_compute. reflexivity. Qed.
(** eigenspace(): the kernel of m - lambda *)
Theorem C21_eigenspace xgcd m lambda : wfm m -> nro m = nco m ->
  exists s, eigenspace (sc_z xgcd) m lambda = Ok s /\ ker_spec m (fun i j => me m i j - (if (i =? j)%nat then lambda else 0)) s.
Proof.
  intros W SQ.
  assert (G : exists s, eigenspace sc_x m lambda = Ok s /\ ker_spec m (fun i j => me m i j - (if (i =? j)%nat then lambda else 0)) s).
  { unfold eigenspace, addscalar. change (s_neg sc_x lambda) with (Ok (- lambda)). rewrite bind_Ok.
    destruct (scalar_matrix_ok (nro m) (- lambda)) as (d & -> & (Nd & Cd & Wd) & Hd). rewrite bind_Ok.
    assert (SZ : msize d (nro m) (nco m)) by (repeat split; congruence).
    destruct (mat_add_tot _ total_x m d SZ W) as (a & Ea). pose proof (mat_add_inv _ exact_x _ _ _ Ea) as ((Na & Ca & Wa) & Ha); [repeat split; auto|auto|].
    rewrite Ea, bind_Ok. destruct (kernel_spec a Wa) as (s & E & K). exists s. split; auto.
    assert (EX : forall i j, (i < nro m)%nat -> (j < nco m)%nat -> me a i j = me m i j - (if (i =? j)%nat then lambda else 0)).
    { intros i j Hi Hj. rewrite Ha, Hd by (auto; congruence). destruct (i =? j)%nat; lia. }
    assert (QE : eqq (nco m) (nro m) (me a) (nro m) (fun i j => me m i j - (if (i =? j)%nat then lambda else 0))).
    { intros v. split; apply qspan_ext; intros; rewrite EX; auto. }
    unfold ker_spec in *. rewrite Na, Ca in *. destruct K as (K1 & K2 & K3 & K4 & (pc & K5 & (R & K6 & K7)) & (Q1 & Q2 & Q3 & Q4)). sp; auto.
    - exists pc. split; auto. exists R. split; auto. eapply eqq_trans; [apply eqq_sym; exact QE|exact K6].
    - unfold kerq. split; [exact Q1|]. split; [|split; [exact Q3|]].
      + intros k Hk i Hi. etransitivity; [|exact (Q2 k Hk i Hi)]. apply sumn_ext. intros j Hj. rewrite EX by auto. auto.
      + intros x Hx. apply Q4. intros i Hi. etransitivity; [|exact (Hx i Hi)]. apply sumn_ext. intros j Hj. rewrite EX by auto. auto. }
  destruct G as (s & E & K). exists s. split; auto. apply (ref_F _ _ _ (ref_eigenspace False _ (sref_z xgcd) m lambda) E).
Qed.
Print Assumptions C21_eigenspace.
Example C21_eigenspace_ex : eigenspace sc_long (Mt 2 2 [1; 2; 2; 1]) 3 = Ok (Sub (Mt 2 1 [1; 1]) [1]%nat 1).
Proof. vm_compute. reflexivity. Qed.
(** the matrix returned by echelon() keeps the entries of the rows removed, so the number of
    entries is not the product of its sizes, and adding it to a matrix of the same sizes is undefined *)
Theorem C21_echelon_entries_refuted : exists m R pc npc d, wfm m /\ echelon0 sc_long m = Ok (R, pc, npc, d) /\
  length (ents R) <> (nro R * nco R)%nat /\ mat_add sc_long (mat_new (nro R) (nco R)) R = UB.
Proof.
  exists (Mt 2 2 [1; 1; 1; 1]), (Mt 1 2 [1; 1; 0; 0]), [0%nat], [1%nat], 1.
  split; [reflexivity|]. split; [vm_compute; reflexivity|]. split; [cbn; lia|]. vm_compute. reflexivity.
Qed.
Print Assumptions C21_echelon_entries_refuted.
(** with int or long an overflow is possible although the result would fit *)
Theorem C21_long_overflow_refuted : exists m, wfm m /\ (forall x, In x (ents m) -> Z.abs x < 2 ^ 33) /\ (forall r, echelon0 sc_long m <> Ok r) /\
  exists R, echelon0 sc_x m = Ok (R, [0; 1]%nat, [], 1) /\ forall x, In x (ents R) -> Z.abs x <= 1.
Proof.
  exists (Mt 2 2 [2 ^ 32 + 1; 2 ^ 32; 2 ^ 32; 2 ^ 32 + 1]). split; [reflexivity|]. split; [|split].
  - intros x Hx. cbn [ents In] in Hx. lia.
  - intros r. intros H. vm_compute in H. discriminate.
  - exists (Mt 2 2 [1; 0; 0; 1]). split; [vm_compute; reflexivity|]. intros x Hx. cbn [ents In] in Hx. lia.
Qed.
Print Assumptions C21_long_overflow_refuted.

(** * C22: characteristic polynomial and determinant.  cpoly n A k is the coefficient of x^k in
    det(xI - A) and zdet n A the determinant (mathcomp's char_poly and \det). *)
Theorem C22_charpoly xgcd m n : wfm m -> nro m = n -> nco m = n -> (1 <= n)%nat ->
  charpoly (sc_z xgcd) m = Ok (map (cpoly n (me m)) (seq 0 (n + 1))) /\ charpoly sc_x m = Ok (map (cpoly n (me m)) (seq 0 (n + 1))) /\
  (forall l, charpoly sc_long m = Ok l -> l = map (cpoly n (me m)) (seq 0 (n + 1))) /\
  (forall l, charpoly sc_int m = Ok l -> l = map (cpoly n (me m)) (seq 0 (n + 1))).
Proof.
  intros W NR NC Hn. pose proof (charpoly_x m n W NR NC Hn) as E. sp; auto.
  - apply (ref_F _ _ _ (ref_charpoly False _ (sref_z xgcd) m) E).
  - intros s' H. apply (ref_T _ _ _ _ (ref_charpoly True _ sref_long m) E H).
  - intros s' H. apply (ref_T _ _ _ _ (ref_charpoly True _ sref_int m) E H).
Qed.
Print Assumptions C22_charpoly.
Theorem C22_determinant xgcd m n : wfm m -> nro m = n -> nco m = n -> (1 <= n)%nat ->
  determinant (sc_z xgcd) m = Ok (zdet n (me m)) /\
  (forall l, determinant sc_long m = Ok l -> l = zdet n (me m)) /\ (forall l, determinant sc_int m = Ok l -> l = zdet n (me m)).
Proof.
  intros W NR NC Hn. pose proof (determinant_x m n W NR NC Hn) as E. sp; auto.
  - apply (ref_F _ _ _ (ref_determinant False _ (sref_z xgcd) m) E).
  - intros s' H. apply (ref_T _ _ _ _ (ref_determinant True _ sref_long m) E H).
  - intros s' H. apply (ref_T _ _ _ _ (ref_determinant True _ sref_int m) E H).
Qed.
Print Assumptions C22_determinant.
Example C22_ex : charpoly sc_long (Mt 3 3 [1; 2; 3; 4; 5; 6; 7; 8; 10]) = Ok [3; -12; -16; 1] /\ determinant sc_int (Mt 3 3 [1; 2; 3; 4; 5; 6; 7; 8; 10]) = Ok (-3).
Proof. split; vm_compute; reflexivity. Qed.
(** the constants are those of the usual formulas for n = 1, 2 *)
Example C22_spec_sanity a b c d : zdet 2 (me (Mt 2 2 [a; b; c; d])) = a * d - b * c.
Proof. rewrite zdet2. reflexivity. Qed.
(** the matrix without rows: clist[n-1] is written outside the vector *)
Theorem C22_empty_refuted : exists m, wfm m /\ nro m = nco m /\ charpoly sc_long m = UB.
Proof. exists (Mt 0 0 []). split; [reflexivity|]. split; [reflexivity|]. vm_compute. reflexivity. Qed.
Print Assumptions C22_empty_refuted.
