(** Dense linear algebra: C18, C19, C20, C23, C24, C61 *)
From Coq Require Import ZArith Znumtheory Lia List Bool Sorted Permutation.
From Verif Require Import Base ArithModel ArithProofs XModModel MArithModel MArithProofs Primality LinModel LinSpec LinProofs LinElim LinKer LinAlg PropertiesMArith.
Import ListNotations.
Open Scope Z_scope.

Lemma prime97 : prime 97.
Proof. apply (prime_by_trial 97 20); [lia|cbn; lia|vm_compute; reflexivity]. Qed.
(** what a scalar type must satisfy: the results that are defined are the true ones *)
Definition three_types (xgcd : Z -> Z -> Z * Z * Z) (S : scal) : Prop := S = sc_int \/ S = sc_long \/ S = sc_z xgcd.
Lemma three_exact xgcd S : three_types xgcd S -> exact S.
Proof. intros [->|[->| ->]]; [apply exact_int|apply exact_long|apply exact_z]. Qed.

(** * C18: entrywise meaning of the operations, for int, long and bigint.
    When a result is returned (no overflow) it is the mathematical one. *)
Theorem C18_vectors xgcd S : three_types xgcd S -> forall v w c r,
  (vec_add S v w = Ok r -> length w = length v -> length r = length v /\ forall k, (k < length v)%nat -> nth k r 0 = nth k v 0 + nth k w 0) /\
  (vec_sub S v w = Ok r -> length w = length v -> length r = length v /\ forall k, (k < length v)%nat -> nth k r 0 = nth k v 0 - nth k w 0) /\
  (vec_scale S v c = Ok r -> length r = length v /\ forall k, (k < length v)%nat -> nth k r 0 = c * nth k v 0) /\
  (vec_div S v c = Ok r -> length r = length v /\ forall k, (k < length v)%nat -> (c | nth k v 0) -> c * nth k r 0 = nth k v 0) /\
  (vec_dot S v w = Ok c -> c = sumn (length v) (fun k => nth k v 0 * nth k w 0)).
Proof.
  intros T v w c r. pose proof (three_exact _ _ T) as X. split; [|split; [|split; [|split]]].
  - apply vec_add_inv, X. - apply vec_sub_inv, X. - apply vec_scale_inv, X. - apply vec_div_inv, X. - apply vec_dot_inv, X.
Qed.
Print Assumptions C18_vectors.
Theorem C18_matrices xgcd S : three_types xgcd S -> forall m n c v r w t, wfm m -> wfm n ->
  (mat_add S m n = Ok r -> nro n = nro m -> nco n = nco m -> msize r (nro m) (nco m) /\ forall i j, (i < nro m)%nat -> (j < nco m)%nat -> me r i j = me m i j + me n i j) /\
  (mat_sub S m n = Ok r -> nro n = nro m -> nco n = nco m -> msize r (nro m) (nco m) /\ forall i j, (i < nro m)%nat -> (j < nco m)%nat -> me r i j = me m i j - me n i j) /\
  (mat_scale S m c = Ok r -> msize r (nro m) (nco m) /\ forall i j, (i < nro m)%nat -> (j < nco m)%nat -> me r i j = c * me m i j) /\
  (mat_div S m c = Ok r -> c <> 0 -> msize r (nro m) (nco m) /\ forall i j, (i < nro m)%nat -> (j < nco m)%nat -> (c | me m i j) -> c * me r i j = me m i j) /\
  (mat_mul S m n = Ok r -> nco m = nro n -> msize r (nro m) (nco n) /\ forall i j, (i < nro m)%nat -> (j < nco n)%nat -> me r i j = sumn (nco m) (fun k => me m i k * me n k j)) /\
  (mat_vec S m v = Ok w -> nco m = length v -> length w = nro m /\ forall i, (i < nro m)%nat -> nth i w 0 = sumn (nco m) (fun k => me m i k * nth k v 0)) /\
  (trace S m = Ok t -> nro m = nco m -> t = sumn (nro m) (fun i => me m i i)).
Proof.
  intros T m n c v r w t Wm Wn. pose proof (three_exact _ _ T) as X. repeat match goal with |- _ /\ _ => split end.
  - intros H N C. apply (mat_add_inv S X m n r H); repeat split; auto.
  - intros H N C. apply (mat_sub_inv S X m n r H); repeat split; auto.
  - intros H. apply (mat_scale_inv S X m c r H Wm).
  - intros H N. apply (mat_div_inv S X m c r H Wm N).
  - intros H N. apply (mat_mul_inv S X m n r H Wm Wn N).
  - intros H N. apply (mat_vec_inv S X m v w H Wm N).
  - intros H N. apply (trace_inv S X m t H Wm N).
Qed.
Print Assumptions C18_matrices.
(** bigint: nothing overflows, the results always exist *)
Theorem C18_bigint_total xgcd : forall m n v w c, wfm m -> wfm n ->
  (length w = length v -> (exists r, vec_add (sc_z xgcd) v w = Ok r) /\ (exists r, vec_sub (sc_z xgcd) v w = Ok r) /\ exists r, vec_dot (sc_z xgcd) v w = Ok r) /\
  (exists r, vec_scale (sc_z xgcd) v c = Ok r) /\
  (nro n = nro m -> nco n = nco m -> (exists r, mat_add (sc_z xgcd) m n = Ok r) /\ exists r, mat_sub (sc_z xgcd) m n = Ok r) /\
  (exists r, mat_scale (sc_z xgcd) m c = Ok r) /\ (exists r, mat_mul (sc_z xgcd) m n = Ok r) /\ (exists r, mat_vec (sc_z xgcd) m v = Ok r).
Proof.
  intros m n v w c Wm Wn. pose proof (total_z xgcd) as T. split; [|split; [|split; [|split; [|split]]]].
  - intros L. split; [apply vec_add_tot; auto|]. split; [apply vec_sub_tot; auto|]. apply inner_tot; auto. lia.
  - apply vec_scale_tot; auto.
  - intros N C. split; [apply mat_add_tot|apply mat_sub_tot]; auto; repeat split; auto.
  - apply mat_scale_tot; auto.
  - apply mat_mul_tot; auto.
  - apply mat_vec_tot; auto.
Qed.
Print Assumptions C18_bigint_total.
(** operations moving entries *)
Theorem C18_structural : forall m n, wfm m -> wfm n ->
  (exists r, transpose m = Ok r /\ msize r (nco m) (nro m) /\ forall i j, (i < nco m)%nat -> (j < nro m)%nat -> me r i j = me m j i) /\
  (forall r1 r2 c1 c2, (r1 <= r2 <= nro m)%nat -> (c1 <= c2 <= nco m)%nat -> exists r, mat_slice m r1 r2 c1 c2 = Ok r /\ msize r (r2 - r1) (c2 - c1) /\
     forall i j, (i < r2 - r1)%nat -> (j < c2 - c1)%nat -> me r i j = me m (r1 + i) (c1 + j)) /\
  (forall iv jv, (forall i, (i < length iv)%nat -> (nth i iv 0 < nro m)%nat) -> (forall j, (j < length jv)%nat -> (nth j jv 0 < nco m)%nat) ->
     exists r, submat m iv jv = Ok r /\ msize r (length iv) (length jv) /\
     forall i j, (i < length iv)%nat -> (j < length jv)%nat -> me r i j = me m (nth i iv 0%nat) (nth j jv 0%nat)) /\
  (nro m = nro n -> exists r, colcat m n = Ok r /\ msize r (nro m) (nco m + nco n) /\
     (forall i j, (i < nro m)%nat -> (j < nco m)%nat -> me r i j = me m i j) /\ (forall i j, (i < nro m)%nat -> (j < nco n)%nat -> me r i (nco m + j) = me n i j)) /\
  (nco m = nco n -> exists r, rowcat m n = Ok r /\ msize r (nro m + nro n) (nco m) /\
     (forall i j, (i < nro m)%nat -> (j < nco m)%nat -> me r i j = me m i j) /\ (forall i j, (i < nro n)%nat -> (j < nco m)%nat -> me r (nro m + i) j = me n i j)) /\
  (exists r, directsum m n = Ok r /\ msize r (nro m + nro n) (nco m + nco n) /\
    (forall i j, (i < nro m)%nat -> (j < nco m)%nat -> me r i j = me m i j) /\
    (forall i j, (i < nro m)%nat -> (j < nco n)%nat -> me r i (nco m + j) = 0) /\
    (forall i j, (i < nro n)%nat -> (j < nco m)%nat -> me r (nro m + i) j = 0) /\
    (forall i j, (i < nro n)%nat -> (j < nco n)%nat -> me r (nro m + i) (nco m + j) = me n i j)).
Proof.
  intros m n Wm Wn. split; [apply transpose_ok; auto|]. split; [intros; apply mat_slice_gen; auto|]. split; [intros; apply submat_ok; auto|].
  split; [apply colcat_ok; auto|]. split; [apply rowcat_ok; auto|apply directsum_ok; auto].
Qed.
Print Assumptions C18_structural.
(** modular products; the three moduli ranges of C19 *)
Definition modular (xgcd : Z -> Z -> Z * Z * Z) (S : scal) (D : Z -> Prop) (p : Z) : Prop :=
  (S = sc_int /\ D = sym32 /\ 2 * p <= max32) \/ (S = sc_long /\ D = sym64 /\ p * p <= max64) \/
  (S = sc_z xgcd /\ xgcd_spec xgcd /\ D = (fun _ => True)).
Lemma modular_ok xgcd S D p : modular xgcd S D p -> prime p -> modok S D p.
Proof. intros [(-> & -> & H)|[(-> & -> & H)|(-> & H & ->)]] P; [apply modok_int|apply modok_long|apply modok_z]; auto. Qed.
Theorem C18_modular xgcd S D p : modular xgcd S D p -> prime p -> forall m n v w, wfm m -> wfm n ->
  (nco m = nro n -> (forall i j, (i < nro m)%nat -> (j < nco m)%nat -> Z.abs (me m i j) < p) -> (forall i j, (i < nro n)%nat -> (j < nco n)%nat -> Z.abs (me n i j) < p) ->
   exists r, matmulmodp S m n p = Ok r /\ msize r (nro m) (nco n) /\
    forall i j, (i < nro m)%nat -> (j < nco n)%nat -> Z.abs (me r i j) < p /\ cong p (me r i j) (sumn (nco m) (fun k => me m i k * me n k j))) /\
  ((length v <= length w)%nat -> (forall k, (k < length v)%nat -> Z.abs (nth k v 0) < p /\ Z.abs (nth k w 0) < p) ->
   exists r, dotmodp S v w p = Ok r /\ cent p r /\ cong p r (sumn (length v) (fun k => nth k v 0 * nth k w 0))).
Proof.
  intros MO P m n v w Wm Wn. pose proof (modular_ok _ _ _ _ MO P) as M. split.
  - intros. eapply matmulmodp_ok; eauto.
  - intros. eapply dotmodp_ok; eauto.
Qed.
Print Assumptions C18_modular.
Example C18_ex : mat_mul sc_int (Mt 2 2 [1; 2; 3; 4]) (Mt 2 1 [5; 6]) = Ok (Mt 2 1 [17; 39]) /\
  mat_mul sc_int (Mt 1 1 [65536]) (Mt 1 1 [65536]) = UB /\ mat_mul sc_long (Mt 1 1 [65536]) (Mt 1 1 [65536]) = Ok (Mt 1 1 [4294967296]) /\
  matmulmodp sc_int (Mt 2 2 [10; 20; 30; 40]) (Mt 2 1 [50; 60]) 97 = Ok (Mt 2 1 [51; 20]) /\
  directsum (Mt 1 2 [1; 2]) (Mt 1 1 [3]) = Ok (Mt 2 3 [1; 2; 0; 0; 0; 3]) /\
  three_types xgcd_example sc_int /\ wfm (Mt 2 2 [1; 2; 3; 4]) /\ modular xgcd_example sc_int sym32 97.
Proof.
  do 5 (split; [vm_compute; reflexivity|]). split; [left; auto|]. split; [reflexivity|].
  left. split; [reflexivity|]. split; [reflexivity|]. unfold max32. lia.
Qed.

(** * C19: echmodp returns the reduced row echelon form *)
Definition echelon_of (p : Z) (m R : mat) (pc npc : list nat) : Prop :=
  msize R (length pc) (nco m) /\ splits (nco m) pc npc /\
  eqspan p (nco m) (nro m) (me m) (length pc) (me R) /\ indep p (nco m) (length pc) (me R) /\
  (forall i j, (i < length pc)%nat -> (j < nco m)%nat -> cent p (me R i j)) /\
  (forall i k, (i < length pc)%nat -> (k < length pc)%nat -> me R i (nth k pc 0%nat) = if Nat.eqb i k then 1 else 0) /\
  (forall i j, (i < length pc)%nat -> (j < nth i pc 0)%nat -> me R i j = 0).
Theorem C19_echmodp xgcd S D p : modular xgcd S D p -> prime p -> forall m, wfm m -> Forall D (ents m) ->
  exists R pc npc, echmodp S m p = Ok (R, pc, npc) /\ echelon_of p m R pc npc.
Proof.
  intros MO P m W F. pose proof (modular_ok _ _ _ _ MO P) as M.
  destruct (echmodp_ok S D p M m W F) as (R & pc & npc & E & N & C & WR & ES & SP & RR). exists R, pc, npc. split; auto.
  destruct RR as [R1 R2 R3]. split; [repeat split; auto|]. split; auto. split; auto. split; [|auto].
  refine (rref_indep p (nco m) (length pc) (me R) pc _ _); [constructor; auto|]. intros i Hi. eapply splits_pc; [exact SP|apply nth_In; auto].
Qed.
Print Assumptions C19_echmodp.
Example C19_ex : echmodp sc_int (Mt 3 4 [2; 4; 1; 3; 1; 2; 96; 5; 3; 6; 0; 8]) 97 = Ok (Mt 2 4 [1; 2; 0; 35; 0; 0; 1; 30], [0; 2]%nat, [1; 3]%nat) /\
  Forall sym32 [2; 4; 1; 3; 1; 2; 96; 5; 3; 6; 0; 8] /\ modular xgcd_example sc_int sym32 97 /\ prime 97 /\
  modular xgcd_example sc_long sym64 97 /\ modular xgcd_example (sc_z xgcd_example) (fun _ => True) 97.
Proof.
  split; [vm_compute; reflexivity|]. split; [repeat constructor; unfold sym32, max32; lia|]. split; [left; split; [reflexivity|]; split; [reflexivity|]; unfold max32; lia|].
  split; [exact prime97|]. split; [right; left; split; [reflexivity|]; split; [reflexivity|]; unfold max64; lia|].
  right. right. split; [reflexivity|]. split; [exact xgcd_contract_met|reflexivity].
Qed.

(** * C20: the kernel modulo p *)
Definition kernel_of (p : Z) (m : mat) (s : subspace) : Prop :=
  let K := basis s in let npc := pivs s in
  denom s = 1 /\ msize K (nco m) (length npc) /\
  (* every column is annihilated; the columns are the unit vectors at the pivots *)
  (forall k, (k < length npc)%nat -> inker p (nco m) (nro m) (me m) (fun i => me K i k)) /\
  (forall j k, (j < length npc)%nat -> (k < length npc)%nat -> me K (nth j npc 0%nat) k = if Nat.eqb j k then 1 else 0) /\
  (* every kernel vector is a combination, with coefficients read at the pivots *)
  (forall x, inker p (nco m) (nro m) (me m) x -> forall i, (i < nco m)%nat -> cong p (x i) (sumn (length npc) (fun k => me K i k * x (nth k npc 0%nat)))) /\
  (* the dimension is the number of columns minus the rank *)
  (exists r, hasrank p (nco m) (nro m) (me m) r /\ (r + length npc = nco m)%nat).
Lemma splits_len nc pc npc : splits nc pc npc -> (length pc + length npc = nc)%nat.
Proof. intros (_ & _ & H). apply Permutation_length in H. rewrite app_length, seq_length in H. auto. Qed.
Lemma kernel_of_intro p m K npc : nro K = nco m -> nco K = length npc -> wfm K ->
  (exists pc, splits (nco m) pc npc /\ exists R, eqspan p (nco m) (nro m) (me m) (length pc) R /\ uptri (length pc) R pc) ->
  kerbasis p (nco m) (nro m) (me m) (me K) npc -> kernel_of p m (Sub K npc 1).
Proof.
  intros N C W (pc & SP & R & E & U) (K1 & K2 & K3). unfold kernel_of; cbn [basis pivs denom].
  split; auto. split; [repeat split; auto|]. split; auto. split; auto. split; auto.
  exists (length pc). split; [|apply (splits_len _ _ _ SP)]. exists R. split; auto.
  refine (uptri_indep p (nco m) (length pc) R pc U eq_refl _ _); [apply SP|]. intros i Hi. eapply splits_pc; [exact SP|apply nth_In; auto].
Qed.
Theorem C20_oldpkernel xgcd S D p : modular xgcd S D p -> prime p -> forall m, wfm m -> Forall D (ents m) ->
  exists s, oldpkernel S m p = Ok s /\ kernel_of p m s.
Proof.
  intros MO P m W F. pose proof (modular_ok _ _ _ _ MO P) as M.
  destruct (oldpkernel_ok S D p M m W F) as (K & npc & E & N & C & WK & X & KB). eexists. split; [exact E|]. apply kernel_of_intro; auto.
Qed.
Print Assumptions C20_oldpkernel.
(** pkernel multiplies two residues in the scalar type: for int the modulus must be small *)
Theorem C20_pkernel xgcd S D p : modular xgcd S D p -> prime p -> (S = sc_int -> p <= 92681) -> forall m, wfm m -> Forall D (ents m) ->
  exists s, pkernel S m p = Ok s /\ kernel_of p m s.
Proof.
  intros MO P SM m W F. pose proof (modular_ok _ _ _ _ MO P) as M.
  assert (MU : mulok S D p).
  { pose proof (prime_ge_2 p P). destruct MO as [(-> & -> & H1)|[(-> & -> & H1)|(-> & H1 & ->)]]; [apply mulok_int; split; auto|apply mulok_long; auto; lia|apply mulok_z]. }
  destruct (pkernel_ok S D p M m MU W F) as (K & npc & E & N & C & WK & X & KB). eexists. split; [exact E|]. apply kernel_of_intro; auto.
Qed.
Print Assumptions C20_pkernel.
(** with int and the library's default modulus it overflows; oldpkernel does not *)
Theorem C20_pkernel_int_refuted : exists m, wfm m /\ Forall sym32 (ents m) /\ pkernel sc_int m BIGPRIME = UB /\ exists s, oldpkernel sc_int m BIGPRIME = Ok s.
Proof.
  exists (Mt 1 2 [2; 5]). split; [reflexivity|]. split; [repeat constructor; unfold sym32, max32; cbn; lia|]. split; [vm_compute; reflexivity|]. eexists. vm_compute. reflexivity.
Qed.
Print Assumptions C20_pkernel_int_refuted.
Example C20_ex : pkernel sc_int (Mt 2 4 [2; 5; 1; 3; 4; 10; 3; 3]) 97 = Ok (Sub (Mt 4 2 [46; -3; 1; 0; 0; 3; 0; 1]) [1; 3]%nat 1) /\
  wfm (Mt 2 4 [2; 5; 1; 3; 4; 10; 3; 3]) /\ Forall sym32 [2; 5; 1; 3; 4; 10; 3; 3].
Proof. split; [vm_compute; reflexivity|]. split; [reflexivity|]. repeat constructor; unfold sym32, max32; lia. Qed.

(** * C23: maxabs and liftmat *)
(** maxabs is 0 whatever the matrix *)
Theorem C23_maxabs_refuted xgcd : forall m, mat_maxabs (sc_z xgcd) m = Ok 0.
Proof. intros m. apply maxabs_zero. intros x _. exists (Z.abs x). reflexivity. Qed.
Print Assumptions C23_maxabs_refuted.
(** hence liftmat always takes its early exit: it reports success, m is the matrix reduced
    to symmetric residues, and dd keeps the value it had on entry *)
Theorem C23_liftmat_early xgcd S D p : modular xgcd S D p -> prime p -> forall m dd0, wfm m -> Forall D (ents m) ->
  exists r, liftmat S m p dd0 = Ok (true, r, dd0) /\ msize r (nro m) (nco m) /\
    forall i j, (i < nro m)%nat -> (j < nco m)%nat -> cong p (me r i j) (me m i j) /\ cent p (me r i j).
Proof.
  intros MO P m dd0 W F. pose proof (modular_ok _ _ _ _ MO P) as M. apply (liftmat_eq S D p m dd0 M); auto.
  intros x C. pose proof (cent_lt p x (p_pos _ _ _ M) C). destruct MO as [(-> & -> & H1)|[(-> & -> & H1)|(-> & H1 & ->)]]; cbn [s_abs sc_int sc_long sc_z]; eauto.
  - exists (Z.abs x). apply c32_ok. unfold in32, min32, max32 in *. lia.
  - exists (Z.abs x). apply abs64_ok. unfold max64 in *. pose proof (prime_ge_2 p P). assert (p <= p * p) by (clear - H0; nia). unfold in64, min64, max64 in *. lia.
Qed.
Print Assumptions C23_liftmat_early.
(** [1 49] mod 97 is [2 1]/2: the lift returned is neither small nor with its denominator *)
Theorem C23_liftmat_refuted : exists m p (good : mat) d, wfm m /\ Forall sym32 (ents m) /\ prime p /\
  (* a lift with denominator d and small entries exists *)
  d <> 0 /\ msize good (nro m) (nco m) /\ (forall i j, (i < nro m)%nat -> (j < nco m)%nat -> cong p (d * me m i j) (me good i j) /\ 2 * me good i j ^ 2 < p /\ 2 * d ^ 2 < p) /\
  (* but for some incoming dd the result is not a lift, though success is reported *)
  (exists dd0 r, liftmat sc_int m p dd0 = Ok (true, r, dd0) /\ ~ (forall i j, (i < nro m)%nat -> (j < nco m)%nat -> cong p (dd0 * me m i j) (me r i j))) /\
  (* and whatever the incoming dd the entries are not small *)
  (forall dd0, exists r, liftmat sc_int m p dd0 = Ok (true, r, dd0) /\ exists i j, (i < nro m)%nat /\ (j < nco m)%nat /\ p < 2 * me r i j ^ 2).
Proof.
  exists (Mt 1 2 [1; 49]), 97, (Mt 1 2 [2; 1]), 2. split; [reflexivity|]. split; [repeat constructor; unfold sym32, max32; cbn; lia|]. split; [exact prime97|].
  split; [lia|]. split; [repeat split; reflexivity|]. split; [|split].
  - cbn [nro nco]. intros i j Hi Hj. assert (i = 0%nat) as -> by lia. assert (j = 0 \/ j = 1)%nat as [-> | ->] by lia; cbn; (split; [|lia]); [exists 0|exists 1]; reflexivity.
  - exists 0, (Mt 1 2 [1; -48]). split; [vm_compute; reflexivity|]. intros H. specialize (H 0%nat 0%nat ltac:(cbn; lia) ltac:(cbn; lia)). destruct H as [k H]. cbn in H. lia.
  - intros dd0. exists (Mt 1 2 [1; -48]). split; [vm_compute; reflexivity|]. exists 0%nat, 1%nat. cbn. lia.
Qed.
Print Assumptions C23_liftmat_refuted.

(** * C24: echelonp is not reduced, and returns more rows than the rank *)
Theorem C24_echelonp_refuted : exists m R pc npc d, wfm m /\ Forall sym32 (ents m) /\
  echelonp sc_int m BIGPRIME = Ok (R, pc, npc, d) /\ d = 1 /\
  (* the first row returned is not in the row space of m modulo p (although the denominator is trivial) *)
  ~ inspan BIGPRIME (nco m) (nro m) (me m) (me R 0%nat).
Proof.
  exists (Mt 2 3 [1; 1; 1; 0; 1; 1]). eexists. eexists. eexists. eexists. split; [reflexivity|]. split; [repeat constructor; unfold sym32, max32; cbn; lia|].
  split; [vm_compute; reflexivity|]. split; [reflexivity|].
  intros (c & H). pose proof (H 0%nat ltac:(cbn; lia)) as H0. pose proof (H 1%nat ltac:(cbn; lia)) as H1. pose proof (H 2%nat ltac:(cbn; lia)) as H2. destruct H0 as [k0 H0], H1 as [k1 H1], H2 as [k2 H2]. unfold me, ent, BIGPRIME in H0, H1, H2. cbn [nro nco ents sumn nth Nat.mul Nat.add] in H0, H1, H2. lia.
Qed.
Print Assumptions C24_echelonp_refuted.
Theorem C24_rows_refuted : exists m R pc npc d, wfm m /\ echelonp sc_int m BIGPRIME = Ok (R, pc, npc, d) /\ length pc = 1%nat /\ nro R = 2%nat.
Proof. exists (Mt 2 2 [1; 1; 1; 1]). do 4 eexists. split; [reflexivity|]. split; [vm_compute; reflexivity|]. split; reflexivity. Qed.
Print Assumptions C24_rows_refuted.

(** * C61: restriction of an operator to an invariant subspace *)
(** psub s n: the basis of s is den times the identity at the pivots *)
Theorem C61_restrict xgcd S : three_types xgcd S -> forall A s R, restrict_mat S A s = Ok R -> wfm A -> nro A = nco A -> psub s (nro A) ->
  ((nco (basis s) < nro A)%nat \/ denom s = 1) ->
  (* the columns of the basis span a subspace invariant under A (over Q) *)
  (exists Y, forall i j, (i < nro A)%nat -> (j < nco (basis s))%nat ->
     denom s * sumn (nro A) (fun k => me A i k * me (basis s) k j) = sumn (nco (basis s)) (fun k => me (basis s) i k * Y k j)) ->
  msize R (nco (basis s)) (nco (basis s)) /\
  forall i j, (i < nro A)%nat -> (j < nco (basis s))%nat ->
     denom s * sumn (nro A) (fun k => me A i k * me (basis s) k j) = sumn (nco (basis s)) (fun k => me (basis s) i k * me R k j).
Proof.
  intros T A s R H W SQ PS ONE (Y & INV). destruct (restrict_ok S (three_exact _ _ T) A s Y R H W SQ PS ONE INV) as (MR & E). split; auto.
  intros i j Hi Hj. rewrite INV by auto. apply sumn_ext. intros k Hk. rewrite E by auto. reflexivity.
Qed.
Print Assumptions C61_restrict.
(** without the side condition the early return for the whole space is wrong: den M B = B A fails *)
Theorem C61_whole_space_refuted : exists A s R, wfm A /\ nro A = nco A /\ psub s (nro A) /\ restrict_mat sc_int A s = Ok R /\
  denom s * (me A 0 0 * me (basis s) 0 0) <> me (basis s) 0 0 * me R 0 0.
Proof.
  exists (Mt 1 1 [5]), (Sub (Mt 1 1 [2]) [0%nat] 2). eexists. split; [reflexivity|]. split; [reflexivity|]. split; [|split; [vm_compute; reflexivity|cbn; lia]].
  unfold psub; cbn [basis pivs denom nro nco length]. split; [reflexivity|]. split; [reflexivity|]. split; [reflexivity|]. split; [repeat constructor|]. split; [cbn; intros x [<-|[]]; lia|].
  split; [lia|]. intros i j Hi Hj. assert (i = 0%nat) as -> by lia. assert (j = 0%nat) as -> by lia. reflexivity.
Qed.
Print Assumptions C61_whole_space_refuted.
Theorem C61_prestrict xgcd S D p : modular xgcd S D p -> prime p -> forall (A : mat) (s : subspace),
  wfm A -> wfm (basis s) -> nro A = nco A -> nro (basis s) = nro A -> length (pivs s) = nco (basis s) ->
  (forall i, (i < length (pivs s))%nat -> (nth i (pivs s) 0 < nro A)%nat) ->
  (forall i j, (i < nro A)%nat -> (j < nco A)%nat -> Z.abs (me A i j) < p) ->
  (forall i j, (i < nro A)%nat -> (j < nco (basis s))%nat -> Z.abs (me (basis s) i j) < p) ->
  (forall i j, (i < length (pivs s))%nat -> (j < length (pivs s))%nat -> me (basis s) (nth i (pivs s) 0%nat) j = if Nat.eqb i j then 1 else 0) ->
  (nco (basis s) < nro A)%nat ->
  (exists Y, forall i j, (i < nro A)%nat -> (j < nco (basis s))%nat ->
     cong p (sumn (nro A) (fun k => me A i k * me (basis s) k j)) (sumn (nco (basis s)) (fun k => me (basis s) i k * Y k j))) ->
  exists R, prestrict S A s p = Ok R /\ msize R (nco (basis s)) (nco (basis s)) /\
    forall i j, (i < nro A)%nat -> (j < nco (basis s))%nat ->
     cong p (sumn (nro A) (fun k => me A i k * me (basis s) k j)) (sumn (nco (basis s)) (fun k => me (basis s) i k * me R k j)).
Proof.
  intros MO P A s W1 W2 SQ N L PV B1 B2 ID LT (Y & INV). pose proof (modular_ok _ _ _ _ MO P) as M.
  destruct (prestrict_ok S D p M A s Y W1 W2 SQ N L PV B1 B2 ID INV LT) as (R & E & MR & HR). exists R. split; auto. split; auto.
  intros i j Hi Hj. eapply cong_trans; [apply INV; auto|]. apply cong_sumn. intros k Hk. apply cong_mul; [apply cong_refl|]. apply cong_sym, HR; auto.
Qed.
Print Assumptions C61_prestrict.
(** (2,3) is an eigenvector of [1 2; 3 2], with eigenvalue 4; the basis is given as (4,6) with denominator 4 *)
Example C61_ex : restrict_mat sc_int (Mt 2 2 [1; 2; 3; 2]) (Sub (Mt 2 1 [4; 6]) [0%nat] 4) = Ok (Mt 1 1 [16]) /\
  psub (Sub (Mt 2 1 [4; 6]) [0%nat] 4) 2 /\
  (forall i j, (i < 2)%nat -> (j < 1)%nat -> 4 * sumn 2 (fun k => me (Mt 2 2 [1; 2; 3; 2]) i k * me (Mt 2 1 [4; 6]) k j) = sumn 1 (fun k => me (Mt 2 1 [4; 6]) i k * 16)) /\
  prestrict sc_int (Mt 2 2 [1; 2; 3; 2]) (Sub (Mt 2 1 [1; 50]) [0%nat] 1) 97 = Ok (Mt 1 1 [4]).
Proof.
  split; [vm_compute; reflexivity|]. split; [|split; [|vm_compute; reflexivity]].
  - unfold psub; cbn [basis pivs denom nro nco length]. split; [reflexivity|]. split; [reflexivity|]. split; [reflexivity|]. split; [repeat constructor|]. split; [cbn; intros x [<-|[]]; lia|].
    split; [lia|]. intros i j Hi Hj. assert (i = 0%nat) as -> by lia. assert (j = 0%nat) as -> by lia. reflexivity.
  - intros i j Hi Hj. assert (j = 0%nat) as -> by lia. assert (i = 0 \/ i = 1)%nat as [-> | ->] by lia; reflexivity.
Qed.
