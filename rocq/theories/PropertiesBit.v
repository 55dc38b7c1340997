(** Vector spaces over F_2 kept in machine words: C50 *)
From Coq Require Import ZArith Lia List Bool.
From Verif Require Import Base LinModel BitModel BitSpec BitProofs.
Import ListNotations.
Open Scope Z_scope.

(** C50 for dimension at most 32: after any sequence of augment(v) the values returned say
    which vectors were new; reduce(v) returns -1 exactly for the vectors of the span, and
    otherwise the last coordinate of the reduced vector, which differs from v by a
    vector of the span; reducing from a later start gives the same on vectors already reduced
    before it; and mask() singles out exactly one vector in each class modulo the span.
    Missing: dimensions 33 to 64, where the statement fails, below. *)
Theorem C50_histories_partial (d : Z) (vs : list Z) : 0 <= d <= 32 ->
  exists rs b, bs_run vs (bs_new d) = Ok (rs, b) /\ newflags d [] vs rs /\
  (forall v, exists j v', bs_reduce b v 0 = Ok (j, v') /\ -1 <= j < d /\ (j = -1 <-> spans d vs v) /\ spans d vs (Z.lxor v v') /\
     (forall k, j < k < d -> Z.testbit v' k = false) /\ (0 <= j -> Z.testbit v' j = true)) /\
  (forall v start, (start <= bdim b)%nat -> (forall k, (k < start)%nat -> Z.testbit v (nth k (bpivs b) 0) = false) -> bs_reduce b v start = bs_reduce b v 0) /\
  (forall v, exists w, 0 <= w < 2 ^ d /\ bs_mask b w = false /\ spans d vs (Z.lxor v w) /\
     forall w', 0 <= w' < 2 ^ d -> bs_mask b w' = false -> spans d vs (Z.lxor v w') -> w' = w).
Proof.
  intros Hd. destruct (bs_run_ok d vs Hd (bs_new d) [] (bs_new_ok d ltac:(lia))) as (rs & b & E & N & B). exists rs, b. split; auto. split; auto. split; [|split].
  - intros v. destruct (bs_reduce_ok d b vs v Hd B) as (j & v' & E' & _ & H). exists j, v'. split; auto.
  - intros v start H1 H2. apply (bs_reduce_start d b vs); auto.
  - intros v. apply (bs_rep d b vs v Hd B).
Qed.
Print Assumptions C50_histories_partial.

(** C50, refuted: in dimensions 33 to 64 the first bit tested shifts an int by 32 or more. *)
Theorem C50_wide_refuted (d v : Z) : 33 <= d <= 64 -> bs_reduce (bs_new d) v 0 = UB.
Proof.
  intros Hd. unfold bs_new, bs_reduce, bs_red. destruct (Z.ltb_spec d 0); [lia|]. destruct (Z.ltb_spec 64 d); [lia|]. cbn [bmax bgens bpivs bdim length Nat.sub seq mfold]. rewrite bind_Ok.
  replace (Z.to_nat d) with (S (Z.to_nat (d - 1))) by lia. cbn [bs_top]. unfold testbit_, shl1. destruct (Z.ltb_spec (Z.of_nat (Z.to_nat (d - 1))) 0); [lia|]. destruct (Z.leb_spec 32 (Z.of_nat (Z.to_nat (d - 1)))); [|lia]. reflexivity.
Qed.
Print Assumptions C50_wide_refuted.

(** dimension 32, using the last bit: 2^31+1, 2^31+2, 3 (dependent), 2^31 *)
Example C50_example : exists b, bs_run [2147483649; 2147483650; 3; 2147483648] (bs_new 32) = Ok ([true; true; false; true], b) /\ bs_reduce b 7 0 = Ok (2, 4) /\ bs_mask b 4 = false /\ bs_mask b 7 = true.
Proof. eexists; split; [vm_compute; reflexivity|]. split; [vm_compute; reflexivity|]. split; vm_compute; reflexivity. Qed.
Example C50_example_span : spans 3 [5; 6] 3 /\ ~ spans 3 [5; 6] 1.
Proof.
  split; [exists [true; true]; split; [reflexivity|]; intros i Hi; reflexivity|]. intros (bs & L & H). destruct bs as [|b [|c [|]]]; try discriminate. pose proof (H 0 ltac:(lia)). pose proof (H 1 ltac:(lia)). pose proof (H 2 ltac:(lia)). destruct b, c; vm_compute in *; discriminate.
Qed.
