(** Ordered integer lists: C28 *)
From Coq Require Import ZArith Lia List Bool.
From Verif Require Import Base LinModel OrdModel OrdSpec OrdProofs.
Import ListNotations.
Open Scope Z_scope.

(** C28: every history of appends, insertions, removals, clears and reads, in which appended
    elements are the largest, single insertions have at most one larger element, and lists are
    added without the stale element being mistaken for a member (olegal), runs without leaving
    the array, and leaves the intended set in increasing order.  Missing: other histories, which
    go wrong, below. *)
Theorem C28_histories_partial (ls m : nat) (os : list oop) : (1 <= ls)%nat -> olegals ls (fun _ => False) (onew m) os ->
  exists l c, orun ls os (onew m) = Ok l /\ holds l c /\ forall y, In y c <-> orun_set os (fun _ => False) y.
Proof.
  intros Hls Lg. destruct (orun_ok ls Hls os (onew m) [] (fun _ => False) (onew_holds m)) as (l & E & c & H & M); [cbn; tauto|exact Lg|]. exists l, c. auto.
Qed.
Print Assumptions C28_histories_partial.

(** find, from the start of a non-empty list or from a place all before which is smaller: the
    first position whose element is not smaller. *)
Theorem C28_find (l : olist) (c : list Z) (x : Z) (lb : nat) : holds l c -> (lb < length c)%nat ->
  (forall y, In y (firstn lb c) -> y < x) ->
  exists i, ofind l x (Z.of_nat (onum l) - 1) (Z.of_nat lb) = Ok (Z.of_nat i) /\ (lb <= i <= length c)%nat /\
    (forall y, In y (firstn i c) -> y < x) /\ (forall y, In y (skipn i c) -> x <= y) /\ (In x c <-> nth_error c i = Some x).
Proof.
  intros H Lb Hb. pose proof (holds_cells _ _ H) as (Hc & Lc). pose proof H as (I & N & _).
  destruct (ofind_ok l c x lb I ltac:(lia) N Lc ltac:(lia)) as (i & E & R1 & R2 & R3); [intros j Hj; apply Hc; lia|lia|].
  assert (R2' : forall j, (0 <= j < i)%nat -> nth j c 0 < x) by (intros j Hj; destruct (Nat.lt_ge_cases j lb); [apply Hb; apply in_firstn; [lia|exists j; auto]|apply R2; lia]).
  exists i. split; [exact E|]. split; [exact R1|]. split; [|split].
  - intros y Hy. apply in_firstn in Hy; [|lia]. destruct Hy as (j & Hj & <-). apply R2'. lia.
  - intros y Hy. apply (In_nth _ _ 0) in Hy. destruct Hy as (j & Hj & <-). rewrite skipn_length in Hj. rewrite LinProofs.nth_skipn'. apply R3. lia.
  - rewrite (found_iff c x i I ltac:(lia) R2' R3). split; [intros (L & Q); rewrite (nth_error_nth' c 0) by auto; congruence|]. intros Q. split; [apply nth_error_Some; congruence|apply nth_error_nth; exact Q].
Qed.
Print Assumptions C28_find.

(** C28, refuted: 3 is put in, taken out, and put in again with put(L): the slot after the
    last element still holds 3, which is taken for a member, and 3 is not put in. *)
Theorem C28_stale_refuted : exists os l, orun 10 os (onew 10) = Ok l /\ onum l = 1%nat /\ ~ In (Some 3) (firstn (onum l) (oarr l)) /\ orun_set os (fun _ => False) 3.
Proof.
  exists [OApp 1; OApp 3; ORem 3; OPuts [3]]. eexists; split; [vm_compute; reflexivity|]. split; [reflexivity|]. split; [cbn; intros [E|[]]; discriminate|]. cbn. auto.
Qed.
Print Assumptions C28_stale_refuted.
(** C28, refuted: put(x) with two or more larger elements copies the last ones over the others:
    inserting 3 among 1, 5, 9 loses 5. *)
Theorem C28_put_refuted : exists l, orun 10 [OPut 1; OPut 5; OPut 9; OPut 3] (onew 10) = Ok l /\ onum l = 4%nat /\ ~ In (Some 5) (firstn (onum l) (oarr l)).
Proof. eexists; split; [vm_compute; reflexivity|]. split; [reflexivity|]. cbn. intros [E|[E|[E|[E|[]]]]]; discriminate. Qed.
Print Assumptions C28_put_refuted.
(** C28, refuted: putting in a list with an element larger than all, when the array is full,
    reads past its end. *)
Theorem C28_full_refuted : exists os, orun 10 os (onew 10) = UB /\ exists l, orun 10 (removelast os) (onew 10) = Ok l /\ onum l = 10%nat.
Proof.
  exists [OPuts [0;1;2;3;4;5;6;7;8;9]; OPuts [20]]. split; [vm_compute; reflexivity|]. eexists; split; [vm_compute; reflexivity|reflexivity].
Qed.
Print Assumptions C28_full_refuted.
(** C28, refuted: removing from an empty list reads element -1. *)
Theorem C28_empty_refuted : orun 10 [OApp 1; ORem 1; ORem 1] (onew 10) = UB /\ orun 10 [ORem 1] (onew 10) = UB.
Proof. split; vm_compute; reflexivity. Qed.
Print Assumptions C28_empty_refuted.

(** the hypotheses are met: a list grown beyond its first size, merged into, and thinned out *)
Lemma olegals_cons ls P l o os l' : ostep ls l o = Ok l' -> olegal P l o -> olegals ls (ostep_set P o) l' os -> olegals ls P l (o :: os).
Proof. intros E L H. cbn [olegals]. split; auto. intros l'' E'. rewrite E in E'. injection E' as <-. exact H. Qed.
Example C28_histories_example : olegals 2 (fun _ => False) (onew 0) [OApp 1; OApp 4; OPut 3; OPut 4; OPuts [2; 3]; ONext; ORems [1; 3]; ORem 4].
Proof.
  eapply olegals_cons; [vm_compute; reflexivity|cbn [olegal ostep_set In incr]|].
  { tauto. }
  eapply olegals_cons; [vm_compute; reflexivity|cbn [olegal ostep_set In incr]|].
  { intros; lia. }
  eapply olegals_cons; [vm_compute; reflexivity|cbn [olegal ostep_set In incr]|].
  { right; intros; lia. }
  eapply olegals_cons; [vm_compute; reflexivity|cbn [olegal ostep_set In incr]|].
  { left; lia. }
  eapply olegals_cons; [vm_compute; reflexivity|cbn [olegal ostep_set In incr]|].
  { split; [intuition lia|]; right; intros x Hx; left; exists 4; lia. }
  eapply olegals_cons; [vm_compute; reflexivity|cbn [olegal ostep_set In incr]|].
  { exact Logic.I. }
  eapply olegals_cons; [vm_compute; reflexivity|cbn [olegal ostep_set In incr]|].
  { split; [intuition lia|]; intros x Hx; lia. }
  eapply olegals_cons; [vm_compute; reflexivity|cbn [olegal ostep_set In incr]|].
  { lia. }
  exact Logic.I.
Qed.
Example C28_histories_run : exists l, orun 2 [OApp 1; OApp 4; OPut 3; OPut 4; OPuts [2; 3]; ONext; ORems [1; 3]; ORem 4] (onew 0) = Ok l /\ holds l [2].
Proof. eexists; split; [vm_compute; reflexivity|]. cbn. split; [cbn; tauto|]. split; reflexivity. Qed.
Example C28_find_example : holds (Ol [Some 2; Some 5; Some 9; Some 7; None] 3 0) [2; 5; 9] /\ ofind (Ol [Some 2; Some 5; Some 9; Some 7; None] 3 0) 6 2 1 = Ok 2.
Proof. split; [|reflexivity]. split; [cbn; intuition lia|]. split; reflexivity. Qed.
