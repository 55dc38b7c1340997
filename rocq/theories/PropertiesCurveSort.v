(** C88, C89: isogeny class codes and the permutations of the printed tables (curvesort.cc). *)
From Coq Require Import ZArith List Bool Lia.
From Verif Require Import Base CurveSortModel CurveSortSpec CurveSortProofs.
Import ListNotations.
Open Scope Z_scope.

(** Every class number i >= 0 has a code, which codeletter_to_int turns back into i; every code whose
    value fits an int is the code of its value; a longer code overflows.  Negative numbers read outside
    the alphabet. *)
Theorem C88_codes :
  (forall i, 0 <= i < 2 ^ 31 -> exists l, new_codeletter i = Ok l /\ is_code l /\ codeletter_to_int l = Ok i) /\
  (forall l, is_code l -> base26 l < 2 ^ 31 -> codeletter_to_int l = Ok (base26 l) /\ new_codeletter (base26 l) = Ok l) /\
  (forall l, letters l -> 2 ^ 31 <= base26 l -> codeletter_to_int l = UB) /\
  (forall i, i < 0 -> new_codeletter i = UB).
Proof.
  assert (INV : forall l, letters l -> base26 l < 2 ^ 31 -> codeletter_to_int l = Ok (base26 l)).
  { intros l L B. unfold codeletter_to_int. rewrite (code_loop_ok l L 0); [f_equal; ring|lia|rewrite Z.mul_0_l; exact B]. }
  split; [|split; [|split]].
  - intros i I. destruct (new_codeletter_ok i (proj1 I)) as (l & E & C & V). exists l. split; [exact E|]. split; [exact C|].
    rewrite INV, V; [reflexivity|exact (proj1 C)|rewrite V; apply I].
  - intros l C B. split; [apply INV; [exact (proj1 C)|exact B]|].
    destruct (new_codeletter_ok (base26 l) (proj1 (base26_bound l (proj1 C)))) as (l' & -> & C' & V). f_equal. apply code_unique; assumption.
  - intros l L B. unfold codeletter_to_int. apply code_loop_big; [exact L|lia|rewrite Z.mul_0_l; exact B].
  - exact new_codeletter_neg.
Qed.
Print Assumptions C88_codes.

(** codes are in the order of the class numbers: a, ..., z, ba, ..., zz, baa, ... *)
Theorem C88_order i j l l' : 0 <= i -> 0 <= j -> new_codeletter i = Ok l -> new_codeletter j = Ok l' -> (i < j <-> code_lt l l').
Proof.
  intros I J E E'. destruct (new_codeletter_ok i I) as (l1 & E1 & C & V). destruct (new_codeletter_ok j J) as (l2 & E2 & C' & V').
  rewrite E in E1. rewrite E' in E2. injection E1 as <-. injection E2 as <-. subst i j. split.
  - intros H. destruct (code_le l l' C C' ltac:(lia)) as [->|X]; [lia|exact X].
  - intros H. apply code_lt_asym; [exact H|exact (proj1 C)|exact (proj1 C')|exact C|exact C'].
Qed.
Print Assumptions C88_order.

(** z is 25, ba is 26, vt is 565; 2^31 - 1 has the code gytisyx *)
Example C88_example : new_codeletter 25 = Ok [122] /\ new_codeletter 26 = Ok [98; 97] /\ new_codeletter 565 = Ok [118; 116] /\
  codeletter_to_int [118; 116] = Ok 565 /\ new_codeletter (2 ^ 31 - 1) = Ok [103; 121; 116; 105; 115; 121; 120] /\
  is_code [103; 121; 116; 105; 115; 121; 121] /\ codeletter_to_int [103; 121; 116; 105; 115; 121; 121] = UB /\
  code_lt [122] [98; 97].
Proof.
  split; [vm_compute; reflexivity|]. split; [vm_compute; reflexivity|]. split; [vm_compute; reflexivity|]. split; [vm_compute; reflexivity|].
  split; [vm_compute; reflexivity|]. split.
  { split; [|right; exists 103, [121; 116; 105; 115; 121; 121]; split; [reflexivity|discriminate]].
    intros c H. cbn [In] in H. lia. }
  split; [vm_compute; reflexivity|]. left. cbn. lia.
Qed.

(** At every level booknumber0 is the identity, or permutes 0, ..., n-1 for some n, 0 < n <= 8, and reads
    outside its array for every other form. *)
Theorem C89_booknumber level :
  (forall form, booknumber0 level form = Ok form) \/
  exists n f, 0 < n <= 8 /\ permutes f n /\ forall form,
    (0 <= form < n -> booknumber0 level form = Ok (f form) /\ booknumber level (form + 1) = Ok (f form + 1)) /\
    (~ 0 <= form < n -> booknumber0 level form = UB).
Proof.
  destruct (booknumber0_ok level) as [H|(n & f & N & P & H)]; [left; exact H|right].
  exists n, f. split; [exact N|]. split; [exact P|]. intros form. split; intros B.
  - assert (E : booknumber0 level form = Ok (f form)).
    { rewrite H. replace ((0 <=? form) && (form <? n)) with true by (symmetry; apply andb_true_iff; rewrite Z.leb_le, Z.ltb_lt; lia). reflexivity. }
    split; [exact E|]. unfold booknumber. replace (form + 1 - 1) with form by ring. pose proof (proj1 P form B) as FB.
    unfold int_chk at 1. replace ((- 2 ^ 31 <=? form) && (form <? 2 ^ 31)) with true by (symmetry; apply andb_true_iff; rewrite Z.leb_le, Z.ltb_lt; lia).
    rewrite bind_Ok, E, bind_Ok. unfold int_chk.
    replace ((- 2 ^ 31 <=? 1 + f form) && (1 + f form <? 2 ^ 31)) with true by (symmetry; apply andb_true_iff; rewrite Z.leb_le, Z.ltb_lt; lia).
    f_equal. ring.
  - rewrite H. replace ((0 <=? form) && (form <? n)) with false; [reflexivity|]. symmetry. apply not_true_iff_false.
    rewrite andb_true_iff, Z.leb_le, Z.ltb_lt. exact B.
Qed.
Print Assumptions C89_booknumber.

(** at 378 the eight classes are permuted and a ninth is outside the array *)
Example C89_example : booknumber 378 1 = Ok 7 /\ booknumber 378 8 = Ok 3 /\ booknumber 378 9 = UB /\ booknumber0 11 0 = Ok 0 /\ booknumber0 57 2 = Ok 2.
Proof.
  split; [vm_compute; reflexivity|]. split; [vm_compute; reflexivity|]. split; [vm_compute; reflexivity|]. split; vm_compute; reflexivity.
Qed.
