(** C66: the Hilbert symbols of hilbert.cc. *)
From Coq Require Import ZArith Lia List Bool Znumtheory Sorted.
From Verif Require Import Base FormsModel ConicModel ConicProofs ConicSpec ConicExample HilbertModel LocSolSpec HilbertSpec LocSolArith HilbertLocal HilbertProofs HilbertGlobal.
Import ListNotations.
Open Scope Z_scope.

(** local_hilbert(a,b,p) is 0 if a x^2 + b y^2 = z^2 has a non-trivial solution over Q_p (over R for p = 0), and 1 otherwise. *)
Theorem C66_local a b p : a <> 0 -> b <> 0 -> p = 0 \/ prime p ->
  exists r, local_hilbert a b p = Ok r /\ ((r = 0 /\ soluble_at p a b) \/ (r = 1 /\ ~ soluble_at p a b)).
Proof.
  intros A B [->|Hp].
  - destruct (real_place a b A B) as (r & E & H). exists r. split; [exact E|]. unfold soluble_at. cbn [Z.eqb]. tauto.
  - destruct (local_hilbert_ok a b p A B Hp) as (r & E & H). exists r. split; [exact E|]. unfold soluble_at.
    pose proof (prime_ge_2 p Hp). destruct (Z.eqb_spec p 0); [lia|exact H].
Qed.
Print Assumptions C66_local.
(** 3 x^2 + 5 y^2 = z^2 fails at 3 and at 5 only; -1, -1 fails at 2 and at the real place *)
Example C66_local_ex : map (local_hilbert 3 5) [0; 2; 3; 5; 7] = [Ok 0; Ok 0; Ok 1; Ok 1; Ok 0] /\
  map (local_hilbert (-1) (-1)) [0; 2; 3] = [Ok 1; Ok 1; Ok 0] /\
  map (local_hilbert 12 (-45)) [0; 2; 3; 5] = [Ok 0; Ok 1; Ok 0; Ok 1].
Proof. repeat split; vm_compute; reflexivity. Qed.

(** global_hilbert with a list of primes: 0 exactly when there is a solution in integers (the theorem of Hasse and Minkowski);
    otherwise 1, and badp is a place without local solution.  The list need not contain 2. *)
Theorem C66_global a b plist badp0 : a <> 0 -> b <> 0 -> Forall prime plist ->
  (forall p, prime p -> p <> 2 -> (p | a * b) -> In p plist) ->
  exists v badp, global_hilbert a b plist badp0 = Ok (v, badp) /\
   ((v = 0 /\ has_solution (hilbert_eq a b)) \/
    (v = 1 /\ ~ has_solution (hilbert_eq a b) /\ (badp = 0 \/ In badp plist) /\ ~ soluble_at badp a b)).
Proof. intros A B F C. apply global_hilbert_ok; auto. Qed.
Print Assumptions C66_global.
(** the entry which finds the primes *)
Theorem C66_global_ab pdivs a b badp0 : finds_primes pdivs -> a <> 0 -> b <> 0 ->
  exists v badp, global_hilbert_ab pdivs a b badp0 = Ok (v, badp) /\
   ((v = 0 /\ has_solution (hilbert_eq a b)) \/
    (v = 1 /\ ~ has_solution (hilbert_eq a b) /\ (badp = 0 \/ prime badp) /\ ~ soluble_at badp a b)).
Proof.
  intros PD A B. unfold global_hilbert_ab. destruct (PD a A) as (SA & HA). destruct (PD b B) as (SB & HB).
  destruct (union_ok (pdivs a) (pdivs b) SA SB) as (_ & U).
  assert (F : Forall prime (vector_union (pdivs a) (pdivs b))).
  { apply Forall_forall. intros p I. apply U in I as [I|I]; [now apply HA|now apply HB]. }
  destruct (C66_global a b (vector_union (pdivs a) (pdivs b)) badp0 A B F) as (v & q & E & H).
  - intros p Hp _ D. apply U. apply (prime_mult p Hp) in D as [D|D]; [left; now apply HA|right; now apply HB].
  - exists v, q. split; [exact E|]. destruct H as [H|(V & N & [Q|Q] & S)]; [now left|right|right].
    + auto.
    + split; [exact V|]. split; [exact N|]. split; [right; now apply (proj1 (Forall_forall _ _) F)|exact S].
Qed.
Print Assumptions C66_global_ab.
Example C66_global_ex : finds_primes pdivs_example /\ global_hilbert_ab pdivs_example 3 5 0 = Ok (1, 3) /\
  global_hilbert_ab pdivs_example (-7) 11 0 = Ok (0, 11) /\ hilbert_eq (-7) 11 1 1 2 /\
  global_hilbert_ab pdivs_example (-1) (-1) 5 = Ok (1, 0).
Proof. split; [exact pdivs_contract_met|]. repeat split; vm_compute; reflexivity. Qed.
(** the same in the form without the code: solubility over Q is solubility everywhere *)
Theorem C66_hasse a b : a <> 0 -> b <> 0 ->
  (has_solution (hilbert_eq a b) <-> soluble_R a b /\ forall p, prime p -> soluble_Qp p a b).
Proof.
  intros A B. split.
  - intros S. split; [now apply solution_R|]. intros p Hp. now apply solution_Qp.
  - intros (R & Q). apply hasse; auto. destruct (real_place a b A B) as (r & _ & [(_ & H & _)|(_ & H)]); [exact H|contradiction].
Qed.
Print Assumptions C66_hasse.

(** The conic a x^2 + b x z + c z^2 = d y^2: the primes of d and of the discriminant suffice. *)
Theorem C66_conic a b c d plist badp0 : a <> 0 -> d <> 0 -> b * b - 4 * a * c <> 0 -> Forall prime plist ->
  (forall p, prime p -> p <> 2 -> (p | d * (b * b - 4 * a * c)) -> In p plist) ->
  exists v badp, global_hilbert_qd_plist (Qd a b c) d plist badp0 = Ok (v, badp) /\
   ((v = 0 /\ has_solution (conic a b c d)) \/
    (v = 1 /\ ~ has_solution (conic a b c d) /\ (badp = 0 \/ In badp plist) /\ ~ soluble_at badp (a * d) (b * b - 4 * a * c))).
Proof. intros A D DI F C. now apply global_hilbert_qd_ok. Qed.
Print Assumptions C66_conic.
Theorem C66_conic_pdivs pdivs a b c d badp0 : finds_primes pdivs -> a <> 0 -> d <> 0 -> b * b - 4 * a * c <> 0 ->
  exists v badp, global_hilbert_qd pdivs (Qd a b c) d badp0 = Ok (v, badp) /\
   ((v = 0 /\ has_solution (conic a b c d)) \/
    (v = 1 /\ ~ has_solution (conic a b c d) /\ (badp = 0 \/ prime badp) /\ ~ soluble_at badp (a * d) (b * b - 4 * a * c))).
Proof.
  intros PD A D DI. destruct (PD _ DI) as (SA & HA). destruct (PD d D) as (SB & HB).
  destruct (union_ok _ _ SA SB) as (_ & U).
  assert (F : Forall prime (vector_union (pdivs (b * b - 4 * a * c)) (pdivs d))).
  { apply Forall_forall. intros p I. apply U in I as [I|I]; [now apply HA|now apply HB]. }
  destruct (C66_conic a b c d _ badp0 A D DI F) as (v & q & E & H).
  - intros p Hp _ Dp. apply U. apply (prime_mult p Hp) in Dp as [Dp|Dp]; [right; now apply HB|left; now apply HA].
  - exists v, q. split; [exact E|]. destruct H as [H|(V & N & [Q|Q] & S)]; [now left|right|right].
    + auto.
    + split; [exact V|]. split; [exact N|]. split; [right; now apply (proj1 (Forall_forall _ _) F)|exact S].
Qed.
Print Assumptions C66_conic_pdivs.
Example C66_conic_ex : global_hilbert_qd pdivs_example (Qd 3 1 (-7)) 5 0 = Ok (0, 17) /\ conic 3 1 (-7) 5 3 1 2 /\
  global_hilbert_qd pdivs_example (Qd 1 0 1) 3 0 = Ok (1, 2).
Proof. repeat split; vm_compute; reflexivity. Qed.

(** With leading coefficient 0 the answer is "insoluble at the real place", and x z = y^2 has the solution (1,1,1). *)
Theorem C66_leading_zero_refuted : exists b c d, d <> 0 /\ b * b - 4 * 0 * c <> 0 /\ has_solution (conic 0 b c d) /\
  forall pdivs badp0, global_hilbert_qd pdivs (Qd 0 b c) d badp0 = Ok (1, 0).
Proof.
  exists 1, 0, 1. split; [discriminate|]. split; [discriminate|]. split; [|reflexivity].
  exists 1, 1, 1. split; [reflexivity|]. intros (H & _). discriminate.
Qed.
Print Assumptions C66_leading_zero_refuted.
