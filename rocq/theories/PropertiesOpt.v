(** C48: the command line scanner (class GetOpt). *)
From Coq Require Import ZArith Lia List Bool Permutation.
From Verif Require Import Base OptModel OptSpec OptProofs OptMain OptEnd.
Import ListNotations.
Open Scope Z_scope.
Open Scope res_scope.

(** Every list of arguments has exactly one meaning: events, elements belonging to options, and
    operands; together these are the arguments. *)
Theorem C48_meaning md opts args : exists e o r, parses md opts None args e o r /\ Permutation args (o ++ r) /\
  forall e' o' r', parses md opts None args e' o' r' -> e' = e /\ o' = o /\ r' = r.
Proof.
  destruct (parses_total md opts (size args) None args ltac:(cbv iota beta; lia)) as (e & o & r & P). exists e, o, r. split; [auto|]. split; [exact (parses_perm _ _ _ _ _ _ _ P)|]. intros e' o' r' P'. destruct (parses_det _ _ _ _ _ _ _ P _ _ _ P') as (-> & -> & ->). auto.
Qed.
(** Calls until EOF tell the events in order and leave argv as program, options, operands,
    with optind at the first operand; if memcpy moves overlapping blocks correctly. *)
Theorem C48_scan_partial ord opts prog args : ~ In (-1) opts -> exists e o r l g,
  parses (omode ord) opts None args e o r /\ scans false ord opts (g_new (prog :: args)) l g /\ Forall2 told e l /\
  g_argv g = prog :: o ++ r /\ g_ind g = 1 + Z.of_nat (length o).
Proof.
  intros H. destruct (C48_meaning (omode ord) opts args) as (e & o & r & P & _). pose proof (scan_main false ord opts prog H None args e o r P (g_new (prog :: args)) [] [] [] (new_inv ord prog args) (or_introl eq_refl)) as (l & g & S & F & A & B); [discriminate|]. exists e, o, r, l, g. cbn [app] in A, B. auto.
Qed.
(** With memcpy undefined on overlapping blocks the same holds when nothing has to be
    permuted, and in general the same holds or a call is undefined. *)
Theorem C48_strict_partial ord opts prog args e o r : ~ In (-1) opts -> parses (omode ord) opts None args e o r ->
  (ord <> Permute \/ args = o ++ r -> exists l g, scans true ord opts (g_new (prog :: args)) l g /\ Forall2 told e l /\ g_argv g = prog :: o ++ r /\ g_ind g = 1 + Z.of_nat (length o)) /\
  ((exists l g, scans true ord opts (g_new (prog :: args)) l g /\ Forall2 told e l /\ g_argv g = prog :: o ++ r /\ g_ind g = 1 + Z.of_nat (length o)) \/ crash true ord opts (g_new (prog :: args))).
Proof.
  intros H P. split.
  - intros Q. pose proof (scan_main true ord opts prog H None args e o r P (g_new (prog :: args)) [] [] [] (new_inv ord prog args) (or_introl eq_refl)) as (l & g & S & F & A & B); [|exists l, g; cbn [app] in A, B; auto]. intros _ Ho. left. destruct Q as [Q|Q]; [contradiction|auto].
  - pose proof (scan_main false ord opts prog H None args e o r P (g_new (prog :: args)) [] [] [] (new_inv ord prog args) (or_introl eq_refl)) as (l & g & S & F & A & B); [discriminate|]. destruct (strict_or _ _ _ _ _ S) as [S'|C]; [left; exists l, g; cbn [app] in A, B; auto|right; exact C].
Qed.
(** prog x -n 5 with the option string n: copies overlapping blocks. *)
Theorem C48_overlap_refuted : exists opts prog args, ~ In (-1) opts /\ crash true Permute opts (g_new (prog :: args)).
Proof.
  exists [110; 58], [112], [[120]; [45; 110]; [53]]. split; [cbn [In]; lia|]. eapply cr_more; [vm_compute; reflexivity|lia|]. apply cr_now. vm_compute. reflexivity.
Qed.
(** A call after EOF is undefined as soon as there is an operand (prog x), and so is the first
    call with argc 0; a letter with code 255 in the option string is taken for EOF. *)
Theorem C48_after_refuted : (exists opts argv g, g_call false Permute opts (g_new argv) = Ok (-1, g) /\ g_call false Permute opts g = UB) /\
  (forall ord opts, g_call false ord opts (g_new []) = UB) /\
  (exists opts prog args e o r, parses Collect opts None args e o r /\ e <> [] /\ exists g, scans false Permute opts (g_new (prog :: args)) [] g).
Proof.
  split; [|split].
  - exists [], [[112]; [120]]. eexists. split; vm_compute; reflexivity.
  - intros ord opts. destruct ord; vm_compute; reflexivity.
  - exists [-1], [112], [[45; -1]]. do 3 eexists. split; [|split].
    + apply ps_option; [discriminate|]. apply ps_plain; [split; [discriminate|]; exists [], []; cbn [In]; tauto|]. apply ps_done, ps_nil.
    + discriminate.
    + eexists. apply sc_end. vm_compute. reflexivity.
Qed.
(** prog -v3 a -n 5 b, options v: n: *)
Example C48_ex : exists l g, scans false Permute [118; 58; 110; 58] (g_new [[112]; [45; 118; 51]; [97]; [45; 110]; [53]; [98]]) l g /\
  l = [(118, Some [51]); (110, Some [53])] /\ g_argv g = [[112]; [45; 118; 51]; [45; 110]; [53]; [97]; [98]] /\ g_ind g = 4.
Proof.
  do 2 eexists. split; [eapply sc_more; [vm_compute; reflexivity|lia|]; eapply sc_more; [vm_compute; reflexivity|lia|]; apply sc_end; vm_compute; reflexivity|]. split; [reflexivity|]. split; reflexivity.
Qed.
Print Assumptions C48_meaning.
Print Assumptions C48_scan_partial.
Print Assumptions C48_strict_partial.
Print Assumptions C48_overlap_refuted.
Print Assumptions C48_after_refuted.
