(** M-symbols, expansions of modular symbols, cusps: C41 - C43 *)
From Coq Require Import ZArith Znumtheory Lia List Bool.
From Verif Require Import Base RatModel P1Math SymbModel SymbProofs SymbMain SymbIndex CuspModel CuspProofs CuspEq.
Import ListNotations.
Open Scope Z_scope.

(** * C41: the numbering of the M-symbols of level N *)
Theorem C41_symbols N ps : 1 < N -> N * N <= max64 -> pfull N ps ->
  exists D, symbdata_of N ps = Ok D /\
  (* the number of symbols is N prod (1 + 1/p) *)
  nsymb (fst D) * prodf id ps = N * prodf (fun p => p + 1) ps /\
  (forall i, in_range D i -> exists c d, symbol D i = Ok (c, d) /\ Z.gcd (Z.gcd c d) N = 1 /\ index2 D c d = Ok i) /\
  (forall c d, Z.abs c * N <= max64 -> Z.abs d * N <= max64 -> unimod N c d ->
    exists i s, index2 D c d = Ok i /\ in_range D i /\ symbol D i = Ok s /\ sim N s (c, d)) /\
  (forall c d c' d', Z.abs c * N <= max64 -> Z.abs d * N <= max64 -> unimod N c d ->
    Z.abs c' * N <= max64 -> Z.abs d' * N <= max64 -> unimod N c' d' ->
    (index2 D c d = index2 D c' d' <-> sim N (c, d) (c', d'))).
Proof.
  intros N1 NN HF. destruct (symbdata_ok N ps N1 NN HF) as (D & E & EN & H). exists D. split; [exact E|].
  split; [rewrite EN; exact (proj2 (psi_val ps N ltac:(lia) (proj1 HF)))|]. split; [|split; [exact (num_index N D H)|exact (index_sim N D H)]].
  intros i Hi. destruct (num_symbol N D H i Hi) as (c & d & Es & _ & _ & U). exists c, d. split; [exact Es|]. split; [exact U|].
  exact (index_symbol N D N1 NN H i c d Hi Es).
Qed.
Print Assumptions C41_symbols.

(** the maps on indices are those of the four matrices, with the right orders *)
Theorem C41_actions N ps : 1 < N -> N * N <= max64 -> pfull N ps ->
  exists D, symbdata_of N ps = Ok D /\
  (acts N D (rof D) (fun s => (snd s, fst s)) /\ acts N D (rsof D) (fun s => (- fst s, snd s)) /\
   acts N D (sof D) (fun s => (- snd s, fst s)) /\ acts N D (tof D) (fun s => (fst s - snd s, fst s))) /\
  forall i, in_range D i ->
  (exists j, rof D i = Ok j /\ in_range D j /\ rof D j = Ok i) /\ (exists j, rsof D i = Ok j /\ in_range D j /\ rsof D j = Ok i) /\
  (exists j, sof D i = Ok j /\ in_range D j /\ sof D j = Ok i) /\
  (exists j k, tof D i = Ok j /\ in_range D j /\ tof D j = Ok k /\ in_range D k /\ tof D k = Ok i).
Proof.
  intros N1 NN HF. destruct (symbdata_ok N ps N1 NN HF) as (D & E & EN & H). exists D.
  exact (conj E (conj (actions N D N1 NN H) (orders N D N1 NN H))).
Qed.
Print Assumptions C41_actions.

Lemma pfull12 : pfull 12 [2; 3].
Proof.
  split; [split; [|split]|].
  - repeat constructor; simpl; intuition lia.
  - apply Forall_cons; [apply prime_2|]. apply Forall_cons; [apply prime_3|constructor].
  - apply Forall_cons; [exists 6; reflexivity|]. apply Forall_cons; [exists 4; reflexivity|constructor].
  - intros p Hp D. change 12 with (2 * (2 * 3)) in D. apply prime_mult in D; [|exact Hp]. destruct D as [D|D].
    + left. symmetry. exact (prime_div_prime p 2 Hp prime_2 D).
    + apply prime_mult in D; [|exact Hp]. destruct D as [D|D]; [left; symmetry; exact (prime_div_prime p 2 Hp prime_2 D)|].
      right. left. symmetry. exact (prime_div_prime p 3 Hp prime_3 D).
Qed.
Example C41_ex : 1 < 12 /\ 12 * 12 <= max64 /\ pfull 12 [2; 3] /\
  exists D, symbdata_of 12 [2; 3] = Ok D /\ nsymb (fst D) = 24 /\ symbol D 22 = Ok (3, 2) /\
  index2 D 15 (-10) = Ok 22 /\ index2 D 9 2 = Ok 22 /\ index2 D (-15) 4 = Ok 23 /\
  rof D 22 = Ok 20 /\ tof D 22 = Ok 14 /\ sof D 22 = Ok 20.
Proof.
  split; [lia|]. split; [vm_compute; discriminate|]. split; [exact pfull12|].
  eexists. split; [vm_compute; reflexivity|]. repeat split; vm_compute; reflexivity.
Qed.

(** level 1 has one symbol, but looking it up reads outside the tables *)
Theorem C41_level_one_refuted : exists D, symbdata_of 1 [] = Ok D /\ nsymb (fst D) = 1 /\ Z.gcd (Z.gcd 0 1) 1 = 1 /\ ~ exists i, index2 D 0 1 = Ok i.
Proof.
  eexists. split; [vm_compute; reflexivity|]. split; [reflexivity|]. split; [reflexivity|]. intros [i H]. vm_compute in H. discriminate H.
Qed.
Print Assumptions C41_level_one_refuted.

(** * C42: expansions of modular symbols *)
(** {0, nn/dd}: the symbols form a chain of unimodular steps from 0 to nn/dd in lowest terms *)
Theorem C42_from_zero nn dd : Z.abs nn + 2 * Z.abs dd + 2 <= max64 ->
  exists l p q, cf_symbols nn dd = Ok l /\ path (0, 1) (p, q) l /\ Z.gcd p q = 1 /\ nn * q = dd * p /\
    Forall (fun s => Z.gcd (fst s) (snd s) = 1 /\ Z.abs (fst s) <= Z.max 1 (Z.abs dd) /\ Z.abs (snd s) <= Z.max 1 (Z.abs dd)) l.
Proof.
  intros B. destruct (cf_symbols_ok nn dd B) as (l & p & q & E & P & G & (g & -> & ->) & F). exists l, p, q.
  split; [exact E|]. split; [exact P|]. split; [exact G|]. split; [ring|exact F].
Qed.
Print Assumptions C42_from_zero.
Example C42_ex : cf_symbols 7 17 = Ok [(0, 1); (1, 0); (-2, -1); (-5, 2); (17, 5)] /\
  cf_symbols 14 (-34) = Ok [(0, 1); (1, 0); (2, -1); (-5, -2); (-17, 5)] /\ cf_symbols 3 0 = Ok [(0, 1)].
Proof. repeat split; vm_compute; reflexivity. Qed.
(** the chain of the first example: 0, 1/0, 0, 1/2, 2/5, 7/17 *)
Example C42_path_ex : path (0, 1) (7, 17) [(0, 1); (1, 0); (-2, -1); (-5, 2); (17, 5)].
Proof.
  apply (path_cons 1 0 0 1); [reflexivity|]. apply path_sign. apply (path_cons 0 (-1) 1 0); [reflexivity|].
  apply path_sign. apply (path_cons (-1) 0 (-2) (-1)); [reflexivity|]. apply path_sign. apply (path_cons (-2) 1 (-5) 2); [reflexivity|].
  apply path_sign. apply (path_cons 7 2 17 5); [reflexivity|]. constructor.
Qed.

(** {al, be} for two cusps *)
Theorem C42_between_cusps al be : cusp_le 1000000 al -> cusp_le 1000000 be ->
  exists l, ms_symbols al be = Ok l /\ path al be (rev l) /\ Forall (fun s => Z.gcd (fst s) (snd s) = 1) l.
Proof. exact (ms_symbols_ok al be). Qed.
Print Assumptions C42_between_cusps.
Example C42_ms_ex : cusp_le 1000000 (1, 0) /\ cusp_le 1000000 (3, 7) /\ ms_symbols (1, 0) (3, 7) = Ok [(7, -2); (-2, 1); (1, 0)] /\
  ms_symbols (2, 5) (7, 17) = Ok [(17, 5)].
Proof. repeat split; try (vm_compute; reflexivity); cbn; lia. Qed.

(** * C43: cusps *)
Theorem C43_cuspeq N ps : 1 < N -> N * N <= max64 -> pfull N ps ->
  exists M, moddata_of N ps = Ok M /\
  forall plus c1 c2, cusp_le 2000000000 c1 -> cusp_le 2000000000 c2 ->
    exists b, cuspeq M plus c1 c2 = Ok b /\ (b = true <-> ceq N plus c1 c2).
Proof.
  intros N1 NN HF. destruct (moddata_ok N ps N1 NN HF) as (M & E & HG). exists M. split; [exact E|].
  exact (cuspeq_ok N M N1 HG).
Qed.
Print Assumptions C43_cuspeq.
Theorem C43_equivalence N plus : (forall c, ceq N plus c c) /\ (forall c c', ceq N plus c c' -> ceq N plus c' c) /\
  (forall c c' c'', ceq N plus c c' -> ceq N plus c' c'' -> ceq N plus c c'').
Proof. exact (conj (ceq_refl N plus) (conj (ceq_sym N plus) (ceq_trans N plus))). Qed.
Print Assumptions C43_equivalence.

(** any sequence of calls of index on an empty list *)
Theorem C43_index N ps : 1 < N -> N * N <= max64 -> pfull N ps ->
  exists M, moddata_of N ps = Ok M /\
  forall plus cs, Forall (cusp_le 2000000000) cs -> exists is l, calls (cusp_index M plus) [] cs = Ok (is, l) /\ length is = length cs /\
  forall j k c c' i i', nth_error cs j = Some c -> nth_error is j = Some i -> nth_error cs k = Some c' -> nth_error is k = Some i' ->
    (i = i' <-> ceq N plus c c').
Proof.
  intros N1 NN HF. destruct (moddata_ok N ps N1 NN HF) as (M & E & HG). exists M. split; [exact E|]. exact (index_calls N M N1 HG).
Qed.
Print Assumptions C43_index.
(** index_1: 0 for the classes with c ~ -c, signed numbers for the others *)
Theorem C43_index_1 N ps : 1 < N -> N * N <= max64 -> pfull N ps ->
  exists M, moddata_of N ps = Ok M /\
  forall cs, Forall (cusp_le 2000000000) cs -> exists is l, calls (cusp_index_1 M) [] cs = Ok (is, l) /\ length is = length cs /\
  (forall j c i, nth_error cs j = Some c -> nth_error is j = Some i -> (i = 0 <-> g0eq N c (rneg c))) /\
  forall j k c c' i i', nth_error cs j = Some c -> nth_error is j = Some i -> nth_error cs k = Some c' -> nth_error is k = Some i' -> i <> 0 -> i' <> 0 ->
    (i = i' <-> g0eq N c c') /\ (i = - i' <-> g0eq N c (rneg c')).
Proof.
  intros N1 NN HF. destruct (moddata_ok N ps N1 NN HF) as (M & E & HG). exists M. split; [exact E|]. exact (index_1_calls N M N1 HG).
Qed.
Print Assumptions C43_index_1.
(** index_2: only the classes with c ~ -c are numbered *)
Theorem C43_index_2 N ps : 1 < N -> N * N <= max64 -> pfull N ps ->
  exists M, moddata_of N ps = Ok M /\
  forall cs, Forall (cusp_le 2000000000) cs -> exists is l, calls (cusp_index_2 M) [] cs = Ok (is, l) /\ length is = length cs /\
  (forall j c i, nth_error cs j = Some c -> nth_error is j = Some i -> (i = 0 <-> ~ g0eq N c (rneg c))) /\
  forall j k c c' i i', nth_error cs j = Some c -> nth_error is j = Some i -> nth_error cs k = Some c' -> nth_error is k = Some i' -> i <> 0 -> i' <> 0 ->
    (i = i' <-> g0eq N c c').
Proof.
  intros N1 NN HF. destruct (moddata_ok N ps N1 NN HF) as (M & E & HG). exists M. split; [exact E|]. exact (index_2_calls N M N1 HG).
Qed.
Print Assumptions C43_index_2.

Definition cusps25 : list rat := [(0, 1); (1, 5); (2, 5); (3, 5); (4, 5); (6, 5); (1, 0)].
Example C43_ex : pfull 25 [5] /\ Forall (cusp_le 2000000000) cusps25 /\ exists M, moddata_of 25 [5] = Ok M /\
  calls (cusp_index M false) [] cusps25 = Ok ([1; 2; 3; 4; 5; 2; 6], [(0, 1); (1, 5); (2, 5); (3, 5); (4, 5); (1, 0)]) /\
  calls (cusp_index M true) [] cusps25 = Ok ([1; 2; 3; 3; 2; 2; 4], [(0, 1); (1, 5); (2, 5); (1, 0)]) /\
  calls (cusp_index_1 M) [] cusps25 = Ok ([0; 1; 2; -2; -1; 1; 0], [(1, 5); (2, 5)]) /\
  calls (cusp_index_2 M) [] cusps25 = Ok ([1; 0; 0; 0; 0; 0; 2], [(0, 1); (1, 0)]).
Proof.
  assert (P5 : prime 5).
  { apply prime_alt. split; [lia|]. intros n Hn [k K]. assert (0 < k < 5) by nia. assert (k = 1 \/ k = 2 \/ k = 3 \/ k = 4) by lia. nia. }
  split.
  - split; [split; [|split]|].
    + repeat constructor. simpl. tauto.
    + apply Forall_cons; [exact P5|constructor].
    + apply Forall_cons; [exists 5; reflexivity|constructor].
    + intros p Hp D. change 25 with (5 * 5) in D. left. symmetry. apply (prime_div_prime p 5 Hp P5). apply prime_mult in D; [|exact Hp]. tauto.
  - split; [repeat constructor; cbn; lia|]. eexists. split; [vm_compute; reflexivity|]. repeat split; vm_compute; reflexivity.
Qed.
Example C43_equiv_ex : g0eq 25 (1, 5) (6, 5).
Proof. exists 1, 1, 0, 1, 1. cbn. repeat split; auto. exists 0. reflexivity. Qed.
