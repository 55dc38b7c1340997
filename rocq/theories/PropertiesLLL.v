(** C33: integral LLL reduction (illl.cc). *)
From Coq Require Import ZArith Lia List Bool.
From Verif Require Import Base RatModel LinSpec LLLModel LLLSpec LLLLoop LLLEnd.
Import ListNotations.
Open Scope Z_scope.

(** For every number of vectors, every dimension, every independent vectors and every positive
    weights: lll_reduce ends, whatever a division does when it is not exact (so every division is
    exact), and replaces the vectors by an LLL-reduced basis of the same lattice. *)
Theorem C33_lll n m g vs : (1 <= n)%nat -> length vs = n -> length g = m -> (forall v, In v vs -> length v = m) -> (forall w, In w g -> 0 < w) ->
  lin_indep m vs ->
  exists N ws, (forall div f, exact_division (@Ok Z) div -> (N <= f)%nat -> lll_reduce div f n (g :: vs) = Ok (g :: ws, true)) /\
    length ws = n /\ (forall v, In v ws -> length v = m) /\ same_lattice m vs ws /\ lin_indep m ws /\ lll_reduced m g ws.
Proof.
  intros Hn Hv Hg Hl Hw I.
  destruct (lll_spec n m g vs) as (ws & fl & (N & E) & Lw & Ll & SL & IN & A & _); auto.
  - intros i Hi. apply Hl, nth_In. lia.
  - intros t Ht. apply Hw, nth_In. lia.
  - destruct (A I) as (-> & R). exists N, ws. split; [intros; apply E; auto|]. split; [auto|]. split.
    + intros v Hv'. destruct (In_nth ws v [] Hv') as (i & Hi & <-). apply Ll. lia.
    + split; [exact SL|]. split; [apply IN, I|exact R].
Qed.
Print Assumptions C33_lll.

(** Dependent vectors: it ends as well, the result generates the same lattice, and when there are
    at least two vectors the message is printed. *)
Theorem C33_dependent n m g vs : (1 <= n)%nat -> length vs = n -> length g = m -> (forall v, In v vs -> length v = m) -> (forall w, In w g -> 0 < w) ->
  ~ lin_indep m vs ->
  exists N ws fl, (forall div f, exact_division (@Ok Z) div -> (N <= f)%nat -> lll_reduce div f n (g :: vs) = Ok (g :: ws, fl)) /\
    length ws = n /\ (forall v, In v ws -> length v = m) /\ same_lattice m vs ws /\ ((2 <= n)%nat -> fl = false).
Proof.
  intros Hn Hv Hg Hl Hw I.
  destruct (lll_spec n m g vs) as (ws & fl & (N & E) & Lw & Ll & SL & IN & _ & B); auto.
  - intros i Hi. apply Hl, nth_In. lia.
  - intros t Ht. apply Hw, nth_In. lia.
  - exists N, ws, fl. split; [intros; apply E; auto|]. split; [auto|]. split.
    + intros v Hv'. destruct (In_nth ws v [] Hv') as (i & Hi & <-). apply Ll. lia.
    + split; [exact SL|apply B, I].
Qed.
Print Assumptions C33_dependent.

(** The first vector of a reduced basis: no non-zero combination of the basis is shorter by more
    than the factor 2^(n-1) (squared lengths). *)
Theorem C33_short m g vs : (forall w, In w g -> 0 < w) -> length g = m -> lll_reduced m g vs ->
  forall c, (exists i, (i < length vs)%nat /\ c i <> 0) ->
  znorm m g (fun t => co vs 0 t) <= 2 ^ Z.of_nat (length vs - 1) * znorm m g (fun t => sumn (length vs) (fun i => c i * co vs i t)).
Proof.
  intros Hw Hg R c H. apply reduced_short; auto. intros t Ht. apply Hw, nth_In. lia.
Qed.
Print Assumptions C33_short.

(** the division of NTL is right when it is exact *)
Example C33_division : exact_division (@Ok Z) zz_div.
Proof. intros a b Hb. unfold zz_div. destruct (Z.eqb_spec b 0); [contradiction|]. now rewrite Z.div_mul. Qed.
(** non-vacuity: three independent vectors with weights, reduced *)
Example C33_run : lll_reduce zz_div 10 3 [[2; 1; 3]; [57; 0; 0]; [23; 19; 0]; [-101; 40; 7]] = Ok ([[2; 1; 3]; [1; -17; 7]; [9; -4; -14]; [24; 2; 7]], true).
Proof. vm_compute. reflexivity. Qed.
Example C33_indep : lin_indep 3 [[57; 0; 0]; [23; 19; 0]; [-101; 40; 7]].
Proof.
  intros c H. pose proof (H 0%nat ltac:(lia)) as H0. pose proof (H 1%nat ltac:(lia)) as H1. pose proof (H 2%nat ltac:(lia)) as H2.
  unfold co in *. cbn [length sumn nth] in *. intros [|[|[|i]]] Hi; lia.
Qed.
Example C33_dep_run : lll_reduce zz_div 10 3 [[1; 1]; [3; 1]; [1; 2]; [4; 3]] = Ok ([[1; 1]; [1; 2]; [2; -1]; [4; 3]], false).
Proof. vm_compute. reflexivity. Qed.
