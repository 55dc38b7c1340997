(** Linear algebra modulo p, stated on entry functions, independently of the
    model.  A matrix is a function of a row and a column number. *)
From Coq Require Import ZArith Znumtheory Lia List Sorted Permutation.
Import ListNotations.
Open Scope Z_scope.

Fixpoint sumn (n : nat) (f : nat -> Z) : Z := match n with O => 0 | S n => sumn n f + f n end.
Definition cong (p a b : Z) : Prop := (p | a - b).
(** v is, modulo p, a combination of the first n rows of A (nc columns) *)
Definition inspan (p : Z) (nc n : nat) (A : nat -> nat -> Z) (v : nat -> Z) : Prop :=
  exists c, forall j, (j < nc)%nat -> cong p (v j) (sumn n (fun i => c i * A i j)).
Definition eqspan (p : Z) (nc n : nat) (A : nat -> nat -> Z) (n' : nat) (A' : nat -> nat -> Z) : Prop :=
  forall v, inspan p nc n A v <-> inspan p nc n' A' v.
(** x is annihilated by the first n rows of A modulo p *)
Definition inker (p : Z) (nc n : nat) (A : nat -> nat -> Z) (x : nat -> Z) : Prop :=
  forall i, (i < n)%nat -> cong p (sumn nc (fun j => A i j * x j)) 0.
(** pc and npc split the columns, both in increasing order *)
Definition splits (nc : nat) (pc npc : list nat) : Prop :=
  StronglySorted lt pc /\ StronglySorted lt npc /\ Permutation (pc ++ npc) (seq 0 nc).
(** the symmetric residue system *)
Definition cent (p r : Z) : Prop := - p < 2 * r <= p.
(** ** rank modulo p *)
Definition indep (p : Z) (nc n : nat) (R : nat -> nat -> Z) : Prop :=
  forall c, (forall j, (j < nc)%nat -> cong p (sumn n (fun i => c i * R i j)) 0) -> forall i, (i < n)%nat -> cong p (c i) 0.
Definition hasrank (p : Z) (nc n : nat) (A : nat -> nat -> Z) (r : nat) : Prop :=
  exists R, eqspan p nc n A r R /\ indep p nc r R.
(** the rational span of the first n rows of A, on integer vectors *)
Definition qspan (nc n : nat) (A : nat -> nat -> Z) (v : nat -> Z) : Prop :=
  exists e c, e <> 0 /\ forall j, (j < nc)%nat -> e * v j = sumn n (fun i => c i * A i j).
Definition eqq (nc n : nat) (A : nat -> nat -> Z) (n' : nat) (A' : nat -> nat -> Z) : Prop :=
  forall v, qspan nc n A v <-> qspan nc n' A' v.
(** reduced echelon form over Q with common denominator d *)
Definition rrefq (nc rk : nat) (R : nat -> nat -> Z) (pc : list nat) (d : Z) : Prop :=
  1 <= d /\ forall i, (i < rk)%nat ->
    (forall k, (k < rk)%nat -> R i (nth k pc 0%nat) = if (i =? k)%nat then d else 0) /\ (forall j, (j < nth i pc 0)%nat -> R i j = 0).
(** the columns of K are a basis of the kernel of A over Q: they are in the kernel, and d times
    an element of the kernel is the combination of them given by its coordinates npc *)
Definition kerq (nr nc : nat) (A K : nat -> nat -> Z) (npc : list nat) (d : Z) : Prop :=
  d <> 0 /\
  (forall k, (k < length npc)%nat -> forall i, (i < nr)%nat -> sumn nc (fun j => A i j * K j k) = 0) /\
  (forall k l, (k < length npc)%nat -> (l < length npc)%nat -> K (nth k npc 0%nat) l = if (k =? l)%nat then d else 0) /\
  (forall x, (forall i, (i < nr)%nat -> sumn nc (fun j => A i j * x j) = 0) ->
     forall j, (j < nc)%nat -> d * x j = sumn (length npc) (fun k => x (nth k npc 0%nat) * K j k)).
(** the rank over Q: a basis of r vectors of the row space *)
Definition indepq (nc n : nat) (R : nat -> nat -> Z) : Prop :=
  forall c, (forall j, (j < nc)%nat -> sumn n (fun i => c i * R i j) = 0) -> forall i, (i < n)%nat -> c i = 0.
Definition hasrankq (nr nc : nat) (A : nat -> nat -> Z) (r : nat) : Prop :=
  exists R, eqq nc nr A r R /\ indepq nc r R.
