(** Lattices, Gram-Schmidt orthogonalisation and LLL-reduced bases, independently of the model.
    A list of vectors is a list of lists of integers; coordinate t of vector i is [co vs i t].
    The inner product has the diagonal Gram matrix with entries g. *)
From Coq Require Import ZArith QArith Lia List.
From Verif Require Import LinSpec.
Import ListNotations.
Open Scope Z_scope.

Definition co (vs : list (list Z)) (i t : nat) : Z := nth t (nth i vs []) 0.
(** v is an integral combination of the vectors *)
Definition in_lattice (m : nat) (vs : list (list Z)) (v : nat -> Z) : Prop :=
  exists c : nat -> Z, forall t, (t < m)%nat -> v t = sumn (length vs) (fun i => c i * co vs i t).
Definition same_lattice (m : nat) (vs ws : list (list Z)) : Prop :=
  forall v, in_lattice m vs v <-> in_lattice m ws v.
Definition lin_indep (m : nat) (vs : list (list Z)) : Prop :=
  forall c : nat -> Z, (forall t, (t < m)%nat -> sumn (length vs) (fun i => c i * co vs i t) = 0) ->
    forall i, (i < length vs)%nat -> c i = 0.

Fixpoint sumq (n : nat) (f : nat -> Q) : Q := match n with O => 0%Q | S n => (sumq n f + f n)%Q end.
Definition qdot (m : nat) (g : list Z) (x y : nat -> Q) : Q :=
  sumq m (fun t => (inject_Z (nth t g 0%Z) * x t * y t)%Q).
(** v_i = s_i + sum over j < i of mu_ij s_j with the s_i pairwise orthogonal *)
Definition gram_schmidt (m : nat) (g : list Z) (vs : list (list Z)) (s mu : nat -> nat -> Q) : Prop :=
  (forall i t, (i < length vs)%nat -> (t < m)%nat ->
     (inject_Z (co vs i t) == s i t + sumq i (fun j => mu i j * s j t))%Q) /\
  (forall i j, (j < i)%nat -> (i < length vs)%nat -> (qdot m g (s i) (s j) == 0)%Q).
(** size-reduced, and the condition of Lovasz with the constant 3/4 *)
Definition lll_reduced (m : nat) (g : list Z) (vs : list (list Z)) : Prop :=
  exists s mu, gram_schmidt m g vs s mu /\
    (forall i j, (j < i)%nat -> (i < length vs)%nat -> (-(1 # 2) <= mu i j)%Q /\ (mu i j <= 1 # 2)%Q) /\
    (forall i, (S i < length vs)%nat ->
       (((3 # 4) - mu (S i) i * mu (S i) i) * qdot m g (s i) (s i) <= qdot m g (s (S i)) (s (S i)))%Q).
(** a division which is right whenever the divisor divides *)
Definition exact_division {R : Type} (ok : Z -> R) (div : Z -> Z -> R) : Prop :=
  forall a b, b <> 0 -> div (a * b) b = ok a.
(** square of the length *)
Definition znorm (m : nat) (g : list Z) (x : nat -> Z) : Z := sumn m (fun t => nth t g 0 * x t * x t).
