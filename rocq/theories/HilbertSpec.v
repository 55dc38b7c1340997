(** Solubility of a x^2 + b y^2 = z^2 over Q_p and over the reals, independent of the code. *)
From Coq Require Import ZArith Reals.
From Verif Require Import LocSolSpec.
Open Scope Z_scope.

(** a non-trivial solution in p-adic integers (equivalently, in Q_p) *)
Definition soluble_Qp (p a b : Z) : Prop :=
  exists x y z : nat -> Z, coherent p x /\ coherent p y /\ coherent p z /\
    (exists n, ~ ((p ^ Z.of_nat n | x n) /\ (p ^ Z.of_nat n | y n) /\ (p ^ Z.of_nat n | z n))) /\
    forall n, (p ^ Z.of_nat n | a * x n * x n + b * y n * y n - z n * z n).

Definition soluble_R (a b : Z) : Prop :=
  exists x y z : R, ~ (x = 0 /\ y = 0 /\ z = 0)%R /\ (IZR a * x * x + IZR b * y * y = z * z)%R.

(** p = 0 stands for the real place *)
Definition soluble_at (p a b : Z) : Prop := if p =? 0 then soluble_R a b else soluble_Qp p a b.

Definition hilbert_eq (a b : Z) (x y z : Z) : Prop := a * x * x + b * y * y = z * z.
