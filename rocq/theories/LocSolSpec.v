(** p-adic points on y^2 = a x^4 + b x^3 z + c x^2 z^2 + d x z^3 + e z^4, independent of the code. *)
From Coq Require Import ZArith.
Open Scope Z_scope.

Definition quartic_form (a b c d e x z : Z) : Z :=
  a * x ^ 4 + b * x ^ 3 * z + c * x ^ 2 * z ^ 2 + d * x * z ^ 3 + e * z ^ 4.

(** a p-adic integer: a sequence of integers, the n-th one given modulo p^n *)
Definition coherent (p : Z) (s : nat -> Z) : Prop :=
  forall n, (p ^ Z.of_nat n | s (S n) - s n).

(** a point over Q_p: p-adic integers x, z (not both divisible by p) and y *)
Definition padic_point (p a b c d e : Z) : Prop :=
  exists x z y : nat -> Z,
    coherent p x /\ coherent p z /\ coherent p y /\
    ~ ((p | x 1%nat) /\ (p | z 1%nat)) /\
    forall n, (p ^ Z.of_nat n | y n * y n - quartic_form a b c d e (x n) (z n)).

(** no solution modulo p^N *)
Definition no_solution_mod (p N a b c d e : Z) : Prop :=
  forall x z y, ~ ((p | x) /\ (p | z)) -> ~ (p ^ N | y * y - quartic_form a b c d e x z).

(** the polynomial a x^4 + b x^3 + c x^2 + d x + e has no repeated root *)
Definition discriminant (a b c d e : Z) : Z :=
  let I := 12 * a * e - 3 * b * d + c * c in
  let J := 72 * a * c * e + 9 * b * c * d - 27 * a * d * d - 27 * b * b * e - 2 * c * c * c in
  4 * I * I * I - J * J.
