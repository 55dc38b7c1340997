(** What the answer of a solver of a homogeneous equation in x,y,z means; lists of prime divisors. *)
From Coq Require Import ZArith List Znumtheory Sorted.
Open Scope Z_scope.

(** [Some (x,y,z)]: a non-zero solution without common factor.  [None]: there is no non-zero solution. *)
Definition answer (eqn : Z -> Z -> Z -> Prop) (r : option (Z * Z * Z)) : Prop :=
  match r with
  | Some (x, y, z) => eqn x y z /\ ~ (x = 0 /\ y = 0 /\ z = 0) /\
      forall d, (d | x) -> (d | y) -> (d | z) -> (d | 1)
  | None => forall x y z, eqn x y z -> x = 0 /\ y = 0 /\ z = 0
  end.
Definition has_solution (eqn : Z -> Z -> Z -> Prop) : Prop :=
  exists x y z, eqn x y z /\ ~ (x = 0 /\ y = 0 /\ z = 0).
(** a x^2 + b x z + c z^2 = d y^2 *)
Definition conic (a b c d : Z) (x y z : Z) : Prop := a * x * x + b * x * z + c * z * z = d * y * y.
(** a x^2 + b y^2 + c z^2 = 0 *)
Definition legendre_eq (a b c : Z) (x y z : Z) : Prop := a * x * x + b * y * y + c * z * z = 0.
(** x^2 - a z^2 = b y^2 *)
Definition diag_eq (a b : Z) (x y z : Z) : Prop := x * x - a * z * z = b * y * y.

Definition no_square_factor (n : Z) : Prop := forall p, prime p -> ~ (p * p | n).
Definition pairwise_coprime (a b c : Z) : Prop := Z.gcd a b = 1 /\ Z.gcd a c = 1 /\ Z.gcd b c = 1.
(** l lists the prime divisors of n *)
Definition lists_primes_of (n : Z) (l : list Z) : Prop := NoDup l /\ forall p, In p l <-> prime p /\ (p | n).
(** l contains every prime divisor of n *)
Definition factor_base (n : Z) (l : list Z) : Prop :=
  NoDup l /\ Forall prime l /\ forall p, prime p -> (p | n) -> In p l.
(** contract of pdivs *)
Definition finds_primes (pdivs : Z -> list Z) : Prop :=
  forall n, n <> 0 -> Sorted Z.lt (pdivs n) /\ forall p, In p (pdivs n) <-> prime p /\ (p | n).
