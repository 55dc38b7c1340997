(** What minimalisation of a quartic is, independent of the code. *)
From Coq Require Import ZArith.
From Verif Require Import FormsModel.
Open Scope Z_scope.

(** the substitution and scaling (k, M) take the form G to g: G(M(x,z)) = k^2 g(x,z) *)
Definition takes (M : sunimod) (G g : quartic) : Prop :=
  forall x z, r_eval G (m11 (sm M) * x + m12 (sm M) * z) (m21 (sm M) * x + m22 (sm M) * z)
              = (m00 M * m00 M) * r_eval g x z.

(** y^2 = g(x,z) has a primitive solution modulo p^4 (weaker than solubility over Q_p) *)
Definition soluble4 (p : Z) (g : quartic) : Prop :=
  exists x z y, ~ ((p | x) /\ (p | z)) /\ (p ^ 4 | y * y - r_eval g x z).

(** solutions modulo every power of p, with x and z not both divisible by a fixed power *)
Definition soluble (p : Z) (g : quartic) : Prop :=
  exists K, 0 <= K /\ forall N, 0 <= N ->
    exists x z y, ~ ((p ^ K | x) /\ (p ^ K | z)) /\ (p ^ N | y * y - r_eval g x z).

(** the substitution is invertible over the rationals *)
Definition nonsingular (M : sunimod) : Prop := m00 M <> 0 /\ um_det (sm M) <> 0.

(** the valuations 1000 that the code uses for I = 0 or J = 0 are large enough *)
Definition val_fits (p I J : Z) : Prop := (I = 0 -> ~ (p ^ 1000 | J)) /\ (J = 0 -> ~ (p ^ 600 | I)).
(** minimal at p >= 5: among all quartics with these invariants up to scaling (8, 12), or among
    those soluble at p (4, 6) *)
Definition minimal_at (p : Z) (locsol : bool) (I J : Z) : Prop :=
  ~ ((p ^ (if locsol then 4 else 8) | I) /\ (p ^ (if locsol then 6 else 12) | J)).

(** 27 times the discriminant of the quartic *)
Definition disc_IJ (I J : Z) : Z := 4 * (I * I * I) - J * J.
(** Kraus: I and J are not minimal at 3 *)
Definition nonminimal_3 (I J : Z) : Prop :=
  ((3 ^ 5 | I) /\ (3 ^ 9 | J)) \/
  ((3 ^ 4 | I) /\ ~ (3 ^ 5 | I) /\ (3 ^ 6 | J) /\ ~ (3 ^ 7 | J) /\ (3 ^ 15 | disc_IJ I J)).
Definition minimal_at_3 (locsol : bool) (I J : Z) : Prop :=
  if locsol then ~ nonminimal_3 I J else ~ ((3 ^ 8 | I) /\ (3 ^ 12 | J)).
