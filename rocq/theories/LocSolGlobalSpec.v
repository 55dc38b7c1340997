(** Solubility of y^2 = a x^4 + b x^3 z + c x^2 z^2 + d x z^3 + e z^4 over the reals and everywhere locally, independent of the code. *)
From Coq Require Import ZArith Reals Znumtheory.
From Verif Require Import LocSolSpec.
Open Scope Z_scope.

Definition real_point (a b c d e : Z) : Prop :=
  exists x z y : R, ~ (x = 0 /\ z = 0)%R /\
    (y * y = IZR a * x ^ 4 + IZR b * x ^ 3 * z + IZR c * x ^ 2 * z ^ 2 + IZR d * x * z ^ 3 + IZR e * z ^ 4)%R.

(** p = 0 stands for the real place *)
Definition point_at (p a b c d e : Z) : Prop := if p =? 0 then real_point a b c d e else padic_point p a b c d e.

Definition everywhere_soluble (a b c d e : Z) : Prop :=
  real_point a b c d e /\ forall p, prime p -> padic_point p a b c d e.
