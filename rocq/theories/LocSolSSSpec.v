(** Factorisation of polynomials over F_p: the contract of CanZass. *)
From mathcomp Require Import all_ssreflect all_algebra ssrZ.
From Coq Require Import ZArith List.
Set Implicit Arguments.
Unset Strict Implicit.
Unset Printing Implicit Defensive.
Import GRing.Theory.
Local Open Scope ring_scope.

Definition toF (p : Z) (z : Z) : 'F_(Z.to_nat p) := (int_of_Z z)%:~R.
(** the polynomial with the given coefficients, constant term first *)
Definition polyF (p : Z) (l : list Z) : {poly 'F_(Z.to_nat p)} := Poly [seq toF p z | z <- l].

(** distinct monic irreducible factors, written with representatives in [0,p), and positive exponents,
    whose product is the polynomial up to its leading coefficient *)
Definition factors_poly (p : Z) (factor : list Z -> list (list Z * Z)) : Prop :=
  forall c, polyF p c != 0 ->
    polyF p c = lead_coef (polyF p c) *: \prod_(Fe <- factor c) polyF p Fe.1 ^+ Z.to_nat Fe.2 /\
    NoDup (List.map fst (factor c)) /\
    forall F e, In (F, e) (factor c) ->
      (1 <= e)%Z /\ (forall x, In x F -> (0 <= x < p)%Z) /\ List.last F Z0 = Zpos xH /\ irreducible_poly (polyF p F).
