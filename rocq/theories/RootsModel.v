(** Model of the rational and integer roots of integer polynomials, libsrc/polys.cc lines
    66-167.  A ZPoly is the list of its coefficients, constant term first. *)
From Coq Require Import ZArith List Bool.
From Verif Require Import Base RatModel DivPolModel.
Import ListNotations.
Open Scope Z_scope.

(** NTL's deg: -1 for the zero polynomial *)
Fixpoint pdeg (p : poly) : Z :=
  match p with
  | [] => -1
  | a :: q => let d := pdeg q in if d <? 0 then (if a =? 0 then -1 else 0) else d + 1
  end.
(** NTL's coeff: 0 above the degree *)
Definition coeff (p : poly) (j : nat) : Z := nth j p 0.

(** std::sort for a strict total order: the sorted list does not depend on the algorithm *)
Fixpoint ins {A} (lt : A -> A -> bool) (x : A) (l : list A) : list A :=
  match l with [] => [x] | y :: l' => if lt y x then y :: ins lt x l' else x :: l end.
Definition isort {A} (lt : A -> A -> bool) (l : list A) : list A := fold_right (ins lt) [] l.

Section Roots.
(** NTL's factor(c,factors,f), ZZXFactoring: the factors with their exponents *)
Variable factor : poly -> list (poly * Z).

(** roots(ZPoly), lines 67-101 *)
Fixpoint lin_roots (l : list (poly * Z)) : res (list rat) :=
  match l with
  | [] => Ok []
  | (g, _) :: l' =>
      if pdeg g =? 1 then
        root <- brat_make (- coeff g 0) (coeff g 1) ;;
        rest <- lin_roots l' ;;
        Ok (root :: rest)
      else lin_roots l'
  end.
Definition zroots (f : poly) : res (list rat) :=
  ans <- lin_roots (factor f) ;; Ok (isort brat_lt ans).

(** introots, lines 105-120 *)
Definition introots (f : poly) : res (list Z) :=
  ratroots <- zroots f ;;
  Ok (isort Z.ltb (map fst (filter (fun r => snd r =? 1) ratroots))).

(** roots(vector<bigint>), lines 122-143: coefficients given with the leading one first *)
Definition roots_coeffs (coeffs : list Z) : res (list rat) :=
  if Z.of_nat (length coeffs) - 1 <? 1 then Ok [] else zroots (rev coeffs).
(** Introotscubic, Introotsquartic, lines 149-168 *)
Definition Introotscubic (a b c : Z) : res (list Z) := introots [c; b; a; 1].
Definition Introotsquartic (a b c d : Z) : res (list Z) := introots [d; c; b; a; 1].
End Roots.
