(** Model of isogs.cc: twoisog, lines 442-474, and threeisog, lines 476-507.  The result is
    the list of the curves (Curvedata EE); the reduction data which CurveRed(EE) adds are
    modelled in TateModel.  Output is left out. *)
From Coq Require Import ZArith List Bool.
From Verif Require Import Base RatModel MArithModel CurveModel DivPolModel PointsModel TorsModel.
Import ListNotations.
Open Scope Z_scope.

Section Isog.
(** introots of polys.cc (RootsModel) and pdivs of marith.cc (MArithModel) *)
Variable introots : poly -> res (list Z).
Variable pdivs : Z -> list Z.
(** CR: the curve with its stored b-invariants *)
Variable E : curve.
Variables b2 b4 b6 b8 : Z.

Fixpoint mapR {A B} (f : A -> res B) (l : list A) : res (list B) :=
  match l with [] => Ok [] | x :: l' => y <- f x ;; r <- mapR f l' ;; Ok (y :: r) end.

(** lines 459-471: the body of the loop.  [/] is that of NTL *)
Definition two_curve (T : point) : res curve :=
  x <- zz_div (4 * pX T) (pZ T) ;;
  let t := 3 * x * x + 2 * b2 * x + 8 * b4 in
  let w := x * t in
  EE <- curvedata_of pdivs (Cv (2 * a1 E) (4 * a2 E) (8 * a3 E) (16 * a4 E - 5 * t) (64 * a6 E - 4 * b2 * t - 7 * w)) true ;;
  Ok (cv EE).
(** the loop starts at i = 1; for tt.size() = 1 it is empty *)
Definition twoisog (fuel : nat) : res (list curve) :=
  tt <- two_torsion introots E b2 b4 b6 fuel false ;;
  mapR two_curve (tl tt).

(** lines 493-504 *)
Definition three_curve (x : Z) : res curve :=
  let t := (2 * x + b2) * x + 3 * b4 in
  let w := ((10 * x + 6 * b2) * x + 27 * b4) * x + 27 * b6 in
  EE <- curvedata_of pdivs (Cv (3 * a1 E) (9 * a2 E) (27 * a3 E) (81 * a4 E - 135 * t) (729 * a6 E - 243 * b2 * t - 189 * w)) true ;;
  Ok (cv EE).
Definition threeisog : res (list curve) :=
  xt3 <- three_torsion_x introots b2 b4 b6 b8 ;;
  mapR three_curve xt3.
End Isog.
