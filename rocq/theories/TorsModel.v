(** Model of the torsion functions of points.cc, lines 289-307, 356-585, and of
    Point::division_points, lines 588-623.  E is a Curvedata: the curve with its stored
    b-invariants.  Points are those of PointsModel.  Debug output is left out. *)
From Coq Require Import ZArith List Bool.
From Verif Require Import Base RatModel MArithModel CurveModel DivPolModel PointsModel.
Import ListNotations.
Open Scope Z_scope.

(** std::sort with a comparison which may fail; for a strict total order the result does
    not depend on the algorithm *)
Fixpoint insM {A} (lt : A -> A -> res bool) (x : A) (l : list A) : res (list A) :=
  match l with
  | [] => Ok [x]
  | y :: l' => b <- lt y x ;; if (b : bool) then r <- insM lt x l' ;; Ok (y :: r) else Ok (x :: l)
  end.
Fixpoint sortM {A} (lt : A -> A -> res bool) (l : list A) : res (list A) :=
  match l with [] => Ok [] | x :: l' => r <- sortM lt l' ;; insM lt x r end.
Fixpoint filterM {A} (f : A -> res bool) (l : list A) : res (list A) :=
  match l with
  | [] => Ok []
  | x :: l' => b <- f x ;; r <- filterM f l' ;; Ok (if (b : bool) then x :: r else r)
  end.
(** the concatenation of the lists pushed for the elements of l *)
Fixpoint concatM {A B} (f : A -> res (list B)) (l : list A) : res (list B) :=
  match l with [] => Ok [] | x :: l' => a <- f x ;; r <- concatM f l' ;; Ok (a ++ r) end.

Section Tors.
(** introots and roots of polys.cc (RootsModel) *)
Variable introots : poly -> res (list Z).
Variable roots : poly -> res (list rat).
Variable E : curve.
Variables b2 b4 b6 b8 : Z.

(** Point_comparer, lines 293-307: order, then Z, X, Y *)
Definition pt_lt (fuel : nat) (P Q : point) : res bool :=
  '(oP, _) <- p_order E fuel P ;;
  '(oQ, _) <- p_order E fuel Q ;;
  if negb (oP - oQ =? 0) then Ok (oP - oQ <? 0)
  else if negb (pZ P - pZ Q =? 0) then Ok (pZ P - pZ Q <? 0)
  else if negb (pX P - pX Q =? 0) then Ok (pX P - pX Q <? 0)
  else Ok (pY P - pY Q <? 0).

(** two_torsion, lines 356-392 (Introotscubic inlined) *)
Definition two_torsion (fuel : nat) (exact : bool) : res (list point) :=
  let scaled := Z.odd (a1 E) || Z.odd (a3 E) in
  let '(c2, c4, c6) := if scaled then (b2, b4 * 8, b6 * 16) else (a2 E, a4 E, a6 E) in
  xlist <- introots [c6; c4; c2; 1] ;;
  let pts := map (fun ei => if scaled then mkpoint (2 * ei) (- a1 E * ei - 4 * a3 E) 8 else mkpoint ei 0 1) xlist in
  sortM (pt_lt fuel) ((if exact then [] else [infpt]) ++ pts).

(** three_torsion_x, lines 398-422 (the roots are sorted already by introots) *)
Definition three_torsion_x : res (list Z) := introots [27 * b8; 27 * b6; 9 * b4; b2; 1].
(** three_torsion, lines 424-456 *)
Definition three_point (xi : Z) : res (list point) :=
  if xi mod 3 =? 0 then
    let xi := xi / 3 in
    let d := ((4 * xi + b2) * xi + (2 * b4)) * xi + b6 in
    '(ok, rd) <- isqrt d ;;
    if (ok : bool) then
      let P := mkpoint (2 * xi) (rd - (a1 E * xi + a3 E)) 2 in
      Ok [P; p_neg E P]
    else Ok []
  else Ok [].
Definition three_torsion (fuel : nat) (exact : bool) : res (list point) :=
  xlist <- three_torsion_x ;;
  pts <- concatM three_point xlist ;;
  sortM (pt_lt fuel) ((if exact then [] else [infpt]) ++ pts).

(** m_torsion, lines 458-505.  [order] stores the order in the local copy, which is pushed *)
Fixpoint keep_order (fuel : nat) (m : Z) (exact : bool) (l : list point) : res (list point) :=
  match l with
  | [] => Ok []
  | P :: l' =>
      '(keep, P) <- (if negb exact then Ok (true, P) else '(o, P) <- p_order E fuel P ;; Ok (o =? m, P)) ;;
      r <- keep_order fuel m exact l' ;;
      Ok (if (keep : bool) then P :: r else r)
  end.
Definition m_torsion (fuel : nat) (m : Z) (exact : bool) : res (list point) :=
  let m := Z.abs m in
  if m =? 2 then two_torsion fuel exact
  else if m =? 0 then Ok []
  else
    let zero := if exact then [] else [infpt] in
    if m =? 1 then Ok zero
    else
      pol <- div_pol (a1 E) (a2 E) (a3 E) (a4 E) (a6 E) fuel m ;;
      xs <- introots pol ;;
      pts <- concatM (fun xi => Ps <- points_from_x E b2 b4 b6 (xi, 1) ;; keep_order fuel m exact Ps) xs ;;
      sortM (pt_lt fuel) (zero ++ pts).

(** torsion_points, lines 507-585 (E is not the null curve): the search for the exponent *)
Fixpoint find_exponent (fuel : nat) (l : list Z) : res (option (Z * list point)) :=
  match l with
  | [] => Ok None
  | n :: l' =>
      n_torsion <- m_torsion fuel n true ;;
      match n_torsion with
      | [] => find_exponent fuel l'
      | P :: _ => '(_, cycle) <- p_multiples E P ;; Ok (Some (n, cycle))
      end
  end.
Definition torsion_points (fuel : nat) : res (list point) :=
  two_tors <- two_torsion fuel false ;;
  let nt2 := Z.of_nat (length two_tors) in
  let exps := if nt2 =? 2 then [12; 6; 8; 4; 10] else if nt2 =? 4 then [8; 6; 4] else [5; 7; 9; 3] in
  f <- find_exponent fuel exps ;;
  match f with
  | None => Ok two_tors
  | Some (exponent, cycle) =>
      if nt2 <? 4 then sortM (pt_lt fuel) cycle
      else
        match nth_error cycle (Z.to_nat (Z.quot exponent 2)) with
        | None => UB
        | Some T1 =>
            match find (fun T => negb (p_eq T T1)) (tl two_tors) with
            | None => UB
            | Some T2 => sortM (pt_lt fuel) (cycle ++ map (p_add E T2) cycle)
            end
        end
  end.

(** Point::division_points, lines 588-623.  m*Q == P tests equality of projective points *)
Definition div_test (m : Z) (P Q : point) : res bool := R <- p_mul E m Q ;; Ok (p_eq R P).
Definition div_root (m : Z) (P : point) (x : rat) : res (list point) :=
  Qs <- points_from_x E b2 b4 b6 x ;;
  match Qs with
  | [] => Ok []
  | Q :: _ => t <- div_test m P Q ;; Ok [if (t : bool) then Q else p_neg E Q]
  end.
Definition division_points (fuel : nat) (m : Z) (P : point) : res (list point) :=
  '(o, P) <- p_order E fuel P ;;
  if 0 <? o then
    Qs <- torsion_points fuel ;;
    filterM (div_test m P) Qs
  else
    pol <- division_points_X_pol (a1 E) (a2 E) (a3 E) (a4 E) (a6 E) fuel m (pX P) (pZ P) ;;
    xQs <- roots pol ;;
    concatM (div_root m P) xQs.
End Tors.
