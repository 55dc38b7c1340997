(** Model of the tests for local solubility everywhere: Rsoluble and locallysoluble, mlocsol.cc lines 161-206,
    and the type of a quartic, mquartic.cc lines 55-80 (set_roots_and_type without the floating-point roots, which
    do not influence the type).  Invariants: mquartic.h lines 30-45.
    badp is a reference parameter: its value is passed and returned. *)
From Coq Require Import ZArith List Bool.
From Verif Require Import Base HilbertModel LocSolModel LocSolSSModel.
Import ListNotations.
Open Scope Z_scope.
Open Scope res_scope.

(** II, JJ, H_invariant, mquartic.h lines 30-45 *)
Definition II (a b c d e : Z) : Z := 12 * a * e - 3 * b * d + c * c.
Definition JJ (a b c d e : Z) : Z := (72 * a * e + 9 * b * d - 2 * (c * c)) * c - 27 * (a * (d * d) + b * b * e).
Definition H_invariant (a b c : Z) : Z := 8 * a * c - 3 * (b * b).

(** mquartic.cc lines 57-80: 3 for two real roots, 2 for four, 1 for none *)
Definition quartic_type (a b c d e : Z) : Z :=
  let ii := II a b c d e in
  let jj := JJ a b c d e in
  let disc := 4 * ii ^ 3 - jj * jj in
  let H := H_invariant a b c in
  let Q := H * H - 16 * a * a * ii in
  if disc <? 0 then 3
  else if (H <? 0) && (0 <? Q) then 2
  else 1.

(** mlocsol.cc lines 161-171 *)
Definition Rsoluble (a b c d e : Z) : bool := (1 <? quartic_type a b c d e) || (0 <? a).

Section L.
Variable factor : Z -> list Z -> list (list Z * Z).

(** std::all_of with the lambda which sets badp, lines 204-205 *)
Fixpoint all_soluble (a b c d e : Z) (plist : list Z) (badp : Z) : res (Z * Z) :=
  match plist with
  | [] => Ok (1, badp)
  | p :: plist => s <- new_qpsoluble factor a b c d e p ;; if (s : bool) then all_soluble a b c d e plist p else Ok (0, p)
  end.

(** locallysoluble(a,b,c,d,e,plist,badp), lines 191-206 (and the version of lines 176-180 for a quartic object) *)
Definition locallysoluble (a b c d e : Z) (plist : list Z) (badp : Z) : res (Z * Z) :=
  if negb (Rsoluble a b c d e) then Ok (0, 0)
  else
    '(v, badp) <- (if (b =? 0) && (d =? 0) then global_hilbert a (c * c - 4 * a * e) plist badp else Ok (0, badp)) ;;
    if negb (v =? 0) then Ok (0, badp) else all_soluble a b c d e plist badp.

(** locallysoluble(a,c,e,plist,badp), lines 182-189 *)
Definition locallysoluble_ace (a c e : Z) (plist : list Z) (badp : Z) : res (Z * Z) :=
  let d := c * c - 4 * a * e in
  '(v, badp) <- global_hilbert a d plist badp ;;
  if negb (v =? 0) then Ok (0, badp) else locallysoluble a 0 c 0 e plist badp.
End L.
