(** Model of legendre_via_lll of libsrc/legendre.cc (method 5 of the conic solver).  No proofs in
    this file.  [xgcd] is NTL's XGCD (bezout), [div] the division of bigint inside lll_reduce and [f]
    the bound for its loops, as in LLLModel.  The vectors of dimension 3 are triples outside of lll_reduce.
    The returns after the two messages about coefficients which are not coprime leave x,y,z as they
    were on entry: [UB].  Messages are left out. *)
From Coq Require Import ZArith List Bool.
From Verif Require Import Base RatModel MArithModel LegModel LLLModel.
Import ListNotations.
Open Scope Z_scope.
Open Scope res_scope.

Definition tadd (u v : tri) : tri := let '(x, y, z) := u in let '(x', y', z') := v in (x + x', y + y', z + z').
Definition tsub (u v : tri) : tri := let '(x, y, z) := u in let '(x', y', z') := v in (x - x', y - y', z - z').
Definition tdbl (u : tri) : tri := let '(x, y, z) := u in (x * 2, y * 2, z * 2).
Definition tlist (u : tri) : list Z := let '(x, y, z) := u in [x; y; z].

Section LegLLL.
Variable xgcd : Z -> Z -> Z * Z * Z.
Variable div : Z -> Z -> res Z.

(** lines 737-782: a basis of the sublattice of index 2 *)
Definition lll_lattice (a b c k1 k2 k3 : Z) : res (tri * tri * tri) :=
  let bc := b * c in
  let '(g, u, v) := xgcd b c in
  if negb (g =? 1) then UB
  else
    let '(g, adash, bdash) := xgcd a bc in
    if negb (g =? 1) then UB
    else
      alpha <- zz_mod (c * bdash * k1) a ;;
      beta <- zz_mod (u * adash * b * k3) bc ;;
      gamma <- zz_mod (v * adash * c * k2) bc ;;
      let v1 := (bc, 0, 0) in
      let v2 := (a * beta, a, 0) in
      let v3 := (alpha * beta + gamma, alpha, 1) in
      let oddn1 := Z.odd bc in
      n2 <- zz_div ((a * beta) * (a * beta) + a * b) bc ;;
      n3 <- zz_div (a * ((alpha * beta + gamma) * (alpha * beta + gamma)) + b * (alpha * alpha) + c) (a * bc) ;;
      let oddn2 := Z.odd n2 in
      let oddn3 := Z.odd n3 in
      Ok (if oddn1 then (tdbl v1, if oddn2 then tsub v2 v1 else v2, if oddn3 then tsub v3 v1 else v3)
          else if oddn2 then (v1, tdbl v2, if oddn3 then tsub v3 v2 else v3)
          else if oddn3 then (v1, v2, tdbl v3)
          else (v1, v2, v3)).

(** the vectors of the switch, lines 798-813 *)
Definition lll_candidates (b1 b2 b3 : tri) : list tri :=
  [b1; tsub b1 b2; tadd b1 b2; b2; b3; tadd b3 b1; tsub b3 b1; tadd b3 b2; tsub b3 b2;
   tsub (tadd b3 b2) b1; tadd (tsub b3 b2) b1; tsub (tsub b3 b2) b1; tadd (tadd b3 b2) b1].
(** lines 814-832: the first vector with f = 0, or (0,0,0) *)
Fixpoint first_zero (a b c : Z) (l : list tri) : tri :=
  match l with
  | [] => (0, 0, 0)
  | (x, y, z) :: l => if a * (x * x) + b * (y * y) + c * (z * z) =? 0 then (x, y, z) else first_zero a b c l
  end.
(** legendre_via_lll, lines 733-833 *)
Definition legendre_via_lll (f : nat) (a b c k1 k2 k3 : Z) : res tri :=
  '(v1, v2, v3) <- lll_lattice a b c k1 k2 k3 ;;
  '(vecs, _) <- lll_reduce div f 3 [[Z.abs a; Z.abs b; Z.abs c]; tlist v1; tlist v2; tlist v3] ;;
  match vecs with
  | [_; [x1; y1; z1]; [x2; y2; z2]; [x3; y3; z3]] =>
      Ok (first_zero a b c (lll_candidates (x1, y1, z1) (x2, y2, z2) (x3, y3, z3)))
  | _ => UB
  end.
End LegLLL.
