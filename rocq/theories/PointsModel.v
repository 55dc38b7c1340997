(** Model of the points on a Weierstrass curve over Q: p2points.h, p2points.cc,
    points.h, points.cc.  Homogeneous integer coordinates; bigint is Z.  The
    pointer to the curve is replaced by the curve itself, given once for all
    points (operator+ compares the two pointers, line 82; the model is of calls
    in which they are equal).  The [height] field is not modelled; the cached
    order [ord] is. *)
From Coq Require Import ZArith List Bool.
From Verif Require Import Base RatModel MArithModel CurveModel.
Import ListNotations.
Open Scope Z_scope.

(** class Point: X, Y, Z and ord (0 not known, -1 infinite), p2points.h 44-48, points.h 43-47 *)
Record point := Pt { pX : Z; pY : Z; pZ : Z; ord : Z }.

(** P2Point::reduce, p2points.cc lines 31-48.  The divisions are exact. *)
Definition reduce3 (X Y W : Z) : Z * Z * Z :=
  if W =? 1 then (X, Y, W)
  else
    let d := Z.gcd (Z.gcd X Y) W in
    if d =? 0 then (X, Y, W)
    else
      let '(X, Y, W) := if negb (d =? 1) then (X / d, Y / d, W / d) else (X, Y, W) in
      if W <? 0 then (- X, - Y, - W) else (X, Y, W).
(** Point(E,x,y,z) and init, points.h lines 59-61 and 102-107: coordinates reduced, order unknown *)
Definition mkpoint (X Y W : Z) : point := let '(X, Y, W) := reduce3 X Y W in Pt X Y W 0.
(** Point(E): the point at infinity, points.h lines 53-58 *)
Definition infpt : point := Pt 0 1 0 1.
(** is_zero, points.h line 144 *)
Definition p_iszero (P : point) : bool := pZ P =? 0.
(** eq, p2points.cc lines 73-79 *)
Definition p_eq (P Q : point) : bool :=
  if negb (pX P * pZ Q - pZ P * pX Q =? 0) then false
  else if negb (pY P * pZ Q - pZ P * pY Q =? 0) then false
  else if negb (pY P * pX Q - pX P * pY Q =? 0) then false
  else true.

Section OnCurve.
Variable E : curve.

(** unary minus, points.cc lines 159-164: the order is copied *)
Definition p_neg (P : point) : point := Pt (pX P) (- pY P - a3 E * pZ P - a1 E * pX P) (pZ P) (ord P).

(** twice, lines 130-157 *)
Definition p_twice (P : point) : point :=
  if pZ P =? 0 then infpt
  else if p_eq P (p_neg P) then infpt
  else
    let X := pX P in let Y := pY P in let Z := pZ P in
    let Zsq := Z * Z in
    let L := 3 * X * X + 2 * a2 E * X * Z + a4 E * Zsq - a1 E * Y * Z in
    let M := 2 * Y + a1 E * X + a3 E * Z in
    let Mz := M * Z in
    let N := - X * X * X - a3 E * Y * Zsq + a4 E * X * Zsq + 2 * a6 E * Z * Zsq in
    let t := L * L + Mz * (a1 E * L - M * (a2 E * Z + 2 * X)) in
    mkpoint (t * Mz) (- (L * t + Mz * (a1 E * t + M * (N + a3 E * Mz * Z)))) (Mz * Mz * Mz).

(** operator+, lines 78-121 *)
Definition p_add (P Q : point) : point :=
  if pZ P =? 0 then Q
  else if p_iszero Q then P
  else if p_eq P Q then p_twice Q
  else if p_eq P (p_neg Q) then infpt
  else
    let Z12 := pZ P * pZ Q in
    let L := - pY Q * pZ P + pY P * pZ Q in
    let M := - pX Q * pZ P + pX P * pZ Q in
    let N := - pY P * pX Q + pY Q * pX P in
    let Mz := M * M * Z12 in
    let t := L * L * Z12 + M * (a1 E * L * Z12 - M * (a2 E * Z12 + pX P * pZ Q + pX Q * pZ P)) in
    mkpoint (M * t) (- (t * (L + a1 E * M) + Mz * (N + a3 E * M))) (M * Mz).

(** operator+=, lines 64-69 *)
Definition p_addeq (P Q : point) : point := let s := p_add P Q in mkpoint (pX s) (pY s) (pZ s).
(** operator-=, lines 71-76 *)
Definition p_subeq (P Q : point) : point :=
  let s := p_addeq (p_neg Q) P in mkpoint (pX s) (pY s) (pZ s).
(** binary minus, lines 123-128 *)
Definition p_sub (P Q : point) : point := p_addeq (p_neg Q) P.

(** n * P, lines 167-194.  [n] is an int: negating the least int is undefined. *)
Definition p_mul_step (s : Z * point * point) : res ((Z * point * point) + (Z * point * point)) :=
  let '(n, Q, ans) := s in
  if n <=? 1 then Ok (inr s)
  else
    let Q := p_twice Q in
    let n := Z.quot n 2 in
    Ok (inl (n, Q, if Z.odd n then p_add ans Q else ans)).
Definition p_mul (n : Z) (P : point) : res point :=
  if p_iszero P || (n =? 0) then Ok infpt
  else
    let negative := n <? 0 in
    n <- (if negative then neg32 n else Ok n) ;;
    let fin ans := Ok (if negative then p_neg ans else ans) in
    if n =? 1 then fin P
    else if n =? 2 then fin (p_twice P)
    else
      '(_, _, ans) <- while p_mul_step 5 (n, P, if Z.odd n then P else infpt) ;;
      fin ans.

(** order(p), lines 196-209: returns the order and the point with its order cached.
    [ord] is a long in the loop and an int in the result; the model does not bound it. *)
Definition p_order_step (p : point) (s : point * Z) : res ((point * Z) + (point * Z)) :=
  let '(q, o) := s in
  if negb (pZ q =? 0) && (pZ q <=? 8) then Ok (inl (p_addeq q p, o + 1)) else Ok (inr s).
Definition p_order (fuel : nat) (p : point) : res (Z * point) :=
  if negb (ord p =? 0) then Ok (ord p, p)
  else if pZ p =? 0 then Ok (1, Pt (pX p) (pY p) (pZ p) 1)
  else if 8 <? pZ p then Ok (-1, Pt (pX p) (pY p) (pZ p) (-1))
  else
    '(q, o) <- while (p_order_step p) fuel (p, 1) ;;
    let o := if pZ q =? 0 then o else -1 in
    Ok (o, Pt (pX p) (pY p) (pZ p) o).

(** order(p, multiples), lines 211-237: the order and the list of multiples *)
Definition p_multiples_step (p : point) (s : point * list point) :
  res ((point * list point) + (point * list point)) :=
  let '(q, ms) := s in
  if negb (p_iszero q) && (pZ q <=? 8) && (Z.of_nat (length ms) <? 13) then
    let q := p_addeq q p in
    Ok (inl (q, if p_iszero q then ms else ms ++ [q]))
  else Ok (inr s).
Definition p_multiples (p : point) : res (Z * list point) :=
  if p_iszero p then Ok (1, [infpt])
  else
    '(q, ms) <- while (p_multiples_step p) 4 (p, [infpt; p]) ;;
    Ok (if p_iszero q then Z.of_nat (length ms) else -1, ms).

(** isvalid, lines 239-256 (the curve pointer is not null) *)
Definition p_isvalid (P : point) : bool :=
  let X := pX P in let Y := pY P in let Z := pZ P in
  if (X =? 0) && (Y =? 0) && (Z =? 0) then false
  else if (X =? 0) && (Z =? 0) then true
  else
    Y * Z * (Y + a1 E * X + a3 E * Z) =? a6 E * Z ^ 3 + X * (a4 E * Z * Z + X * (a2 E * Z + X)).

(** points_from_x, lines 259-287; E is a Curvedata (stored b-invariants); x = num/den in lowest terms *)
Definition points_from_x (b2 b4 b6 : Z) (x : rat) : res (list point) :=
  let '(xn, xd2) := x in
  '(ok, xd) <- isqrt xd2 ;;
  if (ok : bool) then
    let xd4 := xd2 * xd2 in
    let s := ((4 * xn + b2 * xd2) * xn + (2 * b4 * xd4)) * xn + b6 * xd4 * xd2 in
    '(ok, t) <- isqrt s ;;
    if (ok : bool) then
      let yn := t - (a1 E * xn + a3 E * xd2) * xd in
      let yn := yn / 2 in
      let P := mkpoint (xn * xd) yn (xd2 * xd) in
      Ok (if negb (t =? 0) then [P; p_neg P] else [P])
    else Ok []
  else Ok [].

(** is_on_real_identity_component, lines 625-639 *)
Definition on_real_id (conncomp b2 b4 : Z) (P : point) : bool :=
  if p_iszero P then true
  else if conncomp =? 1 then true
  else if 6 * pX P * pX P + b2 * pX P * pZ P + b4 * pZ P * pZ P <? 0 then false
  else if 12 * pX P + b2 * pZ P <? 0 then false
  else true.

(** has_good_reduction(bigint p), lines 655-677, for p <> 0 *)
Definition good_red (p : Z) (P : point) : bool :=
  let X := pX P in let Y := pY P in let Z := pZ P in
  if Z mod p =? 0 then true
  else
    let FY := 2 * Y + a1 E * X + a3 E * Z in
    if negb (FY mod p =? 0) then true
    else
      let FX := a1 E * Y * Z - (3 * X * X + 2 * a2 E * X * Z + a4 E * Z * Z) in
      if negb (FX mod p =? 0) then true
      else
        let FZ := Y * (Y + a1 E * X + 2 * a3 E * Z) - (a2 E * X * X + 2 * a4 E * X * Z + 3 * a6 E * Z * Z) in
        negb (FZ mod p =? 0).
End OnCurve.

(** scale, shift, transform, p2points.cc lines 116-152: three coordinates, reduced by the constructor *)
Definition p_scale (P : point) (u : Z) (back : bool) : point :=
  if u =? 1 then P
  else
    let u2 := u * u in
    let u3 := u * u2 in
    if back then mkpoint (u2 * pX P) (u3 * pY P) (pZ P)
    else mkpoint (u * pX P) (pY P) (u3 * pZ P).
Definition p_shift (P : point) (r s t : Z) (back : bool) : point :=
  if back then mkpoint (pX P + r * pZ P) (pY P + s * pX P + t * pZ P) (pZ P)
  else mkpoint (pX P - r * pZ P) (pY P - s * pX P + (r * s - t) * pZ P) (pZ P).
Definition p_transform2 (P : point) (u r s t : Z) (back : bool) : point :=
  if back then p_shift (p_scale P u true) r s t true
  else p_scale (p_shift P r s t false) u false.
(** transform(P,newc,...), points.cc lines 41-59 (the validity tests only print) *)
Definition p_transform (P : point) (u r s t : Z) (back : bool) : point :=
  if p_iszero P then infpt
  else let Q := p_transform2 P u r s t back in Pt (pX Q) (pY Q) (pZ Q) 0.
