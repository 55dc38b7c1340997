(** Model of the Weierstrass equations of curve.h / curve.cc / curvedata.cc.
    Coefficients are bigint (= Z).  [pdivs] on bigints (factorisation by PARI or
    by trial division and NTL) is a parameter, see [pdivs_spec] in CurveProofs. *)
From Coq Require Import ZArith List Bool.
From Verif Require Import Base RatModel MArithModel.
Import ListNotations.
Open Scope Z_scope.

(** class Curve, curve.h *)
Record curve := Cv { a1 : Z; a2 : Z; a3 : Z; a4 : Z; a6 : Z }.
Definition null_curve : curve := Cv 0 0 0 0 0.

(** ndiv(long,bigint), marith.h lines 200-201, with positive first argument *)
Definition ndiv (f n : Z) : bool := negb (n mod f =? 0).

(** valid_invariants, curve.cc lines 30-42 *)
Definition valid_invariants (c4 c6 : Z) : res bool :=
  let disc := c4 * c4 * c4 - c6 * c6 in
  if disc =? 0 then Ok false
  else if ndiv 1728 disc then Ok false
  else
    x6 <- mod_zl c6 27 ;;
    if (x6 =? 9) || (x6 =? -9) then Ok false
    else
      x6 <- mod_zl c6 4 ;;
      if x6 =? -1 then Ok true
      else if ndiv 16 c4 then Ok false
      else
        x6 <- mod_zl c6 32 ;;
        Ok ((x6 =? 0) || (x6 =? 8)).

(** c4c6_to_ai, lines 44-66: returns the curve and b2, b4, b6, b8 *)
Definition c4c6_to_ai (c4 c6 : Z) : res (curve * (Z * Z * Z * Z)) :=
  b2 <- mod_z (- c6) 12 ;;
  let b22 := b2 * b2 in
  let b4 := (b22 - c4) / 24 in
  let b6 := (- b2 * b22 + 36 * b2 * b4 - c6) / 216 in
  let b8 := (b2 * b6 - b4 * b4) / 4 in
  let a1 := if Z.odd b2 then 1 else 0 in
  let a3 := if Z.odd b6 then 1 else 0 in
  let a2 := (b2 - a1) / 4 in
  let a4 := (b4 - a1 * a3) / 2 in
  let a6 := (b6 - a3) / 4 in
  Ok (Cv a1 a2 a3 a4 a6, (b2, b4, b6, b8)).

(** Curve::Curve(c4,c6), lines 119-133 *)
Definition curve_of_c4c6 (c4 c6 : Z) : res curve :=
  v <- valid_invariants c4 c6 ;;
  if (v : bool) then '(c, _) <- c4c6_to_ai c4 c6 ;; Ok c else Ok null_curve.

(** NTL's right shift of a ZZ: the absolute value is shifted *)
Definition zz_shr (a n : Z) : Z := Z.sgn a * (Z.abs a / 2 ^ n).

Section Pdivs.
Variable pdivs : Z -> list Z.

(** body of the loop of minimise_c4c6, lines 88-107: the exponent d for p;
    floor(val/12.0) is exact for these magnitudes *)
Definition min_exp (c4 c6 g p : Z) : res Z :=
  v <- val_z p g ;;
  let d := v / 12 in
  if p =? 2 then
    a <- mod_zl (zz_shr c4 (4 * d)) 16 ;;
    b <- mod_zl (zz_shr c6 (6 * d)) 32 ;;
    let b := if b <? 0 then b + 32 else b in
    Ok (if negb (Z.rem b 4 =? 3) && negb ((a =? 0) && ((b =? 0) || (b =? 8))) then d - 1 else d)
  else if p =? 3 then
    w <- val_z 3 c6 ;;
    Ok (if w =? 6 * d + 2 then d - 1 else d)
  else Ok d.
Fixpoint min_loop (c4 c6 g : Z) (ps : list Z) (u : Z) : res Z :=
  match ps with
  | [] => Ok u
  | p :: ps' =>
      d <- min_exp c4 c6 g p ;;
      min_loop c4 c6 g ps' (if 0 <? d then u * p ^ d else u)
  end.
(** minimise_c4c6, lines 76-116: (newc4, newc6, newdiscr, u); the flag u_is_1
    is u = 1 *)
Definition minimise_c4c6 (c4 c6 : Z) : res (Z * Z * Z * Z) :=
  let c62 := c6 * c6 in
  let newdiscr := (c4 * c4 * c4 - c62) / 1728 in
  if Z.gcd c4 c6 =? 1 then Ok (c4, c6, newdiscr, 1)
  else
    let g := Z.gcd c62 newdiscr in
    if g =? 1 then Ok (c4, c6, newdiscr, 1)
    else
      u <- min_loop c4 c6 g (pdivs g) 1 ;;
      if u =? 1 then Ok (c4, c6, newdiscr, 1)
      else
        let u2 := u * u in let u4 := u2 * u2 in let u6 := u2 * u4 in let u12 := u6 * u6 in
        n4 <- zz_div c4 u4 ;; n6 <- zz_div c6 u6 ;; nd <- zz_div newdiscr u12 ;;
        Ok (n4, n6, nd, u).

(** class Curvedata: the invariants kept with the curve (conncomp: number of
    real components); torsion and the list of bad primes are left out *)
Record curvedata := Cd { cv : curve; b2 : Z; b4 : Z; b6 : Z; b8 : Z; c4 : Z; c6 : Z; discr : Z;
  conncomp : Z; minimal_flag : bool }.
Definition null_data : curvedata := Cd null_curve 0 0 0 0 0 0 0 0 false.

(** minimalize(), curvedata.cc lines 191-227 *)
Definition isnull (c : curve) : bool :=
  (a1 c =? 0) && (a2 c =? 0) && (a3 c =? 0) && (a4 c =? 0) && (a6 c =? 0).
Definition minimalize (E : curvedata) : res curvedata :=
  if minimal_flag E then Ok E
  else if isnull (cv E) then Ok (Cd (cv E) (b2 E) (b4 E) (b6 E) (b8 E) (c4 E) (c6 E) (discr E) (conncomp E) true)
  else
    '(n4, n6, nd, u) <- minimise_c4c6 (c4 E) (c6 E) ;;
    let k4 := if 1 <? u then n4 else c4 E in
    let k6 := if 1 <? u then n6 else c6 E in
    '(c, bs) <- c4c6_to_ai k4 k6 ;;
    let '(B2, B4, B6, B8) := bs in
    Ok (Cd c B2 B4 B6 B8 k4 k6 nd (conncomp E) true).

(** Curvedata::Curvedata(Curve, min_on_init), lines 118-142, and the version
    from five coefficients, lines 28-52 *)
Definition curvedata_of (c : curve) (min_on_init : bool) : res curvedata :=
  let B2 := a1 c * a1 c + 4 * a2 c in let B4 := 2 * a4 c + a1 c * a3 c in
  let B6 := a3 c * a3 c + 4 * a6 c in let B8 := (B2 * B6 - B4 * B4) / 4 in
  let C4 := B2 * B2 - 24 * B4 in
  let C6 := - B2 * B2 * B2 + 36 * B2 * B4 - 216 * B6 in
  let D := (C4 * C4 * C4 - C6 * C6) / 1728 in
  if D =? 0 then Ok null_data
  else
    let E := Cd c B2 B4 B6 B8 C4 C6 D (if 0 <? D then 2 else 1) false in
    if min_on_init then minimalize E else Ok E.

(** Curvedata::Curvedata(c4,c6,min_on_init), lines 164-194 (conncomp is left
    uninitialised for invalid invariants: 0 here) *)
Definition curvedata_of_c4c6 (cc4 cc6 : Z) (min_on_init : bool) : res curvedata :=
  v <- valid_invariants cc4 cc6 ;;
  if (v : bool) then
    '(c, bs) <- c4c6_to_ai cc4 cc6 ;;
    let '(B2, B4, B6, B8) := bs in
    let D := (cc4 * cc4 * cc4 - cc6 * cc6) / 1728 in
    let E := Cd c B2 B4 B6 B8 cc4 cc6 D (if 0 <? D then 2 else 1) false in
    if min_on_init then minimalize E else Ok E
  else Ok null_data.

(** Curvedata::minimalize(u,r,s,t), lines 229-254: new data and (u,r,s,t) *)
Definition minimalize_urst (E : curvedata) : res (curvedata * (Z * Z * Z * Z)) :=
  if minimal_flag E then Ok (E, (1, 0, 0, 0))
  else
    '(n4, n6, nd, u) <- minimise_c4c6 (c4 E) (c6 E) ;;
    N <- curvedata_of_c4c6 n4 n6 false ;;
    let s := (u * a1 (cv N) - a1 (cv E)) / 2 in
    let u2 := u * u in
    let r := (u2 * a2 (cv N) - a2 (cv E) + s * a1 (cv E) + s * s) / 3 in
    let t := (u2 * u * a3 (cv N) - a3 (cv E) - r * a1 (cv E)) / 2 in
    Ok (N, (u, r, s, t)).

(** Curvedata::transform(r,s,t), lines 256-267; c4, c6, discr are kept.  Each
    line uses the coefficients not yet changed. *)
Definition cd_transform (r s t : Z) (E : curvedata) : curvedata :=
  let c := cv E in
  let A6 := a6 c + (r * (a4 c + r * (a2 c + r)) - t * (a3 c + r * a1 c + t)) in
  let A4 := a4 c + (- s * a3 c + 2 * r * a2 c - (t + r * s) * a1 c + 3 * r * r - 2 * s * t) in
  let A3 := a3 c + (r * a1 c + t + t) in
  let A2 := a2 c + (- s * a1 c + 3 * r - s * s) in
  let A1 := a1 c + (s + s) in
  let B2 := A1 * A1 + 4 * A2 in let B4 := A4 + A4 + A1 * A3 in
  let B6 := A3 * A3 + 4 * A6 in let B8 := (B2 * B6 - B4 * B4) / 4 in
  Cd (Cv A1 A2 A3 A4 A6) B2 B4 B6 B8 (c4 E) (c6 E) (discr E) (conncomp E) (minimal_flag E).
End Pdivs.
