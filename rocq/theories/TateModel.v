(** Model of Tate's algorithm, curvered.cc.  Coefficients are bigint (= Z), the
    exponents (C++ int) are Z.  NTL's XGCD and SqrRootMod, [pdivs] and the list
    of roots of a polynomial modulo a prime (NTL's FindRoots) are parameters. *)
From Coq Require Import ZArith List Bool.
From Verif Require Import Base RatModel MArithModel CurveModel.
Import ListNotations.
Open Scope Z_scope.

(** class Reduction_type, curve.h lines 223-240 *)
Record reduction := Red { ord_p_discr : Z; ord_p_N : Z; ord_p_j : Z; kcode : Z; c_p : Z }.

Section Oracles.
Variable xgcd : Z -> Z -> Z * Z * Z.
Variable sqrrootmod : Z -> Z -> Z.
(** rootsmod(coeffs,p), polys.cc lines 50-65: coefficients from the constant term up *)
Variable rootsmod : list Z -> Z -> list Z.
Variable pdivs : Z -> list Z.

(** root(aa,e,p), curvered.cc lines 60-77 *)
Definition root (aa e p : Z) : res Z :=
  a <- zz_mod aa p ;;
  if a =? 0 then Ok a
  else if e =? 2 then Ok (sqrt_mod_p sqrrootmod a p)
  else Ok (match find (fun r => r ^ e mod p =? a) (map Z.of_nat (seq 1 (Z.to_nat (p - 1)))) with
           | Some r => r | None => 0 end).

(** rootsexist(aa,bb,cc,p), lines 79-96; [rootsexist 1 b c p] is the monic version *)
Definition rootsexist (aa bb cc p : Z) : res bool :=
  if Z.even p then r <- zz_mod (aa * bb * cc) p ;; Ok (r =? 0)
  else
    a <- zz_mod aa p ;;
    if a =? 0 then Ok true
    else
      b <- zz_mod bb p ;; c <- zz_mod cc p ;;
      if c =? 0 then Ok true
      else l <- legendre_z (b * b - 4 * a * c) p ;; Ok (0 <=? l).

(** nrootscubic, polys.cc lines 171-179 *)
Definition nrootscubic (b c d p : Z) : Z := Z.of_nat (length (rootsmod [d; c; b; 1] p)).

Section Prime.
Variables (p D j k4 k6 half : Z) (pdiv2 pdiv3 : bool).

(** lines 152-171: the shift making p divide a3, a4, a6; k4, k6 are c4, c6 of the
    curve being reduced and C the current model *)
Definition tate_shift (C : curvedata) : res curvedata :=
  '(r, t) <-
    (if pdiv2 then
       d <- div_z p (b2 C) ;;
       if (d : bool) then
         r <- root (a4 (cv C)) 2 p ;;
         t <- root (((r + a2 (cv C)) * r + a4 (cv C)) * r + a6 (cv C)) 2 p ;; Ok (r, t)
       else
         let temp := invmod_z xgcd (a1 (cv C)) p in
         let r := temp * a3 (cv C) in Ok (r, temp * (a4 (cv C) + r * r))
     else if pdiv3 then
       d <- div_z p (b2 C) ;;
       r <- (if (d : bool) then root (- b6 C) 3 p else Ok (- invmod_z xgcd (b2 C) p * b4 C)) ;;
       Ok (r, a1 (cv C) * r + a3 (cv C))
     else
       d <- div_z p k4 ;;
       let r := if (d : bool) then - invmod_z xgcd 12 p * b2 C
                else - invmod_z xgcd (12 * k4) p * (k6 + b2 C * k4) in
       Ok (r, - half * (a1 (cv C) * r + a3 (cv C)))) ;;
  r <- mod_z r p ;; t <- mod_z t p ;;
  Ok (cd_transform r 0 t C).

(** lines 203-214: the shift after which p | a1, a2, p^2 | a3, a4, p^3 | a6 *)
Definition tate_shift2 (C : curvedata) : res curvedata :=
  '(s, t) <-
    (if pdiv2 then
       s <- root (a2 (cv C)) 2 p ;;
       x <- zz_div (a6 (cv C)) p ;; x <- zz_div x p ;; u <- root x 2 p ;; Ok (s, p * u)
     else if pdiv3 then Ok (a1 (cv C), a3 (cv C))
     else Ok (- a1 (cv C) * half, - a3 (cv C) * half)) ;;
  Ok (cd_transform 0 s t C).

(** case 2, lines 246-304: state (C, ix, iy, mx, my) of the loop, result (C, ix, iy, c_p) *)
Definition istar_step (st : curvedata * Z * Z * Z * Z) :
    res ((curvedata * Z * Z * Z * Z) + (curvedata * Z * Z * Z)) :=
  let '(C, ix, iy, mx, my) := st in
  a2t <- zz_div (a2 (cv C)) p ;;
  a3t <- zz_div (a3 (cv C)) my ;;
  a4t <- (x <- zz_div (a4 (cv C)) p ;; zz_div x mx) ;;
  a6t <- (x <- zz_div (a6 (cv C)) mx ;; zz_div x my) ;;
  d <- div_z p (a3t * a3t + 4 * a6t) ;;
  if (d : bool) then
    t <- (if pdiv2 then u <- root a6t 2 p ;; Ok (my * u) else u <- mod_z (- a3t * half) p ;; Ok (my * u)) ;;
    let C := cd_transform 0 0 t C in
    let my := my * p in let iy := iy + 1 in
    a2t <- zz_div (a2 (cv C)) p ;;
    a3t <- zz_div (a3 (cv C)) my ;;
    a4t <- (x <- zz_div (a4 (cv C)) p ;; zz_div x mx) ;;
    a6t <- (x <- zz_div (a6 (cv C)) mx ;; zz_div x my) ;;
    d <- div_z p (a4t * a4t - 4 * a6t * a2t) ;;
    if (d : bool) then
      r <- (if pdiv2 then u <- root (a6t * invmod_z xgcd a2t p) 2 p ;; Ok (mx * u)
            else u <- mod_z (- a4t * invmod_z xgcd (2 * a2t) p) p ;; Ok (mx * u)) ;;
      Ok (inl (cd_transform r 0 0 C, ix + 1, iy, mx * p, my))
    else
      e <- rootsexist a2t a4t a6t p ;; Ok (inr (C, ix, iy, if (e : bool) then 4 else 2))
  else
    e <- rootsexist 1 a3t (- a6t) p ;; Ok (inr (C, ix, iy, if (e : bool) then 4 else 2)).

Definition tate_double (C : curvedata) (b c d x : Z) : res (curvedata * option reduction) :=
  r <- (if pdiv2 then root c 2 p
        else if pdiv3 then Ok (c * invmod_z xgcd b p)
        else Ok ((b * c - 9 * d) * invmod_z xgcd (2 * x) p)) ;;
  r <- mod_z r p ;;
  let C := cd_transform (p * r) 0 0 C in
  '(C, ix, iy, cp) <- while istar_step (zfuel D) (C, 3, 3, p * p, p * p) ;;
  v <- val_z p D ;;
  Ok (C, Some (Red v (v - ix - iy + 1) j (10 * (ix + iy) - 49) cp)).

(** case 3, lines 306-350 *)
Definition tate_triple (C : curvedata) (b d : Z) : res (curvedata * option reduction) :=
  v <- val_z p D ;;
  r <- (if pdiv2 then Ok b else if pdiv3 then root (- d) 3 p else Ok (- b * invmod_z xgcd 3 p)) ;;
  r <- mod_z r p ;;
  let C := cd_transform (p * r) 0 0 C in
  a3t <- (x <- zz_div (a3 (cv C)) p ;; zz_div x p) ;;
  a6t <- (x <- zz_div (a6 (cv C)) p ;; x <- zz_div x p ;; x <- zz_div x p ;; zz_div x p) ;;
  m <- div_z p (a3t * a3t + 4 * a6t) ;;
  if negb m then
    e <- rootsexist 1 a3t (- a6t) p ;; Ok (C, Some (Red v (v - 6) j 5 (if (e : bool) then 3 else 1)))
  else
    t <- (if pdiv2 then u <- root a6t 2 p ;; Ok (- p * p * u)
          else u <- mod_z (- a3t * half) p ;; Ok (p * p * u)) ;;
    let C := cd_transform 0 0 t C in
    v4 <- val_z p (a4 (cv C)) ;;
    if v4 <? 4 then Ok (C, Some (Red v (v - 7) j 6 2))
    else
      v6 <- val_z p (a6 (cv C)) ;;
      if v6 <? 6 then Ok (C, Some (Red v (v - 8) j 7 1))
      else Ok (C, None).

(** lines 216-244: the cubic T^3 + bT^2 + cT + d *)
Definition tate_cubic (C : curvedata) : res (curvedata * option reduction) :=
  b <- zz_div (a2 (cv C)) p ;;
  c <- (x <- zz_div (a4 (cv C)) p ;; zz_div x p) ;;
  d <- (x <- zz_div (a6 (cv C)) p ;; x <- zz_div x p ;; zz_div x p) ;;
  let bb := b * b in let cc := c * c in let bc := b * c in
  let w := 27 * d * d - bb * cc + 4 * b * bb * d - 18 * bc * d + 4 * c * cc in
  let x := 3 * c - bb in
  dw <- div_z p w ;;
  if (dw : bool) then
    dx <- div_z p x ;;
    if (dx : bool) then tate_triple C b d else tate_double C b c d x
  else
    v <- val_z p D ;;
    Ok (C, Some (Red v (v - 4) j 1 (1 + nrootscubic b c d p))).

(** lines 173-201 and on: types In, II, III, IV *)
Definition tate_types (C : curvedata) : res (curvedata * option reduction) :=
  v <- val_z p D ;;
  m <- div_z p k4 ;;
  if negb m then
    e <- rootsexist 1 (a1 (cv C)) (- a2 (cv C)) p ;;
    Ok (C, Some (Red v 1 j (10 * v) (if (e : bool) then v else if Z.odd v then 1 else 2)))
  else
    v6 <- val_z p (a6 (cv C)) ;;
    if v6 <? 2 then Ok (C, Some (Red v v j 2 1))
    else
      v8 <- val_z p (b8 C) ;;
      if v8 <? 3 then Ok (C, Some (Red v (v - 1) j 3 2))
      else
        v6 <- val_z p (b6 C) ;;
        if v6 <? 3 then
          x <- zz_div (a6 (cv C)) p ;; x <- zz_div x p ;; y <- zz_div (a3 (cv C)) p ;;
          e <- rootsexist 1 y (- x) p ;;
          Ok (C, Some (Red v (v - 2) j 4 (if (e : bool) then 3 else 1)))
        else C <- tate_shift2 C ;; tate_cubic C.
End Prime.

(** The body of the loop over the bad primes, lines 141-351: the new current model
    and the entry of reduct_array (None when the end of the switch is reached with
    the message "reached end of loop") *)
Definition tate_prime (E C : curvedata) (p : Z) : res (curvedata * option reduction) :=
  v <- val_z p (discr E) ;; v4 <- val_z p (c4 E) ;;
  let j := v - 3 * v4 in let j := if j <? 0 then 0 else j in
  let half := zz_shr (p + 1) 1 in
  let pdiv2 := Z.even p in let pdiv3 := p =? 3 in
  C <- tate_shift p (c4 E) (c6 E) half pdiv2 pdiv3 C ;;
  tate_types p (discr E) j (c4 E) half pdiv2 pdiv3 C.

Fixpoint tate_loop (E C : curvedata) (ps : list Z) (acc : list (Z * reduction)) : res (list (Z * reduction)) :=
  match ps with
  | [] => Ok acc
  | p :: ps' =>
      '(C, o) <- tate_prime E C p ;;
      tate_loop E C ps' (match o with Some d => acc ++ [(p, d)] | None => acc end)
  end.

(** CurveRed::CurveRed(Curvedata), lines 120-356: the minimal model, reduct_array
    (in the order of the bad primes instead of that of the map) and the conductor.
    Curvedata(E,1) is the copy followed by minimalize() *)
Definition curvered (E : curvedata) : res (curvedata * list (Z * reduction) * Z) :=
  M <- minimalize pdivs E ;;
  if discr M =? 0 then Ok (M, [], 0)
  else
    l <- tate_loop M M (pdivs (discr M)) [] ;;
    Ok (M, l, fold_left (fun n x => n * fst x ^ ord_p_N (snd x)) l 1).
End Oracles.
