(** Model of libsrc/legendre.cc (solution of a x^2 + b y^2 + c z^2 = 0) and of the functions
    cancel1, cancel and conic_mordell_reduce of libsrc/conic.cc which it calls.  No proofs.

    All numbers are bigint (= Z); [/] and [%] of NTL round down and stop the program when the
    divisor is zero ([Die]).  XGCD and SqrRootMod of NTL are parameters.  Loops have bounds
    which the theorems show to be large enough; the recursion of legendre_solve_cert_1 has the
    bound [f].  Output to cout and the blocks under DEBUG_*, CHECK_*, REDUCE_INTERMEDIATES (not
    defined in legendre.cc), MORDELL_REDUCE (not defined) are left out; USE_SMALL_P is defined.
    A triple (x,y,z) of reference parameters is a result.  The parameter u of the functions
    returning a code is reported as 0 when the code is 0 (its value is not used then). *)
From Coq Require Import ZArith List Bool.
From Verif Require Import Base RatModel MArithModel FormsModel.
Import ListNotations.
Open Scope Z_scope.
Open Scope res_scope.

Definition tri : Type := Z * Z * Z.

(** ** conic.cc *)

(** cancel1, lines 455-465 *)
Definition cancel1 (s : tri) : res tri :=
  let '(x, y, z) := s in
  let g := Z.gcd x y in
  if g =? 1 then Ok (x, y, z)
  else
    let g := Z.gcd g z in
    if g =? 1 then Ok (x, y, z)
    else x <- zz_div x g ;; y <- zz_div y g ;; z <- zz_div z g ;; Ok (x, y, z).
(** cancel, lines 467-477 *)
Definition cancel (s : tri) : res tri :=
  '(x, y, z) <- cancel1 s ;;
  if 0 <? z then Ok (x, y, z)
  else if z <? 0 then Ok (- x, - y, - z)
  else if 0 <? y then Ok (x, y, z)
  else if y <? 0 then Ok (- x, - y, z)
  else if x <? 0 then Ok (- x, y, z)
  else Ok (x, y, z).

Section Leg.
Variable xgcd : Z -> Z -> Z * Z * Z.

(** The loop of conic_mordell_reduce, lines 884-967; [stop] is ok||fail.  The quotients of
    divide_exact are rounded down (with a message) when the division is not exact. *)
Definition mordell_step (a b c : Z) (s : tri * bool) : res (tri * bool + tri) :=
  let '((x0, y0, z0), stop) := s in
  if stop then Ok (inr (x0, y0, z0))
  else
    let gxy := Z.abs (Z.gcd x0 y0) in
    '(x00, y00, c0) <-
      (if 1 <? gxy then x <- zz_div x0 gxy ;; y <- zz_div y0 gxy ;; c' <- zz_div c (gxy * gxy) ;; Ok (x, y, c')
       else Ok (x0, y0, c)) ;;
    d <- (if Z.odd c0 then Ok c0 else zz_div c0 2) ;;
    let '(_, xx, yy) := xgcd y00 (- x00) in
    let xx := xx * d in let yy := yy * d in
    let u := a * x00 * xx + b * y00 * yy in
    let v := - c0 * z0 in
    let '(u, v) := if v <? 0 then (- u, - v) else (u, v) in
    zz <- (if Z.odd c0 then
             if Z.odd (a * xx + b * yy) then
               zz <- roundover u v ;;
               if Z.even zz then (if u <? v * zz then Ok (zz - 1) else Ok (zz + 1)) else Ok zz
             else zz <- roundover u (2 * v) ;; Ok (2 * zz)
           else roundover u v) ;;
    let u := a * (xx * xx) + b * (yy * yy) + c0 * (zz * zz) in
    let v := 2 * (a * x00 * xx + b * y00 * yy + c0 * z0 * zz) in
    let d := if Z.odd c0 then d * 2 else d in
    nx <- zz_div (x00 * u - xx * v) d ;;
    ny <- zz_div (y00 * u - yy * v) d ;;
    nz <- zz_div (z0 * u - zz * v) d ;;
    let '(nx, ny) := if 1 <? gxy then (nx * gxy, ny * gxy) else (nx, ny) in
    '(nx, ny, nz) <- cancel1 (nx, ny, nz) ;;
    let fail := Z.abs z0 <=? Z.abs nz in
    Ok (inl ((nx, ny, nz), (nz * nz <=? a * b) || fail)).
(** conic_mordell_reduce, lines 853-976 *)
Definition conic_mordell_reduce (a b c : Z) (s : tri) : res tri :=
  let '(x0, y0, z0) := s in
  while (mordell_step a b c) (zfuel z0) ((x0, y0, z0), z0 * z0 <=? a * b).

(** ** legendre.cc *)

(** nearest of marith.h lines 67-68 is [roundover].
    Loop of minv, lines 86-103; state (x,y,xx,yy,n1,n2). *)
Definition minv_step (c1 c2 : Z) (s : Z * Z * Z * Z * Z * Z) : res (Z * Z * Z * Z * Z * Z + Z * Z) :=
  let '(x, y, xx, yy, n1, n2) := s in
  if n1 <=? n2 then Ok (inr (x, y))
  else
    let '(n1, n2, x, xx, y, yy) := (n2, n1, xx, x, yy, y) in
    let dot := c1 * x * xx + c2 * y * yy in
    alpha <- roundover dot n1 ;;
    let '(xx, yy, n2) :=
      if alpha =? 0 then (xx, yy, n2)
      else let xx := xx - alpha * x in let yy := yy - alpha * y in
           (xx, yy, c1 * (xx * xx) + c2 * (yy * yy)) in
    Ok (inl (x, y, xx, yy, n1, n2)).
(** minv, lines 70-111 *)
Definition minv (a1 a2 b1 b2 c1 c2 : Z) : res (Z * Z) :=
  let '(x, y, xx, yy) := (a1, a2, b1, b2) in
  let n1 := c1 * (x * x) + c2 * (y * y) in
  let dot := c1 * x * xx + c2 * y * yy in
  alpha <- roundover dot n1 ;;
  let '(xx, yy) := if alpha =? 0 then (xx, yy) else (xx - alpha * x, yy - alpha * y) in
  let n2 := c1 * (xx * xx) + c2 * (yy * yy) in
  while (minv_step c1 c2) (zfuel n1) (x, y, xx, yy, n1, n2).

(** GIreduce, lines 115-124 *)
Definition GIreduce (a b c d : Z) : res (Z * Z) :=
  let n := c * c + d * d in
  q1 <- roundover (a * c + b * d) n ;;
  q2 <- roundover (b * c - a * d) n ;;
  Ok (a - c * q1 + d * q2, b - c * q2 - d * q1).
(** Loop of GIgcd, lines 133-138; state (x1,y1,x2,y2). *)
Definition GIgcd_step (s : Z * Z * Z * Z) : res (Z * Z * Z * Z + Z * Z) :=
  let '(x1, y1, x2, y2) := s in
  '(x3, y3) <- GIreduce x1 y1 x2 y2 ;;
  if (x3 =? 0) && (y3 =? 0) then Ok (inr (x2, y2)) else Ok (inl (x2, y2, x3, y3)).
(** GIgcd, lines 127-143 *)
Definition GIgcd (a b c d : Z) : res (Z * Z) :=
  '(e, f) <- (if (c =? 0) && (d =? 0) then Ok (a, b)
              else while GIgcd_step (zfuel (c * c + d * d)) (a, b, c, d)) ;;
  if (e <=? 0) && (0 <? f) then Ok (f, - e)
  else if (e <? 0) && (f <=? 0) then Ok (- e, - f)
  else if (0 <=? e) && (f <? 0) then Ok (- f, e)
  else Ok (e, f).

(** lem1plus, lines 147-161 *)
Definition lem1plus (a b c n p q : Z) : res tri :=
  '(x, y) <- GIgcd q 1 c 0 ;;
  let y := if b =? -1 then - y else y in
  Ok (x, y, 1).
(** lem1minus, lines 169-208.  When neither test on d holds a message is written and x keeps
    its value, which is 0 (legendre_solve_cert_1 sets x=y=z=0). *)
Definition lem1minus (a b c n p q : Z) : res tri :=
  if q =? 1 then Ok (1, a, 0)
  else
    let absc := Z.abs c in
    if (q =? -1) || (q =? absc - 1) then Ok (1, - a, 0)
    else
      let cplus := Z.gcd (q - 1) c in
      let cminus := Z.gcd (q + 1) c in
      let d := cplus * cminus in
      z <- zz_div d absc ;;
      x <- (if d =? absc then zz_div (cminus - cplus) 2
            else if d =? 2 * absc then t <- zz_div cminus 2 ;; Ok (t - cplus)
            else Ok 0) ;;
      let y := cminus - x in
      let '(x, y) := if 0 <? b * c then (y, x) else (x, y) in
      let x := if a <? 0 then - x else x in
      Ok (x, y, z).
(** lem1, lines 211-254; when wrongly called x,y,z keep their values (0). *)
Definition lem1 (a b c n p q : Z) : res tri :=
  if b * c =? -1 then '(y, z, x) <- lem1minus b c a p q n ;; Ok (x, y, z)
  else if b * c =? 1 then '(y, z, x) <- lem1plus b c a p q n ;; Ok (x, y, z)
  else if a * b =? -1 then lem1minus a b c n p q
  else if a * b =? 1 then lem1plus a b c n p q
  else if c * a =? -1 then '(z, x, y) <- lem1minus c a b q n p ;; Ok (x, y, z)
  else if c * a =? 1 then '(z, x, y) <- lem1plus c a b q n p ;; Ok (x, y, z)
  else Ok (0, 0, 0).

(** lem3, lines 1366-1425.
    Removal of the squares of a small prime, lines 1378-1379. *)
Definition sq_step (p : Z) (s : Z * Z) : res (Z * Z + Z * Z) :=
  let '(m, c) := s in
  r <- zz_mod m (p * p) ;;
  if r =? 0 then q <- zz_div m (p * p) ;; Ok (inl (q, c * p)) else Ok (inr (m, c)).
Fixpoint smallp_loop (ps : list Z) (m1 m2 c1 c2 : Z) : res (Z * Z * Z * Z) :=
  match ps with
  | [] => Ok (m1, m2, c1, c2)
  | p :: ps =>
      '(m1, c1) <- while (sq_step p) (zfuel m1) (m1, c1) ;;
      '(m2, c2) <- while (sq_step p) (zfuel m2) (m2, c2) ;;
      smallp_loop ps m1 m2 c1 c2
  end.
Definition smallp : list Z := [2; 3; 5; 7; 11; 13; 17; 19].
(** The loop of lines 1383-1413; state (m1,m2,m3,c1,c2,flag12,flag13,flag23). *)
Definition lem3_step (s : Z * Z * Z * Z * Z * bool * bool * bool)
  : res (Z * Z * Z * Z * Z * bool * bool * bool + Z * Z * Z * Z * Z) :=
  let '(m1, m2, m3, c1, c2, f12, f13, f23) := s in
  if f12 || f13 || f23 then
    '(m1, m2, m3, f12, f13, f23) <-
      (if f12 then
         let d := Z.abs (Z.gcd m1 m2) in
         if 1 <? d then m1 <- zz_div m1 d ;; m2 <- zz_div m2 d ;; Ok (m1, m2, m3 * d, false, true, true)
         else Ok (m1, m2, m3, false, f13, f23)
       else Ok (m1, m2, m3, f12, f13, f23)) ;;
    '(m1, m2, m3, c1, f12, f13, f23) <-
      (if (f13 : bool) then
         let d := Z.abs (Z.gcd m1 m3) in
         if 1 <? d then m1 <- zz_div m1 d ;; m3 <- zz_div m3 d ;; Ok (m1, m2 * d, m3, c1 * d, true, false, true)
         else Ok (m1, m2, m3, c1, f12, false, f23)
       else Ok (m1, m2, m3, c1, f12, f13, f23)) ;;
    '(m1, m2, m3, c2, f12, f13, f23) <-
      (if (f23 : bool) then
         let d := Z.abs (Z.gcd m2 m3) in
         if 1 <? d then m2 <- zz_div m2 d ;; m3 <- zz_div m3 d ;; Ok (m1 * d, m2, m3, c2 * d, true, true, false)
         else Ok (m1, m2, m3, c2, f12, f13, false)
       else Ok (m1, m2, m3, c2, f12, f13, f23)) ;;
    Ok (inl (m1, m2, m3, c1, c2, f12, f13, f23))
  else Ok (inr (m1, m2, m3, c1, c2)).
Definition lem3 (a b : Z) : res (Z * Z * Z * Z * Z) :=
  if (a =? 0) || (b =? 0) then Ok (a, b, 1, 1, 1)
  else
    '(m1, m2, c1, c2) <- smallp_loop smallp a b 1 1 ;;
    while lem3_step (zfuel (m1 * m2) + 2) (m1, m2, 1, c1, c2, true, true, true).

(** ** The descent *)
(** A function of type legendre_solve_cert_1: returns (code, u, (x,y,z)). *)
Definition solver : Type := Z -> Z -> Z -> Z -> Z -> Z -> res (Z * Z * tri).

(** The do-loop of lem4_1, lines 1130-1228; state (n2, aa, gamma).  A return statement in the
    loop is [inr (inl (code, u))], the end of the loop is [inr (inr (n2, aa, gamma, (x1,y1,z1)))]. *)
Definition lem4_body (rec : solver) (a b c k1 k2 k3 bb cc w1 w2 d1 d2 m1 m2 n3 : Z) (s : Z * Z * Z)
  : res (Z * Z * Z + (Z * Z + Z * Z * Z * tri)) :=
  let '(n2, aa, gamma) := s in
  let bc := b * c in
  let gammafactor := Z.gcd w1 gamma in
  '(w1star, w2star, gammastar, ret) <-
    (if 1 <? gammafactor then
       w1star <- zz_div w1 gammafactor ;; w2star <- zz_div w2 gammafactor ;;
       gammastar <- zz_div gamma gammafactor ;;
       let e := Z.gcd d1 w1star in u <- zz_div d1 e ;; let u := Z.abs u in
       if 1 <? u then Ok (w1star, w2star, gammastar, Some (3, u))
       else
         let e := Z.gcd d2 w2star in u <- zz_div d2 e ;; let u := Z.abs u in
         if 1 <? u then Ok (w1star, w2star, gammastar, Some (2, u))
         else Ok (w1star, w2star, gammastar, None)
     else Ok (w1, w2, gamma, None)) ;;
  match ret with
  | Some r => Ok (inr (inl r))
  | None =>
      let inv_w2_mod_n2 := invmod_z xgcd w2star n2 in
      let inv_w1_mod_d2 := invmod_z xgcd w1star d2 in
      let inv_w2_mod_d1 := invmod_z xgcd w2star d1 in
      let aaa := invmod_z xgcd (a * gammastar) bc in
      '(_, k1dash) <- chrem xgcd (- b * w1star * inv_w2_mod_n2) (- k1) n2 n3 ;;
      '(_, k2dash) <- chrem xgcd (k3 * w1star * aaa) (k2 * w2star * aaa) m1 m2 ;;
      '(_, k3dash) <- chrem xgcd (k2 * aa * gammastar * inv_w1_mod_d2) (- k3 * aa * gammastar * inv_w2_mod_d1) d2 d1 ;;
      '(r, u, s1) <- rec aa bb cc k1dash k2dash k3dash ;;
      if r =? 0 then Ok (inr (inr (n2, aa, gamma, s1)))
      else if r =? 1 then
        let d := Z.gcd u n3 in
        if 1 <? d then Ok (inr (inl (1, d)))
        else
          let u2 := u * u in
          n2 <- zz_div n2 u2 ;; aa <- zz_div aa u2 ;;
          Ok (inl (n2, aa, gamma * u))
      else if (r =? 2) || (r =? 3) then
        let d := Z.gcd u b in
        if 1 <? d then Ok (inr (inl (2, d)))
        else
          let d := Z.gcd u c in
          if 1 <? d then Ok (inr (inl (3, d))) else Ok (inr (inl (-1, u)))
      else Ok (inr (inl (-1, u)))
  end.

(** lem4_1, lines 1003-1340 *)
Definition lem4_1 (rec : solver) (a b c k1 k2 k3 : Z) : res (Z * Z * tri) :=
  if Z.abs b =? 1 then s <- lem1 a b c k1 k2 k3 ;; Ok (0, 0, s)
  else
    w <- zz_mod (k1 * invmod_z xgcd c a) a ;;
    '(w1, w2) <- minv 1 w 0 a (Z.abs b) (Z.abs c) ;;
    t <- zz_div (b * (w1 * w1) + c * (w2 * w2)) a ;;
    let bc := b * c in
    '(aa, bb, cc, gamma, alpha) <- lem3 t bc ;;
    let '(aa, bb, cc) := if 0 <? cc then (- aa, - bb, - cc) else (aa, bb, cc) in
    let O3 := (0, 0, 0) in
    let u := Z.gcd alpha b in
    if 1 <? u then Ok (2, u, O3)
    else
    let u := Z.gcd alpha c in
    if 1 <? u then Ok (3, u, O3)
    else
    let d1 := Z.gcd cc c in
    let e := Z.gcd d1 w1 in u <- zz_div d1 e ;; let u := Z.abs u in
    if 1 <? u then Ok (3, u, O3)
    else
    d2 <- zz_div cc d1 ;;
    let e := Z.gcd d2 w2 in u <- zz_div d2 e ;; let u := Z.abs u in
    if 1 <? u then Ok (2, u, O3)
    else
    let d := Z.gcd b gamma in
    let e := Z.gcd d w2 in u <- zz_div d e ;; let u := Z.abs u in
    if 1 <? u then Ok (2, u, O3)
    else if 1 <? d then Ok (2, d, O3)
    else
    let d := Z.gcd c gamma in
    let e := Z.gcd d w1 in u <- zz_div d e ;; let u := Z.abs u in
    if 1 <? u then Ok (3, u, O3)
    else if 1 <? d then Ok (3, d, O3)
    else
    m1 <- zz_div c d1 ;; m2 <- zz_div b d2 ;;
    '(n1, n2, n3, cc1, cc2) <- lem3 a aa ;;
    if 1 <? cc1 then Ok (1, cc1, O3)
    else
    '(aa, gamma) <- (if 1 <? cc2 then aa <- zz_div aa (cc2 * cc2) ;; Ok (aa, gamma * cc2) else Ok (aa, gamma)) ;;
    r <- while (lem4_body rec a b c k1 k2 k3 bb cc w1 w2 d1 d2 m1 m2 n3) (zfuel n2) (n2, aa, gamma) ;;
    match r with
    | inl (code, u) => Ok (code, u, O3)
    | inr (n2, aa, gamma, (x1, y1, z1)) =>
        let x := - gamma * aa * x1 in
        t2 <- zz_div w2 d2 ;;
        let y := m1 * t2 * y1 + w1 * z1 in
        t1 <- zz_div w1 d1 ;;
        let z := m2 * t1 * y1 - w2 * z1 in
        if 1 <? Z.abs n2 then
          x <- zz_div x n2 ;; y <- zz_div y n2 ;; z <- zz_div z n2 ;; Ok (0, 0, (x, y, z))
        else Ok (0, 0, (x, y, z))
    end.

(** permtable, line 496, and the permutations of lines 541-558: the arguments of lem4_1, and
    how its solution is returned. *)
Definition permtable (perm res : Z) : Z :=
  if res =? -1 then -1
  else if perm =? 0 then res
  else if perm =? 1 then (if res =? 2 then 3 else if res =? 3 then 2 else res)
  else if perm =? 2 then (if res =? 1 then 2 else if res =? 2 then 1 else res)
  else if perm =? 3 then (if res =? 1 then 2 else if res =? 2 then 3 else if res =? 3 then 1 else res)
  else if perm =? 4 then (if res =? 1 then 3 else if res =? 2 then 1 else if res =? 3 then 2 else res)
  else (if res =? 1 then 3 else if res =? 3 then 1 else res).
Definition perm_of (absa absb absc : Z) : Z :=
  if absb <? absa then (if absa <? absc then 4 else if absc <? absb then 0 else 1)
  else (if absc <? absa then 2 else if absb <? absc then 5 else 3).
(** legendre_solve_cert_1, lines 502-566 *)
Fixpoint legendre_solve_cert_1 (f : nat) (a b c n p q : Z) : res (Z * Z * tri) :=
  match f with
  | O => OutOfFuel
  | S f =>
      let absa := Z.abs a in let absb := Z.abs b in let absc := Z.abs c in
      '(ok, u) <- isqrt absb ;;
      if (ok : bool) && (1 <? u) then Ok (2, u, (0, 0, 0))
      else
      '(ok, u) <- isqrt absc ;;
      if (ok : bool) && (1 <? u) then Ok (3, u, (0, 0, 0))
      else
      '(ok, u) <- isqrt absa ;;
      if (ok : bool) && (1 <? u) then Ok (1, u, (0, 0, 0))
      else
      let perm := perm_of absa absb absc in
      let rec := legendre_solve_cert_1 f in
      '(r, u, s) <-
        (if perm =? 0 then lem4_1 rec a b c n p q
         else if perm =? 1 then '(r, u, (x, z, y)) <- lem4_1 rec a c b (- n) (- q) (- p) ;; Ok (r, u, (x, y, z))
         else if perm =? 2 then '(r, u, (y, x, z)) <- lem4_1 rec b a c (- p) (- n) (- q) ;; Ok (r, u, (x, y, z))
         else if perm =? 3 then '(r, u, (y, z, x)) <- lem4_1 rec b c a p q n ;; Ok (r, u, (x, y, z))
         else if perm =? 4 then '(r, u, (z, x, y)) <- lem4_1 rec c a b q n p ;; Ok (r, u, (x, y, z))
         else '(r, u, (z, y, x)) <- lem4_1 rec c b a (- q) (- p) (- n) ;; Ok (r, u, (x, y, z))) ;;
      Ok (permtable perm r, u, s)
  end.

(** ** Reduction of solutions *)
(** legendre_reduce, lines 647-695 *)
Definition legendre_reduce (a b c : Z) (s : tri) : res tri :=
  let '(x0, y0, z0) := s in
  if 0 <? a then
    if 0 <? b then conic_mordell_reduce a b c (x0, y0, z0)
    else if 0 <? c then '(x0, z0, y0) <- conic_mordell_reduce a c b (x0, z0, y0) ;; Ok (x0, y0, z0)
    else '(z0, y0, x0) <- conic_mordell_reduce (- c) (- b) (- a) (z0, y0, x0) ;; Ok (x0, y0, z0)
  else
    if 0 <? b then
      if 0 <? c then '(y0, z0, x0) <- conic_mordell_reduce b c a (y0, z0, x0) ;; Ok (x0, y0, z0)
      else '(x0, z0, y0) <- conic_mordell_reduce (- a) (- c) (- b) (x0, z0, y0) ;; Ok (x0, y0, z0)
    else conic_mordell_reduce (- a) (- b) (- c) (x0, y0, z0).

(** x_shift(e,m) and the divisions of coefficients, lines 866-868 (m is reset afterwards) *)
Definition param_shift (e z1 z12 : Z) (q : quadratic) : res quadratic :=
  let q := q_xshift e q in
  t1 <- zz_div (qb q) z1 ;; t2 <- zz_div (qc q) z12 ;; Ok (Qd (qa q) t1 t2).
Definition q_scale (g : Z) (q : quadratic) : quadratic := Qd (g * qa q) (g * qb q) (g * qc q).
(** legendre_param, lines 840-904 *)
Definition legendre_param (a b c : Z) (s : tri) : res (quadratic * quadratic * quadratic) :=
  let '(x0, y0, z0) := s in
  let g := Z.abs (Z.gcd y0 z0) in
  '(a1, y1, z1) <-
    (if 1 <? g then a1 <- zz_div a (g * g) ;; y1 <- zz_div y0 g ;; z1 <- zz_div z0 g ;; Ok (a1, y1, z1)
     else Ok (a, y0, z0)) ;;
  let z12 := z1 * z1 in
  let qx := Qd (a1 * x0) (2 * b * y1) (- b * x0) in
  let qy := Qd (- a1 * y1) (2 * a1 * x0) (b * y1) in
  let qz := Qd (a1 * z1) 0 (b * z1) in
  let '(_, u, v) := xgcd y1 z12 in
  e <- zz_mod (u * x0) z12 ;;
  qx <- param_shift e z1 z12 qx ;;
  qy <- param_shift e z1 z12 qy ;;
  qz <- param_shift e z1 z12 qz ;;
  '(qx, qy, qz) <-
    (if 0 <? a * b then '(qz, m) <- q_reduce qz um_id ;; Ok (q_transform m qx, q_transform m qy, qz)
     else if 0 <? a * c then '(qy, m) <- q_reduce qy um_id ;; Ok (q_transform m qx, qy, q_transform m qz)
     else '(qx, m) <- q_reduce qx um_id ;; Ok (qx, q_transform m qy, q_transform m qz)) ;;
  if 1 <? g then Ok (qx, q_scale g qy, q_scale g qz) else Ok (qx, qy, qz).

(** new_legendre_reduce, lines 906-984 *)
Definition new_legendre_reduce (a b c : Z) (s : tri) : res tri :=
  let '(x0, y0, z0) := s in
  let sa := Z.sgn a in let sb := Z.sgn b in let sc := Z.sgn c in
  let '(which, test, ok) :=
    if ((sa <? 0) && (0 <? sb) && (0 <? sc)) || ((0 <? sa) && (sb <? 0) && (sc <? 0))
    then (1, b * c, x0 * x0 <=? b * c)
    else if ((sb <? 0) && (0 <? sa) && (0 <? sc)) || ((0 <? sb) && (sa <? 0) && (sc <? 0))
    then (2, a * c, y0 * y0 <=? a * c)
    else (3, a * b, z0 * z0 <=? a * b) in
  if (ok : bool) then Ok (x0, y0, z0)
  else
    '(qx, qy, qz) <- legendre_param a b c (x0, y0, z0) ;;
    '(nx, ny, nz) <- cancel (Z.abs (qa qx), Z.abs (qa qy), Z.abs (qa qz)) ;;
    let ok := if which =? 1 then nx * nx <=? test else if which =? 2 then ny * ny <=? test else nz * nz <=? test in
    if (ok : bool) then Ok (nx, ny, nz) else legendre_reduce a b c (nx, ny, nz).

(** ** legendre_solve *)
(** One round of the loop of lines 292-305; state (a1,b1,c1,xfac,yfac,zfac,ntry). *)
Definition coprime_step (s : Z * Z * Z * Z * Z * Z * Z) : res (Z * Z * Z * Z * Z * Z * Z + Z * Z * Z * Z * Z * Z) :=
  let '(a1, b1, c1, xf, yf, zf, ntry) := s in
  if 0 <? ntry then
    let ntry := ntry - 1 in
    '(a1, b1, c1, xf, ntry) <-
      (let g := Z.gcd b1 c1 in
       if 1 <? g then b1 <- zz_div b1 g ;; c1 <- zz_div c1 g ;; Ok (a1 * g, b1, c1, xf * g, 3)
       else Ok (a1, b1, c1, xf, ntry)) ;;
    '(a1, b1, c1, yf, ntry) <-
      (if 0 <? ntry then
         let ntry := ntry - 1 in
         let g := Z.gcd c1 a1 in
         if 1 <? g then c1 <- zz_div c1 g ;; a1 <- zz_div a1 g ;; Ok (a1, b1 * g, c1, yf * g, 3)
         else Ok (a1, b1, c1, yf, ntry)
       else Ok (a1, b1, c1, yf, ntry)) ;;
    '(a1, b1, c1, zf, ntry) <-
      (if 0 <? ntry then
         let ntry := ntry - 1 in
         let g := Z.gcd a1 b1 in
         if 1 <? g then a1 <- zz_div a1 g ;; b1 <- zz_div b1 g ;; Ok (a1, b1, c1 * g, zf * g, 3)
         else Ok (a1, b1, c1, zf, ntry)
       else Ok (a1, b1, c1, zf, ntry)) ;;
    Ok (inl (a1, b1, c1, xf, yf, zf, ntry))
  else Ok (inr (a1, b1, c1, xf, yf, zf)).

Variable sqrrootmod : Z -> Z -> Z.
(** make_certificate, lines 707-716: [inl] the code of the failure *)
Definition make_certificate (a : Z) (apdivs : list Z) (b : Z) (bpdivs : list Z) (c : Z) (cpdivs : list Z)
  : res (Z + tri) :=
  n <- sqrt_mod_m xgcd sqrrootmod (- b * c) (Z.abs a) apdivs ;;
  match n with
  | None => Ok (inl 1)
  | Some n =>
      p <- sqrt_mod_m xgcd sqrrootmod (- a * c) (Z.abs b) bpdivs ;;
      match p with
      | None => Ok (inl 2)
      | Some p =>
          q <- sqrt_mod_m xgcd sqrrootmod (- a * b) (Z.abs c) cpdivs ;;
          match q with
          | None => Ok (inl 3)
          | Some q => Ok (inr (n, p, q))
          end
      end
  end.

(** legendre_solve, lines 268-413; [None] when 0 is returned.  [lll] is legendre_via_lll,
    [use_lll] as in the code.  When the descent returns a code other than 0 a message is
    written and the solution used is what the descent left in x,y,z. *)
Definition legendre_solve (lll : Z -> Z -> Z -> Z -> Z -> Z -> res tri) (f : nat) (a b c : Z) (factorbase : list Z)
  (use_lll : bool) : res (option tri) :=
  let sa := Z.sgn a in let sb := Z.sgn b in let sc := Z.sgn c in
  if (sa =? 0) || (sb =? 0) || (sc =? 0) then Ok None
  else if (sa =? sb) && (sa =? sc) && (sb =? sc) then Ok None
  else
    '(a1, b1, c1, xfac, yfac, zfac) <- while coprime_step (zfuel (a * b * c) + 2) (a, b, c, 1, 1, 1, 3) ;;
    '(a2, a3, apdivs) <- sqfdecomp a1 factorbase ;;
    let '(yfac, zfac) := (yfac * a3, zfac * a3) in
    '(b2, b3, bpdivs) <- sqfdecomp b1 factorbase ;;
    let '(xfac, zfac) := (xfac * b3, zfac * b3) in
    '(c2, c3, cpdivs) <- sqfdecomp c1 factorbase ;;
    let '(xfac, yfac) := (xfac * c3, yfac * c3) in
    '(xfac, yfac, zfac) <- cancel1 (xfac, yfac, zfac) ;;
    cert <- make_certificate a2 apdivs b2 bpdivs c2 cpdivs ;;
    match cert with
    | inl _ => Ok None
    | inr (n, p, q) =>
        s <- (if use_lll then lll a2 b2 c2 n p q
              else
                '(_, _, s) <- legendre_solve_cert_1 f a2 b2 c2 n p q ;;
                s <- cancel1 s ;;
                new_legendre_reduce a2 b2 c2 s) ;;
        let '(x, y, z) := s in
        let x := x * xfac in let y := y * yfac in let z := z * zfac in
        let x := if x <? 0 then - x else x in
        let y := if y <? 0 then - y else y in
        let z := if z <? 0 then - z else z in
        s <- cancel1 (x, y, z) ;;
        Ok (Some s)
    end.
End Leg.
