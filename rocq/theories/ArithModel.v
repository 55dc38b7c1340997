(** Model of libsrc/arith.cc and the inline functions of libsrc/eclib/arith.h
    (single precision arithmetic).  No proofs in this file.

    Line numbers refer to /repo/libsrc/arith.cc unless stated otherwise.
    General simplifications: messages written to cout/cerr are dropped;
    left shifts of negative values behave as multiplication (as GCC defines
    them) and are UB only when the result does not fit. *)
From Coq Require Import ZArith List Bool.
From Verif Require Import Base.
Import ListNotations.
Open Scope Z_scope.
Open Scope res_scope.

(** Loop bound for machine-word loops: at most 2^70 iterations. *)
Definition W : nat := 70.

(** ** Rounding and residues *)

(** rounded_division, lines 265-271. [ldiv] truncates. *)
Definition rounded_division (a b : Z) : res Z :=
  q <- quot64 a b ;;
  r <- rem64 a b ;;
  r2 <- c64 (2 * r) ;;
  nb <- neg64 b ;;
  if r2 <? nb then sub64 q 1
  else if b <=? r2 then add64 q 1 else Ok q.

(** mod(long,long), lines 273-279. *)
Definition mod_long (a b : Z) : res Z :=
  b <- (if b <? 0 then neg64 b else Ok b) ;;
  c <- (if 0 <=? a then rem64 a b
        else na <- neg64 a ;; r <- rem64 na b ;; sub64 b r) ;;
  if Z.shiftr b 1 <? c then sub64 c b else Ok c.

(** mod(int,int), lines 289-295. *)
Definition mod_int (a b : Z) : res Z :=
  b <- (if b <? 0 then neg32 b else Ok b) ;;
  c <- (if 0 <=? a then rem32 a b
        else na <- neg32 a ;; r <- rem32 na b ;; sub32 b r) ;;
  if Z.shiftr b 1 <? c then sub32 c b else Ok c.

(** posmod(long,long), lines 302-307. *)
Definition posmod_long (a b : Z) : res Z :=
  c <- rem64 a b ;;
  if c <? 0 then add64 c b else Ok c.

(** posmod(int,int), lines 316-321. *)
Definition posmod_int (a b : Z) : res Z :=
  c <- rem32 a b ;;
  if c <? 0 then add32 c b else Ok c.

(** inline xmm(long,long,long), arith.h lines 192-199. *)
Definition xmm_long (a b m : Z) : res Z :=
  if a =? 1 then Ok b
  else if a =? -1 then neg64 b
  else if b =? 1 then Ok a
  else if b =? -1 then neg64 a
  else ab <- mul64 a b ;; rem64 ab m.

(** inline xmm(int,int,int), arith.h lines 169-176: product in 64 bits, the
    remainder (int64) converted back to int. *)
Definition xmm_int (a b m : Z) : res Z :=
  if a =? 1 then Ok b
  else if a =? -1 then neg32 b
  else if b =? 1 then Ok a
  else if b =? -1 then neg32 a
  else ab <- mul64 a b ;; r <- rem64 ab m ;; Ok (wrap32 r).

(** inline addmod(long,long,long), arith.h lines 185-190. *)
Definition addmod_long (a b m : Z) : res Z :=
  if a =? 0 then Ok b
  else if b =? 0 then Ok a
  else s <- add64 a b ;; mod_long s m.

(** inline addmod(int,int,int), arith.h lines 178-183. *)
Definition addmod_int (a b m : Z) : res Z :=
  if a =? 0 then Ok b
  else if b =? 0 then Ok a
  else s <- add32 a b ;; mod_int s m.

(** inline divides, arith.h lines 211-214. *)
Definition divides_long (f n : Z) : res bool :=
  if f =? 0 then Ok (n =? 0)
  else r <- rem64 n f ;; Ok (r =? 0).

(** ** gcd, lcm, bezout, invmod *)

(** Loop of gcd(long,long), line 332. *)
Definition gcd_step (s : Z * Z) : res ((Z * Z) + Z) :=
  let '(a, b) := s in
  if b =? 0 then Ok (inr a)
  else c <- rem64 a b ;; Ok (inl (b, c)).

(** gcd(long,long), lines 328-334. *)
Definition gcd_long (a b : Z) : res Z :=
  if (a =? 1) || (b =? 1) then Ok 1
  else if a =? 0 then abs64 b
  else g <- while gcd_step W (a, b) ;; abs64 g.

(** lcm(long,long), lines 344-349. *)
Definition lcm_long (a b : Z) : res Z :=
  g <- gcd_long a b ;;
  if g =? 0 then Ok 0
  else q <- quot64 b g ;; mul64 a q.

(** State of the loop of bezout: a, b, oldx, x, oldy, y. *)
Definition bez_state : Type := Z * Z * Z * Z * Z * Z.

(** Loop body of bezout(long,...), lines 353-358. *)
Definition bez_step (s : bez_state) : res (bez_state + (Z * Z * Z)) :=
  let '(a, b, oldx, x, oldy, y) := s in
  if b =? 0 then Ok (inr (a, oldx, oldy))
  else
    q <- quot64 a b ;;
    qb <- mul64 q b ;; c <- sub64 a qb ;;
    qx <- mul64 q x ;; newx <- sub64 oldx qx ;;
    qy <- mul64 q y ;; newy <- sub64 oldy qy ;;
    Ok (inl (b, c, x, newx, y, newy)).

(** bezout(long aa, long bb, long& xx, long& yy), lines 351-361.
    Result: (g, xx, yy). *)
Definition bezout_long (aa bb : Z) : res (Z * Z * Z) :=
  '(a, oldx, oldy) <- while bez_step W (aa, bb, 1, 0, 0, 1) ;;
  if a <? 0 then
    nx <- neg64 oldx ;; ny <- neg64 oldy ;; na <- neg64 a ;; Ok (na, nx, ny)
  else Ok (a, oldx, oldy).

(** invmod(long a, long p), lines 363-372. *)
Definition invmod_long (a p : Z) : res Z :=
  '(g, x, _) <- bezout_long a p ;;
  if g =? 1 then Ok x else Ok 0.

(** ** Lattice reduction and rational reconstruction *)

(** State: a, b, c, d, P, Q, R. *)
Definition gr_state : Type := Z * Z * Z * Z * Z * Z * Z.

(** Loop body of gauss_reduce, lines 386-411: the shift, then the swap; the
    loop is left when the rounded quotient is 0 and no swap was made. *)
Definition gr_step (s : gr_state) : res (gr_state + (Z * Z * Z * Z)) :=
  let '(a, b, c, d, P, Q, R) := s in
  t <- rounded_division Q P ;;
  '(c, d, Q, R) <-
     (if t =? 0 then Ok (c, d, Q, R)
      else
        ta <- mul64 t a ;; c <- sub64 c ta ;;
        tb <- mul64 t b ;; d <- sub64 d tb ;;
        tP <- mul64 t P ;; Q <- sub64 Q tP ;;
        cc <- mul64 c c ;; dd <- mul64 d d ;; R <- add64 cc dd ;;
        Ok (c, d, Q, R)) ;;
  if R <? P then
    na <- neg64 a ;; nb <- neg64 b ;; nQ <- neg64 Q ;;
    Ok (inl (c, d, na, nb, R, nQ, P))
  else if t =? 0 then Ok (inr (a, b, c, d))
  else Ok (inl (a, b, c, d, P, Q, R)).

(** gauss_reduce(a0,b0,c0,d0,a,b,c,d), lines 377-416. *)
Definition gauss_reduce (a b c d : Z) : res (Z * Z * Z * Z) :=
  aa <- mul64 a a ;; bb <- mul64 b b ;; P <- add64 aa bb ;;
  ac <- mul64 a c ;; bd <- mul64 b d ;; Q <- add64 ac bd ;;
  cc <- mul64 c c ;; dd <- mul64 d d ;; R <- add64 cc dd ;;
  while gr_step W (a, b, c, d, P, Q, R).

(** new_modrat / modrat(long), lines 430-434 and 478-490.
    The comparison [abs(a) <= sqrt(float(m)/2.0)] is made in single precision
    in C++; here it is the exact comparison 2*a^2 <= m that the header
    (arith.h line 205) documents.  Result: (ok, a, b). *)
Definition modrat_long (n m : Z) : res (bool * Z * Z) :=
  n1 <- mod_long n m ;;
  '(a, b, _, _) <- gauss_reduce n1 1 m 0 ;;
  Ok ((2 * a * a <=? m) && (2 * b * b <=? m), a, b).

(** ** Valuation *)

(** Loop of val(long,long), line 498. *)
Definition val_step (f : Z) (s : Z * Z) : res ((Z * Z) + Z) :=
  let '(n, e) := s in
  r <- rem64 n f ;;
  if r =? 0 then e1 <- add64 e 1 ;; n1 <- quot64 n f ;; Ok (inl (n1, e1))
  else Ok (inr e).

(** val(long factor, long number), lines 492-500. *)
Definition val_long (factor number : Z) : res Z :=
  n <- abs64 number ;;
  f <- abs64 factor ;;
  if (n =? 0) || (f <? 2) then Ok 99999
  else while (val_step f) W (n, 0).

(** Loop of val2, lines 635-640; z is unsigned.  No exit for z = 0. *)
Definition val2_step (s : Z * Z) : res ((Z * Z) + Z) :=
  let '(z, v) := s in
  if Z.odd z then Ok (inr v) else Ok (inl (Z.shiftr z 1, v + 1)).

Definition val2_ulong (z : Z) : res Z := while val2_step W (z, 0).

(** ** Quadratic characters *)

(** Static tables of chi2 (line 515), chi4 (543), hilbert2 (548-551). *)
Definition table8 : list Z := [0; 1; 0; -1; 0; -1; 0; 1].
Definition table4 : list Z := [0; 1; 0; -1].
Definition table44 : list (list Z) :=
  [[0; 0; 0; 0]; [0; 1; 0; 1]; [0; 0; 0; 0]; [0; 1; 0; -1]].

(** Array access with bounds check. *)
Definition get {A} (l : list A) (i : Z) : res A :=
  if i <? 0 then UB
  else match nth_error l (Z.to_nat i) with Some x => Ok x | None => UB end.

Definition chi2_long (a : Z) : res Z := i <- posmod_long a 8 ;; get table8 i.
Definition chi4_long (a : Z) : res Z := i <- posmod_long a 4 ;; get table4 i.
Definition hilbert2_long (a b : Z) : res Z :=
  i <- posmod_long a 4 ;; j <- posmod_long b 4 ;;
  row <- get table44 i ;; get row j.

(** Inner loop [while (!(aa%4)) aa/=4], line 561; for aa = 0 it never ends. *)
Definition div4_step (aa : Z) : res (Z + Z) :=
  r <- rem64 aa 4 ;;
  if r =? 0 then q <- quot64 aa 4 ;; Ok (inl q) else Ok (inr aa).

(** Loop body of leg, lines 559-566; state (aa, bb, ans). *)
Definition leg_step (s : Z * Z * Z) : res ((Z * Z * Z) + Z) :=
  let '(aa, bb, ans) := s in
  if bb <=? 1 then Ok (inr ans)
  else
    aa <- rem64 aa bb ;;
    '(aa, ans) <- (if aa <? 0 then
                     na <- neg64 aa ;; x <- chi4_long bb ;; s <- mul64 ans x ;;
                     Ok (na, s)
                   else Ok (aa, ans)) ;;
    aa <- while div4_step W aa ;;
    r <- rem64 aa 2 ;;
    '(aa, ans) <- (if r =? 0 then
                     h <- quot64 aa 2 ;; x <- chi2_long bb ;; s <- mul64 ans x ;;
                     Ok (h, s)
                   else Ok (aa, ans)) ;;
    x <- hilbert2_long aa bb ;;
    ans <- mul64 ans x ;;
    Ok (inl (bb, aa, ans)).

(** leg(long,long), lines 555-568. *)
Definition leg_long (a b : Z) : res Z := while leg_step W (a, b, 1).

(** legendre(long,long), lines 570-573. *)
Definition legendre_long (a b : Z) : res Z :=
  g <- gcd_long a b ;;
  if g =? 1 then
    r <- rem64 b 2 ;;
    if r =? 0 then Ok 0 else leg_long a b
  else Ok 0.

(** Loop of kronecker, lines 620-630; state (x1, y, s). *)
Definition kron_step (st : Z * Z * Z) : res ((Z * Z * Z) + (Z * Z)) :=
  let '(x1, y, s) := st in
  if x1 =? 0 then Ok (inr (y, s))
  else
    r <- val2_ulong x1 ;;
    '(x1, s) <-
       (if r =? 0 then Ok (x1, s)
        else
          s <- (if Z.odd r && (Z.abs (Z.land y 7 - 4) =? 1) then neg64 s else Ok s) ;;
          Ok (Z.shiftr x1 r, s)) ;;
    s <- (if negb (Z.land y 2 =? 0) && negb (Z.land x1 2 =? 0)
          then neg64 s else Ok s) ;;
    z <- rem64 y x1 ;;
    Ok (inl (z, x1, s)).

(** kronecker(long x, long y), lines 601-633. *)
Definition kronecker_long (x y : Z) : res Z :=
  if y =? 0 then ax <- abs64 x ;; Ok (if ax =? 1 then 1 else 0)
  else
    '(y, s) <- (if y <? 0 then ny <- neg64 y ;; Ok (ny, if x <? 0 then -1 else 1)
                else Ok (y, 1)) ;;
    r <- val2_ulong y ;;
    if negb (r =? 0) && negb (Z.odd x) then Ok 0
    else
      '(y, s) <-
         (if r =? 0 then Ok (y, s)
          else
            s <- (if Z.odd r && (Z.abs (Z.land x 7 - 4) =? 1) then neg64 s else Ok s) ;;
            Ok (Z.shiftr y r, s)) ;;
      x1 <- rem64 x y ;;
      x1 <- (if x1 <? 0 then add64 x1 y else Ok x1) ;;
      '(y, s) <- while kron_step W (x1, y, s) ;;
      Ok (if y =? 1 then s else 0).

(** ** Powers of two *)

(** First loop of intlog2, line 584. *)
Definition log2_step (s : Z * Z) : res ((Z * Z) + Z) :=
  let '(m, e) := s in
  if m =? 0 then Ok (inr e) else Ok (inl (Z.shiftr m 1, e + 1)).

(** intlog2(long& n, long& e, int roundup), lines 579-592.
    [1<<e] is an int shift: UB when the value does not fit 32 bits.
    Result: (return value, n, e). *)
Definition intlog2 (n : Z) (roundup : bool) : res (Z * Z * Z) :=
  if n <? 1 then Ok (0, (if roundup then 1 else n), 0)
  else
    e <- while log2_step W (n, 0) ;;
    let e := e - 1 in
    m <- (if 31 <=? e then UB else c32 (2 ^ e)) ;;
    if m =? n then Ok (1, n, e)
    else if roundup then m2 <- c64 (2 * m) ;; Ok (0, m2, e + 1)
    else Ok (0, n, e).

(** ** Divisor lists *)

(** The common loop of posdivs/alldivs/sqdivs/sqfreedivs (lines 200-206,
    219-225, 235-241, 251-257): with nd the current length, block j+1 of the
    resized list is p times block j; e blocks are appended. *)
Fixpoint div_blocks (e : nat) (p : Z) (block : list Z) : res (list Z) :=
  match e with
  | O => Ok []
  | S e' =>
      b1 <- fold_right (fun d acc => l <- acc ;; x <- mul64 p d ;; Ok (x :: l))
                       (Ok []) block ;;
      rest <- div_blocks e' p b1 ;;
      Ok (b1 ++ rest)
  end.

Definition div_extend (e p : Z) (dlist : list Z) : res (list Z) :=
  more <- div_blocks (Z.to_nat e) p dlist ;; Ok (dlist ++ more).

(** Simplification: the vector lengths themselves are not checked for overflow. *)
Fixpoint divs_loop (ex : Z -> res Z) (plist : list Z) (dlist : list Z)
  : res (list Z) :=
  match plist with
  | [] => Ok dlist
  | p :: ps =>
      e <- ex p ;; d <- div_extend e p dlist ;; divs_loop ex ps d
  end.

(** posdivs(long, plist), lines 193-209. *)
Definition posdivs_long (a : Z) (plist : list Z) : res (list Z) :=
  divs_loop (fun p => val_long p a) plist [1].
(** alldivs(long, plist), lines 211-227. *)
Definition alldivs_long (a : Z) (plist : list Z) : res (list Z) :=
  divs_loop (fun p => val_long p a) plist [1; -1].
(** sqdivs(long, plist), lines 229-243. *)
Definition sqdivs_long (a : Z) (plist : list Z) : res (list Z) :=
  divs_loop (fun p => e <- val_long p a ;; quot64 e 2) plist [1].
(** sqfreedivs(long, plist), lines 245-259. *)
Definition sqfreedivs_long (a : Z) (plist : list Z) : res (list Z) :=
  divs_loop (fun _ => Ok 1) plist [1].
