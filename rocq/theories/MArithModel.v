(** Model of libsrc/marith.cc, eclib/marith.h and the conversions of
    libsrc/interface.cc: arithmetic on multiprecision integers (NTL ZZ = Z).
    NTL division rounds towards minus infinity and dies on a zero divisor. *)
From Coq Require Import ZArith List Bool.
From Verif Require Import Base ArithModel RatModel.
Import ListNotations.
Open Scope Z_scope.
Open Scope res_scope.

(** Iteration budget for loops over a bigint: more than 4|z|+2 rounds. *)
Definition zfuel (z : Z) : nat := Z.to_nat (Z.log2 (Z.abs z) + 3).

(** ** Division, remainders (marith.cc) *)

(** rounded_division(bigint,bigint), lines 50-56. *)
Definition rounded_division_z (a b : Z) : res Z :=
  q <- zz_div a b ;; r <- zz_mod a b ;;
  let r2 := 2 * r in
  Ok (if r2 <? - b then q - 1 else if b <=? r2 then q + 1 else q).

(** mod(bigint,bigint), lines 833-841. *)
Definition mod_z (a b : Z) : res Z :=
  let bb := Z.abs b in
  c <- zz_mod a bb ;;
  let c2 := 2 * c in
  Ok (if bb <? c2 then c - bb else if c2 <=? - bb then c + bb else c).

(** posmod(bigint,bigint), lines 853-859. *)
Definition posmod_z (a b : Z) : res Z :=
  let bb := Z.abs b in
  c <- zz_mod a bb ;;
  Ok (if c <? 0 then c + bb else c).

(** nearest / roundover, marith.h lines 67-70. *)
Definition roundover (a b : Z) : res Z :=
  a0 <- zz_mod a b ;; c <- zz_div (a - a0) b ;;
  Ok (if b <? 2 * a0 then c + 1 else c).

(** lcm(bigint,bigint), marith.h lines 51-52 (NTL GCD is nonnegative). *)
Definition lcm_z (a b : Z) : res Z :=
  if (a =? 0) && (b =? 0) then Ok 0
  else q <- zz_div b (Z.gcd a b) ;; Ok (a * q).

(** div(bigint,bigint) ("divides"), lines 925-928. *)
Definition div_z (f n : Z) : res bool :=
  if f =? 0 then Ok (n =? 0) else r <- zz_mod n f ;; Ok (r =? 0).

(** divide_out(bigint&,bigint), lines 883-891; state (a,count). *)
Definition dout_step (d : Z) (s : Z * Z) : res ((Z * Z) + (Z * Z)) :=
  let '(a, count) := s in
  q <- zz_div a d ;; r <- zz_mod a d ;;
  if r =? 0 then Ok (inl (q, count + 1)) else Ok (inr (a, count)).
(** Returns (new a, count). *)
Definition divide_out (a d : Z) : res (Z * Z) :=
  if a =? 0 then Ok (a, 0) else while (dout_step d) (zfuel a) (a, 0).

(** val(bigint,bigint), lines 905-913. *)
Definition val_z (factor number : Z) : res Z :=
  if number =? 0 then Ok 99999
  else
    let f := Z.abs factor in
    if f <? 2 then Ok 99999
    else '(_, e) <- divide_out number f ;; Ok e.

(** ** Extended gcd; NTL's XGCD is a parameter, see [xgcd_spec] in MArithProofs *)
Section Xgcd.
Variable xgcd : Z -> Z -> Z * Z * Z.

(** invmod(bigint,bigint), lines 949-958. *)
Definition invmod_z (a p : Z) : Z :=
  let '(g, x, y) := xgcd a p in if g =? 1 then x else 0.

(** chrem(a1,a2,m1,m2), lines 753-773; the "No solution" branch returns 0. *)
Definition chrem (a1 a2 m1 m2 : Z) : res (bool * Z) :=
  let '(g, u, v) := xgcd m1 m2 in
  t <- zz_div m2 g ;;
  let l := m1 * t in
  q <- zz_div (a2 - a1) g ;; r <- zz_mod (a2 - a1) g ;;
  if r =? 0 then ans <- zz_mod (a1 + u * m1 * q) l ;; Ok (true, ans)
  else Ok (false, 0).
End Xgcd.

(** ** Square roots *)

(** lg(x), marith.h line 42. *)
Definition lg (x : Z) : Z := if x =? 0 then -1 else Z.log2 (Z.abs x).

(** Loop of sqrtnr, lines 138-143. *)
Definition sqrtnr_step (n root : Z) : res (Z + Z) :=
  y0 <- zz_div n root ;;
  let y := Z.shiftr (y0 + root) 1 in
  if y <? root then Ok (inl y) else Ok (inr root).

(** sqrtnr(root,n), lines 131-145. *)
Definition sqrtnr (n : Z) : res (bool * Z) :=
  let l := 1 + Z.shiftr (lg n) 1 in
  let root0 := Z.shiftl 1 l in
  root <- while (sqrtnr_step n) (zfuel root0) root0 ;;
  Ok (root * root =? n, root).

(** Residue tables, lines 99-116. *)
Definition carresmod64 : list Z := [
    1;1;0;0;1;0;0;0;0;1; 0;0;0;0;0;0;1;1;0;0;
    0;0;0;0;0;1;0;0;0;0; 0;0;0;1;0;0;1;0;0;0;
    0;1;0;0;0;0;0;0;0;1; 0;0;0;0;0;0;0;1;0;0;
    0;0;0;0].
Definition carresmod63 : list Z := [
    1;1;0;0;1;0;0;1;0;1; 0;0;0;0;0;0;1;0;1;0;
    0;0;1;0;0;1;0;0;1;0; 0;0;0;0;0;0;1;1;0;0;
    0;0;0;1;0;0;1;0;0;1; 0;0;0;0;0;0;0;0;1;0;
    0;0;0].
Definition carresmod65 : list Z := [
    1;1;0;0;1;0;0;0;0;1; 1;0;0;0;1;0;1;0;0;0;
    0;0;0;0;0;1;1;0;0;1; 1;0;0;0;0;1;1;0;0;1;
    1;0;0;0;0;0;0;0;0;1; 0;1;0;0;0;1;1;0;0;0;
    0;1;0;0;1].
Definition carresmod11 : list Z := [1;1;0;1;1;1;0;0;0;1;0].
Definition carresmod17 : list Z := [1;1;1;0;1;0;0;0;1;1;0;0;0;1;0;1;1].
Definition carresmod19 : list Z := [1;1;0;0;1;1;1;1;0;1;0;1;0;0;0;0;1;1;0].

(** The six table tests of isqrt, lines 162-169, in order; stops at a zero. *)
Fixpoint residue_filter (m : Z) (ts : list (list Z * Z)) : res bool :=
  match ts with
  | [] => Ok true
  | (t, k) :: ts' =>
      x <- get t (Z.rem m k) ;;
      if x =? 0 then Ok false else residue_filter m ts'
  end.
Definition carres_tables : list (list Z * Z) :=
  [(carresmod64, 64); (carresmod63, 63); (carresmod65, 65);
   (carresmod11, 11); (carresmod17, 17); (carresmod19, 19)].

(** [while(even(n)) n>>=1, twopow++], line 158. *)
Definition strip2_step (s : Z * Z) : res ((Z * Z) + (Z * Z)) :=
  let '(n, t) := s in
  if Z.even n then Ok (inl (Z.shiftr n 1, t + 1)) else Ok (inr (n, t)).

(** isqrt(in,root), lines 149-172.  Result (found, root). *)
Definition isqrt (n0 : Z) : res (bool * Z) :=
  if n0 <? 0 then Ok (false, 0)
  else if n0 =? 0 then Ok (true, 0)
  else
    '(n, twopow) <- while strip2_step (zfuel n0) (n0, 0) ;;
    if Z.odd twopow then Ok (false, 0)
    else
      let twopow := Z.shiftr twopow 1 in
      m <- zz_mod n 931170240 ;;
      ok <- residue_filter m carres_tables ;;
      if (ok : bool) then
        '(f, root) <- sqrtnr n ;;
        if (f : bool) then Ok (true, Z.shiftl root twopow) else Ok (false, root)
      else Ok (false, 0).

(** ** Quadratic characters of bigints *)

(** posmod(bigint,long), lines 861-867, for b > 0. *)
Definition posmod_zl (a b : Z) : Z := a mod (Z.abs b).
(** chi2, chi4, hilbert2: lines 976-1004 (same tables as arith.cc). *)
Definition chi2_z (a : Z) : res Z := get table8 (posmod_zl a 8).
Definition chi4_z (a : Z) : res Z := get table4 (posmod_zl a 4).
Definition hilbert2_z (a b : Z) : res Z :=
  row <- get table44 (posmod_zl a 4) ;; get row (posmod_zl b 4).

(** [while (is_zero(aa%4)) aa/=4], line 1019. *)
Definition div4z_step (aa : Z) : res (Z + Z) :=
  if aa mod 4 =? 0 then Ok (inl (aa / 4)) else Ok (inr aa).

(** Loop body of leg(bigint,bigint), lines 1016-1024; state (aa,bb,ans). *)
Definition legz_step (s : Z * Z * Z) : res ((Z * Z * Z) + Z) :=
  let '(aa, bb, ans) := s in
  if bb <=? 1 then Ok (inr ans)
  else
    aa <- zz_mod aa bb ;;
    '(aa, ans) <- (if aa <? 0 then x <- chi4_z bb ;; Ok (- aa, ans * x) else Ok (aa, ans)) ;;
    aa <- while div4z_step (zfuel aa) aa ;;
    '(aa, ans) <- (if aa mod 2 =? 0 then x <- chi2_z bb ;; Ok (aa / 2, ans * x)
                   else Ok (aa, ans)) ;;
    x <- hilbert2_z aa bb ;;
    Ok (inl (bb, aa, ans * x)).
(** leg(bigint,bigint), lines 1007-1027. *)
Definition leg_z (a b : Z) : res Z := while legz_step (zfuel b) (a, b, 1).
(** legendre(bigint,bigint), lines 1046-1049. *)
Definition legendre_z (a b : Z) : res Z :=
  if (Z.gcd a b =? 1) && Z.odd b then leg_z a b else Ok 0.
(** legendre(bigint,long), lines 1051-1057.  The static leg(long,long) of lines
    1029-1043 is that of arith.cc with masks instead of remainders. *)
Definition legendre_zl (aa b : Z) : res Z :=
  if Z.rem b 2 =? 0 then Ok 0
  else
    a <- zz_mod aa b ;;
    g <- gcd_long a b ;;
    if g =? 1 then leg_long a b else Ok 0.

(** |posmod(y,8)-4| = 1 *)
Definition three_five (y : Z) : bool := Z.abs (posmod_zl y 8 - 4) =? 1.

(** Loop of kronecker, lines 1082-1088; state (x1,y1,s). *)
Definition kronz_step (st : Z * Z * Z) : res ((Z * Z * Z) + (Z * Z)) :=
  let '(x1, y1, s) := st in
  if x1 =? 0 then Ok (inr (y1, s))
  else
    '(x1, r) <- divide_out x1 2 ;;
    let s := if Z.odd r && three_five y1 then - s else s in
    let s := if (posmod_zl y1 4 =? 3) && (posmod_zl x1 4 =? 3) then - s else s in
    z <- zz_mod y1 x1 ;;
    Ok (inl (z, x1, s)).

(** kronecker(bigint,bigint), lines 1059-1090. *)
Definition kronecker_z (x y : Z) : res Z :=
  if y =? 0 then Ok (if Z.abs x =? 1 then 1 else 0)
  else
    let '(y1, s) := if y <? 0 then (- y, if x <? 0 then -1 else 1) else (y, 1) in
    '(y1, r) <- divide_out y1 2 ;;
    if negb (r =? 0) && negb (Z.odd x) then Ok 0
    else
      let s := if negb (r =? 0) && (Z.odd r && three_five x) then - s else s in
      x1 <- posmod_z x y1 ;;
      '(y1, s) <- while kronz_step (zfuel y1) (x1, y1, s) ;;
      Ok (if y1 =? 1 then s else 0).

(** mod(bigint,long), lines 843-851, and kronecker(bigint,long), 1093-1096. *)
Definition mod_zl (a b : Z) : res Z :=
  bb <- abs64 b ;;
  c <- zz_mod a bb ;;
  c2 <- mul64 2 c ;;
  Ok (if bb <? c2 then c - bb else if c2 <=? - bb then c + bb else c).
Definition kronecker_zl (d n : Z) : res Z := m <- mod_zl d n ;; kronecker_long m n.

(** ** Square roots modulo m; NTL's SqrRootMod is a parameter *)

(** Loop of sqrt_mod_2_power, lines 186-190; k, (x,q1,q,q2). *)
Fixpoint sqrt2p_loop (k : nat) (a x q1 q q2 : Z) : Z :=
  match k with
  | O => x
  | S k' =>
      let x := if (x * x - a) mod q2 =? 0 then x else x + q1 in
      sqrt2p_loop k' a x q q2 (2 * q2)
  end.
(** sqrt_mod_2_power(x,a,e), lines 175-199; e >= 0.  [None] = returned 0. *)
Definition sqrt_mod_2_power (a : Z) (e : nat) : option Z :=
  let a8 := posmod_zl a 8 in
  if (e =? 0)%nat then Some 0
  else if Z.rem a8 2 =? 0 then None
  else if (e =? 1)%nat then Some 1
  else if (e =? 2)%nat then (if Z.rem a8 4 =? 1 then Some 1 else None)
  else if negb (a8 =? 1) then None
  else if (e =? 3)%nat then Some 1
  else Some (sqrt2p_loop (e - 3) a 1 4 8 16).

Section SqrtMod.
Variable xgcd : Z -> Z -> Z * Z * Z.
(** SqrRootMod(x,a,p) of NTL *)
Variable sqrrootmod : Z -> Z -> Z.

(** sqrt_mod_p, marith.h lines 63-64. *)
Definition sqrt_mod_p (a p : Z) : Z :=
  let x := sqrrootmod a p in if p - x <? x then p - x else x.

(** Hensel loop of sqrt_mod_p_power, lines 213-219. *)
Fixpoint hensel_loop (k : nat) (a p s x q : Z) : Z :=
  match k with
  | O => x
  | S k' =>
      let q := q * p in
      let x := (x - (s * (x * x - a)) mod q) mod q in
      hensel_loop k' a p s x q
  end.
(** sqrt_mod_p_power(x,a,p,e), lines 201-227. *)
Definition sqrt_mod_p_power (a p : Z) (e : nat) : res (option Z) :=
  if p =? 2 then Ok (sqrt_mod_2_power a e)
  else if (e =? 0)%nat then Ok (Some 0)
  else
    a1 <- zz_mod a p ;;
    if a1 =? 0 then Ok None
    else
      l <- legendre_z a1 p ;;
      if l =? -1 then Ok None
      else
        let a1 := if a1 <? 0 then a1 + p else a1 in
        let x := sqrt_mod_p a1 p in
        if (e =? 1)%nat then Ok (Some x)
        else
          let s := invmod_z xgcd (2 * x) p in
          Ok (Some (hensel_loop (e - 1) a p s x p)).

(** Loop of sqrt_mod_m, lines 250-268; state x, mm; [first] is mpdivs.front(). *)
Fixpoint sqrtm_loop (ps : list Z) (first a m x mm : Z) : res (option Z) :=
  match ps with
  | [] => Ok (Some x)
  | p :: ps' =>
      e <- val_z p m ;;
      if e =? 0 then sqrtm_loop ps' first a m x mm
      else
        r <- sqrt_mod_p_power a p (Z.to_nat e) ;;
        match r with
        | None => Ok None
        | Some xp =>
            let q := p ^ e in
            x <- (if p =? first then Ok xp
                  else '(_, x) <- chrem xgcd x xp mm q ;; Ok x) ;;
            sqrtm_loop ps' first a m x (mm * q)
        end
  end.
(** sqrt_mod_m(x,a,m,mpdivs), lines 240-276. *)
Definition sqrt_mod_m (a m : Z) (mpdivs : list Z) : res (option Z) :=
  if m =? 1 then Ok (Some 0)
  else if a =? 0 then Ok (Some 0)
  else if a =? 1 then Ok (Some 1)
  else sqrtm_loop mpdivs (hd 0 mpdivs) a m 0 1.

(** Loop of modsqrt(a,bplist,x), lines 283-306. *)
Fixpoint modsqrt_loop (ps : list Z) (a x m : Z) : res (option Z) :=
  match ps with
  | [] => Ok (Some x)
  | p :: ps' =>
      xmodp <-
        (if p =? 2 then Ok (Some (if Z.odd a then 1 else 0))
         else
           amodp <- zz_mod a p ;;
           if amodp =? 0 then Ok (Some 0)
           else
             l <- legendre_z amodp p ;;
             if l =? -1 then Ok None
             else
               let amodp := if amodp <? 0 then amodp + p else amodp in
               Ok (Some (sqrt_mod_p amodp p))) ;;
      match xmodp with
      | None => Ok None
      | Some xp =>
          let '(_, u, v) := xgcd m p in
          let x := x * v * p + xp * u * m in
          let m := m * p in
          x <- mod_z x m ;;
          modsqrt_loop ps' a x m
      end
  end.
Definition modsqrt (a : Z) (bplist : list Z) : res (option Z) := modsqrt_loop bplist a 0 1.
End SqrtMod.

(** ** Divisor lists: posdivs/alldivs/sqdivs/sqfreedivs, lines 551-687 *)
Fixpoint divz_blocks (e : nat) (p : Z) (block : list Z) : list Z :=
  match e with
  | O => []
  | S e' => let b1 := map (Z.mul p) block in b1 ++ divz_blocks e' p b1
  end.
Fixpoint divsz_loop (ex : Z -> res Z) (plist dlist : list Z) : res (list Z) :=
  match plist with
  | [] => Ok dlist
  | p :: ps =>
      e <- ex p ;; divsz_loop ex ps (dlist ++ divz_blocks (Z.to_nat e) p dlist)
  end.
Definition posdivs_z (n : Z) (plist : list Z) := divsz_loop (fun p => val_z p n) plist [1].
Definition alldivs_z (n : Z) (plist : list Z) := divsz_loop (fun p => val_z p n) plist [1; -1].
Definition sqdivs_z (n : Z) (plist : list Z) :=
  divsz_loop (fun p => e <- val_z p n ;; Ok (Z.quot e 2)) plist [1].
Definition sqfreedivs_z (n : Z) (plist : list Z) := divsz_loop (fun _ => Ok 1) plist [1].

(** sqfdecomp(a,plist,a1,a2), lines 697-717: returns (a1,a2,new plist). *)
Fixpoint sqfdecomp_loop (plist : list Z) (a a1 a2 : Z) (apl : list Z)
  : res (Z * Z * list Z) :=
  match plist with
  | [] => Ok (if a <? 0 then - a1 else a1, a2, apl)
  | p :: ps =>
      e <- val_z p a ;;
      if e =? 0 then sqfdecomp_loop ps a a1 a2 apl
      else
        let '(a1, apl) := if Z.odd e then (a1 * p, apl ++ [p]) else (a1, apl) in
        sqfdecomp_loop ps a a1 (a2 * p ^ Z.shiftr e 1) apl
  end.
Definition sqfdecomp (a : Z) (plist : list Z) := sqfdecomp_loop plist a 1 1 [].

(** ** rusin_lem3, lines 724-744 (body of the loop); state (m1,m2,m3,c1,c2,check). *)
Definition rusin_step (s : Z * Z * Z * Z * Z * Z)
  : res ((Z * Z * Z * Z * Z * Z) + (Z * Z * Z * Z * Z)) :=
  let '(m1, m2, m3, c1, c2, check) := s in
  if check =? 0 then Ok (inr (m1, m2, m3, c1, c2))
  else
    let d := Z.gcd m1 m2 in
    let '(m1, m2, m3, check) :=
      if 1 <? d then (m1 / d, m2 / d, m3 * d, 3) else (m1, m2, m3, check - 1) in
    let '(m1, m2, m3, c1, check) :=
      if negb (check =? 0) then
        let d := Z.gcd m1 m3 in
        if 1 <? d then (m1 / d, m2 * d, m3 / d, c1 * d, 3) else (m1, m2, m3, c1, check - 1)
      else (m1, m2, m3, c1, check) in
    let '(m1, m2, m3, c2, check) :=
      if negb (check =? 0) then
        let d := Z.gcd m2 m3 in
        if 1 <? d then (m1 * d, m2 / d, m3 / d, c2 * d, 3) else (m1, m2, m3, c2, check - 1)
      else (m1, m2, m3, c2, check) in
    Ok (inl (m1, m2, m3, c1, c2, check)).
(** rusin_lem3(a,b,...): returns (m1,m2,m3,c1,c2). *)
Definition rusin_lem3 (a b : Z) : res (Z * Z * Z * Z * Z) :=
  if (a =? 0) || (b =? 0) then Ok (a, b, 1, 1, 1)
  else while rusin_step (zfuel (a * b) + 2) (a, b, 1, 1, 1, 3).

(** ** Lattice reduction, lines 1105-1146 *)

(** Loop body of gauss_reduce(bigint...), lines 1113-1134.  Note that, unlike the
    long version, Q is NOT negated when the two vectors are exchanged.
    State (a,b,c,d,P,Q,R). *)
Definition grz_step (s : Z * Z * Z * Z * Z * Z * Z)
  : res ((Z * Z * Z * Z * Z * Z * Z) + (Z * Z * Z * Z)) :=
  let '(a, b, c, d, P, Q, R) := s in
  t <- rounded_division_z Q P ;;
  let '(c, d, Q, R) :=
    if t =? 0 then (c, d, Q, R)
    else let c := c - t * a in let d := d - t * b in
         (c, d, Q - t * P, c * c + d * d) in
  if R <? P then Ok (inl (c, d, - a, - b, R, Q, P))
  else if t =? 0 then Ok (inr (a, b, c, d))
  else Ok (inl (a, b, c, d, P, Q, R)).
(** [n] is the iteration budget (the loop has no proved bound). *)
Definition gauss_reduce_z (n : nat) (a b c d : Z) : res (Z * Z * Z * Z) :=
  while grz_step n (a, b, c, d, a * a + b * b, a * c + b * d, c * c + d * d).
(** modrat(bigint...), lines 1137-1146; sqrt is NTL SqrRoot (floor). *)
Definition modrat_z (f : nat) (n m : Z) : res (bool * Z * Z) :=
  n1 <- mod_z n m ;;
  '(a, b, _, _) <- gauss_reduce_z f n1 1 m 0 ;;
  let lim := Z.sqrt (Z.shiftr m 1) in
  Ok ((Z.abs a <=? lim) && (Z.abs b <=? lim), a, b).

(** ** Conversions, interface.cc lines 26-61, interface.h 79-80. *)
(** Positive branch: [x==MAX ? MAX : rem(x,MAX)].  Negative: [x==MIN ? MIN : -I2(-x)]. *)
Definition I2pos (mx x : Z) : Z := if x =? mx then mx else x mod mx.
Definition I2gen (mn mx x : Z) : Z :=
  if x =? 0 then 0
  else if negb ((x <=? mx) && (mn <=? x)) then 0
  else if 0 <? x then I2pos mx x
  else if x =? mn then mn else - I2pos mx (- x).
Definition I2int (x : Z) : Z := I2gen min32 max32 x.
Definition I2long (x : Z) : Z := I2gen min64 max64 x.

(** ** nrootscubic(b,c,d,p,roots), lines 1152-1172 *)
Fixpoint nroots_loop (k : nat) (b c d p r : Z) (roots : list Z) : res (list Z) :=
  match k with
  | O => Ok roots
  | S k' =>
      t1 <- add64 r b ;; t2 <- mul64 t1 r ;; t3 <- add64 t2 c ;;
      t4 <- mul64 t3 r ;; t5 <- add64 t4 d ;; t6 <- rem64 t5 p ;;
      if t6 =? 0 then
        match roots with
        | [r0] =>
            nb <- neg64 b ;; u <- sub64 nb r0 ;; v <- sub64 u r ;;
            r2 <- posmod_long v p ;;
            (* std::sort of the three roots; r0 < r already *)
            Ok (if r2 <? r0 then [r2; r0; r] else if r2 <? r then [r0; r2; r] else [r0; r; r2])
        | _ => nroots_loop k' b c d p (r + 1) (roots ++ [r])
        end
      else nroots_loop k' b c d p (r + 1) roots
  end.
Definition nrootscubic (b c d p : Z) : res (list Z) :=
  nroots_loop (Z.to_nat p) b c d p 0 [].

(** ** Trial division, lines 381-405.  [primes] is the sequence delivered by
    primevar, n > 0.  Returns (prime list, cofactor). *)
Fixpoint trial_loop (primes : list Z) (n pmax : Z) (plist : list Z) : res (list Z * Z) :=
  match primes with
  | [] => Ok (plist, n)
  | p :: ps =>
      if (1 <? n) && (p <=? pmax) then
        q <- zz_div n p ;; r <- zz_mod n p ;;
        '(plist, n) <- (if r =? 0 then
                          '(n', _) <- divide_out q p ;; Ok (plist ++ [p], n')
                        else Ok (plist, n)) ;;
        let '(plist, n) := if (1 <? n) && (n <? p * p) then (plist ++ [n], 1) else (plist, n) in
        trial_loop ps n pmax plist
      else Ok (plist, n)
  end.
Definition pdivs_trial_div (primes : list Z) (n pmax : Z) : res (list Z * Z) :=
  if n <? 2 then Ok ([], n) else trial_loop primes n pmax [].
