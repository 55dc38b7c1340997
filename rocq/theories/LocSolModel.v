(** Model of mlocsol.cc (lines 30-165): solubility of y^2 = a x^4 + b x^3 + c x^2 + d x + e
    over the p-adic numbers by the method of Birch and Swinnerton-Dyer.
    Coefficients, x and p are bigint (= Z).  The level nu is a long (int in lemma6 and
    lemma7); it stays below log2 |discriminant| + 3 (see zpsol_ok), so that its
    increments cannot overflow and it is a mathematical integer here. *)
From Coq Require Import ZArith List Bool.
From Verif Require Import Base RatModel MArithModel.
Import ListNotations.
Open Scope Z_scope.

(** while(v--) a/=p, line 55 *)
Fixpoint div_times (v : nat) (a p : Z) : res Z :=
  match v with
  | O => Ok a
  | S v => q <- zz_div a p ;; div_times v q p
  end.

(** psquare, lines 50-59 *)
Definition psquare (aa p : Z) : res bool :=
  if aa =? 0 then Ok true
  else
    v <- val_z p aa ;;
    if Z.odd v then Ok false
    else
      a <- div_times (Z.to_nat v) aa p ;;
      if p =? 2 then Ok (a mod 8 =? 1)
      else l <- legendre_z a p ;; Ok (l =? 1).

(** values of the quartic and of its derivative: lines 66, 68, 86, 88 *)
Definition gval (a b c d e x : Z) : Z := (((a * x + b) * x + c) * x + d) * x + e.
Definition gder (a b c d x : Z) : Z := ((4 * a * x + 3 * b) * x + 2 * c) * x + d.

(** lemma6, lines 62-80 *)
Definition lemma6 (a b c d e p nu x : Z) : res Z :=
  let gx := gval a b c d e x in
  s <- psquare gx p ;;
  if (s : bool) then Ok 1
  else
    let gdashx := gder a b c d x in
    lambda <- val_z p gx ;;
    if gdashx =? 0 then (if 2 * nu <=? lambda then Ok 0 else Ok (-1))
    else
      mu <- val_z p gdashx ;;
      if (nu <=? lambda - mu) && (mu <? nu) then Ok 1
      else if (2 * nu <=? lambda) && (nu <=? mu) then Ok 0
      else Ok (-1).

(** while (even(oddgx)) oddgx /= 2, line 92 *)
Definition odd_step (a : Z) : res (Z + Z) :=
  if Z.even a then q <- zz_div a 2 ;; Ok (inl q) else Ok (inr a).
Definition odd_part (a : Z) : res Z := while odd_step (zfuel a) a.

(** lemma7, lines 82-108 *)
Definition lemma7 (a b c d e p nu x : Z) : res Z :=
  let gx := gval a b c d e x in
  s <- psquare gx p ;;
  if (s : bool) then Ok 1
  else
    let gdashx := gder a b c d x in
    lambda <- val_z p gx ;;
    oddgx <- (if gx =? 0 then Ok 1 else odd_part gx) ;;
    let odd4 := oddgx mod 4 =? 1 in
    if gdashx =? 0 then
      if 2 * nu <=? lambda then Ok 0
      else if (lambda =? 2 * nu - 2) && odd4 then Ok 0
      else Ok (-1)
    else
      mu <- val_z p gdashx ;;
      if (nu <=? lambda - mu) && (mu <? nu) then Ok 1
      else if (mu <? nu) && (lambda =? mu + nu - 1) && Z.even lambda then Ok 1
      else if (mu <? nu) && (lambda =? mu + nu - 2) && Z.even lambda && odd4 then Ok 1
      else if (nu <=? mu) && (2 * nu <=? lambda) then Ok 0
      else if (nu <=? mu) && (lambda =? 2 * nu - 2) && odd4 then Ok 0
      else Ok (-1).

(** the loops for(i=0; i<p; ++i, x+=pnu) of lines 127 and 134, with early return:
    [n] iterations are left *)
Fixpoint any_from (test : Z -> res bool) (n : nat) (x step : Z) : res bool :=
  match n with
  | O => Ok false
  | S n => r <- test x ;; if (r : bool) then Ok true else any_from test n (x + step) step
  end.

(** body of the first loop, lines 129-130 *)
Definition try_residue (a b c d e p nu x : Z) : res bool :=
  r7 <- (if p =? 2 then r <- lemma7 a b c d e p (nu + 1) x ;; Ok (r =? 1) else Ok false) ;;
  if (r7 : bool) then Ok true
  else r <- lemma6 a b c d e p (nu + 1) x ;; Ok (r =? 1).

(** zpsol, lines 110-139; [fuel] bounds the depth of the recursion.  The second loop
    goes on with the x that the first one has left. *)
Fixpoint zpsol (fuel : nat) (a b c d e p x0 nu : Z) : res bool :=
  match fuel with
  | O => OutOfFuel
  | S fuel =>
      result <- (if p =? 2 then lemma7 a b c d e p nu x0 else lemma6 a b c d e p nu x0) ;;
      if result =? 1 then Ok true
      else if result =? -1 then Ok false
      else
        let pnu := p ^ nu in
        found <- (if nu =? 0 then any_from (try_residue a b c d e p nu) (Z.to_nat p) x0 pnu
                  else Ok false) ;;
        if (found : bool) then Ok true
        else
          let x := if nu =? 0 then x0 + p * pnu else x0 in
          any_from (fun x => zpsol fuel a b c d e p x (nu + 1)) (Z.to_nat p) x pnu
  end.

(** the discriminant; it is used for the depth bound of the model only *)
Definition gdisc (a b c d e : Z) : Z :=
  256*a*a*a*e*e*e - 192*a*a*b*d*e*e - 128*a*a*c*c*e*e + 144*a*a*c*d*d*e - 27*a*a*d*d*d*d
  + 144*a*b*b*c*e*e - 6*a*b*b*d*d*e - 80*a*b*c*c*d*e + 18*a*b*c*d*d*d + 16*a*c*c*c*c*e
  - 4*a*c*c*c*d*d - 27*b*b*b*b*e*e + 18*b*b*b*c*d*e - 4*b*b*b*d*d*d - 4*b*b*c*c*c*e
  + b*b*c*c*d*d.
Definition loc_fuel (a b c d e : Z) : nat := (Z.to_nat (Z.log2 (Z.abs (gdisc a b c d e))) + 4)%nat.

(** qpsoluble(a,b,c,d,e,p), lines 149-155 (and the versions of lines 141-147 for a
    quartic object and 157-162 for b = d = 0, which make the same two calls) *)
Definition qpsoluble (a b c d e p : Z) : res bool :=
  let fuel := loc_fuel a b c d e in
  r <- zpsol fuel a b c d e p 0 0 ;;
  if (r : bool) then Ok true else zpsol fuel e d c b a p 0 1.
