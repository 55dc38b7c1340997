(** Model of mlocsol.cc, lines 207-440: Siksek's test for solubility of y^2 = quartic over Q_p, used for p >= 1000.
    Coefficients are bigint (= Z).  The vector c of the five coefficients is the tuple (c0,c1,c2,c3,c4),
    c_i the coefficient of x^i.  A polynomial over F_p (NTL's ZZ_pX) is the list of its coefficients,
    representatives in [0,p), constant term first, leading coefficient last.
    [factor] stands for fact_c, lines 269-279: reduction modulo p, MakeMonic and NTL's CanZass,
    the list of the monic irreducible factors with their exponents.  Messages are left out. *)
From Coq Require Import ZArith List Bool.
From Verif Require Import Base RatModel MArithModel LocSolModel.
Import ListNotations.
Open Scope Z_scope.
Open Scope res_scope.

Definition q5 : Type := (Z * Z * Z * Z * Z)%type.
Definition coeffs (c : q5) : list Z := let '(c0, c1, c2, c3, c4) := c in [c0; c1; c2; c3; c4].

(** for (i=0; (i<5) && zeromodp; i++) {zeromodp=div(p,c[i]);}, lines 297-298 and 303-304 *)
Fixpoint all_div (m : Z) (l : list Z) : res bool :=
  match l with
  | [] => Ok true
  | c :: l => b <- div_z m c ;; if (b : bool) then all_div m l else Ok false
  end.
(** c[i]/m for all i, lines 306 and 310 *)
Definition div_all (m : Z) (c : q5) : res q5 :=
  let '(c0, c1, c2, c3, c4) := c in
  d0 <- zz_div c0 m ;; d1 <- zz_div c1 m ;; d2 <- zz_div c2 m ;; d3 <- zz_div c3 m ;; d4 <- zz_div c4 m ;;
  Ok (d0, d1, d2, d3, d4).

(** deg(F), ConstTerm(F), coeff(F,i) *)
Definition pdeg (F : list Z) : Z := Z.of_nat (length F) - 1.
Definition pcoeff (F : list Z) (i : nat) : Z := nth i F 0.
(** product of polynomials over F_p *)
Fixpoint padd (F G : list Z) : list Z :=
  match F, G with
  | [], _ => G
  | _, [] => F
  | x :: F, y :: G => x + y :: padd F G
  end.
Fixpoint pmul (F G : list Z) : list Z :=
  match F with
  | [] => []
  | x :: F => padd (map (Z.mul x) G) (0 :: pmul F G)
  end.
Definition pmul_mod (p : Z) (F G : list Z) : list Z := map (fun x => x mod p) (pmul F G).

(** a loop which stops at the first non-zero result: lines 330-348 and 423-437 *)
Fixpoint first_nonzero {A : Type} (f : A -> res Z) (l : list A) : res Z :=
  match l with
  | [] => Ok 0
  | x :: l => fl <- f x ;; if fl =? 0 then first_nonzero f l else Ok fl
  end.

(** the loop of lines 355-358: from the top, the first coefficient not divisible by p, and the value of i after it *)
Fixpoint find_unit (p : Z) (l : list Z) (i : Z) : res (Z * Z) :=
  match l with
  | [] => UB
  | c :: l =>
      b <- div_z p c ;;
      if (b : bool) then match l with [] => Ok (c, i - 1) | _ => find_unit p l (i - 1) end else Ok (c, i - 1)
  end.

Section SS.
Variable factor : list Z -> list (list Z * Z).
Variable p : Z.

(** d of lines 339-343: f(p X + rt)/p^2 with f = p * dd *)
Definition shift2 (dd : q5) (rt : Z) : res q5 :=
  let '(dd0, dd1, dd2, dd3, dd4) := dd in
  let p2 := p * p in
  d0 <- zz_div ((((dd4 * rt + dd3) * rt + dd2) * rt + dd1) * rt + dd0) p ;;
  Ok (d0, 2 * dd2 * rt + 4 * dd4 * rt * rt * rt + 3 * dd3 * rt * rt + dd1, p * (dd2 + 6 * dd4 * rt * rt + 3 * dd3 * rt),
      p2 * (dd3 + 4 * dd4 * rt), dd4 * p2 * p).
(** d of lines 429-433: f(p X + r)/p^2 *)
Definition shift1 (c : q5) (r : Z) : res q5 :=
  let '(c0, c1, c2, c3, c4) := c in
  let p2 := p * p in
  d1 <- zz_div (2 * c2 * r + 4 * c4 * r * r * r + 3 * c3 * r * r + c1) p ;;
  d0 <- zz_div ((((c4 * r + c3) * r + c2) * r + c1) * r + c0) p2 ;;
  Ok (d0, d1, c2 + 6 * c4 * r * r + 3 * c3 * r, p * (c3 + 4 * c4 * r), c4 * p2).

(** lines 389-396 *)
Definition square_root_poly (fact : list (list Z * Z)) : res (list Z) :=
  match fact with
  | [] => UB
  | [(F, e)] => Ok (if Z.rem e 4 =? 0 then pmul_mod p F F else F)
  | (F, _) :: (G, _) :: _ => Ok (pmul_mod p F G)
  end.

(** local_sol, lines 281-439 *)
Fixpoint local_sol (fuel : nat) (c : q5) : res Z :=
  match fuel with
  | O => OutOfFuel
  | S fuel =>
    let '(c0, c1, c2, c3, c4) := c in
    let p2 := p * p in
    zeromodp <- all_div p (coeffs c) ;;
    if (zeromodp : bool) then
      zeromodp <- all_div p2 (coeffs c) ;;
      if (zeromodp : bool) then dd <- div_all p2 c ;; local_sol fuel dd
      else
        dd <- div_all p c ;;
        let fact_f := factor (coeffs dd) in
        if existsb (fun '(F, e) => (pdeg F =? 1) && (e =? 1)) fact_f then Ok 1
        else
          first_nonzero (fun '(F, e) =>
            if (pdeg F =? 1) && negb (e =? 1) then d <- shift2 dd (- pcoeff F 0) ;; local_sol fuel d else Ok 0) fact_f
    else
      '(unit, i) <- find_unit p [c4; c3; c2; c1; c0] 4 ;;
      l <- legendre_z unit p ;;
      if l =? 1 then Ok 1
      else if i =? -1 then Ok 0
      else
        let fact_f := factor (coeffs c) in
        if existsb (fun '(_, e) => negb (Z.rem e 2 =? 0)) fact_f then Ok 1
        else
          let roots := map (fun '(F, _) => - pcoeff F 0) (filter (fun '(F, _) => pdeg F =? 1) fact_f) in
          if (2 <? length roots)%nat then UB
          else match roots with
          | [] => Ok 0
          | _ =>
            F <- square_root_poly fact_f ;;
            let g2 := pcoeff F 0 in
            let g1 := pcoeff F 1 in
            let g0 := if pdeg F =? 2 then 1 else 0 in
            h4 <- zz_div (c4 - unit * g0 * g0) p ;;
            h3 <- zz_div (c3 - 2 * unit * g1 * g0) p ;;
            h2 <- zz_div (c2 - 2 * unit * g2 * g0 - unit * g1 * g1) p ;;
            h1 <- zz_div (c1 - 2 * unit * g1 * g2) p ;;
            h0 <- zz_div (c0 - unit * g2 * g2) p ;;
            first_nonzero (fun r =>
              te <- zz_mod (((h4 * r + h3) * r + h2) * r) p ;;
              te <- zz_mod ((te + h1) * r + h0) p ;;
              if te =? 0 then d <- shift1 c r ;; local_sol fuel d else Ok 0) roots
          end
  end.

(** new_zpsol, lines 257-261: the coefficients are handed over in the order a..e, constant term first *)
Definition new_zpsol (fuel : nat) (a b c d e : Z) : res Z := local_sol fuel (a, b, c, d, e).
End SS.

(** new_qpsoluble, lines 231-255 (and the versions of lines 218-229 for a quartic object and for b = d = 0) *)
Definition new_qpsoluble (factor : Z -> list Z -> list (list Z * Z)) (a b c d e p : Z) : res bool :=
  if p <? 1000 then qpsoluble a b c d e p
  else
    let fuel := loc_fuel a b c d e in
    r <- new_zpsol (factor p) p fuel a b c d e ;;
    if negb (r =? 0) then Ok true
    else r <- new_zpsol (factor p) p fuel e d c b a ;; Ok (negb (r =? 0)).
