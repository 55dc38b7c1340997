(** Model of the division polynomials, libsrc/divpol.cc.  A ZPoly is the list of its
    coefficients, constant term first; zeros at the end are not removed (NTL does, which
    does not change the polynomial). *)
From Coq Require Import ZArith List Bool.
From Verif Require Import Base.
Import ListNotations.
Open Scope Z_scope.

Definition poly := list Z.
Fixpoint padd (p q : poly) : poly :=
  match p, q with
  | [], _ => q
  | _, [] => p
  | a :: p', b :: q' => a + b :: padd p' q'
  end.
Definition pscal (c : Z) (p : poly) : poly := map (Z.mul c) p.
Definition psub (p q : poly) : poly := padd p (pscal (-1) q).
Fixpoint pmul (p q : poly) : poly :=
  match p with [] => [] | a :: p' => padd (pscal a q) (0 :: pmul p' q) end.

Section DivPol.
Variables a1 a2 a3 a4 a6 : Z.
(** div_pol_2, divpol.cc lines 34-44 *)
Definition div_pol_2 : poly := [a3*a3+4*a6; 2*a1*a3+4*a4; a1*a1+4*a2; 4].
(** lines 56-60: f1 = X*(X*(X+a2)+a4)+a6, f2 = a1*X+a3, psi24 = (4 f1 + f2^2)^2 *)
Definition pX : poly := [0; 1].
Definition dp_f1 : poly := padd (pmul pX (padd (pmul pX (padd pX [a2])) [a4])) [a6].
Definition dp_f2 : poly := padd (pscal a1 pX) [a3].
Definition psi24 : poly := let s := padd (pscal 4 dp_f1) (pmul dp_f2 dp_f2) in pmul s s.
(** the cases n = 3 and n = 4, lines 66-83 *)
Definition div_pol_3 : poly :=
  [a1*a1*a6-a1*a3*a4+a2*a3*a3+4*a2*a6-a4*a4; 3*a3*a3+12*a6; 3*a1*a3+6*a4; a1*a1+4*a2; 3].
Definition div_pol_4 : poly :=
  [a1*a1*a1*a3*a6-a1*a1*a3*a3*a4+2*a1*a1*a4*a6+a1*a2*a3*a3*a3+4*a1*a2*a3*a6-3*a1*a3*a4*a4+2*a2*a3*a3*a4+8*a2*a4*a6-a3*a3*a3*a3-8*a3*a3*a6-2*a4*a4*a4-16*a6*a6;
   a1*a1*a1*a1*a6-a1*a1*a1*a3*a4+a1*a1*a2*a3*a3+8*a1*a1*a2*a6-a1*a1*a4*a4-4*a1*a2*a3*a4-a1*a3*a3*a3-4*a1*a3*a6+4*a2*a2*a3*a3+16*a2*a2*a6-4*a2*a4*a4-2*a3*a3*a4-8*a4*a6;
   10*a1*a1*a6-10*a1*a3*a4+10*a2*a3*a3+40*a2*a6-10*a4*a4;
   10*a3*a3+40*a6; 5*a1*a3+10*a4; a1*a1+4*a2; 2].
(** div_pol_odd, lines 52-109; the fuel bounds the depth of the recursion.  For n < 0
    the recursion does not end *)
Fixpoint div_pol_odd (fuel : nat) (n : Z) : res poly :=
  match fuel with
  | O => OutOfFuel
  | S f =>
      if n =? 0 then Ok [0]
      else if (n =? 1) || (n =? 2) then Ok [1]
      else if n =? 3 then Ok div_pol_3
      else if n =? 4 then Ok div_pol_4
      else if Z.rem n 2 =? 1 then
        let m := Z.quot (n - 1) 2 in
        t1 <- div_pol_odd f m ;;
        u1 <- div_pol_odd f (m + 2) ;;
        let t1 := pmul (pmul (pmul u1 t1) t1) t1 in
        t2 <- div_pol_odd f (m + 1) ;;
        u2 <- div_pol_odd f (m - 1) ;;
        let t2 := pmul (pmul (pmul u2 t2) t2) t2 in
        Ok (if Z.rem m 2 =? 1 then psub t1 (pmul psi24 t2) else psub (pmul psi24 t1) t2)
      else
        let m := Z.quot n 2 in
        t1 <- div_pol_odd f (m - 1) ;;
        u1 <- div_pol_odd f (m + 2) ;;
        let t1 := pmul (pmul u1 t1) t1 in
        t2 <- div_pol_odd f (m + 1) ;;
        u2 <- div_pol_odd f (m - 2) ;;
        let t2 := pmul (pmul u2 t2) t2 in
        v <- div_pol_odd f m ;;
        Ok (pmul v (psub t1 t2))
  end.
(** div_pol, division_polynomial, lines 111-122 *)
Definition div_pol (fuel : nat) (n : Z) : res poly := if n =? 2 then Ok div_pol_2 else div_pol_odd fuel n.
(** mul_by_n_num, lines 126-137 *)
Definition mul_by_n_num (fuel : nat) (n : Z) : res poly :=
  let P_2 := div_pol_2 in
  P_n <- div_pol_odd fuel n ;;
  P_nplus1 <- div_pol_odd fuel (n + 1) ;;
  P_nminus1 <- div_pol_odd fuel (n - 1) ;;
  let A := pmul (pmul pX P_n) P_n in
  let B := pmul P_nminus1 P_nplus1 in
  Ok (if Z.rem n 2 =? 0 then psub (pmul A P_2) B else psub A (pmul P_2 B)).
(** mul_by_n_den, lines 141-146 *)
Definition mul_by_n_den (fuel : nat) (n : Z) : res poly :=
  P_n <- div_pol_odd fuel n ;;
  Ok (if Z.rem n 2 =? 1 then pmul P_n P_n else pmul (pmul P_n P_n) div_pol_2).
(** division_points_X_pol, lines 150-156 *)
Definition division_points_X_pol (fuel : nat) (n xP zP : Z) : res poly :=
  numpoly <- mul_by_n_num fuel n ;;
  denpoly <- mul_by_n_den fuel n ;;
  Ok (psub (pscal zP numpoly) (pscal xP denpoly)).
End DivPol.
