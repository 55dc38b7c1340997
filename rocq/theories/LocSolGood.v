(** Primes other than 2 which do not divide the discriminant: there is always a point over Q_p. *)
From Coq Require Import ZArith Lia List Bool Znumtheory.
From mathcomp Require Import all_ssreflect all_algebra all_field zify ssrZ.
From Verif Require Import QuadRec LegendreMath FpResidue LocSolModel LocSolSSModel LocSolSSSpec LocSolSSField.
Set Implicit Arguments.
Unset Strict Implicit.
Unset Printing Implicit Defensive.
Import GRing.Theory.
Delimit Scope Z_scope with Z.
Local Open Scope ring_scope.

Section G.
Variable p : Z.
Hypothesis Hp : Znumtheory.prime p.
Hypothesis p7 : (6 < p)%Z.
Local Notation K := 'F_(Z.to_nat p).

Lemma square_disc (c0 c1 c2 c3 c4 : Z) (a : K) k : form p (c0, c1, c2, c3, c4) != 0 -> form p (c0, c1, c2, c3, c4) = a *: k ^+ 2 ->
  (p | gdisc c4 c3 c2 c1 c0)%Z.
Proof.
set c := (c0, c1, c2, c3, c4) => f0 E.
have a0 : a != 0 by apply: contraNneq f0 => z0; rewrite E z0 scale0r.
have k0 : k != 0 by apply: contraNneq f0 => k0; rewrite E k0 expr0n scaler0.
have k3 : (size k <= 3)%N.
  have := form_size p c; rewrite E size_scale // => H.
  have := size_exp k 2; move: H; move: (size (k ^+ 2)) (size k) => s t; lia.
have [g2 G2] := toF_surj Hp p7 k`_0. have [g1 G1] := toF_surj Hp p7 k`_1. have [g0 G0] := toF_surj Hp p7 k`_2.
have [u U] := toF_surj Hp p7 a.
have Ek : k = Poly [:: toF p g2; toF p g1; toF p g0].
  apply/polyP => i; rewrite coef_Poly; case: i => [|[|[|i]]] //=; rewrite nth_nil nth_default //.
  by apply: leq_trans k3 _.
have Q : Poly [:: toF p g2; toF p g1; toF p g0] ^+ 2 = 
  Poly [:: toF p (g2 * g2); toF p (g1 * g2 + g1 * g2); toF p (g2 * g0 + g2 * g0 + g1 * g1); toF p (g1 * g0 + g1 * g0); toF p (g0 * g0)].
  rewrite /= !cons_poly_def !mul0r !add0r expr2 !(toFD, toFM) !(polyCD, polyCM).
  exact: (alg_sq (crt _)).
rewrite Ek Q U in E.
have C i : toF p (List.nth i (coeffs c) Z0) = toF p u * (Poly [:: toF p (g2 * g2); toF p (g1 * g2 + g1 * g2); toF p (g2 * g0 + g2 * g0 + g1 * g1); toF p (g1 * g0 + g1 * g0); toF p (g0 * g0)])`_i.
  by rewrite -form_coef E coefZ.
move: (C 0%N) (C 1%N) (C 2%N) (C 3%N) (C 4%N); rewrite !coef_Poly /= -!toFM => E0 E1 E2 E3 E4.
apply/(toF_eq0 Hp p7).
have <- : toF p (gdisc (u * (g0 * g0)) (u * (g1 * g0 + g1 * g0)) (u * (g2 * g0 + g2 * g0 + g1 * g1)) (u * (g1 * g2 + g1 * g2)) (u * (g2 * g2))) =
  toF p (gdisc c4 c3 c2 c1 c0).
  move: E0 E1 E2 E3 E4; move: (u * (g0 * g0))%Z (u * (g1 * g0 + g1 * g0))%Z (u * (g2 * g0 + g2 * g0 + g1 * g1))%Z (u * (g1 * g2 + g1 * g2))%Z (u * (g2 * g2))%Z.
  move=> m4 m3 m2 m1 m0 E0 E1 E2 E3 E4.
  by rewrite /gdisc !(toFD, toFB, toFM) E0 E1 E2 E3 E4.
have -> : gdisc (u * (g0 * g0)) (u * (g1 * g0 + g1 * g0)) (u * (g2 * g0 + g2 * g0 + g1 * g1)) (u * (g1 * g2 + g1 * g2)) (u * (g2 * g2)) = Z0.
  by rewrite /gdisc; ring.
by [].
Qed.
Lemma good_prime7 c0 c1 c2 c3 c4 : ~ (p | gdisc c4 c3 c2 c1 c0)%Z -> exists x, good p (c0, c1, c2, c3, c4) x.
Proof.
move=> D; have [E|f0] := eqVneq (form p (c0, c1, c2, c3, c4)) 0.
  exfalso; apply: D; have C i : toF p (List.nth i (coeffs (c0, c1, c2, c3, c4)) Z0) = 0 by rewrite -form_coef E coef0.
  apply/(toF_eq0 Hp p7); move: (C 0%N) (C 1%N) (C 2%N) (C 3%N) (C 4%N) => /= E0 E1 E2 E3 E4.
  by rewrite /gdisc !(toFD, toFB, toFM) E0 E1 E2 E3 E4 !(mulr0, mul0r, subr0, addr0).
have [//|[a [k Ek]]] := good_or_square Hp p7 f0.
by case: D; apply: (square_disc f0 Ek).
Qed.
End G.
