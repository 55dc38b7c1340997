(** A polynomial of degree at most 4 over F_p (p > 6) without simple root whose values are never non-zero
    squares is a constant times the square of a polynomial.  No estimate of Hasse or Weil is needed:
    f^((p-1)/2) satisfies a differential equation. *)
From mathcomp Require Import all_ssreflect all_algebra all_field zify.
From Coq Require Import Lia.
From Verif Require Import QuadRec.
Set Implicit Arguments.
Unset Strict Implicit.
Unset Printing Implicit Defensive.
Import GRing.Theory.
Local Open Scope ring_scope.

(** ** identities in a commutative ring *)
Section Alg.
Variables (R : Type) (z o : R) (add mul sub : R -> R -> R) (opp : R -> R).
Hypothesis rt : ring_theory z o add mul sub opp eq.
Add Ring RR : rt.
Local Notation "x + y" := (add x y).
Local Notation "x * y" := (mul x y).
Local Notation "x - y" := (sub x y).
Local Notation "- x" := (opp x).
Lemma alg1 (f f1 r r1 P F dF : R) : f * dF + f * dF = - (f1 * F) -> F = r * P - o -> dF = r1 * P - r ->
  (f * r1 + f * r1 + f1 * r) * P = f * r + f * r + f1.
Proof.
move=> H EF ED; rewrite EF ED in H.
transitivity (f * r + f * r + f1 + (f * (r1 * P - r) + f * (r1 * P - r)) + f1 * (r * P - o)); first by ring.
rewrite H; ring.
Qed.
Lemma alg2 (f f1 f2 r r1 P k k1 : R) : k = f * r1 + f * r1 + f1 * r ->
  k1 * P + k * - o = (f1 * r + f * r1) + (f1 * r + f * r1) + f2 -> f1 * r = k1 * P - k - k - f2.
Proof.
move=> K H; transitivity ((k1 * P + k * - o) - k - f2); last by ring.
rewrite H K; ring.
Qed.
Lemma alg3 (f f1 f2 r P k k1 : R) : k * P = f * r + f * r + f1 -> f1 * r = k1 * P - k - k - f2 ->
  (f1 * k - (f * k1 + f * k1)) * P = f1 * f1 - (f * f2 + f * f2) - (f * k + f * k + f * k + f * k).
Proof.
move=> H1 H2; transitivity (f1 * (k * P) - f * (k1 * P) - f * (k1 * P)); first by ring.
have -> : k1 * P = f1 * r + k + k + f2 by rewrite H2; ring.
rewrite H1; ring.
Qed.
Lemma alg4 (f f1 k k1 : R) : f1 * k - (f * k1 + f * k1) = z -> f1 * (k * k) = f * (k1 * k + k * k1).
Proof. move=> H; transitivity ((f1 * k - (f * k1 + f * k1)) * k + f * (k1 * k + k * k1)); first by ring. rewrite H; ring. Qed.
Lemma alg5 (q q1 L F dF c : R) : q * dF + q * dF = - (q1 * F) -> (F + o) + L * dF = - c ->
  F * (q + q - L * q1) = - ((q + q) * (c + o)).
Proof.
move=> H1 H2.
transitivity (F * (q + q) - L * (q1 * F)); first by ring.
have -> : q1 * F = - (q * dF + q * dF) by rewrite H1; ring.
transitivity ((q + q) * ((F + o + L * dF) - o)); first by ring.
rewrite H2; ring.
Qed.
Lemma alg6 (q q1 L : R) : q + q - L * q1 = z -> q1 * (L * L) = q * (o * L + L * o).
Proof. move=> H; transitivity (L * (q + q) - L * (q + q - L * q1)); first by ring. rewrite H; ring. Qed.
End Alg.
Lemma crt (R : comRingType) : ring_theory (0 : R) 1 (fun x y => x + y) (fun x y => x * y) (fun x y => x - y) (fun x => - x) eq.
Proof.
constructor; [exact: add0r|exact: addrC|exact: addrA|exact: mul1r|exact: mulrC|exact: mulrA|exact: mulrDl|by []|exact: subrr].
Qed.

Section Fp.
Variable p : nat.
Hypothesis pp : prime p.
Hypothesis op : odd p.
Hypothesis p7 : (6 < p)%N.
Local Notation K := 'F_p.
Let h := p./2.

Lemma pE : p = h.*2.+1.
Proof. by rewrite /h -[LHS]odd_double_half op. Qed.
Lemma charK : p \in [char K].
Proof. exact: char_Fp. Qed.
Lemma p0K : p%:R = 0 :> K.
Proof. exact: charf0 charK. Qed.
Lemma nat_neq0 n : (0 < n < p)%N -> n%:R != 0 :> K.
Proof.
move=> /andP[n0 np]; rewrite -(dvdn_charf charK); apply: contraL np => d; rewrite -leqNgt.
exact: dvdn_leq d.
Qed.
Lemma two_neq0 : 2%:R != 0 :> K.
Proof. by apply: nat_neq0; rewrite /=; apply: leq_trans p7. Qed.

(** ** polynomials of small degree behave as in characteristic 0 *)
Lemma deriv_small (f : {poly K}) : (size f <= p)%N -> f^`() = 0 -> (size f <= 1)%N.
Proof.
move=> fp d0; rewrite leqNgt; apply/negP => f1.
have E : (f^`())`_(size f).-2 = lead_coef f *+ (size f).-1.
  by rewrite coef_deriv lead_coefE; case: (size f) f1 => [|[|n]].
move: E; rewrite d0 coef0 => /esym/eqP; rewrite -mulr_natr mulf_eq0 lead_coef_eq0.
have -> : (f == 0) = false by apply/negP => /eqP f0; rewrite f0 size_poly0 in f1.
rewrite /=; apply/negP/nat_neq0; apply/andP; split; by case: (size f) f1 fp => [|[|n]].
Qed.

Lemma wronskian_size (a b : {poly K}) : a != 0 -> b != 0 -> (size a <= p)%N -> (size b <= p)%N ->
  a^`() * b = a * b^`() -> size a = size b.
Proof.
move=> a0 b0 ap bp W.
have sa : (0 < size a)%N by rewrite size_poly_gt0. have sb : (0 < size b)%N by rewrite size_poly_gt0.
(* leading coefficient of X(a'b - ab') *)
have C (q : {poly K}) : ('X * q^`())`_(size q).-1 = lead_coef q *+ (size q).-1.
  rewrite coefXM; case: ifP => [/eqP s1|/negbT s1].
    by rewrite s1 mulr0n.
  by rewrite coef_deriv lead_coefE prednK // lt0n.
have SZ (q : {poly K}) : q != 0 -> (size ('X * q^`())%R <= size q)%N.
  move=> q0; have [->|d0] := eqVneq q^`() 0; first by rewrite mulr0 size_poly0.
  by rewrite mulrC size_mulX // lt_size_deriv.
have T (u v : {poly K}) m n : (size u <= m.+1)%N -> (size v <= n.+1)%N -> (u * v)`_(m + n) = u`_m * v`_n.
  move=> um vn; rewrite coefM (bigD1 (inord m : 'I_(m + n).+1)) //= inordK ?ltnS ?leq_addr // addKn.
  rewrite big1 ?addr0 // => i im.
  have [lt|le] := ltnP i m.
    by rewrite [v`_ _]nth_default ?mulr0 //; apply: leq_trans vn _; move: lt; clear; lia.
  rewrite [u`_ _]nth_default ?mul0r //; apply: leq_trans um _.
  rewrite ltn_neqAle le andbT; apply: contra im => /eqP E; apply/eqP/val_inj; rewrite /= inordK ?ltnS ?leq_addr //.
have W' : ('X * a^`()) * b = a * ('X * b^`()) by rewrite -mulrA W mulrCA.
have := congr1 (fun q : {poly K} => q`_((size a).-1 + (size b).-1)) W'.
rewrite /= !T ?prednK ?SZ // !C -!lead_coefE mulrnAl mulrnAr => /eqP.
rewrite -subr_eq0 -[X in X - _]mulr_natr -[X in _ - X]mulr_natr -mulrBr mulf_eq0 mulf_eq0 !lead_coef_eq0 (negbTE a0) (negbTE b0) /= subr_eq0 => /eqP E.
have lt1 (n : nat) : (0 < n <= p)%N -> (n.-1 < p)%N by case: n => // n /andP[].
have : ((size a).-1%:R == (size b).-1%:R :> K) by rewrite E.
rewrite -!(inj_eq val_inj) /= !val_Fp_nat // !modn_small ?lt1 ?sa ?sb // => /eqP E'.
by rewrite -(prednK sa) E' prednK.
Qed.

Lemma wronskian (a b : {poly K}) : b != 0 -> (size a <= p)%N -> (size b <= p)%N ->
  a^`() * b = a * b^`() -> exists c, a = c *: b.
Proof.
move=> b0 ap bp W; have [->|a0] := eqVneq a 0; first by exists 0; rewrite scale0r.
have E := wronskian_size a0 b0 ap bp W.
exists (lead_coef a / lead_coef b); apply/eqP; rewrite -subr_eq0; apply/negPn/negP => n0.
set c := _ / _ in n0 *.
have cE : c * lead_coef b = lead_coef a by rewrite /c divfK // lead_coef_eq0.
have lt : (size (a - c *: b)%R < size b)%N.
  have sb : (0 < size b)%N by rewrite size_poly_gt0.
  rewrite -[X in (_ < X)%N](prednK sb) ltnS; apply/leq_sizeP => j; rewrite leq_eqVlt coefB coefZ => /orP[/eqP <-|].
    by rewrite -!lead_coefE -{1}E -lead_coefE cE subrr.
  by rewrite prednK // => le; rewrite !nth_default ?mulr0 ?subrr ?E.
have := wronskian_size n0 b0 (leq_trans (ltnW lt) bp) bp.
rewrite derivB derivZ mulrBl W mulrBl -scalerAl -scalerAl [b * _]mulrC => /(_ erefl) E2.
by rewrite E2 ltnn in lt.
Qed.

(** ** f^((p-1)/2) *)
Lemma power_ode (f : {poly K}) : f * (f ^+ h)^`() + f * (f ^+ h)^`() = - (f^`() * f ^+ h).
Proof.
have h0 : (0 < h)%N by move: p7; rewrite pE; case: h.
rewrite -mulr2n deriv_exp mulrnAr mulrCA -exprS prednK // -mulrnA muln2 -scaler_nat.
have -> : (h.*2)%:R = -1 :> K by apply/eqP; rewrite -subr_eq0 opprK -(natrD _ _ 1) addn1 -pE p0K.
by rewrite scaleN1r.
Qed.
Definition XpX : {poly K} := 'X^p - 'X.
Lemma size_XpX : size XpX = p.+1.
Proof. by rewrite size_addl ?size_polyXn // size_opp size_polyX ltnS prime_gt1. Qed.
Lemma XpX_neq0 : XpX != 0.
Proof. by rewrite -size_poly_eq0 size_XpX. Qed.
Lemma deriv_XpX : XpX^`() = -1.
Proof. by rewrite derivB derivXn derivX -scaler_nat p0K scale0r sub0r. Qed.
Lemma XpX_prod : XpX = \prod_(x : K) ('X - x%:P).
Proof. by rewrite -finField_genPoly card_Fp. Qed.
Lemma XpX_dvd (q : {poly K}) : (forall x, q.[x] = 0) -> exists r, q = r * XpX.
Proof.
move=> H; apply/dvdpP; rewrite XpX_prod -big_enum /=.
apply: uniq_roots_dvdp; first by apply/allP => x _; apply/rootP.
by rewrite uniq_rootsE enum_uniq.
Qed.

(** all values are non-squares *)
Lemma nonres_noroot (f : {poly K}) : (size f <= 5)%N -> (forall x, f.[x] ^+ h = -1) -> exists c k, f = c *: k ^+ 2.
Proof.
move=> f5 H; have h0 : (0 < h)%N by move: p7; rewrite pE; case: h.
have f0 : f != 0.
  apply/eqP => f0; have := H 0; rewrite f0 horner0 expr0n -[h]prednK //= => /eqP.
  by rewrite eq_sym oppr_eq0 oner_eq0.
have [r rE] : exists r, f ^+ h + 1 = r * XpX.
  by apply: XpX_dvd => x; rewrite hornerD horner_exp H hornerC addNr.
have F : f ^+ h = r * XpX - 1 by rewrite -rE addrK.
have rs : (size r <= p.-1)%N.
  have [->|r0] := eqVneq r 0; first by rewrite size_poly0.
  have : (size (r * XpX)%R <= (4 * h).+1)%N.
    rewrite -rE (leq_trans (size_add _ _)) // geq_max size_poly1 andbT.
    apply: leq_trans (size_exp_leq _ _) _; rewrite ltnS leq_mul2r; apply/orP; right.
    by case: (size f) f5.
  rewrite size_mul ?XpX_neq0 // size_XpX; move: (size r) pE p7 => n; move: h => h'; clear; lia.
have dP := deriv_XpX; have sP := size_XpX; move: (XpX) rE F dP sP => P rE F dP sP.
have P0 : P != 0 by rewrite -size_poly_eq0 sP.
pose k := f * r^`() + f * r^`() + f^`() * r.
have dF : (f ^+ h)^`() = r^`() * P - r by rewrite F derivB derivM dP mulrN1 -[1]/(1%:P) derivC subr0.
have E1 : k * P = f * r + f * r + f^`() by exact: (alg1 (crt _) (power_ode f) F dF).
have ks : (size k <= 3)%N.
  have [->|k0] := eqVneq k 0; first by rewrite size_poly0.
  have : (size (k * P)%R <= p.+3)%N.
    have fr : (size (f * r)%R <= p.+3)%N.
      apply: leq_trans (size_mul_leq _ _) _; move: (size f) (size r) f5 rs p7 => n m; clear; lia.
    rewrite E1; apply: leq_trans (size_add _ _) _; rewrite geq_max; apply/andP; split.
      by apply: leq_trans (size_add _ _) _; rewrite geq_max fr.
    apply: leq_trans (ltnW (lt_size_deriv f0)) _; apply: leq_trans f5 _; move: p7; clear; lia.
  rewrite size_mul // sP; move: (size k) => n; clear; lia.
have E2 : f^`() * r = k^`() * P - k - k - f^`()^`().
  apply: (alg2 (crt _) (f := f) (r1 := r^`())) => //.
  by have := congr1 (fun q => q^`()) E1; rewrite /= derivM dP !derivD !derivM.
have E3 : (f^`() * k - (f * k^`() + f * k^`())) * P = f^`() * f^`() - (f * f^`()^`() + f * f^`()^`()) - (f * k + f * k + f * k + f * k).
  exact: (alg3 (crt _) E1 E2).
have d1 : (size f^`() <= 4)%N by move: (lt_size_deriv f0); move: (size f) (size f^`()) f5 => n m; clear; lia.
have d2 : (size (f^`()^`())%R <= 3)%N.
  have [->|f10] := eqVneq f^`() 0; first by rewrite -[0]/(0%:P) derivC size_poly0.
  by move: (lt_size_deriv f10); move: (size f^`()) (size _) d1 => n m; clear; lia.
have SM (a b : {poly K}) m n : (size a <= m.+1)%N -> (size b <= n.+1)%N -> (size (a * b)%R <= (m + n).+1)%N.
  by move=> am bn; apply: leq_trans (size_mul_leq _ _) _; move: (size a) (size b) am bn => a' b'; clear; lia.
have SA (a b : {poly K}) n : (size a <= n)%N -> (size b <= n)%N -> (size (a + b)%R <= n)%N.
  by move=> am bn; apply: leq_trans (size_add _ _) _; rewrite geq_max am.
have Z : f^`() * k - (f * k^`() + f * k^`()) = 0.
  apply/eqP/negPn/negP => n0.
  have : (size ((f^`() * k - (f * k^`() + f * k^`())) * P)%R <= 7)%N.
    have fk : (size (f * k)%R <= 7)%N by apply: (SM _ _ 4%N 2%N).
    have ff : (size (f * f^`()^`())%R <= 7)%N by apply: (SM _ _ 4%N 2%N).
    rewrite E3; apply: (SA); first apply: (SA).
    - by apply: (SM _ _ 3%N 3%N).
    - by rewrite size_opp; apply: (SA).
    - by rewrite size_opp; do 3 (apply: (SA) => //).
  have sn : (0 < size (f^`() * k - (f * k^`() + f * k^`()))%R)%N by rewrite size_poly_gt0.
  rewrite size_mul // sP; move: (size _) sn p7 => n; clear; lia.
have [k0|k0] := eqVneq k 0.
  (* f is a constant *)
  have r0 : r = 0.
    apply/eqP/negPn/negP => r0; move: E1; rewrite k0 mul0r => /esym/eqP; rewrite addr_eq0 => /eqP E.
    have : size (f * r + f * r) = size (f * r).
      by rewrite -mulr2n -scaler_nat size_scale // two_neq0.
    rewrite E size_opp size_mul //; have := lt_size_deriv f0.
    have : (0 < size r)%N by rewrite size_poly_gt0.
    move: (size f) (size f^`()) (size r) => n m l; clear; lia.
  have df0 : f^`() = 0 by move: E1; rewrite k0 r0 mul0r mulr0 !add0r.
  have f1 : (size f <= 1)%N by apply: deriv_small => //; apply: leq_trans f5 _; move: p7; clear; lia.
  by exists f`_0, 1; rewrite expr1n alg_polyC; exact: size1_polyC.
have [||||c E] := @wronskian f (k * k).
- by rewrite mulf_neq0.
- by apply: leq_trans f5 _; move: p7; clear; lia.
- apply: leq_trans (SM _ _ 2%N 2%N ks ks) _; move: p7; clear; lia.
- by rewrite derivM; exact: (alg4 (crt _) Z).
by exists c, k; rewrite expr2.
Qed.

(** quadratic polynomials, all values but one *)
Lemma nonres_quad (q : {poly K}) r : (size q <= 3)%N -> (forall x, x != r -> q.[x] ^+ h = -1) -> exists c k, q = c *: k ^+ 2.
Proof.
move=> q3 H; have h0 : (0 < h)%N by move: p7; rewrite pE; case: h.
have [q1|q1] := leqP (size q) 1.
  by exists q`_0, 1; rewrite expr1n alg_polyC; exact: size1_polyC.
have q0 : q != 0 by rewrite -size_poly_gt0; apply: leq_trans q1.
pose L : {poly K} := 'X - r%:P.
have L0 : L != 0 by rewrite polyXsubC_eq0.
have [c cE] : exists c, L * (q ^+ h + 1) = c * XpX.
  apply: XpX_dvd => x; rewrite hornerM hornerXsubC hornerD horner_exp hornerC.
  by have [->|xr] := eqVneq x r; rewrite ?subrr ?mul0r // H // addNr mulr0.
have cs : (size c <= 1)%N.
  have [->|c0] := eqVneq c 0; first by rewrite size_poly0.
  have : (size (c * XpX)%R <= p.+1)%N.
    rewrite -cE; apply: leq_trans (size_mul_leq _ _) _; rewrite size_XsubC /=.
    apply: leq_trans (size_add _ _) _; rewrite geq_max size_poly1 (prime_gt0 pp) andbT.
    apply: leq_trans (size_exp_leq _ _) _; move: (size q) q3 => n n3.
    apply: leq_ltn_trans (_ : (2 * h < p)%N); last by rewrite [X in (_ < X)%N]pE mul2n.
    by rewrite leq_mul2r; apply/orP; right; case: n n3.
  rewrite size_mul ?XpX_neq0 // size_XpX; move: (size c) => n; clear; lia.
have dc : c^`() = 0 by rewrite (size1_polyC cs) derivC.
have dL : L^`() = 1 by rewrite derivB derivX derivC subr0.
have E1 : q ^+ h + 1 + L * (q ^+ h)^`() = - c.
  have := congr1 (fun q => q^`()) cE; rewrite /= !derivM dc mul0r add0r deriv_XpX mulrN1 dL mul1r derivD.
  by rewrite -[1 in X in _ + L * (_ + X)]/(1%:P) derivC addr0.
have E2 : q ^+ h * (q + q - L * q^`()) = - ((q + q) * (c + 1)).
  exact: (alg5 (crt _) (power_ode q) E1).
have Z : q + q - L * q^`() = 0.
  apply/eqP/negPn/negP => n0.
  have : (size (q ^+ h * (q + q - L * q^`()))%R <= 3)%N.
    rewrite E2 size_opp; apply: leq_trans (size_mul_leq _ _) _.
    have c1 : (size (c + 1)%R <= 1)%N by apply: leq_trans (size_add _ _) _; rewrite geq_max cs size_poly1.
    have qq : (size (q + q)%R <= 3)%N by apply: leq_trans (size_add _ _) _; rewrite geq_max q3.
    by move: (size _) (size (c + 1)%R) qq c1 => n m; clear; lia.
  have qh : q ^+ h != 0 by rewrite expf_neq0.
  rewrite size_mul //.
  have : (0 < size (q + q - L * q^`())%R)%N by rewrite size_poly_gt0.
  have : (3 <= (size (q ^+ h)%R).-1)%N.
    rewrite size_exp; apply: leq_trans (_ : 1 * h <= _)%N; last by rewrite leq_mul2r; apply/orP; right; case: (size q) q1 => [|[|n]].
    by move: p7; rewrite mul1n pE; move: h => h'; clear; lia.
  move: (size (q + q - L * q^`())%R) (size (q ^+ h)%R) => n m; clear; lia.
have [||||c' E] := @wronskian q (L * L).
- by rewrite mulf_neq0.
- by apply: leq_trans q3 _; move: p7; clear; lia.
- by apply: leq_trans (size_mul_leq _ _) _; rewrite size_XsubC /=; move: p7; clear; lia.
- by rewrite derivM dL; exact: (alg6 (crt _) Z).
by exists c', L; rewrite expr2.
Qed.

Lemma double_root (f : {poly K}) r : f != 0 -> f.[r] = 0 -> f^`().[r] = 0 ->
  exists q, f = q * ('X - r%:P) ^+ 2 /\ size f = (size q).+2.
Proof.
move=> f0 /eqP/factor_theorem [g gE] d.
have : g.[r] = 0.
  by move: d; rewrite gE derivM derivXsubC hornerD hornerM hornerXsubC subrr mulr0 add0r mulr1.
move=> /eqP/factor_theorem [q qE]; exists q.
have E : f = q * ('X - r%:P) ^+ 2 by rewrite gE qE expr2 mulrA.
split=> //; rewrite E size_mul ?expf_neq0 ?polyXsubC_eq0 //; last first.
  by apply/eqP => q0; rewrite E q0 mul0r eqxx in f0.
by rewrite size_exp_XsubC addn3.
Qed.

Theorem value_square (f : {poly K}) : f != 0 -> (size f <= 5)%N ->
  (forall x, f.[x] = 0 \/ f.[x] ^+ h = -1) -> (forall x, f.[x] = 0 -> f^`().[x] = 0) -> exists c k, f = c *: k ^+ 2.
Proof.
move=> f0 f5 H D.
have [/existsP [r /eqP fr]|/existsPn nr] := boolP [exists x : K, f.[x] == 0]; last first.
  by apply: nonres_noroot => // x; have [/eqP E|//] := H x; move: (nr x); rewrite E.
have [q [qE qs]] := double_root f0 fr (D r fr).
have q0 : q != 0 by apply/eqP => q0; rewrite qE q0 mul0r eqxx in f0.
have q3 : (size q <= 3)%N by rewrite -ltnS -ltnS -qs.
have [/existsP [s /andP [sr /eqP qs0]]|/existsPn ns] := boolP [exists x : K, (x != r) && (q.[x] == 0)].
  have fs : f.[s] = 0 by rewrite qE hornerM qs0 mul0r.
  have qs1 : q^`().[s] = 0.
    have := D s fs; rewrite qE derivM hornerD hornerM [(q * _).[s]]hornerM qs0 mul0r addr0 => /eqP; rewrite mulf_eq0 => /orP[/eqP //|].
    by rewrite horner_exp hornerXsubC expf_eq0 /= subr_eq0 (negbTE sr).
  have [t [tE ts]] := double_root q0 qs0 qs1.
  have t1 : (size t <= 1)%N by rewrite -ltnS -ltnS -ts.
  exists t`_0, (('X - s%:P) * ('X - r%:P)); rewrite qE tE exprMn {1}(size1_polyC t1) mul_polyC.
  by rewrite -scalerAl.
have [x xr|c [k kE]] := @nonres_quad q r q3.
  have := ns x; rewrite xr /= => qx; have := H x; rewrite qE hornerM horner_exp hornerXsubC.
  have xr0 : x - r != 0 by rewrite subr_eq0.
  case=> [/eqP|]; first by rewrite mulf_eq0 (negbTE qx) expf_eq0 (negbTE xr0).
  by rewrite exprMn -exprM mulnC exprM (fermatF pp op xr0) mulr1.
by exists c, (k * ('X - r%:P)); rewrite qE kE exprMn -scalerAl.
Qed.
End Fp.
