(** The affine coordinate ring F[X,Y]/(curve) of a Weierstrass cubic over a
    field, as pairs (p,q) standing for p + q Y, and the two facts about it that
    GroupLaw.v needs: it is a domain, and the ideal of a point is not principal. *)
From Coq Require Import Ring Field List.
From mathcomp Require Import all_ssreflect all_algebra zify.
From Verif Require Import GroupLaw.
Set Implicit Arguments.
Unset Strict Implicit.
Unset Printing Implicit Defensive.
Import GRing.Theory.
Local Open Scope ring_scope.

Section Fld.
Variable F : fieldType.
Definition fK : Type := F.
Definition f0 : fK := (0 : F).
Definition f1 : fK := (1 : F).
Definition fadd (x y : fK) : fK := ((x : F) + (y : F))%R.
Definition fmul (x y : fK) : fK := ((x : F) * (y : F))%R.
Definition fsub (x y : fK) : fK := ((x : F) - (y : F))%R.
Definition fopp (x : fK) : fK := (- (x : F))%R.
Definition fdiv (x y : fK) : fK := ((x : F) / (y : F))%R.
Definition finv (x : fK) : fK := ((x : F)^-1)%R.
Definition feq_dec (x y : fK) : {x = y} + {x <> y} := @eq_comparable F x y.
Lemma Fft : field_theory f0 f1 fadd fmul fsub fopp fdiv finv (@eq fK).
Proof.
  split.
  - split; rewrite /f0 /f1 /fadd /fmul /fsub /fopp.
    + exact: add0r. + exact: addrC. + exact: addrA. + exact: mul1r. + exact: mulrC. + exact: mulrA.
    + exact: mulrDl. + by []. + exact: subrr.
  - apply/eqP. exact: oner_neq0.
  - by [].
  - rewrite /f0 /f1 /fmul /finv => x /eqP H. exact: mulVf.
Qed.
(** polynomials *)
Definition pK : Type := {poly F}.
Definition p0 : pK := (0 : {poly F}).
Definition p1 : pK := (1 : {poly F}).
Definition padd (x y : pK) : pK := ((x : {poly F}) + (y : {poly F}))%R.
Definition pmul (x y : pK) : pK := ((x : {poly F}) * (y : {poly F}))%R.
Definition psub (x y : pK) : pK := ((x : {poly F}) - (y : {poly F}))%R.
Definition popp (x : pK) : pK := (- (x : {poly F}))%R.
Definition pc (c : fK) : pK := (c : F)%:P.
Definition pX : pK := 'X.
Lemma Prt : ring_theory p0 p1 padd pmul psub popp (@eq pK).
Proof.
  split; rewrite /p0 /p1 /padd /pmul /psub /popp.
  + exact: add0r. + exact: addrC. + exact: addrA. + exact: mul1r. + exact: mulrC. + exact: mulrA.
  + exact: mulrDl. + by []. + exact: subrr.
Qed.
Add Field Ffield : Fft.
Add Ring Pring : Prt.

Variables a1 a2 a3 a4 a6 : fK.
Definition ph : pK := padd (pmul (pc a1) pX) (pc a3).
Definition pg : pK := padd (padd (padd (pmul (pmul pX pX) pX) (pmul (pmul (pc a2) pX) pX)) (pmul (pc a4) pX)) (pc a6).
Definition cR : Type := (pK * pK)%type.
Definition c0 : cR := (p0, p0).
Definition c1 : cR := (p1, p0).
Definition cadd (u v : cR) : cR := (padd u.1 v.1, padd u.2 v.2).
Definition copp (u : cR) : cR := (popp u.1, popp u.2).
Definition csub (u v : cR) : cR := (psub u.1 v.1, psub u.2 v.2).
Definition cmul (u v : cR) : cR :=
  (padd (pmul u.1 v.1) (pmul (pmul u.2 v.2) pg), psub (padd (pmul u.1 v.2) (pmul u.2 v.1)) (pmul (pmul u.2 v.2) ph)).
Lemma Crt : ring_theory c0 c1 cadd cmul csub copp (@eq cR).
Proof.
  split; repeat (case=> ? ?) || intro; rewrite /c0 /c1 /cadd /cmul /csub /copp /=; congr pair; ring.
Qed.
Definition ccst (c : fK) : cR := (pc c, p0).
Definition cX : cR := (pX, p0).
Definition cY : cR := (p0, p1).
Definition nrm (u : cR) : pK := psub (psub (pmul u.1 u.1) (pmul (pmul u.1 u.2) ph)) (pmul (pmul u.2 u.2) pg).
Lemma nrm_mul u v : nrm (cmul u v) = pmul (nrm u) (nrm v).
Proof. case: u v => p q [r s]. rewrite /nrm /cmul /=. ring. Qed.

Lemma size_ph : (size (ph : {poly F}) <= 2)%N.
Proof.
  rewrite /ph /padd /pmul /pc /pX (leq_trans (size_add _ _)) // geq_max size_polyC mulrC.
  rewrite (leq_trans (size_mul_leq _ _)) ?size_polyX ?size_polyC; by case: (_ != 0).
Qed.
Lemma size_pg : size (pg : {poly F}) = 4%N.
Proof.
  have E : pg = ('X^3 + ((a2 : F)%:P * 'X^2 + (a4 : F)%:P * 'X + (a6 : F)%:P) : {poly F}).
  { rewrite /pg /padd /pmul /pc /pX. rewrite !exprS expr0 mulr1 !addrA !mulrA. done. }
  rewrite E size_addl size_polyXn //. rewrite ltnS.
  have S (c : F) (n : nat) : (n <= 2)%N -> (size ((c%:P * 'X^n)%R : {poly F}) <= 3)%N.
  { move=> Hn. rewrite mul_polyC (leq_trans (size_scale_leq _ _)) // size_polyXn ltnS. done. }
  rewrite (leq_trans (size_add _ _)) // geq_max (leq_trans (size_add _ _)) /= ?geq_max ?S //.
  - by rewrite (leq_trans (size_polyC_leq1 _)).
  - by have := S a4 1%N isT; rewrite expr1.
Qed.
Lemma size_mulF (p q : {poly F}) : p != 0 -> q != 0 -> size ((p * q)%R : {poly F}) = (size p + size q).-1.
Proof. exact: size_mul. Qed.
Definition nsz (u : cR) : nat := maxn (2 * size (u.1 : {poly F})).-1 (if (u.2 : {poly F}) == 0 then 0%N else (2 * size (u.2 : {poly F})).+2).
Lemma size_nrm u : size (nrm u : {poly F}) = nsz u.
Proof.
  case: u => p q. rewrite /nrm /nsz /psub /pmul /fst /snd. move: p q. rewrite /pK => p q.
  have Hg : (pg : {poly F}) != 0 by rewrite -size_poly_eq0 size_pg.
  have [Ep|Np] := eqVneq (p : {poly F}) 0; have [Eq|Nq] := eqVneq (q : {poly F}) 0.
  - by rewrite Ep Eq !(mul0r, subr0, size_poly0).
  - rewrite Ep !mul0r subr0 sub0r size_poly0 size_opp size_mulF ?mulf_neq0 // size_mulF // size_pg.
    have: (0 < size q)%N by rewrite size_poly_gt0. rewrite max0n. lia.
  - rewrite Eq !(mul0r, mulr0, sub0r, subr0, size_poly0) size_mulF //. rewrite maxn0. lia.
  - have H1 : size (p * p) = (2 * size p).-1 by rewrite size_mulF //; lia.
    have H2 : size (q * q * pg) = (2 * size q).+2.
    { rewrite size_mulF ?mulf_neq0 // size_mulF // size_pg. have: (0 < size q)%N by rewrite size_poly_gt0. lia. }
    have Hp: (0 < size p)%N by rewrite size_poly_gt0. have Hq: (0 < size q)%N by rewrite size_poly_gt0.
    have H3 : (size (p * q * (ph : {poly F}))%R <= size p + size q)%N.
    { rewrite (leq_trans (size_mul_leq _ _)) //. rewrite (size_mulF Np Nq). have := size_ph. lia. }
    have [L|L] := ltnP (2 * size q).+2 (2 * size p).-1.
    + rewrite -addrA size_addl.
      * rewrite H1. lia.
      * rewrite -opprD size_opp (leq_ltn_trans (size_add _ _)) // gtn_max H1 H2. lia.
    + rewrite addrC size_addl.
      * rewrite size_opp H2. lia.
      * rewrite size_opp H2 (leq_ltn_trans (size_add _ _)) // gtn_max size_opp H1. lia.
Qed.
Lemma nrm_0 u : nrm u = p0 -> u = c0.
Proof.
  move=> H. have := size_nrm u. rewrite H /p0 size_poly0 /nsz. case: u {H} => p q. rewrite /fst /snd. move: p q. rewrite /pK => p q.
  have [Eq|Nq] := eqVneq (q : {poly F}) 0; [|lia].
  have [Ep|Np] := eqVneq (p : {poly F}) 0; [by rewrite Ep Eq|].
  have: (0 < size (p : {poly F}))%N by rewrite size_poly_gt0. lia.
Qed.
Lemma c_dom u v : cmul u v = c0 -> u <> c0 -> v = c0.
Proof.
  move=> H N. apply: nrm_0. have E : pmul (nrm u) (nrm v) = p0 by rewrite -nrm_mul H /nrm /=; ring.
  move: E. rewrite /pmul /p0 => /eqP. rewrite mulf_eq0 => /orP [/eqP E|/eqP //]. by case: N; apply: nrm_0.
Qed.
Lemma c_curve : cadd (cadd (cmul cY cY) (cmul (cmul (ccst a1) cX) cY)) (cmul (ccst a3) cY) =
  cadd (cadd (cadd (cmul (cmul cX cX) cX) (cmul (cmul (ccst a2) cX) cX)) (cmul (ccst a4) cX)) (ccst a6).
Proof. rewrite /cadd /cmul /cX /cY /ccst /=. congr pair; rewrite /pg /ph; ring. Qed.
Lemma pX_ne c : psub pX (pc c) <> p0.
Proof. rewrite /psub /pX /pc /p0. apply/eqP. by rewrite polyXsubC_eq0. Qed.
Lemma c_Xne c : csub cX (ccst c) <> c0.
Proof. rewrite /csub /cX /ccst /c0 /=. case. move/pX_ne. done. Qed.
Lemma c_Yne l m : csub (csub cY (cmul (ccst l) cX)) (ccst m) <> c0.
Proof.
  rewrite /csub /cmul /cX /cY /ccst /c0 /=. case=> _ E.
  have: p1 = p0 by rewrite -[RHS]E; ring. rewrite /p1 /p0 => /eqP. by rewrite oner_eq0.
Qed.
(** evaluation at a point *)
Definition hz (x : fK) (p : pK) : fK := (p : {poly F}).[x : F].
Lemma hz_add x p q : hz x (padd p q) = fadd (hz x p) (hz x q). Proof. exact: hornerD. Qed.
Lemma hz_mul x p q : hz x (pmul p q) = fmul (hz x p) (hz x q). Proof. exact: hornerM. Qed.
Lemma hz_sub x p q : hz x (psub p q) = fsub (hz x p) (hz x q).
Proof. by rewrite /hz /psub /fsub hornerD hornerN. Qed.
Lemma hz_X x : hz x pX = x. Proof. exact: hornerX. Qed.
Lemma hz_c x c : hz x (pc c) = c. Proof. exact: hornerC. Qed.
Lemma hz_0 x : hz x p0 = f0. Proof. exact: horner0. Qed.
Lemma hz_1 x : hz x p1 = f1. Proof. exact: (hornerC 1 x). Qed.
Definition hzE := (hz_add, hz_mul, hz_sub, hz_X, hz_c, hz_0, hz_1).
Definition ev (x y : fK) (u : cR) : fK := fadd (hz x u.1) (fmul (hz x u.2) y).
Local Notation on' := (on fadd fmul a1 a2 a3 a4 a6).
Local Notation IL' := (IL cadd cmul csub ccst cX cY).
Lemma ev_add x y u v : ev x y (cadd u v) = fadd (ev x y u) (ev x y v).
Proof. rewrite /ev /cadd /= !hzE. ring. Qed.
Lemma ev_gx x y u : ev x y (cmul (csub cX (ccst x)) u) = f0.
Proof. case: u => p q. rewrite /ev /cmul /csub /cX /ccst /= !hzE. ring. Qed.
Lemma ev_gy x y u : on' x y -> ev x y (cmul (csub cY (ccst y)) u) = f0.
Proof.
  move=> H. case: u => p q. rewrite /ev /cmul /csub /cY /ccst /pg /ph /= !hzE. move: H. rewrite /on => H.
  transitivity (fmul (hz x q) (fsub (fadd (fadd (fadd (fmul (fmul x x) x) (fmul (fmul a2 x) x)) (fmul a4 x)) a6)
     (fadd (fadd (fmul y y) (fmul (fmul a1 x) y)) (fmul a3 y)))).
  - ring.
  - rewrite H. ring.
Qed.
Lemma ev_IL x y f : on' x y -> IL' [:: Aff x y] f -> ev x y f = f0.
Proof. move=> H [h1 [h2 [_ [_ ->]]]]. rewrite ev_add ev_gx ev_gy //. ring. Qed.

Lemma nrm_unit u : size (nrm u : {poly F}) = 1%N -> exists c, u = ccst c /\ c <> f0.
Proof.
  rewrite size_nrm /nsz. case: u => p q. rewrite /fst /snd. move: p q. rewrite /pK => p q.
  have [Eq|Nq] := eqVneq (q : {poly F}) 0; [|lia]. rewrite Eq => H.
  have H1 : size p = 1%N by lia. move/eqP: H1 => /size_poly1P [c Hc E]. exists c. rewrite E. split; [done|by apply/eqP].
Qed.
Lemma c_nonprinc x y : on' x y -> forall l, ~ (forall f, IL' [:: Aff x y] f <-> exists k, f = cmul l k).
Proof.
  move=> H l PB.
  have Gx : IL' [:: Aff x y] (csub cX (ccst x)).
  { exists c1, c0. do 2 split=> //. rewrite /cadd /cmul /csub /cX /cY /ccst /c1 /c0 /=. congr pair; ring. }
  have Gy : IL' [:: Aff x y] (csub cY (ccst y)).
  { exists c0, c1. do 2 split=> //. rewrite /cadd /cmul /csub /cX /cY /ccst /c1 /c0 /=. congr pair; ring. }
  have Gl : IL' [:: Aff x y] l. { apply/PB. exists c1. case: (l) => p q. rewrite /cmul /c1 /=. congr pair; ring. }
  move/PB: Gx => [k Ek]. move/PB: Gy => [k' Ek'].
  have EN : nrm (csub cX (ccst x)) = pmul (psub pX (pc x)) (psub pX (pc x)).
  { rewrite /nrm /csub /cX /ccst /=. ring. }
  rewrite Ek nrm_mul in EN.
  have SX : size (psub pX (pc x) : {poly F}) = 2%N. { rewrite /psub /pX /pc. exact: size_XsubC. }
  have NX : (psub pX (pc x) : {poly F}) != 0 by rewrite -size_poly_eq0 SX.
  have ES : size (pmul (nrm l) (nrm k) : {poly F}) = 3%N. { rewrite EN /pmul size_mulF // SX. done. }
  have Nl : (nrm l : {poly F}) != 0. { apply/eqP => E. move: ES. by rewrite /pmul E mul0r size_poly0. }
  have Nk : (nrm k : {poly F}) != 0. { apply/eqP => E. move: ES. by rewrite /pmul E mulr0 size_poly0. }
  move: ES. rewrite /pmul size_mulF // => ES.
  have Zl : (0 < size (nrm l : {poly F}))%N by rewrite size_poly_gt0.
  have Zk : (0 < size (nrm k : {poly F}))%N by rewrite size_poly_gt0.
  have nsz2 u : size (nrm u : {poly F}) <> 2%N. {
    rewrite size_nrm /nsz. have [_|N] := eqVneq (u.2 : {poly F}) 0; [lia|].
    have: (0 < size (u.2 : {poly F}))%N by rewrite size_poly_gt0. lia. }
  have [S1|S1] : size (nrm l : {poly F}) = 1%N \/ size (nrm k : {poly F}) = 1%N by move: (nsz2 l) (nsz2 k); lia.
  - have [c [E N]] := nrm_unit S1. have := ev_IL H Gl. rewrite E /ev /ccst /= !hzE => E0. apply: N. rewrite -[RHS]E0. ring.
  - have [c [E N]] := nrm_unit S1.
    have El : l = cmul (ccst (finv c)) (csub cX (ccst x)).
    { rewrite Ek E. case: (l) => p q. rewrite /cmul /ccst /=.
      have Ec : pmul (pc (finv c)) (pc c) = p1.
      { rewrite /pmul /pc -polyCM. have -> : ((finv c : F) * (c : F))%R = 1 by apply: mulVf; apply/eqP. done. }
      congr pair.
      - transitivity (pmul (pmul (pc (finv c)) (pc c)) p); [rewrite Ec|]; ring.
      - transitivity (pmul (pmul (pc (finv c)) (pc c)) q); [rewrite Ec|]; ring. }
    move: Ek'. rewrite El. case: k' => r s. rewrite /csub /cmul /cX /cY /ccst /=. case=> _ E2.
    have E3 : p1 = pmul (psub pX (pc x)) (pmul (pc (finv c)) s).
    { transitivity (psub p1 p0); [ring|]. rewrite E2. ring. }
    have: hz x p1 = f0 by rewrite E3 !hzE; ring. rewrite hz_1 /f1 /f0 => /eqP. by rewrite oner_eq0.
Qed.

(** ** associativity over any field *)
Theorem add_assoc_F :
  (forall x y, on' x y -> fy fadd fmul a1 a3 x y <> f0 \/ fx f1 fadd fmul fsub a1 a2 a4 x y <> f0) ->
  forall A B C, on_pt fadd fmul a1 a2 a3 a4 a6 A -> on_pt fadd fmul a1 a2 a3 a4 a6 B -> on_pt fadd fmul a1 a2 a3 a4 a6 C ->
  add f1 fadd fmul fsub fopp fdiv feq_dec a1 a2 a3 a4 (add f1 fadd fmul fsub fopp fdiv feq_dec a1 a2 a3 a4 A B) C =
  add f1 fadd fmul fsub fopp fdiv feq_dec a1 a2 a3 a4 A (add f1 fadd fmul fsub fopp fdiv feq_dec a1 a2 a3 a4 B C).
Proof.
  move=> NS.
  refine (@add_assoc fK f0 f1 fadd fmul fsub fopp fdiv finv Fft feq_dec a1 a2 a3 a4 a6 NS cR c0 c1 cadd cmul csub copp Crt ccst _ _ _ _
    cX cY c_curve c_dom c_Xne c_Yne c_nonprinc).
  - reflexivity.
  - rewrite /ccst /cadd /=. move=> u v. congr pair; [|by ring]. exact: polyCD.
  - rewrite /ccst /cmul /=. move=> u v. congr pair; [|by ring]. transitivity (pmul (pc u) (pc v)); [exact: polyCM|ring].
  - rewrite /ccst /copp /=. move=> u. congr pair; [|by ring]. exact: polyCN.
Qed.
End Fld.
