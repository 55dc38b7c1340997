(** Polynomials of degree at most 4 modulo p: what local_sol uses. *)
From Coq Require Import ZArith Lia List Znumtheory.
From mathcomp Require Import all_ssreflect all_algebra all_field zify ssrZ.
From Verif Require Import QuadRec LegendreMath FpResidue LocSolModel LocSolSSModel LocSolSSSpec.
Set Implicit Arguments.
Unset Strict Implicit.
Unset Printing Implicit Defensive.
Import GRing.Theory.
Delimit Scope Z_scope with Z.
Local Open Scope ring_scope.

Section Alg.
Variables (R : Type) (z o : R) (add mul sub : R -> R -> R) (opp : R -> R).
Hypothesis rt : ring_theory z o add mul sub opp eq.
Add Ring RR : rt.
Lemma alg_lin (X a b : R) : add (mul (add X (add a b)) X) (mul a b) = mul (add X a) (add X b).
Proof. ring. Qed.
Lemma alg_sq (X a b c : R) : mul (add (mul (add (mul c X) b) X) a) (add (mul (add (mul c X) b) X) a) =
  add (mul (add (mul (add (mul (add (mul (mul c c) X) (add (mul b c) (mul b c))) X)
    (add (add (mul a c) (mul a c)) (mul b b))) X) (add (mul b a) (mul b a))) X) (mul a a).
Proof. ring. Qed.
End Alg.

Section Field.
Variable p : Z.
Hypothesis Hp : Znumtheory.prime p.
Hypothesis p7 : (6 < p)%Z.
Local Notation n := (Z.to_nat p).
Local Notation K := 'F_n.

Lemma n_prime : prime.prime n.
Proof. by apply: prime_Z; rewrite Z2Nat.id //; lia. Qed.
Lemma n_Z : Z.of_nat n = p.
Proof. by rewrite Z2Nat.id //; lia. Qed.
Lemma n7 : (6 < n)%N.
Proof. lia. Qed.
Lemma n_odd : odd n.
Proof. by case: (even_prime n_prime) => // E; move: n7; rewrite E. Qed.

Lemma toFD a b : toF p (a + b) = toF p a + toF p b.
Proof. have E : int_of_Z (a + b) = int_of_Z a + int_of_Z b by lia. by rewrite /toF E rmorphD. Qed.
Lemma toFN a : toF p (- a) = - toF p a.
Proof. have E : int_of_Z (- a) = - int_of_Z a by lia. by rewrite /toF E rmorphN. Qed.
Lemma toFB a b : toF p (a - b) = toF p a - toF p b.
Proof. by rewrite -Z.add_opp_r toFD toFN. Qed.
Lemma toFM a b : toF p (a * b) = toF p a * toF p b.
Proof. have E : int_of_Z (a * b) = int_of_Z a * int_of_Z b by lia. by rewrite /toF E rmorphM. Qed.
Lemma toF0 : toF p 0 = 0. Proof. by []. Qed.
Lemma toF1 : toF p 1 = 1. Proof. by []. Qed.
Lemma toF_nat (k : nat) : toF p (Z.of_nat k) = k%:R.
Proof. by rewrite /toF; have -> : int_of_Z (Z.of_nat k) = Posz k by lia. Qed.
Lemma toF_eq0 a : toF p a = 0 <-> (p | a)%Z.
Proof.
have pos (k : nat) : toF p (Z.of_nat k) = 0 <-> (p | Z.of_nat k)%Z.
  have E : (p | Z.of_nat k)%Z <-> (n %| k)%N by rewrite dvdn_Z n_Z.
  by rewrite toF_nat E -(natrF_eq0 n_prime); split; [move=> ->|move/eqP].
have [a0|a0] : (a = Z.of_nat (Z.to_nat a) \/ a = - Z.of_nat (Z.to_nat (- a)))%Z by lia.
  by rewrite a0; exact: pos.
rewrite a0 toFN; have := pos (Z.to_nat (- a)); set b := toF p _; move=> [H1 H2]; split.
  by move/eqP; rewrite oppr_eq0 => /eqP /H1 H; apply/Z.divide_opp_r.
by move/(proj1 (Z.divide_opp_r _ _))/H2 => ->; rewrite oppr0.
Qed.
Lemma toF_eq a b : toF p a = toF p b <-> (p | a - b)%Z.
Proof.
rewrite -toF_eq0 toFB; split; first by move=> ->; rewrite subrr.
by move/eqP; rewrite subr_eq0 => /eqP.
Qed.
Lemma toF_surj (x : K) : exists z, x = toF p z.
Proof. by exists (Z.of_nat x); rewrite toF_nat; apply/val_inj; rewrite /= val_Fp_nat ?n_prime // modn_small //; have := ltn_ord x; rewrite {2}Fp_cast ?n_prime. Qed.

Definition form (c : q5) : {poly K} := polyF p (coeffs c).
Definition fval (c : q5) (x : Z) : Z := let '(c0, c1, c2, c3, c4) := c in gval c4 c3 c2 c1 c0 x.
Definition fder (c : q5) (x : Z) : Z := let '(c0, c1, c2, c3, c4) := c in gder c4 c3 c2 c1 x.
Lemma form_size c : (size (form c) <= 5)%N.
Proof. by case: c => [[[[c0 c1] c2] c3] c4]; apply: leq_trans (size_Poly _) _. Qed.
Lemma form_val c x : (form c).[toF p x] = toF p (fval c x).
Proof.
case: c => [[[[c0 c1] c2] c3] c4]; rewrite /form /polyF horner_Poly /fval /gval !(toFD, toFM) /=.
by rewrite mul0r add0r.
Qed.
Lemma form_der c x : (form c)^`().[toF p x] = toF p (fder c x).
Proof.
case: c => [[[[c0 c1] c2] c3] c4]; rewrite /form /polyF.
have -> : (Poly [seq toF p z | z <- coeffs (c0, c1, c2, c3, c4)])^`() =
  Poly [:: toF p c1; toF p c2 *+ 2; toF p c3 *+ 3; toF p c4 *+ 4].
  by apply/polyP => i; rewrite coef_deriv !coef_Poly; case: i => [|[|[|[|i]]]] //=; rewrite ?nth_nil ?mul0rn ?mulr1n.
rewrite horner_Poly /fder /gder !(toFD, toFM) /= mul0r add0r.
have -> : toF p 4 = 4%:R by []. have -> : toF p 3 = 3%:R by []. have -> : toF p 2 = 2%:R by [].
by rewrite !mulr_natl.
Qed.

(** *** good values *)
Definition good (c : q5) (x : Z) : Prop :=
  ((p | fval c x)%Z /\ ~ (p | fder c x)%Z) \/ (~ (p | fval c x)%Z /\ exists y, (p | y * y - fval c x)%Z).
Local Notation h := (n./2).
Lemma square_toF a : (toF p a)^+h = 1 -> exists y, (p | y * y - a)%Z.
Proof.
move=> H; have /mapP [k _ E] := euler_sqs n_prime n_odd H.
by exists (Z.of_nat k); apply/toF_eq; rewrite toFM toF_nat E expr2.
Qed.
Lemma toF_square a y : (p | y * y - a)%Z -> toF p a = toF p y ^+ 2.
Proof. by move/toF_eq; rewrite toFM expr2 => ->. Qed.
Lemma toF_neq0 a : toF p a != 0 <-> ~ (p | a)%Z.
Proof. by rewrite -toF_eq0; split; [move/eqP|move=> H; apply/eqP]. Qed.

Lemma good_or_square c : form c != 0 -> (exists x, good c x) \/ exists a k, form c = a *: k ^+ 2.
Proof.
move=> f0.
have [/existsP [x]|/existsPn H] := boolP [exists x : K, (((form c).[x] == 0) && ((form c)^`().[x] != 0)) || ((form c).[x] ^+ h == 1)].
  have [z ->] := toF_surj x; rewrite form_val form_der => /orP [/andP [/eqP /toF_eq0 A /toF_neq0 B]|/eqP A].
    by left; exists z; left.
  left; exists z; right; split; last exact: square_toF.
  move/toF_eq0 => E; move: A; rewrite E expr0n; have : (0 < h)%N by rewrite half_gt0; have := n7; lia.
  by move: (h) => [|m] // _ /eqP; rewrite /= eq_sym oner_eq0.
right; apply: (value_square n_prime n_odd n7) => // [|x|x fx]; first exact: form_size.
  have [->|fx] := eqVneq ((form c).[x]) 0; first by left.
  right; have [E|//] := charF n_prime n_odd fx.
  by move: (H x); rewrite E eqxx orbT.
by apply/eqP/negPn/negP => B; move: (H x); rewrite fx eqxx B.
Qed.

Lemma lead_good c a k u y : form c != 0 -> form c = a *: k ^+ 2 -> toF p u = lead_coef (form c) -> (p | y * y - u)%Z ->
  exists x, good c x.
Proof.
move=> f0 E U /toF_square Y.
have k0 : k != 0 by apply: contraNneq f0 => k0; rewrite E k0 expr0n scaler0.
have a0 : a != 0 by apply: contraNneq f0 => z0; rewrite E z0 scale0r.
have sk : (size k <= 3)%N.
  by have := form_size c; rewrite E size_scale // expr2 size_mul //; move: (size k) => m; clear; lia.
have [x kx] : exists x, k.[x] != 0.
  have [/existsP //|/existsPn H] := boolP [exists x : K, k.[x] != 0]; exfalso.
  have := max_poly_roots k0 (_ : all (root k) (enum K)) (enum_uniq K).
  rewrite -cardE card_Fp ?n_prime // => F; have : (n < size k)%N by apply: F; apply/allP => x _; rewrite rootE; apply/negPn/H.
  by have := n7; move: (size k) sk => m; clear; lia.
have [z Ez] := toF_surj x; exists z; right; rewrite Ez in kx.
have L : a * lead_coef k ^+ 2 = toF p y ^+ 2 by rewrite -Y U E lead_coefZ lead_coef_exp.
have lk : lead_coef k != 0 by rewrite lead_coef_eq0.
have V : toF p (fval c z) = (toF p y * k.[toF p z] / lead_coef k) ^+ 2.
  by rewrite -form_val E hornerZ horner_exp 2!exprMn -L exprVn mulrAC mulfK // expf_neq0.
have y0 : toF p y != 0 by move: (mulf_neq0 a0 (expf_neq0 2 lk)); rewrite L expf_eq0.
split; first by apply/toF_neq0; rewrite V expf_neq0 // !mulf_neq0 // invr_eq0.
have [w Ew] := toF_surj (toF p y * k.[toF p z] / lead_coef k).
by exists w; apply/toF_eq; rewrite toFM V Ew expr2.
Qed.

(** *** irreducible factors *)
Lemma irr_or (q k : {poly K}) : irreducible_poly q -> q %| k \/ coprimep q k.
Proof.
move=> [q1 qi]; have [|N] := boolP (coprimep q k); first by right.
left; have := qi (gcdp q k); rewrite coprimep_def in N; move/(_ N (dvdp_gcdl _ _)) => E.
by rewrite -(eqp_dvdl _ E) dvdp_gcdr.
Qed.
Lemma irr_mul (q a b : {poly K}) : irreducible_poly q -> q %| a * b -> q %| a \/ q %| b.
Proof. by move=> qi D; case: (irr_or a qi) => [|C]; [left|right; rewrite Gauss_dvdpr in D]. Qed.
Lemma irr_exp (q a : {poly K}) e : irreducible_poly q -> q %| a ^+ e -> q %| a.
Proof.
move=> qi; elim: e => [|e IH]; last by rewrite exprS => /(irr_mul qi) [|/IH].
by rewrite expr0 dvdp1 => /eqP E; case: qi; rewrite E.
Qed.
Lemma irr_square (q G k : {poly K}) a e : irreducible_poly q -> q ^+ e * G = a *: k ^+ 2 -> ~~ (q %| G) -> a != 0 -> ~~ odd e.
Proof.
move=> qi; elim: e {-2}e (leqnn e) k => [|m IH] [|[|e]] // em k E NG a0; first last.
- have q0 : q != 0 by apply: irredp_neq0.
  have /irr_exp -/(_ qi) /dvdpP [k' Ek] : q %| k ^+ 2 by rewrite -(dvdpZr _ _ a0) -E exprS -!mulrA dvdp_mulr.
  rewrite /= negbK; apply: (IH e _ k') => //; first exact: ltnW.
  apply: (mulfI (expf_neq0 2 q0)); rewrite mulrA -exprD E Ek exprMn -scalerAr mulrC //.
have q0 : q != 0 by apply: irredp_neq0.
have /irr_exp -/(_ qi) /dvdpP [k' Ek] : q %| k ^+ 2 by rewrite -(dvdpZr _ _ a0) -E expr1 dvdp_mulr.
exfalso; move/negP: NG; apply; rewrite -(dvdp_mul2l _ _ q0) -[X in _ %| X * _]expr1 E Ek exprMn scalerAr dvdp_mull // -expr2 dvdpZr // dvdpp.
Qed.

Definition canon (F : list Z) : Prop := (forall x, In x F -> (0 <= x < p)%Z) /\ List.last F Z0 = Zpos xH.
Lemma last_seq (F : list Z) : List.last F Z0 = last Z0 F.
Proof.
elim: F => // x F IH; rewrite /=; case: F IH => // y F; rewrite /= => ->.
Qed.
Lemma canon_seq F : canon F -> polyF p F = [seq toF p z | z <- F] :> seq K.
Proof.
move=> [_ L]; rewrite /polyF (@PolyK _ (toF p 0)) // last_map -last_seq L toF1 oner_eq0 //.
Qed.
Lemma canon_size F : canon F -> size (polyF p F) = length F.
Proof. by move=> C; rewrite canon_seq // size_map. Qed.
Lemma canon_monic F : canon F -> polyF p F \is monic.
Proof.
move=> C; rewrite monicE lead_coefE canon_seq // nth_last; move: C => [_ L].
case: F L => // x F L; rewrite /= last_map; move: L; rewrite last_seq /= => ->.
by rewrite toF1.
Qed.
Lemma toF_inj x y : (0 <= x < p)%Z -> (0 <= y < p)%Z -> toF p x = toF p y -> x = y.
Proof.
move=> X Y /toF_eq D; have [//|N] := Z.eq_dec (x - y) 0; first lia.
have := Z.divide_abs_r p (x - y) => H; move: (proj2 H D) => {H} /(Z.divide_pos_le) H; lia.
Qed.
Lemma canon_inj F G : canon F -> canon G -> polyF p F = polyF p G -> F = G.
Proof.
move=> CF CG E; have : [seq toF p z | z <- F] = [seq toF p z | z <- G] by rewrite -!canon_seq // E.
move: CF CG => [CF _] [CG _]; clear E; elim: F G CF CG => [|x F IH] [|y G] //= CF CG [E1 E2].
rewrite (toF_inj _ _ E1); [|by apply: CF; left|by apply: CG; left].
by rewrite (IH G) // => z I; [apply: CF|apply: CG]; right.
Qed.

Definition prodF (l : list (list Z * Z)) : {poly K} := \prod_(Fe <- l) polyF p Fe.1 ^+ Z.to_nat Fe.2.
Definition facts (l : list (list Z * Z)) : Prop :=
  NoDup (List.map fst l) /\ forall F e, In (F, e) l -> (1 <= e)%Z /\ canon F /\ irreducible_poly (polyF p F).
Lemma prodF_dvd q l : irreducible_poly q -> q %| prodF l -> exists F e, In (F, e) l /\ q %| polyF p F.
Proof.
move=> qi; rewrite /prodF; elim: l => [|[F e] l IH].
  by rewrite big_nil dvdp1 => /eqP E; case: qi; rewrite E.
rewrite big_cons => /(irr_mul qi) [/(irr_exp qi) D|/IH [G [e' [I D]]]].
  by exists F, e; split; [left|].
by exists G, e'; split; [right|].
Qed.
Lemma facts_split F e l : facts l -> In (F, e) l -> exists G, prodF l = polyF p F ^+ Z.to_nat e * G /\ ~~ (polyF p F %| G).
Proof.
move=> [ND H] I; have [l1 [l2 E]] := in_split _ _ I.
exists (prodF (l1 ++ l2)); split; first by rewrite E /prodF !big_cat big_cons /= mulrCA.
have [_ [CF qi]] := H _ _ I; apply/negP => /(prodF_dvd qi) [F' [e' [I' D]]].
have I2 : In (F', e') l by rewrite E; apply/in_app_iff; move/in_app_iff: I' => [?|?]; [left|right; right].
have [_ [CF' qi']] := H _ _ I2.
have s1 : size (polyF p F) != 1%N by case: qi => S1 _; rewrite neq_ltn S1 orbT.
have {}D := qi'.2 _ s1 D.
have EF : F = F' by apply: canon_inj => //; apply/eqP; rewrite -eqp_monic ?canon_monic.
move: ND; rewrite E map_app => ND; apply: (NoDup_remove_2 _ _ _ ND).
rewrite -map_app EF; apply: (in_map fst _ _ I').
Qed.

(** *** linear factors and roots *)
Lemma linear_poly F : canon F -> pdeg F = 1%Z -> polyF p F = 'X - (toF p (- pcoeff F 0))%:P.
Proof.
rewrite /pdeg => C D; have {D} : length F = 2%N by lia.
case: F C => [|a [|b [|]]] // C _.
move: C => [_] /= ->; rewrite toFN polyCN opprK /polyF /= !cons_poly_def toF1 mul0r add0r mul1r //.
Qed.
Lemma root_linear l c F e : form c = lead_coef (form c) *: prodF l -> facts l -> In (F, e) l -> pdeg F = 1%Z ->
  (p | fval c (- pcoeff F 0))%Z /\ (e = 1%Z -> form c != 0 -> ~ (p | fder c (- pcoeff F 0))%Z) /\
  (e <> 1%Z -> (p | fder c (- pcoeff F 0))%Z).
Proof.
move=> E Hl I D; have [G [EG NG]] := facts_split Hl I; have [e1 [CF _]] := proj2 Hl _ _ I.
rewrite (linear_poly CF D) in EG NG; set r := toF p _ in EG NG.
rewrite EG in E; set u := lead_coef _ in E; rewrite -[Z.to_nat e]prednK in E; last lia.
have G0 : G.[r] != 0 by move: NG; rewrite dvdp_XsubCl rootE.
split; [|split].
- apply/toF_eq0; rewrite -form_val E hornerZ hornerM exprS hornerM hornerXsubC subrr !mul0r mulr0 //.
- move=> ? f0; apply/toF_neq0; rewrite -form_der E; have -> : (Z.to_nat e).-1 = 0%N by lia.
  rewrite expr1 derivZ hornerZ derivM derivXsubC hornerD !hornerM hornerXsubC subrr mul0r hornerC mul1r addr0.
  by rewrite mulf_neq0 // /u lead_coef_eq0.
- move=> ne; apply/toF_eq0; rewrite -form_der E; have -> : (Z.to_nat e).-1 = (Z.to_nat e).-2.+1 by lia.
  rewrite derivZ hornerZ !exprS !derivM derivXsubC !(hornerXsubC, hornerD, hornerM) subrr !(mul0r, mulr0, add0r, addr0) //.
Qed.
Lemma root_complete l c x : form c != 0 -> form c = lead_coef (form c) *: prodF l -> facts l -> (p | fval c x)%Z ->
  exists F e, In (F, e) l /\ pdeg F = 1%Z /\ (p | x + pcoeff F 0)%Z.
Proof.
move=> f0 E Hl /toF_eq0 D; set r := toF p x in D *.
have : 'X - r%:P %| form c by rewrite dvdp_XsubCl rootE form_val D.
rewrite E dvdpZr ?lead_coef_eq0 //; have irr := irredp_XsubC (toF p x).
move/(prodF_dvd irr) => [F [e [I Dv]]]; exists F, e; split=> //.
have [_ [CF qi]] := proj2 Hl _ _ I.
have := qi.2 _ _ Dv; rewrite size_XsubC => /(_ isT) EQ.
have := eqp_size EQ; rewrite size_XsubC canon_size // => L.
have dF : pdeg F = 1%Z by rewrite /pdeg; lia.
split=> //; move: EQ; rewrite (linear_poly CF dF) eqp_monic ?monicXsubC // => /eqP /polyP /(_ 0%N).
rewrite !coefB !coefX !coefC /= !sub0r toFN opprK => H; apply/toF_eq0; rewrite toFD -H; exact: subrr.
Qed.
Lemma odd_not_square l c F e : form c != 0 -> form c = lead_coef (form c) *: prodF l -> facts l -> In (F, e) l ->
  Z.rem e 2 <> 0%Z -> exists x, good c x.
Proof.
move=> f0 E Hl I O; case: (good_or_square f0) => // [] [a [k Ek]]; exfalso.
have [G [EG NG]] := facts_split Hl I; have [e1 [CF qi]] := proj2 Hl _ _ I.
set u := lead_coef _ in E; have u0 : u != 0 by rewrite lead_coef_eq0.
have a0 : a != 0 by apply: contraNneq f0 => z0; rewrite Ek z0 scale0r.
have := @irr_square _ G k (u^-1 * a) (Z.to_nat e) qi.
rewrite -scalerA -Ek E scalerA mulVf // scale1r EG => /(_ erefl NG); rewrite mulf_neq0 ?invr_eq0 // => /(_ isT).
move=> N; apply: O; have -> : e = (Z.of_nat (Z.to_nat e)./2 * 2)%Z by rewrite -{1}[e]Z2Nat.id -?[Z.to_nat e in LHS](even_halfK N); lia.
exact: Z.rem_mul.
Qed.

(** *** the square root *)
Lemma polyF_cons x F : polyF p (x :: F) = polyF p F * 'X + (toF p x)%:P.
Proof. by rewrite /polyF /= cons_poly_def. Qed.
Lemma polyF_nil : polyF p [::] = 0.
Proof. by []. Qed.
Lemma polyF_mod F : polyF p (List.map (fun x => x mod p)%Z F) = polyF p F.
Proof.
elim: F => // x F IH; rewrite /= !polyF_cons IH; congr (_ + _%:P); apply/toF_eq.
by exists (- (x / p))%Z; have := Z.div_mod x p; lia.
Qed.
Lemma pdegE F : pdeg F = (Z.of_nat (length F) - 1)%Z. Proof. by []. Qed.
Lemma canon_len F : canon F -> (1 <= length F)%N.
Proof. by case: F => // [] [_]. Qed.
Definition degs (l : list (list Z * Z)) : nat := (\sum_(Fe <- l) (length Fe.1).-1 * Z.to_nat Fe.2)%N.
Lemma prodF_size l : (forall F e, In (F, e) l -> canon F) -> size (prodF l) = (degs l).+1 /\ prodF l \is monic.
Proof.
rewrite /prodF /degs; elim: l => [|[F e] l IH] H; first by rewrite !big_nil size_poly1 monic1.
have [|S1 M] := IH; first by move=> G e' I; apply: (H G e'); right.
have CF : canon F by apply: (H F e); left.
have FM := canon_monic CF.
rewrite !big_cons; split; last by rewrite monicMl ?monic_exp.
rewrite size_monicM ?monic_exp ?monic_neq0 // S1 /=.
have -> : size (polyF p F ^+ Z.to_nat e) = ((size (polyF p F)).-1 * Z.to_nat e).+1.
  rewrite -[LHS]prednK ?size_exp // lt0n size_poly_eq0 monic_neq0 ?monic_exp //.
by rewrite canon_size // addnS addSn.
Qed.
Lemma irr_len F : canon F -> irreducible_poly (polyF p F) -> (2 <= length F)%N.
Proof. by move=> C [S1 _]; rewrite -canon_size. Qed.
Lemma linear2 F : canon F -> length F = 2%N -> exists a, F = [:: a; Zpos xH].
Proof. by case: F => [|a [|b [|]]] // [_] /= -> _; exists a. Qed.

Lemma even_square l c u : form c = toF p u *: prodF l -> toF p u != 0 -> facts l ->
  (forall F e, In (F, e) l -> Z.rem e 2 = 0%Z) -> (1 < size (form c))%N ->
  (length (List.filter (fun '(F, _) => (pdeg F =? 1)%Z) l) <= 2)%N /\
  exists G, square_root_poly p l = Base.Ok G /\ form c = toF p u *: polyF p G ^+ 2 /\
    polyF p G = Poly [:: toF p (pcoeff G 0); toF p (pcoeff G 1); toF p (if (pdeg G =? 2)%Z then 1 else 0)%Z].
Proof.
move=> E u0 Hl Ev S1.
have CL F e : In (F, e) l -> canon F by move=> /(proj2 Hl) [_ []].
have [S2 M] := prodF_size CL; have S5 := form_size c.
rewrite E size_scale // S2 in S1 S5.
have EV F e : In (F, e) l -> (2 <= Z.to_nat e)%N.
  move=> I; have [e1 _] := proj2 Hl _ _ I; have := Ev _ _ I => R.
  have : (e <> 1)%Z by move=> e1'; move: R; rewrite e1'. lia.
have LN F e : In (F, e) l -> (2 <= length F)%N by move=> I; have [_ [C q]] := proj2 Hl _ _ I; apply: irr_len.
have short F : (2 <= length F <= 3)%N -> canon F ->
  polyF p F = Poly [:: toF p (pcoeff F 0); toF p (pcoeff F 1); toF p (if (pdeg F =? 2)%Z then 1 else 0)%Z].
  case: F => [|a [|b [|d [|]]]] //= _ [_] /= L; last by rewrite L.
  by rewrite /polyF /pcoeff /= (_ : cons_poly (toF p 0) 0%:P = 0%:P) // cons_poly_def mul0r add0r.
have pr F G : canon F -> canon G -> length F = 2%N -> length G = 2%N ->
  polyF p (pmul_mod p F G) = polyF p F * polyF p G /\ 
  polyF p (pmul_mod p F G) = Poly [:: toF p (pcoeff (pmul_mod p F G) 0); toF p (pcoeff (pmul_mod p F G) 1);
    toF p (if (pdeg (pmul_mod p F G) =? 2)%Z then 1 else 0)%Z].
  move=> CF CG /(linear2 CF) [a ->] /(linear2 CG) [b ->].
  have PM : pmul [:: a; Zpos xH] [:: b; Zpos xH] = [:: a * b + 0; a * 1 + (1 * b + 0); 1 * 1]%Z by [].
  split.
    rewrite /pmul_mod polyF_mod PM !polyF_cons polyF_nil !mul0r !add0r !toFD !toFM toF1 toF0 !addr0 !mul1r mulr1.
    by rewrite polyCD polyCM; exact: (alg_lin (crt _)).
  have [x [y Exy]] : exists x y, pmul_mod p [:: a; Zpos xH] [:: b; Zpos xH] = [:: x; y; Zpos xH].
    exists ((a * b + 0) mod p)%Z, ((a * 1 + (1 * b + 0)) mod p)%Z; rewrite /pmul_mod PM.
    have M1 : ((1 * 1) mod p = 1)%Z by rewrite Z.mod_small; lia.
    by congr [:: _; _; _]; exact: M1.
  by rewrite Exy.
have mul2 a m : (1 < a)%N -> (1 < m)%N -> (2 <= a.-1 * m)%N.
  by move=> A M1; apply: leq_trans M1 _; apply: leq_pmull; lia.
case: l E Hl Ev S1 S2 S5 M EV LN CL => [|[F e] l] E Hl Ev S1 S2 S5 M EV LN CL; first by move: S1; rewrite /degs big_nil.
have e2 := EV F e (or_introl erefl); have F2 := LN F e (or_introl erefl); have CF := CL F e (or_introl erefl).
have ev := Ev F e (or_introl erefl).
case: l E Hl Ev S1 S2 S5 M EV LN CL => [|[F' e'] l] E Hl Ev S1 S2 S5 M EV LN CL.
  split; first by rewrite /=; case: (_ =? _)%Z.
  move: S5; rewrite /degs big_cons big_nil addn0 /= => S5.
  rewrite /prodF big_cons big_nil mulr1 /= in E; rewrite /square_root_poly.
  have E5 : e = 2%Z \/ e = 3%Z \/ e = 4%Z.
    have : (Z.to_nat e < 5)%N by apply: leq_ltn_trans S5; apply: leq_pmull; move: (length F) F2 => m; clear; lia.
    by move: e2; clear; lia.
  case: Z.eqb_spec => R4.
    have e4 : e = 4%Z by case: E5 ev R4 => [->|[->|->]].
    have L2 : length F = 2%N by move: S5 F2; rewrite e4; have -> : Z.to_nat 4 = 4%N by []; move: (length F) => m; clear; lia.
    have [P1 P2] := pr F F CF CF L2 L2.
    exists (pmul_mod p F F); split=> //; split=> //.
    by rewrite P1 -expr2 -exprM E e4.
  have e4 : e = 2%Z by case: E5 ev R4 => [->|[->|->]].
  exists F; split=> //; split; first by rewrite E e4.
  apply: short => //; rewrite F2 /=.
  by move: S5; rewrite e4; have -> : Z.to_nat 2 = 2%N by []; move: (length F) => m; clear; lia.
have e2' := EV F' e' (or_intror (or_introl erefl)); have F2' := LN F' e' (or_intror (or_introl erefl)).
have CF' := CL F' e' (or_intror (or_introl erefl)).
case: l E Hl Ev S1 S2 S5 M EV LN CL => [|[F3 e3] l] E Hl Ev S1 S2 S5 M EV LN CL; last first.
  have e23 := EV F3 e3 (or_intror (or_intror (or_introl erefl))). have F23 := LN F3 e3 (or_intror (or_intror (or_introl erefl))).
  exfalso; move: S5; rewrite /degs !big_cons /=; have := mul2 _ _ F2 e2; have := mul2 _ _ F2' e2'; have := mul2 _ _ F23 e23.
  by move: (_ * _)%N (_ * _)%N (_ * _)%N (\sum_(j <- l) _)%N => x y z w; clear; lia.
split; first by rewrite /=; case: (_ =? _)%Z; case: (_ =? _)%Z.
move: S5; rewrite /degs !big_cons big_nil addn0 /= => S5.
have [L [L' [E1 E2]]] : length F = 2%N /\ length F' = 2%N /\ e = 2%Z /\ e' = 2%Z.
  move: S5 F2 F2' e2 e2' mul2; clear; move: (length F) (length F') => x y.
  move=> S5 F2 F2' e2 e2' mul2.
  have X := mul2 _ _ F2 e2. have Y := mul2 _ _ F2' e2'.
  have X1 : (Z.to_nat e <= x.-1 * Z.to_nat e)%N by apply: leq_pmull; lia.
  have Y1 : (Z.to_nat e' <= y.-1 * Z.to_nat e')%N by apply: leq_pmull; lia.
  have e2E : Z.to_nat e = 2%N by lia.
  have e2E' : Z.to_nat e' = 2%N by lia.
  rewrite e2E e2E' in S5; lia.
rewrite /prodF !big_cons big_nil mulr1 /= in E; rewrite /square_root_poly.
have [P1 P2] := pr F F' CF CF' L L'.
exists (pmul_mod p F F'); split=> //; split=> //.
by rewrite P1 exprMn E E1 E2.
Qed.

(** *** what local_sol needs, in terms of integers *)
Variable factor : list Z -> list (list Z * Z).
Hypothesis Hf : factors_poly p factor.
Definition nonzero (c : q5) : Prop := exists x, In x (coeffs c) /\ ~ (p | x)%Z.

Lemma form_coef c i : (form c)`_i = toF p (List.nth i (coeffs c) Z0).
Proof.
rewrite /form /polyF coef_Poly; case: c => [[[[c0 c1] c2] c3] c4].
by case: i => [|[|[|[|[|i]]]]] //=; rewrite nth_nil; case: i.
Qed.
Lemma form_neq0 c : nonzero c -> form c != 0.
Proof.
move=> [x [I N]]; apply/negP => /eqP E; apply: N.
have [i [_ <-]] := In_nth _ _ Z0 I; apply/toF_eq0; rewrite -form_coef E coef0 //.
Qed.
Lemma factor_facts c : nonzero c -> form c = lead_coef (form c) *: prodF (factor (coeffs c)) /\ facts (factor (coeffs c)).
Proof.
move=> N; have [E [D H]] := Hf (form_neq0 N); split=> //; split=> // F e I.
by have [e1 [R [L q]]] := H _ _ I.
Qed.

Lemma simple_root c F : nonzero c -> In (F, 1%Z) (factor (coeffs c)) -> pdeg F = 1%Z ->
  (p | fval c (- pcoeff F 0))%Z /\ ~ (p | fder c (- pcoeff F 0))%Z.
Proof.
move=> N I D; have [E Hl] := factor_facts N; have [A [B _]] := root_linear E Hl I D.
by split=> //; apply: B => //; apply: form_neq0.
Qed.
Lemma multiple_root c F e : nonzero c -> In (F, e) (factor (coeffs c)) -> pdeg F = 1%Z -> e <> 1%Z ->
  (p | fval c (- pcoeff F 0))%Z /\ (p | fder c (- pcoeff F 0))%Z.
Proof.
move=> N I D e1; have [E Hl] := factor_facts N; have [A [_ B]] := root_linear E Hl I D.
by split=> //; apply: B.
Qed.
Lemma all_roots c x : nonzero c -> (p | fval c x)%Z ->
  exists F e, In (F, e) (factor (coeffs c)) /\ pdeg F = 1%Z /\ (p | x - - pcoeff F 0)%Z.
Proof.
move=> N D; have [E Hl] := factor_facts N; have [F [e [I [dF H]]]] := root_complete (form_neq0 N) E Hl D.
by exists F, e; split=> //; split=> //; rewrite Z.sub_opp_r.
Qed.
Lemma odd_exponent c F e : nonzero c -> In (F, e) (factor (coeffs c)) -> Z.rem e 2 <> 0%Z -> exists x, good c x.
Proof. by move=> N I O; have [E Hl] := factor_facts N; apply: (odd_not_square (form_neq0 N) E Hl I O). Qed.

(** the highest coefficient not divisible by p, u, of x^k *)
Definition top (c : q5) (u : Z) (k : nat) : Prop :=
  List.nth k (coeffs c) Z0 = u /\ ~ (p | u)%Z /\ forall j, (k < j)%coq_nat /\ (j < 5)%coq_nat -> (p | List.nth j (coeffs c) Z0)%Z.
Lemma top_lead c u k : (k < 5)%coq_nat -> top c u k -> toF p u = lead_coef (form c) /\ size (form c) = k.+1.
Proof.
move=> k5 [U [N T]].
have S1 : size (form c) = k.+1.
  apply/eqP; rewrite eqn_leq; apply/andP; split; last first.
    rewrite ltnNge; apply/negP => H; apply: N; rewrite -U; apply/toF_eq0; rewrite -form_coef nth_default //.
  apply/leq_sizeP => j kj; rewrite form_coef; apply/toF_eq0.
  have [j5|j5] : (j < 5)%coq_nat \/ (5 <= j)%coq_nat by lia.
    by apply: T; split=> //; lia.
  by rewrite nth_overflow; [exact: Z.divide_0_r|case: (c) j5 => [[[[? ?] ?] ?] ?]].
by rewrite lead_coefE S1 /= form_coef U.
Qed.
Lemma top_square c u k y : (k < 5)%coq_nat -> top c u k -> (p | y * y - u)%Z -> exists x, good c x.
Proof.
move=> k5 T Y; have [L S1] := top_lead k5 T.
have f0 : form c != 0 by rewrite -size_poly_gt0 S1.
case: (good_or_square f0) => // [] [a [q Eq]]; apply: (lead_good f0 Eq L Y).
Qed.
Lemma even_exponents c u k : (0 < k)%coq_nat /\ (k < 5)%coq_nat -> top c u k -> (forall F e, In (F, e) (factor (coeffs c)) -> Z.rem e 2 = 0%Z) ->
  (length (List.filter (fun '(F, _) => (pdeg F =? 1)%Z) (factor (coeffs c))) <= 2)%coq_nat /\
  exists G, square_root_poly p (factor (coeffs c)) = Base.Ok G /\
    let g2 := pcoeff G 0 in let g1 := pcoeff G 1 in let g0 := (if pdeg G =? 2 then 1 else 0)%Z in
    (let '(c0, c1, c2, c3, c4) := c in
    (p | c4 - u * g0 * g0) /\ (p | c3 - 2 * u * g1 * g0) /\ (p | c2 - 2 * u * g2 * g0 - u * g1 * g1) /\
    (p | c1 - 2 * u * g1 * g2) /\ (p | c0 - u * g2 * g2))%Z.
Proof.
move=> [k0 k5] T Ev; have [L S1] := top_lead k5 T.
have f0 : form c != 0 by rewrite -size_poly_gt0 S1.
have N : nonzero c by exists u; case: T => [U [N _]]; split=> //; rewrite -U; apply: nth_In; case: (c) k5 => [[[[? ?] ?] ?] ?].
have [E Hl] := factor_facts N; rewrite -L in E.
have u0 : toF p u != 0 by rewrite L lead_coef_eq0.
have [|LF [G [EG [F1 F2]]]] := even_square E u0 Hl Ev; first by rewrite S1; lia.
split; first exact/leP; exists G; split=> //; cbv zeta.
move: (pcoeff G 0) (pcoeff G 1) (if _ then _ else _) F2 => g2 g1 g0 F2.
rewrite F2 in F1; have {F1} C i : (form c)`_i = toF p u * ((Poly [:: toF p g2; toF p g1; toF p g0]) ^+ 2)`_i by rewrite F1 coefZ.
have : Poly [:: toF p g2; toF p g1; toF p g0] ^+ 2 = 
  Poly [:: toF p (g2 * g2); toF p (g1 * g2 + g1 * g2); toF p (g2 * g0 + g2 * g0 + g1 * g1); toF p (g1 * g0 + g1 * g0); toF p (g0 * g0)].
  rewrite /= !cons_poly_def !mul0r !add0r expr2 !(toFD, toFM) !(polyCD, polyCM).
  exact: (alg_sq (crt _)).
move=> Q; rewrite Q in C.
case: (c) C => [[[[c0 c1] c2] c3] c4] C.
have get i a b : (form (c0, c1, c2, c3, c4))`_i = toF p a -> toF p u * (Poly [:: toF p (g2 * g2); toF p (g1 * g2 + g1 * g2); toF p (g2 * g0 + g2 * g0 + g1 * g1); toF p (g1 * g0 + g1 * g0); toF p (g0 * g0)])`_i = toF p b -> (p | a - b)%Z.
  by move=> A B; apply/toF_eq; rewrite -A -B C.
split; [|split; [|split; [|split]]].
- by apply: (get 4%N); [exact: form_coef|rewrite coef_Poly /= -toFM Z.mul_assoc].
- by apply: (get 3%N); [exact: form_coef|rewrite coef_Poly [nth _ _ _]/= -toFM; congr toF; ring].
- rewrite -Z.sub_add_distr; by apply: (get 2%N); [exact: form_coef|rewrite coef_Poly [nth _ _ _]/= -toFM; congr toF; ring].
- by apply: (get 1%N); [exact: form_coef|rewrite coef_Poly [nth _ _ _]/= -toFM; congr toF; ring].
- by apply: (get 0%N); [exact: form_coef|rewrite coef_Poly [nth _ _ _]/= -toFM; congr toF; ring].
Qed.
End Field.
