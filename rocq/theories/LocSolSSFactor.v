(** A factorisation function meeting the contract of LocSolSSSpec exists: search for the monic divisor of least degree. *)
From Coq Require Import ZArith Lia List Znumtheory.
From mathcomp Require Import all_ssreflect all_algebra all_field zify ssrZ.
From Verif Require Import LegendreMath LocSolSSSpec.
Set Implicit Arguments.
Unset Strict Implicit.
Unset Printing Implicit Defensive.
Import GRing.Theory.
Delimit Scope Z_scope with Z.
Local Open Scope ring_scope.

Section Fac.
Variable K : finFieldType.
Definition mon k (t : k.-tuple K) : {poly K} := 'X^k + Poly t.
Lemma mon_size k (t : k.-tuple K) : size (mon t) = k.+1.
Proof. by rewrite /mon size_addl size_polyXn // ltnS (leq_trans (size_Poly _)) // size_tuple. Qed.
Lemma mon_monic k (t : k.-tuple K) : mon t \is monic.
Proof.
rewrite monicE /mon lead_coefDl ?lead_coefXn // size_polyXn ltnS (leq_trans (size_Poly _)) // size_tuple //.
Qed.
Lemma mon_surj (q : {poly K}) : q \is monic -> exists t : ((size q).-1).-tuple K, q = mon t.
Proof.
move=> M; exists [tuple q`_i | i < (size q).-1]; apply/polyP => i; rewrite /mon coefD coefXn coef_Poly.
have [E|E|E] := ltngtP i (size q).-1; rewrite ?add0r.
- by rewrite (nth_mktuple _ 0 (Ordinal E)).
- rewrite nth_default; last by move: (size q) E => m; lia.
  by rewrite nth_default ?size_tuple // ltnW.
- by rewrite [X in _ + X]nth_default ?size_tuple ?E // addr0 -lead_coefE (eqP M).
Qed.
Definition has_div (f : {poly K}) k : bool := [exists t : k.-tuple K, mon t %| f].
Definition ldeg (f : {poly K}) : nat := (find (has_div f) (iota 1 (size f))).+1.
Definition ldiv (f : {poly K}) : {poly K} := if [pick t : (ldeg f).-tuple K | mon t %| f] is Some t then mon t else 1.
Lemma monic_div (f d : {poly K}) : d != 0 -> d %| f -> has_div f (size d).-1.
Proof.
move=> d0 D; have lc : lead_coef d != 0 by rewrite lead_coef_eq0.
have M : (lead_coef d)^-1 *: d \is monic by rewrite monicE lead_coefZ mulVf.
have [t E] := mon_surj M; move: t E; rewrite size_scale ?invr_eq0 // => t E.
by apply/existsP; exists t; rewrite -E dvdpZl // invr_eq0.
Qed.
Lemma ldiv_ok (f : {poly K}) : (1 < size f)%N -> ldiv f \is monic /\ ldiv f %| f /\ irreducible_poly (ldiv f).
Proof.
move=> S1; have f0 : f != 0 by rewrite -size_poly_gt0 ltnW.
have H : has (has_div f) (iota 1 (size f)).
  apply/hasP; exists (size f).-1; last by apply: monic_div.
  by rewrite mem_iota; move: (size f) S1 => m; lia.
have HD : has_div f (ldeg f).
  have := nth_find 0%N H; rewrite nth_iota //; first by rewrite has_find size_iota in H.
rewrite /ldiv; case: pickP => [t D|N]; last by exfalso; move/existsP: HD => [t D]; move: (N t); rewrite D.
split; [exact: mon_monic|split=> //].
split; first by rewrite mon_size.
move=> d d1 Dd.
have d0 : d != 0 by apply: contraNneq (monic_neq0 (mon_monic t)) => E; move: Dd; rewrite E dvd0p.
have B : ((ldeg f) <= (size d).-1)%N.
  rewrite leqNgt; apply/negP => L.
  have sd : (1 < size d)%N by move: d1; rewrite -size_poly_gt0 in d0; move: (size d) d0 => m; lia.
  have := @before_find _ 0%N (has_div f) (iota 1 (size f)) (size d).-2.
  have -> : ((size d).-2 < find (has_div f) (iota 1 (size f)))%N by move: L; rewrite /ldeg; move: (size d) sd (find _ _) => m ? k; lia.
  rewrite nth_iota; last first.
    by have := dvdp_leq f0 (dvdp_trans Dd D); move: (size d) sd (size f) => m ? k; lia.
  move/(_ isT); have -> : (1 + (size d).-2 = (size d).-1)%N by move: (size d) sd => m; lia.
  by rewrite monic_div // (dvdp_trans Dd D).
rewrite -dvdp_size_eqp // eqn_leq (dvdp_leq (monic_neq0 (mon_monic t)) Dd) mon_size.
by rewrite -size_poly_gt0 in d0; move: (size d) d0 B => m; lia.
Qed.
Fixpoint facs n (f : {poly K}) : seq {poly K} :=
  if n is n'.+1 then if (size f <= 1)%N then [::] else ldiv f :: facs n' (f %/ ldiv f) else [::].
Lemma facs_ok n (f : {poly K}) : f != 0 -> (size f <= n)%N ->
  f = lead_coef f *: \prod_(q <- facs n f) q /\ forall q, q \in facs n f -> q \is monic /\ irreducible_poly q.
Proof.
elim: n f => [|n IH] f f0 Sf; first by move: f0; rewrite -size_poly_gt0; move: (size f) Sf => m; lia.
rewrite /=; case: leqP => S1.
  split=> //; rewrite big_nil; have /size_poly1P [c c0 ->] : size f == 1%N.
    by move: f0; rewrite -size_poly_gt0; move: (size f) S1 => m; lia.
  by rewrite lead_coefC alg_polyC.
have [M [D I]] := ldiv_ok S1; set q := ldiv f in M D I *.
have E : f = f %/ q * q by rewrite divpK.
have g0 : f %/ q != 0 by apply: contraNneq f0 => z; rewrite E z mul0r.
have [|E1 H] := IH _ g0.
  rewrite size_divp ?monic_neq0 //; have := I.1; move: (size f) (size q) Sf => m k; lia.
split; last by move=> r; rewrite inE => /orP [/eqP ->|/H].
rewrite big_cons {1}E {1}E1 mulrC -scalerAr; congr (_ *: _).
by rewrite {2}E lead_coefM (eqP M) mulr1.
Qed.
End Fac.

Section Z.
Variable p : Z.
Local Notation n := (Z.to_nat p).
Local Notation K := 'F_n.
Definition back (q : {poly K}) : list Z := [seq Z.of_nat (val x) | x <- q].
Definition factor_poly (c : list Z) : list (list Z * Z) :=
  let l := facs (size c) (polyF p c) in [seq (back q, Z.of_nat (count_mem q l)) | q <- undup l].

Hypothesis Hp : Znumtheory.prime p.
Lemma n_prime : prime.prime n.
Proof. by apply: prime_Z; rewrite Z2Nat.id //; have := prime_ge_2 _ Hp; lia. Qed.
Lemma toF_back (x : K) : toF p (Z.of_nat (val x)) = x.
Proof.
rewrite /toF; have -> : int_of_Z (Z.of_nat (val x)) = Posz (val x) by lia.
apply/val_inj; rewrite /= val_Fp_nat ?n_prime // modn_small //; have := ltn_ord x; rewrite {2}Fp_cast ?n_prime //.
Qed.
Lemma polyF_back (q : {poly K}) : polyF p (back q) = q.
Proof.
rewrite /polyF /back -map_comp; have -> : [seq (toF p \o (fun x : K => Z.of_nat (val x))) x | x <- q] = q.
  by rewrite -[RHS]map_id; apply: eq_map => x /=; exact: toF_back.
exact: polyseqK.
Qed.
Lemma back_inj : injective back.
Proof. by move=> q r E; rewrite -(polyF_back q) E polyF_back. Qed.
Theorem factor_poly_ok : factors_poly p factor_poly.
Proof.
move=> c f0; have [|E H] := facs_ok (n := size c) f0.
  by apply: leq_trans (size_Poly _) _; rewrite size_map.
rewrite /factor_poly; set l := facs _ _ in E H *; split; [|split].
- rewrite {1}E; congr (_ *: _); rewrite big_map /= -big_undup_iterop_count; apply: eq_bigr => q _.
  by rewrite polyF_back Nat2Z.id.
- have -> : List.map fst [seq (back q, Z.of_nat (count_mem q l)) | q <- undup l] = [seq back q | q <- undup l].
    by elim: (undup l) => //= q s ->.
  have : uniq [seq back q | q <- undup l] by rewrite map_inj_uniq ?undup_uniq //; exact: back_inj.
  elim: [seq _ | _ <- _] => [|x s IH] /=; first by constructor.
  move=> /andP [N U]; constructor; last exact: IH.
  move=> I; move/negP: N; apply; elim: s I {IH U} => //= y s IH [->|/IH]; rewrite inE ?eqxx // => ->; exact: orbT.
- move=> F e I.
  have [q [Q [-> ->]]] : exists q, q \in undup l /\ F = back q /\ e = Z.of_nat (count_mem q l).
    elim: (undup l) I => //= r s IH [[<- <-]|/IH [q [Q ?]]]; first by exists r; rewrite inE eqxx.
    by exists q; rewrite inE Q orbT.
  rewrite mem_undup in Q; have [M I'] := H _ Q; rewrite polyF_back; split; last split; last split=> //.
  + by have : (0 < count_mem q l)%N; [rewrite -has_count has_pred1|lia].
  + rewrite /back => x; elim: (polyseq q) => //= y s IH [<-|/IH //].
    have := ltn_ord y; rewrite {2}Fp_cast ?n_prime //; have := prime_ge_2 _ Hp; lia.
  + have L : last (0 : K) q = 1 by move/eqP: M; rewrite lead_coefE nth_last.
    rewrite /back; have q0 := monic_neq0 M; move: L q0; rewrite -size_poly_gt0.
    elim: (polyseq q) => // x [|y s] IH L _; last by rewrite -IH.
    by rewrite /= in L *; rewrite L.
Qed.
End Z.
