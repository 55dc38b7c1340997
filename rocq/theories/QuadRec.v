(** Quadratic reciprocity over nat (Euler's criterion, Gauss's lemma,
    Eisenstein's lattice point count).  Pure mathematics; used by LegendreProofs.v. *)
From mathcomp Require Import all_ssreflect ssralg finalg poly zmodp finfield zify.
From Coq Require Import Lia.
Set Implicit Arguments.
Unset Strict Implicit.
Unset Printing Implicit Defensive.
Import GRing.Theory.

(** [qres a p]: a is a square mod p *)
Definition qres (a p : nat) : bool := has (fun x => x * x == a %[mod p]) (iota 0 p).

Section OddPrime.
Variable p : nat.
Hypothesis p_pr : prime p.
Hypothesis p_odd : odd p.
Let h := p./2.

Lemma p_h : p = h.*2.+1.
Proof. by rewrite -[LHS]odd_double_half p_odd. Qed.
Lemma h_gt0 : 0 < h.
Proof. by move: (prime_gt1 p_pr); rewrite p_h; case: h. Qed.
Lemma p_gt0 : 0 < p. Proof. by rewrite p_h. Qed.

Open Scope ring_scope.

Lemma natrF_eq (k l : nat) : (k%:R == l%:R :> 'F_p) = (k == l %[mod p])%N.
Proof. by rewrite -(inj_eq val_inj) /= !val_Fp_nat. Qed.

Lemma natrF_eq0 (k : nat) : (k%:R == 0 :> 'F_p) = (p %| k)%N.
Proof. by rewrite (natrF_eq k 0) mod0n. Qed.

Lemma fermatF (a : 'F_p) : a != 0 -> a ^+ h ^+ 2 = 1.
Proof.
move=> a0; apply: (mulfI a0); rewrite mulr1 -exprM -exprS muln2 -p_h.
by have := expf_card a; rewrite card_Fp.
Qed.

Lemma charF (a : 'F_p) : a != 0 -> a ^+ h = 1 \/ a ^+ h = -1.
Proof.
move=> /fermatF /eqP; rewrite sqrf_eq1 => /orP[/eqP->|/eqP->]; by [left|right].
Qed.

Lemma F1n1 : (1 : 'F_p) != -1.
Proof.
rewrite -subr_eq0 opprK -(natrD _ 1 1) natrF_eq0.
apply/negP=> /dvdn_leq; move: (prime_gt1 p_pr) p_odd; case: p => [|[|[|n]]] //= _ _.
by move=> /(_ isT).
Qed.

Definition sqs : seq 'F_p := [seq (k%:R) ^+ 2 | k <- iota 1 h].

Lemma iota_h k : (k \in iota 1 h) = (0 < k <= h)%N.
Proof. by rewrite mem_iota add1n ltnS. Qed.

Lemma sq_inj : {in iota 1 h &, injective (fun k => (k%:R : 'F_p) ^+ 2)}.
Proof.
move=> k l; rewrite !iota_h.
move=> /andP[k0 kh] /andP[l0 lh] /eqP; rewrite eqf_sqr => /orP[].
  rewrite natrF_eq !modn_small ?p_h ?ltnS //; first by move/eqP.
    by apply: leq_trans lh _; rewrite -addnn leq_addr.
  by apply: leq_trans kh _; rewrite -addnn leq_addr.
rewrite -subr_eq0 opprK -natrD natrF_eq0 => /dvdn_leq; rewrite addn_gt0 k0 => /(_ isT).
by rewrite p_h -addnn leqNgt ltnS leq_add.
Qed.
Lemma sqs_uniq : uniq sqs.
Proof. by rewrite map_inj_in_uniq ?iota_uniq //; exact: sq_inj. Qed.

Lemma sq_char (b : 'F_p) : b != 0 -> (b ^+ 2) ^+ h = 1.
Proof. by move=> /fermatF <-; rewrite -!exprM mulnC. Qed.

Lemma euler_sqs (a : 'F_p) : a ^+ h = 1 -> a \in sqs.
Proof.
move=> ah; apply/negPn/negP=> na.
have P0 : ('X^h - 1 : {poly 'F_p}) != 0 by rewrite -size_poly_eq0 size_Xn_sub_1 ?h_gt0.
have := @max_poly_roots _ _ (a :: sqs) P0; rewrite size_Xn_sub_1 ?h_gt0 //=.
rewrite na sqs_uniq size_map size_iota ltnn => /(_ _ isT) F.
suff: false by []; apply: F.
have R c : c ^+ h = 1 -> root ('X^h - 1) c.
  by move=> E; rewrite /root !hornerE hornerXn E subrr.
rewrite R //=; apply/allP=> c /mapP[k]; rewrite iota_h => /andP[k0 kh] ->.
apply: R; apply: sq_char; rewrite natrF_eq0; apply/negP=> /(dvdn_leq k0).
by rewrite p_h leqNgt ltnS (leq_trans kh) // -addnn leq_addr.
Qed.

Lemma euler (a : nat) : ~~ (p %| a)%N -> qres a p = ((a%:R : 'F_p) ^+ h == 1).
Proof.
move=> pa; apply/hasP/eqP => [[x _]|/euler_sqs/mapP[k]].
  rewrite -natrF_eq natrM => /eqP xa.
  rewrite -xa -expr2; apply: sq_char.
  by apply: contraNneq pa => x0; rewrite -natrF_eq0 -xa x0 mul0r.
rewrite iota_h => /andP[k0 kh] E; exists k.
  rewrite mem_iota add0n /= p_h ltnS (leq_trans kh) // -addnn leq_addr //.
by rewrite -natrF_eq natrM E expr2.
Qed.

Lemma qres_mul a b : ~~ (p %| a)%N -> ~~ (p %| b)%N ->
  qres (a * b) p = (qres a p == qres b p).
Proof.
move=> pa pb; rewrite !euler //; last by rewrite Euclid_dvdM // negb_or pa.
have a0 : (a%:R : 'F_p) != 0 by rewrite natrF_eq0.
have b0 : (b%:R : 'F_p) != 0 by rewrite natrF_eq0.
have n1 : (-1 : 'F_p) == 1 = false by rewrite eq_sym; apply/negbTE/F1n1.
rewrite natrM exprMn; case: (charF a0) => ->; case: (charF b0) => ->;
  by rewrite ?mul1r ?mulN1r ?opprK ?eqxx ?n1.
Qed.

Lemma qres_mod a : qres (a %% p) p = qres a p.
Proof. by rewrite /qres; apply: eq_has => x; rewrite modn_mod. Qed.

(** Gauss's lemma *)
Section Gauss.
Variable a : nat.
Hypothesis pa : ~~ (p %| a)%N.
Definition rk (k : nat) : nat := (a * k %% p)%N.
Definition sk (k : nat) : nat := if (rk k <= h)%N then rk k else (p - rk k)%N.
Definition mu : nat := (\sum_(k <- iota 1 h) (h < rk k))%N.

Lemma k_ndvd k : k \in iota 1 h -> ~~ (p %| k)%N.
Proof.
rewrite iota_h => /andP[k0 kh]; apply/negP=> /(dvdn_leq k0).
by rewrite p_h leqNgt ltnS (leq_trans kh) // -addnn leq_addr.
Qed.

Lemma rk_gt0 k : k \in iota 1 h -> (0 < rk k < p)%N.
Proof.
move=> /k_ndvd pk; rewrite ltn_mod p_gt0 andbT lt0n -/(dvdn _ _) Euclid_dvdM // negb_or pa.
by [].
Qed.

Lemma sk_in k : k \in iota 1 h -> sk k \in iota 1 h.
Proof.
move=> /rk_gt0/andP[r0 rp]; rewrite iota_h /sk; case: (leqP (rk k) h) => [rh|hr]; first by rewrite r0.
rewrite subn_gt0 rp /= leq_subLR p_h -addnn -addSn leq_add2r.
by apply: leq_trans hr _.
Qed.

Lemma skE k : k \in iota 1 h ->
  (a * k)%:R = (-1) ^+ (h < rk k)%N * (sk k)%:R :> 'F_p.
Proof.
move=> /rk_gt0/andP[r0 rp].
have E : (a * k)%:R = (rk k)%:R :> 'F_p by apply/eqP; rewrite natrF_eq modn_mod.
rewrite E /sk; case: leqP => _; rewrite ?expr0 ?mul1r // expr1 mulN1r.
rewrite natrB; last by exact: ltnW.
have -> : (p%:R : 'F_p) = 0 by apply/eqP; rewrite natrF_eq0.
by rewrite sub0r opprK.
Qed.

Lemma sk_inj : {in iota 1 h &, injective sk}.
Proof.
move=> k l kin lin E.
have a0 : (a%:R : 'F_p) != 0 by rewrite natrF_eq0.
have: ((a * k)%:R ^+ 2 == (a * l)%:R ^+ 2 :> 'F_p).
  by rewrite !skE // !exprMn E !sqrr_sign.
rewrite !natrM !exprMn (inj_eq (mulfI _)) ?expf_neq0 // => /eqP E2.
exact: sq_inj.
Qed.

Lemma sk_perm : perm_eq (map sk (iota 1 h)) (iota 1 h).
Proof.
have U : uniq (map sk (iota 1 h)) by rewrite map_inj_in_uniq ?iota_uniq //; exact: sk_inj.
apply: uniq_perm; rewrite ?iota_uniq //.
have S : {subset map sk (iota 1 h) <= iota 1 h} by move=> x /mapP[k kin ->]; exact: sk_in.
by have [|_ E] := uniq_min_size U S; rewrite ?size_map.
Qed.

Lemma gauss_F : (a%:R : 'F_p) ^+ h = (-1) ^+ mu.
Proof.
pose Pr : 'F_p := \prod_(k <- iota 1 h) k%:R.
have P0 : Pr != 0.
  rewrite /Pr prodf_seq_neq0; apply/allP => k kin /=; rewrite natrF_eq0; exact: k_ndvd.
apply: (mulIf P0).
have -> : (a%:R : 'F_p) ^+ h * Pr = \prod_(k <- iota 1 h) (a * k)%:R.
  rewrite /Pr -{1}(size_iota 1 h); elim: (iota 1 h) => [|k s IH].
    by rewrite !big_nil mul1r.
  by rewrite !big_cons -IH natrM exprS; rewrite mulrACA.
rewrite big_seq (eq_bigr _ skE) -big_seq big_split /=; congr (_ * _).
  rewrite /mu; elim: (iota 1 h) => [|k s IH]; first by rewrite !big_nil.
  by rewrite !big_cons IH exprD.
by rewrite -(big_map sk predT (fun k => k%:R)) (perm_big _ sk_perm).
Qed.

Lemma gauss_lemma : qres a p = ~~ odd mu.
Proof.
rewrite euler // gauss_F -signr_odd; case: (odd mu); rewrite ?eqxx //= expr1.
by rewrite eq_sym; apply/negbTE/F1n1.
Qed.

Lemma gauss_sum : odd a -> odd mu = odd (\sum_(k <- iota 1 h) (a * k) %/ p)%N.
Proof.
move=> oa.
have P : odd (\sum_(k <- iota 1 h) sk k) = odd (\sum_(k <- iota 1 h) k).
  by rewrite -(big_map sk predT id) (perm_big _ sk_perm).
have O (F : nat -> nat) s : odd (\sum_(k <- s) F k) = \big[addb/false]_(k <- s) odd (F k).
  by elim: s => [|x s IH]; rewrite ?big_nil // !big_cons oddD IH.
have : odd (\sum_(k <- iota 1 h) (sk k + (h < rk k) + (a * k) %/ p)) =
       odd (\sum_(k <- iota 1 h) k).
  rewrite !O big_seq [RHS]big_seq; apply: eq_bigr => k kin.
  have E1 : odd k = odd (a * k) by rewrite oddM oa.
  have E2 : odd (a * k) = odd (rk k) (+) odd (a * k %/ p).
    by rewrite [in LHS](divn_eq (a * k) p) oddD oddM p_odd andbT addbC.
  rewrite E1 E2 !oddD; congr addb; rewrite /sk.
  case: leqP => _; first by rewrite addbF.
  have /andP[_ /ltnW lp] := rk_gt0 kin.
  by rewrite oddB // p_odd /= addbT negbK.
rewrite !big_split /= !oddD P => /(congr1 (addb (odd (\sum_(k <- iota 1 h) k)))).
by rewrite !addbA addbb addFb => /eqP; rewrite /mu; do 2 case: (odd _).
Qed.
End Gauss.
End OddPrime.

Lemma mu_ext (p a b : nat) : a = b %[mod p] -> mu p a = mu p b.
Proof.
by move=> E; apply: eq_bigr => k _; rewrite /rk -modnMml E modnMml.
Qed.

(** supplements *)
Lemma qres_neg1 p : prime p -> odd p -> qres p.-1 p = ~~ odd p./2.
Proof.
move=> pp op; have p0 := prime_gt0 pp; have p1 := prime_gt1 pp.
have E := p_h op.
rewrite gauss_lemma //; last first.
  apply/negP=> /dvdn_leq; rewrite -subn1 subn_gt0 => /(_ p1).
  by rewrite leqNgt subn1 prednK // leqnn.
congr (~~ odd _); rewrite /mu.
transitivity (\sum_(k <- iota 1 p./2) 1); last by rewrite sum1_size size_iota.
rewrite big_seq [RHS]big_seq; apply: eq_bigr => k; rewrite mem_iota add1n ltnS => /andP[k0 kh].
have kp : k < p by rewrite [p in _ < p]E ltnS (leq_trans kh) // -addnn leq_addr.
suff -> : rk p p.-1 k = p - k.
  have L : k + p./2 < p by rewrite {2}E ltnS -addnn leq_add2r.
  by rewrite ltn_subRL L.
rewrite /rk -subn1 mulnBl mul1n.
have -> : p * k - k = (k.-1 * p) + (p - k).
  by case: k k0 kh kp => // k _ _ kp /=; nia.
by rewrite modnMDl modn_small // ltn_subrL k0 p0.
Qed.

Lemma sum_gt h m : m <= h -> \sum_(k <- iota 1 h) (m < k) = h - m.
Proof.
elim: h => [|h IH]; first by rewrite leqn0 => /eqP ->; rewrite big_nil.
rewrite -addn1 iotaD big_cat /= big_seq1 add1n addn1 leq_eqVlt => /orP[/eqP ->|].
  rewrite ltnn addn0 subnn big_seq big1 // => k.
  by rewrite mem_iota add1n ltnS => /andP[_ kh] /=; rewrite ltnNge (leq_trans kh).
rewrite ltnS => mh; rewrite IH //.
by case: ltnP => ?; lia.
Qed.

Lemma qres_two p : prime p -> odd p -> qres 2 p = ~~ odd (p./2 - p./2./2).
Proof.
move=> pp op; have E := p_h op.
have p2 : ~~ (p %| 2).
  apply/negP=> /dvdn_leq -/(_ isT); move: (prime_gt1 pp) op.
  by case: (p) => [|[|[|n]]].
rewrite gauss_lemma //; congr (~~ odd _); rewrite /mu -sum_gt ?half_leq //; last first.
  by lia.
rewrite big_seq [RHS]big_seq; apply: eq_bigr => k; rewrite mem_iota add1n ltnS => /andP[k0 kh].
rewrite /rk mul2n modn_small; last by rewrite [p in _ < p]E ltnS leq_double.
congr nat_of_bool; lia.
Qed.

(** reciprocity *)
Lemma floor_count p q k : 0 < p -> ~~ odd p = false -> ~~ odd q = false ->
  0 < k <= p./2 -> q * k %/ p = \sum_(l <- iota 1 q./2) (p * l <= q * k).
Proof.
move=> p0 op oq /andP[k0 kh].
have Ep : p = p./2.*2.+1 by apply: p_h; apply: negbFE.
have Eq : q = q./2.*2.+1 by apply: p_h; apply: negbFE.
have B : q * k %/ p <= q./2.
  rewrite -ltnS ltn_divLR //; move: (p./2) (q./2) Ep Eq kh => hp hq -> -> kh; nia.
rewrite -[LHS](subKn B) -{1}[q./2](size_iota 1) -sum1_size.
set m := q * k %/ p in B *.
have -> : \sum_(l <- iota 1 q./2) (p * l <= q * k) = \sum_(l <- iota 1 q./2) (l <= m).
  by apply: eq_bigr => l _; rewrite /m leq_divRL // mulnC.
have -> : \sum_(l <- iota 1 q./2) (l <= m) = \sum_(l <- iota 1 q./2) 1 - \sum_(l <- iota 1 q./2) (m < l).
  by rewrite -sumnB; [apply: eq_bigr => l _; case: leqP | move=> l _; case: leqP].
by rewrite sum_gt.
Qed.

Lemma reciprocity p q : prime p -> odd p -> prime q -> odd q -> p != q ->
  qres q p (+) qres p q = odd (p./2) && odd (q./2).
Proof.
move=> pp op pq oq npq.
have p0 := prime_gt0 pp; have q0 := prime_gt0 pq.
have cpq : coprime p q by rewrite prime_coprime // dvdn_prime2.
have dq : ~~ (p %| q) by rewrite -prime_coprime.
have dp : ~~ (q %| p) by rewrite -prime_coprime // coprime_sym.
rewrite !gauss_lemma // addNb addbN negbK !gauss_sum // -oddM.
have -> : \sum_(k <- iota 1 p./2) q * k %/ p =
          \sum_(k <- iota 1 p./2) \sum_(l <- iota 1 q./2) (p * l < q * k).
  rewrite big_seq [RHS]big_seq; apply: eq_bigr => k.
  rewrite mem_iota add1n ltnS => kh; rewrite floor_count ?op ?oq ?p0 //.
  rewrite big_seq [RHS]big_seq; apply: eq_bigr => l.
  rewrite mem_iota add1n ltnS => lh; congr nat_of_bool.
  rewrite leq_eqVlt; case: eqP => // E.
  have : p %| q * k by rewrite -E dvdn_mulr.
  rewrite Gauss_dvdr // => /dvdn_leq; have := p_h op; move: kh => /andP[k0 kh] Ep /(_ k0); lia.
have -> : \sum_(k <- iota 1 q./2) p * k %/ q =
          \sum_(k <- iota 1 p./2) \sum_(l <- iota 1 q./2) (q * k <= p * l).
  rewrite exchange_big big_seq [RHS]big_seq; apply: eq_bigr => k.
  by rewrite mem_iota add1n ltnS => kh; rewrite floor_count ?op ?oq ?q0.
rewrite -oddD -big_split /=; congr odd.
transitivity (\sum_(k <- iota 1 p./2) q./2).
  apply: eq_bigr => k _; rewrite -big_split /= -{2}(size_iota 1 q./2) -sum1_size.
  by apply: eq_bigr => l _; case: ltnP.
by rewrite big_const_seq count_predT size_iota iter_addn_0 mulnC.
Qed.
