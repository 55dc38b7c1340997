(** Legendre and Jacobi symbols over Z: multiplicativity, supplements, reciprocity.
    Transfers QuadRec.v (over nat) to Z. *)
From mathcomp Require Import ssreflect ssrfun ssrbool eqtype ssrnat seq div prime zify.
From Coq Require Import ZArith Lia List Znumtheory.
From Verif Require Import QuadRec LegendreSpec.
Import ListNotations.
Set Implicit Arguments.
Unset Strict Implicit.
Open Scope Z_scope.

Lemma dvdn_Z (d n : nat) : (d %| n)%nat <-> (Z.of_nat d | Z.of_nat n).
Proof.
split.
  move/dvdnP => [k ->]; exists (Z.of_nat k); lia.
move=> [k Hk]; apply/dvdnP; exists (Z.to_nat k).
have [k0|k0] : 0 <= k \/ k < 0 by lia.
  by nia.
have : Z.of_nat n = 0 by nia.
nia.
Qed.

Lemma modn_Z (m n d : nat) :
  (m == n %[mod d])%nat <-> (Z.of_nat d | Z.of_nat m - Z.of_nat n).
Proof.
have [mn|/ltnW mn] := leqP n m.
  rewrite eqn_mod_dvd // dvdn_Z.
  by have -> : Z.of_nat (m - n) = Z.of_nat m - Z.of_nat n by lia.
rewrite eq_sym eqn_mod_dvd // dvdn_Z.
have -> : Z.of_nat (n - m) = - (Z.of_nat m - Z.of_nat n) by lia.
by apply: Z.divide_opp_r.
Qed.

Lemma prime_Z (n : nat) : Znumtheory.prime (Z.of_nat n) -> prime.prime n.
Proof.
move=> pn; have n1 := prime_ge_2 _ pn.
apply/primeP; split; first by lia.
move=> d /dvdn_Z dn; have := prime_divisors _ pn _ dn.
by move=> [|[|[|]]] ?; apply/orP; [lia|left; apply/eqP; lia|right; apply/eqP; lia|lia].
Qed.

Lemma qres_Z (a p : nat) : (0 < p)%nat ->
  qres a p <-> exists x, (Z.of_nat p | x * x - Z.of_nat a).
Proof.
move=> p0; split.
  move=> /hasP[x _] /modn_Z H; exists (Z.of_nat x).
  by have -> : Z.of_nat x * Z.of_nat x = Z.of_nat (x * x) by lia.
move=> [x Hx]; apply/hasP; exists (Z.to_nat (x mod Z.of_nat p)).
  rewrite mem_iota; have := Z.mod_pos_bound x (Z.of_nat p); lia.
apply/modn_Z.
have B := Z.mod_pos_bound x (Z.of_nat p) ltac:(lia).
have -> : Z.of_nat (Z.to_nat (x mod Z.of_nat p) * Z.to_nat (x mod Z.of_nat p)) =
   (x mod Z.of_nat p) * (x mod Z.of_nat p) by lia.
move: Hx => [k Hk].
have E := Z.div_mod x (Z.of_nat p) ltac:(lia).
set r := x mod _ in E *. set q := x / _ in E. clearbody r q.
exists (k - 2 * q * r - q * q * Z.of_nat p).
have -> : Z.of_nat a = x * x - k * Z.of_nat p by lia.
rewrite E; ring.
Qed.

(** Computable Legendre symbol *)
Definition Lsym (a p : Z) : Z :=
  if a mod p =? 0 then 0
  else if qres (Z.to_nat (a mod p)) (Z.to_nat p) then 1 else -1.

Definition oprime p := Znumtheory.prime p /\ Z.odd p = true.

Lemma oprime_nat p : oprime p ->
  [/\ prime.prime (Z.to_nat p), odd (Z.to_nat p), 2 < p & Z.of_nat (Z.to_nat p) = p].
Proof.
move=> [pp op]; have p2 := prime_ge_2 _ pp.
have E : Z.of_nat (Z.to_nat p) = p by lia.
split=> //; first by apply: prime_Z; rewrite E.
  have := Z.odd_spec p; rewrite op => [[H _]]; have [k Hk] := H erefl.
  apply/idP; have -> : Z.to_nat p = (Z.to_nat k).*2.+1 by lia.
  by rewrite /= odd_double.
have : p <> 2 by move=> E2; move: op; rewrite E2.
lia.
Qed.

Lemma mod_div_Z a p : p <> 0 -> (p | a - a mod p).
Proof. move=> p0; exists (a / p); have := Z.div_mod a p p0; lia. Qed.

Lemma Lsym_spec a p : oprime p -> legendre_symbol a p (Lsym a p).
Proof.
move=> op; have [pp o p2 E] := oprime_nat op.
have B := Z.mod_pos_bound a p ltac:(lia).
have Q : qres (Z.to_nat (a mod p)) (Z.to_nat p) <-> exists x, (p | x * x - a).
  rewrite qres_Z; last by lia.
  rewrite E; have -> : Z.of_nat (Z.to_nat (a mod p)) = a mod p by lia.
  have D := mod_div_Z a (p := p) ltac:(lia).
  split=> -[x Hx]; exists x.
    have -> : x * x - a = (x * x - a mod p) - (a - a mod p) by ring.
    exact: Z.divide_sub_r.
  have -> : x * x - a mod p = (x * x - a) + (a - a mod p) by ring.
  exact: Z.divide_add_r.
rewrite /Lsym; split; [|split].
- by move=> /Z.mod_divide ->; last by lia.
- move=> nd ex; case: Z.eqb_spec => [/Z.mod_divide|_]; first by move=> H; case: nd; apply: H; lia.
  by have /Q -> := ex.
- move=> nd ex; case: Z.eqb_spec => [/Z.mod_divide|_]; first by move=> H; case: nd; apply: H; lia.
  by case: ifP => // /Q.
Qed.

Lemma legendre_symbol_unique a p s : oprime p -> legendre_symbol a p s -> s = Lsym a p.
Proof.
move=> op [H1 [H2 H3]]; have [K1 [K2 K3]] := Lsym_spec a op.
have [_ _ p2 _] := oprime_nat op.
have [D|D] := Zdivide_dec p a; first by rewrite H1 // K1.
have := Lsym_spec a op.
rewrite /Lsym in K1 K2 K3 *; case: (Z.eqb_spec (a mod p) 0) K1 K2 K3 => [E|_] K1 K2 K3.
  by case: D; apply/Z.mod_divide; lia.
case: ifP K2 K3 => Q K2 K3 _.
  apply: H2 => //; have [pp o _ E] := oprime_nat op.
  move: Q => /qres_Z [|x]; first by lia.
  rewrite E => Hx; exists x.
  have B := Z.mod_pos_bound a p ltac:(lia).
  have := Z.divide_sub_r _ _ _ Hx (@mod_div_Z a p ltac:(lia)).
  have -> //: x * x - Z.of_nat (Z.to_nat (a mod p)) - (a - a mod p) = x * x - a by lia.
apply: (H3 D) => ex; have F := K2 D ex; lia.
Qed.

Lemma Lsym_mod a b p : (p | a - b) -> p <> 0 -> Lsym a p = Lsym b p.
Proof.
move=> [k Hk] p0; rewrite /Lsym.
have Ea : a = b + k * p by lia.
have -> : a mod p = b mod p by rewrite Ea Z.mod_add.
by [].
Qed.

Lemma Lsym_mul a b p : oprime p -> Lsym (a * b) p = Lsym a p * Lsym b p.
Proof.
move=> op; have [pp o p2 E] := oprime_nat op.
have Ba := Z.mod_pos_bound a p ltac:(lia).
have Bb := Z.mod_pos_bound b p ltac:(lia).
rewrite /Lsym.
case: (Z.eqb_spec (a mod p) 0) => [Ea|Na].
  by rewrite Zmult_mod Ea Z.mul_0_l Zmod_0_l.
case: (Z.eqb_spec (b mod p) 0) => [Eb|Nb].
  by rewrite Zmult_mod Eb Z.mul_0_r Zmod_0_l Z.mul_0_r.
have nda : ~~ (Z.to_nat p %| Z.to_nat (a mod p))%nat.
  apply/negP=> /dvdn_Z; rewrite E => /Z.divide_pos_le; lia.
have ndb : ~~ (Z.to_nat p %| Z.to_nat (b mod p))%nat.
  apply/negP=> /dvdn_Z; rewrite E => /Z.divide_pos_le; lia.
have Hm : (Z.to_nat ((a * b) mod p) = (Z.to_nat (a mod p) * Z.to_nat (b mod p)) %% Z.to_nat p)%nat.
  have Bab := Z.mod_pos_bound (a * b) p ltac:(lia).
  rewrite -[LHS](@modn_small _ (Z.to_nat p)); last by lia.
  apply/eqP/modn_Z; rewrite E.
  have -> : Z.of_nat (Z.to_nat ((a * b) mod p)) = (a * b) mod p by lia.
  have -> : Z.of_nat (Z.to_nat (a mod p) * Z.to_nat (b mod p)) = (a mod p) * (b mod p) by lia.
  rewrite Zmult_mod; set u := (a mod p) * (b mod p).
  have -> : u mod p - u = - (u - u mod p) by ring.
  by apply/Z.divide_opp_r; apply: mod_div_Z; lia.
case: (Z.eqb_spec ((a * b) mod p) 0) => [Eab|Nab].
  move/Z.mod_divide: Eab => /(_ ltac:(lia)) /prime_mult -/(_ (proj1 op)) [] /Z.mod_divide; lia.
rewrite Hm qres_mod qres_mul //.
by case: qres; case: qres.
Qed.

Lemma half_Z n : Z.of_nat n./2 = Z.of_nat n / 2.
Proof.
have E := odd_double_half n; rewrite -addnn in E.
have H : Z.of_nat n = 2 * Z.of_nat n./2 + (if odd n then 1 else 0).
  by rewrite -[in LHS]E; case: (odd n); lia.
by apply: (Z.div_unique _ _ _ (if odd n then 1 else 0)); case: (odd n) H; lia.
Qed.
Lemma odd_Z n : odd n = Z.odd (Z.of_nat n).
Proof.
have E := odd_double_half n; rewrite -addnn in E.
have -> : Z.of_nat n = (if odd n then 1 else 0) + 2 * Z.of_nat n./2.
  by rewrite -[in LHS]E; case: (odd n); lia.
by rewrite Z.odd_add_mul_2; case: (odd n).
Qed.

Lemma odd_mod2 h : Z.odd h = (h mod 2 =? 1).
Proof. by rewrite Zmod_odd; case: Z.odd. Qed.

Lemma Lsym_neg1 p : oprime p -> Lsym (-1) p = if p mod 4 =? 1 then 1 else -1.
Proof.
move=> op; have [pp o p2 E] := oprime_nat op.
have -> : Lsym (-1) p = Lsym (p - 1) p.
  by apply: Lsym_mod; last lia; exists (-1); ring.
rewrite /Lsym Z.mod_small; last by lia.
have -> : p - 1 =? 0 = false by lia.
have -> : Z.to_nat (p - 1) = (Z.to_nat p).-1 by lia.
rewrite qres_neg1 // odd_Z half_Z E.
have : Z.odd (p / 2) = negb (p mod 4 =? 1).
  have O4 := Z.div_mod p 4 ltac:(lia); have B4 := Z.mod_pos_bound p 4 ltac:(lia).
  have [h Hh] : exists h, p = 2 * h + 1 by apply/Z.odd_spec; apply: (proj2 op).
  have -> : p / 2 = h by symmetry; apply: (Z.div_unique _ _ _ 1); lia.
  rewrite odd_mod2.
  case: (Z.eqb_spec (p mod 4) 1) => H; case: (Z.eqb_spec (h mod 2) 1) => // K; 
  have := Z.div_mod h 2 ltac:(lia); have := Z.mod_pos_bound h 2 ltac:(lia); lia.
by move=> ->; case: (_ =? _).
Qed.

Lemma Lsym_two p : oprime p ->
  Lsym 2 p = if (p mod 8 =? 1) || (p mod 8 =? 7) then 1 else -1.
Proof.
move=> op; have [pp o p2 E] := oprime_nat op.
rewrite /Lsym Z.mod_small; last by lia.
have -> : Z.to_nat 2 = 2%nat by []; rewrite qres_two // odd_Z /=.
have [h Hh] : exists h, p = 2 * h + 1 by apply/Z.odd_spec; apply: (proj2 op).
set n := (_ - _)%nat.
have Hn : Z.of_nat n = h - h / 2.
  have H1 := half_Z (Z.to_nat p); have H2 := half_Z (Z.to_nat p)./2.
  rewrite E in H1; have E1 : p / 2 = h by symmetry; apply: (Z.div_unique _ _ _ 1); lia.
  rewrite E1 in H1; rewrite H1 in H2.
  have D2 := Z.div_mod h 2 ltac:(lia); have M2 := Z.mod_pos_bound h 2 ltac:(lia).
  rewrite /n; lia.
rewrite Hn odd_mod2.
have O8 := Z.div_mod p 8 ltac:(lia); have B8 := Z.mod_pos_bound p 8 ltac:(lia).
have D2 := Z.div_mod h 2 ltac:(lia); have M2 := Z.mod_pos_bound h 2 ltac:(lia).
have D3 := Z.div_mod (h - h / 2) 2 ltac:(lia).
have M3 := Z.mod_pos_bound (h - h / 2) 2 ltac:(lia).
case: (Z.eqb_spec (p mod 8) 1) => H1; case: (Z.eqb_spec (p mod 8) 7) => H7 //=;
  case: (Z.eqb_spec ((h - h / 2) mod 2) 1) => H //=; lia.
Qed.

Lemma Lsym_rec p q : oprime p -> oprime q -> p <> q ->
  Lsym q p = Lsym p q * (if (p mod 4 =? 3) && (q mod 4 =? 3) then -1 else 1).
Proof.
move=> op oq npq; have [pp o p2 E] := oprime_nat op; have [pq o' q2 E'] := oprime_nat oq.
have R := @reciprocity (Z.to_nat p) (Z.to_nat q) pp o pq o' ltac:(apply/eqP; lia).
have Q a r : oprime r -> 0 <= a -> qres (Z.to_nat (a mod r)) (Z.to_nat r) = qres (Z.to_nat a) (Z.to_nat r).
  move=> /oprime_nat[_ _ r2 Er] a0; rewrite -[RHS]qres_mod; congr qres.
  have B := Z.mod_pos_bound a r ltac:(lia).
  rewrite -[LHS](@modn_small _ (Z.to_nat r)); last by lia.
  apply/eqP/modn_Z; rewrite Er.
  have -> : Z.of_nat (Z.to_nat (a mod r)) - Z.of_nat (Z.to_nat a) = -(a - a mod r) by lia.
  by apply/Z.divide_opp_r/mod_div_Z; lia.
rewrite /Lsym !Q //; try lia.
case: (Z.eqb_spec (q mod p) 0) => [/Z.mod_divide|_].
  move=> /(_ ltac:(lia)) /(prime_div_prime _ _ (proj1 op) (proj1 oq)); lia.
case: (Z.eqb_spec (p mod q) 0) => [/Z.mod_divide|_].
  move=> /(_ ltac:(lia)) /(prime_div_prime _ _ (proj1 oq) (proj1 op)); lia.
have H r : oprime r -> odd (Z.to_nat r)./2 = (r mod 4 =? 3).
  move=> or; have [_ _ r2 Er] := oprime_nat or.
  have [h Hh] : exists h, r = 2 * h + 1 by apply/Z.odd_spec; apply: (proj2 or).
  rewrite odd_Z half_Z Er.
  have -> : r / 2 = h by symmetry; apply: (Z.div_unique _ _ _ 1); lia.
  rewrite odd_mod2.
  have O4 := Z.div_mod r 4 ltac:(lia); have B4 := Z.mod_pos_bound r 4 ltac:(lia).
  case: (Z.eqb_spec (r mod 4) 3) => H; case: (Z.eqb_spec (h mod 2) 1) => // K; 
  have := Z.div_mod h 2 ltac:(lia); have := Z.mod_pos_bound h 2 ltac:(lia); lia.
move: R; rewrite (H p op) (H q oq).
by case: qres; case: qres; case: (_ && _).
Qed.
