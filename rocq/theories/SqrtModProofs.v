(** Square roots modulo prime powers and composite moduli (MArithModel.v). *)
From Coq Require Import ZArith Lia List Bool Znumtheory Zpow_facts.
From Verif Require Import Base ArithModel ArithProofs RatModel MArithModel MArithProofs
  LegendreSpec LegendreMath JacobiMath LegendreProofs KroneckerProofs.
Import ListNotations.
Open Scope Z_scope.

(** [x] is a square root of [a] modulo [m]. *)
Definition sqroot (x a m : Z) : Prop := (m | x * x - a).

Lemma mod_divide' a b : b <> 0 -> (a mod b =? 0) = true <-> (b | a).
Proof. intros. rewrite Z.eqb_eq. apply Z.mod_divide; auto. Qed.

(** ** powers of 2 *)
Lemma sqrt2p_ok a n : forall k x, 3 <= k -> Z.odd x = true -> (2 ^ k | x * x - a) ->
  (2 ^ (k + Z.of_nat n) | sqrt2p_loop n a x (2 ^ (k - 1)) (2 ^ k) (2 ^ (k + 1)) *
                         sqrt2p_loop n a x (2 ^ (k - 1)) (2 ^ k) (2 ^ (k + 1)) - a).
Proof.
  induction n as [|n IH]; intros k x Hk Ox Hx.
  - cbn [sqrt2p_loop]. rewrite Z.add_0_r. exact Hx.
  - cbn [sqrt2p_loop]. rewrite Nat2Z.inj_succ.
    replace (k + Z.succ (Z.of_nat n)) with ((k + 1) + Z.of_nat n) by lia.
    replace (2 * 2 ^ (k + 1)) with (2 ^ (k + 1 + 1))
      by (rewrite (Z.pow_add_r 2 (k + 1) 1) by lia; ring).
    replace (2 ^ k) with (2 ^ (k + 1 - 1)) at 2 4 by (f_equal; lia).
    replace (2 ^ k) with (2 ^ (k + 1 - 1)) by (f_equal; lia).
    set (x' := if (x * x - a) mod 2 ^ (k + 1) =? 0 then x else x + 2 ^ (k - 1)).
    assert (P1 : 0 < 2 ^ (k + 1)) by (apply Z.pow_pos_nonneg; lia).
    assert (X : Z.odd x' = true /\ (2 ^ (k + 1) | x' * x' - a)).
    { unfold x'. destruct (Z.eqb_spec ((x * x - a) mod 2 ^ (k + 1)) 0) as [E|E].
      - split; [auto|]. apply Z.mod_divide; lia.
      - set (u := 2 ^ (k - 3)).
        assert (U : 0 < u) by (apply Z.pow_pos_nonneg; lia).
        assert (E1 : 2 ^ (k - 1) = 4 * u).
        { unfold u. replace (k - 1) with (2 + (k - 3)) by lia. rewrite Z.pow_add_r by lia. ring. }
        assert (E2 : 2 ^ k = 8 * u).
        { unfold u. replace k with (3 + (k - 3)) at 1 by lia. rewrite Z.pow_add_r by lia. ring. }
        assert (E3 : 2 ^ (k + 1) = 16 * u).
        { rewrite Z.pow_add_r by lia. rewrite E2. ring. }
        rewrite E1, E3 in *. rewrite E2 in Hx. clear E1 E2 E3.
        split.
        { rewrite Z.odd_add, Ox. replace (4 * u) with (2 * (2 * u)) by ring.
          rewrite Z.odd_mul. reflexivity. }
        destruct Hx as [c Hc]. apply Z.odd_spec in Ox as [y Hy].
        destruct (Z.Even_or_Odd c) as [[d Hd]|[d Hd]].
        { exfalso. apply E. apply Z.mod_divide; [lia|]. exists d. rewrite Hc, Hd. ring. }
        exists (d + y + 1 + u).
        replace ((x + 4 * u) * (x + 4 * u) - a) with (x * x - a + 8 * u * x + 16 * u * u) by ring.
        rewrite Hc, Hd, Hy. ring. }
    destruct X as [O' X']. exact (IH (k + 1) x' ltac:(lia) O' X').
Qed.

Lemma posmod8 a : posmod_zl a 8 = a mod 8. Proof. reflexivity. Qed.

Lemma odd_sq_8 x : Z.odd x = true -> (x * x) mod 8 = 1.
Proof.
  intros H. rewrite Zmult_mod.
  destruct (odd_mod8 x H) as [-> |[-> |[-> | ->]]]; reflexivity.
Qed.

Lemma sqrt_mod_2_power_ok a e :
  match sqrt_mod_2_power a e with
  | Some x => sqroot x a (2 ^ Z.of_nat e)
  | None => Z.odd a = true -> forall x, ~ sqroot x a (2 ^ Z.of_nat e)
  end.
Proof.
  unfold sqrt_mod_2_power, sqroot. rewrite posmod8.
  assert (B : 0 <= a mod 8 < 8) by (apply Z.mod_pos_bound; lia).
  assert (DM := Z.div_mod a 8 ltac:(lia)).
  set (r := a mod 8) in *. set (q := a / 8) in *.
  destruct (Nat.eqb_spec e 0) as [->|E0]; [apply Z.divide_1_l|].
  assert (Odd8 : Z.odd a = Z.odd r) by (rewrite DM, Z.odd_add, Z.odd_mul; cbn [Z.odd andb]; destruct (Z.odd r); reflexivity).
  assert (DIV : forall x j, (j <= e)%nat -> (2 ^ Z.of_nat e | x * x - a) -> (2 ^ Z.of_nat j | x * x - a)).
  { intros x j Hj D. apply Z.divide_trans with (2 ^ Z.of_nat e); auto.
    exists (2 ^ (Z.of_nat e - Z.of_nat j)). rewrite <- Z.pow_add_r by lia. f_equal; lia. }
  rewrite Z.rem_mod_nonneg by lia. destruct (Z.eqb_spec (r mod 2) 0) as [R2|R2].
  { intros O. exfalso. rewrite Odd8, odd_mod2, R2 in O. discriminate. }
  destruct (Nat.eqb_spec e 1) as [->|E1].
  { change (2 ^ Z.of_nat 1) with 2.
    assert (O : Z.odd a = true).
    { rewrite Odd8, odd_mod2. pose proof (Z.mod_pos_bound r 2). apply Z.eqb_eq. lia. }
    apply Z.odd_spec in O as [k ->]. exists (- k). ring. }
  assert (SQ : forall x, (2 ^ Z.of_nat e | x * x - a) -> Z.odd a = true -> (x * x) mod 8 = 1).
  { intros x D O. apply odd_sq_8. specialize (DIV x 1%nat ltac:(lia) D) as [c Hc].
    change (2 ^ Z.of_nat 1) with 2 in Hc. apply Z.odd_spec in O as [k Hk].
    destruct (Z.odd x) eqn:Ox; auto. exfalso.
    assert (Ev : Z.even x = true) by (rewrite <- Z.negb_odd, Ox; reflexivity).
    apply Z.even_spec in Ev as [y ->]. lia. }
  assert (M4 : r mod 4 = 1 -> (4 | 1 * 1 - a)).
  { intros M. exists (- 2 * q - r / 4). pose proof (Z.div_mod r 4). lia. }
  destruct (Nat.eqb_spec e 2) as [->|E2].
  { rewrite Z.rem_mod_nonneg by lia. destruct (Z.eqb_spec (r mod 4) 1) as [R4|R4].
    - change (2 ^ Z.of_nat 2) with 4. auto.
    - intros O x D. specialize (SQ x D O). change (2 ^ Z.of_nat 2) with 4 in D. destruct D as [c Hc].
      pose proof (Z.div_mod (x * x) 8 ltac:(lia)) as DX. rewrite SQ in DX.
      pose proof (Z.div_mod r 4 ltac:(lia)). pose proof (Z.mod_pos_bound r 4 ltac:(lia)). lia. }
  destruct (Z.eqb_spec r 1) as [R1|R1]; cbn [negb].
  2:{ intros O x D. specialize (SQ x D O). specialize (DIV x 3%nat ltac:(lia) D) as [c Hc].
      change (2 ^ Z.of_nat 3) with 8 in Hc.
      pose proof (Z.div_mod (x * x) 8 ltac:(lia)) as DX. rewrite SQ in DX. lia. }
  assert (M8 : (8 | 1 * 1 - a)) by (exists (- q); lia).
  destruct (Nat.eqb_spec e 3) as [->|E3].
  { change (2 ^ Z.of_nat 3) with 8. exact M8. }
  pose proof (sqrt2p_ok a (e - 3) 3 1 ltac:(lia) eq_refl M8) as H.
  change (2 ^ (3 - 1)) with 4 in H. change (2 ^ (3 + 1)) with 16 in H. change (2 ^ 3) with 8 in H.
  replace (3 + Z.of_nat (e - 3)) with (Z.of_nat e) in H by lia. exact H.
Qed.

(** ** odd primes *)
Definition sqrrootmod_spec (f : Z -> Z -> Z) : Prop :=
  forall a p, prime p -> p <> 2 -> 0 <= a < p -> (exists x, sqroot x a p) ->
    0 <= f a p < p /\ sqroot (f a p) a p.

Lemma legendre_prime a p : prime p -> p <> 2 -> exists s, legendre_z a p = Ok s /\ legendre_symbol a p s.
Proof.
  intros Hp N. destruct (prime_odd p Hp N) as [_ O]. pose proof (prime_ge_2 p Hp).
  destruct (legendre_z_ok a p) as (s & -> & J); [lia|auto|].
  exists s. split; [reflexivity|]. specialize (J [p]).
  assert (F : factorisation p [p]).
  { split; [constructor; [auto|constructor]|]. unfold prodl. cbn [fold_right]. lia. }
  specialize (J F). inversion J as [|? ? s0 t H1 H2]; subst. inversion H2; subst.
  rewrite Z.mul_1_r. apply H1; auto.
Qed.

Lemma sqroot_mod x a b m : (m | a - b) -> sqroot x a m -> sqroot x b m.
Proof. intros [k Hk] [c Hc]. exists (c + k). lia. Qed.
Lemma sqroot_dvd x a m n : (n | m) -> sqroot x a m -> sqroot x a n.
Proof. unfold sqroot. apply Z.divide_trans. Qed.
Lemma divide_sub_mod a m : m <> 0 -> (m | a - a mod m).
Proof. intros. exists (a / m). pose proof (Z.div_mod a m). lia. Qed.
Lemma sqroot_residue x y a m : (m | x - y) -> sqroot y a m -> sqroot x a m.
Proof.
  intros [k Hk] [c Hc]. exists (k * (x + y) + c).
  replace (x * x - a) with ((x - y) * (x + y) + (y * y - a)) by ring. rewrite Hk, Hc. ring.
Qed.

Lemma sqroot_dec a p : 0 < p -> (exists x, sqroot x a p) \/ ~ (exists x, sqroot x a p).
Proof.
  intros Hp.
  destruct (existsb (fun i => (Z.of_nat i * Z.of_nat i - a) mod p =? 0) (seq 0 (Z.to_nat p))) eqn:E.
  - left. apply existsb_exists in E as (i & _ & E). exists (Z.of_nat i).
    apply mod_divide' in E; [exact E|lia].
  - right. intros [x Hx]. assert (H : existsb (fun i => (Z.of_nat i * Z.of_nat i - a) mod p =? 0) (seq 0 (Z.to_nat p)) = true); [|congruence].
    apply existsb_exists. exists (Z.to_nat (x mod p)). pose proof (Z.mod_pos_bound x p Hp).
    split; [apply in_seq; lia|]. rewrite Z2Nat.id by lia. apply mod_divide'; [lia|].
    apply (sqroot_residue _ x); auto. destruct (divide_sub_mod x p ltac:(lia)) as [k Hk].
    exists (- k). lia.
Qed.

Section S.
Variable xgcd : Z -> Z -> Z * Z * Z.
Hypothesis X : xgcd_spec xgcd.
Variable sqrrootmod : Z -> Z -> Z.
Hypothesis SR : sqrrootmod_spec sqrrootmod.

Lemma sqrt_mod_p_ok a p : prime p -> p <> 2 -> 0 <= a < p -> (exists x, sqroot x a p) ->
  sqroot (sqrt_mod_p sqrrootmod a p) a p /\ 0 <= 2 * sqrt_mod_p sqrrootmod a p <= p.
Proof.
  intros Hp N Ha E. destruct (SR a p Hp N Ha E) as [B S]. unfold sqrt_mod_p.
  set (x := sqrrootmod a p) in *. destruct (Z.ltb_spec (p - x) x); split; auto; try lia.
  destruct S as [c Hc]. exists (c + p - 2 * x).
  replace ((p - x) * (p - x) - a) with (x * x - a + p * (p - 2 * x)) by ring. rewrite Hc. ring.
Qed.

Lemma hensel_ok a p s n : 1 < p -> forall k x, 1 <= k -> sqroot x a (p ^ k) -> (p | s * (2 * x) - 1) ->
  sqroot (hensel_loop n a p s x (p ^ k)) a (p ^ (k + Z.of_nat n)).
Proof.
  intros Hp. induction n as [|n IH]; intros k x Hk Hx Hs.
  - cbn [hensel_loop]. rewrite Z.add_0_r. exact Hx.
  - cbn [hensel_loop]. rewrite Nat2Z.inj_succ.
    replace (k + Z.succ (Z.of_nat n)) with ((k + 1) + Z.of_nat n) by lia.
    replace (p ^ k * p) with (p ^ (k + 1)) by (rewrite Z.pow_add_r, Z.pow_1_r by lia; ring).
    set (q := p ^ (k + 1)). assert (Q : 0 < q) by (apply Z.pow_pos_nonneg; lia).
    set (x' := (x - (s * (x * x - a)) mod q) mod q).
    assert (D : (q | x' - (x - s * (x * x - a)))).
    { unfold x'. set (y := s * (x * x - a)).
      pose proof (divide_sub_mod (x - y mod q) q ltac:(lia)) as [u Hu].
      pose proof (divide_sub_mod y q ltac:(lia)) as [v Hv]. exists (v - u). lia. }
    assert (QP : (p | q)).
    { exists (p ^ k). unfold q. rewrite Z.pow_add_r, Z.pow_1_r by lia. reflexivity. }
    assert (PK : (p | p ^ k)).
    { exists (p ^ (k - 1)). replace k with (k - 1 + 1) at 1 by lia.
      rewrite Z.pow_add_r, Z.pow_1_r by lia. reflexivity. }
    destruct Hx as [c Hc]. destruct Hs as [t Ht].
    apply IH; [lia| |].
    + apply (sqroot_residue _ _ _ _ D). destruct PK as [w Hw].
      assert (Eq : q = p ^ k * p) by (unfold q; rewrite Z.pow_add_r, Z.pow_1_r by lia; reflexivity).
      exists (- (c * t) + s * s * c * c * w).
      replace ((x - s * (x * x - a)) * (x - s * (x * x - a)) - a)
        with ((x * x - a) * - (s * (2 * x) - 1) + s * s * (x * x - a) * (x * x - a)) by ring.
      rewrite Ht, Hc, Eq.
      replace (s * s * (c * p ^ k) * (c * p ^ k)) with (s * s * c * c * p ^ k * p ^ k) by ring.
      rewrite Hw at 3. ring.
    + destruct D as [d Hd]. destruct QP as [e He]. destruct PK as [w Hw].
      exists (t + 2 * s * (d * e - s * c * w)).
      assert (x' = x + (d * e - s * c * w) * p).
      { rewrite He in Hd. rewrite Hc, Hw in Hd. lia. }
      rewrite H. replace (s * (2 * (x + (d * e - s * c * w) * p)) - 1)
        with (s * (2 * x) - 1 + 2 * s * (d * e - s * c * w) * p) by ring. rewrite Ht. ring.
Qed.

Lemma sqrt_mod_p_power_ok a p e : prime p ->
  exists r, sqrt_mod_p_power xgcd sqrrootmod a p e = Ok r /\
  match r with
  | Some x => sqroot x a (p ^ Z.of_nat e)
  | None => ~ (p | a) -> forall x, ~ sqroot x a (p ^ Z.of_nat e)
  end.
Proof.
  intros Hp. pose proof (prime_ge_2 p Hp) as P2. unfold sqrt_mod_p_power.
  destruct (Z.eqb_spec p 2) as [->|N].
  { eexists. split; [reflexivity|]. pose proof (sqrt_mod_2_power_ok a e) as H.
    destruct (sqrt_mod_2_power a e); auto. intros ND. apply H. now apply odd_not_div2. }
  destruct (Nat.eqb_spec e 0) as [->|E0].
  { eexists. split; [reflexivity|]. apply Z.divide_1_l. }
  rewrite zz_mod_ok by lia. rewrite bind_Ok.
  assert (D := divide_sub_mod a p ltac:(lia)).
  assert (PE : (p | p ^ Z.of_nat e)).
  { exists (p ^ (Z.of_nat e - 1)). replace (Z.of_nat e) with (Z.of_nat e - 1 + 1) at 1 by lia.
    rewrite Z.pow_add_r, Z.pow_1_r by lia. reflexivity. }
  destruct (Z.eqb_spec (a mod p) 0) as [A0|A0].
  { eexists. split; [reflexivity|]. intros ND. exfalso. apply ND. apply Z.mod_divide; [lia|auto]. }
  destruct (legendre_prime (a mod p) p Hp N) as (l & -> & L0 & L1 & L2). rewrite bind_Ok.
  assert (B := Z.mod_pos_bound a p ltac:(lia)).
  assert (ND : ~ (p | a mod p)).
  { intros Dv. apply Z.mod_divide in Dv; [|lia]. rewrite Z.mod_mod in Dv by lia. auto. }
  destruct (Z.eqb_spec l (-1)) as [EL|EL].
  { eexists. split; [reflexivity|]. intros _ x Hx.
    enough (l = 1) by lia. apply L1; auto. exists x.
    apply (sqroot_mod x a _ p D). apply (sqroot_dvd x a (p ^ Z.of_nat e)); auto. }
  destruct (Z.ltb_spec (a mod p) 0); [lia|].
  assert (EX : exists x, sqroot x (a mod p) p).
  { destruct (sqroot_dec (a mod p) p ltac:(lia)) as [|HH]; auto. exfalso. auto. }
  destruct (sqrt_mod_p_ok (a mod p) p Hp N B EX) as [S0 _].
  set (x0 := sqrt_mod_p sqrrootmod (a mod p) p) in *.
  assert (S1 : sqroot x0 a p).
  { apply (sqroot_mod x0 (a mod p) a p); auto. destruct D as [k Hk]. exists (- k). lia. }
  destruct (Nat.eqb_spec e 1) as [->|E1].
  { eexists. split; [reflexivity|]. cbn [Z.of_nat Pos.of_succ_nat]. rewrite Z.pow_1_r. exact S1. }
  eexists. split; [reflexivity|].
  assert (G : Z.gcd (2 * x0) p = 1).
  { apply Zgcd_1_rel_prime. apply rel_prime_sym, prime_rel_prime; auto.
    intros Dv. apply prime_mult in Dv as [Dv|[k Hk]]; auto.
    - apply Z.divide_pos_le in Dv; lia.
    - apply ND. destruct S0 as [c Hc]. exists (k * x0 - c).
      assert (x0 * x0 = k * p * x0) by (rewrite Hk at 1; ring). lia. }
  destruct (invmod_z_ok xgcd X (2 * x0) p) as [I _]. specialize (I G).
  set (s := invmod_z xgcd (2 * x0) p) in *.
  pose proof (hensel_ok a p s (e - 1) ltac:(lia) 1 x0 ltac:(lia)) as H'.
  rewrite Z.pow_1_r in H'. replace (1 + Z.of_nat (e - 1)) with (Z.of_nat e) in H' by lia.
  apply H'; auto. rewrite Z.mul_comm. exact I.
Qed.

(** ** composite moduli *)
Lemma sqroot_mul x a m n : Z.gcd m n = 1 -> sqroot x a m -> sqroot x a n -> sqroot x a (m * n).
Proof.
  unfold sqroot. intros G [k Hk] Hn. rewrite Hk in Hn |- *.
  assert (D : (n | k)).
  { apply (Gauss n m k); [rewrite Z.mul_comm; exact Hn|].
    apply rel_prime_sym, Zgcd_1_rel_prime, G. }
  destruct D as [c ->]. exists c. ring.
Qed.

Lemma sqrtm_loop_ok a m : m <> 0 -> forall ps first x mm,
  NoDup ps -> Forall prime ps -> ((exists t, ps = first :: t) /\ mm = 1 \/ ~ In first ps) ->
  (forall p, prime p -> (p | mm) -> ~ In p ps) ->
  0 < mm -> sqroot x a mm ->
  (exists rest, m = mm * rest /\ forall p, prime p -> (p | rest) -> In p ps) ->
  exists r, sqrtm_loop xgcd sqrrootmod ps first a m x mm = Ok r /\
  match r with
  | Some y => sqroot y a m
  | None => Z.gcd a m = 1 -> forall y, ~ sqroot y a m
  end.
Proof.
  intros Hm. induction ps as [|p ps IH]; intros first x mm ND PR HF HD Hmm Hx (rest & ER & HR).
  - cbn [sqrtm_loop]. eexists. split; [reflexivity|].
    assert (Z.abs rest = 1).
    { destruct (Z.eq_dec (Z.abs rest) 1); auto. exfalso.
      assert (rest <> 0) by (intros ->; lia).
      destruct (prime_divisor_ex (Z.abs rest)) as (p & Hp & D); [lia|].
      apply (HR p Hp). apply Z.divide_abs_r, D. }
    apply (sqroot_dvd x a mm); auto. assert (rest = 1 \/ rest = -1) as [-> | ->] by lia.
    + exists 1. lia.
    + exists (-1). lia.
  - cbn [sqrtm_loop]. inversion ND as [|? ? NI ND']; subst. inversion PR as [|? ? Hp PR']; subst.
    pose proof (prime_ge_2 p Hp) as P2.
    destruct (val_z_ok p (mm * rest)) as (e & -> & He & D1 & D2); [auto|lia|]. rewrite bind_Ok.
    assert (NP : ~ (p | mm)) by (intros D; apply (HD p Hp D); left; auto).
    destruct (Z.eqb_spec e 0) as [->|E0].
    + apply (IH first x mm); auto.
      * right. destruct HF as [[[t Et] _]|HF]; [injection Et as -> ->; auto|].
        intros I. apply HF. right; auto.
      * intros q Hq Dq I. apply (HD q Hq Dq). right; auto.
      * exists rest. split; auto. intros q Hq Dq. destruct (HR q Hq Dq) as [->|]; auto.
        exfalso. apply D2. rewrite Z.pow_1_r. apply Z.divide_mul_r, Dq.
    + destruct (sqrt_mod_p_power_ok a p (Z.to_nat e) Hp) as (r & -> & Hr). rewrite bind_Ok.
      rewrite Z2Nat.id in Hr by auto. destruct r as [xp|].
      2:{ eexists. split; [reflexivity|]. intros G y Hy. apply (Hr) with (x := y).
          - intros D. assert (D' : (p | Z.gcd a (mm * rest))).
            { apply Z.gcd_greatest; auto. apply Z.divide_trans with (p ^ e); auto.
              exists (p ^ (e - 1)). replace e with (e - 1 + 1) at 1 by lia.
              rewrite Z.pow_add_r, Z.pow_1_r by lia. reflexivity. }
            rewrite G in D'. apply Z.divide_1_r in D'. lia.
          - apply (sqroot_dvd y a (mm * rest)); auto. }
      set (q := p ^ e) in *. assert (Q : 0 < q) by (apply Z.pow_pos_nonneg; lia).
      assert (CO : Z.gcd mm q = 1).
      { apply Zgcd_1_rel_prime. apply rel_prime_Zpower_r; [lia|].
        apply rel_prime_sym, prime_rel_prime; auto. }
      assert (STEP : exists x', (if p =? first then Ok xp else
           '(_, x0) <- chrem xgcd x xp mm q;; Ok x0) = Ok x' /\ sqroot x' a (mm * q)).
      { destruct (Z.eqb_spec p first) as [->|NF].
        - exists xp. split; [reflexivity|]. destruct HF as [[_ ->]|HF]; [|exfalso; apply HF; left; auto].
          rewrite Z.mul_1_l. exact Hr.
        - destruct (chrem_ok xgcd X x xp mm q) as (ok & ans & -> & C1 & C2 & _); [lia|lia|].
          rewrite bind_Ok. exists ans. split; [reflexivity|].
          assert (OK : ok = true).
          { apply C1. apply Zgcd_1_rel_prime in CO. apply rel_prime_bezout in CO as [u v Huv].
            exists (x + (xp - x) * u * mm). split; [exists ((xp - x) * u); ring|].
            exists (- (xp - x) * v). assert (u * mm = 1 - v * q) by lia.
            replace (x + (xp - x) * u * mm - xp) with (x - xp + (xp - x) * (u * mm)) by ring.
            rewrite H. ring. }
          destruct (C2 OK) as [A1 A2]. apply sqroot_mul; auto.
          + apply (sqroot_residue _ x); auto.
          + apply (sqroot_residue _ xp); auto. }
      destruct STEP as (x' & -> & Hx'). rewrite bind_Ok.
      destruct (Gauss q mm rest D1) as [rest' ER'].
      { apply rel_prime_sym, Zgcd_1_rel_prime, CO. }
      apply IH; auto.
      * right. destruct HF as [[[t Et] _]|HF]; [injection Et as -> ->; auto|].
        intros I. apply HF. right; auto.
      * intros w Hw Dw I. apply prime_mult in Dw as [Dw|Dw]; auto.
        -- apply (HD w Hw Dw). right; auto.
        -- assert (w = p) as -> by (eapply prime_power_prime; eauto). auto.
      * nia.
      * exists rest'. split; [rewrite ER'; ring|]. intros w Hw Dw.
        destruct (HR w Hw) as [->|]; auto.
        { rewrite ER'. apply Z.divide_mul_l, Dw. }
        exfalso. apply D2. destruct Dw as [c ->]. rewrite ER'. exists (mm * c).
        rewrite Z.pow_add_r, Z.pow_1_r by lia. fold q. ring.
Qed.

Lemma sqrt_mod_m_ok a m ps : m <> 0 -> NoDup ps -> Forall prime ps ->
  (forall p, prime p -> (p | m) -> In p ps) ->
  exists r, sqrt_mod_m xgcd sqrrootmod a m ps = Ok r /\
  match r with
  | Some y => sqroot y a m
  | None => Z.gcd a m = 1 -> forall y, ~ sqroot y a m
  end.
Proof.
  intros Hm ND PR C. unfold sqrt_mod_m.
  destruct (Z.eqb_spec m 1) as [->|]; [eexists; split; [reflexivity|]; apply Z.divide_1_l|].
  destruct (Z.eqb_spec a 0) as [->|]; [eexists; split; [reflexivity|]; apply Z.divide_0_r|].
  destruct (Z.eqb_spec a 1) as [->|]; [eexists; split; [reflexivity|]; apply Z.divide_0_r|].
  apply sqrtm_loop_ok; auto.
  - destruct ps; [right; auto|]. left. split; [|reflexivity]. eexists. reflexivity.
  - intros p Hp D. apply Z.divide_1_r in D. pose proof (prime_ge_2 p Hp). lia.
  - lia.
  - apply Z.divide_1_l.
  - exists m. split; [lia|auto].
Qed.

Lemma modsqrt_loop_ok a : forall ps x m, NoDup ps -> Forall prime ps -> 0 < m ->
  (forall p, In p ps -> ~ (p | m)) -> sqroot x a m ->
  exists r, modsqrt_loop xgcd sqrrootmod ps a x m = Ok r /\
  match r with
  | Some y => sqroot y a (m * prodl ps)
  | None => forall y, ~ sqroot y a (prodl ps)
  end.
Proof.
  induction ps as [|p ps IH]; intros x m ND PR Hm CO Hx.
  - cbn [modsqrt_loop]. eexists. split; [reflexivity|]. cbn [prodl fold_right]. now rewrite Z.mul_1_r.
  - inversion ND as [|? ? NI ND']; subst. inversion PR as [|? ? Hp PR']; subst.
    pose proof (prime_ge_2 p Hp) as P2. cbn [modsqrt_loop]. rewrite prodl_cons.
    match goal with |- context [bind ?mm _] => assert (XP : exists r, mm = Ok r /\
         match r with Some xp => sqroot xp a p | None => forall y, ~ sqroot y a p end) end.
    { destruct (Z.eqb_spec p 2) as [->|N].
      { eexists. split; [reflexivity|]. destruct (Z.odd a) eqn:O.
        - apply Z.odd_spec in O as [k ->]. exists (- k). ring.
        - assert (Ev : Z.even a = true) by (rewrite <- Z.negb_odd, O; reflexivity).
          apply Z.even_spec in Ev as [k ->]. exists (- k). ring. }
      rewrite zz_mod_ok by lia. rewrite bind_Ok.
      assert (D := divide_sub_mod a p ltac:(lia)).
      destruct (Z.eqb_spec (a mod p) 0) as [A0|A0].
      { eexists. split; [reflexivity|]. rewrite A0 in D. destruct D as [k Hk]. exists (- k). lia. }
      destruct (legendre_prime (a mod p) p Hp N) as (l & -> & L0 & L1 & L2). rewrite bind_Ok.
      assert (B := Z.mod_pos_bound a p ltac:(lia)).
      assert (NDv : ~ (p | a mod p)).
      { intros Dv. apply Z.mod_divide in Dv; [|lia]. rewrite Z.mod_mod in Dv by lia. auto. }
      destruct (Z.eqb_spec l (-1)) as [EL|EL].
      { eexists. split; [reflexivity|]. intros y Hy.
        enough (l = 1) by lia. apply L1; auto. exists y. apply (sqroot_mod y a _ p D). auto. }
      destruct (Z.ltb_spec (a mod p) 0); [lia|].
      assert (EX : exists x, sqroot x (a mod p) p).
      { destruct (sqroot_dec (a mod p) p ltac:(lia)) as [|H']; auto. exfalso. auto. }
      destruct (sqrt_mod_p_ok (a mod p) p Hp N B EX) as [S0 _].
      eexists. split; [reflexivity|]. apply (sqroot_mod _ (a mod p) a p); auto.
      destruct D as [k Hk]. exists (- k). lia. }
    destruct XP as (r & -> & Hr). rewrite bind_Ok. destruct r as [xp|].
    2:{ eexists. split; [reflexivity|]. intros y Hy. apply (Hr y).
        apply (sqroot_dvd y a (p * prodl ps)); auto. apply Z.divide_factor_l. }
    assert (G : Z.gcd m p = 1).
    { apply Zgcd_1_rel_prime. apply rel_prime_sym, prime_rel_prime; auto. apply CO. left; auto. }
    destruct (X m p) as (u & v & -> & E). rewrite G in E.
    destruct (mod_z_ok (x * v * p + xp * u * m) (m * p)) as (c & -> & Dc & _); [nia|].
    rewrite bind_Ok.
    assert (Hc : sqroot c a (m * p)).
    { destruct Dc as [k Hk]. apply sqroot_mul; auto.
      - apply (sqroot_residue c x); auto. exists ((xp - x) * u - k * p).
        assert (v * p = 1 - m * u) by lia.
        replace (c - x) with (x * (v * p) + xp * u * m - k * (m * p) - x) by lia.
        rewrite H. ring.
      - apply (sqroot_residue c xp); auto. exists ((x - xp) * v - k * m).
        assert (u * m = 1 - p * v) by lia.
        replace (c - xp) with (x * v * p + xp * (u * m) - k * (m * p) - xp) by lia.
        rewrite H. ring. }
    destruct (IH c (m * p)) as (r & -> & Hr'); auto.
    + nia.
    + intros q I D. pose proof (proj1 (Forall_forall _ _) PR' q I) as Hq.
      apply prime_mult in D as [D|D]; auto.
      * apply (CO q); auto. right; auto.
      * apply prime_div_prime in D; auto. subst q. auto.
    + eexists. split; [reflexivity|]. destruct r as [y|].
      * now rewrite Z.mul_assoc.
      * intros y Hy. apply (Hr' y). apply (sqroot_dvd y a (p * prodl ps)); auto.
        apply Z.divide_factor_r.
Qed.

Lemma modsqrt_ok a ps : NoDup ps -> Forall prime ps ->
  exists r, modsqrt xgcd sqrrootmod a ps = Ok r /\
  match r with
  | Some y => sqroot y a (prodl ps)
  | None => forall y, ~ sqroot y a (prodl ps)
  end.
Proof.
  intros ND PR. unfold modsqrt.
  destruct (modsqrt_loop_ok a ps 0 1 ND PR) as (r & -> & Hr).
  - lia.
  - intros p I D. apply Z.divide_1_r in D. pose proof (prime_ge_2 p (proj1 (Forall_forall _ _) PR p I)). lia.
  - apply Z.divide_1_l.
  - eexists. split; [reflexivity|]. rewrite Z.mul_1_l in Hr. exact Hr.
Qed.
End S.
