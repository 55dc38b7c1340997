(** Final statements for the multiprecision arithmetic of marith.cc, the quadratic
    characters and divisor lists of arith.cc/marith.cc: C03 (bigint part), C08-C14,
    C16, C17, C51-C55. *)
From Coq Require Import ZArith Lia List Bool Znumtheory Sorted.
From Verif Require Import Base ArithModel ArithProofs GaussProofs RatModel MArithModel.
From Verif Require Import MArithProofs LegendreSpec JacobiMath LegendreProofs KroneckerProofs SqrtModProofs
  DivisorProofs MiscArithProofs.
Import ListNotations.
Open Scope Z_scope.

(** The two NTL functions used as black boxes; both contracts can be met. *)
Fixpoint egcd_example (f : nat) (a b : Z) : Z * Z * Z :=
  match f with
  | O => (Z.abs a, Z.sgn a, 0)
  | S f => if b =? 0 then (Z.abs a, Z.sgn a, 0)
           else match egcd_example f b (a mod b) with (g, x, y) => (g, y, x - (a / b) * y) end
  end.
Definition xgcd_example (a b : Z) : Z * Z * Z := egcd_example (S (Z.to_nat (Z.abs b))) a b.
Lemma xgcd_contract_met : xgcd_spec xgcd_example.
Proof.
  assert (K : forall f a b, (Z.to_nat (Z.abs b) < f)%nat ->
    exists x y, egcd_example f a b = (Z.gcd a b, x, y) /\ a * x + b * y = Z.gcd a b).
  { induction f as [|f IH]; intros a b Hf; [lia|]. cbn [egcd_example].
    destruct (Z.eqb_spec b 0) as [->|Nb].
    - exists (Z.sgn a), 0. rewrite Z.gcd_0_r. split; [reflexivity|]. rewrite Z.mul_0_l, Z.add_0_r. now rewrite Z.mul_comm, Z.sgn_abs || nia.
    - assert (M : Z.abs (a mod b) < Z.abs b).
      { destruct (Z.lt_trichotomy b 0) as [L|[L|L]]; [|lia|].
        - pose proof (Z.mod_neg_bound a b L). lia.
        - pose proof (Z.mod_pos_bound a b L). lia. }
      destruct (IH b (a mod b)) as (x & y & -> & E); [lia|].
      assert (G : Z.gcd b (a mod b) = Z.gcd a b).
      { rewrite (Z.gcd_comm a b). rewrite (Z.div_mod a b Nb) at 2.
        rewrite Z.add_comm, (Z.mul_comm b (a / b)). now rewrite Z.gcd_add_mult_diag_r. }
      rewrite G in *. exists y, (x - a / b * y). split; [reflexivity|].
      rewrite <- E. rewrite (Z.div_mod a b Nb) at 1. ring. }
  intros a b. apply K. lia.
Qed.
Definition sqrrootmod_example (a p : Z) : Z :=
  match find (fun i => (Z.of_nat i * Z.of_nat i - a) mod p =? 0) (seq 0 (Z.to_nat p)) with
  | Some i => Z.of_nat i | None => 0 end.
Lemma sqrrootmod_contract_met : sqrrootmod_spec sqrrootmod_example.
Proof.
  intros a p Hp _ Ha [x Hx]. pose proof (prime_ge_2 p Hp). unfold sqrrootmod_example.
  destruct (find _ _) as [i|] eqn:F.
  - apply find_some in F as [I E]. apply in_seq in I. split; [lia|]. apply mod_divide' in E; [exact E|lia].
  - exfalso. pose proof (Z.mod_pos_bound x p ltac:(lia)) as B.
    pose proof (find_none _ _ F (Z.to_nat (x mod p))) as N. cbv beta in N.
    rewrite Z2Nat.id in N by lia.
    assert (T : ((x mod p * (x mod p) - a) mod p =? 0) = true).
    { apply mod_divide'; [lia|]. unfold sqroot in Hx. destruct Hx as [k Hk].
      destruct (divide_sub_mod x p ltac:(lia)) as [l Hl]. set (r := x mod p) in *.
      assert (XR : x = r + l * p) by lia. clearbody r. subst x. exists (k - 2 * r * l - l * l * p). lia. }
    rewrite N in T; [discriminate|]. apply in_seq. lia.
Qed.

(** ** C03, bigint versions *)
Theorem C03_bigint_mod : forall a b, b <> 0 ->
  exists c, mod_z a b = Ok c /\ (b | a - c) /\ - Z.abs b < 2 * c <= Z.abs b.
Proof. exact mod_z_ok. Qed.
Theorem C03_bigint_posmod : forall a b, b <> 0 ->
  exists c, posmod_z a b = Ok c /\ (b | a - c) /\ 0 <= c < Z.abs b.
Proof.
  intros a b Hb. rewrite posmod_z_ok by auto. eexists. split; [reflexivity|].
  split; [|apply Z.mod_pos_bound; lia].
  pose proof (divide_sub_mod a (Z.abs b) ltac:(lia)) as D. apply (proj1 (Z.divide_abs_l b _)) in D. exact D.
Qed.
Theorem C03_bigint_rounded_division : forall a b, 0 < b ->
  exists q, rounded_division_z a b = Ok q /\ - b <= 2 * (a - q * b) < b.
Proof. exact rounded_division_z_ok. Qed.
Theorem C03_bigint_roundover : forall a b, 0 < b ->
  exists q, roundover a b = Ok q /\ - b < 2 * (a - q * b) <= b.
Proof. exact roundover_ok. Qed.
Example C03_bigint_ex : mod_z 9 6 = Ok 3 /\ mod_z (-9) 6 = Ok 3 /\ posmod_z (-9) (-6) = Ok 3 /\
  rounded_division_z 9 6 = Ok 2 /\ roundover 9 6 = Ok 1.
Proof. vm_compute. auto 10. Qed.
Print Assumptions C03_bigint_mod.
Print Assumptions C03_bigint_posmod.
Print Assumptions C03_bigint_rounded_division.
Print Assumptions C03_bigint_roundover.

(** ** C08: quadratic characters *)
Theorem C08_legendre_long : forall a b, Z.abs a <= max64 -> 0 < b <= max64 -> Z.odd b = true ->
  exists s, legendre_long a b = Ok s /\ jacobi_symbol a b s.
Proof. intros a b Ha. apply legendre_long_ok. exact Ha. Qed.
Theorem C08_legendre_bigint : forall a b, 0 < b -> Z.odd b = true ->
  exists s, legendre_z a b = Ok s /\ jacobi_symbol a b s.
Proof. exact legendre_z_ok. Qed.
Theorem C08_legendre_mixed : forall a b, 0 < b <= max64 -> Z.odd b = true ->
  exists s, legendre_zl a b = Ok s /\ jacobi_symbol a b s.
Proof. exact legendre_zl_ok. Qed.
(** For a prime modulus this is the Legendre symbol itself. *)
Theorem C08_legendre_prime : forall a p, prime p -> p <> 2 ->
  exists s, legendre_z a p = Ok s /\ legendre_symbol a p s.
Proof. exact legendre_prime. Qed.
Theorem C08_kronecker_long : forall x y, Z.abs x <= max64 -> Z.abs y <= max64 ->
  exists s, kronecker_long x y = Ok s /\ kronecker_symbol x y s.
Proof. intros x y Hx Hy. now apply kronecker_long_ok. Qed.
Theorem C08_kronecker_bigint : forall x y, exists s, kronecker_z x y = Ok s /\ kronecker_symbol x y s.
Proof. exact kronecker_z_ok. Qed.
(** With a negative odd modulus the answer is 1 whenever the arguments are coprime. *)
Theorem C08_legendre_negative_modulus_refuted : exists a b s,
  Z.odd b = true /\ legendre_long a b = Ok s /\ legendre_z a b = Ok s /\ ~ jacobi_symbol a (Z.abs b) s.
Proof.
  exists 2, (-3), 1. repeat (split; [vm_compute; reflexivity|]). intros J.
  specialize (J [3]). assert (F : factorisation (Z.abs (-3)) [3]).
  { split; [constructor; [exact prime_3|constructor]|reflexivity]. }
  specialize (J F). inversion J as [|p ps s t [_ L] SP E1 E2]; subst. inversion SP; subst.
  destruct (L ltac:(lia)) as (_ & _ & L2). enough (s = -1) by lia. apply L2.
  - intros [k Hk]. lia.
  - intros [x [k Hk]]. pose proof (Z.div_mod x 3 ltac:(lia)). pose proof (Z.mod_pos_bound x 3 ltac:(lia)).
    set (q := x / 3) in *. assert (x mod 3 = 0 \/ x mod 3 = 1 \/ x mod 3 = 2) as [E|[E|E]] by lia;
      rewrite E in H; rewrite H in Hk; ring_simplify in Hk; lia.
Qed.
Print Assumptions C08_legendre_negative_modulus_refuted.
Example C08_ex : legendre_long 10 21 = Ok (-1) /\ legendre_z 5 21 = Ok 1 /\ legendre_z 7 21 = Ok 0 /\
  kronecker_long (-7) (-20) = Ok 1 /\ kronecker_z (-5) 0 = Ok 0.
Proof. vm_compute. auto 10. Qed.
Print Assumptions C08_legendre_long.
Print Assumptions C08_legendre_bigint.
Print Assumptions C08_legendre_mixed.
Print Assumptions C08_legendre_prime.
Print Assumptions C08_kronecker_long.
Print Assumptions C08_kronecker_bigint.

(** ** C09 *)
Theorem C09_kronecker_mixed_partial : forall d n, 0 < n <= 2 ^ 62 -> Z.odd n = true ->
  exists v, kronecker_zl d n = Ok v /\ kronecker_symbol d n v.
Proof. exact kronecker_zl_odd. Qed.
Theorem C09_kronecker_mixed_refuted : exists d n, kronecker_zl d n <> kronecker_z d n.
Proof. exists 5, (-3). vm_compute. congruence. Qed.
Print Assumptions C09_kronecker_mixed_refuted.
Theorem C09_kronecker_mixed_even_refuted : exists d n, 0 < n /\ kronecker_zl d n <> kronecker_z d n.
Proof. exists 3, 2. split; [lia|]. vm_compute. congruence. Qed.
Print Assumptions C09_kronecker_mixed_even_refuted.
Example C09_ex : kronecker_zl 1000000000000000000000 7 = Ok (-1).
Proof. vm_compute. reflexivity. Qed.
Print Assumptions C09_kronecker_mixed_partial.

(** ** C10 *)
Theorem C10_isqrt : forall a, exists ok root, isqrt a = Ok (ok, root) /\
  (ok = true <-> exists s, a = s * s) /\ (ok = true -> 0 <= root /\ a = root * root).
Proof.
  intros a. destruct (isqrt_ok a) as (ok & root & E & H1 & H2). exists ok, root.
  split; [exact E|]. split; [|exact H1]. split; [|exact H2]. intros K. exists root. apply H1, K.
Qed.
Theorem C10_sqrtnr : forall n, 0 < n -> exists root, sqrtnr n = Ok (root * root =? n, root) /\
  0 < root /\ root * root <= n < (root + 1) * (root + 1).
Proof. exact sqrtnr_ok. Qed.
Example C10_ex : isqrt 152415787532388367501905199875019052100 = Ok (true, 12345678901234567890) /\
  isqrt 152415787532388367501905199875019052101 = Ok (false, 0).
Proof. vm_compute. auto. Qed.
Print Assumptions C10_isqrt.
Print Assumptions C10_sqrtnr.

(** ** C11 *)
Theorem C11_sqrt_mod_2_power : forall a e,
  match sqrt_mod_2_power a e with
  | Some x => (2 ^ Z.of_nat e | x * x - a)
  | None => Z.odd a = true -> forall x, ~ (2 ^ Z.of_nat e | x * x - a)
  end.
Proof. exact sqrt_mod_2_power_ok. Qed.
Theorem C11_sqrt_mod_p_power : forall xgcd sqrrootmod, xgcd_spec xgcd -> sqrrootmod_spec sqrrootmod ->
  forall a p e, prime p ->
  exists r, sqrt_mod_p_power xgcd sqrrootmod a p e = Ok r /\
  match r with
  | Some x => (p ^ Z.of_nat e | x * x - a)
  | None => ~ (p | a) -> forall x, ~ (p ^ Z.of_nat e | x * x - a)
  end.
Proof. intros xgcd srm X SR. exact (sqrt_mod_p_power_ok xgcd X srm SR). Qed.
Theorem C11_sqrt_mod_m : forall xgcd sqrrootmod, xgcd_spec xgcd -> sqrrootmod_spec sqrrootmod ->
  forall a m ps, m <> 0 -> NoDup ps -> Forall prime ps -> (forall p, prime p -> (p | m) -> In p ps) ->
  exists r, sqrt_mod_m xgcd sqrrootmod a m ps = Ok r /\
  match r with
  | Some y => (m | y * y - a)
  | None => Z.gcd a m = 1 -> forall y, ~ (m | y * y - a)
  end.
Proof. intros xgcd srm X SR. exact (sqrt_mod_m_ok xgcd X srm SR). Qed.
Theorem C11_modsqrt : forall xgcd sqrrootmod, xgcd_spec xgcd -> sqrrootmod_spec sqrrootmod ->
  forall a ps, NoDup ps -> Forall prime ps ->
  exists r, modsqrt xgcd sqrrootmod a ps = Ok r /\
  match r with
  | Some y => (prodl ps | y * y - a)
  | None => forall y, ~ (prodl ps | y * y - a)
  end.
Proof. intros xgcd srm X SR. exact (modsqrt_ok xgcd X srm SR). Qed.
(** Coprimality cannot be dropped: 4 is a square modulo 8 but failure is reported. *)
Theorem C11_sqrt_mod_noncoprime_refuted : exists a e x,
  sqrt_mod_2_power a e = None /\ (2 ^ Z.of_nat e | x * x - a).
Proof. exists 4, 3%nat, 2. split; [reflexivity|]. exists 0. reflexivity. Qed.
Print Assumptions C11_sqrt_mod_noncoprime_refuted.
Example C11_ex : sqrt_mod_2_power 17 6 = Some 9.
Proof. vm_compute. auto. Qed.
Example C11_ex2 : sqrt_mod_p_power xgcd_example sqrrootmod_example 2 7 3 = Ok (Some 108) /\
  sqrt_mod_p_power xgcd_example sqrrootmod_example 3 7 3 = Ok None /\
  sqrt_mod_m xgcd_example sqrrootmod_example 109 360 [2; 3; 5] = Ok None /\
  sqrt_mod_m xgcd_example sqrrootmod_example 121 360 [2; 3; 5] = Ok (Some 241).
Proof. vm_compute. auto. Qed.
Print Assumptions C11_sqrt_mod_2_power.
Print Assumptions C11_sqrt_mod_p_power.
Print Assumptions C11_sqrt_mod_m.
Print Assumptions C11_modsqrt.

(** ** C12 *)
Theorem C12_chrem : forall xgcd, xgcd_spec xgcd -> forall a1 a2 m1 m2, m1 <> 0 -> m2 <> 0 ->
  exists ok ans, chrem xgcd a1 a2 m1 m2 = Ok (ok, ans) /\
    ((exists x, (m1 | x - a1) /\ (m2 | x - a2)) <-> ok = true) /\
    (ok = true -> (m1 | ans - a1) /\ (m2 | ans - a2)) /\
    (ok = true -> 0 < m1 * m2 -> 0 <= ans < Z.lcm m1 m2).
Proof. exact chrem_ok. Qed.
Theorem C12_invmod_bigint : forall xgcd, xgcd_spec xgcd -> forall a p,
  (Z.gcd a p = 1 -> (p | a * invmod_z xgcd a p - 1)) /\ (Z.gcd a p <> 1 -> invmod_z xgcd a p = 0).
Proof. exact invmod_z_ok. Qed.
Example C12_ex : chrem xgcd_example 2 3 5 7 = Ok (true, 17) /\ chrem xgcd_example 1 2 4 6 = Ok (false, 0) /\
  chrem xgcd_example 1 3 4 6 = Ok (true, 9).
Proof. vm_compute. auto. Qed.
Print Assumptions C12_chrem.
Print Assumptions C12_invmod_bigint.

(** ** C13 *)
Theorem C13_val_long : forall f n, Z.abs f <= max64 -> Z.abs n <= max64 -> 2 <= Z.abs f -> n <> 0 ->
  exists e, val_long f n = Ok e /\ 0 <= e /\ (f ^ e | n) /\ ~ (f ^ (e + 1) | n).
Proof. intros f n Hf Hn. now apply val_long_ok. Qed.
Theorem C13_val_bigint : forall f n, n <> 0 -> 2 <= Z.abs f ->
  exists e, val_z f n = Ok e /\ 0 <= e /\ (f ^ e | n) /\ ~ (f ^ (e + 1) | n).
Proof. exact val_z_ok. Qed.
Theorem C13_divide_out : forall a d, a <> 0 -> 2 <= Z.abs d ->
  exists a' e, divide_out a d = Ok (a', e) /\ 0 <= e /\ a = a' * d ^ e /\ ~ (d | a').
Proof. exact divide_out_ok. Qed.
Theorem C13_divides : forall f n, exists b, div_z f n = Ok b /\ (b = true <-> (f | n)).
Proof. exact div_z_ok. Qed.
(** With d = 1 or -1 the loop of divide_out never ends. *)
Theorem C13_divide_out_unit_refuted : exists a d, a <> 0 /\ d <> 0 /\
  forall budget, while (dout_step d) budget (a, 0) = OutOfFuel.
Proof. exists 6, 1. split; [lia|]. split; [lia|]. now apply divide_out_unit. Qed.
Example C13_ex : val_long (-3) 54 = Ok 3 /\ divide_out (-54) 3 = Ok (-2, 3) /\ divide_out 54 (-3) = Ok (-2, 3).
Proof. vm_compute. auto. Qed.
Print Assumptions C13_val_long.
Print Assumptions C13_val_bigint.
Print Assumptions C13_divide_out.
Print Assumptions C13_divides.
Print Assumptions C13_divide_out_unit_refuted.

(** ** C14; [lists l P]: l has no duplicates and holds exactly the d with P d. *)
Theorem C14_posdivs_bigint : forall a ps, a <> 0 -> prime_base a ps ->
  exists l, posdivs_z a ps = Ok l /\ NoDup l /\ forall d, In d l <-> 0 < d /\ (d | a).
Proof. intros a ps Ha HB. exact (posdivs_z_ok a Ha ps HB). Qed.
Theorem C14_alldivs_bigint : forall a ps, a <> 0 -> prime_base a ps ->
  exists l, alldivs_z a ps = Ok l /\ NoDup l /\ forall d, In d l <-> (d | a).
Proof. intros a ps Ha HB. exact (alldivs_z_ok a Ha ps HB). Qed.
Theorem C14_sqdivs_bigint : forall a ps, a <> 0 -> prime_base a ps ->
  exists l, sqdivs_z a ps = Ok l /\ NoDup l /\ forall d, In d l <-> 0 < d /\ (d * d | a).
Proof. intros a ps Ha HB. exact (sqdivs_z_ok a Ha ps HB). Qed.
Theorem C14_sqfreedivs_bigint : forall a ps, a <> 0 -> prime_base a ps ->
  exists l, sqfreedivs_z a ps = Ok l /\ NoDup l /\
    forall d, In d l <-> 0 < d /\ square_free d /\ (forall p, prime p -> (p | d) -> In p ps).
Proof. intros a ps Ha HB. exact (sqfreedivs_z_ok a ps HB). Qed.
Theorem C14_posdivs_long : forall a ps, a <> 0 -> prime_base a ps -> Z.abs a <= max64 ->
  Forall (fun p => Z.abs p <= max64) ps ->
  exists l, posdivs_long a ps = Ok l /\ NoDup l /\ forall d, In d l <-> 0 < d /\ (d | a).
Proof. intros a ps Ha HB Ra Rp. exact (posdivs_long_ok a Ha ps HB Ra Rp). Qed.
Theorem C14_alldivs_long : forall a ps, a <> 0 -> prime_base a ps -> Z.abs a <= max64 ->
  Forall (fun p => Z.abs p <= max64) ps ->
  exists l, alldivs_long a ps = Ok l /\ NoDup l /\ forall d, In d l <-> (d | a).
Proof. intros a ps Ha HB Ra Rp. exact (alldivs_long_ok a Ha ps HB Ra Rp). Qed.
Theorem C14_sqdivs_long : forall a ps, a <> 0 -> prime_base a ps -> Z.abs a <= max64 ->
  Forall (fun p => Z.abs p <= max64) ps ->
  exists l, sqdivs_long a ps = Ok l /\ NoDup l /\ forall d, In d l <-> 0 < d /\ (d * d | a).
Proof. intros a ps Ha HB Ra Rp. exact (sqdivs_long_ok a Ha ps HB Ra Rp). Qed.
Theorem C14_sqfreedivs_long : forall a ps, NoDup ps -> Forall prime ps -> fold_right Z.mul 1 ps <= max64 ->
  exists l, sqfreedivs_long a ps = Ok l /\ NoDup l /\
    forall d, In d l <-> 0 < d /\ square_free d /\ (forall p, prime p -> (p | d) -> In p ps).
Proof. intros a ps. exact (sqfreedivs_long_ok a ps). Qed.
Lemma prime_base_12 : prime_base 12 [2; 3].
Proof.
  split; [|split].
  - repeat constructor; cbn; lia.
  - constructor; [exact prime_2|constructor; [exact prime_3|constructor]].
  - intros p Hp D. change 12 with (2 * 2 * 3) in D.
    apply prime_mult in D as [D|D]; auto; [apply prime_mult in D as [D|D]; auto|];
      (apply prime_div_prime in D; [subst; cbn; auto|auto|exact prime_2 || exact prime_3]).
Qed.
Example C14_ex : posdivs_z 12 [2; 3] = Ok [1; 2; 4; 3; 6; 12] /\ sqdivs_long 12 [2; 3] = Ok [1; 2] /\
  alldivs_long 12 [2; 3] = Ok [1; -1; 2; -2; 4; -4; 3; -3; 6; -6; 12; -12] /\
  sqfreedivs_z 12 [2; 3] = Ok [1; 2; 3; 6].
Proof. vm_compute. auto. Qed.
Print Assumptions C14_posdivs_bigint.
Print Assumptions C14_alldivs_bigint.
Print Assumptions C14_sqdivs_bigint.
Print Assumptions C14_sqfreedivs_bigint.
Print Assumptions C14_posdivs_long.
Print Assumptions C14_alldivs_long.
Print Assumptions C14_sqdivs_long.
Print Assumptions C14_sqfreedivs_long.

(** ** C16 *)
Theorem C16_I2long : forall x, (in64 x -> I2long x = x) /\ (~ in64 x -> I2long x = 0).
Proof.
  intros x. unfold in64. split.
  - apply I2gen_ok; unfold min64, max64; lia.
  - apply I2gen_out; unfold min64, max64; lia.
Qed.
Theorem C16_I2int : forall x, (min32 <= x <= max32 -> I2int x = x) /\ (~ (min32 <= x <= max32) -> I2int x = 0).
Proof.
  intros x. split.
  - apply I2gen_ok; unfold min32, max32; lia.
  - apply I2gen_out; unfold min32, max32; lia.
Qed.
Example C16_ex : I2long (2 ^ 63) = 0 /\ I2long (- 2 ^ 63) = - 2 ^ 63 /\ I2int (2 ^ 31 - 1) = 2147483647.
Proof. vm_compute. auto. Qed.
Print Assumptions C16_I2long.
Print Assumptions C16_I2int.

(** ** C17 *)
(** What holds: termination, same lattice, first vector not longer than the second. *)
Theorem C17_gauss_reduce_bigint_partial : forall a b c d f,
  a * d - b * c <> 0 -> (zfuel (a * a + b * b) <= f)%nat ->
  exists a' b' c' d', gauss_reduce_z f a b c d = Ok (a', b', c', d') /\
    same_lat a b c d a' b' c' d' /\ a' * d' - b' * c' <> 0 /\
    a' * a' + b' * b' <= c' * c' + d' * d'.
Proof. exact gauss_reduce_z_ok. Qed.
Theorem C17_modrat_bigint_sound_partial : forall n m f, 1 < m -> (zfuel (m * m) <= f)%nat ->
  exists ok a b, modrat_z f n m = Ok (ok, a, b) /\ (a <> 0 \/ b <> 0) /\ (m | a - n * b) /\
    (ok = true <-> 2 * (a * a) <= m /\ 2 * (b * b) <= m).
Proof. exact modrat_z_ok. Qed.
(** The sign of Q is lost on exchange: the result is not reduced, ... *)
Theorem C17_gauss_reduce_bigint_refuted : exists a b c d a' b' c' d' f,
  gauss_reduce_z f a b c d = Ok (a', b', c', d') /\ a * d - b * c <> 0 /\
  ~ (Z.abs (2 * (a' * c' + b' * d')) <= a' * a' + b' * b').
Proof.
  exists 29, 1, 101, 0, 14, (-3), (-57), 5, 20%nat. split; [vm_compute; reflexivity|].
  split; [lia|]. vm_compute. congruence.
Qed.
Print Assumptions C17_gauss_reduce_bigint_refuted.
(** ... and modrat misses a fraction within the bound (7 = 1/29 mod 101). *)
Theorem C17_modrat_bigint_refuted : exists n m u v f a b, 1 < m /\ (zfuel (m * m) <= f)%nat /\
  (m | u - n * v) /\ v <> 0 /\ 2 * (u * u) <= m /\ 2 * (v * v) <= m /\ modrat_z f n m = Ok (false, a, b).
Proof.
  exists 29, 101, 1, 7, 20%nat, 14, (-3). split; [lia|]. split; [vm_compute; lia|].
  split; [exists (-2); reflexivity|]. split; [lia|]. split; [lia|]. split; [lia|]. vm_compute. reflexivity.
Qed.
Print Assumptions C17_modrat_bigint_refuted.
Example C17_ex : modrat_z 20 12 23 = Ok (true, 1, 2).
Proof. vm_compute. reflexivity. Qed.
Print Assumptions C17_gauss_reduce_bigint_partial.
Print Assumptions C17_modrat_bigint_sound_partial.

(** ** C51: square-free decomposition *)
Theorem C51_sqfdecomp : forall a ps, a <> 0 -> prime_base a ps ->
  exists a1 a2 apl, sqfdecomp a ps = Ok (a1, a2, apl) /\
    a = a1 * (a2 * a2) /\ 0 < a2 /\ square_free a1 /\ (forall p, In p apl <-> prime p /\ (p | a1)).
Proof. exact sqfdecomp_ok. Qed.
Example C51_ex : sqfdecomp (-360) [2; 3; 5] = Ok (-10, 6, [2; 5]).
Proof. vm_compute. reflexivity. Qed.
Print Assumptions C51_sqfdecomp.

(** ** C52: rusin_lem3 *)
Theorem C52_rusin_lem3 : forall a b, a <> 0 -> b <> 0 ->
  exists m1 m2 m3 c1 c2, rusin_lem3 a b = Ok (m1, m2, m3, c1, c2) /\
    a = c1 * c1 * m1 * m3 /\ b = c2 * c2 * m2 * m3 /\ 0 < m3 /\ 0 < c1 /\ 0 < c2 /\
    Z.gcd m1 m2 = 1 /\ Z.gcd m1 m3 = 1 /\ Z.gcd m2 m3 = 1.
Proof. exact rusin_lem3_ok. Qed.
Example C52_ex : rusin_lem3 360 (-84) = Ok (10, -21, 1, 6, 2).
Proof. vm_compute. reflexivity. Qed.
Print Assumptions C52_rusin_lem3.

(** ** C53: roots of a monic cubic modulo p *)
Theorem C53_nrootscubic : forall b c d p, prime p -> p <= 1048576 ->
  - p <= b <= p -> - p <= c <= p -> - p <= d <= p ->
  exists l, nrootscubic b c d p = Ok l /\
  (forall x, In x l <-> 0 <= x < p /\ (p | x * x * x + b * x * x + c * x + d)) /\ Sorted Z.le l /\
  (length l <= 3)%nat /\
  (forall u v w, l = [u; v; w] -> forall x,
     (p | (x * x * x + b * x * x + c * x + d) - (x - u) * (x - v) * (x - w))).
Proof. intros b c d p Hp Bp Hb Hc Hd. exact (nrootscubic_ok b c d p Hp Bp Hb Hc Hd). Qed.
(** The returned list is not duplicate free when there is a double root. *)
Theorem C53_distinct_refuted : exists b c d p l, prime p /\ nrootscubic b c d p = Ok l /\ ~ NoDup l.
Proof.
  exists (-1), 0, 0, 3, [0; 0; 1]. split; [exact prime_3|]. split; [vm_compute; reflexivity|].
  intros N. inversion N as [|? ? H _]. apply H. left. reflexivity.
Qed.
Print Assumptions C53_distinct_refuted.
Example C53_ex : nrootscubic 0 (-1) 0 3 = Ok [0; 1; 2] /\ nrootscubic 0 1 1 3 = Ok [1].
Proof. vm_compute. auto. Qed.
Print Assumptions C53_nrootscubic.

(** ** C54: trial division *)
Theorem C54_pdivs_trial_div : forall ps n pmax, prime_run 2 ps -> 1 <= n ->
  exists plist n', pdivs_trial_div ps n pmax = Ok (plist, n') /\
  NoDup plist /\ Forall prime plist /\ 1 <= n' /\
  (forall q, prime q -> ((q | n) <-> In q plist \/ (q | n'))) /\
  (forall q, In q plist -> ~ (q | n')) /\ (n' | n) /\
  (forall q, prime q -> (q | n') -> (forall p, In p ps -> p < q) \/ pmax < q).
Proof. exact pdivs_trial_div_ok. Qed.
Lemma prime_run_ex : prime_run 2 [2; 3].
Proof.
  cbn [prime_run]. split; [exact prime_2|]. split; [lia|]. split; [auto|].
  split; [exact prime_3|]. split; [lia|]. split; [auto|exact I].
Qed.
Example C54_ex : pdivs_trial_div [2; 3] 84 100 = Ok ([2; 3; 7], 1) /\
  pdivs_trial_div [2; 3] 42000 3 = Ok ([2; 3], 875).
Proof. vm_compute. auto. Qed.
Print Assumptions C54_pdivs_trial_div.

(** ** C55: intlog2 *)
Theorem C55_intlog2 : forall n rnd, 0 < n < 2 ^ 31 ->
  exists r n' e', intlog2 n rnd = Ok (r, n', e') /\
    (r = 1 <-> exists k, 0 <= k /\ n = 2 ^ k) /\ (r = 1 -> n = 2 ^ e' /\ n' = n) /\ (r = 0 \/ r = 1) /\
    (rnd = true -> n' = 2 ^ e' /\ n <= n' < 2 * n).
Proof. exact intlog2_ok. Qed.
(** Every larger long makes the 32-bit shift overflow. *)
Theorem C55_intlog2_large_refuted : forall n rnd, 2 ^ 31 <= n <= max64 -> intlog2 n rnd = UB.
Proof. exact intlog2_big. Qed.
Example C55_ex : intlog2 12 true = Ok (0, 16, 4) /\ intlog2 64 false = Ok (1, 64, 6).
Proof. vm_compute. auto. Qed.
Print Assumptions C55_intlog2.
Print Assumptions C55_intlog2_large_refuted.
