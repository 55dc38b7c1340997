(** Final statements for C01-C07 (single precision arithmetic, rationals). *)
From Coq Require Import ZArith Lia List Bool Znumtheory QArith.
From Verif Require Import Base ArithModel XModModel RatModel.
From Verif Require Import ArithProofs GaussProofs XModProofs RatProofs.
Import ListNotations.
Open Scope Z_scope.

(** [sym64 z]: z is a long other than LONG_MIN, i.e. |z| <= 2^63-1. *)

(** ** C01 *)
Theorem C01_gcd : forall a b,
  Z.abs a <= max64 -> Z.abs b <= max64 -> gcd_long a b = Ok (Z.gcd a b).
Proof. exact gcd_long_ok. Qed.

Theorem C01_bezout : forall a b,
  Z.abs a <= max64 -> Z.abs b <= max64 ->
  exists x y, bezout_long a b = Ok (Z.gcd a b, x, y) /\ a * x + b * y = Z.gcd a b /\
    Z.abs x <= Z.max 1 (Z.abs b) /\ Z.abs y <= Z.max 1 (Z.abs a).
Proof. exact bezout_long_ok. Qed.

(** The excluded value is really excluded: LONG_MIN with -1 overflows. *)
Theorem C01_min_value_refuted : exists a b, in64 a /\ in64 b /\
  gcd_long a b = UB /\ bezout_long a b = UB.
Proof. exists min64, (-1). repeat split; vm_compute; congruence || reflexivity. Qed.
Print Assumptions C01_min_value_refuted.

Theorem C01_lcm : forall a b,
  Z.abs a <= max64 -> Z.abs b <= max64 -> Z.lcm a b <= max64 ->
  exists l, lcm_long a b = Ok l /\ Z.abs l = Z.lcm a b.
Proof. exact lcm_long_ok. Qed.

(** lcm may come out negative. *)
Theorem C01_lcm_nonneg_refuted : exists a b l, lcm_long a b = Ok l /\ l < 0.
Proof. exists (-4), 6, (-12). vm_compute. auto. Qed.
Print Assumptions C01_lcm_nonneg_refuted.

Example C01_ex : bezout_long (-9223372036854775807) 9223372036854775806 = Ok (1, -1, -1).
Proof. vm_compute. reflexivity. Qed.
Example C01_ex2 : gcd_long 7540113804746346429 4660046610375530309 = Ok 1.
Proof. vm_compute. reflexivity. Qed.

Print Assumptions C01_gcd.
Print Assumptions C01_bezout.
Print Assumptions C01_lcm.

(** ** C02 *)
Theorem C02_invmod : forall a p,
  Z.abs a <= max64 -> Z.abs p <= max64 ->
  exists x, invmod_long a p = Ok x /\
    (Z.gcd a p = 1 -> (p | a * x - 1)) /\ (Z.gcd a p <> 1 -> x = 0).
Proof. exact invmod_long_ok. Qed.
Example C02_ex : invmod_long 3 9223372036854775783 = Ok (-3074457345618258594) /\
  Z.gcd 3 9223372036854775783 = 1.
Proof. vm_compute. auto. Qed.
Print Assumptions C02_invmod.

(** ** C03 (longs) *)
Theorem C03_mod : forall a b,
  Z.abs a <= max64 -> Z.abs b <= max64 -> b <> 0 ->
  exists c, mod_long a b = Ok c /\ (b | a - c) /\ - Z.abs b < 2 * c <= Z.abs b.
Proof.
  intros a b Ha Hb H0. apply sym64_in64 in Ha. apply sym64_in64 in Hb.
  apply mod_long_ok; tauto.
Qed.

Theorem C03_mod_int : forall a b,
  Z.abs a <= max32 -> Z.abs b <= max32 -> b <> 0 ->
  exists c, mod_int a b = Ok c /\ (b | a - c) /\ - Z.abs b < 2 * c <= Z.abs b.
Proof. intros a b Ha Hb H0. unfold max32 in *.
  apply mod_int_ok; auto; unfold in32, min32, max32; lia. Qed.

Theorem C03_centred_unique : forall a b c c',
  b <> 0 -> (b | a - c) -> (b | a - c') ->
  - Z.abs b < 2 * c <= Z.abs b -> - Z.abs b < 2 * c' <= Z.abs b -> c = c'.
Proof. exact centred_unique. Qed.
Print Assumptions C03_centred_unique.

Theorem C03_posmod : forall a b,
  in64 a -> in64 b -> 0 < b -> posmod_long a b = Ok (a mod b).
Proof. exact posmod_long_ok. Qed.

Theorem C03_posmod_int : forall a b,
  in32 a -> in32 b -> 0 < b -> posmod_int a b = Ok (a mod b).
Proof. exact posmod_int_ok. Qed.
Print Assumptions C03_posmod_int.

(** posmod with a negative modulus is not in [0,|b|). *)
Theorem C03_posmod_negative_modulus_refuted : exists a b c,
  b <> 0 /\ posmod_long a b = Ok c /\ ~ (0 <= c < Z.abs b).
Proof. exists (-3), (-5), (-8). repeat split; vm_compute; intuition congruence. Qed.
Print Assumptions C03_posmod_negative_modulus_refuted.

Theorem C03_rounded_division : forall a b,
  in64 a -> 0 < b <= 2 ^ 62 ->
  exists q, rounded_division a b = Ok q /\ - b <= 2 * (a - q * b) < b.
Proof. exact rounded_division_ok. Qed.

(** For larger positive divisors doubling the remainder overflows. *)
Theorem C03_rounded_division_large_refuted : exists a b,
  in64 a /\ in64 b /\ 0 < b /\ rounded_division a b = UB.
Proof.
  exists 9223372036854775806, 9223372036854775807.
  repeat split; vm_compute; congruence || reflexivity.
Qed.
Print Assumptions C03_rounded_division_large_refuted.

Example C03_ex : mod_long (-7) 4 = Ok 1 /\ mod_long 6 (-4) = Ok 2 /\ mod_long (-6) 4 = Ok 2 /\
  posmod_long (-7) 4 = Ok 1 /\ rounded_division 5 2 = Ok 3 /\ rounded_division (-5) 2 = Ok (-2).
Proof. vm_compute. auto 10. Qed.

Print Assumptions C03_mod.
Print Assumptions C03_mod_int.
Print Assumptions C03_posmod.
Print Assumptions C03_rounded_division.

(** ** C04 *)
Theorem C04_gauss_reduce : forall a b c d,
  a * d - b * c <> 0 -> a * a + b * b <= 2 ^ 62 -> c * c + d * d <= 2 ^ 62 ->
  exists a' b' c' d', gauss_reduce a b c d = Ok (a', b', c', d') /\
    same_lat a b c d a' b' c' d' /\ minimal_basis a' b' c' d' /\
    Z.abs (2 * (a' * c' + b' * d')) <= a' * a' + b' * b' <= c' * c' + d' * d'.
Proof.
  intros a b c d Hd H1 H2.
  destruct (gauss_reduce_ok a b c d Hd H1 H2) as (a' & b' & c' & d' & E & HL & D & PR & Q).
  exists a', b', c', d'. split; [exact E|]. split; [exact HL|]. split.
  - apply minimal_of_reduced; [rewrite D; exact Hd|exact PR|lia].
  - split; [lia|exact PR].
Qed.

Theorem C04_modrat_sound : forall n m,
  Z.abs n <= max64 -> 0 < m <= 2 ^ 31 ->
  exists ok a b, modrat_long n m = Ok (ok, a, b) /\
    (a <> 0 \/ b <> 0) /\ (m | a - n * b) /\
    (forall u v, (m | u - n * v) -> u <> 0 \/ v <> 0 -> a * a + b * b <= u * u + v * v) /\
    (ok = true -> b <> 0 /\ 2 * a * a <= m /\ 2 * b * b <= m).
Proof.
  intros n m Hn Hm. destruct (modrat_long_ok n m Hn Hm) as (ok & a & b & E & H1 & H2 & H3 & H4).
  exists ok, a, b. repeat split; auto; try tauto.
  intros. apply (modrat_den_nonzero n m a b); tauto || lia.
Qed.

Theorem C04_modrat_complete : forall n m ok a b,
  Z.abs n <= max64 -> 0 < m <= 2 ^ 31 -> modrat_long n m = Ok (ok, a, b) ->
  forall u v, (m | u - n * v) -> u <> 0 \/ v <> 0 -> 2 * u * u <= m -> 2 * v * v <= m ->
    ok = true /\ (2 * u * u < m -> u * b = a * v).
Proof.
  intros n m ok a b Hn Hm E u v Hl Hnz Hu Hv.
  destruct (modrat_long_ok n m Hn Hm) as (ok' & a' & b' & E' & H1 & H2 & H3 & H4).
  rewrite E in E'. inversion E'; subst ok' a' b'.
  destruct (modrat_complete n m a b u v) as [K1 K2]; auto; try lia. tauto.
Qed.

Example C04_ex : modrat_long 536870893 1073741789 = Ok (true, 3, -2).
Proof. vm_compute. reflexivity. Qed.
Example C04_ex2 : modrat_long 5 23 = Ok (false, 3, -4) /\ modrat_long 12 23 = Ok (true, 1, 2).
Proof. vm_compute. auto. Qed.

Print Assumptions C04_gauss_reduce.
Print Assumptions C04_modrat_sound.
Print Assumptions C04_modrat_complete.

(** ** C05 *)
Theorem C05_modulus_is_prime : prime BIGPRIME.
Proof. exact BIGPRIME_prime. Qed.
Print Assumptions C05_modulus_is_prime.

Theorem C05_xmm0 : forall a b,
  Z.abs a < BIGPRIME -> Z.abs b < BIGPRIME ->
  exists r, xmm0_int a b = Ok r /\ Z.abs r < BIGPRIME /\ (BIGPRIME | r - a * b) /\
    (a <> 1 -> a <> -1 -> b <> 1 -> b <> -1 -> 2 * Z.abs r < BIGPRIME).
Proof. exact xmm0_int_ok. Qed.

Theorem C05_xmodmul_int : forall a b m,
  0 < m <= max32 -> Z.abs a < m -> Z.abs b < m ->
  exists r, xmodmul_int a b m = Ok r /\ Z.abs r < m /\ (m | r - a * b).
Proof. exact xmodmul_int_ok. Qed.

Theorem C05_xmodmul_long : forall a b m,
  0 < m -> in64 m -> in64 (a * b) ->
  exists r, xmodmul_long a b m = Ok r /\ Z.abs r < m /\ (m | r - a * b).
Proof. exact xmodmul_long_ok. Qed.
Print Assumptions C05_xmodmul_long.

Theorem C05_mod0 : forall a, in32 a ->
  exists r, mod0_int a = Ok r /\ 2 * Z.abs r < BIGPRIME /\ (BIGPRIME | r - a).
Proof. exact mod0_int_ok. Qed.
Print Assumptions C05_mod0.

Theorem C05_invmod0_int : forall a, Z.abs a < BIGPRIME ->
  exists x, invmod0_int a = Ok x /\ Z.abs x <= BIGPRIME /\
    (~ (BIGPRIME | a) -> (BIGPRIME | a * x - 1)) /\ ((BIGPRIME | a) -> x = 0).
Proof. exact invmod0_int_ok. Qed.

Theorem C05_invmod0_long : forall a, Z.abs a + BIGPRIME <= max64 ->
  exists x, invmod0_long a = Ok x /\ Z.abs x <= BIGPRIME /\
    (~ (BIGPRIME | a) -> (BIGPRIME | a * x - 1)) /\ ((BIGPRIME | a) -> x = 0).
Proof. exact invmod0_long_ok. Qed.

Example C05_ex : xmm0_int (-1073741788) 1073741788 = Ok (-1) /\
  xmm0_int 536870894 (-1073741787) = Ok (-1) /\ invmod0_int 1000 = Ok (-117037855).
Proof. vm_compute. auto. Qed.

Print Assumptions C05_xmm0.
Print Assumptions C05_xmodmul_int.
Print Assumptions C05_invmod0_int.
Print Assumptions C05_invmod0_long.

(** ** C06 *)
Theorem C06_make : forall n d q, d <> 0 -> rat_make n d = Ok q ->
  canonical q /\ fst q * d = n * snd q.
Proof. exact rat_cancel_partial. Qed.
Print Assumptions C06_make.
Theorem C06_make_total : forall n d, Z.abs n <= max64 -> Z.abs d <= max64 ->
  exists q, rat_make n d = Ok q.
Proof. exact rat_cancel_total. Qed.
Print Assumptions C06_make_total.
Theorem C06_rational_ops :
  (forall q1 q2 q, canonical q1 -> canonical q2 -> rat_add q1 q2 = Ok q ->
     canonical q /\ (qval q == qval q1 + qval q2)%Q) /\
  (forall q1 q2 q, canonical q1 -> canonical q2 -> rat_sub q1 q2 = Ok q ->
     canonical q /\ (qval q == qval q1 - qval q2)%Q) /\
  (forall q1 q2 q, canonical q1 -> canonical q2 -> rat_mul q1 q2 = Ok q ->
     canonical q /\ (qval q == qval q1 * qval q2)%Q) /\
  (forall q1 q2 q, canonical q1 -> canonical q2 -> fst q2 <> 0 -> rat_div q1 q2 = Ok q ->
     canonical q /\ (qval q == qval q1 / qval q2)%Q) /\
  (forall q1 q2 b, canonical q1 -> canonical q2 -> rat_eq q1 q2 = Ok b ->
     (b = true <-> q1 = q2)).
Proof.
  split; [|split; [|split; [|split]]]; intros.
  - eapply rat_add_partial; eauto.
  - eapply rat_sub_partial; eauto.
  - eapply rat_mul_partial; eauto.
  - eapply rat_div_partial; eauto.
  - destruct H as [P1 G1], H0 as [P2 G2].
    rewrite (rat_eq_partial q1 q2 b) by auto. split; [|intros ->; reflexivity].
    apply canonical_inj; split; auto.
Qed.
Theorem C06_rational_ops_total : forall q1 q2,
  Z.abs (fst q1) <= 2 ^ 30 /\ Z.abs (snd q1) <= 2 ^ 30 ->
  Z.abs (fst q2) <= 2 ^ 30 /\ Z.abs (snd q2) <= 2 ^ 30 ->
  (exists q, rat_add q1 q2 = Ok q) /\ (exists q, rat_sub q1 q2 = Ok q) /\
  (exists q, rat_mul q1 q2 = Ok q) /\ (exists q, rat_div q1 q2 = Ok q) /\
  (exists b, rat_eq q1 q2 = Ok b).
Proof. exact rat_ops_total. Qed.
Theorem C06_bigrational_ops : forall q1 q2, canonical q1 -> canonical q2 ->
  (exists q, brat_add q1 q2 = Ok q /\ canonical q /\ (qval q == qval q1 + qval q2)%Q) /\
  (exists q, brat_sub q1 q2 = Ok q /\ canonical q /\ (qval q == qval q1 - qval q2)%Q) /\
  (exists q, brat_mul q1 q2 = Ok q /\ canonical q /\ (qval q == qval q1 * qval q2)%Q) /\
  (fst q2 <> 0 ->
   exists q, brat_div q1 q2 = Ok q /\ canonical q /\ (qval q == qval q1 / qval q2)%Q) /\
  (forall m, canonical (brat_addeq_int q1 m)) /\
  (brat_eq q1 q2 = true <-> q1 = q2) /\
  (brat_lt q1 q2 = true <-> (qval q1 < qval q2)%Q).
Proof.
  intros q1 q2 C1 C2. split; [|split; [|split; [|split; [|split; [|split]]]]].
  - apply brat_add_ok; auto.
  - apply brat_sub_ok; auto.
  - apply brat_mul_ok; auto.
  - intros; apply brat_div_ok; auto.
  - intros m. destruct q1 as [n d]. apply addeq_canonical; auto.
  - destruct C1 as [P1 G1] eqn:E1, C2 as [P2 G2] eqn:E2.
    rewrite (brat_eq_ok q1 q2) by auto. split; [|intros ->; reflexivity].
    apply canonical_inj; split; auto.
  - destruct C1, C2. apply brat_lt_ok; auto.
Qed.
Example C06_ex : canonical (-3, 4) /\ canonical (5, 6) /\ rat_add (-3, 4) (5, 6) = Ok (1, 12) /\
  brat_div (-3, 4) (5, 6) = Ok (-9, 10) /\ brat_div (1, 2) (-3, 5) = Ok (-5, 6).
Proof. vm_compute. auto 10. Qed.
Print Assumptions C06_rational_ops.
Print Assumptions C06_rational_ops_total.
Print Assumptions C06_bigrational_ops.

(** ** C07 *)
Theorem C07_bigrational_floor : forall q, canonical q ->
  exists z, brat_floor q = Ok z /\ (inject_Z z <= qval q)%Q /\ (qval q < inject_Z (z + 1))%Q.
Proof. exact brat_floor_ok. Qed.
Theorem C07_bigrational_ceil : forall q, canonical q ->
  exists z, brat_ceil q = Ok z /\ (inject_Z (z - 1) < qval q)%Q /\ (qval q <= inject_Z z)%Q.
Proof. exact brat_ceil_ok. Qed.
(** The long version is right for non-negative q ... *)
Theorem C07_rational_floor_ceil_partial : forall q,
  canonical q -> in64 (fst q) -> in64 (snd q) -> 0 <= fst q ->
  (exists z, rat_floor q = Ok z /\ (inject_Z z <= qval q)%Q /\ (qval q < inject_Z (z + 1))%Q) /\
  (exists z, rat_ceil q = Ok z /\ (inject_Z (z - 1) < qval q)%Q /\ (qval q <= inject_Z z)%Q).
Proof. intros. split; [apply rat_floor_nonneg|apply rat_ceil_nonneg]; auto. Qed.
(** ... and wrong for EVERY negative non-integer, as here. *)
Theorem C07_rational_floor_refuted : exists q z,
  canonical q /\ rat_floor q = Ok z /\ ~ (inject_Z z <= qval q)%Q.
Proof. exists (-3, 2), (-1). repeat split; vm_compute; congruence. Qed.
Theorem C07_rational_ceil_refuted : exists q z,
  canonical q /\ rat_ceil q = Ok z /\ ~ (inject_Z (z - 1) < qval q)%Q.
Proof. exists (-3, 2), 0. repeat split; vm_compute; congruence. Qed.
Example C07_ex : canonical (-7, 3) /\ brat_floor (-7, 3) = Ok (-3) /\ brat_ceil (-7, 3) = Ok (-2) /\
  rat_floor (7, 3) = Ok 2 /\ rat_ceil (7, 3) = Ok 3.
Proof. vm_compute. auto 10. Qed.
Print Assumptions C07_bigrational_floor.
Print Assumptions C07_bigrational_ceil.
Print Assumptions C07_rational_floor_ceil_partial.
Print Assumptions C07_rational_floor_refuted.
Print Assumptions C07_rational_ceil_refuted.
