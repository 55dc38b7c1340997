(** Proofs about XModModel. *)
From Coq Require Import ZArith Lia List Bool Znumtheory.
From Verif Require Import Base ArithModel ArithProofs XModModel Primality.
Import ListNotations.
Open Scope Z_scope.
Open Scope res_scope.

Lemma BIGPRIME_prime : prime BIGPRIME.
Proof.
  apply (prime_by_trial_N BIGPRIME 32768).
  - unfold BIGPRIME; lia.
  - vm_compute. reflexivity.
  - vm_compute. reflexivity.
Qed.

Lemma HALF_val : HALF_BIGPRIME = 536870894.
Proof. reflexivity. Qed.

Lemma wrap32_id z : in32 z -> wrap32 z = z.
Proof. intros. unfold wrap32. u64. rewrite Z.mod_small by lia. lia. Qed.

(** *** The reciprocal trick *)
Lemma barrett_range ab :
  0 <= ab -> ab <= (BIGPRIME - 1) * (BIGPRIME - 1) ->
  0 <= ab - Z.shiftr (INV_BIGPRIME * Z.shiftr ab 30) 32 * BIGPRIME < 3 * BIGPRIME.
Proof.
  intros H0 H1. rewrite !Z.shiftr_div_pow2 by lia.
  change (2 ^ 30) with 1073741824. change (2 ^ 32) with 4294967296.
  unfold BIGPRIME, INV_BIGPRIME in *.
  pose proof (Z.div_mod ab 1073741824 ltac:(lia)) as E1.
  pose proof (Z.mod_pos_bound ab 1073741824 ltac:(lia)) as B1.
  set (h := ab / 1073741824) in *. set (l := ab mod 1073741824) in *.
  pose proof (Z.div_mod (4294967436 * h) 4294967296 ltac:(lia)) as E2.
  pose proof (Z.mod_pos_bound (4294967436 * h) 4294967296 ltac:(lia)) as B2.
  set (q := 4294967436 * h / 4294967296) in *.
  set (m := (4294967436 * h) mod 4294967296) in *.
  clearbody h l q m. lia.
Qed.

Lemma xmm0_int_ok a b :
  Z.abs a < BIGPRIME -> Z.abs b < BIGPRIME ->
  exists r, xmm0_int a b = Ok r /\ Z.abs r < BIGPRIME /\ (BIGPRIME | r - a * b) /\
    (a <> 1 -> a <> -1 -> b <> 1 -> b <> -1 -> 2 * Z.abs r < BIGPRIME).
Proof.
  intros Ha Hb. unfold xmm0_int.
  destruct (Z.eqb_spec a 1) as [->|A1].
  { exists b. repeat split; auto; [exists 0; lia|lia]. }
  destruct (Z.eqb_spec a (-1)) as [->|A2].
  { unfold neg32. rewrite c32_ok by (unfold BIGPRIME in *; rg).
    exists (- b). repeat split; auto; try lia. exists 0; lia. }
  destruct (Z.eqb_spec b 1) as [->|B1].
  { exists a. repeat split; auto; [exists 0; lia|lia]. }
  destruct (Z.eqb_spec b (-1)) as [->|B2].
  { unfold neg32. rewrite c32_ok by (unfold BIGPRIME in *; rg).
    exists (- a). repeat split; auto; try lia. exists 0; lia. }
  assert (N : forall z, Z.abs z < BIGPRIME ->
     exists z', (if z <? 0 then add32 z BIGPRIME else Ok z) = Ok z' /\
                0 <= z' <= BIGPRIME - 1 /\ exists k, z' = z + k * BIGPRIME).
  { intros z Hz. destruct (Z.ltb_spec z 0).
    - unfold add32. rewrite c32_ok by (unfold BIGPRIME in *; rg).
      eexists; split; [reflexivity|]. split; [unfold BIGPRIME in *; lia|]. exists 1. lia.
    - eexists; split; [reflexivity|]. split; [unfold BIGPRIME in *; lia|]. exists 0. lia. }
  destruct (N a Ha) as (a' & -> & Ra & ka & Ea).
  destruct (N b Hb) as (b' & -> & Rb & kb & Eb).
  rewrite !bind_Ok. clear N.
  assert (H0 : 0 <= a' * b') by (apply Z.mul_nonneg_nonneg; lia).
  assert (H1 : a' * b' <= (BIGPRIME - 1) * (BIGPRIME - 1))
    by (apply Z.mul_le_mono_nonneg; lia).
  assert (Hdiv : exists k, a' * b' = a * b + k * BIGPRIME).
  { exists (ka * b + kb * a + ka * kb * BIGPRIME). subst. ring. }
  assert (Rab : in64 (a' * b')) by (clear - H0 H1; unfold BIGPRIME in *; rg).
  rewrite mul64_ok by exact Rab. rewrite bind_Ok.
  set (ab := a' * b') in *. clearbody ab. clear Ea Eb Ra Rb.
  pose proof (barrett_range ab H0 H1) as HB.
  assert (Hs : 0 <= Z.shiftr ab 30 <= 1073741789).
  { rewrite Z.shiftr_div_pow2 by lia. change (2 ^ 30) with 1073741824.
    split; [apply Z.div_pos; lia|].
    apply Z.div_le_upper_bound; unfold BIGPRIME in *; lia. }
  rewrite mul64_ok by (clear - Hs; unfold INV_BIGPRIME; rg). rewrite bind_Ok.
  set (q := Z.shiftr (INV_BIGPRIME * Z.shiftr ab 30) 32) in *. clearbody q.
  assert (Rq : in64 (q * BIGPRIME)) by (clear - H0 H1 HB; unfold BIGPRIME in *; rg).
  rewrite mul64_ok by exact Rq. rewrite bind_Ok.
  rewrite sub64_ok by (clear - HB; unfold BIGPRIME in *; rg). rewrite bind_Ok.
  destruct Hdiv as [k Hk].
  assert (Hr : exists j, ab - q * BIGPRIME = a * b + j * BIGPRIME) by (exists (k - q); lia).
  set (r := ab - q * BIGPRIME) in *. clearbody r.
  destruct Hr as [j Hr]. clear - HB Hr A1.
  rewrite HALF_val. unfold BIGPRIME, TWO_BIGPRIME in *.
  assert (exists s, (if 2147483578 <=? r then 1073741789 else 0) +
            (if 1073741789 <=? r then 1073741789 else 0) = s * 1073741789 /\
            0 <= r - s * 1073741789 < 1073741789 /\ 0 <= s <= 2) as (s & Es & Rs & Bs).
  { destruct (Z.leb_spec 2147483578 r); destruct (Z.leb_spec 1073741789 r); try lia.
    - exists 2. lia.
    - exists 1. lia.
    - exists 0. lia. }
  unfold add32. rewrite Es. rewrite c32_ok by rg. rewrite bind_Ok.
  rewrite sub64_ok by rg. rewrite bind_Ok.
  destruct (Z.ltb_spec 536870894 (r - s * 1073741789)).
  - rewrite sub64_ok by rg. rewrite bind_Ok. rewrite wrap32_id by rg.
    eexists; split; [reflexivity|]. split; [lia|]. split; [|lia].
    exists (j - s - 1). rewrite Hr. ring.
  - rewrite bind_Ok. rewrite wrap32_id by rg.
    eexists; split; [reflexivity|]. split; [lia|]. split; [|lia].
    exists (j - s). rewrite Hr. ring.
Qed.

(** *** Plain products modulo m *)
Lemma rem_divide a m : m <> 0 -> (m | Z.rem a m - a).
Proof. intros. exists (- Z.quot a m). pose proof (Z.quot_rem a m H). lia. Qed.

Lemma xmodmul_int_ok a b m :
  0 < m <= max32 -> Z.abs a < m -> Z.abs b < m ->
  exists r, xmodmul_int a b m = Ok r /\ Z.abs r < m /\ (m | r - a * b).
Proof.
  intros Hm Ha Hb. unfold xmodmul_int.
  destruct (Z.eqb_spec m BIGPRIME) as [->|].
  { destruct (xmm0_int_ok a b Ha Hb) as (r & -> & H1 & H2 & _). eauto. }
  assert (Rab : Z.abs (a * b) <= 2147483647 * 2147483647).
  { rewrite Z.abs_mul. apply Z.mul_le_mono_nonneg; rg. }
  rewrite mul64_ok by (clear - Rab; rg). rewrite bind_Ok.
  assert (Hm0 : m <> 0) by lia.
  rewrite rem64_ok by (clear - Rab Hm; rg). rewrite bind_Ok.
  pose proof (rem_abs_lt (a * b) m Hm0) as Hr. pose proof (rem_divide (a * b) m Hm0) as Hd.
  set (r := Z.rem (a * b) m) in *. clearbody r.
  rewrite wrap32_id by rg. rewrite rem32_ok by rg.
  eexists; split; [reflexivity|].
  assert (Z.rem r m = r) as ->.
  { destruct (Z.le_ge_cases 0 r); [apply Z.rem_small; lia|].
    replace r with (- (- r)) at 1 by lia. rewrite Z.rem_opp_l by lia.
    rewrite Z.rem_small by lia. lia. }
  split; auto. lia.
Qed.

Lemma xmodmul_long_ok a b m :
  0 < m -> in64 m -> in64 (a * b) ->
  exists r, xmodmul_long a b m = Ok r /\ Z.abs r < m /\ (m | r - a * b).
Proof.
  intros Hm Hm' Hab. unfold xmodmul_long.
  rewrite mul64_ok by auto. rewrite bind_Ok.
  assert (Hm0 : m <> 0) by lia.
  rewrite rem64_ok by (auto; lia). rewrite bind_Ok.
  pose proof (rem_abs_lt (a * b) m Hm0) as Hr. pose proof (rem_divide (a * b) m Hm0) as Hd.
  set (r := Z.rem (a * b) m) in *. clearbody r.
  rewrite rem64_ok by (clear - Hr Hm Hm'; rg).
  eexists; split; [reflexivity|].
  assert (Z.rem r m = r) as ->.
  { destruct (Z.le_ge_cases 0 r); [apply Z.rem_small; lia|].
    replace r with (- (- r)) at 1 by lia. rewrite Z.rem_opp_l by lia.
    rewrite Z.rem_small by lia. lia. }
  split; auto. lia.
Qed.

(** *** mod0 *)
Lemma mod0_int_ok a :
  in32 a -> exists r, mod0_int a = Ok r /\ 2 * Z.abs r < BIGPRIME /\ (BIGPRIME | r - a).
Proof.
  intros Ha. unfold mod0_int. rewrite rem32_ok by (unfold BIGPRIME; auto; lia).
  rewrite bind_Ok.
  pose proof (rem_abs_lt a BIGPRIME ltac:(unfold BIGPRIME; lia)) as Hr.
  pose proof (rem_divide a BIGPRIME ltac:(unfold BIGPRIME; lia)) as Hd.
  set (r := Z.rem a BIGPRIME) in *. clearbody r.
  destruct (Z.ltb_spec 0 r).
  - destruct (while_total mod0_down
      (fun x => -536870894 <= x < BIGPRIME /\ (BIGPRIME | x - a))
      (fun x => 2 * Z.abs x < BIGPRIME /\ (BIGPRIME | x - a))
      (fun x => x + 536870894)) with (n := W) (s := r) as (x & Hx & P).
    + intros s. lia.
    + intros s [H1 [k Hk]]. unfold mod0_down. rewrite HALF_val. unfold BIGPRIME in *.
      destruct (Z.ltb_spec 536870894 s).
      * right. unfold sub32. rewrite c32_ok by rg. rewrite bind_Ok.
        eexists; split; [reflexivity|]. split; [|lia]. split; [lia|].
        exists (k - 1). lia.
      * left. exists s. split; [reflexivity|]. split; [lia|]. now exists k.
    + split; auto. unfold BIGPRIME in *. lia.
    + change (2 ^ Z.of_nat W) with 1180591620717411303424. unfold BIGPRIME in *. lia.
    + eauto.
  - destruct (while_total mod0_up
      (fun x => - BIGPRIME < x <= 536870894 /\ (BIGPRIME | x - a))
      (fun x => 2 * Z.abs x < BIGPRIME /\ (BIGPRIME | x - a))
      (fun x => 536870894 - x)) with (n := W) (s := r) as (x & Hx & P).
    + intros s. lia.
    + intros s [H1 [k Hk]]. unfold mod0_up. rewrite HALF_val. unfold BIGPRIME in *.
      unfold neg32. rewrite c32_ok by rg. rewrite bind_Ok.
      destruct (Z.ltb_spec 536870894 (- s)).
      * right. unfold add32. rewrite c32_ok by rg. rewrite bind_Ok.
        eexists; split; [reflexivity|]. split; [|lia]. split; [lia|].
        exists (k + 1). lia.
      * left. exists s. split; [reflexivity|]. split; [lia|]. now exists k.
    + split; auto. unfold BIGPRIME in *. lia.
    + change (2 ^ Z.of_nat W) with 1180591620717411303424. unfold BIGPRIME in *. lia.
    + eauto.
Qed.

(** *** invmod0 *)
Lemma table_invs_ok i :
  0 < i < 20 -> exists t, get table_invs i = Ok t /\ 0 < t < BIGPRIME /\ (BIGPRIME | i * t - 1).
Proof.
  intros Hi.
  assert (C : i = 1 \/ i = 2 \/ i = 3 \/ i = 4 \/ i = 5 \/ i = 6 \/ i = 7 \/ i = 8 \/ i = 9 \/
    i = 10 \/ i = 11 \/ i = 12 \/ i = 13 \/ i = 14 \/ i = 15 \/ i = 16 \/ i = 17 \/ i = 18 \/
    i = 19) by lia.
  assert (D : forall i t, (i * t - 1) mod BIGPRIME = 0 -> (BIGPRIME | i * t - 1)).
  { intros. apply Z.mod_divide; [unfold BIGPRIME; lia|auto]. }
  repeat (destruct C as [->|C]); [..|subst i];
    (eexists; split; [reflexivity|]; split; [unfold BIGPRIME; lia|]; apply D; reflexivity).
Qed.

Section Inv0.
  Variable ck : Z -> res Z.
  Variable M : Z.
  Hypothesis ck_ok : forall z, Z.abs z <= M -> ck z = Ok z.
  Hypothesis HM : BIGPRIME <= M < 2 ^ 64.

  Lemma inv0_loop a0 :
    Z.abs a0 <= M ->
    exists g x, while (inv0_step ck) W (a0, BIGPRIME, 1, 0) = Ok (g, x) /\
      Z.abs g = Z.gcd a0 BIGPRIME /\ (BIGPRIME | a0 * x - g) /\ Z.abs x <= BIGPRIME.
  Proof.
    intros Ha0.
    destruct (while_total (inv0_step ck)
      (fun s => let '(a, b, oldx, x) := s in
         Z.abs a <= M /\ Z.abs b <= BIGPRIME /\ Z.gcd a b = Z.gcd a0 BIGPRIME /\
         (BIGPRIME | a0 * oldx - a) /\ (BIGPRIME | a0 * x - b) /\
         Z.abs x * Z.abs a + Z.abs oldx * Z.abs b = BIGPRIME /\
         oldx * x * (a * b) <= 0 /\
         Z.abs x <= BIGPRIME /\ Z.abs oldx <= BIGPRIME)
      (fun r => let '(g, x) := r in
         Z.abs g = Z.gcd a0 BIGPRIME /\ (BIGPRIME | a0 * x - g) /\ Z.abs x <= BIGPRIME)
      (fun s => let '(a, b, oldx, x) := s in Z.abs b))
      with (n := W) (s := (a0, BIGPRIME, 1, 0)) as ([g x] & Hw & P).
    - intros [[[a b] o] x] _. lia.
    - intros [[[a b] oldx] x] (Ha & Hb & Hg & [k Hk] & [j Hj] & Ex & Sx & Bx & Bo).
      unfold inv0_step. destruct (Z.eqb_spec b 0) as [->|Hb0].
      + left. exists (a, oldx). split; [reflexivity|].
        rewrite Z.gcd_0_r in Hg. split; [auto|]. split; [now exists k|auto].
      + right.
        pose proof (quot_sign_a_b a b Hb0) as Hq. pose proof (rem_sign a b Hb0) as Hr.
        pose proof (abs_quot_rem a b Hb0) as E. pose proof (Z.quot_rem a b Hb0) as QR.
        pose proof (rem_abs_lt a b Hb0) as Rlt.
        pose proof (gcd_rem a b Hb0) as Hg'.
        pose proof (quot_abs_le a b Hb0) as Bq.
        assert (Hq0 : a = 0 -> Z.quot a b = 0) by (intros ->; now apply Z.quot_0_l).
        set (q := Z.quot a b) in *. set (r := Z.rem a b) in *.
        destruct (bez_column a b oldx x q r) as (X1 & X2 & X3); auto.
        clearbody q r.
        assert (Hpos : forall u v, 0 <= Z.abs u * Z.abs v).
        { clear. intros. apply Z.mul_nonneg_nonneg; lia. }
        assert (Hge : forall u, Z.abs u <= Z.abs u * Z.abs b).
        { clear - Hb0. intros u. rewrite <- (Z.mul_1_r (Z.abs u)) at 1.
          apply Z.mul_le_mono_nonneg_l; lia. }
        assert (NX : Z.abs (oldx - q * x) <= BIGPRIME).
        { pose proof (Hge (oldx - q * x)) as T1. pose proof (Hpos x r) as T2.
          rewrite Ex in X3. clear - T1 T2 X3. lia. }
        assert (Er : a - q * b = r) by (clear - QR; lia).
        assert (Bqb : Z.abs (q * b) <= M).
        { eapply Z.le_trans; [|exact Ha]. rewrite Z.abs_mul, E; clear; lia. }
        assert (Bqx : Z.abs (q * x) <= BIGPRIME) by (clear - X1 NX; lia).
        rewrite ck_ok by (clear - Bq Ha; lia). rewrite bind_Ok.
        rewrite ck_ok by exact Bqb. rewrite bind_Ok.
        rewrite ck_ok by (rewrite Er; clear - Rlt Hb HM; lia). rewrite bind_Ok, Er.
        rewrite ck_ok by (clear - Bqx HM; lia). rewrite bind_Ok.
        rewrite ck_ok by (clear - NX HM; lia). rewrite bind_Ok.
        eexists; split; [reflexivity|]. split; [|clear - Rlt; lia].
        split; [clear - Hb HM; lia|]. split; [clear - Hb Rlt; lia|].
        split; [congruence|]. split; [now exists j|].
        split; [exists (k - q * j); rewrite <- Er; clear - Hk Hj; lia|].
        split; [rewrite <- Ex; exact X3|].
        split; [exact X2|]. split; [exact NX|exact Bx].
    - assert (PP : BIGPRIME = 1073741789) by reflexivity.
      split; [auto|]. split; [lia|]. split; [auto|].
      split; [exists 0; lia|]. split; [exists (-1); lia|]. repeat split; lia.
    - change (2 ^ Z.of_nat W) with 1180591620717411303424. unfold BIGPRIME. lia.
    - exists g, x. auto.
  Qed.

  Lemma invmod0_gen_ok a :
    Z.abs a + BIGPRIME <= M ->
    exists x, invmod0_gen ck a = Ok x /\ Z.abs x <= BIGPRIME /\
      (~ (BIGPRIME | a) -> (BIGPRIME | a * x - 1)) /\
      ((BIGPRIME | a) -> x = 0).
  Proof.
    intros Ha. assert (HP : BIGPRIME = 1073741789) by reflexivity.
    assert (Key : forall x, (BIGPRIME | a * x - 1) ->
       (~ (BIGPRIME | a) -> (BIGPRIME | a * x - 1)) /\ ((BIGPRIME | a) -> x = 0)).
    { intros x H. split; auto. intros Hd. exfalso.
      assert (D : (BIGPRIME | 1)).
      { replace 1 with (a * x - (a * x - 1)) by ring.
        apply Z.divide_sub_r; auto. now apply Z.divide_mul_l. }
      apply Z.divide_1_r in D. lia. }
    unfold invmod0_gen.
    destruct ((0 <? a) && (a <? 20)) eqn:C1.
    { apply andb_true_iff in C1. rewrite !Z.ltb_lt in C1.
      destruct (table_invs_ok a) as (t & -> & Bt & Dt); [lia|].
      exists t. split; [reflexivity|]. split; [lia|]. auto. }
    rewrite ck_ok by lia. rewrite bind_Ok.
    destruct ((0 <? - a) && (- a <? 20)) eqn:C2.
    { apply andb_true_iff in C2. rewrite !Z.ltb_lt in C2.
      destruct (table_invs_ok (- a)) as (t & -> & Bt & Dt); [lia|].
      rewrite bind_Ok, ck_ok by lia.
      exists (- t). split; [reflexivity|]. split; [lia|]. apply Key.
      now replace (a * - t - 1) with (- a * t - 1) by ring. }
    rewrite ck_ok by lia. rewrite bind_Ok.
    destruct ((0 <? - a + BIGPRIME) && (- a + BIGPRIME <? 20)) eqn:C3.
    { apply andb_true_iff in C3. rewrite !Z.ltb_lt in C3.
      destruct (table_invs_ok (- a + BIGPRIME)) as (t & -> & Bt & [k Dt]); [lia|].
      rewrite bind_Ok, ck_ok by lia.
      exists (- t). split; [reflexivity|]. split; [lia|]. apply Key.
      exists (k - t). lia. }
    rewrite ck_ok by lia. rewrite bind_Ok.
    destruct ((0 <? a - BIGPRIME) && (a - BIGPRIME <? 20)) eqn:C4.
    { apply andb_true_iff in C4. rewrite !Z.ltb_lt in C4.
      destruct (table_invs_ok (a - BIGPRIME)) as (t & -> & Bt & [k Dt]); [lia|].
      exists t. split; [reflexivity|]. split; [lia|]. apply Key.
      exists (k + t). lia. }
    destruct (inv0_loop a) as (g & x & -> & Hg & Hx & Bx); [lia|].
    rewrite bind_Ok.
    assert (G : ~ (BIGPRIME | a) -> Z.abs g = 1).
    { intros Hn. rewrite Hg. apply Zgcd_1_rel_prime. apply rel_prime_sym.
      destruct (prime_rel_prime BIGPRIME BIGPRIME_prime a Hn). now apply prime_rel_prime; [apply BIGPRIME_prime|]. }
    assert (G' : (BIGPRIME | a) -> Z.abs g = BIGPRIME).
    { intros Hd. rewrite Hg. rewrite Z.gcd_comm. apply Z.divide_gcd_iff; auto. lia. }
    destruct (Z.eqb_spec g 1) as [->|G1].
    { exists x. split; [reflexivity|]. split; [lia|]. auto. }
    destruct (Z.eqb_spec g (-1)) as [->|G2].
    { rewrite ck_ok by lia. exists (- x). split; [reflexivity|]. split; [lia|]. apply Key.
      destruct Hx as [k Hk]. exists (- k). lia. }
    exists 0. split; [reflexivity|]. split; [lia|]. split; auto.
    intros Hn. apply G in Hn. lia.
  Qed.
End Inv0.

Lemma invmod0_int_ok a :
  Z.abs a < BIGPRIME ->
  exists x, invmod0_int a = Ok x /\ Z.abs x <= BIGPRIME /\
    (~ (BIGPRIME | a) -> (BIGPRIME | a * x - 1)) /\ ((BIGPRIME | a) -> x = 0).
Proof.
  intros Ha. apply (invmod0_gen_ok c32 max32).
  - intros z Hz. apply c32_ok. rg.
  - unfold BIGPRIME. rg.
  - unfold BIGPRIME in *. rg.
Qed.

Lemma invmod0_long_ok a :
  Z.abs a + BIGPRIME <= max64 ->
  exists x, invmod0_long a = Ok x /\ Z.abs x <= BIGPRIME /\
    (~ (BIGPRIME | a) -> (BIGPRIME | a * x - 1)) /\ ((BIGPRIME | a) -> x = 0).
Proof.
  intros Ha. apply (invmod0_gen_ok c64 max64).
  - intros z Hz. apply c64_ok. rg.
  - unfold BIGPRIME. rg.
  - auto.
Qed.
