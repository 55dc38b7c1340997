(** Minimal models: minimise_c4c6 (curve.cc) and Curvedata::minimalize. *)
From Coq Require Import ZArith Znumtheory Zpow_facts Lia List Bool.
From Verif Require Import Base ArithModel ArithProofs RatModel MArithModel MArithProofs JacobiMath DivisorProofs CurveModel CurveProofs.
Import ListNotations.
Open Scope Z_scope.

(** *** powers of a prime *)
Lemma pow_gt0 p k : 2 <= p -> 0 <= k -> 0 < p ^ k.
Proof. intros. apply Z.pow_pos_nonneg; lia. Qed.
Lemma pow_ne0 p n k : 2 <= p -> 0 <= n -> 0 <= k -> p ^ (n * k) <> 0.
Proof. intros H Hn Hk. pose proof (pow_gt0 p (n * k) H (Z.mul_nonneg_nonneg n k Hn Hk)). lia. Qed.
Lemma prime_pow_div p x n : prime p -> 0 <= n -> (p | x ^ n) -> (p | x).
Proof.
  intros Hp Hn. revert n Hn. apply (natlike_ind (fun n => (p | x ^ n) -> (p | x))).
  - rewrite Z.pow_0_r. intros D. apply Z.divide_1_r in D. pose proof (prime_ge_2 p Hp). lia.
  - intros n Hn IH. rewrite Z.pow_succ_r by lia. intros D.
    destruct (prime_mult p Hp x (x ^ n) D); auto.
Qed.
Lemma coprime_pow p w k n : prime p -> ~ (p | w) -> 0 <= k -> 0 <= n -> rel_prime (p ^ k) (w ^ n).
Proof. intros Hp N Hk Hn. apply rel_prime_Zpower; auto. now apply prime_rel_prime. Qed.
Lemma pow_strip p w k n x : prime p -> ~ (p | w) -> 0 <= k -> 0 <= n -> (p ^ k | w ^ n * x) -> (p ^ k | x).
Proof. intros Hp N Hk Hn D. apply (Gauss (p ^ k) (w ^ n) x); auto. now apply coprime_pow. Qed.
Lemma pow_dvd p j k : 0 <= j <= k -> (p ^ j | p ^ k).
Proof. intros H. exists (p ^ (k - j)). rewrite <- Z.pow_add_r by lia. f_equal. lia. Qed.
Lemma pow_root p x n k : prime p -> 0 < n -> 0 <= k -> (p ^ (n * k) | x ^ n) -> (p ^ k | x).
Proof.
  intros Hp Hn Hk D. pose proof (prime_ge_2 p Hp) as P2.
  destruct (Z.eq_dec x 0) as [->|Nx]; [apply Z.divide_0_r|].
  destruct (pow_split p x Hp Nx) as (j & x' & Hj & -> & N).
  assert (X : exact_power p ((p ^ j * x') ^ n) (j * n)).
  { split; [nia|]. rewrite Z.pow_mul_l, <- Z.pow_mul_r by lia. split; [apply Z.divide_factor_l|].
    rewrite Z.pow_add_r, Z.pow_1_r by nia. intros [q Hq].
    assert (E : x' ^ n = q * p).
    { apply (Z.mul_reg_l _ _ (p ^ (j * n))); [pose proof (pow_gt0 p (j * n) P2 ltac:(nia)); lia|].
      rewrite Hq. ring. }
    apply N. apply (prime_pow_div p x' n); [auto|lia|]. exists q. exact E. }
  rewrite (pow_div_le p _ (j * n)) in D by (auto; nia).
  apply Z.divide_trans with (p ^ j); [|apply Z.divide_factor_l].
  exists (p ^ (j - k)). rewrite <- Z.pow_add_r by nia. f_equal. lia.
Qed.

(** Divisibility can be checked on prime powers. *)
Lemma div_by_prime_powers : forall v, 0 < v -> forall u, u <> 0 ->
  (forall p k, prime p -> 0 <= k -> (p ^ k | v) -> (p ^ k | u)) -> (v | u).
Proof.
  intros v Hv. assert (0 <= v) by lia. revert Hv. revert v H. apply (Z_lt_induction (fun v => 0 < v -> forall u, u <> 0 ->
    (forall p k, prime p -> 0 <= k -> (p ^ k | v) -> (p ^ k | u)) -> (v | u))).
  intros v IH Hv u Hu H. destruct (Z.eq_dec v 1) as [->|N1]; [apply Z.divide_1_l|].
  destruct (prime_divisor_ex v) as (p & Hp & [v' Ev]); [lia|]. pose proof (prime_ge_2 p Hp).
  assert (D1 : (p ^ 1 | u)) by (apply H; [auto|lia|]; rewrite Z.pow_1_r; now exists v').
  rewrite Z.pow_1_r in D1. destruct D1 as [u' Eu]. subst u v.
  apply Z.mul_divide_mono_r. apply IH; [nia|nia|nia|].
  intros q k Hq Hk D. destruct (Z.eq_dec q p) as [->|Nq].
  - assert (D2 : (p ^ (k + 1) | u' * p)).
    { apply H; [auto|lia|]. rewrite Z.pow_add_r, Z.pow_1_r by lia. now apply Z.mul_divide_mono_r. }
    rewrite Z.pow_add_r, Z.pow_1_r in D2 by lia. apply (proj1 (Z.mul_divide_cancel_r _ _ p ltac:(lia))) in D2. exact D2.
  - apply (pow_strip q p k 1); [auto| |auto|lia|].
    { intros D2. apply Nq. apply prime_div_prime; auto. }
    rewrite Z.pow_1_r, Z.mul_comm. apply H; auto. apply Z.divide_mul_l. exact D.
Qed.

(** *** the local conditions at 2 and 3 *)
Definition K2 (x4 x6 : Z) : Prop := x6 mod 4 = 3 \/ (16 | x4) /\ (x6 mod 32 = 0 \/ x6 mod 32 = 8).
Definition K3 (x6 : Z) : Prop := x6 mod 27 <> 9 /\ x6 mod 27 <> 18.
Definition Kp (p x4 x6 : Z) : Prop := (p = 2 -> K2 x4 x6) /\ (p = 3 -> K3 x6).

Lemma kraus_local x4 x6 : kraus x4 x6 <->
  x4 ^ 3 - x6 ^ 2 <> 0 /\ (1728 | x4 ^ 3 - x6 ^ 2) /\ forall p, prime p -> Kp p x4 x6.
Proof.
  unfold kraus. split.
  - intros (H1 & H2 & H3 & H4 & H5). do 2 (split; [auto|]). intros p _. split; intros _; [exact H5|split; auto].
  - intros (H1 & H2 & H). destruct (H 2 prime_2) as [H5 _]. destruct (H 3 prime_3) as [_ H3].
    specialize (H5 eq_refl). destruct (H3 eq_refl) as [H4 H6]. auto.
Qed.

Lemma K3_iff x : K3 x <-> ((9 | x) -> (27 | x)).
Proof.
  unfold K3. pose proof (Z.div_mod x 27 ltac:(lia)) as E. pose proof (Z.mod_pos_bound x 27 ltac:(lia)) as B. split.
  - intros [N9 N18] [k Hk]. exists (x / 27). lia.
  - intros H. split; intros F; rewrite F in E.
    + destruct (H ltac:(exists (3 * (x / 27) + 1); lia)) as [k Hk]. lia.
    + destruct (H ltac:(exists (3 * (x / 27) + 2); lia)) as [k Hk]. lia.
Qed.
Lemma K3_scale w x : ~ (3 | w) -> K3 (w ^ 6 * x) <-> K3 x.
Proof.
  intros N. rewrite !K3_iff. change 9 with (3 ^ 2). change 27 with (3 ^ 3).
  assert (S : forall k, 0 <= k -> (3 ^ k | w ^ 6 * x) <-> (3 ^ k | x)).
  { intros k Hk. split; [apply pow_strip; auto using prime_3; lia|]. intros D. now apply Z.divide_mul_r. }
  rewrite !S by lia. reflexivity.
Qed.
Lemma odd_sq w : ~ (2 | w) -> exists t, w * w = 8 * t + 1.
Proof.
  intros N. destruct (Z.Even_or_Odd w) as [[h Hh]|[h Hh]]; [exfalso; apply N; exists h; lia|].
  destruct (Z.Even_or_Odd h) as [[j Hj]|[j Hj]]; subst.
  - exists (j * (2 * j + 1)). ring.
  - exists ((2 * j + 1) * (j + 1)). ring.
Qed.
Lemma K2_scale w x4 x6 : ~ (2 | w) -> K2 (w ^ 4 * x4) (w ^ 6 * x6) <-> K2 x4 x6.
Proof.
  intros N. destruct (odd_sq w N) as [t Ht].
  assert (E6 : w ^ 6 = 1 + 8 * (64 * t ^ 3 + 24 * t ^ 2 + 3 * t)).
  { replace (w ^ 6) with ((w * w) ^ 3) by ring. rewrite Ht. ring. }
  set (s := 64 * t ^ 3 + 24 * t ^ 2 + 3 * t) in *. clearbody s. rewrite E6.
  assert (A : ((1 + 8 * s) * x6) mod 4 = x6 mod 4).
  { replace ((1 + 8 * s) * x6) with (x6 + (2 * s * x6) * 4) by ring. apply Z.mod_add. lia. }
  assert (B : (16 | w ^ 4 * x4) <-> (16 | x4)).
  { change 16 with (2 ^ 4). split; [apply pow_strip; auto using prime_2; lia|]. intros D. now apply Z.divide_mul_r. }
  assert (C : forall i, 0 <= i <= 1 -> ((1 + 8 * s) * x6) mod 32 = 8 * i <-> x6 mod 32 = 8 * i).
  { intros i Hi. split; intros H.
    - pose proof (Z.div_mod ((1 + 8 * s) * x6) 32 ltac:(lia)) as E. rewrite H in E.
      set (q := (1 + 8 * s) * x6 / 32) in *. clearbody q.
      set (l := 4 * q + i - s * x6). assert (F : x6 = 8 * l) by (unfold l; lia). clearbody l.
      assert (G : x6 = 8 * i + (q - 2 * (s * l)) * 32).
      { rewrite F in E. rewrite F. replace ((1 + 8 * s) * (8 * l)) with (8 * l + 64 * (s * l)) in E by ring. lia. }
      rewrite G, Z.mod_add by lia. apply Z.mod_small. lia.
    - pose proof (Z.div_mod x6 32 ltac:(lia)) as E. rewrite H in E. set (q := x6 / 32) in *. clearbody q.
      replace ((1 + 8 * s) * x6) with (8 * i + (q + 8 * s * q + 2 * s * i) * 32) by (rewrite E; ring).
      rewrite Z.mod_add by lia. apply Z.mod_small. lia. }
  unfold K2. rewrite A, B. pose proof (C 0 ltac:(lia)) as C0. pose proof (C 1 ltac:(lia)) as C1.
  change (8 * 0) with 0 in C0. change (8 * 1) with 8 in C1. rewrite C0, C1. reflexivity.
Qed.
Lemma Kp_scale p w x4 x6 : ~ (p | w) -> Kp p (w ^ 4 * x4) (w ^ 6 * x6) <-> Kp p x4 x6.
Proof.
  intros N. unfold Kp. split; intros [A B]; split; intros ->;
    first [apply (K2_scale w); auto | apply (K3_scale w); auto].
Qed.

(** *** the exponent computed for one prime *)
Definition scales (p x4 x6 D k : Z) : Prop :=
  (p ^ (12 * k) | D) /\ exists y4 y6, x4 = p ^ (4 * k) * y4 /\ x6 = p ^ (6 * k) * y6 /\ Kp p y4 y6.

Lemma zz_shr_exact y n : 0 <= n -> zz_shr (2 ^ n * y) n = y.
Proof.
  intros H. unfold zz_shr. pose proof (pow_gt0 2 n ltac:(lia) H).
  rewrite Z.abs_mul, (Z.abs_eq (2 ^ n)) by lia. rewrite (Z.mul_comm (2 ^ n) (Z.abs y)), Z.div_mul by lia.
  rewrite Z.sgn_mul, (Z.sgn_pos (2 ^ n)), Z.mul_1_l by lia. rewrite Z.mul_comm. apply Z.abs_sgn.
Qed.

Section Local.
Variables x4 x6 D : Z.
Hypothesis HD : D <> 0.
Hypothesis HE : 1728 * D = x4 ^ 3 - x6 ^ 2.
Let g := Z.gcd (x6 * x6) D.
Lemma g_pos : 0 < g.
Proof.
  unfold g. pose proof (Z.gcd_nonneg (x6 * x6) D).
  destruct (Z.eq_dec (Z.gcd (x6 * x6) D) 0) as [F|]; [|lia]. apply Z.gcd_eq_0_r in F. contradiction.
Qed.

(** any scaling exponent is at most v(g)/12 *)
Lemma scales_g p k : prime p -> 0 <= k -> scales p x4 x6 D k -> (p ^ (12 * k) | g).
Proof.
  intros Hp Hk (HD12 & y4 & y6 & _ & E6 & _). apply Z.gcd_greatest; auto.
  rewrite E6. exists (y6 * y6). replace (12 * k) with (6 * k + 6 * k) by ring. rewrite Z.pow_add_r by lia. ring.
Qed.
Lemma g_div p k : prime p -> 0 <= k -> (p ^ (12 * k) | g) ->
  (p ^ (12 * k) | D) /\ (p ^ (4 * k) | x4) /\ (p ^ (6 * k) | x6).
Proof.
  intros Hp Hk Dg.
  assert (D1 : (p ^ (12 * k) | D)) by (eapply Z.divide_trans; [exact Dg|apply Z.gcd_divide_r]).
  assert (D2 : (p ^ (12 * k) | x6 ^ 2)).
  { eapply Z.divide_trans; [exact Dg|]. rewrite Z.pow_2_r. apply Z.gcd_divide_l. }
  split; [auto|]. split.
  - apply (pow_root p x4 3); [auto|lia|lia|]. replace (3 * (4 * k)) with (12 * k) by ring.
    replace (x4 ^ 3) with (1728 * D + x6 ^ 2) by lia. apply Z.divide_add_r; [now apply Z.divide_mul_r|auto].
  - apply (pow_root p x6 2); [auto|lia|lia|]. now replace (2 * (6 * k)) with (12 * k) by ring.
Qed.

Hypothesis HK : forall p, prime p -> Kp p x4 x6.

Lemma min_exp_ok p : prime p -> exists e, min_exp x4 x6 g p = Ok e /\ 0 <= e /\ scales p x4 x6 D e /\
  forall k, 0 <= k -> scales p x4 x6 D k -> k <= e.
Proof.
  intros Hp. pose proof (prime_ge_2 p Hp) as P2. pose proof g_pos as G0. unfold min_exp.
  destruct (val_z_ok p g) as (v & -> & Hv & X); [lia|lia|]. rewrite bind_Ok. cbv zeta.
  set (d := v / 12). assert (Hd : 0 <= d) by (apply Z.div_pos; lia).
  pose proof (Z.div_mod v 12 ltac:(lia)) as Ev. pose proof (Z.mod_pos_bound v 12 ltac:(lia)) as Bv. fold d in Ev.
  assert (Dg : (p ^ (12 * d) | g)).
  { apply (pow_div_le p g v); [auto|split; auto|lia|lia]. }
  destruct (g_div p d Hp Hd Dg) as (D12 & [y4 E4] & [y6 E6]).
  rewrite Z.mul_comm in E4. rewrite Z.mul_comm in E6.
  assert (MAX : forall k, 0 <= k -> scales p x4 x6 D k -> k <= d).
  { intros k Hk S. pose proof (scales_g p k Hp Hk S) as T.
    apply (pow_div_le p g v) in T; [lia|auto|split; auto|lia]. }
  (* once Kp decides *)
  assert (DEC : Kp p y4 y6 -> scales p x4 x6 D d).
  { intros K. split; [auto|]. exists y4, y6. auto. }
  assert (UNI : scales p x4 x6 D d -> Kp p y4 y6).
  { intros (_ & z4 & z6 & F4 & F6 & K).
    pose proof (pow_gt0 p (4 * d) P2 ltac:(lia)). pose proof (pow_gt0 p (6 * d) P2 ltac:(lia)).
    assert (y4 = z4) by (apply (Z.mul_reg_l _ _ (p ^ (4 * d))); [lia|congruence]).
    assert (y6 = z6) by (apply (Z.mul_reg_l _ _ (p ^ (6 * d))); [lia|congruence]). congruence. }
  assert (ZERO : d = 0 -> Kp p y4 y6).
  { intros Z0. rewrite Z0, Z.mul_0_r, Z.pow_0_r, Z.mul_1_l in E4, E6. subst y4 y6. auto. }
  assert (DOWN : 0 < d -> (p = 2 \/ p = 3) -> scales p x4 x6 D (d - 1)).
  { intros Pd P23. split.
    { eapply Z.divide_trans; [|exact D12]. apply pow_dvd. lia. }
    exists (p ^ 4 * y4), (p ^ 6 * y6). split.
    { rewrite E4. replace (4 * d) with (4 * (d - 1) + 4) by ring. rewrite Z.pow_add_r by lia. ring. }
    split. { rewrite E6. replace (6 * d) with (6 * (d - 1) + 6) by ring. rewrite Z.pow_add_r by lia. ring. }
    split; intros ->.
    - right. split; [exists y4; ring|]. left. apply Z.mod_divide; [lia|]. exists (2 * y6). ring.
    - apply K3_iff. intros _. exists (27 * y6). ring. }
  assert (FIN : forall b : bool, (p = 2 \/ p = 3) -> (b = false <-> Kp p y4 y6) ->
    exists e, Ok (if b then d - 1 else d) = Ok e /\ 0 <= e /\ scales p x4 x6 D e /\
      forall k, 0 <= k -> scales p x4 x6 D k -> k <= e).
  { intros [|] P23 B; (eexists; split; [reflexivity|]).
    - assert (NK : ~ Kp p y4 y6) by (intros K; apply B in K; discriminate).
      assert (0 < d) by (destruct (Z.eq_dec d 0); [exfalso; apply NK; auto|lia]).
      split; [lia|]. split; [auto|]. intros k Hk S. pose proof (MAX k Hk S).
      destruct (Z.eq_dec k d) as [->|]; [exfalso; apply NK; auto|lia].
    - split; [auto|]. split; [apply DEC, B; reflexivity|auto]. }
  destruct (Z.eqb_spec p 2) as [->|N2].
  { assert (Z4 : zz_shr x4 (4 * d) = y4) by (rewrite E4; apply zz_shr_exact; lia).
    assert (Z6 : zz_shr x6 (6 * d) = y6) by (rewrite E6; apply zz_shr_exact; lia).
    rewrite Z4, Z6.
    destruct (mod_zl_ok y4 16) as (a & -> & [ka Da] & Ba & Ea); [lia|]. rewrite bind_Ok.
    destruct (mod_zl_ok y6 32) as (b & -> & [kb Db] & Bb & Eb); [lia|]. rewrite bind_Ok. cbv zeta.
    apply FIN; [auto|].
    set (b' := if b <? 0 then b + 32 else b).
    assert (Eb' : b' = y6 mod 32).
    { unfold b'. pose proof (Z.mod_pos_bound y6 32 ltac:(lia)). clear - Bb Eb H. destruct (Z.ltb_spec 32 (2 * (y6 mod 32))), (Z.ltb_spec b 0); lia. }
    pose proof (Z.mod_pos_bound y6 32 ltac:(lia)) as Bm.
    rewrite Z.rem_mod_nonneg by lia. rewrite Eb'.
    assert (M4 : (y6 mod 32) mod 4 = y6 mod 4).
    { rewrite <- (Zmod_div_mod 4 32 y6); [reflexivity|lia|lia|now exists 8]. }
    rewrite M4.
    assert (A0 : a = 0 <-> (16 | y4)).
    { split; [intros ->; exists ka; lia|]. intros [j Hj]. lia. }
    unfold Kp, K2. rewrite andb_false_iff, !negb_false_iff, andb_true_iff, orb_true_iff, !Z.eqb_eq, A0.
    split; [intros H; split; [intros _; tauto|discriminate]|]. intros [H _]. specialize (H eq_refl). tauto. }
  destruct (Z.eqb_spec p 3) as [->|N3].
  { assert (V : exists w, val_z 3 x6 = Ok w /\ (w = 6 * d + 2 <-> ~ K3 y6)).
    { destruct (Z.eq_dec x6 0) as [Z0|N0].
      - exists 99999. rewrite Z0. split; [reflexivity|]. split; [lia|]. intros NK. exfalso. apply NK.
        assert (y6 = 0). { pose proof (pow_gt0 3 (6 * d) ltac:(lia) ltac:(lia)). rewrite E6 in Z0. nia. }
        subst. apply K3_iff. intros _. apply Z.divide_0_r.
      - destruct (val_z_ok 3 x6) as (w & -> & Hw & Xw); [auto|lia|]. exists w. split; [reflexivity|].
        assert (XP : exact_power 3 x6 w) by (split; auto).
        assert (S : forall k, 0 <= k -> (3 ^ k | y6) <-> 6 * d + k <= w).
        { intros k Hk. rewrite <- (pow_div_le 3 x6 w) by (auto; lia). rewrite E6, Z.pow_add_r by lia.
          symmetry. apply Z.mul_divide_cancel_l. pose proof (pow_gt0 3 (6 * d) ltac:(lia) ltac:(lia)). lia. }
        rewrite K3_iff. change 9 with (3 ^ 2). change 27 with (3 ^ 3). rewrite !S by lia.
        split; [lia|]. intros NK. destruct (Z.le_gt_cases (6 * d + 2) w); [|exfalso; apply NK; lia].
        destruct (Z.le_gt_cases (6 * d + 3) w); [exfalso; apply NK; auto|lia]. }
    destruct V as (w & -> & V). rewrite bind_Ok. apply FIN; [auto|].
    destruct (Z.eqb_spec w (6 * d + 2)) as [W|W].
    - split; [discriminate|]. intros [_ K]. exfalso. apply V in W. apply W. auto.
    - split; [|reflexivity]. intros _. split; [discriminate|]. intros _.
      destruct (Z.eq_dec (y6 mod 27) 9) as [F|F]; [exfalso; apply W, V; unfold K3; tauto|].
      destruct (Z.eq_dec (y6 mod 27) 18) as [F'|F']; [exfalso; apply W, V; unfold K3; tauto|]. split; auto. }
  exists d. split; [reflexivity|]. split; [auto|]. split; [|auto]. apply DEC. split; intros ->; contradiction.
Qed.

(** *** the loop over the primes *)
Definition good (u : Z) : Prop := 0 < u /\ (u ^ 4 | x4) /\ (u ^ 6 | x6) /\ (u ^ 12 | D).

Lemma pow_of_mul u p d n : 0 <= d -> 0 <= n -> (u * p ^ d) ^ n = p ^ (n * d) * u ^ n.
Proof. intros. rewrite Z.pow_mul_l, <- Z.pow_mul_r by lia. rewrite (Z.mul_comm d n). ring. Qed.
Lemma scales_mono p k : prime p -> 0 <= k -> scales p x4 x6 D k ->
  (p ^ (4 * k) | x4) /\ (p ^ (6 * k) | x6) /\ (p ^ (12 * k) | D).
Proof.
  intros Hp Hk (HD' & y4 & y6 & -> & -> & _). split; [apply Z.divide_factor_l|]. split; [apply Z.divide_factor_l|auto].
Qed.

Lemma min_loop_ok : forall ps u, NoDup ps -> Forall prime ps -> good u ->
  (forall p, In p ps -> ~ (p | u)) ->
  exists u', min_loop x4 x6 g ps u = Ok u' /\ good u' /\
    (forall p, prime p -> ~ In p ps -> forall k, 0 <= k -> (p ^ k | u') <-> (p ^ k | u)) /\
    (forall p, In p ps -> exists e w, 0 <= e /\ u' = p ^ e * w /\ ~ (p | w) /\ scales p x4 x6 D e /\
      forall k, 0 <= k -> scales p x4 x6 D k -> k <= e).
Proof.
  induction ps as [|p ps IH]; intros u ND FP G NU.
  - exists u. split; [reflexivity|]. split; [auto|]. split; [reflexivity|]. intros p [].
  - inversion_clear ND as [|? ? Nin ND']. inversion_clear FP as [|? ? Hp FP'].
    pose proof (prime_ge_2 p Hp) as P2.
    destruct (min_exp_ok p Hp) as (e & Ee & He & S & MX). cbn [min_loop]. rewrite Ee, bind_Ok.
    set (u1 := if 0 <? e then u * p ^ e else u).
    assert (U1 : u1 = u * p ^ e).
    { unfold u1. destruct (Z.ltb_spec 0 e); [reflexivity|]. replace e with 0 by lia. rewrite Z.pow_0_r. ring. }
    clearbody u1. subst u1.
    assert (Npu : ~ (p | u)) by (apply NU; now left).
    destruct (scales_mono p e Hp He S) as (S4 & S6 & S12).
    assert (G1 : good (u * p ^ e)).
    { destruct G as (G0 & G4 & G6 & G12). pose proof (pow_gt0 p e P2 He).
      assert (NP : forall n, 0 <= n -> ~ (p | u ^ n)) by (intros n Hn F; apply Npu; eapply prime_pow_div; eauto).
      split; [apply Z.mul_pos_pos; auto|]. rewrite !pow_of_mul by lia. repeat split; (apply pow_coprime_div; [auto|apply NP; lia|lia|auto]). }
    destruct (IH (u * p ^ e) ND' FP' G1) as (u' & -> & G' & OUT & INN).
    { intros q Hq F. pose proof (proj1 (Forall_forall _ _) FP' q Hq) as Pq.
      destruct (prime_mult q Pq _ _ F) as [F1|F1]; [apply (NU q); [now right|auto]|].
      apply prime_power_prime in F1; auto. subst. contradiction. }
    exists u'. split; [reflexivity|]. split; [auto|]. split.
    + intros q Pq Nq k Hk. rewrite OUT by (auto; intros F; apply Nq; now right).
      split; [|intros F; now apply Z.divide_mul_l].
      rewrite Z.mul_comm. apply pow_strip; auto. intros F. apply Nq. left. symmetry. apply prime_div_prime; auto.
    + intros q [<-|Hq]; [|auto].
      assert (U' : 0 < u') by apply G'.
      destruct (pow_split p u' Hp ltac:(lia)) as (j & w & Hj & Ew & Nw).
      assert (X : exact_power p u' j).
      { split; [auto|]. split; [rewrite Ew; apply Z.divide_factor_l|].
        rewrite Ew, Z.pow_add_r, Z.pow_1_r by lia. intros F. apply Nw.
        apply Z.mul_divide_cancel_l in F; auto. pose proof (pow_gt0 p j P2 Hj); lia. }
      assert (X2 : exact_power p (u * p ^ e) e).
      { split; [auto|]. split; [apply Z.divide_factor_r|].
        rewrite Z.mul_comm, Z.pow_add_r, Z.pow_1_r by lia. intros F. apply Npu.
        apply Z.mul_divide_cancel_l in F; auto. pose proof (pow_gt0 p e P2 He); lia. }
      assert (j = e).
      { apply Z.le_antisymm.
        - rewrite <- (pow_div_le p (u * p ^ e) e) by auto. rewrite <- OUT by auto. apply X.
        - rewrite <- (pow_div_le p u' j) by auto. rewrite OUT by auto. apply X2. }
      subst j. exists e, w. auto 6.
Qed.

Definition best (u : Z) : Prop := good u /\ forall p, prime p -> exists e w, 0 <= e /\ u = p ^ e * w /\ ~ (p | w) /\
  scales p x4 x6 D e /\ forall k, 0 <= k -> scales p x4 x6 D k -> k <= e.

Lemma scales_0 p : prime p -> scales p x4 x6 D 0.
Proof.
  intros Hp. split; [rewrite Z.mul_0_r; apply Z.divide_1_l|]. exists x4, x6. rewrite !Z.mul_0_r, !Z.pow_0_r. split; [ring|].
  split; [ring|auto].
Qed.
Lemma pow1_dvd p k : 1 <= k -> (p | p ^ k).
Proof. intros. exists (p ^ (k - 1)). replace k with ((k - 1) + 1) at 1 by ring. rewrite Z.pow_add_r by lia. ring. Qed.
Lemma not_prime_div_1 p : prime p -> ~ (p | 1).
Proof. intros Hp F. apply Z.divide_1_r in F. pose proof (prime_ge_2 p Hp). lia. Qed.
Lemma best_loop ps : prime_base g ps -> exists u, min_loop x4 x6 g ps 1 = Ok u /\ best u.
Proof.
  intros (ND & FP & ALL). destruct (min_loop_ok ps 1 ND FP) as (u & E & G & OUT & INN).
  { split; [lia|]. rewrite !Z.pow_1_l by lia. repeat split; apply Z.divide_1_l. }
  { intros p Hp. apply not_prime_div_1. now apply (proj1 (Forall_forall _ _) FP). }
  exists u. split; [auto|]. split; [auto|]. intros p Hp.
  destruct (in_dec Z.eq_dec p ps) as [i|n]; [auto|].
  exists 0, u. split; [lia|]. split; [rewrite Z.pow_0_r; ring|]. split.
  { intros F. apply (not_prime_div_1 p Hp). rewrite <- (Z.pow_1_r p) in F |- * at 1. apply OUT; auto; lia. }
  split; [now apply scales_0|]. intros k Hk S. destruct (Z.le_gt_cases k 0); [auto|]. exfalso. apply n, ALL; auto.
  eapply Z.divide_trans; [|apply (scales_g p k); auto]. apply pow1_dvd. lia.
Qed.
Lemma best_1 : Z.gcd x4 x6 = 1 \/ g = 1 -> best 1.
Proof.
  intros H. split.
  { split; [lia|]. rewrite !Z.pow_1_l by lia. repeat split; apply Z.divide_1_l. }
  intros p Hp. exists 0, 1. split; [lia|]. split; [reflexivity|]. split; [now apply not_prime_div_1|].
  split; [now apply scales_0|]. intros k Hk S. destruct (Z.le_gt_cases k 0); [auto|]. exfalso.
  apply (not_prime_div_1 p Hp). destruct H as [H|H]; rewrite <- H.
  - destruct (scales_mono p k Hp Hk S) as (S4 & S6 & _). apply Z.gcd_greatest.
    + eapply Z.divide_trans; [|exact S4]. apply pow1_dvd. lia.
    + eapply Z.divide_trans; [|exact S6]. apply pow1_dvd. lia.
  - eapply Z.divide_trans; [|apply (scales_g p k); auto]. apply pow1_dvd. lia.
Qed.

Lemma best_kraus u : best u -> kraus (x4 / u ^ 4) (x6 / u ^ 6) /\ x4 = u ^ 4 * (x4 / u ^ 4) /\
  x6 = u ^ 6 * (x6 / u ^ 6) /\ D = u ^ 12 * (D / u ^ 12) /\ 1728 * (D / u ^ 12) = (x4 / u ^ 4) ^ 3 - (x6 / u ^ 6) ^ 2.
Proof.
  intros ((U & [n4 E4] & [n6 E6] & [nd E12]) & LOC).
  assert (P : forall n, 0 <= n -> u ^ n <> 0) by (intros n Hn; apply Z.pow_nonzero; lia).
  assert (Q4 : x4 / u ^ 4 = n4) by (rewrite E4; apply Z.div_mul, P; lia).
  assert (Q6 : x6 / u ^ 6 = n6) by (rewrite E6; apply Z.div_mul, P; lia).
  assert (Q12 : D / u ^ 12 = nd) by (rewrite E12; apply Z.div_mul, P; lia).
  rewrite Q4, Q6, Q12.
  assert (ED : 1728 * nd = n4 ^ 3 - n6 ^ 2).
  { apply (Z.mul_reg_l _ _ (u ^ 12)); [apply P; lia|].
    transitivity (1728 * D); [rewrite E12; ring|]. rewrite HE, E4, E6. ring. }
  split; [|split; [rewrite Z.mul_comm; auto|split; [rewrite Z.mul_comm; auto|split; [rewrite Z.mul_comm; auto|auto]]]].
  apply kraus_local. rewrite <- ED. split.
  { intros F. apply HD. rewrite E12. assert (N0 : nd = 0) by (clear - F; lia). rewrite N0. ring. }
  split; [exists nd; ring|]. intros p Hp. pose proof (prime_ge_2 p Hp) as P2.
  destruct (LOC p Hp) as (e & w & He & Eu & Nw & (_ & y4 & y6 & F4 & F6 & K) & _).
  apply (Kp_scale p w); [auto|].
  assert (y4 = w ^ 4 * n4).
  { apply (Z.mul_reg_l _ _ (p ^ (4 * e))); [apply pow_ne0; [auto|clear; lia|auto]|].
    rewrite <- F4, E4, Eu, Z.pow_mul_l, <- Z.pow_mul_r by (auto; clear; lia). replace (e * 4) with (4 * e) by ring. ring. }
  assert (y6 = w ^ 6 * n6).
  { apply (Z.mul_reg_l _ _ (p ^ (6 * e))); [apply pow_ne0; [auto|clear; lia|auto]|].
    rewrite <- F6, E6, Eu, Z.pow_mul_l, <- Z.pow_mul_r by (auto; clear; lia). replace (e * 6) with (6 * e) by ring. ring. }
  congruence.
Qed.

Lemma best_max u : best u -> forall a b m4 m6, 0 < a -> 0 < b -> x4 * b ^ 4 = a ^ 4 * m4 -> x6 * b ^ 6 = a ^ 6 * m6 ->
  kraus m4 m6 -> (a | u * b).
Proof.
  intros ((U & _) & LOC) a b m4 m6 Ha Hb A4 A6 K. apply kraus_local in K. destruct K as (ND & [D' ED'] & K).
  assert (A12 : D * b ^ 12 = a ^ 12 * D').
  { apply (Z.mul_reg_l _ _ 1728); [lia|].
    transitivity ((x4 * b ^ 4) ^ 3 - (x6 * b ^ 6) ^ 2).
    - transitivity ((1728 * D) * b ^ 12); [ring|]. rewrite HE. ring.
    - rewrite A4, A6. transitivity (a ^ 12 * (m4 ^ 3 - m6 ^ 2)); [ring|]. rewrite ED'. ring. }
  apply div_by_prime_powers; [auto|clear - U Hb; nia|]. intros p i Hp Hi Dv. pose proof (prime_ge_2 p Hp) as P2.
  destruct (pow_split p a Hp ltac:(lia)) as (i' & a' & Hi' & Ea & Na).
  destruct (pow_split p b Hp ltac:(lia)) as (j & b' & Hj & Eb & Nb).
  destruct (Z.le_gt_cases i j) as [Lij|Lij].
  { apply Z.divide_mul_r. rewrite Eb. apply Z.divide_mul_l. apply pow_dvd. auto. }
  assert (Li : i <= i').
  { apply (pow_div_le p a i' i); auto. split; [auto|]. split; [rewrite Ea; apply Z.divide_factor_l|].
    rewrite Ea, Z.pow_add_r, Z.pow_1_r by (auto; clear; lia). intros F. apply Na.
    apply Z.mul_divide_cancel_l in F; auto. pose proof (pow_gt0 p i' P2 Hi') as F2. clear - F2; lia. }
  set (k := i' - j). assert (Hk : 0 <= k) by (clear - k Lij Li; unfold k; lia).
  destruct (LOC p Hp) as (e & w & He & Eu & Nw & _ & MX).
  assert (PWA : forall n, 0 <= n -> a ^ n = p ^ (n * j) * (p ^ (n * k) * a' ^ n)).
  { clear - Ea Hi' Hj Hk. intros n Hn. rewrite Ea, Z.pow_mul_l, <- Z.pow_mul_r by lia.
    replace (i' * n) with (n * j + n * k) by (unfold k; ring). rewrite Z.pow_add_r by nia. ring. }
  assert (PWB : forall n, 0 <= n -> b ^ n = p ^ (n * j) * b' ^ n).
  { clear - Eb Hj. intros n Hn. rewrite Eb, Z.pow_mul_l, <- Z.pow_mul_r by lia. rewrite (Z.mul_comm j n). ring. }
  assert (CAN : forall n x m, 0 <= n -> x * b ^ n = a ^ n * m -> x * b' ^ n = p ^ (n * k) * (a' ^ n * m)).
  { clear - PWA PWB P2 Hj. intros n x m Hn E. rewrite PWA, PWB in E by lia.
    apply (Z.mul_reg_l _ _ (p ^ (n * j))); [now apply pow_ne0|].
    transitivity (x * (p ^ (n * j) * b' ^ n)); [ring|]. rewrite E. ring. }
  assert (DIV : forall n x m, 0 <= n -> x * b' ^ n = p ^ (n * k) * m -> exists y, x = p ^ (n * k) * y /\ y * b' ^ n = m).
  { clear - P2 Hp Nb Hk. intros n x m Hn E. assert (Dx : (p ^ (n * k) | x)).
    { apply (pow_strip p b' (n * k) n); [auto|auto|nia|auto|]. exists m. rewrite Z.mul_comm, E. ring. }
    destruct Dx as [y Ey]. exists y. split; [rewrite Ey; ring|].
    apply (Z.mul_reg_l _ _ (p ^ (n * k))); [now apply pow_ne0|].
    rewrite <- E, Ey. ring. }
  assert (S : scales p x4 x6 D k).
  { destruct (DIV 12 D _ ltac:(clear; lia) (CAN 12 D D' ltac:(clear; lia) A12)) as (yd & Ed & _).
    destruct (DIV 4 x4 _ ltac:(clear; lia) (CAN 4 x4 m4 ltac:(clear; lia) A4)) as (y4 & F4 & H4).
    destruct (DIV 6 x6 _ ltac:(clear; lia) (CAN 6 x6 m6 ltac:(clear; lia) A6)) as (y6 & F6 & H6).
    split; [exists yd; rewrite Ed; ring|]. exists y4, y6. split; [auto|]. split; [auto|].
    apply (Kp_scale p b'); [auto|]. rewrite (Z.mul_comm _ y4), (Z.mul_comm _ y6), H4, H6.
    apply (Kp_scale p a'); auto. }
  pose proof (MX k Hk S) as Lk.
  apply Z.divide_trans with (p ^ (e + j)); [apply pow_dvd; clear - k Lk Li Hi; unfold k in Lk; lia|].
  exists (w * b'). rewrite Eu, Eb, Z.pow_add_r by auto. ring.
Qed.
End Local.

(** ** minimise_c4c6 *)
Lemma minimise_ok pdivs x4 x6 : (forall n, 0 < n -> prime_base n (pdivs n)) -> kraus x4 x6 ->
  exists n4 n6 nd u, minimise_c4c6 pdivs x4 x6 = Ok (n4, n6, nd, u) /\ 0 < u /\ x4 = u ^ 4 * n4 /\ x6 = u ^ 6 * n6 /\
    1728 * nd = n4 ^ 3 - n6 ^ 2 /\ kraus n4 n6 /\
    forall a b m4 m6, 0 < a -> 0 < b -> x4 * b ^ 4 = a ^ 4 * m4 -> x6 * b ^ 6 = a ^ 6 * m6 -> kraus m4 m6 -> (a | u * b).
Proof.
  intros PD K. pose proof K as K0. apply kraus_local in K. destruct K as (ND & [D ED] & LOC).
  assert (HD : D <> 0) by (intros ->; lia). assert (HE : 1728 * D = x4 ^ 3 - x6 ^ 2) by lia.
  unfold minimise_c4c6.
  assert (E0 : (x4 * x4 * x4 - x6 * x6) / 1728 = D).
  { replace (x4 * x4 * x4 - x6 * x6) with (D * 1728) by (rewrite <- ED; ring). apply Z.div_mul. lia. }
  rewrite E0. cbv zeta.
  assert (ONE : best x4 x6 D 1 -> exists n4 n6 nd u, Ok (x4, x6, D, 1) = Ok (n4, n6, nd, u) /\ 0 < u /\ x4 = u ^ 4 * n4 /\
    x6 = u ^ 6 * n6 /\ 1728 * nd = n4 ^ 3 - n6 ^ 2 /\ kraus n4 n6 /\
    forall a b m4 m6, 0 < a -> 0 < b -> x4 * b ^ 4 = a ^ 4 * m4 -> x6 * b ^ 6 = a ^ 6 * m6 -> kraus m4 m6 -> (a | u * b)).
  { intros B. exists x4, x6, D, 1. split; [reflexivity|]. split; [lia|]. rewrite !Z.pow_1_l by lia.
    split; [ring|]. split; [ring|]. split; [auto|]. split; [auto|]. now apply (best_max x4 x6 D HE). }
  destruct (Z.eqb_spec (Z.gcd x4 x6) 1) as [G1|G1]; [apply ONE, best_1; auto|].
  destruct (Z.eqb_spec (Z.gcd (x6 * x6) D) 1) as [G2|G2]; [apply ONE, best_1; auto|].
  destruct (best_loop x4 x6 D HD HE LOC (pdivs (Z.gcd (x6 * x6) D))) as (u & -> & B).
  { apply PD. now apply g_pos. }
  rewrite bind_Ok. destruct (Z.eqb_spec u 1) as [->|N1]; [now apply ONE|].
  destruct (best_kraus x4 x6 D HD HE u B) as (K' & E4 & E6 & E12 & EE).
  assert (U : 0 < u) by apply B.
  replace (u * u * (u * u)) with (u ^ 4) by ring. replace (u * u * u ^ 4) with (u ^ 6) by ring.
  replace (u ^ 6 * u ^ 6) with (u ^ 12) by ring.
  assert (P : forall n, 0 <= n -> u ^ n <> 0) by (intros n Hn; apply Z.pow_nonzero; lia).
  rewrite !zz_div_ok by (apply P; lia). rewrite !bind_Ok.
  exists (x4 / u ^ 4), (x6 / u ^ 6), (D / u ^ 12), u. split; [reflexivity|]. split; [auto|].
  do 4 (split; [auto|]). apply (best_max x4 x6 D HE u B).
Qed.

(** ** isomorphism over Q
    (u,r,s,t) carries c to c' when x = u^2 x' + r, y = u^3 y' + s u^2 x' + t;
    clearing denominators every rational change of variables is of the shape
    [qiso]. *)
Definition scale_up (u : Z) (c : curve) : curve :=
  Cv (u * a1 c) (u ^ 2 * a2 c) (u ^ 3 * a3 c) (u ^ 4 * a4 c) (u ^ 6 * a6 c).
Definition carries (u r s t : Z) (c c' : curve) : Prop := tr_rst r s t c = scale_up u c'.
Definition qiso (c c' : curve) : Prop :=
  exists v w r s t, 0 < v /\ 0 < w /\ carries w r s t (scale_up v c) c'.

Lemma sb2_up u c : sb2 (scale_up u c) = u ^ 2 * sb2 c.
Proof. unfold sb2, scale_up. cbn [a1 a2]. ring. Qed.
Lemma sb4_up u c : sb4 (scale_up u c) = u ^ 4 * sb4 c.
Proof. unfold sb4, scale_up. cbn [a1 a3 a4]. ring. Qed.
Lemma sb6_up u c : sb6 (scale_up u c) = u ^ 6 * sb6 c.
Proof. unfold sb6, scale_up. cbn [a3 a6]. ring. Qed.
Lemma sc4_up u c : sc4 (scale_up u c) = u ^ 4 * sc4 c.
Proof. unfold sc4. rewrite sb2_up, sb4_up. ring. Qed.
Lemma sc6_up u c : sc6 (scale_up u c) = u ^ 6 * sc6 c.
Proof. unfold sc6. rewrite sb2_up, sb4_up, sb6_up. ring. Qed.
Lemma sdisc_up u c : sdisc (scale_up u c) = u ^ 12 * sdisc c.
Proof.
  assert (E : 1728 * sdisc (scale_up u c) = 1728 * (u ^ 12 * sdisc c)); [|clear - E; lia].
  transitivity (u ^ 12 * (1728 * sdisc c)); [|ring]. rewrite !s_disc, sc4_up, sc6_up. ring.
Qed.
Lemma carries_inv u r s t c c' : carries u r s t c c' -> sc4 c = u ^ 4 * sc4 c' /\ sc6 c = u ^ 6 * sc6 c' /\ sdisc c = u ^ 12 * sdisc c'.
Proof.
  unfold carries. intros H.
  rewrite <- (sc4_tr r s t c), <- (sc6_tr r s t c), <- (sdisc_tr r s t c), H, sc4_up, sc6_up, sdisc_up. auto.
Qed.

(** *** the change of variables found by minimalize(u,r,s,t) *)
Lemma par_sq x : exists k, x ^ 2 = x + 2 * k.
Proof.
  destruct (Z.Even_or_Odd x) as [[h ->]|[h ->]].
  - exists (2 * h * h - h). ring.
  - exists (2 * h * h + h). ring.
Qed.
Lemma mod3_cube x : exists k, x ^ 3 = x + 3 * k.
Proof.
  pose proof (Z.div_mod x 3 ltac:(lia)) as E. pose proof (Z.mod_pos_bound x 3 ltac:(lia)).
  set (q := x / 3) in *. assert (x = 3 * q \/ x = 3 * q + 1 \/ x = 3 * q + 2) as [F|[F|F]] by lia; rewrite F.
  - exists (9 * q ^ 3 - q). ring.
  - exists (9 * q ^ 3 + 9 * q ^ 2 + 2 * q). ring.
  - exists (9 * q ^ 3 + 18 * q ^ 2 + 11 * q + 2). ring.
Qed.
Lemma urst_ok c c' u : sc4 c = u ^ 4 * sc4 c' -> sc6 c = u ^ 6 * sc6 c' ->
  let s := (u * a1 c' - a1 c) / 2 in
  let r := (u * u * a2 c' - a2 c + s * a1 c + s * s) / 3 in
  let t := (u * u * u * a3 c' - a3 c - r * a1 c) / 2 in
  carries u r s t c c'.
Proof.
  intros E4 E6 s.
  assert (ES : a1 c + 2 * s = u * a1 c').
  { assert (X : exists k, u * a1 c' - a1 c = 2 * k).
    { assert (P : forall d, exists k, sc4 d = a1 d + 2 * k).
      { intros d. destruct (par_sq (a1 d)) as [k Hk]. destruct (par_sq (a1 d ^ 2)) as [l Hl].
        exists (l + k + 4 * a1 d ^ 2 * a2 d + 8 * a2 d ^ 2 - 12 * sb4 d).
        unfold sc4, sb2. replace ((a1 d ^ 2 + 4 * a2 d) ^ 2) with ((a1 d ^ 2) ^ 2 + 8 * a1 d ^ 2 * a2 d + 16 * a2 d ^ 2) by ring.
        rewrite Hl. rewrite Hk at 1. ring. }
      destruct (P c) as [k Hk], (P c') as [l Hl].
      destruct (par_sq u) as [m Hm]. destruct (par_sq (u ^ 2)) as [n Hn].
      assert (U4 : u ^ 4 = u + 2 * (m + n)).
      { replace (u ^ 4) with ((u ^ 2) ^ 2) by ring. rewrite Hn. rewrite Hm at 1. ring. }
      exists (k - (m + n) * (a1 c' + 2 * l) - u * l).
      rewrite Hk, Hl, U4 in E4. clear - E4.
      replace ((u + 2 * (m + n)) * (a1 c' + 2 * l)) with (u * a1 c' + 2 * (u * l) + 2 * ((m + n) * (a1 c' + 2 * l))) in E4 by ring.
      lia. }
    destruct X as [k Hk]. unfold s. rewrite (div_exact_eq _ 2 k) by (auto; lia). lia. }
  clearbody s. intros r.
  assert (ER : a2 c - s * a1 c + 3 * r - s ^ 2 = u ^ 2 * a2 c').
  { assert (X : exists k, u ^ 2 * sb2 c' - sb2 c = 3 * k).
    { assert (P : forall d, exists k, sc6 d = - sb2 d + 3 * k).
      { intros d. destruct (mod3_cube (sb2 d)) as [k Hk]. exists (- k + 12 * sb2 d * sb4 d - 72 * sb6 d).
        unfold sc6. rewrite Hk. ring. }
      destruct (P c) as [k Hk], (P c') as [l Hl]. destruct (mod3_cube (u ^ 2)) as [m Hm].
      assert (U6 : u ^ 6 = u ^ 2 + 3 * m) by (rewrite <- Hm; ring).
      rewrite Hk, Hl, U6 in E6. exists (- k + u ^ 2 * l + m * (- sb2 c' + 3 * l)). clear - E6.
      replace ((u ^ 2 + 3 * m) * (- sb2 c' + 3 * l)) with (- (u ^ 2 * sb2 c') + 3 * (u ^ 2 * l + m * (- sb2 c' + 3 * l))) in E6 by ring.
      lia. }
    destruct X as [k Hk].
    set (N := u * u * a2 c' - a2 c + s * a1 c + s * s) in r.
    assert (EN : 4 * N = 3 * k).
    { rewrite <- Hk. unfold N, sb2. replace (u ^ 2 * (a1 c' ^ 2 + 4 * a2 c')) with ((u * a1 c') ^ 2 + 4 * u ^ 2 * a2 c') by ring.
      rewrite <- ES. ring. }
    assert (N = 3 * r).
    { unfold r. rewrite (div_exact_eq N 3 (k - N)) by lia. lia. }
    transitivity (a2 c - s * a1 c + N - s ^ 2); [rewrite H; ring|]. unfold N. ring. }
  clearbody r. intros t.
  assert (R2 : u ^ 2 * sb2 c' = sb2 c + 12 * r).
  { unfold sb2. replace (u ^ 2 * (a1 c' ^ 2 + 4 * a2 c')) with ((u * a1 c') ^ 2 + 4 * (u ^ 2 * a2 c')) by ring.
    rewrite <- ES, <- ER. ring. }
  assert (R4 : u ^ 4 * sb4 c' = sb4 c + r * sb2 c + 6 * r ^ 2).
  { apply (Z.mul_reg_l _ _ 24); [discriminate|]. unfold sc4 in E4.
    assert (F : 24 * (u ^ 4 * sb4 c') = (u ^ 2 * sb2 c') ^ 2 - sb2 c ^ 2 + 24 * sb4 c).
    { replace ((u ^ 2 * sb2 c') ^ 2) with (u ^ 4 * (sb2 c' ^ 2 - 24 * sb4 c') + 24 * (u ^ 4 * sb4 c')) by ring.
      rewrite <- E4. ring. }
    rewrite F, R2. ring. }
  assert (R6 : u ^ 6 * sb6 c' = sb6 c + 2 * r * sb4 c + r ^ 2 * sb2 c + 4 * r ^ 3).
  { apply (Z.mul_reg_l _ _ 216); [discriminate|]. unfold sc6 in E6.
    assert (F : 216 * (u ^ 6 * sb6 c') = - (u ^ 2 * sb2 c') ^ 3 + 36 * (u ^ 2 * sb2 c') * (u ^ 4 * sb4 c') -
       (- sb2 c ^ 3 + 36 * sb2 c * sb4 c - 216 * sb6 c)).
    { rewrite E6. ring. }
    rewrite F, R2, R4. ring. }
  assert (ET : a3 c + r * a1 c + 2 * t = u ^ 3 * a3 c').
  { assert (X : exists k, u * u * u * a3 c' - a3 c - r * a1 c = 2 * k).
    { destruct (par_sq (u ^ 3 * a3 c')) as [k Hk]. destruct (par_sq (a3 c)) as [l Hl].
      destruct (par_sq (r * a1 c)) as [m Hm].
      exists (- k - 2 * u ^ 6 * a6 c' + l + 2 * a6 c + r * sb4 c + m + 2 * r ^ 2 * a2 c + 2 * r ^ 3).
      assert (F : (u ^ 3 * a3 c') ^ 2 = a3 c ^ 2 + 4 * a6 c + 2 * r * sb4 c + (r * a1 c) ^ 2 + 4 * r ^ 2 * a2 c + 4 * r ^ 3 - 4 * u ^ 6 * a6 c').
      { transitivity (u ^ 6 * sb6 c' - 4 * u ^ 6 * a6 c'); [unfold sb6; ring|]. rewrite R6. unfold sb6, sb2. ring. }
      rewrite Hk, Hl, Hm in F.
      assert (F' : u ^ 3 * a3 c' = a3 c + 2 * l + 4 * a6 c + 2 * r * sb4 c + (r * a1 c + 2 * m) + 4 * r ^ 2 * a2 c + 4 * r ^ 3 - 4 * u ^ 6 * a6 c' - 2 * k).
      { rewrite <- F. ring. }
      replace (u * u * u) with (u ^ 3) by ring. rewrite F'. ring. }
    destruct X as [k Hk]. unfold t. rewrite (div_exact_eq _ 2 k) by (auto; discriminate).
    rewrite <- Hk. ring. }
  clearbody t. unfold carries, tr_rst, scale_up. apply curve_eq; auto.
  - apply (Z.mul_reg_l _ _ 2); [discriminate|].
    transitivity (u ^ 4 * sb4 c' - (u * a1 c') * (u ^ 3 * a3 c')); [|unfold sb4; ring].
    rewrite R4, <- ES, <- ET. unfold sb4, sb2. ring.
  - apply (Z.mul_reg_l _ _ 4); [discriminate|].
    transitivity (u ^ 6 * sb6 c' - (u ^ 3 * a3 c') ^ 2); [|unfold sb6; ring].
    rewrite R6, <- ET. unfold sb6, sb4, sb2. ring.
Qed.

(** ** Curvedata::minimalize *)
Definition minimal (c : curve) : Prop := sdisc c <> 0 /\
  (forall c', qiso c c' -> (sdisc c | sdisc c')).
Definition normal (c : curve) : Prop := (a1 c = 0 \/ a1 c = 1) /\ (a3 c = 0 \/ a3 c = 1) /\ -1 <= a2 c <= 1.
Definition pdivs_spec (pdivs : Z -> list Z) : Prop := forall n, 0 < n -> prime_base n (pdivs n).

Lemma minimal_of x4 x6 u c : 0 < u -> kraus (sc4 c) (sc6 c) -> x4 = u ^ 4 * sc4 c -> x6 = u ^ 6 * sc6 c ->
  (forall a b m4 m6, 0 < a -> 0 < b -> x4 * b ^ 4 = a ^ 4 * m4 -> x6 * b ^ 6 = a ^ 6 * m6 -> kraus m4 m6 -> (a | u * b)) ->
  minimal c.
Proof.
  intros U K E4 E6 MX. assert (ND : sdisc c <> 0) by (eapply kraus_disc; eauto). split; [auto|].
  intros c' (v & w & r & s & t & V & W & CA). apply carries_inv in CA. rewrite sc4_up, sc6_up, sdisc_up in CA.
  destruct CA as (C4 & C6 & CD).
  assert (ND' : sdisc c' <> 0).
  { intros F. rewrite F, Z.mul_0_r in CD. apply Z.mul_eq_0 in CD as [F2|F2]; [|contradiction].
    apply Z.pow_eq_0 in F2; lia. }
  destruct (MX (u * w) v (sc4 c') (sc6 c')) as [q Hq].
  - apply Z.mul_pos_pos; auto.
  - auto.
  - rewrite E4. transitivity (u ^ 4 * (v ^ 4 * sc4 c)); [ring|]. rewrite C4. ring.
  - rewrite E6. transitivity (u ^ 6 * (v ^ 6 * sc6 c)); [ring|]. rewrite C6. ring.
  - now apply kraus_necessary.
  - assert (Ev : v = q * w).
    { apply (Z.mul_reg_l _ _ u); [clear - U; lia|]. rewrite Hq. ring. }
    exists (q ^ 12). apply (Z.mul_reg_l _ _ (w ^ 12)).
    { apply Z.pow_nonzero; [clear - W; lia|clear; lia]. }
    rewrite <- CD, Ev. ring.
Qed.

Lemma not_isnull c : sdisc c <> 0 -> isnull c = false.
Proof.
  intros H. unfold isnull. destruct (Z.eqb_spec (a1 c) 0) as [A1|]; [|reflexivity].
  destruct (Z.eqb_spec (a2 c) 0) as [A2|]; [|reflexivity]. destruct (Z.eqb_spec (a3 c) 0) as [A3|]; [|reflexivity].
  destruct (Z.eqb_spec (a4 c) 0) as [A4|]; [|reflexivity]. destruct (Z.eqb_spec (a6 c) 0) as [A6|]; [|reflexivity].
  exfalso. apply H. unfold sdisc, sb2, sb4, sb6, sb8. rewrite A1, A2, A3, A4, A6. reflexivity.
Qed.
Lemma nd_eq c nd : 1728 * nd = sc4 c ^ 3 - sc6 c ^ 2 -> nd = sdisc c.
Proof. rewrite <- s_disc. lia. Qed.

Lemma minimalize_ok pdivs E : pdivs_spec pdivs -> consistent E -> sdisc (cv E) <> 0 -> minimal_flag E = false ->
  exists E' u r s t, minimalize pdivs E = Ok E' /\ consistent E' /\ minimal_flag E' = true /\ conncomp E' = conncomp E /\
    0 < u /\ carries u r s t (cv E) (cv E') /\ minimal (cv E') /\ normal (cv E').
Proof.
  intros PD (_ & _ & _ & _ & C4 & C6 & CD) ND MF. unfold minimalize. rewrite MF, not_isnull by auto.
  rewrite C4, C6. destruct (minimise_ok pdivs (sc4 (cv E)) (sc6 (cv E)) PD (kraus_necessary _ ND))
    as (n4 & n6 & nd & u & -> & U & E4 & E6 & ED & K & MX). rewrite bind_Ok. cbv zeta.
  assert (Q4 : (if 1 <? u then n4 else sc4 (cv E)) = n4).
  { destruct (Z.ltb_spec 1 u); [reflexivity|]. rewrite E4. replace u with 1 by lia. rewrite Z.pow_1_l by lia. ring. }
  assert (Q6 : (if 1 <? u then n6 else sc6 (cv E)) = n6).
  { destruct (Z.ltb_spec 1 u); [reflexivity|]. rewrite E6. replace u with 1 by lia. rewrite Z.pow_1_l by lia. ring. }
  rewrite Q4, Q6. destruct (c4c6_to_ai_ok n4 n6 K) as (c & -> & F4 & F6 & H1 & H3 & H2). rewrite bind_Ok.
  pose proof (urst_ok (cv E) c u) as UR. rewrite F4, F6 in UR. specialize (UR E4 E6). cbv zeta in UR.
  eexists. exists u. do 3 eexists. split; [reflexivity|]. cbn [cv minimal_flag conncomp].
  split. { unfold consistent. cbn [cv b2 b4 b6 b8 c4 c6 discr]. rewrite F4, F6. do 6 (split; [auto|]).
    apply nd_eq. now rewrite F4, F6. }
  do 2 (split; [reflexivity|]). split; [auto|]. split; [exact UR|].
  split; [|split; auto]. apply (minimal_of (sc4 (cv E)) (sc6 (cv E)) u); rewrite ?F4, ?F6; auto.
Qed.

Lemma curvedata_of_c4c6_ok pdivs x4 x6 : kraus x4 x6 ->
  exists E, curvedata_of_c4c6 pdivs x4 x6 false = Ok E /\ consistent E /\ c4 E = x4 /\ c6 E = x6 /\ normal (cv E) /\
    minimal_flag E = false /\ conncomp E = (if 0 <? sdisc (cv E) then 2 else 1).
Proof.
  intros K. unfold curvedata_of_c4c6. destruct (valid_invariants_ok x4 x6) as (v & -> & V). rewrite bind_Ok.
  assert (v = true) by (apply V; exact K). subst v.
  destruct (c4c6_to_ai_ok x4 x6 K) as (c & -> & F4 & F6 & H1 & H3 & H2). rewrite bind_Ok. cbv zeta.
  assert (D : (x4 * x4 * x4 - x6 * x6) / 1728 = sdisc c).
  { apply div_exact_eq; [lia|]. rewrite s_disc, F4, F6. ring. }
  rewrite D. eexists. split; [reflexivity|]. unfold consistent. cbn [cv b2 b4 b6 b8 c4 c6 discr minimal_flag conncomp].
  rewrite F4, F6. split; [auto 10|]. split; [auto|]. split; [auto|]. split; [split; auto|]. auto.
Qed.

Lemma minimalize_urst_ok pdivs E : pdivs_spec pdivs -> consistent E -> sdisc (cv E) <> 0 -> minimal_flag E = false ->
  exists E' u r s t, minimalize_urst pdivs E = Ok (E', (u, r, s, t)) /\ consistent E' /\
    0 < u /\ carries u r s t (cv E) (cv E') /\ minimal (cv E') /\ normal (cv E').
Proof.
  intros PD (_ & _ & _ & _ & C4 & C6 & CD) ND MF. unfold minimalize_urst. rewrite MF, C4, C6.
  destruct (minimise_ok pdivs (sc4 (cv E)) (sc6 (cv E)) PD (kraus_necessary _ ND))
    as (n4 & n6 & nd & u & -> & U & E4 & E6 & ED & K & MX). rewrite bind_Ok.
  destruct (curvedata_of_c4c6_ok pdivs n4 n6 K) as (N & -> & CN & N4 & N6 & NN & _). rewrite bind_Ok. cbv zeta.
  pose proof CN as (_ & _ & _ & _ & F4 & F6 & _). rewrite N4 in F4. rewrite N6 in F6.
  pose proof (urst_ok (cv E) (cv N) u) as UR. rewrite <- F4, <- F6 in UR. specialize (UR E4 E6). cbv zeta in UR.
  exists N, u. do 3 eexists. split; [reflexivity|]. split; [auto|]. split; [auto|]. split; [exact UR|].
  split; [|auto]. apply (minimal_of (sc4 (cv E)) (sc6 (cv E)) u); rewrite <- ?F4, <- ?F6; auto.
Qed.

(** A minimal normalised equation is determined by the Q-isomorphism class. *)
Lemma minimal_unique c d : minimal c -> minimal d -> normal c -> normal d -> qiso c d -> qiso d c -> c = d.
Proof.
  intros [Nc Mc] [Nd Md] (H1 & H3 & H2) (K1 & K3 & K2) Q1 Q2.
  pose proof (Mc d Q1) as D1. pose proof (Md c Q2) as D2.
  destruct Q1 as (v & w & r & s & t & V & W & CA). apply carries_inv in CA. rewrite sc4_up, sc6_up, sdisc_up in CA.
  destruct CA as (C4 & C6 & CD).
  assert (AB : Z.abs (sdisc c) = Z.abs (sdisc d)).
  { apply Z.divide_antisym_nonneg; [lia|lia|..]; now rewrite Z.divide_abs_l, Z.divide_abs_r. }
  assert (VW : v ^ 12 = w ^ 12).
  { apply (Z.mul_reg_r _ _ (Z.abs (sdisc c))); [lia|]. rewrite AB at 2.
    apply (f_equal Z.abs) in CD. rewrite !Z.abs_mul in CD.
    rewrite !(Z.abs_eq (_ ^ 12)) in CD by (apply Z.pow_nonneg; lia). exact CD. }
  assert (v = w).
  { apply Z.pow_inj_l with 12; lia. }
  subst w. assert (P : forall n, 0 <= n -> v ^ n <> 0) by (intros n Hn; apply Z.pow_nonzero; lia).
  apply normal_unique; auto.
  - apply (Z.mul_reg_l _ _ (v ^ 4)); [apply P; lia|auto].
  - apply (Z.mul_reg_l _ _ (v ^ 6)); [apply P; lia|auto].
Qed.

Lemma curve_of_ok d : sdisc d <> 0 ->
  exists c, curve_of_c4c6 (sc4 d) (sc6 d) = Ok c /\ sc4 c = sc4 d /\ sc6 c = sc6 d /\ normal c /\
    forall c', sc4 c' = sc4 d -> sc6 c' = sc6 d -> normal c' -> c' = c.
Proof.
  intros H. pose proof (kraus_necessary d H) as K. unfold curve_of_c4c6.
  destruct (valid_invariants_ok (sc4 d) (sc6 d)) as (v & -> & V). rewrite bind_Ok.
  assert (v = true) by (apply V; exact K). subst v.
  destruct (c4c6_to_ai_ok _ _ K) as (c & -> & F4 & F6 & H1 & H3 & H2). rewrite bind_Ok.
  exists c. split; [reflexivity|]. split; [auto|]. split; [auto|]. split; [split; auto|].
  intros c' G4 G6 (K1 & K3 & K2). apply normal_unique; auto; congruence.
Qed.
Lemma c4c6_b x4 x6 : (exists d, sdisc d <> 0 /\ sc4 d = x4 /\ sc6 d = x6) ->
  exists c, c4c6_to_ai x4 x6 = Ok (c, (sb2 c, sb4 c, sb6 c, sb8 c)) /\ sc4 c = x4 /\ sc6 c = x6.
Proof.
  intros H. apply kraus_iff in H. destruct (c4c6_to_ai_ok _ _ H) as (c & E & F4 & F6 & _). eauto.
Qed.
Lemma minimise_spec pdivs d : pdivs_spec pdivs -> sdisc d <> 0 ->
  exists n4 n6 nd u, minimise_c4c6 pdivs (sc4 d) (sc6 d) = Ok (n4, n6, nd, u) /\ 0 < u /\
    sc4 d = u ^ 4 * n4 /\ sc6 d = u ^ 6 * n6 /\
    (exists c, sc4 c = n4 /\ sc6 c = n6 /\ sdisc c = nd /\ nd <> 0) /\
    forall v c, 0 < v -> sc4 d = v ^ 4 * sc4 c -> sc6 d = v ^ 6 * sc6 c -> (v | u).
Proof.
  intros PD ND. destruct (minimise_ok pdivs (sc4 d) (sc6 d) PD (kraus_necessary _ ND))
    as (n4 & n6 & nd & u & E & U & E4 & E6 & ED & K & MX).
  exists n4, n6, nd, u. do 4 (split; [auto|]). split.
  - destruct (c4c6_to_ai_ok n4 n6 K) as (c & _ & F4 & F6 & _). exists c. split; [auto|]. split; [auto|].
    assert (nd = sdisc c) by (apply nd_eq; now rewrite F4, F6). subst nd. split; [reflexivity|]. eapply kraus_disc; eauto.
  - intros v c V C4 C6. rewrite <- (Z.mul_1_r u). apply (MX v 1 (sc4 c) (sc6 c)); [auto|clear; lia|..].
    + rewrite C4. ring.
    + rewrite C6. ring.
    + apply kraus_necessary. intros F.
      assert (S : 1728 * sdisc d = v ^ 12 * (1728 * sdisc c)) by (rewrite !s_disc, C4, C6; ring).
      rewrite F, !Z.mul_0_r in S. clear - S ND. lia.
Qed.

Lemma pdivs_exists : exists pdivs, pdivs_spec pdivs.
Proof.
  exists (fun n => filter (fun p => if prime_dec p then true else false) (zrange (Z.to_nat n + 1))).
  intros n Hn. split; [|split].
  - apply NoDup_filter. unfold zrange. apply FinFun.Injective_map_NoDup; [|apply seq_NoDup]. intros x y. lia.
  - apply Forall_forall. intros p Hp. apply filter_In in Hp as [_ Hp]. destruct (prime_dec p); [auto|discriminate].
  - intros p Hp Dp. apply filter_In. split.
    + apply in_zrange. pose proof (prime_ge_2 p Hp). pose proof (Z.divide_pos_le p n Hn Dp). lia.
    + destruct (prime_dec p); [reflexivity|contradiction].
Qed.
