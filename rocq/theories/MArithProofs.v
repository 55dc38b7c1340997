(** Proofs about MArithModel.v: division, valuation, gcd, square roots. *)
From Coq Require Import ZArith Lia List Bool Znumtheory.
From Verif Require Import Base ArithModel ArithProofs RatModel MArithModel.
Import ListNotations.
Open Scope Z_scope.

Lemma zfuel_gt z : 4 * Z.abs z + 2 < 2 ^ Z.of_nat (zfuel z).
Proof.
  unfold zfuel. assert (0 <= Z.log2 (Z.abs z)) by apply Z.log2_nonneg.
  rewrite Z2Nat.id by lia. rewrite Z.pow_add_r by lia. change (2 ^ 3) with 8.
  destruct (Z.eq_dec z 0) as [->|]; [reflexivity|].
  pose proof (Z.log2_spec (Z.abs z) ltac:(lia)) as [_ B]. rewrite Z.pow_succ_r in B by lia. lia.
Qed.

Lemma zz_div_ok a b : b <> 0 -> zz_div a b = Ok (a / b).
Proof. intros. unfold zz_div. destruct (Z.eqb_spec b 0); [contradiction|reflexivity]. Qed.
Lemma zz_mod_ok a b : b <> 0 -> zz_mod a b = Ok (a mod b).
Proof. intros. unfold zz_mod. destruct (Z.eqb_spec b 0); [contradiction|reflexivity]. Qed.

(** ** remainders *)
Lemma rounded_division_z_ok a b : 0 < b ->
  exists q, rounded_division_z a b = Ok q /\ - b <= 2 * (a - q * b) < b.
Proof.
  intros Hb. unfold rounded_division_z. rewrite zz_div_ok, zz_mod_ok by lia. rewrite !bind_Ok.
  pose proof (Z.div_mod a b ltac:(lia)). pose proof (Z.mod_pos_bound a b Hb).
  destruct (Z.ltb_spec (2 * (a mod b)) (- b)); [lia|].
  destruct (Z.leb_spec b (2 * (a mod b))); eexists; (split; [reflexivity|]); lia.
Qed.

Lemma mod_z_ok a b : b <> 0 ->
  exists c, mod_z a b = Ok c /\ (b | a - c) /\ - Z.abs b < 2 * c <= Z.abs b.
Proof.
  intros Hb. unfold mod_z. rewrite zz_mod_ok by lia. rewrite bind_Ok.
  pose proof (Z.div_mod a (Z.abs b) ltac:(lia)) as E.
  pose proof (Z.mod_pos_bound a (Z.abs b) ltac:(lia)) as B.
  assert (D : forall k, (b | k * Z.abs b)).
  { intros k. apply Z.divide_mul_r. apply Z.divide_abs_r, Z.divide_refl. }
  set (c := a mod Z.abs b) in *.
  destruct (Z.ltb_spec (Z.abs b) (2 * c)).
  - exists (c - Z.abs b). split; [reflexivity|]. split; [|lia].
    replace (a - (c - Z.abs b)) with ((a / Z.abs b + 1) * Z.abs b) by lia. apply D.
  - destruct (Z.leb_spec (2 * c) (- Z.abs b)); [lia|].
    exists c. split; [reflexivity|]. split; [|lia].
    replace (a - c) with (a / Z.abs b * Z.abs b) by lia. apply D.
Qed.

Lemma posmod_z_ok a b : b <> 0 -> posmod_z a b = Ok (a mod Z.abs b).
Proof.
  intros Hb. unfold posmod_z. rewrite zz_mod_ok by lia. rewrite bind_Ok.
  pose proof (Z.mod_pos_bound a (Z.abs b) ltac:(lia)).
  destruct (Z.ltb_spec (a mod Z.abs b) 0); [lia|reflexivity].
Qed.

Lemma roundover_ok a b : 0 < b ->
  exists q, roundover a b = Ok q /\ - b < 2 * (a - q * b) <= b.
Proof.
  intros Hb. unfold roundover. rewrite zz_mod_ok by lia. rewrite bind_Ok.
  rewrite zz_div_ok by lia. rewrite bind_Ok.
  pose proof (Z.div_mod a b ltac:(lia)) as E. pose proof (Z.mod_pos_bound a b Hb).
  assert (E2 : (a - a mod b) / b = a / b).
  { replace (a - a mod b) with (a / b * b) by lia. apply Z.div_mul. lia. }
  rewrite E2. destruct (Z.ltb_spec b (2 * (a mod b))); eexists; (split; [reflexivity|]); lia.
Qed.

Lemma lcm_z_ok a b : exists l, lcm_z a b = Ok l /\ Z.abs l = Z.lcm a b.
Proof.
  unfold lcm_z. destruct (Z.eqb_spec a 0) as [Ea|Na].
  { destruct (Z.eqb_spec b 0) as [Eb|Nb]; cbn [andb].
    - subst. exists 0. split; reflexivity.
    - rewrite zz_div_ok by (rewrite Z.gcd_eq_0; lia). eexists; split; reflexivity. }
  cbn [andb]. rewrite zz_div_ok by (rewrite Z.gcd_eq_0; lia). eexists; split; reflexivity.
Qed.

Lemma div_z_ok f n : exists b, div_z f n = Ok b /\ (b = true <-> (f | n)).
Proof.
  unfold div_z. destruct (Z.eqb_spec f 0) as [->|Nf].
  - eexists; split; [reflexivity|]. rewrite Z.eqb_eq. split; [intros ->; apply Z.divide_0_r|].
    apply Z.divide_0_l.
  - rewrite zz_mod_ok by auto. rewrite bind_Ok. eexists; split; [reflexivity|].
    rewrite Z.eqb_eq. apply Z.mod_divide; auto.
Qed.

(** ** divide_out, val *)
Lemma divide_out_ok a d : a <> 0 -> 2 <= Z.abs d ->
  exists a' e, divide_out a d = Ok (a', e) /\ 0 <= e /\ a = a' * d ^ e /\ ~ (d | a').
Proof.
  intros Ha Hd. unfold divide_out. destruct (Z.eqb_spec a 0); [contradiction|].
  destruct (while_total (dout_step d)
     (fun s => let '(x, c) := s in x <> 0 /\ 0 <= c /\ a = x * d ^ c)
     (fun r => let '(x, c) := r in 0 <= c /\ a = x * d ^ c /\ ~ (d | x))
     (fun s => Z.abs (fst s))) with (n := zfuel a) (s := (a, 0)) as ([x c] & -> & H).
  - intros s _. apply Z.abs_nonneg.
  - intros [x c] (Hx & Hc & E). unfold dout_step. rewrite zz_div_ok, zz_mod_ok by lia.
    rewrite !bind_Ok. destruct (Z.eqb_spec (x mod d) 0) as [M|M].
    + right. exists (x / d, c + 1). split; [reflexivity|].
      assert (Ex : x = d * (x / d)) by (apply Z_div_exact_full_2; lia).
      set (q := x / d) in *. cbn [fst].
      split; [split; [|split]|].
      * intros Z0. rewrite Z0 in Ex. lia.
      * lia.
      * rewrite Z.pow_add_r, Z.pow_1_r by lia. rewrite E, Ex. ring.
      * rewrite Ex, Z.abs_mul. assert (q <> 0) by (intros Z0; rewrite Z0 in Ex; lia).
        clear - Hd H. assert (1 <= Z.abs q) by lia. nia.
    + left. exists (x, c). split; [reflexivity|]. split; [auto|]. split; [auto|].
      rewrite <- Z.mod_divide by lia. auto.
  - cbn [fst]. rewrite Z.pow_0_r. lia.
  - cbn [fst]. pose proof (zfuel_gt a). lia.
  - exists x, c. split; [reflexivity|]. tauto.
Qed.

Lemma divide_out_0 d : divide_out 0 d = Ok (0, 0).
Proof. reflexivity. Qed.

(** d = 1 or -1: no exit from the loop, whatever the budget *)
Lemma divide_out_unit a d : a <> 0 -> Z.abs d = 1 -> forall n, while (dout_step d) n (a, 0) = OutOfFuel.
Proof.
  intros Ha Hd n.
  apply (while_diverge (dout_step d) (fun s => fst s <> 0)); [|auto].
  intros [x c] Hx. cbn [fst] in *. unfold dout_step. rewrite zz_div_ok, zz_mod_ok by lia.
  rewrite !bind_Ok.
  assert (M : x mod d = 0) by (apply Z.mod_divide; [lia|]; exists (x * d); assert (d = 1 \/ d = -1) as [-> | ->] by lia; ring).
  rewrite M. eexists. split; [reflexivity|]. cbn [fst].
  pose proof (Z.div_mod x d ltac:(lia)). intros Z0. rewrite Z0, M in H. lia.
Qed.

Lemma val_z_ok f n : n <> 0 -> 2 <= Z.abs f ->
  exists e, val_z f n = Ok e /\ 0 <= e /\ (f ^ e | n) /\ ~ (f ^ (e + 1) | n).
Proof.
  intros Hn Hf. unfold val_z. destruct (Z.eqb_spec n 0); [contradiction|].
  destruct (Z.ltb_spec (Z.abs f) 2); [lia|].
  destruct (divide_out_ok n (Z.abs f) Hn) as (a & e & -> & He & E & ND); [lia|].
  rewrite bind_Ok. exists e. split; [reflexivity|]. split; [auto|].
  rewrite <- (Z.divide_abs_l (f ^ e)), <- (Z.divide_abs_l (f ^ (e + 1))), !Z.abs_pow.
  split; [exists a; exact E|].
  intros [k Hk]. apply ND. exists k.
  rewrite Z.pow_add_r, Z.pow_1_r in Hk by lia.
  assert (P : 0 < Z.abs f ^ e) by (apply Z.pow_pos_nonneg; lia).
  apply (Z.mul_reg_r _ _ (Z.abs f ^ e)); [lia|]. rewrite <- E, Hk. ring.
Qed.

(** ** extended gcd *)
Definition xgcd_spec (xgcd : Z -> Z -> Z * Z * Z) : Prop :=
  forall a b, exists x y, xgcd a b = (Z.gcd a b, x, y) /\ a * x + b * y = Z.gcd a b.

Section X.
Variable xgcd : Z -> Z -> Z * Z * Z.
Hypothesis X : xgcd_spec xgcd.

Lemma invmod_z_ok a p :
  (Z.gcd a p = 1 -> (p | a * invmod_z xgcd a p - 1)) /\
  (Z.gcd a p <> 1 -> invmod_z xgcd a p = 0).
Proof.
  unfold invmod_z. destruct (X a p) as (x & y & -> & E). split; intros G.
  - rewrite G. cbn [Z.eqb Pos.eqb]. exists (- y). lia.
  - destruct (Z.eqb_spec (Z.gcd a p) 1); [contradiction|reflexivity].
Qed.

Lemma chrem_ok a1 a2 m1 m2 : m1 <> 0 -> m2 <> 0 ->
  exists ok ans, chrem xgcd a1 a2 m1 m2 = Ok (ok, ans) /\
    ((exists x, (m1 | x - a1) /\ (m2 | x - a2)) <-> ok = true) /\
    (ok = true -> (m1 | ans - a1) /\ (m2 | ans - a2)) /\
    (ok = true -> 0 < m1 * m2 -> 0 <= ans < Z.lcm m1 m2).
Proof.
  intros H1 H2. unfold chrem. destruct (X m1 m2) as (u & v & -> & E).
  set (g := Z.gcd m1 m2) in *.
  assert (G0 : g <> 0) by (unfold g; rewrite Z.gcd_eq_0; lia).
  assert (Gp : 0 < g) by (pose proof (Z.gcd_nonneg m1 m2); fold g in H; lia).
  destruct (Z.gcd_divide_l m1 m2) as [k1 K1]. fold g in K1.
  destruct (Z.gcd_divide_r m1 m2) as [k2 K2]. fold g in K2.
  rewrite zz_div_ok by auto. rewrite bind_Ok.
  assert (D2 : m2 / g = k2) by (rewrite K2; apply Z.div_mul; auto). rewrite D2.
  assert (L0 : m1 * k2 <> 0).
  { apply Z.neq_mul_0. split; auto. intros ->. lia. }
  rewrite zz_div_ok, zz_mod_ok by auto. rewrite !bind_Ok.
  pose proof (Z.div_mod (a2 - a1) g G0) as DM.
  destruct (Z.eqb_spec ((a2 - a1) mod g) 0) as [M|M].
  - rewrite zz_mod_ok by auto. rewrite bind_Ok.
    set (q := (a2 - a1) / g) in *. set (ans := (a1 + u * m1 * q) mod (m1 * k2)).
    pose proof (Z.div_mod (a1 + u * m1 * q) (m1 * k2) L0) as DA. fold ans in DA.
    set (t := (a1 + u * m1 * q) / (m1 * k2)) in *.
    assert (A1 : (m1 | ans - a1)).
    { exists (u * q - k2 * t). clear - DA. lia. }
    assert (A2 : (m2 | ans - a2)).
    { exists (- (v * q) - k1 * t).
      assert (a2 = a1 + g * q) by lia.
      assert (E' : a1 + u * m1 * q = a1 + (g - m2 * v) * q) by (rewrite <- E; ring).
      assert (M1 : m1 * k2 = m2 * k1) by (rewrite K1, K2; ring).
      rewrite E', M1 in DA.
      assert (ans = a1 + (g - m2 * v) * q - m2 * k1 * t) by lia.
      rewrite H0, H. ring. }
    exists true, ans. split; [reflexivity|]. split; [|split].
    + split; auto. intros _. exists ans. auto.
    + auto.
    + intros _ Hpos.
      assert (HL : m1 * k2 = Z.lcm m1 m2).
      { unfold Z.lcm. fold g. rewrite D2. rewrite Z.abs_eq; auto.
        assert (m1 * m2 = (m1 * k2) * g) by (rewrite K2 at 1; ring).
        rewrite H in Hpos. clear - Hpos Gp. nia. }
      assert (0 < m1 * k2).
      { assert (Z.lcm m1 m2 = Z.abs (Z.lcm m1 m2)) by (pose proof (Z.lcm_nonneg m1 m2); lia).
        pose proof (Z.lcm_nonneg m1 m2). lia. }
      rewrite <- HL. apply Z.mod_pos_bound. auto.
  - exists false, 0. split; [reflexivity|]. split; [|split]; try discriminate.
    split; [|discriminate]. intros (x & [j1 J1] & [j2 J2]). exfalso. apply M.
    apply Z.mod_divide; auto. exists (j1 * k1 - j2 * k2).
    assert (x = a1 + j1 * (k1 * g)) by (rewrite <- K1; lia).
    assert (x = a2 + j2 * (k2 * g)) by (rewrite <- K2; lia).
    clear - H H0. lia.
Qed.
End X.

(** ** I2int, I2long *)
Lemma I2gen_ok mn mx x : 0 < mx -> mn = - mx - 1 -> mn <= x <= mx -> I2gen mn mx x = x.
Proof.
  intros Hm Hn Hx. unfold I2gen, I2pos.
  destruct (Z.eqb_spec x 0); [auto|].
  destruct (Z.leb_spec x mx); [|lia]. destruct (Z.leb_spec mn x); [|lia]. cbn [andb negb].
  destruct (Z.ltb_spec 0 x).
  - destruct (Z.eqb_spec x mx); [auto|]. apply Z.mod_small. lia.
  - destruct (Z.eqb_spec x mn); [auto|]. destruct (Z.eqb_spec (- x) mx); [lia|].
    rewrite Z.mod_small by lia. lia.
Qed.
Lemma I2gen_out mn mx x : mn < 0 < mx -> ~ (mn <= x <= mx) -> I2gen mn mx x = 0.
Proof.
  intros Hm Hx. unfold I2gen. destruct (Z.eqb_spec x 0); [auto|].
  destruct (Z.leb_spec x mx); destruct (Z.leb_spec mn x); cbn [andb negb]; auto; lia.
Qed.

(** ** sqrtnr, isqrt *)
Lemma newton_above n r : 0 < n -> 0 < r -> n < r * r -> n < (Z.shiftr (n / r + r) 1 + 1) ^ 2.
Proof.
  intros Hn Hr H. rewrite Z.shiftr_div_pow2 by lia. change (2 ^ 1) with 2.
  pose proof (Z.div_mod n r ltac:(lia)). pose proof (Z.mod_pos_bound n r Hr).
  set (q := n / r) in *. pose proof (Z.div_mod (q + r) 2 ltac:(lia)).
  pose proof (Z.mod_pos_bound (q + r) 2 ltac:(lia)). set (y := (q + r) / 2) in *.
  assert (A : q + r <= 2 * y + 1) by lia. rewrite Z.pow_2_r.
  assert (B : n < (q + 1) * r) by lia.
  assert (Q0 : 0 <= q) by (apply Z.div_pos; lia).
  assert (C : 4 * ((q + 1) * r) <= (q + 1 + r) * (q + 1 + r)).
  { assert (0 <= (q + 1 - r) * (q + 1 - r)) by apply Z.square_nonneg. lia. }
  assert (D : (q + 1 + r) * (q + 1 + r) <= (2 * (y + 1)) * (2 * (y + 1))).
  { apply Z.square_le_mono_nonneg; lia. }
  lia.
Qed.

Lemma sqrtnr_ok n : 0 < n -> exists root, sqrtnr n = Ok (root * root =? n, root) /\
  0 < root /\ root * root <= n < (root + 1) * (root + 1).
Proof.
  intros Hn. unfold sqrtnr, lg. destruct (Z.eqb_spec n 0); [lia|].
  rewrite Z.abs_eq by lia. rewrite Z.shiftr_div_pow2 by lia. change (2 ^ 1) with 2.
  pose proof (Z.log2_spec n Hn) as [L1 L2]. pose proof (Z.log2_nonneg n) as L0.
  set (k := Z.log2 n) in *. assert (K : 0 <= k / 2) by (apply Z.div_pos; lia).
  rewrite Z.shiftl_mul_pow2, Z.mul_1_l by lia.
  set (r0 := 2 ^ (1 + k / 2)).
  assert (R0 : 0 < r0) by (apply Z.pow_pos_nonneg; lia).
  assert (N0 : n < r0 * r0).
  { unfold r0. rewrite <- Z.pow_add_r by lia. eapply Z.lt_le_trans; [exact L2|].
    apply Z.pow_le_mono_r; [lia|]. pose proof (Z.div_mod k 2). pose proof (Z.mod_pos_bound k 2). lia. }
  destruct (while_total (sqrtnr_step n) (fun r => 0 < r /\ n < (r + 1) * (r + 1))
    (fun r => 0 < r /\ r * r <= n < (r + 1) * (r + 1)) (fun r => r))
    with (n := zfuel r0) (s := r0) as (root & -> & Hr).
  - intros; lia.
  - intros r [Hr Hl]. unfold sqrtnr_step. rewrite zz_div_ok by lia. rewrite bind_Ok.
    set (y := Z.shiftr (n / r + r) 1).
    assert (Q0 : 0 <= n / r) by (apply Z.div_pos; lia).
    assert (DM := Z.div_mod n r ltac:(lia)). assert (DB := Z.mod_pos_bound n r Hr).
    assert (Y : 2 * y <= n / r + r <= 2 * y + 1).
    { unfold y. rewrite Z.shiftr_div_pow2 by lia. change (2 ^ 1) with 2.
      pose proof (Z.div_mod (n / r + r) 2). pose proof (Z.mod_pos_bound (n / r + r) 2). lia. }
    destruct (Z.ltb_spec y r) as [Hy|Hy].
    + right. exists y. split; [reflexivity|]. split; [|lia].
      assert (Hlt : n < r * r \/ r * r <= n) by lia. destruct Hlt as [Hlt|Hge].
      * split.
        -- destruct (Z.eq_dec r 1) as [->|]; [nia|]. lia.
        -- pose proof (newton_above n r Hn Hr Hlt) as A. fold y in A. rewrite Z.pow_2_r in A. exact A.
      * exfalso. assert (r <= n / r) by (apply Z.div_le_lower_bound; nia). lia.
    + left. exists r. split; [reflexivity|]. split; [auto|]. split; [|auto].
      assert (r <= n / r) by lia. nia.
  - split; [auto|]. nia.
  - pose proof (zfuel_gt r0). lia.
  - rewrite bind_Ok. exists root. split; [reflexivity|]. auto.
Qed.

Lemma strip2_ok n0 : 0 < n0 -> exists n t, while strip2_step (zfuel n0) (n0, 0) = Ok (n, t) /\
  0 < n /\ Z.odd n = true /\ 0 <= t /\ n0 = n * 2 ^ t.
Proof.
  intros H0.
  destruct (while_total strip2_step (fun s => let '(n, t) := s in 0 < n /\ 0 <= t /\ n0 = n * 2 ^ t)
   (fun r => let '(n, t) := r in 0 < n /\ Z.odd n = true /\ 0 <= t /\ n0 = n * 2 ^ t) (fun s => fst s))
   with (n := zfuel n0) (s := (n0, 0)) as ([n t] & E & H).
  - intros [n t] H. cbn [fst]. lia.
  - intros [n t] (Hn & Ht & E). unfold strip2_step. destruct (Z.even n) eqn:Ev.
    + right. exists (Z.shiftr n 1, t + 1). split; [reflexivity|]. cbn [fst].
      apply Z.even_spec in Ev as [m ->]. rewrite Z.shiftr_div_pow2 by lia. change (2 ^ 1) with 2.
      rewrite Z.mul_comm, Z.div_mul by lia. split; [|lia]. split; [lia|]. split; [lia|].
      rewrite Z.pow_add_r, Z.pow_1_r by lia. rewrite E. ring.
    + left. exists (n, t). split; [reflexivity|]. rewrite <- Z.negb_even, Ev. auto.
  - rewrite Z.pow_0_r. lia.
  - cbn [fst]. pose proof (zfuel_gt n0). lia.
  - exists n, t. auto.
Qed.

(** A square passes the residue tables. *)
Definition table_good (t : list Z) (k : Z) : Prop :=
  forall r, 0 <= r < k -> exists x, get t ((r * r) mod k) = Ok x /\ x <> 0.

Lemma tables_good : Forall (fun tk => 0 < snd tk /\ (snd tk | 931170240) /\ table_good (fst tk) (snd tk)) carres_tables.
Proof.
  assert (T : forall t k, forallb (fun i => match get t ((Z.of_nat i * Z.of_nat i) mod k) with
        Ok x => negb (x =? 0) | _ => false end) (seq 0 (Z.to_nat k)) = true -> table_good t k).
  { intros t k H r Hr. rewrite forallb_forall in H.
    specialize (H (Z.to_nat r)). rewrite Z2Nat.id in H by lia.
    assert (I : In (Z.to_nat r) (seq 0 (Z.to_nat k))) by (apply in_seq; lia). specialize (H I).
    destruct (get t ((r * r) mod k)) as [x| | |]; try discriminate.
    exists x. split; auto. apply negb_true_iff in H. now apply Z.eqb_neq in H. }
  repeat constructor; cbn [fst snd]; try (apply T; vm_compute; reflexivity).
  - exists 14549535. reflexivity.
  - exists 14780480. reflexivity.
  - exists 14325696. reflexivity.
  - exists 84651840. reflexivity.
  - exists 54774720. reflexivity.
  - exists 49008960. reflexivity.
Qed.

Lemma carres_defined :
  Forall (fun tk => 0 < snd tk /\ Z.of_nat (length (fst tk)) = snd tk) carres_tables.
Proof. repeat constructor; reflexivity. Qed.

Lemma get_ok {A} (l : list A) i : 0 <= i < Z.of_nat (length l) -> exists x, get l i = Ok x.
Proof.
  intros H. unfold get. destruct (Z.ltb_spec i 0); [lia|].
  destruct (nth_error l (Z.to_nat i)) eqn:E; [eauto|].
  apply nth_error_None in E. lia.
Qed.

Lemma residue_filter_total m ts : 0 <= m ->
  Forall (fun tk => 0 < snd tk /\ Z.of_nat (length (fst tk)) = snd tk) ts ->
  exists b, residue_filter m ts = Ok b.
Proof.
  intros Hm. induction 1 as [|[t k] ts [Hk Hl] _ IH]; cbn [residue_filter]; [eauto|].
  cbn [fst snd] in *. rewrite Z.rem_mod_nonneg by lia.
  destruct (get_ok t (m mod k)) as [x ->].
  { rewrite Hl. apply Z.mod_pos_bound; auto. }
  rewrite bind_Ok. destruct (x =? 0); eauto.
Qed.

Lemma residue_filter_square r m ts : m = (r * r) mod 931170240 ->
  Forall (fun tk => 0 < snd tk /\ (snd tk | 931170240) /\ table_good (fst tk) (snd tk)) ts ->
  residue_filter m ts = Ok true.
Proof.
  intros Hm. assert (M0 : 0 <= m) by (subst m; apply Z.mod_pos_bound; lia).
  induction 1 as [|[t k] ts (Hk & D & T) _ IH]; cbn [residue_filter]; [reflexivity|].
  cbn [fst snd] in *. rewrite Z.rem_mod_nonneg by lia.
  destruct (T (r mod k)) as (x & Hx & Nx); [apply Z.mod_pos_bound; auto|].
  assert (E : m mod k = (r mod k * (r mod k)) mod k).
  { rewrite <- Zmult_mod, Hm. symmetry. apply Zmod_div_mod; auto; lia. }
  rewrite E, Hx, bind_Ok. destruct (Z.eqb_spec x 0); [contradiction|]. exact IH.
Qed.

Lemma odd_sq_val_nat n (t : nat) : 0 < n -> Z.odd n = true -> forall s, 0 <= s ->
  n * 2 ^ Z.of_nat t = s * s ->
  (exists k, Z.of_nat t = 2 * k /\ 0 <= k) /\ exists r, 0 < r /\ n = r * r.
Proof.
  intros Hn On. induction t as [t IH] using lt_wf_ind. intros s Hs E.
  destruct t as [|[|t]].
  - split; [exists 0; lia|]. exists s. change (2 ^ Z.of_nat 0) with 1 in E. nia.
  - exfalso. change (2 ^ Z.of_nat 1) with 2 in E.
    apply Z.odd_spec in On as [m Hm].
    destruct (Z.Even_or_Odd s) as [[k Hk]|[k Hk]]; subst; nia.
  - assert (P : 2 ^ Z.of_nat (S (S t)) = 4 * 2 ^ Z.of_nat t).
    { rewrite !Nat2Z.inj_succ, !Z.pow_succ_r by lia. ring. }
    rewrite P in E. destruct (Z.Even_or_Odd s) as [[k Hk]|[k Hk]].
    + destruct (IH t ltac:(lia) k) as ((j & J & J0) & R); [lia|subst; lia|].
      split; [exists (j + 1); lia|exact R].
    + exfalso. subst s. assert (Z.odd (n * (4 * 2 ^ Z.of_nat t)) = true).
      { rewrite E. apply Z.odd_spec. exists (2 * k * k + 2 * k). ring. }
      rewrite Z.odd_mul, Z.odd_mul in H. rewrite andb_false_r in H || (cbn in H; rewrite andb_false_r in H).
      discriminate.
Qed.

Lemma isqrt_ok n : exists ok root, isqrt n = Ok (ok, root) /\
  (ok = true -> 0 <= root /\ n = root * root) /\
  ((exists s, n = s * s) -> ok = true).
Proof.
  unfold isqrt. destruct (Z.ltb_spec n 0).
  { exists false, 0. split; [reflexivity|]. split; [discriminate|]. intros [s ->]. nia. }
  destruct (Z.eqb_spec n 0) as [->|N0].
  { exists true, 0. split; [reflexivity|]. split; [lia|auto]. }
  destruct (strip2_ok n ltac:(lia)) as (m & t & -> & Hm & Om & Ht & E). rewrite bind_Ok.
  assert (SQ : (exists s, n = s * s) ->
     (exists k, t = 2 * k /\ 0 <= k) /\ exists r, 0 < r /\ m = r * r).
  { intros [s Hs]. rewrite <- (Z2Nat.id t) in E |- * by auto.
    apply (odd_sq_val_nat m (Z.to_nat t) Hm Om (Z.abs s)); [lia|].
    rewrite <- E, Hs. symmetry. apply Z.abs_square. }
  destruct (Z.odd t) eqn:Ot.
  { exists false, 0. split; [reflexivity|]. split; [discriminate|].
    intros S. destruct (SQ S) as ((k & -> & _) & _). rewrite Z.odd_mul in Ot. discriminate. }
  assert (Ev : exists k, t = 2 * k /\ 0 <= k).
  { rewrite <- Z.negb_even in Ot. apply negb_false_iff, Z.even_spec in Ot as [k Hk].
    exists k. lia. }
  rewrite zz_mod_ok by lia. rewrite bind_Ok.
  destruct (residue_filter_total (m mod 931170240) carres_tables) as [b Hb].
  { apply Z.mod_pos_bound; lia. }
  { apply carres_defined. }
  rewrite Hb, bind_Ok. destruct b.
  - destruct (sqrtnr_ok m Hm) as (root & -> & Hr & Hl). rewrite bind_Ok.
    destruct Ev as (k & -> & Hk).
    assert (S2 : Z.shiftr (2 * k) 1 = k).
    { rewrite Z.shiftr_div_pow2 by lia. change (2 ^ 1) with 2. rewrite Z.mul_comm, Z.div_mul; lia. }
    rewrite S2. destruct (Z.eqb_spec (root * root) m) as [Q|Q].
    + exists true, (Z.shiftl root k). split; [reflexivity|]. split; [|auto]. intros _.
      rewrite Z.shiftl_mul_pow2 by auto. assert (0 < 2 ^ k) by (apply Z.pow_pos_nonneg; lia).
      split; [nia|]. rewrite E, <- Q. replace (2 * k) with (k + k) by ring.
      rewrite Z.pow_add_r by auto. ring.
    + exists false, root. split; [reflexivity|]. split; [discriminate|].
      intros S. destruct (SQ S) as (_ & r & Hr' & Er). exfalso. apply Q. rewrite Er in Hl |- *.
      assert (root <= r) by (clear - Hl Hr Hr'; apply Z.square_le_simpl_nonneg; lia).
      assert (r < root + 1) by (clear - Hl Hr Hr'; apply Z.square_lt_simpl_nonneg; lia).
      assert (r = root) by lia. subst r. reflexivity.
  - exists false, 0. split; [reflexivity|]. split; [discriminate|].
    intros S. destruct (SQ S) as (_ & r & _ & Er).
    rewrite (residue_filter_square r) in Hb; [discriminate|now rewrite Er|apply tables_good].
Qed.
