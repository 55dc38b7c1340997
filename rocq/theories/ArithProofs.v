(** Proofs about ArithModel: residues, gcd, bezout, invmod, valuations. *)
From Coq Require Import ZArith Lia List Bool Znumtheory.
From Verif Require Import Base ArithModel.
Import ListNotations.
Open Scope Z_scope.
Open Scope res_scope.

Ltac u64 := unfold in64, min64, max64, in32, min32, max32 in *.
Ltac rg := u64; lia.

(** Division facts with an explicit witness. *)
Lemma quot_rem_pos a b : 0 < b ->
  exists q r, Z.quot a b = q /\ Z.rem a b = r /\ a = b * q + r /\
              Z.abs r < b /\ (0 <= a -> 0 <= r) /\ (a <= 0 -> r <= 0).
Proof.
  intros Hb. exists (Z.quot a b), (Z.rem a b).
  pose proof (Z.quot_rem a b ltac:(lia)).
  pose proof (Z.rem_bound_abs a b ltac:(lia)).
  pose proof (Z.rem_nonneg a b ltac:(lia)).
  pose proof (Z.rem_nonpos a b ltac:(lia)).
  repeat split; auto; lia.
Qed.

(** *** rounded_division *)
Lemma rounded_division_ok a b :
  in64 a -> 0 < b <= 2 ^ 62 ->
  exists q, rounded_division a b = Ok q /\ - b <= 2 * (a - q * b) < b.
Proof.
  intros Ha Hb. change (2 ^ 62) with 4611686018427387904 in Hb.
  unfold rounded_division.
  rewrite quot64_ok, rem64_ok by (auto; lia).
  destruct (quot_rem_pos a b) as (q & r & -> & -> & E & Hr & H1 & H2); [lia|].
  rewrite !bind_Ok. rewrite c64_ok by rg. rewrite bind_Ok, neg64_ok by rg.
  rewrite bind_Ok.
  assert (b = 1 /\ r = 0 \/ 2 <= b /\ -4611686018427387905 <= q <= 4611686018427387904)
    as Hq by (u64; nia).
  destruct (Z.ltb_spec (2 * r) (- b)).
  - rewrite sub64_ok by rg. eexists; split; [reflexivity|lia].
  - destruct (Z.leb_spec b (2 * r)).
    + rewrite add64_ok by rg. eexists; split; [reflexivity|lia].
    + eexists; split; [reflexivity|lia].
Qed.

(** *** mod *)
Lemma mod_long_ok a b :
  in64 a -> a <> min64 -> in64 b -> b <> min64 -> b <> 0 ->
  exists c, mod_long a b = Ok c /\ (b | a - c) /\ - Z.abs b < 2 * c <= Z.abs b.
Proof.
  intros Ha Ha' Hb Hb' Hb0. unfold mod_long.
  assert (Hbb : (if b <? 0 then neg64 b else Ok b) = Ok (Z.abs b)).
  { destruct (Z.ltb_spec b 0); [rewrite neg64_ok by rg|]; f_equal; lia. }
  rewrite Hbb, bind_Ok. set (B := Z.abs b). assert (HB : 0 < B <= max64) by rg.
  assert (Hdiv : forall c, (B | c) -> (b | c)) by (intros; now apply Z.divide_abs_l).
  rewrite Z.shiftr_div_pow2 by lia. change (2 ^ 1) with 2.
  pose proof (Z.div_mod B 2 ltac:(lia)). pose proof (Z.mod_pos_bound B 2 ltac:(lia)).
  destruct (Z.leb_spec 0 a).
  - rewrite rem64_ok by (auto; lia). rewrite bind_Ok.
    destruct (quot_rem_pos a B) as (q & r & _ & -> & E & Hr & H1' & H2'); [lia|].
    destruct (Z.ltb_spec (B / 2) r).
    + rewrite sub64_ok by rg. eexists; split; [reflexivity|]. split; [|lia].
      apply Hdiv. exists (q + 1). lia.
    + eexists; split; [reflexivity|]. split; [|lia].
      apply Hdiv. exists q. lia.
  - rewrite neg64_ok by rg. rewrite bind_Ok, rem64_ok by (try rg; lia). rewrite bind_Ok.
    destruct (quot_rem_pos (-a) B) as (q & r & _ & -> & E & Hr & H1' & H2'); [lia|].
    rewrite sub64_ok by rg. rewrite bind_Ok.
    destruct (Z.ltb_spec (B / 2) (B - r)).
    + rewrite sub64_ok by rg. eexists; split; [reflexivity|]. split; [|lia].
      apply Hdiv. exists (- q). lia.
    + eexists; split; [reflexivity|]. split; [|lia].
      apply Hdiv. exists (- q - 1). lia.
Qed.

Lemma mod_int_ok a b :
  in32 a -> a <> min32 -> in32 b -> b <> min32 -> b <> 0 ->
  exists c, mod_int a b = Ok c /\ (b | a - c) /\ - Z.abs b < 2 * c <= Z.abs b.
Proof.
  intros Ha Ha' Hb Hb' Hb0. unfold mod_int.
  assert (Hbb : (if b <? 0 then neg32 b else Ok b) = Ok (Z.abs b)).
  { destruct (Z.ltb_spec b 0); [unfold neg32; rewrite c32_ok by rg|]; f_equal; lia. }
  rewrite Hbb, bind_Ok. set (B := Z.abs b). assert (HB : 0 < B <= max32) by rg.
  assert (Hdiv : forall c, (B | c) -> (b | c)) by (intros; now apply Z.divide_abs_l).
  rewrite Z.shiftr_div_pow2 by lia. change (2 ^ 1) with 2.
  pose proof (Z.div_mod B 2 ltac:(lia)). pose proof (Z.mod_pos_bound B 2 ltac:(lia)).
  destruct (Z.leb_spec 0 a).
  - rewrite rem32_ok by (auto; lia). rewrite bind_Ok.
    destruct (quot_rem_pos a B) as (q & r & _ & -> & E & Hr & H1' & H2'); [lia|].
    destruct (Z.ltb_spec (B / 2) r).
    + unfold sub32; rewrite c32_ok by rg. eexists; split; [reflexivity|]. split; [|lia].
      apply Hdiv. exists (q + 1). lia.
    + eexists; split; [reflexivity|]. split; [|lia].
      apply Hdiv. exists q. lia.
  - unfold neg32, sub32; rewrite c32_ok by rg.
    rewrite bind_Ok, rem32_ok by (try rg; lia). rewrite bind_Ok.
    destruct (quot_rem_pos (-a) B) as (q & r & _ & -> & E & Hr & H1' & H2'); [lia|].
    rewrite c32_ok by rg. rewrite bind_Ok.
    destruct (Z.ltb_spec (B / 2) (B - r)).
    + rewrite c32_ok by rg. eexists; split; [reflexivity|]. split; [|lia].
      apply Hdiv. exists (- q). lia.
    + eexists; split; [reflexivity|]. split; [|lia].
      apply Hdiv. exists (- q - 1). lia.
Qed.

(** The centred residue is unique. *)
Lemma centred_unique a b c c' :
  b <> 0 -> (b | a - c) -> (b | a - c') ->
  - Z.abs b < 2 * c <= Z.abs b -> - Z.abs b < 2 * c' <= Z.abs b -> c = c'.
Proof.
  intros Hb [u Hu] [v Hv] H1 H2.
  assert (E : c' - c = (u - v) * b) by lia.
  assert (Z.abs (c' - c) = Z.abs (u - v) * Z.abs b) by (rewrite E; apply Z.abs_mul).
  assert (Z.abs (u - v) = 0 \/ 1 <= Z.abs (u - v)) as [|] by lia; nia.
Qed.

(** *** posmod *)
Lemma rem_to_mod a b : 0 < b ->
  (if Z.rem a b <? 0 then Z.rem a b + b else Z.rem a b) = a mod b.
Proof.
  intros Hb. destruct (quot_rem_pos a b Hb) as (q & r & _ & -> & E & Hr & H1 & H2).
  destruct (Z.ltb_spec r 0).
  - apply (Z.mod_unique a b (q - 1)); lia.
  - apply (Z.mod_unique a b q); lia.
Qed.

Lemma posmod_long_ok a b :
  in64 a -> in64 b -> 0 < b -> posmod_long a b = Ok (a mod b).
Proof.
  intros Ha Hb H0. unfold posmod_long. rewrite rem64_ok by (auto; lia).
  rewrite bind_Ok. rewrite <- (rem_to_mod a b H0).
  destruct (quot_rem_pos a b H0) as (q & r & _ & -> & E & Hr & H1 & H2).
  destruct (Z.ltb_spec r 0); [|reflexivity].
  rewrite add64_ok by rg. reflexivity.
Qed.

Lemma posmod_int_ok a b :
  in32 a -> in32 b -> 0 < b -> posmod_int a b = Ok (a mod b).
Proof.
  intros Ha Hb H0. unfold posmod_int. rewrite rem32_ok by (auto; lia).
  rewrite bind_Ok. rewrite <- (rem_to_mod a b H0).
  destruct (quot_rem_pos a b H0) as (q & r & _ & -> & E & Hr & H1 & H2).
  destruct (Z.ltb_spec r 0); [|reflexivity].
  unfold add32; rewrite c32_ok by rg. reflexivity.
Qed.

(** *** gcd *)
Lemma gcd_rem a b : b <> 0 -> Z.gcd b (Z.rem a b) = Z.gcd a b.
Proof.
  intros Hb. pose proof (Z.quot_rem a b Hb).
  replace (Z.rem a b) with (a + (- Z.quot a b) * b) by lia.
  rewrite Z.gcd_add_mult_diag_r. apply Z.gcd_comm.
Qed.

(** "In range and not the minimum value". *)
Definition sym64 (z : Z) : Prop := Z.abs z <= max64.

Lemma sym64_in64 z : sym64 z <-> in64 z /\ z <> min64.
Proof. unfold sym64. u64. lia. Qed.

Lemma sym64_in z : sym64 z -> in64 z.
Proof. intros H; now apply sym64_in64 in H. Qed.

Lemma gcd_loop_ok a0 b0 :
  sym64 a0 -> sym64 b0 ->
  exists g, while gcd_step W (a0, b0) = Ok g /\ sym64 g /\ Z.abs g = Z.gcd a0 b0.
Proof.
  intros Ha Hb.
  apply (while_total gcd_step
    (fun s => let '(a, b) := s in sym64 a /\ sym64 b /\ Z.gcd a b = Z.gcd a0 b0)
    (fun g => sym64 g /\ Z.abs g = Z.gcd a0 b0)
    (fun s => Z.abs (snd s))).
  - intros [a b] H. cbn. lia.
  - intros [a b] (H1 & H2 & H4). unfold gcd_step.
    destruct (Z.eqb_spec b 0) as [->|Hb0].
    + left. exists a. split; [reflexivity|]. rewrite Z.gcd_0_r in H4. auto.
    + right. apply sym64_in64 in H1 as [H1 H1']. rewrite rem64_ok by auto.
      rewrite bind_Ok. eexists; split; [reflexivity|].
      pose proof (rem_abs_lt a b Hb0). pose proof (gcd_rem a b Hb0) as Hg.
      cbn [snd]. unfold sym64 in *. repeat split; lia.
  - repeat split; auto.
  - cbn [snd]. unfold sym64 in *. u64. change (2 ^ Z.of_nat W) with 1180591620717411303424. lia.
Qed.

Lemma gcd_long_ok a b :
  sym64 a -> sym64 b -> gcd_long a b = Ok (Z.gcd a b).
Proof.
  intros Ha Hb. unfold gcd_long.
  destruct (Z.eqb_spec a 1) as [->|]; [cbn [orb]; now rewrite Z.gcd_1_l|].
  destruct (Z.eqb_spec b 1) as [->|]; [rewrite orb_true_r; now rewrite Z.gcd_1_r|].
  cbn [orb].
  destruct (Z.eqb_spec a 0) as [->|].
  - rewrite abs64_ok by (unfold sym64 in *; rg). reflexivity.
  - destruct (gcd_loop_ok a b Ha Hb) as (g & -> & Hg & <-).
    rewrite bind_Ok, abs64_ok by (unfold sym64 in *; rg). reflexivity.
Qed.

(** *** bezout *)
Definition bez_inv (a0 b0 : Z) (s : bez_state) : Prop :=
  let '(a, b, oldx, x, oldy, y) := s in
  sym64 a /\ sym64 b /\
  Z.gcd a b = Z.gcd a0 b0 /\
  a0 * oldx + b0 * oldy = a /\ a0 * x + b0 * y = b /\
  Z.abs x * Z.abs a + Z.abs oldx * Z.abs b = Z.abs b0 /\
  Z.abs y * Z.abs a + Z.abs oldy * Z.abs b = Z.abs a0 /\
  oldx * x * (a * b) <= 0 /\ oldy * y * (a * b) <= 0 /\
  Z.abs x <= Z.max 1 (Z.abs b0) /\ Z.abs oldx <= Z.max 1 (Z.abs b0) /\
  Z.abs y <= Z.max 1 (Z.abs a0) /\ Z.abs oldy <= Z.max 1 (Z.abs a0).

(** Sign bookkeeping: when oldx and q*x have opposite signs the absolute
    values add up. *)
Lemma abs_sub_opp u v : u * v <= 0 -> Z.abs (u - v) = Z.abs u + Z.abs v.
Proof. intros. nia. Qed.

Lemma quot_sign_a_b a b : b <> 0 -> 0 <= Z.quot a b * (a * b).
Proof.
  intros Hb.
  assert (H : Z.quot a b = Z.sgn a * Z.sgn b * (Z.abs a / Z.abs b)).
  { rewrite Z.quot_div by auto. ring. }
  rewrite H. pose proof (Z.div_pos (Z.abs a) (Z.abs b) ltac:(lia) ltac:(lia)).
  replace (Z.sgn a * Z.sgn b * (Z.abs a / Z.abs b) * (a * b))
    with ((Z.sgn a * a) * (Z.sgn b * b) * (Z.abs a / Z.abs b)) by ring.
  replace (Z.sgn a * a) with (Z.abs a) by lia.
  replace (Z.sgn b * b) with (Z.abs b) by lia.
  apply Z.mul_nonneg_nonneg; [|lia]. apply Z.mul_nonneg_nonneg; lia.
Qed.

Lemma rem_sign a b : b <> 0 -> 0 <= Z.rem a b * a.
Proof.
  intros Hb. destruct (Z.le_ge_cases 0 a).
  - pose proof (Z.rem_nonneg a b Hb). nia.
  - pose proof (Z.rem_nonpos a b Hb). nia.
Qed.

Lemma abs_quot_rem a b : b <> 0 ->
  Z.abs a = Z.abs (Z.quot a b) * Z.abs b + Z.abs (Z.rem a b).
Proof.
  intros Hb. pose proof (Z.quot_rem a b Hb) as E.
  rewrite <- Z.abs_mul.
  destruct (Z.eq_dec a 0) as [->|Ha]; [rewrite Z.quot_0_l, Z.rem_0_l by auto; lia|].
  pose proof (quot_sign_a_b a b Hb). pose proof (rem_sign a b Hb).
  set (q := Z.quot a b) in *. set (r := Z.rem a b) in *.
  assert (0 <= (q * b) * a) by lia. set (u := q * b) in *.
  replace (b * q) with u in E by (unfold u; ring).
  clearbody q r u.
  assert (0 < a \/ a < 0) as [P|P] by lia.
  - assert (0 <= u) by nia. assert (0 <= r) by nia. lia.
  - assert (u <= 0) by nia. assert (r <= 0) by nia. lia.
Qed.

Lemma sq_pos b : b <> 0 -> 0 < b * b.
Proof. intros. pose proof (Z.square_nonneg b). assert (b * b <> 0) by (apply Z.neq_mul_0; auto). lia. Qed.

Lemma sign_transfer T u v : T * u <= 0 -> 0 < u * v -> T * v <= 0.
Proof. intros. destruct (proj1 (Z.lt_0_mul u v) H0) as [[? ?]|[? ?]]; nia. Qed.

Lemma sign_cancel a b : 0 <= a * b -> a <> 0 -> b <> 0 -> 0 < a * b.
Proof. intros. assert (a * b <> 0) by (apply Z.neq_mul_0; auto). lia. Qed.

(** One coefficient column of the extended Euclidean step. *)
Lemma bez_column a b oldx x q r :
  0 <= q * (a * b) -> oldx * x * (a * b) <= 0 -> b <> 0 ->
  (a = 0 -> q = 0) ->
  0 <= r * a ->
  Z.abs a = Z.abs q * Z.abs b + Z.abs r ->
  Z.abs (oldx - q * x) = Z.abs oldx + Z.abs (q * x) /\
  x * (oldx - q * x) * (b * r) <= 0 /\
  Z.abs (oldx - q * x) * Z.abs b + Z.abs x * Z.abs r
    = Z.abs x * Z.abs a + Z.abs oldx * Z.abs b.
Proof.
  intros Hq Hx Hb Hq0 Hr E.
  destruct (Z.eq_dec q 0) as [->|Hqn].
  { rewrite Z.mul_0_l, Z.sub_0_r in *. rewrite Z.abs_0 in *.
    split; [lia|]. split; [|rewrite E; ring].
    destruct (Z.eq_dec r 0) as [->|Hr0]; [lia|].
    destruct (Z.eq_dec a 0) as [->|Ha]; [lia|].
    pose proof (sign_cancel _ _ Hr Hr0 Ha).
    apply sign_transfer with (u := a * b); [lia|].
    replace (a * b * (b * r)) with ((r * a) * (b * b)) by ring.
    apply Z.mul_pos_pos; [auto|]. now apply sq_pos. }
  assert (Ha : a <> 0) by tauto.
  assert (Hab : a * b <> 0) by (apply Z.neq_mul_0; auto).
  pose proof (sign_cancel _ _ Hq Hqn Hab) as Hq1.
  assert (Hopp : oldx * (q * x) <= 0).
  { replace (oldx * (q * x)) with (oldx * x * q) by ring.
    apply sign_transfer with (u := a * b); [auto|lia]. }
  pose proof (abs_sub_opp _ _ Hopp) as Hn.
  split; [exact Hn|]. split.
  - destruct (Z.eq_dec r 0) as [->|Hr0]; [lia|].
    pose proof (sign_cancel _ _ Hr Hr0 Ha).
    apply sign_transfer with (u := a * b).
    + replace (x * (oldx - q * x) * (a * b))
        with (oldx * x * (a * b) - x * x * (q * (a * b))) by ring.
      pose proof (Z.square_nonneg x).
      pose proof (Z.mul_nonneg_nonneg _ _ H0 Hq). clear - H1 Hx. lia.
    + replace (a * b * (b * r)) with ((r * a) * (b * b)) by ring.
      apply Z.mul_pos_pos; [auto|]. now apply sq_pos.
  - rewrite Hn, E, Z.abs_mul. ring.
Qed.

Lemma bez_inv_step a0 b0 s :
  bez_inv a0 b0 s -> sym64 a0 -> sym64 b0 ->
  (exists r, bez_step s = Ok (inr r) /\
     let '(a, x, y) := r in
     sym64 a /\ Z.abs a = Z.gcd a0 b0 /\ a0 * x + b0 * y = a /\
     Z.abs x <= Z.max 1 (Z.abs b0) /\ Z.abs y <= Z.max 1 (Z.abs a0)) \/
  (exists s', bez_step s = Ok (inl s') /\ bez_inv a0 b0 s' /\
     (let '(_, b', _, _, _, _) := s' in Z.abs b') <=
     (let '(_, b, _, _, _, _) := s in Z.abs b) - 1).
Proof.
  destruct s as [[[[[a b] oldx] x] oldy] y].
  intros (Ha & Hb & Hg & Hx & Hy & Ex & Ey & Sx & Sy & Bx & Box & By & Boy) HA HB.
  unfold bez_step. destruct (Z.eqb_spec b 0) as [->|Hb0].
  - left. eexists; split; [reflexivity|]. cbn beta iota.
    rewrite Z.gcd_0_r in Hg. tauto.
  - right.
    pose proof (quot_sign_a_b a b Hb0) as Hq. pose proof (rem_sign a b Hb0) as Hr.
    pose proof (abs_quot_rem a b Hb0) as E. pose proof (Z.quot_rem a b Hb0) as QR.
    pose proof (rem_abs_lt a b Hb0) as Rlt.
    pose proof (gcd_rem a b Hb0) as Hg'.
    apply sym64_in64 in Ha as Ha'. destruct Ha' as [Ha1 Ha2].
    rewrite quot64_ok by auto. rewrite bind_Ok.
    assert (Hq0 : a = 0 -> Z.quot a b = 0) by (intros ->; now apply Z.quot_0_l).
    set (q := Z.quot a b) in *. set (r := Z.rem a b) in *.
    destruct (bez_column a b oldx x q r) as (X1 & X2 & X3); auto.
    destruct (bez_column a b oldy y q r) as (Y1 & Y2 & Y3); auto.
    unfold sym64 in *.
    clearbody q r.
    assert (Hpos : forall u v, 0 <= Z.abs u * Z.abs v).
    { clear. intros. apply Z.mul_nonneg_nonneg; lia. }
    assert (Hge : forall u, Z.abs u <= Z.abs u * Z.abs b).
    { clear - Hb0. intros u. rewrite <- (Z.mul_1_r (Z.abs u)) at 1.
      apply Z.mul_le_mono_nonneg_l; lia. }
    assert (NX : Z.abs (oldx - q * x) <= Z.abs b0).
    { pose proof (Hge (oldx - q * x)) as T1. pose proof (Hpos x r) as T2.
      rewrite Ex in X3. clear - T1 T2 X3. lia. }
    assert (NY : Z.abs (oldy - q * y) <= Z.abs a0).
    { pose proof (Hge (oldy - q * y)) as T1. pose proof (Hpos y r) as T2.
      rewrite Ey in Y3. clear - T1 T2 Y3. lia. }
    assert (Er : a - q * b = r) by (clear - QR; lia).
    assert (Bqb : Z.abs (q * b) <= Z.abs a) by (rewrite Z.abs_mul, E; clear; lia).
    assert (Bqx : Z.abs (q * x) <= Z.abs b0) by (clear - X1 NX; lia).
    assert (Bqy : Z.abs (q * y) <= Z.abs a0) by (clear - Y1 NY; lia).
    rewrite mul64_ok by (clear - Bqb Ha; u64; lia). rewrite bind_Ok.
    rewrite sub64_ok by (rewrite Er; clear - Rlt Hb; u64; lia). rewrite bind_Ok, Er.
    rewrite mul64_ok by (clear - Bqx HB; u64; lia). rewrite bind_Ok.
    rewrite sub64_ok by (clear - NX HB; u64; lia). rewrite bind_Ok.
    rewrite mul64_ok by (clear - Bqy HA; u64; lia). rewrite bind_Ok.
    rewrite sub64_ok by (clear - NY HA; u64; lia). rewrite bind_Ok.
    eexists; split; [reflexivity|]. split; [|cbn beta iota; clear - Rlt; lia].
    unfold bez_inv, sym64. repeat split; auto.
    + clear - Rlt Hb. lia.
    + congruence.
    + rewrite <- Er, <- Hx, <- Hy. clear. ring.
    + rewrite <- Ex. exact X3.
    + rewrite <- Ey. exact Y3.
    + clear - NX. lia.
    + clear - NY. lia.
Qed.

Lemma bezout_long_ok a b :
  sym64 a -> sym64 b ->
  exists x y, bezout_long a b = Ok (Z.gcd a b, x, y) /\ a * x + b * y = Z.gcd a b /\
    Z.abs x <= Z.max 1 (Z.abs b) /\ Z.abs y <= Z.max 1 (Z.abs a).
Proof.
  intros Ha Hb. unfold bezout_long.
  destruct (while_total bez_step (bez_inv a b)
     (fun r => let '(g, x, y) := r in
     sym64 g /\ Z.abs g = Z.gcd a b /\ a * x + b * y = g /\
     Z.abs x <= Z.max 1 (Z.abs b) /\ Z.abs y <= Z.max 1 (Z.abs a))
     (fun s => let '(_, b', _, _, _, _) := s in Z.abs b'))
    with (n := W) (s := (a, b, 1, 0, 0, 1)) as (r & Hr & Post).
  - intros [[[[[? ?] ?] ?] ?] ?] _. lia.
  - intros s Hs. apply bez_inv_step; auto.
  - unfold bez_inv. repeat split; auto; lia.
  - unfold sym64 in *. u64. change (2 ^ Z.of_nat W) with 1180591620717411303424. lia.
  - rewrite Hr, bind_Ok. destruct r as [[g x] y].
    destruct Post as (Hg & Eg & Exy & Bx & By).
    unfold sym64 in *.
    destruct (Z.ltb_spec g 0).
    + rewrite neg64_ok by rg. rewrite bind_Ok.
      rewrite neg64_ok by rg. rewrite bind_Ok.
      rewrite neg64_ok by rg. rewrite bind_Ok.
      exists (- x), (- y). repeat split; try lia.
      do 3 f_equal. lia.
    + exists x, y. repeat split; try lia. do 3 f_equal. lia.
Qed.

Lemma invmod_long_ok a p :
  sym64 a -> sym64 p ->
  exists x, invmod_long a p = Ok x /\
    (Z.gcd a p = 1 -> (p | a * x - 1)) /\ (Z.gcd a p <> 1 -> x = 0).
Proof.
  intros Ha Hp. destruct (bezout_long_ok a p Ha Hp) as (x & y & Hb & E & _).
  unfold invmod_long. rewrite Hb, bind_Ok.
  destruct (Z.eqb_spec (Z.gcd a p) 1) as [G|G].
  - exists x. repeat split; intros; [|tauto]. exists (- y). lia.
  - exists 0. repeat split; tauto.
Qed.

(** *** lcm *)
Lemma lcm_long_ok a b :
  sym64 a -> sym64 b -> Z.lcm a b <= max64 ->
  exists l, lcm_long a b = Ok l /\ Z.abs l = Z.lcm a b.
Proof.
  intros Ha Hb Hl. unfold lcm_long. rewrite gcd_long_ok by auto. rewrite bind_Ok.
  destruct (Z.eqb_spec (Z.gcd a b) 0) as [G|G].
  - exists 0. split; [reflexivity|].
    apply Z.gcd_eq_0 in G as [-> ->]. reflexivity.
  - apply sym64_in64 in Hb as [Hb1 Hb2]. rewrite quot64_ok by auto. rewrite bind_Ok.
    pose proof (Z.gcd_nonneg a b). destruct (Z.gcd_divide_r a b) as [k Hk].
    assert (E : Z.quot b (Z.gcd a b) = k) by (rewrite Hk at 1; now apply Z.quot_mul).
    assert (L : Z.lcm a b = Z.abs (a * k)).
    { unfold Z.lcm. f_equal. f_equal. rewrite Hk at 1. now apply Z.div_mul. }
    rewrite E. rewrite mul64_ok by rg. eexists; split; [reflexivity|]. auto.
Qed.

(** *** val *)
(** Specification: e is the exact exponent of f in n. *)
Definition exact_power (f n e : Z) : Prop :=
  0 <= e /\ (f ^ e | n) /\ ~ (f ^ (e + 1) | n).

Lemma exact_power_unique f n e e' :
  exact_power f n e -> exact_power f n e' -> e = e'.
Proof.
  assert (forall e e', exact_power f n e -> exact_power f n e' -> e < e' -> False) as H.
  { intros u v (U1 & U2 & U3) (V1 & V2 & V3) Huv. apply U3.
    apply Z.divide_trans with (f ^ v); auto.
    exists (f ^ (v - (u + 1))). rewrite <- Z.pow_add_r by lia. f_equal. lia. }
  intros H1 H2. destruct (Z.lt_trichotomy e e') as [?|[?|?]]; auto; exfalso; eauto.
Qed.

Lemma val_loop_ok f n0 :
  2 <= f <= max64 -> 1 <= n0 <= max64 ->
  exists e, while (val_step f) W (n0, 0) = Ok e /\ exact_power f n0 e.
Proof.
  intros Hf Hn.
  apply (while_total (val_step f)
    (fun s => let '(n, e) := s in 1 <= n <= max64 /\ 0 <= e /\ n0 = n * f ^ e /\ e + n <= n0)
    (fun e => exact_power f n0 e) (fun s => fst s)).
  - intros [n e]. cbn. lia.
  - intros [n e] (H1 & H2 & H3 & H4). unfold val_step.
    rewrite rem64_ok by (try rg; lia). rewrite bind_Ok.
    destruct (quot_rem_pos n f) as (q & r & Eq & -> & E & Hr & P1 & P2); [lia|].
    destruct (Z.eqb_spec r 0) as [->|R].
    + right. assert (1 <= q < n) by nia.
      rewrite add64_ok by rg. rewrite bind_Ok.
      rewrite quot64_ok by (try rg; lia). rewrite bind_Ok, Eq.
      eexists; split; [reflexivity|]. cbn [fst]. repeat split; try lia.
      rewrite Z.pow_add_r, Z.pow_1_r by lia. rewrite H3, E. ring.
    + left. exists e. split; [reflexivity|]. repeat split; auto.
      * exists n; auto.
      * intros [k Hk]. rewrite Z.pow_add_r, Z.pow_1_r in Hk by lia.
        assert (Hp : f ^ e <> 0) by (apply Z.pow_nonzero; lia).
        assert (n = k * f) by (apply (Z.mul_reg_r _ _ (f ^ e)); auto; rewrite <- H3, Hk; ring).
        assert (r = (k - q) * f) by lia.
        assert (k - q = 0 \/ 1 <= k - q \/ k - q <= -1) as [?|[?|?]] by lia; nia.
  - repeat split; lia.
  - cbn [fst]. u64. change (2 ^ Z.of_nat W) with 1180591620717411303424. lia.
Qed.

Lemma val_long_ok f n :
  sym64 f -> sym64 n -> 2 <= Z.abs f -> n <> 0 ->
  exists e, val_long f n = Ok e /\ exact_power f n e.
Proof.
  intros Hf Hn Hf2 Hn0. unfold val_long, sym64 in *.
  rewrite abs64_ok by rg. rewrite bind_Ok, abs64_ok by rg. rewrite bind_Ok.
  destruct (Z.eqb_spec (Z.abs n) 0); [lia|].
  destruct (Z.ltb_spec (Z.abs f) 2); [lia|]. cbn [orb].
  destruct (val_loop_ok (Z.abs f) (Z.abs n)) as (e & -> & H1 & H2 & H3); try lia.
  exists e. split; [reflexivity|]. rewrite <- !Z.abs_pow in *.
  repeat split; auto.
  - now apply Z.divide_abs_l, Z.divide_abs_r.
  - intros HH. apply H3. now apply Z.divide_abs_l, Z.divide_abs_r.
Qed.
