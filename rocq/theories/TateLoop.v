(** Tate's algorithm: types I*m, IV*, III*, II* *)
From Coq Require Import ZArith Znumtheory Lia List Bool.
From Verif Require Import Base RatModel MArithModel MArithProofs CurveModel CurveProofs TateModel TateSpec TateArith TateShift TateStar.
Import ListNotations.
Open Scope Z_scope.

Lemma pow_2k1 p k : 0 <= k -> p ^ (2 * k + 1) = p ^ k * p ^ k * p.
Proof. intros K. replace (2 * k + 1) with (k + k + 1) by lia. rewrite !Z.pow_add_r by lia. ring. Qed.
Lemma pow_pred p n : 1 <= n -> p ^ n = p ^ (n - 1) * p.
Proof. intros N. replace n with (n - 1 + 1) at 1 by lia. rewrite Z.pow_add_r by lia. ring. Qed.

Section P.
Variable p : Z.
Hypothesis P : prime p.
Lemma pk0 k : 0 <= k -> p ^ k <> 0.
Proof. intros K. pose proof (p0 p P). apply Z.pow_nonzero; lia. Qed.

Lemma yroot_iff k c x3 x6 : 0 <= k -> a3 c = p ^ k * x3 -> a6 c = p ^ k * p ^ k * x6 ->
  (yroot p k c <-> exists y, (p | 1 * y ^ 2 + x3 * y + - x6)) /\
  ((p ^ (2 * k + 1) | sb6 c) <-> (p | x3 * x3 + 4 * x6)).
Proof.
  intros K E3 E6. unfold yroot, sb6. rewrite E3, E6, pow_2k1 by lia. pose proof (pk0 k K) as N.
  set (M := p ^ k) in *. assert (NN : M * M <> 0) by (apply Z.neq_mul_0; auto). split.
  - split; intros [y H]; exists y.
    + apply (pscale (M * M)); [exact NN|]. replace (M * M * (1 * y ^ 2 + x3 * y + - x6)) with ((M * y) ^ 2 + M * x3 * (M * y) - M * M * x6) by ring. exact H.
    + apply (pscale (M * M)) in H; [|exact NN]. replace (M * M * (1 * y ^ 2 + x3 * y + - x6)) with ((M * y) ^ 2 + M * x3 * (M * y) - M * M * x6) in H by ring. exact H.
  - replace ((M * x3) ^ 2 + 4 * (M * M * x6)) with (M * M * (x3 * x3 + 4 * x6)) by ring. apply pscale. exact NN.
Qed.
Lemma xroot_iff k c x2 x4 x6 : 1 <= k -> a2 c = p * x2 -> a4 c = p ^ k * x4 -> a6 c = p ^ (2 * k - 1) * x6 ->
  (xroot p k c <-> exists x, (p | x2 * x ^ 2 + x4 * x + x6)) /\
  ((p ^ (2 * k + 1) | a4 c ^ 2 - 4 * a2 c * a6 c) <-> (p | x4 * x4 - 4 * x6 * x2)).
Proof.
  intros K E2 E4 E6. unfold xroot. rewrite E2, E4, E6, pow_2k1 by lia.
  assert (Q : p ^ (2 * k) = p ^ (2 * k - 1) * p) by (rewrite (pow_pred p (2 * k)) by lia; reflexivity).
  assert (Q1 : p ^ (2 * k - 1) = p ^ (k - 1) * p ^ (k - 1) * p).
  { replace (2 * k - 1) with (2 * (k - 1) + 1) by lia. apply pow_2k1. lia. }
  assert (Q2 : p ^ k = p ^ (k - 1) * p) by (apply pow_pred; lia).
  pose proof (pk0 (2 * k - 1) ltac:(lia)) as N. rewrite Q. split.
  - split; intros [x H]; exists x.
    + apply (pscale (p ^ (2 * k - 1))); [exact N|].
      replace (p ^ (2 * k - 1) * (x2 * x ^ 2 + x4 * x + x6)) with (p * x2 * (p ^ (k - 1) * x) ^ 2 + p ^ k * x4 * (p ^ (k - 1) * x) + p ^ (2 * k - 1) * x6) by (rewrite Q1, Q2; ring). exact H.
    + apply (pscale (p ^ (2 * k - 1))) in H; [|exact N].
      replace (p ^ (2 * k - 1) * (x2 * x ^ 2 + x4 * x + x6)) with (p * x2 * (p ^ (k - 1) * x) ^ 2 + p ^ k * x4 * (p ^ (k - 1) * x) + p ^ (2 * k - 1) * x6) in H by (rewrite Q1, Q2; ring). exact H.
  - pose proof (pk0 k ltac:(lia)) as N'.
    replace ((p ^ k * x4) ^ 2 - 4 * (p * x2) * (p ^ (2 * k - 1) * x6)) with (p ^ k * p ^ k * (x4 * x4 - 4 * x6 * x2)) by (rewrite Q1, Q2; ring).
    apply pscale. apply Z.neq_mul_0; auto.
Qed.

Lemma star_disc c M : (p * p | M) -> (p | a1 c) -> (p | a2 c) -> (M | a3 c) -> (p * M | a4 c) -> (M * M | a6 c) ->
  (M * M * p ^ 3 | sdisc c).
Proof.
  intros [Q EM] [x1 E1] [x2 E2] [x3 E3] [x4 E4] [x6 E6].
  destruct c as [A1 A2 A3 A4 A6]. cbn [a1 a2 a3 a4 a6] in *. subst A1 A2 A3 A4 A6.
  set (b2' := x1 ^ 2 * p + 4 * x2). set (b4' := 2 * x4 + x1 * x3). set (b6' := x3 ^ 2 + 4 * x6).
  set (b8' := x1 ^ 2 * p * x6 + 4 * x2 * x6 - x1 * x3 * x4 * p + x2 * x3 ^ 2 - p * x4 ^ 2).
  assert (B2 : sb2 (Cv (x1 * p) (x2 * p) (x3 * M) (x4 * (p * M)) (x6 * (M * M))) = p * b2') by (unfold sb2, b2'; cbn [a1 a2]; ring).
  assert (B4 : sb4 (Cv (x1 * p) (x2 * p) (x3 * M) (x4 * (p * M)) (x6 * (M * M))) = p * M * b4') by (unfold sb4, b4'; cbn [a1 a2 a3 a4]; ring).
  assert (B6 : sb6 (Cv (x1 * p) (x2 * p) (x3 * M) (x4 * (p * M)) (x6 * (M * M))) = M * M * b6') by (unfold sb6, b6'; cbn [a3 a6]; ring).
  assert (B8 : sb8 (Cv (x1 * p) (x2 * p) (x3 * M) (x4 * (p * M)) (x6 * (M * M))) = p * (M * M) * b8') by (unfold sb8, b8'; cbn [a1 a2 a3 a4 a6]; ring).
  unfold sdisc. rewrite B2, B4, B6, B8.
  exists (- b2' ^ 2 * b8' - 8 * M * b4' ^ 3 - 27 * p * Q ^ 2 * b6' ^ 2 + 9 * p * Q * b2' * b4' * b6').
  replace (27 * p * Q ^ 2 * b6' ^ 2 * (M * M * p ^ 3)) with (27 * (M * M) * (Q * (p * p)) ^ 2 * b6' ^ 2) by ring.
  transitivity ((- b2' ^ 2 * b8' - 8 * M * b4' ^ 3) * (M * M * p ^ 3) - 27 * (M * M) * (Q * (p * p)) ^ 2 * b6' ^ 2 + 9 * b2' * b4' * b6' * (M * M) * p ^ 2 * (Q * (p * p))); [|ring].
  rewrite <- EM. ring.
Qed.

Section Algo.
Variable xgcd : Z -> Z -> Z * Z * Z.
Hypothesis X : xgcd_spec xgcd.
Variable srm : Z -> Z -> Z.
Hypothesis S2 : srm 1 2 = 1.
Notation half := (zz_shr (p + 1) 1).

(** the shift t = M u with Y = u the double root *)
Lemma ypick M a e : exists u,
  ((if Z.even p then u <- root srm e 2 p ;; Ok (M * u) else u <- mod_z (- a * half) p ;; Ok (M * u)) = Ok (M * u)) /\
  (p = 2 /\ (2 | u - e) \/ p <> 2 /\ (p | 2 * u + a)).
Proof.
  destruct (Z.eq_dec p 2) as [E|N].
  - rewrite E. cbn [Z.even]. rewrite (root2 srm S2). rewrite bind_Ok. exists (e mod 2). split; [reflexivity|].
    left. split; [reflexivity|]. apply mod_c. lia.
  - destruct (odd_prime p P N) as (-> & _). destruct (mod_zc (- a * half) p P) as (u & -> & H). rewrite bind_Ok.
    exists u. split; [reflexivity|]. right. split; [exact N|]. pose proof (half_ok p P N) as HH. set (h := half) in *.
    apply (dc2 p _ p 2 (- a) _ H (dself p)). replace (2 * (u - - a * h)) with (2 * u + a * (2 * h)) by ring. rewrite HH. ring.
Qed.

Definition sinv (C0 : curvedata) (st : curvedata * Z * Z * Z * Z) : Prop :=
  let '(C, ix, iy, mx, my) := st in
  let c := cv C in
  reach C0 C /\ 3 <= ix /\ iy = ix /\ mx = p ^ (ix - 1) /\ my = mx /\ (p | a1 c) /\
  (exists x2, a2 c = p * x2 /\ ~ (p | x2)) /\ (mx | a3 c) /\ (p * mx | a4 c) /\ (mx * mx | a6 c).
Definition spost (C0 : curvedata) (r : curvedata * Z * Z * Z) : Prop :=
  let '(C, ix, iy, cp) := r in
  reach C0 C /\ 1 <= ix + iy - 5 /\ tate_form p (cv C) (KIs (ix + iy - 5)) cp.

Lemma sq_p n : 3 <= n -> exists Q, p ^ (n - 1) = p * p * Q /\ p ^ (n - 1) = p * (p * Q).
Proof.
  intros N. exists (p ^ (n - 3)). replace (n - 1) with (2 + (n - 3)) by lia. rewrite Z.pow_add_r by lia. split; ring.
Qed.

Lemma istar_step_ok C0 st : sinv C0 st ->
  (exists r, istar_step xgcd srm p half (Z.even p) st = Ok (inr r) /\ spost C0 r) \/
  (exists st', istar_step xgcd srm p half (Z.even p) st = Ok (inl st') /\ sinv C0 st' /\
     snd (fst (fst (fst st'))) = snd (fst (fst (fst st))) + 1).
Proof.
  destruct st as [[[[C n] iy] mx] my]. intros (R & N3 & -> & EM & -> & [x1 E1] & (x2 & E2 & N2) & [x3 E3] & [x4 E4] & [x6 E6]).
  pose proof (p0 p P) as G. pose proof (pk0 (n - 1) ltac:(lia)) as NM. rewrite <- EM in NM.
  destruct (sq_p n N3) as (Q & EQ & _). rewrite <- EM in EQ.
  assert (Pn : p ^ n = mx * p) by (rewrite EM; apply pow_pred; lia).
  set (c := cv C) in *. unfold istar_step. fold c.
  rewrite (zdiv_eq (a2 c) p x2) by (lia || exact E2). rewrite bind_Ok.
  rewrite (zdiv_eq (a3 c) mx x3) by (exact NM || (rewrite E3; ring)). rewrite bind_Ok.
  rewrite (zdiv_eq (a4 c) p (mx * x4)) by (lia || (rewrite E4; ring)). rewrite bind_Ok.
  rewrite (zdiv_eq (mx * x4) mx x4) by (exact NM || ring). rewrite bind_Ok.
  rewrite (zdiv_eq (a6 c) mx (mx * x6)) by (exact NM || (rewrite E6; ring)). rewrite bind_Ok.
  rewrite (zdiv_eq (mx * x6) mx x6) by (exact NM || ring). rewrite bind_Ok.
  destruct (yroot_iff (n - 1) c x3 x6) as [YR YB]; [lia|rewrite E3, EM; ring|rewrite E6, EM; ring|].
  destruct (div_zb p (x3 * x3 + 4 * x6)) as (d & -> & Hd). rewrite bind_Ok.
  destruct Hd as [[-> Hd]|[-> Hd]].
  2:{ (* leave with m odd *)
    left. destruct (rootsexist_ok 1 x3 (- x6) p P) as (e & -> & He).
    { intros D. apply Z.divide_1_r_nonneg in D; lia. }
    rewrite bind_Ok. eexists. split; [reflexivity|]. unfold spost. split; [exact R|]. split; [lia|].
    unfold tate_form. fold c. split; [exists x1; exact E1|]. split; [exists x2; lia|].
    destruct (Z.eqb_spec (n + n - 5) 0) as [EE|_]; [exfalso; clear - EE N3; lia|]. split; [clear - N3; lia|]. split.
    { intros [k D]. apply N2. exists k. rewrite E2 in D. apply Z.mul_reg_l with p; [lia|]. rewrite D. ring. }
    replace (n + n - 5) with (2 * (n - 3) + 1) by lia. rewrite Z.odd_add, Z.odd_mul. cbn [Z.odd andb xorb].
    replace ((2 * (n - 3) + 1 + 5) / 2) with n by (replace (2 * (n - 3) + 1 + 5) with (n * 2) by lia; rewrite Z.div_mul; lia).
    cbv zeta. rewrite <- EM. split; [exists x3; exact E3|]. split; [exists x4; rewrite Pn, E4; ring|].
    split. { replace (2 * n - 2) with ((n - 1) + (n - 1)) by lia. rewrite Z.pow_add_r, <- EM by lia. exists x6. exact E6. }
    split. { replace (2 * n - 1) with (2 * (n - 1) + 1) by lia. rewrite YB. exact Hd. }
    unfold choice. rewrite YR. destruct e; [left|right].
    - split; [apply He; reflexivity|reflexivity].
    - split; [intros Y; apply He in Y; discriminate|reflexivity]. }
  destruct (ypick mx x3 x6) as (u & -> & Hu). rewrite bind_Ok.
  destruct (yshift p P x3 x6 u Hd Hu) as [Y3 Y6]. destruct Y3 as [y3 Y3]. destruct Y6 as [y6 Y6].
  cbv zeta. set (C1 := cd_transform 0 0 (mx * u) C). assert (R1 : reach C0 C1) by (apply reach_step; exact R).
  assert (EC1 : cv C1 = tr_rst 0 0 (mx * u) c) by apply cd_transform_cv.
  set (c1 := cv C1) in *.
  assert (F1 : a1 c1 = x1 * p) by (rewrite EC1; unfold tr_rst; cbn [a1]; rewrite E1; ring).
  assert (F2 : a2 c1 = p * x2) by (rewrite EC1; unfold tr_rst; cbn [a2]; rewrite E2; ring).
  assert (F3 : a3 c1 = mx * p * y3) by (rewrite EC1; unfold tr_rst; cbn [a3]; rewrite E3, <- (Z.mul_assoc mx p), (Z.mul_comm p y3), <- Y3; ring).
  assert (F4 : a4 c1 = p * (mx * (x4 - u * x1))) by (rewrite EC1; unfold tr_rst; cbn [a4]; rewrite E4, E1; ring).
  assert (F6 : a6 c1 = mx * (mx * p * y6)).
  { rewrite EC1; unfold tr_rst; cbn [a6]. rewrite E6, E3. rewrite <- (Z.mul_assoc mx p), (Z.mul_comm p y6), <- Y6. ring. }
  rewrite (zdiv_eq (a2 c1) p x2) by (lia || exact F2). rewrite bind_Ok.
  assert (NMp : mx * p <> 0) by (apply Z.neq_mul_0; split; [exact NM|lia]).
  rewrite (zdiv_eq (a3 c1) (mx * p) y3) by (exact NMp || exact F3). rewrite bind_Ok.
  rewrite (zdiv_eq (a4 c1) p _ ltac:(lia) F4). rewrite bind_Ok. set (y4 := x4 - u * x1) in *.
  rewrite (zdiv_eq (mx * y4) mx y4) by (exact NM || ring). rewrite bind_Ok.
  rewrite (zdiv_eq (a6 c1) mx _ NM F6). rewrite bind_Ok.
  rewrite (zdiv_eq (mx * p * y6) (mx * p) y6) by (exact NMp || ring). rewrite bind_Ok.
  assert (P2n : p ^ (2 * n - 1) = mx * mx * p).
  { replace (2 * n - 1) with (2 * (n - 1) + 1) by lia. rewrite pow_2k1 by lia. rewrite <- EM. reflexivity. }
  destruct (xroot_iff n c1 x2 y4 y6) as [XR XB]; [lia|exact F2|rewrite F4, Pn; ring|rewrite F6, P2n; ring|].
  destruct (div_zb p (y4 * y4 - 4 * y6 * x2)) as (d & -> & Hd'). rewrite bind_Ok.
  destruct Hd' as [[-> Hd']|[-> Hd']].
  2:{ (* leave with m even *)
    left. destruct (rootsexist_ok x2 y4 y6 p P N2) as (e & -> & He).
    rewrite bind_Ok. eexists. split; [reflexivity|]. unfold spost. split; [exact R1|]. split; [lia|].
    unfold tate_form. fold c1. split; [exists x1; exact F1|]. split; [exists x2; lia|].
    destruct (Z.eqb_spec (n + (n + 1) - 5) 0) as [EE|_]; [exfalso; clear - EE N3; lia|]. split; [clear - N3; lia|]. split.
    { intros [k D]. apply N2. exists k. rewrite F2 in D. apply Z.mul_reg_l with p; [lia|]. rewrite D. ring. }
    replace (n + (n + 1) - 5) with (2 * (n - 2)) by lia. rewrite Z.odd_mul. cbn [Z.odd andb].
    replace ((2 * (n - 2) + 4) / 2) with n by (replace (2 * (n - 2) + 4) with (n * 2) by lia; rewrite Z.div_mul; lia).
    cbv zeta. rewrite Pn, P2n. split; [exists y3; lia|]. split; [exists y4; rewrite F4; ring|].
    split; [exists y6; rewrite F6; ring|]. split; [rewrite XB; exact Hd'|].
    unfold choice. rewrite XR. destruct e; [left|right].
    - split; [apply He; reflexivity|reflexivity].
    - split; [intros Y; apply He in Y; discriminate|reflexivity]. }
  right.
  assert (XP : exists w, (if Z.even p then u <- root srm (y6 * invmod_z xgcd x2 p) 2 p ;; Ok (mx * u)
            else u <- mod_z (- y4 * invmod_z xgcd (2 * x2) p) p ;; Ok (mx * u)) = Ok (mx * w) /\
     (p = 2 /\ (2 | w - y6) \/ p <> 2 /\ (p | 2 * x2 * w + y4))).
  { destruct (Z.eq_dec p 2) as [E|NE].
    - assert (I : (p | x2 * invmod_z xgcd x2 p - 1)) by (apply inv_ok; auto).
      set (i := invmod_z xgcd x2 p) in *. rewrite E in *. cbn [Z.even].
      rewrite (root2 srm S2). rewrite bind_Ok. eexists. split; [reflexivity|].
      left. split; [reflexivity|].
      pose proof (mod_c (y6 * i) 2 ltac:(lia)) as MC. rewrite !even_div in *. clear - MC I N2. revert MC I N2. par.
      destruct (Z.even ((y6 * i) mod 2)), (Z.even y6), (Z.even i), (Z.even x2); cbn; intuition congruence.
    - destruct (odd_prime p P NE) as (-> & D2 & _).
      assert (NN : ~ (p | 2 * x2)) by (intros D; apply prime_mult in D as [D|D]; auto).
      pose proof (inv_ok xgcd X p P (2 * x2) NN) as I. set (i := invmod_z xgcd (2 * x2) p) in *.
      destruct (mod_zc (- y4 * i) p P) as (w & -> & Hw). rewrite bind_Ok. exists w. split; [reflexivity|]. right.
      split; [exact NE|]. apply (dc2 p _ _ (2 * x2) (- y4) _ Hw I). ring. }
  destruct XP as (w & -> & Hw). rewrite bind_Ok. eexists. split; [reflexivity|]. split; [|reflexivity].
  destruct (xshift p P x2 y4 y6 w N2 Hd' Hw) as [[z4 Z4] [z6 Z6]].
  set (C2 := cd_transform (mx * w) 0 0 C1). assert (R2 : reach C0 C2) by (apply reach_step; exact R1).
  assert (EC2 : cv C2 = tr_rst (mx * w) 0 0 c1) by apply cd_transform_cv.
  unfold sinv. set (c2 := cv C2) in *. split; [exact R2|]. split; [lia|]. split; [lia|].
  split; [replace (n + 1 - 1) with n by lia; rewrite Pn; reflexivity|]. split; [reflexivity|].
  split; [exists x1; rewrite EC2; unfold tr_rst; cbn [a1]; rewrite F1; ring|].
  split.
  { exists (x2 + 3 * p * Q * w). split; [rewrite EC2; unfold tr_rst; cbn [a2]; rewrite F2, EQ; ring|].
    intros D. apply N2. apply (dc2 p _ p 1 (-3 * Q * w) _ D (dself p)). ring. }
  split; [exists (y3 + w * x1); rewrite EC2; unfold tr_rst; cbn [a3]; rewrite F3, F1; ring|].
  split.
  { exists (z4 + 3 * Q * w ^ 2). rewrite EC2; unfold tr_rst; cbn [a4]. rewrite F4, F2, F1.
    replace (p * (mx * p)) with (p * p * mx) by ring.
    transitivity (p * mx * (y4 + 2 * x2 * w) + 3 * w ^ 2 * mx * mx); [ring|]. rewrite Z4. rewrite EQ at 3. ring. }
  { exists (z6 + w ^ 3 * Q). rewrite EC2; unfold tr_rst; cbn [a6]. rewrite F6, F4, F2, F1, F3.
    transitivity (mx * mx * p * (x2 * w ^ 2 + y4 * w + y6) + w ^ 3 * mx * mx * mx); [ring|]. rewrite Z6. rewrite EQ at 5. ring. }
Qed.

Lemma istar_ok C0 C : sinv C0 (C, 3, 3, p * p, p * p) -> sdisc (cv C0) <> 0 ->
  exists r, while (istar_step xgcd srm p half (Z.even p)) (zfuel (sdisc (cv C0))) (C, 3, 3, p * p, p * p) = Ok r /\ spost C0 r.
Proof.
  intros I D0. pose proof (p0 p P) as G.
  destruct (val_z_ok p (sdisc (cv C0)) D0 ltac:(lia)) as (v & _ & V0 & V1 & V2).
  apply (while_total _ (sinv C0) (spost C0) (fun st => v - 2 * snd (fst (fst (fst st))))).
  - intros [[[[C1 n] iy] mx] my] (R & N3 & -> & EM & -> & H1 & (x2 & E2 & N2) & H3 & H4 & H6). cbn [fst snd].
    pose proof (star_disc (cv C1) mx) as SD. rewrite (reach_disc _ _ R) in SD.
    destruct (sq_p n N3) as (Q & EQ & _). rewrite <- EM in EQ.
    specialize (SD ltac:(exists Q; lia) H1 ltac:(exists x2; lia) H3 H4 H6).
    destruct (Z.le_gt_cases (2 * n + 1) v) as [L|L]; [lia|]. exfalso. apply V2.
    apply ple with (2 * n + 1); [lia|].
    replace (p ^ (2 * n + 1)) with (mx * mx * p ^ 3); [exact SD|].
    rewrite EM. replace (2 * n + 1) with ((n - 1) + (n - 1) + 3) by lia. rewrite !Z.pow_add_r by lia. reflexivity.
  - intros st Hst. destruct (istar_step_ok C0 st Hst) as [L|(st' & E & I' & M)]; [left; exact L|].
    right. exists st'. split; [exact E|]. split; [exact I'|]. rewrite M. lia.
  - exact I.
  - cbn [fst snd]. pose proof (zfuel_gt (sdisc (cv C0))) as Z1.
    assert (v < p ^ v) by (apply Z.pow_gt_lin_r; lia).
    assert (p ^ v <= Z.abs (sdisc (cv C0))).
    { apply Z.divide_pos_le; [lia|]. apply Z.divide_abs_r. exact V1. }
    lia.
Qed.
End Algo.
End P.
