(** Tate's algorithm: the two changes of coordinates before the cubic *)
From Coq Require Import ZArith Znumtheory Lia List Bool.
From Verif Require Import Base RatModel MArithModel MArithProofs CurveModel CurveProofs TateModel TateSpec TateArith.
Import ListNotations.
Open Scope Z_scope.

Ltac par := repeat (rewrite ?Z.even_add, ?Z.even_sub, ?Z.even_opp, ?Z.even_mul in *; rewrite ?Z.even_pow in * by lia).

Lemma even_cong x y : (2 | x - y) -> Z.even x = Z.even y.
Proof. rewrite even_div, Z.even_sub. destruct (Z.even x), (Z.even y); cbn; congruence. Qed.

(** ** Under p | a3, a4, a6 *)
Lemma c4_b2 p c : prime p -> (p | a3 c) -> (p | a4 c) -> (p | sc4 c) <-> (p | sb2 c).
Proof.
  intros P H3 H4. assert (B4 : (p | sb4 c)).
  { apply (dc2 p (a3 c) (a4 c) (a1 c) 2 _ H3 H4). unfold sb4. ring. }
  split; intros H.
  - apply psq; [exact P|]. apply (dc2 p (sc4 c) (sb4 c) 1 24 _ H B4). unfold sc4. ring.
  - apply (dc2 p (sb2 c) (sb4 c) (sb2 c) (-24) _ H B4). unfold sc4. ring.
Qed.

(** for p odd and p | a3, p | b4, b6 gives p | a4, a6 *)
Lemma odd_b46 p c : prime p -> p <> 2 -> (p | a3 c) -> (p | sb4 c) -> (p | sb6 c) -> (p | a4 c) /\ (p | a6 c).
Proof.
  intros P N H3 B4 B6. destruct (odd_prime p P N) as (_ & D2 & D4). split.
  - apply pcancel with 2; [exact P|exact D2|]. apply (dc2 p (sb4 c) (a3 c) 1 (- a1 c) _ B4 H3). unfold sb4. ring.
  - apply pcancel with 4; [exact P|exact D4|]. apply (dc2 p (sb6 c) (a3 c) 1 (- a3 c) _ B6 H3). unfold sb6. ring.
Qed.

(** where the singular point is *)
Lemma shift_2 c r t : (2 | sdisc c) ->
  (if Z.even (a1 c) then Z.even r = Z.even (a4 c) /\ Z.even t = Z.even (((r + a2 c) * r + a4 c) * r + a6 c)
   else Z.even r = Z.even (a3 c) /\ Z.even t = Z.even (a4 c + r * r)) ->
  (2 | a3 (tr_rst r 0 t c)) /\ (2 | a4 (tr_rst r 0 t c)) /\ (2 | a6 (tr_rst r 0 t c)).
Proof.
  rewrite !even_div. destruct c as [A1 A2 A3 A4 A6].
  unfold sdisc, sb8, sb2, sb4, sb6, tr_rst. cbn [a1 a2 a3 a4 a6]. par.
  change (Z.even 2) with true. change (Z.even 4) with true. change (Z.even 8) with true.
  change (Z.even 27) with false. change (Z.even 9) with false. change (Z.even 0) with true. change (Z.even 3) with false.
  destruct (Z.even A1), (Z.even A2), (Z.even A3), (Z.even A4), (Z.even A6), (Z.even r), (Z.even t);
    cbn; intuition congruence.
Qed.

Lemma shift_3 c r t : (3 | sdisc c) -> (3 | t - (a1 c * r + a3 c)) ->
  ((3 | sb2 c) /\ (3 | r + sb6 c) \/ ~ (3 | sb2 c) /\ (3 | sb2 c * r + sb4 c)) ->
  (3 | a3 (tr_rst r 0 t c)) /\ (3 | a4 (tr_rst r 0 t c)) /\ (3 | a6 (tr_rst r 0 t c)).
Proof.
  intros D T H. set (c' := tr_rst r 0 t c) in *.
  assert (P : prime 3) by exact prime_3.
  assert (H3 : (3 | a3 c')).
  { apply (dc2 3 (t - (a1 c * r + a3 c)) 3 2 (a3 c + r * a1 c) _ T (dself 3)). unfold c', tr_rst. cbn [a3]. ring. }
  split; [exact H3|]. rewrite <- (sdisc_tr r 0 t) in D. fold c' in D.
  assert (B2 : sb2 c' = sb2 c + 12 * r) by apply sb2_tr.
  assert (B4 : sb4 c' = sb4 c + r * sb2 c + 6 * r ^ 2) by apply sb4_tr.
  assert (B6 : sb6 c' = sb6 c + 2 * r * sb4 c + r ^ 2 * sb2 c + 4 * r ^ 3) by apply sb6_tr.
  assert (D' : 4 * sdisc c' = - sb2 c' ^ 2 * (sb2 c' * sb6 c' - sb4 c' ^ 2) - 32 * sb4 c' ^ 3 - 108 * sb6 c' ^ 2 + 36 * sb2 c' * sb4 c' * sb6 c').
  { rewrite <- s_b8. unfold sdisc. ring. }
  assert (G : (3 | sb4 c') /\ (3 | sb6 c')).
  { destruct H as [[E2 E6]|[N2 E4]].
    - assert (E2' : (3 | sb2 c')) by (apply (dc2 3 (sb2 c) 3 1 (4 * r) _ E2 (dself 3)); rewrite B2; ring).
      assert (E4' : (3 | sb4 c')).
      { assert (C3 : (3 | sb4 c' * (sb4 c' * sb4 c'))).
        { apply pcancel with 32; [exact P|intros X; clear - X; destruct X; lia|].
          apply (dc3 3 (sdisc c') (sb2 c') 3 (-4) (- sb2 c' * (sb2 c' * sb6 c' - sb4 c' ^ 2) + 36 * sb4 c' * sb6 c') (-36 * sb6 c' ^ 2) _ D E2' (dself 3)).
          rewrite Z.mul_opp_l, Z.mul_comm in D'. clear - D'. lia. }
        apply prime_mult in C3 as [C3|C3]; [exact C3|apply psq; assumption|exact P]. }
      split; [exact E4'|].
      assert (F : (3 | r ^ 3 - r)).
      { pose proof (Z.mod_pos_bound r 3 ltac:(lia)) as R0. pose proof (Z_div_mod_eq_full r 3) as R1.
        set (q := r / 3) in *. set (e := r mod 3) in *.
        assert (e = 0 \/ e = 1 \/ e = 2) as [E|[E|E]] by lia; rewrite E in R1; rewrite R1.
        - exists (9 * q ^ 3 - q). ring.
        - exists (9 * q ^ 3 + 9 * q ^ 2 + 2 * q). ring.
        - exists (9 * q ^ 3 + 18 * q ^ 2 + 11 * q + 2). ring. }
      assert (E4 : (3 | sb4 c)) by (apply (dc3 3 (sb4 c') (sb2 c) 3 1 (- r) (-2 * r ^ 2) _ E4' E2 (dself 3)); rewrite B4; ring).
      rewrite B6. apply (dc4 3 (r + sb6 c) (sb4 c) (sb2 c) (r ^ 3 - r + 3 * r ^ 3) 1 (2 * r) (r ^ 2) 1); auto; [|ring].
      apply (dc2 3 (r ^ 3 - r) 3 1 (r ^ 3) _ F (dself 3)). ring.
    - assert (E4' : (3 | sb4 c')) by (apply (dc2 3 (sb2 c * r + sb4 c) 3 1 (2 * r ^ 2) _ E4 (dself 3)); rewrite B4; ring).
      split; [exact E4'|].
      assert (N2' : ~ (3 | sb2 c')).
      { intros X. apply N2. apply (dc2 3 (sb2 c') 3 1 (-4 * r) _ X (dself 3)). rewrite B2. ring. }
      apply pcancel with (sb2 c' * (sb2 c' * sb2 c')); [exact P| |].
      + intros X. apply prime_mult in X as [X|X]; [contradiction| |exact P]. apply psq in X; [contradiction|exact P].
      + apply (dc3 3 (sdisc c') (sb4 c') 3 (-4) (sb2 c' ^ 2 * sb4 c' - 32 * sb4 c' ^ 2 + 36 * sb2 c' * sb6 c') (- 36 * sb6 c' ^ 2) _ D E4' (dself 3)).
        clear - D'. replace (-4 * sdisc c') with (- (4 * sdisc c')) by ring. rewrite D'. ring. }
  destruct G as [G4 G6]. apply odd_b46; auto. lia.
Qed.

Lemma shift_5 p c r t : prime p -> p <> 2 -> p <> 3 -> (p | sdisc c) -> (p | 2 * t + (a1 c * r + a3 c)) ->
  ((p | sc4 c) /\ (p | 12 * r + sb2 c) \/ ~ (p | sc4 c) /\ (p | 12 * sc4 c * r + (sc6 c + sb2 c * sc4 c))) ->
  (p | a3 (tr_rst r 0 t c)) /\ (p | a4 (tr_rst r 0 t c)) /\ (p | a6 (tr_rst r 0 t c)).
Proof.
  intros P N2 N3 D T H. set (c' := tr_rst r 0 t c) in *.
  destruct (odd_prime p P N2) as (_ & D2 & _). pose proof (not_div_3 p P N2 N3) as D3.
  assert (D24 : ~ (p | 24)).
  { intros X. change 24 with (2 * (2 * (2 * 3))) in X.
    repeat (apply prime_mult in X as [X|X]; [contradiction| |exact P]). contradiction. }
  assert (D216 : ~ (p | 216)).
  { intros X. change 216 with (2 * (2 * (2 * (3 * (3 * 3))))) in X.
    repeat (apply prime_mult in X as [X|X]; [contradiction| |exact P]). contradiction. }
  assert (H3 : (p | a3 c')).
  { apply (dc1 p _ 1 _ T). unfold c', tr_rst. cbn [a3]. ring. }
  split; [exact H3|].
  assert (B2 : sb2 c' = sb2 c + 12 * r) by apply sb2_tr.
  assert (K4 : sc4 c' = sc4 c) by apply sc4_tr. assert (K6 : sc6 c' = sc6 c) by apply sc6_tr.
  pose proof (s_disc c) as SD. rewrite <- K4, <- K6 in *.
  assert (U4 : sc4 c' = sb2 c' ^ 2 - 24 * sb4 c') by reflexivity.
  assert (U6 : sc6 c' = - sb2 c' ^ 3 + 36 * sb2 c' * sb4 c' - 216 * sb6 c') by reflexivity.
  set (x2 := sb2 c') in *. set (x4 := sb4 c') in *. set (x6 := sb6 c') in *.
  set (k4 := sc4 c') in *. set (k6 := sc6 c') in *.
  assert (G : (p | x4) /\ (p | x6)).
  { destruct H as [[E4 E2]|[N4 E]].
    - assert (E2' : (p | x2)) by (apply (dc1 p _ 1 _ E2); rewrite B2; ring).
      assert (E4' : (p | x4)).
      { apply pcancel with 24; [exact P|exact D24|]. apply (dc2 p k4 x2 (-1) x2 _ E4 E2'). rewrite U4. ring. }
      assert (E6 : (p | k6)).
      { apply psq; [exact P|]. apply (dc2 p k4 (sdisc c) (k4 ^ 2) (-1728) _ E4 D). replace (-1728 * sdisc c) with (- (1728 * sdisc c)) by ring. rewrite SD. ring. }
      split; [exact E4'|]. apply pcancel with 216; [exact P|exact D216|].
      apply (dc3 p k6 x2 x4 (-1) (- x2 ^ 2) (36 * x2) _ E6 E2' E4'). rewrite U6. ring.
    - assert (E2' : (p | k4 * x2 + k6)) by (apply (dc1 p _ 1 _ E); rewrite B2; ring).
      assert (E4' : (p | x4)).
      { apply pcancel with (24 * (k4 * k4)); [exact P| |].
        - intros X. apply prime_mult in X as [X|X]; [contradiction|apply psq in X; [contradiction|exact P]|exact P].
        - apply (dc2 p (k4 * x2 + k6) (sdisc c) (k4 * x2 - k6) (-1728) _ E2' D).
          replace (-1728 * sdisc c) with (- (1728 * sdisc c)) by ring. rewrite SD.
          replace (k4 ^ 3) with (k4 * k4 * (x2 ^ 2 - 24 * x4)) by (rewrite <- U4; ring). ring. }
      split; [exact E4'|]. apply pcancel with (216 * k4); [exact P| |].
      + intros X. apply prime_mult in X as [X|X]; auto.
      + apply (dc2 p (k4 * x2 + k6) x4 (- x2 ^ 2) (36 * k4 * x2 + 24 * k6) _ E2' E4').
        replace (216 * k4 * x6) with (k4 * (- x2 ^ 3 + 36 * x2 * x4) - k4 * k6) by (rewrite U6; ring).
        rewrite U4 at 2. ring. }
  destruct G as [G4 G6]. apply odd_b46; auto.
Qed.

Section Algo.
Variable xgcd : Z -> Z -> Z * Z * Z.
Hypothesis X : xgcd_spec xgcd.
Variable srm : Z -> Z -> Z.
Hypothesis S2 : srm 1 2 = 1.
Variable p : Z.
Hypothesis P : prime p.

Lemma inv_ok a : ~ (p | a) -> (p | a * invmod_z xgcd a p - 1).
Proof.
  intros N. apply (invmod_z_ok xgcd X). apply Zgcd_1_rel_prime. apply rel_prime_sym. apply prime_rel_prime; assumption.
Qed.
Lemma half_ok : p <> 2 -> 2 * zz_shr (p + 1) 1 = p + 1.
Proof.
  intros N. destruct (odd_prime p P N) as (E & _). pose proof (p0 p P). unfold zz_shr.
  rewrite Z.sgn_pos, Z.abs_eq by lia. change (2 ^ 1) with 2.
  rewrite <- Z.negb_odd in E. apply negb_false_iff in E. apply Z.odd_spec in E as [q ->].
  replace (2 * q + 1 + 1) with ((q + 1) * 2) by ring. rewrite Z.div_mul by lia. ring.
Qed.

Lemma tate_shift_ok C : consistent C -> (p | sdisc (cv C)) ->
  exists r t, tate_shift xgcd srm p (sc4 (cv C)) (sc6 (cv C)) (zz_shr (p + 1) 1) (Z.even p) (p =? 3) C = Ok (cd_transform r 0 t C) /\
    (p | a3 (tr_rst r 0 t (cv C))) /\ (p | a4 (tr_rst r 0 t (cv C))) /\ (p | a6 (tr_rst r 0 t (cv C))).
Proof.
  intros (B2 & B4 & B6 & _) D. unfold tate_shift. set (c := cv C) in *. pose proof (p0 p P) as G.
  destruct (Z.eq_dec p 2) as [E|N2].
  { (* p = 2 *)
    rewrite E in *. cbn [Z.even]. destruct (div_zb 2 (b2 C)) as (d & -> & Hd). rewrite bind_Ok.
    assert (E1 : Z.even (a1 c) = d).
    { rewrite B2 in Hd. unfold sb2 in Hd. rewrite even_div in Hd. revert Hd. par. change (Z.even 4) with true.
      destruct (Z.even (a1 c)), d; cbn; intuition congruence. }
    destruct d.
    - rewrite (root2 srm S2). rewrite bind_Ok. set (r := a4 c mod 2). rewrite (root2 srm S2). rewrite bind_Ok. rewrite bind_Ok.
      destruct (mod_zc r 2 P) as (r' & -> & Hr). rewrite bind_Ok.
      set (t := (((r + a2 c) * r + a4 c) * r + a6 c) mod 2). destruct (mod_zc t 2 P) as (t' & -> & Ht). rewrite bind_Ok.
      exists r', t'. split; [reflexivity|]. apply shift_2; [exact D|]. rewrite E1.
      pose proof (even_cong _ _ Hr) as Er. pose proof (even_cong _ _ Ht) as Et.
      pose proof (even_cong _ _ (mod_c (a4 c) 2 ltac:(lia))) as Er0. fold r in Er0.
      pose proof (even_cong _ _ (mod_c (((r + a2 c) * r + a4 c) * r + a6 c) 2 ltac:(lia))) as Et0. fold t in Et0.
      split; [congruence|]. rewrite Et, Et0. par. rewrite Er. reflexivity.
    - set (i := invmod_z xgcd (a1 c) 2). rewrite bind_Ok.
      assert (I : Z.even i = false).
      { assert (N : ~ (2 | a1 c)) by (rewrite even_div; congruence).
        pose proof (invmod_z_ok xgcd X (a1 c) 2) as [I0 _].
        assert (GG : Z.gcd (a1 c) 2 = 1) by (apply Zgcd_1_rel_prime; apply rel_prime_sym; apply prime_rel_prime; assumption).
        specialize (I0 GG). fold i in I0. apply even_cong in I0. rewrite Z.even_mul, E1 in I0. exact I0. }
      destruct (mod_zc (i * a3 c) 2 P) as (r' & -> & Hr). rewrite bind_Ok.
      destruct (mod_zc (i * (a4 c + i * a3 c * (i * a3 c))) 2 P) as (t' & -> & Ht). rewrite bind_Ok.
      exists r', t'. split; [reflexivity|]. apply shift_2; [exact D|]. rewrite E1.
      apply even_cong in Hr. apply even_cong in Ht. par. rewrite I in *. cbn [orb] in *. rewrite Hr. split; [reflexivity|exact Ht]. }
  destruct (odd_prime p P N2) as (Ev & Nd2 & Nd4). rewrite Ev.
  destruct (Z.eq_dec p 3) as [E|N3].
  { rewrite E in *. cbn [Z.eqb Pos.eqb]. destruct (div_zb 3 (b2 C)) as (d & -> & Hd). rewrite bind_Ok.
    assert (HR : exists r, (if d then root srm (- b6 C) 3 3 else Ok (- invmod_z xgcd (b2 C) 3 * b4 C)) = Ok r /\
      ((3 | sb2 c) /\ (3 | r + sb6 c) \/ ~ (3 | sb2 c) /\ (3 | sb2 c * r + sb4 c))).
    { destruct d.
      - rewrite root3. eexists. split; [reflexivity|]. left. destruct Hd as [[_ Hd]|[Hd _]]; [|discriminate].
        rewrite B2 in Hd. split; [exact Hd|]. rewrite B6. apply (dc1 3 _ 1 _ (mod_c (- sb6 c) 3 ltac:(lia))). ring.
      - eexists. split; [reflexivity|]. right. destruct Hd as [[Hd _]|[_ Hd]]; [discriminate|].
        rewrite B2, B4 in *. split; [exact Hd|].
        pose proof (invmod_z_ok xgcd X (sb2 c) 3) as [I _].
        assert (GG : Z.gcd (sb2 c) 3 = 1) by (apply Zgcd_1_rel_prime; apply rel_prime_sym; apply prime_rel_prime; assumption).
        apply (dc1 3 _ (- sb4 c) _ (I GG)). ring. }
    destruct HR as (r & -> & HR). rewrite !bind_Ok.
    destruct (mod_zc r 3 P) as (r' & -> & Hr). rewrite bind_Ok.
    destruct (mod_zc (a1 c * r + a3 c) 3 P) as (t' & -> & Ht). rewrite bind_Ok.
    exists r', t'. split; [reflexivity|]. apply shift_3; [exact D| |].
    - apply (dc2 3 _ (r' - r) 1 (- a1 c) _ Ht Hr). ring.
    - destruct HR as [[Q1 Q2]|[Q1 Q2]]; [left|right]; (split; [exact Q1|]).
      + apply (dc2 3 _ _ 1 1 _ Q2 Hr). ring.
      + apply (dc2 3 _ _ 1 (sb2 c) _ Q2 Hr). ring. }
  destruct (Z.eqb_spec p 3) as [E3|_]; [contradiction|]. pose proof (not_div_3 p P N2 N3) as Nd3.
  assert (Nd12 : ~ (p | 12)).
  { intros Y. change 12 with (4 * 3) in Y. apply prime_mult in Y as [Y|Y]; auto. }
  destruct (div_zb p (sc4 c)) as (d & -> & Hd). rewrite bind_Ok.
  assert (HR : exists r, (if d then - invmod_z xgcd 12 p * b2 C else - invmod_z xgcd (12 * sc4 c) p * (sc6 c + b2 C * sc4 c)) = r /\
      ((p | sc4 c) /\ (p | 12 * r + sb2 c) \/ ~ (p | sc4 c) /\ (p | 12 * sc4 c * r + (sc6 c + sb2 c * sc4 c)))).
  { eexists. split; [reflexivity|]. rewrite B2. destruct d.
    - left. destruct Hd as [[_ Hd]|[Hd _]]; [|discriminate]. split; [exact Hd|].
      apply (dc1 p _ (- sb2 c) _ (inv_ok 12 Nd12)). ring.
    - right. destruct Hd as [[Hd _]|[_ Hd]]; [discriminate|]. split; [exact Hd|].
      assert (NN : ~ (p | 12 * sc4 c)) by (intros Y; apply prime_mult in Y as [Y|Y]; auto).
      apply (dc1 p _ (- (sc6 c + sb2 c * sc4 c)) _ (inv_ok _ NN)). ring. }
  destruct HR as (r & -> & HR). cbv zeta. rewrite bind_Ok.
  destruct (mod_zc r p P) as (r' & -> & Hr). rewrite bind_Ok.
  destruct (mod_zc (- zz_shr (p + 1) 1 * (a1 c * r + a3 c)) p P) as (t' & -> & Ht). rewrite bind_Ok.
  exists r', t'. split; [reflexivity|]. apply shift_5; auto.
  - pose proof (half_ok N2) as HH. set (h := zz_shr (p + 1) 1) in *.
    apply (dc3 p _ (r' - r) p 2 (a1 c) (- (a1 c * r + a3 c)) _ Ht Hr (dself p)).
    replace (2 * (t' - - h * (a1 c * r + a3 c))) with (2 * t' + (2 * h) * (a1 c * r + a3 c)) by ring. rewrite HH. ring.
  - destruct HR as [[Q1 Q2]|[Q1 Q2]]; [left|right]; (split; [exact Q1|]).
    + apply (dc2 p _ _ 1 12 _ Q2 Hr). ring.
    + apply (dc2 p _ _ 1 (12 * sc4 c) _ Q2 Hr). ring.
Qed.

(** ** The second change of coordinates *)
Lemma shift2_2 c s t : (2 | a3 c) -> (2 | a4 c) -> (4 | a6 c) -> (2 | sb2 c) -> (8 | sb8 c) -> (8 | sb6 c) ->
  (2 | s - a2 c) -> (exists u w, t = 2 * u /\ a6 c = 4 * w /\ (2 | u - w)) ->
  let c' := tr_rst 0 s t c in
  (2 | a1 c') /\ (2 | a2 c') /\ (4 | a3 c') /\ (4 | a4 c') /\ (8 | a6 c').
Proof.
  intros [x3 E3] [x4 E4] H6 B2 B8 B6 Hs (u & w & -> & E6 & Hu).
  destruct c as [A1 A2 A3 A4 A6]. unfold sb2, sb8, sb6, tr_rst in *. cbn [a1 a2 a3 a4 a6] in *.
  assert (H1 : (2 | A1)).
  { rewrite even_div in B2 |- *. revert B2. par. change (Z.even 4) with true. destruct (Z.even A1); cbn; congruence. }
  destruct H1 as [x1 E1].
  assert (H3 : (2 | x3)).
  { apply psq; [exact prime_2|]. apply (pscale 4); [lia|]. apply (dc2 8 (A3 ^ 2 + 4 * A6) 8 1 (-2 * w) _ B6 (dself 8)). rewrite E3, E6. ring. }
  destruct H3 as [y3 E3']. subst A1 A3 A4 A6 x3.
  assert (H4 : (2 | x4)).
  { apply psq; [exact prime_2|]. apply (pscale 4); [lia|].
    apply (dc2 8 _ 8 (-1) (2 * x1 ^ 2 * w + 2 * A2 * w - 2 * x1 * y3 * x4 + 2 * A2 * y3 ^ 2) _ B8 (dself 8)). ring. }
  destruct H4 as [y4 ->]. cbv zeta. split; [|split; [|split; [|split]]].
  - exists (x1 + s). ring.
  - rewrite even_div in Hs |- *. revert Hs. par. change (Z.even 2) with true. change (Z.even 0) with true.
    destruct (Z.even s), (Z.even A2), (Z.even x1), (Z.even 3); cbn; congruence.
  - exists (y3 + u). ring.
  - exists (y4 - s * y3 - u * x1 - s * u). ring.
  - destruct Hu as [k Hu]. replace w with (u - k * 2) by lia.
    assert (V : (2 | u - u ^ 2)).
    { rewrite even_div. par. destruct (Z.even u); reflexivity. }
    destruct V as [v V]. exists (v - k - u * y3). 
    replace (4 * (u - k * 2) + 0 * (y4 * 2 * 2) + 0 ^ 2 * A2 + 0 ^ 3 - 2 * u * (y3 * 2 * 2) - (2 * u) ^ 2 - 0 * (2 * u) * (x1 * 2))
      with (4 * (u - u ^ 2) - 8 * k - 8 * u * y3) by ring. rewrite V. ring.
Qed.

Lemma shift2_odd c s t : p <> 2 -> (p | a3 c) -> (p | a4 c) -> (p ^ 2 | a6 c) -> (p | sb2 c) -> (p ^ 3 | sb8 c) -> (p ^ 3 | sb6 c) ->
  (p | a1 c + 2 * s) -> (p ^ 2 | a3 c + 2 * t) ->
  let c' := tr_rst 0 s t c in
  (p | a1 c') /\ (p | a2 c') /\ (p ^ 2 | a3 c') /\ (p ^ 2 | a4 c') /\ (p ^ 3 | a6 c').
Proof.
  intros N H3 H4 H6 B2 B8 B6 Hs Ht. cbv zeta. destruct (odd_prime p P N) as (_ & D2 & D4).
  pose proof (sb2_tr 0 s t c) as V2. pose proof (sb4_tr 0 s t c) as V4. pose proof (sb6_tr 0 s t c) as V6.
  assert (W4 : (p ^ 2 | sb4 c)).
  { apply psq3; [exact P|]. destruct B2 as [x2 E2]. destruct B8 as [x8 E8]. destruct B6 as [x6 E6].
    pose proof (s_b8 c) as Q. rewrite E2, E8, E6 in Q. exists (x2 * p * x6 - 4 * x8).
    replace (sb4 c * sb4 c) with (sb4 c ^ 2) by ring.
    replace (sb4 c ^ 2) with (x2 * p * (x6 * p ^ 3) - 4 * (x8 * p ^ 3)) by lia. ring. }
  set (c' := tr_rst 0 s t c) in *.
  assert (E1 : a1 c' = a1 c + 2 * s) by reflexivity.
  assert (E3 : a3 c' = a3 c + 2 * t) by (unfold c', tr_rst; cbn [a3]; ring).
  rewrite <- E1 in Hs. rewrite <- E3 in Ht.
  split; [exact Hs|]. split.
  { apply pcancel with 4; [exact P|exact D4|]. apply (dc2 p (sb2 c) (a1 c') 1 (- a1 c') _ B2 Hs).
    replace (sb2 c) with (sb2 c') by lia. unfold sb2. ring. }
  split; [exact Ht|]. split.
  { apply pcancel_pow with 2; [exact P|exact D2|]. apply (dc2 (p ^ 2) (sb4 c) (a3 c') 1 (- a1 c') _ W4 Ht).
    replace (sb4 c) with (sb4 c') by lia. unfold sb4. ring. }
  apply pcancel_pow with 4; [exact P|exact D4|].
  assert (T3 : (p ^ 3 | a3 c' * a3 c')).
  { destruct Ht as [k ->]. exists (k * k * p). ring. }
  apply (dc2 (p ^ 3) (sb6 c) (a3 c' * a3 c') 1 (-1) _ B6 T3).
  replace (sb6 c) with (sb6 c') by lia. unfold sb6. ring.
Qed.

Lemma tate_shift2_ok C : consistent C ->
  let c := cv C in
  (p | a3 c) -> (p | a4 c) -> (p ^ 2 | a6 c) -> (p | sb2 c) -> (p ^ 3 | sb8 c) -> (p ^ 3 | sb6 c) ->
  exists s t, tate_shift2 srm p (zz_shr (p + 1) 1) (Z.even p) (p =? 3) C = Ok (cd_transform 0 s t C) /\
    let c' := tr_rst 0 s t c in
    (p | a1 c') /\ (p | a2 c') /\ (p ^ 2 | a3 c') /\ (p ^ 2 | a4 c') /\ (p ^ 3 | a6 c').
Proof.
  intros _ c H3 H4 H6 B2 B8 B6. unfold tate_shift2. fold c. pose proof (p0 p P) as G.
  destruct (Z.eq_dec p 2) as [E|N2].
  { rewrite E in *. cbn [Z.even]. rewrite (root2 srm S2). rewrite bind_Ok.
    destruct H6 as [w E6]. rewrite (zdiv_eq (a6 c) 2 (2 * w)) by (lia || (rewrite E6; ring)). rewrite bind_Ok.
    rewrite (zdiv_eq (2 * w) 2 w) by lia. rewrite bind_Ok. rewrite (root2 srm S2). rewrite !bind_Ok.
    eexists _, _. split; [reflexivity|]. apply shift2_2; auto.
    - exists w. exact E6.
    - apply mod_c. lia.
    - exists (w mod 2), w. split; [reflexivity|]. split; [rewrite E6; ring|]. apply mod_c. lia. }
  destruct (odd_prime p P N2) as (Ev & _). rewrite Ev.
  destruct (Z.eqb_spec p 3) as [E|N3].
  - rewrite bind_Ok. eexists _, _. split; [reflexivity|]. apply shift2_odd; auto.
    + exists (a1 c). rewrite E. ring.
    + destruct H3 as [k ->]. exists k. rewrite E. ring.
  - rewrite bind_Ok. eexists _, _. split; [reflexivity|]. pose proof (half_ok N2) as HH.
    set (h := zz_shr (p + 1) 1) in *. apply shift2_odd; auto.
    + exists (- a1 c). replace (a1 c + 2 * (- a1 c * h)) with (a1 c - a1 c * (2 * h)) by ring. rewrite HH. ring.
    + destruct H3 as [k ->]. exists (- k). replace (k * p + 2 * (- (k * p) * h)) with (k * p - k * p * (2 * h)) by ring. rewrite HH. ring.
Qed.
End Algo.
