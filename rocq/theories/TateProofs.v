(** Tate's algorithm: one prime, and the conductor *)
From Coq Require Import ZArith Znumtheory Lia List Bool.
From Verif Require Import Base RatModel MArithModel MArithProofs DivisorProofs CurveModel CurveProofs MinimalProofs
  TateModel TateSpec TateArith TateShift TateStar TateLoop.
Import ListNotations.
Open Scope Z_scope.

(** contract of rootsmod: the distinct roots in [0,p) of a polynomial that is not
    constant modulo p *)
Definition polyval (l : list Z) (x : Z) : Z := fold_right (fun a s => a + x * s) 0 l.
Definition rootsmod_spec (f : list Z -> Z -> list Z) : Prop :=
  forall l p, prime p -> (2 <= length l)%nat -> ~ (p | last l 0) ->
    NoDup (f l p) /\ forall x, In x (f l p) <-> 0 <= x < p /\ (p | polyval l x).
(** contract of pdivs: the distinct prime divisors *)
Definition bad_spec (pdivs : Z -> list Z) : Prop :=
  forall n, n <> 0 -> NoDup (pdivs n) /\ forall p, In p (pdivs n) <-> prime p /\ (p | n).

Section Algo.
Variable xgcd : Z -> Z -> Z * Z * Z.
Hypothesis X : xgcd_spec xgcd.
Variable srm : Z -> Z -> Z.
Hypothesis S2 : srm 1 2 = 1.
Variable rm : list Z -> Z -> list Z.
Hypothesis RM : rootsmod_spec rm.

Section P.
Variable p : Z.
Hypothesis P : prime p.
Notation half := (zz_shr (p + 1) 1).

(** no model scaled by p: the curve is minimal at p *)
Definition pminimal (C : curvedata) : Prop := ~ exists r s t, let c := tr_rst r s t (cv C) in
  (p | a1 c) /\ (p ^ 2 | a2 c) /\ (p ^ 3 | a3 c) /\ (p ^ 4 | a4 c) /\ (p ^ 6 | a6 c).
Definition good (C0 : curvedata) (v j : Z) (x : curvedata * option reduction) : Prop :=
  exists K cp, snd x = Some (Red v (v - (components K - 1)) j (pinch_code K) cp) /\
    reach C0 (fst x) /\ tate_form p (cv (fst x)) K cp.

Lemma tate_double_ok C0 C j v b c d : sdisc (cv C0) <> 0 -> val_z p (sdisc (cv C0)) = Ok v -> reach C0 C ->
  (p | a1 (cv C)) -> a2 (cv C) = p * b -> (p ^ 2 | a3 (cv C)) -> a4 (cv C) = p ^ 2 * c -> a6 (cv C) = p ^ 3 * d ->
  (p | cub_w b c d) -> ~ (p | cub_x b c) ->
  exists x, tate_double xgcd srm p (sdisc (cv C0)) j half (Z.even p) (p =? 3) C b c d (cub_x b c) = Ok x /\ good C0 v j x.
Proof.
  intros D0 V R H1 E2 H3 E4 E6 W NX. unfold tate_double. pose proof (p0 p P) as G.
  assert (HR : exists r, (if Z.even p then root srm c 2 p else if p =? 3 then Ok (c * invmod_z xgcd b p)
      else Ok ((b * c - 9 * d) * invmod_z xgcd (2 * cub_x b c) p)) = Ok r /\
     (p = 2 /\ (2 | r - c) \/ p = 3 /\ (3 | b * r - c) \/ p <> 2 /\ p <> 3 /\ (p | 2 * cub_x b c * r - (b * c - 9 * d)))).
  { destruct (Z.eq_dec p 2) as [E|N2].
    - rewrite E. cbn [Z.even]. rewrite (root2 srm S2). eexists. split; [reflexivity|]. left. split; [reflexivity|]. apply mod_c. lia.
    - destruct (odd_prime p P N2) as (-> & D2 & _). destruct (Z.eqb_spec p 3) as [E|N3].
      + eexists. split; [reflexivity|]. right. left. split; [exact E|].
        assert (Nb : ~ (p | b)).
        { intros Y. apply NX. rewrite E in *. apply (dc2 3 _ 3 (- b) c _ Y (dself 3)). unfold cub_x. ring. }
        pose proof (inv_ok xgcd X p P b Nb) as I. rewrite E in *. apply (dc1 3 _ c _ I). ring.
      + eexists. split; [reflexivity|]. right. right. split; [exact N2|]. split; [exact N3|].
        assert (Nb : ~ (p | 2 * cub_x b c)) by (intros Y; apply prime_mult in Y as [Y|Y]; auto).
        pose proof (inv_ok xgcd X p P _ Nb) as I. apply (dc1 p _ (b * c - 9 * d) _ I). ring. }
  destruct HR as (r0 & -> & HR). rewrite bind_Ok. destruct (mod_zc r0 p P) as (r & -> & Hr). rewrite bind_Ok.
  assert (HR' : p = 2 /\ (2 | r - c) \/ p = 3 /\ (3 | b * r - c) \/ p <> 2 /\ p <> 3 /\ (p | 2 * cub_x b c * r - (b * c - 9 * d))).
  { destruct HR as [[E Q]|[[E Q]|(N2 & N3 & Q)]].
    - left. split; [exact E|]. rewrite E in Hr. apply (dc2 2 _ _ 1 1 _ Q Hr). ring.
    - right. left. split; [exact E|]. rewrite E in Hr. apply (dc2 3 _ _ 1 b _ Q Hr). ring.
    - right. right. split; [exact N2|]. split; [exact N3|]. apply (dc2 p _ _ 1 (2 * cub_x b c) _ Q Hr). ring. }
  destruct (cub_double p P b c d r W NX HR') as ([c' C'] & [d' D'] & NB).
  cbv zeta. set (C1 := cd_transform (p * r) 0 0 C). assert (R1 : reach C0 C1) by (apply reach_step; exact R).
  assert (EC1 : cv C1 = tr_rst (p * r) 0 0 (cv C)) by apply cd_transform_cv.
  destruct (istar_ok p P xgcd X srm S2 C0 C1) as ([[[C2 ix] iy] cp] & -> & (R2 & M1 & T)); [|exact D0|].
  { unfold sinv. rewrite EC1. unfold tr_rst. cbn [a1 a2 a3 a4 a6]. destruct H1 as [x1 E1]. destruct H3 as [x3 E3].
    rewrite E1, E2, E3, E4, E6. split; [exact R1|]. split; [lia|]. split; [reflexivity|].
    split; [change (3 - 1) with 2; ring|]. split; [reflexivity|]. split; [exists x1; ring|].
    split; [exists (b + 3 * r); split; [ring|exact NB]|].
    split; [exists (x3 + r * x1); ring|]. split.
    - exists c'. transitivity (p ^ 2 * (c + 2 * b * r + 3 * r ^ 2)); [ring|]. rewrite C'. ring.
    - exists d'. transitivity (p ^ 3 * (d + c * r + b * r ^ 2 + r ^ 3)); [ring|]. rewrite D'. ring. }
  rewrite bind_Ok, V. rewrite bind_Ok. eexists. split; [reflexivity|].
  exists (KIs (ix + iy - 5)), cp. cbn [fst snd components pinch_code]. split; [|split; assumption].
  f_equal. f_equal; lia.
Qed.

Lemma tate_triple_ok C0 C j v b c d : pminimal C0 -> val_z p (sdisc (cv C0)) = Ok v -> reach C0 C ->
  (p | a1 (cv C)) -> a2 (cv C) = p * b -> (p ^ 2 | a3 (cv C)) -> a4 (cv C) = p ^ 2 * c -> a6 (cv C) = p ^ 3 * d ->
  (p | cub_w b c d) -> (p | cub_x b c) ->
  exists x, tate_triple xgcd srm p (sdisc (cv C0)) j half (Z.even p) (p =? 3) C b d = Ok x /\ good C0 v j x.
Proof.
  intros PM V R H1 E2 H3 E4 E6 W NX. unfold tate_triple. rewrite V, bind_Ok. pose proof (p0 p P) as G.
  assert (HR : exists r, (if Z.even p then Ok b else if p =? 3 then root srm (- d) 3 p
      else Ok (- b * invmod_z xgcd 3 p)) = Ok r /\
     (p = 2 /\ (2 | r - b) \/ p = 3 /\ (3 | r + d) \/ p <> 2 /\ p <> 3 /\ (p | 3 * r + b))).
  { destruct (Z.eq_dec p 2) as [E|N2].
    - rewrite E. cbn [Z.even]. eexists. split; [reflexivity|]. left. split; [reflexivity|]. rewrite Z.sub_diag. apply Z.divide_0_r.
    - destruct (odd_prime p P N2) as (-> & D2 & _). destruct (Z.eqb_spec p 3) as [E|N3].
      + rewrite E, root3. eexists. split; [reflexivity|]. right. left. split; [reflexivity|].
        apply (dc1 3 _ 1 _ (mod_c (- d) 3 ltac:(lia))). ring.
      + eexists. split; [reflexivity|]. right. right. split; [exact N2|]. split; [exact N3|].
        pose proof (inv_ok xgcd X p P 3 (not_div_3 p P N2 N3)) as I. apply (dc1 p _ (- b) _ I). ring. }
  destruct HR as (r0 & -> & HR). rewrite bind_Ok. destruct (mod_zc r0 p P) as (r & -> & Hr). rewrite bind_Ok.
  assert (HR' : p = 2 /\ (2 | r - b) \/ p = 3 /\ (3 | r + d) \/ p <> 2 /\ p <> 3 /\ (p | 3 * r + b)).
  { destruct HR as [[E Q]|[[E Q]|(N2 & N3 & Q)]].
    - left. split; [exact E|]. rewrite E in Hr. apply (dc2 2 _ _ 1 1 _ Q Hr). ring.
    - right. left. split; [exact E|]. rewrite E in Hr. apply (dc2 3 _ _ 1 1 _ Q Hr). ring.
    - right. right. split; [exact N2|]. split; [exact N3|]. apply (dc2 p _ _ 1 3 _ Q Hr). ring. }
  destruct (cub_triple p P b c d r W NX HR') as ([b' B'] & [c' C'] & [d' D']).
  cbv zeta. set (C1 := cd_transform (p * r) 0 0 C). assert (R1 : reach C0 C1) by (apply reach_step; exact R).
  assert (EC1 : cv C1 = tr_rst (p * r) 0 0 (cv C)) by apply cd_transform_cv. destruct H1 as [x1 E1]. destruct H3 as [x3 E3].
  set (c1 := cv C1) in *.
  assert (F1 : a1 c1 = x1 * p) by (rewrite EC1; unfold tr_rst; cbn [a1]; rewrite E1; ring).
  assert (F2 : a2 c1 = b' * p ^ 2).
  { rewrite EC1; unfold tr_rst; cbn [a2]. rewrite E2. transitivity (p * (b + 3 * r)); [ring|]. rewrite B'. ring. }
  assert (F3 : a3 c1 = p * (p * (x3 + r * x1))) by (rewrite EC1; unfold tr_rst; cbn [a3]; rewrite E3, E1; ring).
  assert (F4 : a4 c1 = c' * p ^ 3).
  { rewrite EC1; unfold tr_rst; cbn [a4]. rewrite E4, E2. transitivity (p ^ 2 * (c + 2 * b * r + 3 * r ^ 2)); [ring|]. rewrite C'. ring. }
  assert (F6 : a6 c1 = p * (p * (p * (p * d')))).
  { rewrite EC1; unfold tr_rst; cbn [a6]. rewrite E6, E4, E2. transitivity (p ^ 3 * (d + c * r + b * r ^ 2 + r ^ 3)); [ring|]. rewrite D'. ring. }
  set (y3 := x3 + r * x1) in *.
  rewrite (zdiv_eq _ p _ ltac:(lia) F3). rewrite bind_Ok. rewrite (zdiv_eq (p * y3) p y3) by (lia || ring). rewrite bind_Ok.
  rewrite (zdiv_eq _ p _ ltac:(lia) F6). rewrite bind_Ok.
  rewrite (zdiv_eq (p * (p * (p * d'))) p (p * (p * d'))) by (lia || ring). rewrite bind_Ok.
  rewrite (zdiv_eq (p * (p * d')) p (p * d')) by (lia || ring). rewrite bind_Ok.
  rewrite (zdiv_eq (p * d') p d') by (lia || ring). rewrite bind_Ok.
  destruct (yroot_iff p P 2 c1 y3 d') as [YR YB]; [lia|rewrite F3; ring|rewrite F6; ring|].
  destruct (div_zb p (y3 * y3 + 4 * d')) as (m & -> & Hm). rewrite bind_Ok.
  destruct Hm as [[-> Hm]|[-> Hm]]; cbn [negb].
  2:{ destruct (rootsexist_ok 1 y3 (- d') p P) as (e & -> & He).
      { intros D. apply Z.divide_1_r_nonneg in D; lia. }
      rewrite bind_Ok. eexists. split; [reflexivity|]. exists KIVs. eexists. cbn [fst snd components pinch_code].
      split; [f_equal; f_equal; lia|]. split; [exact R1|]. unfold tate_form. fold c1.
      split; [exists x1; exact F1|]. split; [exists b'; exact F2|]. split; [exists y3; rewrite F3; ring|].
      split; [exists c'; exact F4|]. split; [exists d'; rewrite F6; ring|]. split; [change 5 with (2 * 2 + 1); rewrite YB; exact Hm|].
      unfold choice. rewrite YR. destruct e; [left|right].
      - split; [apply He; reflexivity|reflexivity].
      - split; [intros Y; apply He in Y; discriminate|reflexivity]. }
  assert (HT : exists u, (if Z.even p then u <- root srm d' 2 p ;; Ok (- p * p * u)
          else u <- mod_z (- y3 * half) p ;; Ok (p * p * u)) = Ok (p * p * u) /\
     (p = 2 /\ (2 | u - d') \/ p <> 2 /\ (p | 2 * u + y3))).
  { destruct (Z.eq_dec p 2) as [E|N2].
    - rewrite E. cbn [Z.even]. rewrite (root2 srm S2). rewrite bind_Ok. exists (- (d' mod 2)). split; [f_equal; ring|].
      left. split; [reflexivity|]. pose proof (mod_c d' 2 ltac:(lia)) as MC. apply (dc2 2 _ 2 (-1) (- d') _ MC (dself 2)). ring.
    - destruct (ypick p P srm S2 (p * p) y3 d') as (u & Eu & Hu). destruct (odd_prime p P N2) as (Ev & _).
      rewrite Ev in *. exists u. split; [exact Eu|exact Hu]. }
  destruct HT as (u & -> & Hu). rewrite bind_Ok. destruct (yshift p P y3 d' u Hm Hu) as [[z3 Z3] [z6 Z6]].
  set (C2 := cd_transform 0 0 (p * p * u) C1). assert (R2 : reach C0 C2) by (apply reach_step; exact R1).
  assert (EC2 : cv C2 = tr_rst 0 0 (p * p * u) c1) by apply cd_transform_cv.
  set (c2 := cv C2) in *.
  assert (G1 : (p | a1 c2)) by (exists x1; rewrite EC2; unfold tr_rst; cbn [a1]; rewrite F1; ring).
  assert (G2 : (p ^ 2 | a2 c2)) by (exists b'; rewrite EC2; unfold tr_rst; cbn [a2]; rewrite F2; ring).
  assert (G3 : (p ^ 3 | a3 c2)).
  { exists z3. rewrite EC2; unfold tr_rst; cbn [a3]. rewrite F3. transitivity (p * p * (y3 + 2 * u)); [ring|]. rewrite Z3. ring. }
  assert (G4 : (p ^ 3 | a4 c2)).
  { exists (c' - u * x1). rewrite EC2; unfold tr_rst; cbn [a4]. rewrite F4, F1. ring. }
  assert (G6 : (p ^ 5 | a6 c2)).
  { exists z6. rewrite EC2; unfold tr_rst; cbn [a6]. rewrite F6, F3. transitivity (p ^ 4 * (d' - u * y3 - u ^ 2)); [ring|]. rewrite Z6. ring. }
  destruct (val_lt p (a4 c2) 4 P ltac:(lia)) as (v4 & -> & HV); rewrite bind_Ok; destruct HV as [[-> N4]|[-> H4]].
  { eexists. split; [reflexivity|]. exists KIIIs, 2. cbn [fst snd components pinch_code].
    split; [f_equal; f_equal; lia|]. split; [exact R2|]. unfold tate_form. fold c2. tauto. }
  destruct (val_lt p (a6 c2) 6 P ltac:(lia)) as (v6 & -> & HV); rewrite bind_Ok; destruct HV as [[-> N6]|[-> H6]].
  { eexists. split; [reflexivity|]. exists KIIs, 1. cbn [fst snd components pinch_code].
    split; [f_equal; f_equal; lia|]. split; [exact R2|]. unfold tate_form. fold c2. tauto. }
  exfalso. apply PM. destruct R2 as [_ (r2 & s2 & t2 & ER)]. fold c2 in ER. exists r2, s2, t2. rewrite <- ER.
  cbv zeta. tauto.
Qed.

Lemma tate_cubic_ok C0 C j v : pminimal C0 -> sdisc (cv C0) <> 0 -> val_z p (sdisc (cv C0)) = Ok v -> reach C0 C ->
  (p | a1 (cv C)) -> (p | a2 (cv C)) -> (p ^ 2 | a3 (cv C)) -> (p ^ 2 | a4 (cv C)) -> (p ^ 3 | a6 (cv C)) ->
  exists x, tate_cubic xgcd srm rm p (sdisc (cv C0)) j half (Z.even p) (p =? 3) C = Ok x /\ good C0 v j x.
Proof.
  intros PM D0 V R H1 [b E2] H3 [c E4] [d E6]. unfold tate_cubic. pose proof (p0 p P) as G.
  rewrite (zdiv_eq (a2 (cv C)) p b) by (lia || (rewrite E2; ring)). rewrite bind_Ok.
  rewrite (zdiv_eq (a4 (cv C)) p (p * c)) by (lia || (rewrite E4; ring)). rewrite bind_Ok.
  rewrite (zdiv_eq (p * c) p c) by (lia || ring). rewrite bind_Ok.
  rewrite (zdiv_eq (a6 (cv C)) p (p * (p * d))) by (lia || (rewrite E6; ring)). rewrite bind_Ok.
  rewrite (zdiv_eq (p * (p * d)) p (p * d)) by (lia || ring). rewrite bind_Ok.
  rewrite (zdiv_eq (p * d) p d) by (lia || ring). rewrite bind_Ok. cbv zeta.
  fold (cub_w b c d). fold (cub_x b c).
  destruct (div_zb p (cub_w b c d)) as (dw & -> & Hw). rewrite bind_Ok.
  destruct Hw as [[-> Hw]|[-> Hw]].
  - destruct (div_zb p (cub_x b c)) as (dx & -> & Hx). rewrite bind_Ok.
    destruct Hx as [[-> Hx]|[-> Hx]].
    + apply tate_triple_ok with c; auto; lia.
    + apply tate_double_ok; auto; lia.
  - rewrite V, bind_Ok. eexists. split; [reflexivity|]. exists (KIs 0). eexists. cbn [fst snd components pinch_code].
    split; [f_equal; f_equal; lia|]. split; [exact R|].
    destruct (RM [d; c; b; 1] p P) as [ND IN]; [cbn; lia|cbn [last]; intros D; apply Z.divide_1_r_nonneg in D; lia|].
    unfold tate_form. cbn [Z.eqb]. split; [exact H1|]. split; [exists b; exact E2|]. split; [exact H3|].
    split; [exists c; exact E4|]. split; [exists d; exact E6|]. split.
    + intros D. apply Hw. unfold cubic_disc in D. rewrite E2, E4, E6 in D.
      apply (pscale (p ^ 6)); [apply pk0; auto; lia|].
      rewrite <- Z.divide_opp_r. replace (p ^ 6 * p) with (p ^ 7) by ring.
      replace (- (p ^ 6 * cub_w b c d)) with ((b * p) ^ 2 * (c * p ^ 2) ^ 2 - 4 * (c * p ^ 2) ^ 3 - 4 * (b * p) ^ 3 * (d * p ^ 3) - 27 * (d * p ^ 3) ^ 2 + 18 * (b * p) * (c * p ^ 2) * (d * p ^ 3)) by (unfold cub_w; ring).
      exact D.
    + exists (rm [d; c; b; 1] p). split; [exact ND|]. split; [|reflexivity]. intros x. rewrite IN.
      apply and_iff_compat_l. unfold cubic_root, polyval. cbn [fold_right]. rewrite E2, E4, E6.
      replace (p ^ 4) with (p ^ 3 * p) by ring.
      replace ((p * x) ^ 3 + b * p * (p * x) ^ 2 + c * p ^ 2 * (p * x) + d * p ^ 3) with (p ^ 3 * (d + x * (c + x * (b + x * (1 + x * 0))))) by ring.
      symmetry. apply pscale. apply pk0; auto. lia.
Qed.

Lemma tate_types_ok C0 C j v : pminimal C0 -> sdisc (cv C0) <> 0 -> (p | sdisc (cv C0)) -> val_z p (sdisc (cv C0)) = Ok v -> reach C0 C ->
  (p | a3 (cv C)) -> (p | a4 (cv C)) -> (p | a6 (cv C)) ->
  exists x, tate_types xgcd srm rm p (sdisc (cv C0)) j (sc4 (cv C0)) half (Z.even p) (p =? 3) C = Ok x /\ good C0 v j x.
Proof.
  intros PM D0 DD V R H3 H4 H6. unfold tate_types. rewrite V, bind_Ok. pose proof (p0 p P) as G.
  pose proof (c4_b2 p (cv C) P H3 H4) as CB.
  assert (E4 : sc4 (cv C0) = sc4 (cv C)) by (destruct R as [_ (r & s & t & ->)]; symmetry; apply sc4_tr).
  rewrite E4. pose proof R as [CC R']. pose proof CC as (_ & _ & B6 & B8 & _).
  destruct (div_zb p (sc4 (cv C))) as (m & -> & Hm). rewrite bind_Ok.
  destruct Hm as [[-> Hm]|[-> Hm]]; cbn [negb].
  2:{ destruct (rootsexist_ok 1 (a1 (cv C)) (- a2 (cv C)) p P) as (e & -> & He).
      { intros D. apply Z.divide_1_r_nonneg in D; lia. }
      rewrite bind_Ok. eexists. split; [reflexivity|]. exists (KI v). eexists. cbn [fst snd components pinch_code].
      split; [f_equal; f_equal; lia|]. split; [exact R|]. unfold tate_form.
      destruct (val_z_ok p (sdisc (cv C0)) D0 ltac:(lia)) as (v' & V' & V0 & V1 & V2).
      assert (v' = v) as -> by congruence. rewrite (reach_disc _ _ R).
      split. { destruct (Z.eq_dec v 0) as [->|]; [|lia]. exfalso. apply V2. rewrite Z.pow_1_r. exact DD. }
      do 3 (split; [assumption|]). split; [rewrite <- CB; exact Hm|]. split; [exact V1|]. split; [exact V2|].
      assert (HE : (exists x, (p | x ^ 2 + a1 (cv C) * x - a2 (cv C))) <-> e = true).
      { rewrite He. split; intros [x Hx]; exists x.
        - replace (1 * x ^ 2 + a1 (cv C) * x + - a2 (cv C)) with (x ^ 2 + a1 (cv C) * x - a2 (cv C)) by ring. exact Hx.
        - replace (1 * x ^ 2 + a1 (cv C) * x + - a2 (cv C)) with (x ^ 2 + a1 (cv C) * x - a2 (cv C)) in Hx by ring. exact Hx. }
      unfold choice. rewrite HE. destruct e; [left; auto|right]. split; [discriminate|].
      rewrite <- Z.negb_odd. destruct (Z.odd v); reflexivity. }
  apply CB in Hm.
  destruct (val_lt p (a6 (cv C)) 2 P ltac:(lia)) as (v6 & -> & HV); rewrite bind_Ok; destruct HV as [[-> N6]|[-> H6']].
  { eexists. split; [reflexivity|]. exists KII, 1. cbn [fst snd components pinch_code]. split; [f_equal; f_equal; lia|].
    split; [exact R|]. unfold tate_form. tauto. }
  rewrite B8. destruct (val_lt p (sb8 (cv C)) 3 P ltac:(lia)) as (v8 & -> & HV); rewrite bind_Ok; destruct HV as [[-> N8]|[-> H8]].
  { eexists. split; [reflexivity|]. exists KIII, 2. cbn [fst snd components pinch_code]. split; [f_equal; f_equal; lia|].
    split; [exact R|]. unfold tate_form. tauto. }
  rewrite B6. destruct (val_lt p (sb6 (cv C)) 3 P ltac:(lia)) as (v6' & -> & HV); rewrite bind_Ok; destruct HV as [[-> N6]|[-> H6'']].
  { pose proof H3 as [x3 E3]. pose proof H6' as [x6 E6].
    rewrite (zdiv_eq (a6 (cv C)) p (p * x6)) by (lia || (rewrite E6; ring)). rewrite bind_Ok.
    rewrite (zdiv_eq (p * x6) p x6) by (lia || ring). rewrite bind_Ok.
    rewrite (zdiv_eq (a3 (cv C)) p x3) by (lia || (rewrite E3; ring)). rewrite bind_Ok.
    destruct (yroot_iff p P 1 (cv C) x3 x6) as [YR YB]; [lia|rewrite E3; ring|rewrite E6; ring|].
    destruct (rootsexist_ok 1 x3 (- x6) p P) as (e & -> & He).
    { intros D. apply Z.divide_1_r_nonneg in D; lia. }
    rewrite bind_Ok. eexists. split; [reflexivity|]. exists KIV. eexists. cbn [fst snd components pinch_code].
    split; [f_equal; f_equal; lia|]. split; [exact R|]. unfold tate_form. do 6 (split; [assumption|]).
    unfold choice. rewrite YR. destruct e; [left|right].
    - split; [apply He; reflexivity|reflexivity].
    - split; [intros Y; apply He in Y; discriminate|reflexivity]. }
  destruct (tate_shift2_ok srm S2 p P C CC H3 H4 H6' Hm H8 H6'') as (s & t & -> & HS). rewrite bind_Ok.
  cbv zeta in HS. rewrite <- cd_transform_cv in HS. destruct HS as (K1 & K2 & K3 & K4 & K6).
  apply tate_cubic_ok; auto. apply reach_step. exact R.
Qed.

Lemma tate_prime_ok E C v : consistent E -> pminimal E -> sdisc (cv E) <> 0 -> (p | sdisc (cv E)) -> val_z p (sdisc (cv E)) = Ok v ->
  reach E C ->
  exists x v4, val_z p (sc4 (cv E)) = Ok v4 /\ tate_prime xgcd srm rm E C p = Ok x /\ good E v (Z.max 0 (v - 3 * v4)) x.
Proof.
  intros CE PM D0 DD V R. unfold tate_prime. pose proof CE as (_ & _ & _ & _ & K4 & K6 & KD). rewrite K4, K6, KD, V, bind_Ok.
  destruct (val_lt p (sc4 (cv E)) 0 P ltac:(lia)) as (v4 & -> & _). rewrite bind_Ok.
  pose proof R as [CC R'].
  assert (E4 : sc4 (cv E) = sc4 (cv C)) by (destruct R' as (r & s & t & ->); symmetry; apply sc4_tr).
  assert (E6 : sc6 (cv E) = sc6 (cv C)) by (destruct R' as (r & s & t & ->); symmetry; apply sc6_tr).
  assert (ED : sdisc (cv E) = sdisc (cv C)) by (symmetry; apply reach_disc; exact R).
  pose proof DD as DC. rewrite ED in DC.
  destruct (tate_shift_ok xgcd X srm S2 p P C CC DC) as (r & t & ES & Q3 & Q4 & Q6). cbv zeta.
  rewrite E4, E6, ES. rewrite bind_Ok. rewrite <- cd_transform_cv in Q3, Q4, Q6.
  rewrite <- E4.
  replace (if v - 3 * v4 <? 0 then 0 else v - 3 * v4) with (Z.max 0 (v - 3 * v4)) by (destruct (Z.ltb_spec (v - 3 * v4) 0); lia).
  destruct (tate_types_ok E (cd_transform r 0 t C) (Z.max 0 (v - 3 * v4)) v) as (x & -> & Hx); auto.
  { apply reach_step. exact R. }
  exists x, v4. auto.
Qed.
End P.

Lemma pminimal_of p c : prime p -> minimal (cv c) -> pminimal p c.
Proof.
  intros P [D0 M] (r & s & t & H). cbv zeta in H. set (d := tr_rst r s t (cv c)) in *. pose proof (p0 p P) as G.
  destruct H as ([x1 E1] & [x2 E2] & [x3 E3] & [x4 E4] & [x6 E6]).
  assert (ED : d = scale_up p (Cv x1 x2 x3 x4 x6)).
  { destruct d as [A1 A2 A3 A4 A6]. cbn [a1 a2 a3 a4 a6] in *. subst. unfold scale_up. cbn [a1 a2 a3 a4 a6]. apply curve_eq; ring. }
  assert (Q : qiso (cv c) (Cv x1 x2 x3 x4 x6)).
  { exists 1, p, r, s, t. split; [lia|]. split; [lia|]. unfold carries. rewrite <- ED. unfold d. f_equal.
    destruct (cv c) as [A1 A2 A3 A4 A6]. unfold scale_up. cbn [a1 a2 a3 a4 a6]. apply curve_eq; ring. }
  specialize (M _ Q). pose proof (sdisc_tr r s t (cv c)) as T. fold d in T.
  assert (SU : sdisc d = p ^ 12 * sdisc (Cv x1 x2 x3 x4 x6)).
  { rewrite ED. unfold sdisc, sb8, sb2, sb4, sb6, scale_up. cbn [a1 a2 a3 a4 a6]. ring. }
  set (e := sdisc (Cv x1 x2 x3 x4 x6)) in *. rewrite <- T, SU in M, D0.
  assert (e <> 0) by (intros ->; lia). apply Z.divide_abs_l in M. apply Z.divide_abs_r in M. apply Z.divide_pos_le in M; [|lia].
  rewrite Z.abs_mul in M. assert (2 ^ 12 <= p ^ 12) by (apply Z.pow_le_mono_l; lia).
  rewrite (Z.abs_eq (p ^ 12)) in M by lia. change (2 ^ 12) with 4096 in *. clear - M H H0. nia.
Qed.

(** what is known of an entry *)
Definition entry_ok (E : curvedata) (p : Z) (d : reduction) : Prop :=
  prime p /\ (p | sdisc (cv E)) /\
  exists v v4 K cp r s t, val_z p (sdisc (cv E)) = Ok v /\ val_z p (sc4 (cv E)) = Ok v4 /\
    d = Red v (v - (components K - 1)) (Z.max 0 (v - 3 * v4)) (pinch_code K) cp /\
    tate_form p (tr_rst r s t (cv E)) K cp.

Lemma tate_loop_ok E : consistent E -> minimal (cv E) -> forall ps C acc,
  Forall (fun p => prime p /\ (p | sdisc (cv E))) ps -> reach E C ->
  exists l, tate_loop xgcd srm rm E C ps acc = Ok (acc ++ l) /\ map fst l = ps /\ Forall (fun x => entry_ok E (fst x) (snd x)) l.
Proof.
  intros CE M. pose proof M as [D0 _]. induction ps as [|p ps IH]; intros C acc F R; cbn [tate_loop].
  - exists []. rewrite app_nil_r. auto.
  - inversion F as [|q qs [Pp Dp] F' E1]; subst. pose proof (p0 p Pp) as G.
    destruct (val_z_ok p (sdisc (cv E)) D0 ltac:(lia)) as (v & V & _).
    destruct (tate_prime_ok p Pp E C v CE (pminimal_of p E Pp M) D0 Dp V R) as ([C' o] & v4 & V4 & -> & (K & cp & EO & R' & T)).
    rewrite bind_Ok. cbn [fst snd] in *. subst o.
    destruct (IH C' (acc ++ [(p, Red v (v - (components K - 1)) (Z.max 0 (v - 3 * v4)) (pinch_code K) cp)]) F' R') as (l & -> & Ml & Fl).
    eexists (_ :: l). split; [rewrite <- app_assoc; reflexivity|]. cbn [map fst]. split; [f_equal; exact Ml|].
    constructor; [|exact Fl]. cbn [fst snd]. split; [exact Pp|]. split; [exact Dp|].
    destruct R' as [_ (r & s & t & ER)]. exists v, v4, K, cp, r, s, t. rewrite <- ER. auto.
Qed.
End Algo.
