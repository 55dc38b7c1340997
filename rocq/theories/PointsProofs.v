(** Proofs about the model of points *)
From Coq Require Import ZArith Znumtheory Lia List Bool QArith Qcanon Field.
From Verif Require Import Base RatModel MArithModel MArithProofs CurveModel CurveProofs PointsModel GroupLaw QcGroup.
Import ListNotations.
Open Scope Z_scope.

(** ** Specification *)
(** a triple of integers, not all zero, on the projective curve *)
Definition proj_on (E : curve) (P : point) : Prop :=
  ~ (pX P = 0 /\ pY P = 0 /\ pZ P = 0) /\
  pY P ^ 2 * pZ P + a1 E * pX P * pY P * pZ P + a3 E * pY P * pZ P ^ 2 =
  pX P ^ 3 + a2 E * pX P ^ 2 * pZ P + a4 E * pX P * pZ P ^ 2 + a6 E * pZ P ^ 3.
(** same projective point *)
Definition same (P Q : point) : Prop :=
  exists k l, k <> 0 /\ l <> 0 /\ k * pX P = l * pX Q /\ k * pY P = l * pY Q /\ k * pZ P = l * pZ Q.
(** lowest terms, positive last coordinate if not zero *)
Definition reduced (P : point) : Prop := Z.gcd (Z.gcd (pX P) (pY P)) (pZ P) = 1 /\ 0 <= pZ P.
Definition zq (z : Z) : Qc := Q2Qc (inject_Z z).
Definition aff (P : point) : pt Qc :=
  if pZ P =? 0 then Inf else Aff (zq (pX P) / zq (pZ P))%Qc (zq (pY P) / zq (pZ P))%Qc.
Definition eon_pt (E : curve) := qon_pt (zq (a1 E)) (zq (a2 E)) (zq (a3 E)) (zq (a4 E)) (zq (a6 E)).
Definition eadd (E : curve) := qadd (zq (a1 E)) (zq (a2 E)) (zq (a3 E)) (zq (a4 E)).
Definition eneg (E : curve) := qneg (zq (a1 E)) (zq (a3 E)).

(** ** integers in Qc *)
Lemma zq_add x y : zq (x + y) = (zq x + zq y)%Qc.
Proof. apply Qc_is_canon. unfold zq, Qcplus, Q2Qc, this. rewrite !Qred_correct. rewrite inject_Z_plus. reflexivity. Qed.
Lemma zq_mul x y : zq (x * y) = (zq x * zq y)%Qc.
Proof. apply Qc_is_canon. unfold zq, Qcmult, Q2Qc, this. rewrite !Qred_correct. rewrite inject_Z_mult. reflexivity. Qed.
Lemma zq_opp x : zq (- x) = (- zq x)%Qc.
Proof. apply Qc_is_canon. unfold zq, Qcopp, Q2Qc, this. rewrite !Qred_correct. rewrite inject_Z_opp. reflexivity. Qed.
Lemma zq_sub x y : zq (x - y) = (zq x - zq y)%Qc.
Proof. unfold Z.sub, Qcminus. now rewrite zq_add, zq_opp. Qed.
Lemma zq_inj x y : zq x = zq y -> x = y.
Proof.
  intros H. assert (E : inject_Z x == inject_Z y).
  { rewrite <- (Qred_correct (inject_Z x)), <- (Qred_correct (inject_Z y)).
    change (this (zq x) == this (zq y)). now rewrite H. }
  unfold Qeq in E. cbn in E. lia.
Qed.
Lemma zq_0 : zq 0 = 0%Qc. Proof. reflexivity. Qed.
Lemma zq_1 : zq 1 = 1%Qc. Proof. reflexivity. Qed.
Lemma zq_2 : zq 2 = (1 + 1)%Qc. Proof. apply Qc_is_canon. reflexivity. Qed.
Lemma zq_3 : zq 3 = (1 + 1 + 1)%Qc. Proof. apply Qc_is_canon. reflexivity. Qed.
Lemma zq_4 : zq 4 = ((1 + 1) * (1 + 1))%Qc. Proof. apply Qc_is_canon. reflexivity. Qed.
Lemma zq_8 : zq 8 = ((1 + 1) * (1 + 1) * (1 + 1))%Qc. Proof. apply Qc_is_canon. reflexivity. Qed.
Lemma zq_9 : zq 9 = ((1 + 1 + 1) * (1 + 1 + 1))%Qc. Proof. apply Qc_is_canon. reflexivity. Qed.
Lemma zq_27 : zq 27 = ((1 + 1 + 1) * (1 + 1 + 1) * (1 + 1 + 1))%Qc. Proof. apply Qc_is_canon. reflexivity. Qed.
Lemma zq_ne x : x <> 0 -> zq x <> 0%Qc.
Proof. intros H E. apply H. now apply zq_inj. Qed.
Lemma zq_sq x : zq (x ^ 2) = (zq x * zq x)%Qc.
Proof. rewrite Z.pow_2_r. apply zq_mul. Qed.
Lemma zq_cu x : zq (x ^ 3) = (zq x * zq x * zq x)%Qc.
Proof. replace (x ^ 3) with (x * x * x) by ring. now rewrite !zq_mul. Qed.
Opaque zq.
Ltac zqs := rewrite ?zq_add, ?zq_sub, ?zq_sq, ?zq_cu, ?zq_mul, ?zq_opp, ?zq_0, ?zq_1, ?zq_2, ?zq_3.
Ltac zqall := repeat (rewrite zq_add || rewrite zq_sub || rewrite zq_sq || rewrite zq_cu || rewrite zq_mul || rewrite zq_opp || rewrite zq_0 || rewrite zq_1 || rewrite zq_2 || rewrite zq_3 || rewrite zq_4 || rewrite zq_8 || rewrite zq_9 || rewrite zq_27).

Lemma qc_div_eq (a b c d : Qc) : (b <> 0 -> d <> 0 -> (a / b = c / d <-> a * d = c * b))%Qc.
Proof.
  intros Hb Hd. split; intros H.
  - transitivity (a / b * (b * d))%Qc; [field; auto|]. rewrite H. field. auto.
  - transitivity (a * d / (b * d))%Qc; [field; auto|]. rewrite H. field. auto.
Qed.

Lemma Aff_inj {K} (x y x' y' : K) : Aff x y = Aff x' y' -> x = x' /\ y = y'.
Proof. intros H. split; congruence. Qed.
Lemma zne a b : a <> 0 -> b <> 0 -> a * b <> 0.
Proof. intros H1 H2 E. apply Z.mul_eq_0 in E. tauto. Qed.

(** ** reduce *)
Lemma reduce3_ok X Y W : ~ (X = 0 /\ Y = 0 /\ W = 0) -> exists x y w k, reduce3 X Y W = (x, y, w) /\ k <> 0 /\
  X = k * x /\ Y = k * y /\ W = k * w /\ Z.gcd (Z.gcd x y) w = 1 /\ 0 <= w.
Proof.
  intros H. unfold reduce3. destruct (Z.eqb_spec W 1) as [->|N].
  { exists X, Y, 1, 1. repeat split; try lia. apply Z.gcd_1_r. }
  cbv zeta. set (d := Z.gcd (Z.gcd X Y) W).
  assert (D : 0 <= d) by apply Z.gcd_nonneg.
  destruct (Z.eqb_spec d 0) as [E|NE].
  { exfalso. unfold d in E. apply Z.gcd_eq_0 in E as [E ->]. apply Z.gcd_eq_0 in E as [-> ->]. tauto. }
  assert (DX : (d | X)) by (apply Z.divide_trans with (Z.gcd X Y); apply Z.gcd_divide_l).
  assert (DY : (d | Y)). { apply Z.divide_trans with (Z.gcd X Y); [apply Z.gcd_divide_l|apply Z.gcd_divide_r]. }
  assert (DW : (d | W)) by apply Z.gcd_divide_r.
  destruct DX as [x Ex], DY as [y Ey], DW as [w Ew].
  assert (G : Z.gcd (Z.gcd x y) w = 1).
  { assert (ED : d = d * Z.gcd (Z.gcd x y) w).
    { unfold d at 1. rewrite Ex, Ey, Ew, Z.gcd_mul_mono_r, (Z.abs_eq d), Z.gcd_mul_mono_r, (Z.abs_eq d) by auto. ring. }
    apply (Z.mul_reg_l _ _ d); [auto|]. rewrite <- ED. ring. }
  assert (ER : (if negb (d =? 1) then (X / d, Y / d, W / d) else (X, Y, W)) = (x, y, w)).
  { destruct (Z.eqb_spec d 1) as [E1|N1]; cbn [negb].
    - rewrite Ex, Ey, Ew, E1. now rewrite !Z.mul_1_r.
    - now rewrite Ex, Ey, Ew, !Z.div_mul by auto. }
  rewrite ER. destruct (Z.ltb_spec w 0).
  - exists (- x), (- y), (- w), (- d). split; [reflexivity|].
    split; [lia|]. split; [rewrite Ex; ring|]. split; [rewrite Ey; ring|]. split; [rewrite Ew; ring|].
    rewrite Z.gcd_opp_l, Z.gcd_opp_r, Z.gcd_opp_r. split; [auto|lia].
  - exists x, y, w, d. split; [reflexivity|]. split; [auto|]. split; [rewrite Ex; ring|]. split; [rewrite Ey; ring|]. split; [rewrite Ew; ring|]. auto.
Qed.
Lemma same_refl P : same P P.
Proof. exists 1, 1. repeat split; lia. Qed.
Lemma same_sym P Q : same P Q -> same Q P.
Proof. intros (k & l & A & B & C & D & F). exists l, k. auto. Qed.
Lemma aff_same P Q : same P Q -> aff P = aff Q.
Proof.
  intros (k & l & Hk & Hl & EX & EY & EZ). unfold aff.
  destruct (Z.eqb_spec (pZ P) 0) as [E|N].
  - rewrite E in EZ. destruct (Z.eqb_spec (pZ Q) 0) as [_|N]; [reflexivity|]. exfalso.
    apply (zne l (pZ Q)); [auto|auto|]. rewrite <- EZ. ring.
  - destruct (Z.eqb_spec (pZ Q) 0) as [E|N'].
    { exfalso. apply (zne k (pZ P)); [auto|auto|]. rewrite EZ, E. ring. }
    assert (C : forall a b, k * a = l * b -> a * pZ Q = b * pZ P).
    { intros a b H. apply (Z.mul_reg_l _ _ (k * l)); [now apply zne|].
      transitivity ((k * a) * (l * pZ Q)); [ring|]. rewrite H, <- EZ. ring. }
    f_equal; (apply qc_div_eq; [now apply zq_ne|now apply zq_ne|]); rewrite <- !zq_mul; f_equal; now apply C.
Qed.
Lemma mkpoint_ok X Y W : ~ (X = 0 /\ Y = 0 /\ W = 0) ->
  same (mkpoint X Y W) (Pt X Y W 0) /\ reduced (mkpoint X Y W) /\ ord (mkpoint X Y W) = 0.
Proof.
  intros H. destruct (reduce3_ok X Y W H) as (x & y & w & k & E & Hk & EX & EY & EZ & G & P).
  unfold mkpoint. rewrite E. split; [|split; [split; auto|reflexivity]].
  exists k, 1. cbn [pX pY pZ]. split; [auto|]. split; [clear; lia|]. rewrite <- EX, <- EY, <- EZ. split; [ring|]. split; ring.
Qed.
Lemma mkpoint_aff X Y W : W <> 0 -> aff (mkpoint X Y W) = Aff (zq X / zq W)%Qc (zq Y / zq W)%Qc.
Proof.
  intros H. destruct (mkpoint_ok X Y W) as (S & _ & _); [tauto|]. rewrite (aff_same _ _ S).
  unfold aff. cbn [pX pY pZ]. destruct (Z.eqb_spec W 0); [contradiction|reflexivity].
Qed.

Section OnE.
Variable E : curve.
Local Notation valid := (proj_on E).
Local Notation A1 := (zq (a1 E)).
Local Notation A2 := (zq (a2 E)).
Local Notation A3 := (zq (a3 E)).
Local Notation A4 := (zq (a4 E)).
Local Notation A6 := (zq (a6 E)).

Lemma isvalid_ok P : p_isvalid E P = true <-> valid P.
Proof.
  unfold p_isvalid, proj_on. cbv zeta.
  destruct (Z.eqb_spec (pX P) 0) as [EX|NX]; destruct (Z.eqb_spec (pY P) 0) as [EY|NY]; destruct (Z.eqb_spec (pZ P) 0) as [EZ|NZ]; cbn [andb];
    try rewrite Z.eqb_eq.
  - split; [discriminate|tauto].
  - split; intros H.
    + split; [tauto|]. rewrite EX, EY in *. transitivity (0 * pZ P * (0 + a1 E * 0 + a3 E * pZ P)); [ring|]. rewrite H. ring.
    + destruct H as [_ H]. rewrite EX, EY in *. transitivity (0 ^ 2 * pZ P + a1 E * 0 * 0 * pZ P + a3 E * 0 * pZ P ^ 2); [ring|]. rewrite H. ring.
  - split; [intros _|reflexivity]. split; [tauto|]. rewrite EX, EZ. ring.
  - split; intros H.
    + split; [tauto|]. transitivity (pY P * pZ P * (pY P + a1 E * pX P + a3 E * pZ P)); [ring|]. rewrite H. ring.
    + destruct H as [_ H]. transitivity (pY P ^ 2 * pZ P + a1 E * pX P * pY P * pZ P + a3 E * pY P * pZ P ^ 2); [ring|]. rewrite H. ring.
  - split; intros H.
    + split; [tauto|]. transitivity (pY P * pZ P * (pY P + a1 E * pX P + a3 E * pZ P)); [ring|]. rewrite H. ring.
    + destruct H as [_ H]. transitivity (pY P ^ 2 * pZ P + a1 E * pX P * pY P * pZ P + a3 E * pY P * pZ P ^ 2); [ring|]. rewrite H. ring.
  - split; intros H.
    + split; [tauto|]. transitivity (pY P * pZ P * (pY P + a1 E * pX P + a3 E * pZ P)); [ring|]. rewrite H. ring.
    + destruct H as [_ H]. transitivity (pY P ^ 2 * pZ P + a1 E * pX P * pY P * pZ P + a3 E * pY P * pZ P ^ 2); [ring|]. rewrite H. ring.
  - split; intros H.
    + split; [tauto|]. transitivity (pY P * pZ P * (pY P + a1 E * pX P + a3 E * pZ P)); [ring|]. rewrite H. ring.
    + destruct H as [_ H]. transitivity (pY P ^ 2 * pZ P + a1 E * pX P * pY P * pZ P + a3 E * pY P * pZ P ^ 2); [ring|]. rewrite H. ring.
  - split; intros H.
    + split; [tauto|]. transitivity (pY P * pZ P * (pY P + a1 E * pX P + a3 E * pZ P)); [ring|]. rewrite H. ring.
    + destruct H as [_ H]. transitivity (pY P ^ 2 * pZ P + a1 E * pX P * pY P * pZ P + a3 E * pY P * pZ P ^ 2); [ring|]. rewrite H. ring.
Qed.
Lemma valid_inf P : valid P -> pZ P = 0 -> pX P = 0 /\ pY P <> 0.
Proof.
  intros [N H] EZ. rewrite EZ in H. assert (EX : pX P = 0).
  { assert (pX P ^ 3 = 0) by (transitivity (pX P ^ 3 + a2 E * pX P ^ 2 * 0 + a4 E * pX P * 0 ^ 2 + a6 E * 0 ^ 3); [ring|rewrite <- H; ring]).
    apply Z.pow_eq_0 in H0; [auto|lia]. }
  split; [auto|]. tauto.
Qed.
Lemma inf_valid X Y W o : X = 0 -> Y <> 0 -> W = 0 -> valid (Pt X Y W o).
Proof. intros -> H ->. split; cbn [pX pY pZ]; [tauto|ring]. Qed.
Lemma aff_on P : pZ P <> 0 -> (valid P <-> eon_pt E (aff P)).
Proof.
  intros N. unfold aff. destruct (Z.eqb_spec (pZ P) 0); [contradiction|]. unfold eon_pt, qon_pt, on_pt, on.
  pose proof (zq_ne _ N) as N'.
  set (x := (zq (pX P) / zq (pZ P))%Qc). set (y := (zq (pY P) / zq (pZ P))%Qc).
  assert (EX : zq (pX P) = (x * zq (pZ P))%Qc) by (unfold x; field; auto).
  assert (EY : zq (pY P) = (y * zq (pZ P))%Qc) by (unfold y; field; auto).
  transitivity (zq (pY P ^ 2 * pZ P + a1 E * pX P * pY P * pZ P + a3 E * pY P * pZ P ^ 2) =
    zq (pX P ^ 3 + a2 E * pX P ^ 2 * pZ P + a4 E * pX P * pZ P ^ 2 + a6 E * pZ P ^ 3)).
  { unfold proj_on. split; [intros [_ H]; now f_equal|]. intros H. split; [tauto|]. now apply zq_inj. }
  zqall. rewrite EX, EY. set (w := zq (pZ P)) in *.
  assert (W3 : (w * w * w <> 0)%Qc).
  { intros H. apply Qcmult_integral in H as [H|H]; [apply Qcmult_integral in H as [H|H]|]; auto. }
  split; intros H.
  - transitivity ((y * w * (y * w) * w + A1 * (x * w) * (y * w) * w + A3 * (y * w) * (w * w)) / (w * w * w))%Qc; [field; auto|].
    rewrite H. field. auto.
  - transitivity ((w * w * w) * (y * y + A1 * x * y + A3 * y))%Qc; [ring|]. rewrite H. ring.
Qed.

(** ** equality *)
Lemma p_eq_cross P Q : p_eq P Q = true <->
  pX P * pZ Q = pZ P * pX Q /\ pY P * pZ Q = pZ P * pY Q /\ pY P * pX Q = pX P * pY Q.
Proof.
  unfold p_eq. destruct (Z.eqb_spec (pX P * pZ Q - pZ P * pX Q) 0); cbn [negb]; [|split; [discriminate|lia]].
  destruct (Z.eqb_spec (pY P * pZ Q - pZ P * pY Q) 0); cbn [negb]; [|split; [discriminate|lia]].
  destruct (Z.eqb_spec (pY P * pX Q - pX P * pY Q) 0); cbn [negb]; [|split; [discriminate|lia]].
  split; [|auto]. intros _. lia.
Qed.
Lemma p_eq_aff P Q : valid P -> valid Q -> (p_eq P Q = true <-> aff P = aff Q).
Proof.
  intros HP HQ. rewrite p_eq_cross. unfold aff. destruct (Z.eqb_spec (pZ P) 0) as [EP|NP]; destruct (Z.eqb_spec (pZ Q) 0) as [EQ|NQ].
  - destruct (valid_inf P HP EP) as [XP _], (valid_inf Q HQ EQ) as [XQ _]. rewrite EP, EQ, XP, XQ. split; [auto|]. intros _. split; [ring|]. split; ring.
  - destruct (valid_inf P HP EP) as [XP YP]. split; [|discriminate]. intros (_ & H & _). exfalso. apply (zne (pY P) (pZ Q)); [auto|auto|]. rewrite H, EP. ring.
  - destruct (valid_inf Q HQ EQ) as [XQ YQ]. split; [|discriminate]. intros (_ & H & _). exfalso. apply (zne (pZ P) (pY Q)); [auto|auto|]. rewrite <- H, EQ. ring.
  - assert (R : forall a b, (zq a / zq (pZ P) = zq b / zq (pZ Q))%Qc <-> a * pZ Q = pZ P * b).
    { intros a b. rewrite qc_div_eq by now apply zq_ne. rewrite <- !zq_mul. split; intros H; [apply zq_inj in H; rewrite H; ring|]. f_equal. rewrite H. ring. }
    split.
    + intros (H1 & H2 & _). f_equal; apply R; auto.
    + intros H. apply Aff_inj in H as [H1 H2]. apply R in H1. apply R in H2. split; [auto|]. split; [auto|].
      apply (Z.mul_reg_l _ _ (pZ P)); [auto|]. transitivity (pY P * (pZ P * pX Q)); [ring|]. rewrite <- H1.
      transitivity (pX P * (pY P * pZ Q)); [ring|]. rewrite H2. ring.
Qed.
Lemma aff_inf P : aff P = Inf <-> pZ P = 0.
Proof. unfold aff. destruct (Z.eqb_spec (pZ P) 0); split; auto; try discriminate. contradiction. Qed.
Lemma aff_eq_same P Q : valid P -> valid Q -> aff P = aff Q -> same P Q.
Proof.
  intros HP HQ H. destruct (Z.eq_dec (pZ P) 0) as [EP|NP].
  - assert (EQ : pZ Q = 0) by (apply aff_inf; rewrite <- H; now apply aff_inf).
    destruct (valid_inf P HP EP) as [XP YP], (valid_inf Q HQ EQ) as [XQ YQ].
    exists (pY Q), (pY P). split; [auto|]. split; [auto|]. rewrite XP, XQ, EP, EQ. split; [ring|]. split; ring.
  - assert (NQ : pZ Q <> 0) by (intros EQ; apply NP, aff_inf; rewrite H; now apply aff_inf).
    apply (p_eq_aff P Q HP HQ) in H. apply p_eq_cross in H as (H1 & H2 & H3).
    exists (pZ Q), (pZ P). split; [auto|]. split; [auto|]. split; [|split]; [rewrite <- H1; ring|rewrite <- H2; ring|ring].
Qed.

(** ** negation *)
Lemma aff_on_all P : valid P -> eon_pt E (aff P).
Proof.
  intros H. destruct (Z.eq_dec (pZ P) 0) as [EP|NP]; [|now apply aff_on].
  apply aff_inf in EP. rewrite EP. exact I.
Qed.
Lemma neg_aff P : aff (p_neg E P) = eneg E (aff P).
Proof.
  unfold aff, p_neg. cbn [pX pY pZ]. destruct (Z.eqb_spec (pZ P) 0) as [_|N]; [reflexivity|].
  unfold eneg, qneg, neg. f_equal. zqall. field. now apply zq_ne.
Qed.
Lemma neg_valid P : valid P -> valid (p_neg E P).
Proof.
  intros [N H]. unfold proj_on, p_neg. cbn [pX pY pZ]. split.
  - intros (X0 & Y0 & Z0). apply N. split; [auto|]. split; [|auto]. rewrite X0, Z0 in Y0. lia.
  - rewrite <- H. ring.
Qed.

(** ** doubling and addition *)
Lemma mk_valid X Y W : W <> 0 -> eon_pt E (Aff (zq X / zq W)%Qc (zq Y / zq W)%Qc) -> valid (mkpoint X Y W).
Proof.
  intros N H. assert (K : aff (mkpoint X Y W) = Aff (zq X / zq W)%Qc (zq Y / zq W)%Qc) by now apply mkpoint_aff.
  apply aff_on; [|now rewrite K]. intros E0. apply aff_inf in E0. rewrite E0 in K. discriminate.
Qed.
Lemma inf_val : valid infpt.
Proof. apply inf_valid; lia. Qed.
Lemma eadd_on P Q : eon_pt E P -> eon_pt E Q -> eon_pt E (eadd E P Q).
Proof. exact (@qadd_on A1 A2 A3 A4 A6 P Q). Qed.

Lemma twice_spec P : valid P -> aff (p_twice E P) = eadd E (aff P) (aff P) /\ valid (p_twice E P).
Proof.
  intros H. unfold p_twice. destruct (Z.eqb_spec (pZ P) 0) as [EP|NP].
  { apply aff_inf in EP. rewrite EP. split; [reflexivity|apply inf_val]. }
  destruct (p_eq P (p_neg E P)) eqn:EN.
  { apply (p_eq_aff P _ H (neg_valid P H)) in EN. rewrite neg_aff in EN. split; [|apply inf_val].
    rewrite EN at 2. unfold eadd, eneg. exact (eq_sym (@qadd_neg_r A1 A2 A3 A4 (aff P))). }
  cbv zeta. set (L := 3 * pX P * pX P + 2 * a2 E * pX P * pZ P + a4 E * (pZ P * pZ P) - a1 E * pY P * pZ P).
  set (M := 2 * pY P + a1 E * pX P + a3 E * pZ P).
  set (N := - pX P * pX P * pX P - a3 E * pY P * (pZ P * pZ P) + a4 E * pX P * (pZ P * pZ P) + 2 * a6 E * pZ P * (pZ P * pZ P)).
  assert (HM : M <> 0).
  { intros E0. apply not_true_iff_false in EN. apply EN. apply p_eq_cross. unfold p_neg. cbn [pX pY pZ].
    replace (- pY P - a3 E * pZ P - a1 E * pX P) with (pY P) by (unfold M in E0; lia). split; [ring|]. split; ring. }
  assert (HN : N = M * pZ P * pY P - L * pX P).
  { destruct H as [_ H]. unfold N, M, L. apply Z.sub_cancel_l with (n := 0).
    transitivity (- (- pX P * pX P * pX P - a3 E * pY P * (pZ P * pZ P) + a4 E * pX P * (pZ P * pZ P) + 2 * a6 E * pZ P * (pZ P * pZ P)
      - 2 * ((pX P ^ 3 + a2 E * pX P ^ 2 * pZ P + a4 E * pX P * pZ P ^ 2 + a6 E * pZ P ^ 3) -
      (pY P ^ 2 * pZ P + a1 E * pX P * pY P * pZ P + a3 E * pY P * pZ P ^ 2)))); [rewrite H; ring|ring]. }
  set (t := L * L + M * pZ P * (a1 E * L - M * (a2 E * pZ P + 2 * pX P))).
  assert (NZ : M * pZ P * (M * pZ P) * (M * pZ P) <> 0) by (repeat apply zne; auto).
  pose proof (zq_ne _ HM) as HM'. pose proof (zq_ne _ NP) as NP'.
  assert (EA : eadd E (aff P) (aff P) = Aff (zq (t * (M * pZ P)) / zq (M * pZ P * (M * pZ P) * (M * pZ P)))%Qc
     (zq (- (L * t + M * pZ P * (a1 E * t + M * (N + a3 E * (M * pZ P) * pZ P)))) / zq (M * pZ P * (M * pZ P) * (M * pZ P)))%Qc).
  { unfold aff. destruct (Z.eqb_spec (pZ P) 0); [contradiction|]. unfold eadd, qadd, add.
    destruct (Qc_eq_dec _ _) as [_|C]; [|now elim C].
    assert (EFY : fy Qcplus Qcmult A1 A3 (zq (pX P) / zq (pZ P))%Qc (zq (pY P) / zq (pZ P))%Qc = (zq M / zq (pZ P))%Qc).
    { unfold fy, M. zqall. field. auto. }
    assert (EFX : fx 1%Qc Qcplus Qcmult Qcminus A1 A2 A4 (zq (pX P) / zq (pZ P))%Qc (zq (pY P) / zq (pZ P))%Qc = (zq L / (zq (pZ P) * zq (pZ P)))%Qc).
    { unfold fx, L. zqall. field. auto. }
    destruct (Qc_eq_dec _ _) as [C|_].
    { exfalso. apply HM'. transitivity (zq (pZ P) * (zq M / zq (pZ P)))%Qc; [field; auto|]. rewrite <- EFY. unfold fy. rewrite C at 1. ring. }
    rewrite EFX, EFY. unfold chord. cbv zeta. clear EFX EFY. rewrite HN. clearbody M. clearbody L. clear HN. clear N. unfold t.
    f_equal; zqall; field; auto. }
  rewrite mkpoint_aff by auto. split; [now rewrite EA|].
  apply mk_valid; [auto|]. rewrite <- EA. apply eadd_on; now apply aff_on_all.
Qed.

Lemma add_spec P Q : valid P -> valid Q -> aff (p_add E P Q) = eadd E (aff P) (aff Q) /\ valid (p_add E P Q).
Proof.
  intros HP HQ. unfold p_add. destruct (Z.eqb_spec (pZ P) 0) as [EP|NP].
  { apply aff_inf in EP. rewrite EP. split; [reflexivity|auto]. }
  unfold p_iszero. destruct (Z.eqb_spec (pZ Q) 0) as [EQ|NQ].
  { apply aff_inf in EQ. rewrite EQ. split; [|auto]. unfold eadd, qadd. now rewrite add_inf_r. }
  destruct (p_eq P Q) eqn:EE.
  { apply (p_eq_aff P Q HP HQ) in EE. rewrite EE. now apply twice_spec. }
  destruct (p_eq P (p_neg E Q)) eqn:EN.
  { apply (p_eq_aff P _ HP (neg_valid Q HQ)) in EN. rewrite neg_aff in EN. split; [|apply inf_val].
    rewrite EN. unfold eadd, eneg. pose proof (aff_on_all Q HQ) as OQ.
    rewrite (@qadd_comm A1 A2 A3 A4 A6 (qneg A1 A3 (aff Q)) (aff Q) (@qneg_on A1 A2 A3 A4 A6 (aff Q) OQ) OQ).
    exact (eq_sym (@qadd_neg_r A1 A2 A3 A4 (aff Q))). }
  cbv zeta. set (L := - pY Q * pZ P + pY P * pZ Q). set (M := - pX Q * pZ P + pX P * pZ Q).
  set (N := - pY P * pX Q + pY Q * pX P).
  set (t := L * L * (pZ P * pZ Q) + M * (a1 E * L * (pZ P * pZ Q) - M * (a2 E * (pZ P * pZ Q) + pX P * pZ Q + pX Q * pZ P))).
  pose proof (zq_ne _ NP) as NP'. pose proof (zq_ne _ NQ) as NQ'.
  assert (HM : M <> 0).
  { intros E0. assert (EX : (zq (pX P) / zq (pZ P) = zq (pX Q) / zq (pZ Q))%Qc).
    { apply qc_div_eq; [auto|auto|]. rewrite <- !zq_mul. f_equal. unfold M in E0. lia. }
    pose proof (aff_on_all P HP) as OP. pose proof (aff_on_all Q HQ) as OQ.
    apply not_true_iff_false in EE, EN. rewrite (p_eq_aff P Q HP HQ) in EE. rewrite (p_eq_aff P _ HP (neg_valid Q HQ)), neg_aff in EN.
    unfold aff in *. destruct (Z.eqb_spec (pZ P) 0); [contradiction|]. destruct (Z.eqb_spec (pZ Q) 0); [contradiction|].
    rewrite EX in *. apply EE. f_equal.
    apply (@qsame_x A1 A2 A3 A4 A6 (zq (pX Q) / zq (pZ Q))%Qc (zq (pY P) / zq (pZ P))%Qc (zq (pY Q) / zq (pZ Q))%Qc); [exact OP|exact OQ|]. intros C. apply EN. unfold eneg, qneg, neg. now f_equal. }
  pose proof (zq_ne _ HM) as HM'.
  assert (HN : N * pZ P = pY P * M - L * pX P) by (unfold N, M, L; ring).
  assert (NZ : M * (M * M * (pZ P * pZ Q)) <> 0) by (repeat apply zne; auto).
  assert (EA : eadd E (aff P) (aff Q) = Aff (zq (M * t) / zq (M * (M * M * (pZ P * pZ Q))))%Qc
     (zq (- (t * (L + a1 E * M) + M * M * (pZ P * pZ Q) * (N + a3 E * M))) / zq (M * (M * M * (pZ P * pZ Q))))%Qc).
  { unfold aff. destruct (Z.eqb_spec (pZ P) 0); [contradiction|]. destruct (Z.eqb_spec (pZ Q) 0); [contradiction|].
    assert (EMX : (zq (pX P) / zq (pZ P) - zq (pX Q) / zq (pZ Q) = zq M / (zq (pZ P) * zq (pZ Q)))%Qc) by (unfold M; zqall; field; auto).
    assert (ELY : (zq (pY P) / zq (pZ P) - zq (pY Q) / zq (pZ Q) = zq L / (zq (pZ P) * zq (pZ Q)))%Qc) by (unfold L; zqall; field; auto).
    unfold eadd, qadd, add. destruct (Qc_eq_dec _ _) as [C|_].
    { exfalso. apply HM'. transitivity ((zq (pX P) / zq (pZ P) - zq (pX Q) / zq (pZ Q)) * (zq (pZ P) * zq (pZ Q)))%Qc; [rewrite EMX; field; auto|rewrite C; ring]. }
    rewrite EMX, ELY.
    assert (EN' : zq N = ((zq (pY P) * zq M - zq L * zq (pX P)) / zq (pZ P))%Qc).
    { rewrite <- !zq_mul, <- zq_sub, <- HN, zq_mul. field. auto. }
    unfold chord. cbv zeta. clear EMX ELY HN. clearbody N M L. unfold t.
    f_equal; zqall; rewrite ?EN'; field; auto. }
  rewrite mkpoint_aff by auto. split; [now rewrite EA|].
  apply mk_valid; [auto|]. rewrite <- EA. apply eadd_on; now apply aff_on_all.
Qed.
End OnE.
