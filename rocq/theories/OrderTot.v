(** order(P) always ends, and finds the order of every point of finite order. *)
From Coq Require Import ZArith Znumtheory Zdiv Lia List Bool QArith Qcanon Arith.
From Verif Require Import Base JacobiMath CurveModel CurveProofs PointsModel GroupLaw QcGroup PointsProofs PointsGroup PointsMore DivPolQ NagLutz.
Import ListNotations.
Open Scope Z_scope.

(** ** reduced triples *)
Lemma red_dvd P k : reduced P -> (pZ P | pX P * k) -> (pZ P | pY P * k) -> (pZ P | k).
Proof.
  intros [G _] DX DY. assert (D : (pZ P | Z.gcd (Z.gcd (pX P * k) (pY P * k)) (pZ P * k))).
  { repeat apply Z.gcd_greatest; auto. apply Z.divide_factor_l. }
  rewrite Z.gcd_mul_mono_r in D. rewrite <- (Z.gcd_abs_r _ (pZ P * k)), Z.abs_mul, <- (Z.abs_involutive k), <- Z.abs_mul, Z.gcd_abs_r, Z.abs_involutive in D.
  rewrite Z.gcd_mul_mono_r, G, Z.abs_involutive in D. rewrite Z.mul_1_l in D. now apply Z.divide_abs_r.
Qed.
Lemma aff_coords P x y : aff P = Aff x y -> pZ P <> 0 /\ x = (zq (pX P) / zq (pZ P))%Qc /\ y = (zq (pY P) / zq (pZ P))%Qc.
Proof. unfold aff. destruct (Z.eqb_spec (pZ P) 0); [discriminate|]. intros H. injection H as <- <-. auto. Qed.
Lemma red_frac P x y u v s t : reduced P -> aff P = Aff x y -> v <> 0 -> t <> 0 -> x = (zq u / zq v)%Qc -> y = (zq s / zq t)%Qc -> (pZ P | v * t).
Proof.
  intros R A Hv Ht Ex Ey. destruct (aff_coords P x y A) as (NZ & Ax & Ay).
  rewrite Ax in Ex. rewrite Ay in Ey. apply frac_eq in Ex; auto. apply frac_eq in Ey; auto.
  apply red_dvd; auto; [exists (u * t); transitivity (pX P * v * t); [ring|]; rewrite Ex; ring|exists (s * v); transitivity (pY P * t * v); [ring|]; rewrite Ey; ring].
Qed.
Lemma red_den P x y u v : reduced P -> aff P = Aff x y -> 0 < v -> Z.gcd u v = 1 -> x = (zq u / zq v)%Qc -> (v | pZ P) /\ 0 < pZ P.
Proof.
  intros R A Hv G Ex. destruct (aff_coords P x y A) as (NZ & Ax & _). rewrite Ax in Ex. apply frac_eq in Ex; [|auto|lia].
  split; [|destruct R; lia]. apply (Z.gauss v u); [exists (pX P); lia|now rewrite Z.gcd_comm].
Qed.

Lemma prime_avoid n : n <> 0 -> exists p, prime p /\ 8 < p /\ ~ (p | n).
Proof.
  intros Hn. destruct (prime_divisor_ex (Z.abs n * 5040 + 1) ltac:(lia)) as (p & Hp & D). exists p. split; [auto|].
  assert (P1 : 1 < p) by (destruct Hp; auto).
  assert (N1 : ~ (p | Z.abs n * 5040)). { intros D'. assert (D1 : (p | 1)) by (apply (Z.divide_add_cancel_r p (Z.abs n * 5040)); auto). apply Z.divide_1_r_nonneg in D1; lia. }
  split.
  - destruct (Z_le_gt_dec p 8) as [L|]; [exfalso|lia]. apply N1. apply Z.divide_mul_r.
    assert (p = 2 \/ p = 3 \/ p = 4 \/ p = 5 \/ p = 6 \/ p = 7 \/ p = 8) as [->|[->|[->|[->|[->|[->| ->]]]]]] by lia;
    [exists 2520|exists 1680|exists 1260|exists 1008|exists 840|exists 720|exists 630]; reflexivity.
  - intros D'. apply N1. apply Z.divide_mul_l. now apply Z.divide_abs_r.
Qed.

(** ** a singular point modulo p *)
Lemma eqm_opp p a b : eqm p a b -> eqm p (- a) (- b). Proof. apply Zopp_eqm. Qed.
Ltac eqs := repeat first [assumption | apply Zminus_eqm | apply Zplus_eqm | apply Zmult_eqm | apply eqm_opp | reflexivity].
Lemma eqm_dvd p a b : p <> 0 -> (p | a - b) -> eqm p a b.
Proof. intros Hp [k H]. unfold eqm. replace a with (b + k * p) by lia. apply Z_mod_plus_full. Qed.
Definition sd (a1 a2 a3 a4 a6 : Z) := sdisc (Cv a1 a2 a3 a4 a6).
Lemma sd_eqm p a1 a2 a3 a4 a6 b3 b4 b6 : eqm p a3 b3 -> eqm p a4 b4 -> eqm p a6 b6 -> eqm p (sd a1 a2 a3 a4 a6) (sd a1 a2 b3 b4 b6).
Proof. intros H3 H4 H6. unfold sd, sdisc, sb2, sb4, sb6, sb8. cbn [CurveModel.a1 CurveModel.a2 CurveModel.a3 CurveModel.a4 CurveModel.a6]. rewrite !Z.pow_2_r || idtac. eqs. Qed.
Lemma sing_disc E p X Y W : prime p -> ~ (p | W) ->
  Y ^ 2 * W + a1 E * X * Y * W + a3 E * Y * W ^ 2 = X ^ 3 + a2 E * X ^ 2 * W + a4 E * X * W ^ 2 + a6 E * W ^ 3 ->
  (p | 2 * Y + a1 E * X + a3 E * W) -> (p | 3 * X * X + 2 * a2 E * X * W + a4 E * W * W - a1 E * Y * W) -> (p | sdisc E).
Proof.
  intros Hp NW HE [t Ht] [f Hf]. assert (P0 : p <> 0) by (destruct Hp; lia).
  assert (G : Z.gcd W p = 1). { apply Zgcd_1_rel_prime, rel_prime_sym, prime_rel_prime; auto. }
  destruct (Z.gcd_bezout W p 1 G) as (z & k & B).
  set (x := X * z). set (y := Y * z).
  assert (H3 : eqm p (a3 E) (- y - y - a1 E * x)).
  { apply eqm_dvd; auto. exists (z * t + k * a3 E). unfold x, y. transitivity (z * (2 * Y + a1 E * X + a3 E * W) + a3 E * (1 - z * W)); [ring|]. rewrite Ht, <- B. ring. }
  assert (H4 : eqm p (a4 E) (a1 E * y - 3 * x * x - 2 * a2 E * x)).
  { apply eqm_dvd; auto. exists (z * z * f + (a4 E * (1 + z * W) + 2 * a2 E * x - a1 E * y) * k). unfold x, y.
    transitivity (z * z * (3 * X * X + 2 * a2 E * X * W + a4 E * W * W - a1 E * Y * W) + (a4 E * (1 + z * W) + 2 * a2 E * (X * z) - a1 E * (Y * z)) * (1 - z * W)); [ring|]. rewrite Hf, <- B. ring. }
  assert (H6 : eqm p (a6 E) (y * y + a1 E * x * y + a3 E * y - x * x * x - a2 E * x * x - a4 E * x)).
  { apply eqm_dvd; auto. set (r := a6 E * (1 + z * W + (z * W) * (z * W)) + a2 E * x * x + a4 E * x * (1 + z * W) - y * y - a1 E * x * y - a3 E * y * (1 + z * W)).
    exists (r * k). transitivity (z * z * z * ((X ^ 3 + a2 E * X ^ 2 * W + a4 E * X * W ^ 2 + a6 E * W ^ 3) - (Y ^ 2 * W + a1 E * X * Y * W + a3 E * Y * W ^ 2)) + r * (1 - z * W)).
    - unfold r, x, y. ring.
    - rewrite HE, <- B. ring. }
  set (b3 := - y - y - a1 E * x) in *. set (b4 := a1 E * y - 3 * x * x - 2 * a2 E * x) in *.
  assert (H6' : eqm p (a6 E) (y * y + a1 E * x * y + b3 * y - x * x * x - a2 E * x * x - b4 * x)) by (etransitivity; [exact H6|]; eqs).
  pose proof (sd_eqm p (a1 E) (a2 E) _ _ _ _ _ _ H3 H4 H6') as Q.
  replace (sd (a1 E) (a2 E) b3 b4 _) with 0 in Q by (unfold sd, sdisc, sb2, sb4, sb6, sb8, b3, b4; cbn [CurveModel.a1 CurveModel.a2 CurveModel.a3 CurveModel.a4 CurveModel.a6]; ring).
  apply Z.mod_divide; auto.
Qed.

(** ** a quotient with p below *)
Lemma den_of_slope p (l : Qc) (L M B C W a : Z) u v x : prime p -> W <> 0 -> M <> 0 -> 0 < v -> (p | M) -> ~ (p | L) -> ~ (p | W) ->
  l = (zq L / zq M)%Qc -> x = (l * l + zq a * l - zq B - zq C / zq W)%Qc -> x = (zq u / zq v)%Qc -> (p | v).
Proof.
  intros Hp HW HM Hv PM NL NW El Ex Eu.
  assert (Q : u * (M * M * W) = v * (L * L * W + a * L * M * W - B * M * M * W - C * M * M)).
  { apply zq_inj. assert (NWq : zq W <> 0%Qc) by now apply zq_ne. assert (NMq : zq M <> 0%Qc) by now apply zq_ne. assert (Nvq : zq v <> 0%Qc) by (apply zq_ne; lia).
    rewrite !zq_mul. rewrite !zq_sub, zq_add, !zq_mul. rewrite Eu in Ex. rewrite El in Ex.
    assert (Eu' : zq u = (zq v * (zq L / zq M * (zq L / zq M) + zq a * (zq L / zq M) - zq B - zq C / zq W))%Qc) by (rewrite <- Ex; field; auto).
    rewrite Eu'. field. auto. }
  destruct (prime_mult p Hp v (L * L * W + a * L * M * W - B * M * M * W - C * M * M)) as [D|D]; [|exact D|exfalso].
  { rewrite <- Q. apply Z.divide_mul_r. do 2 apply Z.divide_mul_l. exact PM. }
  assert (D' : (p | L * L * W)).
  { replace (L * L * W) with ((L * L * W + a * L * M * W - B * M * M * W - C * M * M) - M * (a * L * W - B * M * W - C * M)) by ring.
    apply Z.divide_sub_r; [exact D|]. now apply Z.divide_mul_l. }
  destruct (prime_mult p Hp _ _ D') as [D1|]; [|auto]. destruct (prime_mult p Hp _ _ D1); auto.
Qed.

Lemma key_inj p x x' z z' : 8 < p -> 0 < z <= 8 -> 0 < z' <= 8 -> Z.to_nat (x mod p * 9 + z) = Z.to_nat (x' mod p * 9 + z') -> z = z' /\ (p | x - x').
Proof.
  intros Hp Hz Hz' H. pose proof (Z.mod_pos_bound x p ltac:(lia)) as B. pose proof (Z.mod_pos_bound x' p ltac:(lia)) as B'.
  assert (Q : z = z' /\ x mod p = x' mod p) by (clear - H B B' Hz Hz'; set (a := x mod p) in *; set (b := x' mod p) in *; clearbody a b; lia).
  destruct Q as [Q1 Q2]. split; [exact Q1|]. apply Z.mod_divide; [lia|]. rewrite Zminus_mod, Q2, Z.sub_diag. reflexivity.
Qed.
Lemma key_lt p x z : 8 < p -> 0 < z <= 8 -> (Z.to_nat (x mod p * 9 + z) < 9 * Z.to_nat p)%nat.
Proof. intros Hp Hz. pose proof (Z.mod_pos_bound x p ltac:(lia)) as B. set (a := x mod p) in *. clearbody a. lia. Qed.

Section OnE.
Variable E : curve.
Hypothesis HD : sdisc E <> 0.
Local Notation on := (eon_pt E).
Variable P : point.
Hypothesis HP : proj_on E P.
(** reduced triples for the multiples *)
Definition rmul (n : nat) : point := let S := nfold E n P in mkpoint (pX S) (pY S) (pZ S).
Lemma rmul_ok n : proj_on E (rmul n) /\ reduced (rmul n) /\ aff (rmul n) = emul E n (aff P).
Proof.
  unfold rmul. cbv zeta. destruct (nfold_spec E n P HP) as [A V]. set (S := nfold E n P) in *.
  destruct (mkpoint_ok (pX S) (pY S) (pZ S)) as (S1 & S2 & _); [apply V|].
  assert (SS : same (mkpoint (pX S) (pY S) (pZ S)) S) by exact S1.
  split; [apply (proj_on_same E _ _ (same_sym _ _ SS) V)|]. split; [exact S2|]. rewrite (aff_same _ _ SS). exact A.
Qed.
Lemma red_same A B : reduced A -> reduced B -> aff A = aff B -> pZ A = pZ B.
Proof.
  intros RA RB EA. destruct (aff B) as [|x y] eqn:EB.
  - apply aff_inf in EA, EB. congruence.
  - destruct (aff_coords _ _ _ EA) as (NA & XA & YA). destruct (aff_coords _ _ _ EB) as (NB & XB & YB).
    rewrite XA in XB. rewrite YA in YB. apply frac_eq in XB, YB; auto.
    assert (D1 : (pZ A | pZ B)) by (apply red_dvd; auto; [exists (pX B)|exists (pY B)]; lia).
    assert (D2 : (pZ B | pZ A)) by (apply red_dvd; auto; [exists (pX A)|exists (pY A)]; lia).
    destruct RA as [_ RA]. destruct RB as [_ RB]. now apply Z.divide_antisym_nonneg.
Qed.

(** ** points of finite order *)
Lemma least_order n Q : (1 <= n)%nat -> emul E n Q = Inf -> exists m, has_order E m Q.
Proof.
  induction n as [n IH] using lt_wf_ind. intros Hn H.
  destruct (forallb (fun j => match emul E j Q with Inf => false | _ => true end) (seq 1 (n - 1))) eqn:F.
  - exists n. split; [auto|]. split; [auto|]. intros j Hj Z. rewrite forallb_forall in F. specialize (F j). rewrite in_seq, Z in F. discriminate F. lia.
  - assert (exists j, (1 <= j < n)%nat /\ emul E j Q = Inf) as (j & Hj & Z).
    { clear - F. assert (G : exists j, In j (seq 1 (n - 1)) /\ emul E j Q = Inf).
      { induction (seq 1 (n - 1)) as [|a l IHl]; [discriminate|]. cbn [forallb] in F. destruct (emul E a Q) eqn:Ea; [exists a; split; [now left|auto]|].
        destruct (IHl F) as (j & Ij & Zj). exists j. split; [now right|auto]. }
      destruct G as (j & Ij & Zj). apply in_seq in Ij. exists j. split; [lia|auto]. }
    apply (IH j); auto; lia.
Qed.
Lemma tors_Z Q n : proj_on E Q -> reduced Q -> (1 <= n)%nat -> emul E n (aff Q) = Inf -> pZ Q <= 8.
Proof.
  intros V R Hn H. destruct (aff Q) as [|x y] eqn:A; [apply aff_inf in A; lia|].
  pose proof (aff_on_all E Q V) as O. rewrite A in O. destruct (least_order n _ Hn H) as (m & M).
  destruct (aff_coords _ _ _ A) as (NZ & XA & YA). pose proof R as [_ R0].
  assert (exists k u w, (k = 1 \/ k = 2) /\ x = (zq u / zq (k * k))%Qc /\ y = (zq w / zq (k * k * k))%Qc) as (k & u & w & Hk & Ex & Ey).
  { destruct (le_lt_dec 3 m) as [L|L].
    - destruct (torsion_integral E HD m x y O M L) as (u & w & -> & ->). exists 1, u, w. split; [auto|]. split; symmetry; apply frac_one.
    - apply (two_torsion_den E x y O). destruct M as (M1 & M2 & _). destruct (Nat.eq_dec m 1) as [->|].
      + cbn [emul] in M2. rewrite eadd_inf_r in M2. discriminate M2.
      + replace m with 2%nat in M2 by lia. exact M2. }
  rewrite XA in Ex. rewrite YA in Ey. apply frac_eq in Ex; [|auto|destruct Hk; subst; lia]. apply frac_eq in Ey; [|auto|destruct Hk; subst; lia].
  assert (D : (pZ Q | k * k * k)). { apply red_dvd; auto; [exists (u * k); transitivity (pX Q * (k * k) * k); [ring|]; rewrite Ex; ring|exists w; lia]. }
  apply Z.divide_pos_le in D; destruct Hk; subst; lia.
Qed.

(** ** the multiples of a point cannot all have small denominators without reaching zero *)
Lemma stop : exists n, (1 <= n)%nat /\ (pZ (rmul n) = 0 \/ 8 < pZ (rmul n)).
Proof.
  destruct (prime_avoid _ HD) as (p & Hp & P8 & ND). set (N := (9 * Z.to_nat p + 1)%nat).
  destruct (forallb (fun n => negb (pZ (rmul n) =? 0) && (pZ (rmul n) <=? 8)) (seq 1 (2 * N))) eqn:F.
  2:{ assert (G : exists n, In n (seq 1 (2 * N)) /\ negb (pZ (rmul n) =? 0) && (pZ (rmul n) <=? 8) = false).
      { clear - F. induction (seq 1 (2 * N)) as [|a l IHl]; [discriminate|]. cbn [forallb] in F. apply andb_false_iff in F as [F|F]; [exists a; split; [now left|auto]|].
        destruct (IHl F) as (j & Ij & Zj). exists j. split; [now right|auto]. }
      destruct G as (n & In & Q). apply in_seq in In. exists n. split; [lia|]. apply andb_false_iff in Q as [Q|Q]; lia. }
  exfalso. rewrite forallb_forall in F.
  assert (F' : forall n, (1 <= n <= 2 * N)%nat -> 0 < pZ (rmul n) <= 8).
  { intros n Hn. specialize (F n). rewrite in_seq in F. specialize (F ltac:(lia)). apply andb_prop in F as [F1 F2]. destruct (rmul_ok n) as (_ & [_ R] & _). lia. }
  clear F.
  assert (NP : forall n, (1 <= n <= 2 * N)%nat -> ~ (p | pZ (rmul n))). { intros n Hn D. specialize (F' n Hn). apply Z.divide_pos_le in D; lia. }
  assert (NI : forall n, (1 <= n <= 2 * N)%nat -> forall x y, aff (rmul n) = Aff x y -> forall u v, 0 < v -> Z.gcd u v = 1 -> x = (zq u / zq v)%Qc -> ~ (p | v)).
  { intros n Hn x y A u v Hv G Ex D. destruct (rmul_ok n) as (_ & R & _). destruct (red_den _ _ _ _ _ R A Hv G Ex) as [D' _].
    apply (NP n Hn). eapply Z.divide_trans; eauto. }
  assert (AF : forall n, (1 <= n <= 2 * N)%nat -> exists x y, emul E n (aff P) = Aff x y /\ aff (rmul n) = Aff x y).
  { intros n Hn. destruct (rmul_ok n) as (_ & _ & A). rewrite <- A. destruct (aff (rmul n)) as [|x y] eqn:Q; [|eauto].
    apply aff_inf in Q. specialize (F' n Hn). lia. }
  pose proof (aff_on_all E P HP) as OP.
  (* two multiples with the same denominator and congruent abscissae *)
  set (key := fun n => Z.to_nat (pX (rmul n) mod p * 9 + pZ (rmul n))).
  assert (exists i j, (1 <= i < j)%nat /\ (j <= N)%nat /\ key i = key j) as (i & j & Hij & HjN & K).
  { destruct (existsb (fun a => existsb (fun b => negb (a =? b)%nat && (key (1 + a) =? key (1 + b))%nat) (seq 0 N)) (seq 0 N)) eqn:X.
    - apply existsb_exists in X as (a & Ia & X). apply existsb_exists in X as (b & Ib & X). apply in_seq in Ia, Ib. apply andb_prop in X as [X1 X2].
      assert (Nab : a <> b) by (intros ->; rewrite Nat.eqb_refl in X1; discriminate X1). apply Nat.eqb_eq in X2.
      destruct (lt_dec a b); [exists (1 + a)%nat, (1 + b)%nat|exists (1 + b)%nat, (1 + a)%nat]; (split; [lia|]); (split; [lia|]); auto.
    - exfalso. assert (ND' : NoDup (map key (seq 1 N))).
      { apply (NoDup_nth _ O). rewrite map_length, seq_length. intros a b Ha Hb Kab.
        rewrite (nth_indep _ O (key O)), map_nth, seq_nth in Kab by (try rewrite map_length, seq_length; lia).
        rewrite (nth_indep _ O (key O)), map_nth, seq_nth in Kab by (try rewrite map_length, seq_length; lia).
        destruct (Nat.eq_dec a b) as [|Nab]; [auto|exfalso]. rewrite <- Bool.not_true_iff_false in X. apply X. apply existsb_exists. exists a. split; [apply in_seq; lia|].
        apply existsb_exists. exists b. split; [apply in_seq; lia|]. rewrite Kab, Nat.eqb_refl. apply Nat.eqb_neq in Nab. now rewrite Nab. }
      assert (L : (length (map key (seq 1 N)) <= length (seq 0 (9 * Z.to_nat p)))%nat).
      { apply NoDup_incl_length; [exact ND'|]. intros k Ik. apply in_map_iff in Ik as (n & <- & In). apply in_seq in In. apply in_seq.
        split; [lia|]. apply (key_lt p); [exact P8|]. apply F'. lia. }
      rewrite map_length, !seq_length in L. unfold N in L. lia. }
  assert (Hi : (1 <= i <= 2 * N)%nat) by (clear - Hij HjN; lia). assert (Hj : (1 <= j <= 2 * N)%nat) by (clear - Hij HjN; lia). assert (H2i : (1 <= 2 * i <= 2 * N)%nat) by (clear - Hij HjN; lia).
  assert (Hji : (1 <= j - i <= 2 * N)%nat) by (clear - Hij HjN; lia). assert (Hipj : (1 <= i + j <= 2 * N)%nat) by (clear - Hij HjN; lia). assert (Sij : j = (i + (j - i))%nat) by (clear - Hij; lia).
  destruct (rmul_ok i) as ((_ & Ci) & Ri & Ai). destruct (rmul_ok j) as ((_ & Cj) & Rj & Aj).
  pose proof (F' i Hi) as Zi. pose proof (F' j Hj) as Zj.
  assert (KZ : pZ (rmul i) = pZ (rmul j) /\ (p | pX (rmul i) - pX (rmul j))).
  { exact (key_inj p _ _ _ _ P8 Zi Zj K). }
  destruct KZ as [KZ KX]. clear key K. clearbody N. clear HjN.
  pose proof (NP i Hi) as NPi.
  destruct (AF i Hi) as (xi & yi & Mi & Bi). destruct (AF j Hj) as (xj & yj & Mj & Bj).
  destruct (aff_coords _ _ _ Bi) as (_ & Xi & Yi). destruct (aff_coords _ _ _ Bj) as (_ & Xj & Yj).
  set (X1 := pX (rmul i)) in *. set (Y1 := pY (rmul i)) in *. set (X2 := pX (rmul j)) in *. set (Y2 := pY (rmul j)) in *.
  rewrite <- KZ in *. set (W := pZ (rmul i)) in *. assert (NW : W <> 0) by lia. assert (NWq : zq W <> 0%Qc) by now apply zq_ne.
  pose proof (emul_on E i _ OP) as Oi. rewrite Mi in Oi. pose proof (emul_on E j _ OP) as Oj. rewrite Mj in Oj.
  set (T := 2 * Y1 + a1 E * X1 + a3 E * W).
  destruct (Zdivide_dec p T) as [PT|NT].
  - (* doubling *)
    destruct (AF (2 * i)%nat H2i) as (x2 & y2 & M2 & B2). pose proof M2 as M2'. rewrite emul_mul, Mi in M2 by auto. cbn [emul] in M2. rewrite eadd_inf_r in M2.
    set (F := 3 * X1 * X1 + 2 * a2 E * X1 * W + a4 E * W * W - a1 E * Y1 * W).
    assert (NF : ~ (p | F)). { intros PF. apply ND. apply (sing_disc E p X1 Y1 W); auto. }
    unfold eadd, qadd, add in M2. destruct (Qc_eq_dec xi xi) as [_|C]; [|now destruct C].
    destruct (Qc_eq_dec yi _) as [|NY]; [discriminate|]. unfold chord in M2. injection M2 as M2 _.
    assert (ET : fy Qcplus Qcmult (zq (a1 E)) (zq (a3 E)) xi yi = (zq T / zq W)%Qc).
    { unfold fy, T. rewrite Xi, Yi, !zq_add, !zq_mul, zq_2. field. auto. }
    assert (NT0 : T <> 0).
    { intros T0. apply NY. transitivity (fy Qcplus Qcmult (zq (a1 E)) (zq (a3 E)) xi yi - yi - zq (a1 E) * xi - zq (a3 E))%Qc; [unfold fy; ring|]. rewrite ET, T0, zq_0. field. auto. }
    destruct (qc_frac x2) as (u & v & Hv & G & Eu).
    apply (NI (2 * i)%nat H2i x2 y2 B2 u v Hv G Eu).
    assert (NTq : zq T <> 0%Qc) by now apply zq_ne.
    assert (EF : fx 1%Qc Qcplus Qcmult Qcminus (zq (a1 E)) (zq (a2 E)) (zq (a4 E)) xi yi = (zq F / (zq W * zq W))%Qc).
    { unfold fx, F. rewrite Xi, Yi, zq_sub, !zq_add, !zq_mul, zq_2, zq_3. field. auto. }
    refine (den_of_slope p (zq F / zq (T * W))%Qc F (T * W) (a2 E) (2 * X1) W (a1 E) u v x2 Hp NW _ Hv _ NF NPi eq_refl _ Eu).
    + apply zne; auto.
    + now apply Z.divide_mul_l.
    + rewrite <- M2, ET, EF, Xi. rewrite !zq_mul, zq_2. field. auto.
  - (* sum or difference *)
    assert (NX : xi <> xj).
    { intros EX. assert (SG : emul E i (aff P) = emul E j (aff P) \/ emul E i (aff P) = eneg E (emul E j (aff P))).
      { rewrite Mi, Mj. clear Xj. subst xj. destruct (Qc_eq_dec yi (- yj - zq (a1 E) * xi - zq (a3 E))%Qc) as [Ev|Nv]; [right; rewrite Ev; reflexivity|left].
        f_equal. exact (proj1 (@qsame_x (zq (a1 E)) (zq (a2 E)) (zq (a3 E)) (zq (a4 E)) (zq (a6 E)) xi yi yj Oi Oj Nv)). }
      destruct SG as [SG|SG].
      - destruct (AF (j - i)%nat Hji) as (a & b & M & _). assert (Q : emul E (j - i) (aff P) = Inf); [|congruence].
        apply (eadd_cancel E HD (emul E i (aff P))); auto using emul_on; [exact I|]. rewrite <- emul_add, eadd_inf_r by auto. rewrite <- Sij. congruence.
      - destruct (AF (i + j)%nat Hipj) as (a & b & M & _). rewrite emul_add, SG, eadd_comm, eadd_neg_r in M by auto using emul_on, eneg_on. discriminate M. }
    assert (NX' : X1 - X2 <> 0). { intros Q. apply NX. rewrite Xi, Xj. replace X2 with X1 by (clear - Q; lia). reflexivity. }
    (* one of the slopes has p below *)
    assert (PY : (p | (Y1 - Y2) * (Y1 + Y2 + a1 E * X2 + a3 E * W))).
    { destruct KX as [c Hc]. assert (Q : (p | W * ((Y1 - Y2) * (Y1 + Y2 + a1 E * X2 + a3 E * W)))).
      { exists (c * ((X1 * X1 + X1 * X2 + X2 * X2) + a2 E * (X1 + X2) * W + a4 E * W * W - a1 E * Y1 * W)).
        transitivity ((X1 - X2) * ((X1 * X1 + X1 * X2 + X2 * X2) + a2 E * (X1 + X2) * W + a4 E * W * W - a1 E * Y1 * W)); [|rewrite Hc; ring].
        transitivity ((Y1 ^ 2 * W + a1 E * X1 * Y1 * W + a3 E * Y1 * W ^ 2) - (Y2 ^ 2 * W + a1 E * X2 * Y2 * W + a3 E * Y2 * W ^ 2) - (X1 - X2) * a1 E * Y1 * W); [ring|].
        rewrite Ci, Cj. ring. }
      destruct (prime_mult p Hp _ _ Q); [contradiction|auto]. }
    assert (CH : forall Y' y', y' = (zq Y' / zq W)%Qc -> ~ (p | Y1 - Y') -> forall n y3 x3, (1 <= n <= 2 * N)%nat -> emul E n (aff P) = Aff x3 y3 ->
      forall y4, eadd E (Aff xi yi) (Aff xj y') = Aff x3 y4 -> False).
    { intros Y' y' EY NY n y3 x3 Hn Mn y4 M3. unfold eadd, qadd, add in M3. destruct (Qc_eq_dec xi xj) as [|_]; [contradiction|]. unfold chord in M3. injection M3 as M3 _.
      destruct (qc_frac x3) as (u & v & Hv & G & Eu). destruct (rmul_ok n) as (_ & _ & An). rewrite Mn in An. apply (NI n Hn x3 y3 An u v Hv G Eu).
      refine (den_of_slope p (zq (Y1 - Y') / zq (X1 - X2))%Qc (Y1 - Y') (X1 - X2) (a2 E) (X1 + X2) W (a1 E) u v x3 Hp NW NX' Hv KX NY NPi eq_refl _ Eu).
      rewrite <- M3, EY, Xi, Xj, Yi. rewrite !zq_sub, !zq_add. assert (N12 : (zq X1 - zq X2)%Qc <> 0%Qc) by (rewrite <- zq_sub; now apply zq_ne).
      field. auto. }
    destruct (Zdivide_dec p (Y1 - Y2)) as [D1|N1].
    + assert (N2 : ~ (p | Y1 - (- Y2 - a1 E * X2 - a3 E * W))).
      { intros D2. apply NT. unfold T. replace (2 * Y1 + a1 E * X1 + a3 E * W) with ((Y1 - Y2) + (Y1 - (- Y2 - a1 E * X2 - a3 E * W)) + a1 E * (X1 - X2)) by ring.
        apply Z.divide_add_r; [now apply Z.divide_add_r|now apply Z.divide_mul_r]. }
      destruct (AF (j - i)%nat Hji) as (x3 & y3 & M3 & _). pose proof (emul_on E (j - i) _ OP) as O3. pose proof (emul_on E i _ OP) as OI.
      assert (Q : eadd E (emul E i (aff P)) (eneg E (emul E j (aff P))) = eneg E (emul E (j - i) (aff P))).
      { rewrite Sij at 1. rewrite emul_add, eneg_add, eadd_assoc, eadd_neg_r by auto using eneg_on. reflexivity. }
      rewrite Mi, Mj, M3 in Q. refine (CH (- Y2 - a1 E * X2 - a3 E * W) _ _ N2 (j - i)%nat y3 x3 Hji M3 _ Q).
      rewrite Xj, Yj, !zq_sub, zq_opp, !zq_mul. field. auto.
    + destruct (AF (i + j)%nat Hipj) as (x3 & y3 & M3 & _). pose proof M3 as M4. rewrite emul_add, Mi, Mj in M4 by auto.
      exact (CH Y2 yj Yj N1 (i + j)%nat y3 x3 Hipj M3 y3 M4).
Qed.

(** ** order(P) *)
Lemma order_at n : (1 <= n)%nat -> pZ (rmul n) = 0 \/ 8 < pZ (rmul n) -> reduced P -> ord P = 0 -> forall fuel, (n <= fuel)%nat -> exists o, p_order E fuel P = Ok (o, Pt (pX P) (pY P) (pZ P) o) /\
  ((0 < o /\ is_order E o P) \/ (o = -1 /\ forall n, (1 <= n)%nat -> emul E n (aff P) <> Inf)).
Proof.
  intros Hn ST RP O0 fuel Hf.
  assert (OK0 : ord_ok E P) by (intros Q; lia).
  assert (exists o P', p_order E fuel P = Ok (o, P') /\ (o <= 0 -> o = -1 /\ forall k, (1 <= k)%nat -> emul E k (aff P) <> Inf)) as (o & P' & EO & NO).
  { unfold p_order. rewrite O0. cbn [Z.eqb negb]. destruct (Z.eqb_spec (pZ P) 0) as [EZ|NZ]; [eexists; eexists; split; [reflexivity|lia]|].
    destruct (Z.ltb_spec 8 (pZ P)).
    { eexists. eexists. split; [reflexivity|]. intros _. split; [auto|]. intros k Hk Q. pose proof (tors_Z P k HP RP Hk Q). lia. }
    pose proof (aff_on_all E P HP) as OP.
    set (Inv := fun s : point * Z => let '(q, k) := s in 1 <= k <= Z.of_nat n /\ proj_on E q /\ reduced q /\ aff q = emul E (Z.to_nat k) (aff P)).
    set (Post := fun s : point * Z => let '(q, k) := s in Inv s /\ (pZ q = 0 \/ 8 < pZ q)).
    destruct (while_total (p_order_step E P) Inv Post (fun s => Z.of_nat n - snd s)) with (n := fuel) (s := (P, 1)) as (r & Er & HPost).
    - intros [q k] (K & _). cbn [snd]. lia.
    - intros [q k] (K & V & R & A). unfold p_order_step. destruct (Z.eqb_spec (pZ q) 0) as [EQ|NQ]; cbn [negb andb].
      { left. eexists. split; [reflexivity|]. split; [split; [auto|]; split; auto|auto]. }
      destruct (Z.leb_spec (pZ q) 8) as [L8|G8].
      2:{ left. eexists. split; [reflexivity|]. split; [split; [auto|]; split; auto|]. right. lia. }
      right. eexists. split; [reflexivity|]. destruct (addeq_spec E q P V HP) as [SA SV].
      assert (KN : k <> Z.of_nat n).
      { intros ->. rewrite Nat2Z.id in A. destruct (rmul_ok n) as (_ & R' & A'). pose proof (red_same _ _ R R' (eq_trans A (eq_sym A'))). lia. }
      cbn [snd]. split; [|lia]. split; [lia|]. split; [auto|]. split.
      + unfold p_addeq. cbv zeta. apply mkpoint_ok. apply (add_spec E q P V HP).
      + replace (Z.to_nat (k + 1)) with (Z.to_nat k + 1)%nat by lia. rewrite SA, A, emul_add by auto. cbn [emul]. now rewrite eadd_inf_r.
    - split; [lia|]. split; [auto|]. split; [auto|]. change (Z.to_nat 1) with 1%nat. cbn [emul]. now rewrite eadd_inf_r.
    - cbn [snd]. assert (Z.of_nat n < 2 ^ Z.of_nat n) by (apply Z.pow_gt_lin_r; lia). assert (2 ^ Z.of_nat n <= 2 ^ Z.of_nat fuel) by (apply Z.pow_le_mono_r; lia). lia.
    - rewrite Er, bind_Ok. destruct r as [q k]. destruct HPost as ((K & V & R & A) & Q). eexists. eexists. split; [reflexivity|]. cbv beta.
      destruct (Z.eqb_spec (pZ q) 0) as [EQ|NQ]; [lia|]. intros _. split; [auto|]. intros i Hi Z0.
      assert (pZ q <= 8); [|lia]. apply (tors_Z q i); auto. rewrite A, <- emul_mul, Nat.mul_comm, emul_mul, Z0, emul_inf by auto. reflexivity. }
  destruct (p_order_spec E HD fuel P o P' HP OK0 EO) as [-> SP]. exists o. split; [exact EO|].
  destruct (Z_lt_le_dec 0 o) as [L|L]; [left; auto|right; auto].
Qed.
Theorem order_total : reduced P -> ord P = 0 -> exists f0, forall fuel, (f0 <= fuel)%nat -> exists o, p_order E fuel P = Ok (o, Pt (pX P) (pY P) (pZ P) o) /\
  ((0 < o /\ is_order E o P) \/ (o = -1 /\ forall n, (1 <= n)%nat -> emul E n (aff P) <> Inf)).
Proof. intros RP O0. destruct stop as (n & Hn & ST). exists n. now apply order_at. Qed.
End OnE.
