(** The division polynomials over Q *)
From Coq Require Import Ring Field ZArith Lia List Bool Arith QArith Qcanon.
From Verif Require Import Base CurveModel CurveProofs DivPolModel DivPolProofs GroupLaw QcGroup PointsProofs PointsGroup DivPolEds DivPolCurve DivPolEval DivPolGen DivPolTwo.
Import ListNotations.
Open Scope Z_scope.

(** value of an integer polynomial, constant term first *)
Fixpoint peval (p : list Z) (x : Qc) : Qc := match p with [] => 0%Qc | c :: q => (zq c + x * peval q x)%Qc end.

Lemma even_eq n : 0 <= n -> (Z.rem n 2 =? 1) = negb (Nat.even (Z.to_nat n)) /\ (Z.rem n 2 =? 0) = Nat.even (Z.to_nat n).
Proof.
  intros Hn. rewrite Z.rem_mod_nonneg by lia. destruct (Nat.Even_or_Odd (Z.to_nat n)) as [[k Hk]|[k Hk]]; rewrite Hk.
  - replace n with (Z.of_nat k * 2) by lia. rewrite Z.mod_mul by lia. rewrite Nat.even_mul. split; reflexivity.
  - replace n with (1 + Z.of_nat k * 2) by lia. rewrite Z.mod_add by lia. rewrite Nat.even_add, Nat.even_mul. split; reflexivity.
Qed.
Section OnE.
Variable E : curve.
Hypothesis HD : sdisc E <> 0.
Local Notation A1 := (zq (a1 E)).
Local Notation A2 := (zq (a2 E)).
Local Notation A3 := (zq (a3 E)).
Local Notation A4 := (zq (a4 E)).
Local Notation A6 := (zq (a6 E)).
Local Notation dp := (dp (a1 E) (a2 E) (a3 E) (a4 E) (a6 E)).
Local Notation P2 := (div_pol_2 (a1 E) (a2 E) (a3 E) (a4 E) (a6 E)).
Lemma zq_inj0 a : zq a = 0%Qc -> a = 0.
Proof. intros H. apply zq_inj. now rewrite zq_0. Qed.
Lemma pev_peval p x : pev Qc 0%Qc Qcplus Qcmult zq p x = peval p x.
Proof. induction p; cbn [pev peval]; [reflexivity|]. now rewrite IHp. Qed.
Lemma peval_mul p q x : peval (pmul p q) x = (peval p x * peval q x)%Qc.
Proof. rewrite <- !pev_peval. exact (pev_mul Qc _ _ _ _ _ _ _ _ Qcft zq zq_add zq_mul p q x). Qed.
Lemma peval_sub p q x : peval (psub p q) x = (peval p x - peval q x)%Qc.
Proof. rewrite <- !pev_peval. exact (pev_sub Qc _ _ _ _ _ _ _ _ Qcft zq zq_1 zq_add zq_mul p q x). Qed.
Lemma peval_scal c p x : peval (pscal c p) x = (zq c * peval p x)%Qc.
Proof. rewrite <- !pev_peval. exact (pev_scal Qc _ _ _ _ _ _ _ _ Qcft zq zq_mul c p x). Qed.
Lemma disc_E : discZ (a1 E) (a2 E) (a3 E) (a4 E) (a6 E) <> 0.
Proof.
  intros H. apply HD. rewrite <- H. unfold discZ, sdisc, sb2, sb4, sb6, sb8. ring.
Qed.
Variables x y : Qc.
Hypothesis Pon : eon_pt E (Aff x y).
Local Notation P := (Aff x y).
Definition dv (n : nat) : Qc := pev Qc 0%Qc Qcplus Qcmult zq (dp n) x.
Lemma dv_eq n : dv n = peval (dp n) x. Proof. apply pev_peval. Qed.
Definition pv (n : nat) : Qc := psi Qc Qcplus Qcmult A1 A3 x y dv n.
Lemma emul_mulP n : emul E n P = mulP Qc 1%Qc Qcplus Qcmult Qcminus Qcopp Qcdiv Qc_eq_dec A1 A2 A3 A4 x y n.
Proof. induction n; cbn [emul mulP]; [reflexivity|]. now rewrite IHn. Qed.
Local Notation t := (qfy A1 A3 x y).
Lemma dv_dsys : dsys Qc 0%Qc 1%Qc Qcmult Qcminus (T2 Qc 1%Qc Qcplus Qcmult A1 A2 A3 A4 A6 x) dv.
Proof. exact (dp_dsys Qc _ _ _ _ _ _ _ _ Qcft zq zq_1 zq_add zq_mul (a1 E) (a2 E) (a3 E) (a4 E) (a6 E) x). Qed.
Lemma dv_3 : dv 3 = D3 Qc 1%Qc Qcplus Qcmult Qcminus A1 A2 A3 A4 A6 x.
Proof. exact (ev_d3 Qc _ _ _ _ _ _ _ _ Qcft zq zq_1 zq_add zq_mul (a1 E) (a2 E) (a3 E) (a4 E) (a6 E) x). Qed.
Lemma dv_4 : dv 4 = D4 Qc 1%Qc Qcplus Qcmult Qcminus A1 A2 A3 A4 A6 x.
Proof. exact (ev_d4 Qc _ _ _ _ _ _ _ _ Qcft zq zq_1 zq_add zq_mul (a1 E) (a2 E) (a3 E) (a4 E) (a6 E) x). Qed.
Lemma pv_eds n d : (1 <= n)%nat -> (1 <= d)%nat ->
  (pv (2 * n + d)%nat * pv d = pv (n + d + 1)%nat * pv (n + d - 1)%nat * (pv n * pv n) - pv (n + 1)%nat * pv (n - 1)%nat * (pv (n + d)%nat * pv (n + d)%nat))%Qc.
Proof.
  intros Hn Hd.
  pose proof (ev_Ipol Qc _ _ _ _ _ _ _ _ Qcft zq zq_1 zq_add zq_mul (a1 E) (a2 E) (a3 E) (a4 E) (a6 E) x y n d Pon Hn Hd) as I.
  rewrite (pev_zero Qc _ _ _ _ _ _ _ _ Qcft zq zq_add) in I by exact (Ipol_zero_Z disc_E Hn Hd).
  symmetry in I. exact (DivPolEds.k_sub Qc _ _ _ _ _ _ _ _ Qcft _ _ I).
Qed.
Lemma pv_spec n : (1 <= n)%nat ->
  (pv n = 0%Qc <-> emul E n P = Inf) /\ (forall u v, emul E n P = Aff u v -> (pv (n + 1)%nat * pv (n - 1)%nat = pv n * pv n * (x - u))%Qc).
Proof.
  intros Hn. rewrite emul_mulP.
  exact (psi_spec Qc _ _ _ _ _ _ _ _ Qcft Qc_eq_dec A1 A2 A3 A4 A6 (qadd_assoc (PointsGroup.nonsing E HD)) (PointsGroup.nonsing E HD) x y Pon dv dv_dsys dv_3 dv_4 pv_eds n Hn).
Qed.
Lemma two_t : emul E 2 P = Inf <-> t = 0%Qc.
Proof.
  rewrite emul_mulP. exact (two_inf Qc _ _ _ _ _ _ _ _ Qcft Qc_eq_dec A1 A2 A3 A4 A6 x y Pon).
Qed.
Lemma t2_P2 : (t * t = peval P2 x)%Qc.
Proof.
  rewrite <- pev_peval. rewrite (ev_P2 Qc _ _ _ _ _ _ _ _ Qcft zq zq_1 zq_add zq_mul).
  exact (t_T2 Qc _ _ _ _ _ _ _ _ Qcft A1 A2 A3 A4 A6 x y Pon).
Qed.
Lemma zq_S n : zq (Z.of_nat (S n)) = (1 + zq (Z.of_nat n))%Qc.
Proof. rewrite Nat2Z.inj_succ. unfold Z.succ. rewrite Z.add_comm, zq_add. reflexivity. Qed.
Lemma Q_ne a b : a <> 0%Qc -> b <> 0%Qc -> (a * b)%Qc <> 0%Qc.
Proof. intros H G Z. destruct (Qcmult_integral _ _ Z); contradiction. Qed.
Lemma kpow_ne v n : v <> 0%Qc -> kpow Qc 1%Qc Qcmult v n <> 0%Qc.
Proof. intros H. induction n; cbn [kpow]; [discriminate|]. now apply Q_ne. Qed.
(** at a point of order 2 *)
Lemma two_ne j : (1 <= j)%nat -> t = 0%Qc -> dv (2 * j) <> 0%Qc.
Proof.
  intros Hj Ht. set (w := qfx A1 A2 A4 x y).
  assert (Nw : w <> 0%Qc). { destruct (PointsGroup.nonsing E HD x y Pon) as [N|N]; [contradiction|exact N]. }
  assert (ET : T2 Qc 1%Qc Qcplus Qcmult A1 A2 A3 A4 A6 x = 0%Qc).
  { pose proof (t_T2 Qc _ _ _ _ _ _ _ _ Qcft A1 A2 A3 A4 A6 x y Pon) as Q. rewrite <- Q. change (t * t = 0)%Qc. rewrite Ht. ring. }
  pose proof dv_dsys as S. rewrite ET in S.
  assert (E3 : dv 3 = (- ((- w) * (- w)))%Qc).
  { rewrite dv_3, (D3_fx Qc _ _ _ _ _ _ _ _ Qcft A1 A2 A3 A4 A6 x y Pon Ht). fold (qfx A1 A2 A4 x y). fold w. ring. }
  assert (E4 : dv 4 = ((1 + 1) * ((- w) * (- w) * (- w)))%Qc).
  { rewrite dv_4. unfold w, qfx, fx, D4, b2, b4, b6, b8. pose proof Pon as Q. unfold eon_pt, qon_pt, on_pt, on in Q.
    assert (H3 : A3 = (- y - y - A1 * x)%Qc). { transitivity (t - y - y - A1 * x)%Qc; [unfold qfy, fy; ring|]. rewrite Ht. ring. }
    assert (H6 : A6 = (y * y + A1 * x * y + A3 * y - x * x * x - A2 * x * x - A4 * x)%Qc). { rewrite Q. ring. }
    rewrite H6. rewrite H3. ring. }
  rewrite (proj1 (two_val Qc _ _ _ _ _ _ _ _ Qcft (fun n => zq (Z.of_nat n)) zq_0 zq_S dv (- w)%Qc S E3 E4 (2 * j)%nat ltac:(lia)) j eq_refl).
  apply Q_ne; [intros Z; apply zq_inj0 in Z; lia|]. apply kpow_ne. intros Z. apply Nw. transitivity (- - w)%Qc; [ring|]. rewrite Z. ring.
Qed.

Lemma pv_even n : Nat.even n = true -> pv n = (t * dv n)%Qc.
Proof. unfold pv, psi. intros ->. reflexivity. Qed.
Lemma pv_odd n : Nat.even n = false -> pv n = dv n.
Proof. unfold pv, psi. intros ->. reflexivity. Qed.
(** the polynomial without the factor *)
Lemma dv_zero n : (1 <= n)%nat -> (dv n = 0%Qc <-> emul E n P = Inf /\ (Nat.even n = false \/ emul E 2 P <> Inf)).
Proof.
  intros Hn. destruct (pv_spec n Hn) as [S _]. destruct (Nat.even n) eqn:EV.
  - rewrite (pv_even n EV) in S. rewrite two_t. split.
    + intros Z. split; [apply S; rewrite Z; ring|right]. intros T. apply Nat.even_spec in EV. destruct EV as [j ->]. apply (two_ne j); auto. lia.
    + intros [I [Q|N]]; [discriminate|]. apply S in I. destruct (Qcmult_integral _ _ I); [contradiction|auto].
  - rewrite (pv_odd n EV) in S. split; [intros Z; split; [now apply S|now left]|]. intros [I _]. now apply S.
Qed.
Local Notation num f n := (mul_by_n_num (a1 E) (a2 E) (a3 E) (a4 E) (a6 E) f n).
Local Notation den f n := (mul_by_n_den (a1 E) (a2 E) (a3 E) (a4 E) (a6 E) f n).
Lemma den_ok f n : 1 <= n -> (Z.to_nat n < f)%nat -> exists p, den f n = Ok p /\ peval p x = (pv (Z.to_nat n) * pv (Z.to_nat n))%Qc.
Proof.
  intros Hn Hf. unfold mul_by_n_den. rewrite dpo_dp, bind_Ok by lia. eexists. split; [reflexivity|].
  destruct (even_eq n ltac:(lia)) as [-> _]. destruct (Nat.even (Z.to_nat n)) eqn:EV; cbn [negb].
  - rewrite !peval_mul, <- t2_P2, !(pv_even _ EV). rewrite !dv_eq. ring.
  - rewrite peval_mul, !(pv_odd _ EV). rewrite !dv_eq. reflexivity.
Qed.
Lemma num_ok f n : 1 <= n -> (Z.to_nat n + 1 < f)%nat -> exists p, num f n = Ok p /\
  peval p x = (x * (pv (Z.to_nat n) * pv (Z.to_nat n)) - pv (Z.to_nat n + 1)%nat * pv (Z.to_nat n - 1)%nat)%Qc.
Proof.
  intros Hn Hf. unfold mul_by_n_num. cbv zeta. rewrite (dpo_dp _ _ _ _ _ _ n), bind_Ok by lia. rewrite (dpo_dp _ _ _ _ _ _ (n + 1)), bind_Ok by lia.
  rewrite (dpo_dp _ _ _ _ _ _ (n - 1)), bind_Ok by lia. eexists. split; [reflexivity|].
  replace (Z.to_nat (n + 1)) with (Z.to_nat n + 1)%nat by lia. replace (Z.to_nat (n - 1)) with (Z.to_nat n - 1)%nat by lia.
  set (m := Z.to_nat n). assert (Hm : (1 <= m)%nat) by (unfold m; lia).
  destruct (even_eq n ltac:(lia)) as [_ ->]. fold m.
  assert (Q1 : Nat.even (m + 1) = negb (Nat.even m)) by (rewrite Nat.even_add; now destruct (Nat.even m)).
  assert (Q2 : Nat.even (m - 1) = negb (Nat.even m)). { destruct m as [|k]; [lia|]. replace (S k - 1)%nat with k by lia. rewrite Nat.even_succ, <- Nat.negb_even. now destruct (Nat.even k). }
  assert (EX : peval pX x = x) by (unfold pX; cbn [peval]; rewrite zq_0, zq_1; ring).
  destruct (Nat.even m) eqn:EV; cbn [negb] in Q1, Q2.
  - rewrite (pv_even _ EV), (pv_odd _ Q1), (pv_odd _ Q2), peval_sub, !peval_mul, <- t2_P2, EX. rewrite !dv_eq. ring.
  - rewrite (pv_odd _ EV), (pv_even _ Q1), (pv_even _ Q2), peval_sub, !peval_mul, <- t2_P2, EX. rewrite !dv_eq. ring.
Qed.
(** numerator and denominator of the abscissa of nP *)
Theorem num_den f n : 1 <= n -> (Z.to_nat n + 1 < f)%nat -> exists p q, num f n = Ok p /\ den f n = Ok q /\
  (peval q x = 0%Qc <-> emul E (Z.to_nat n) P = Inf) /\
  (forall u v, emul E (Z.to_nat n) P = Aff u v -> peval p x = (u * peval q x)%Qc) /\
  (emul E (Z.to_nat n) P = Inf -> peval p x <> 0%Qc).
Proof.
  intros Hn Hf. destruct (num_ok f n Hn Hf) as (p & Ep & Vp). destruct (den_ok f n Hn ltac:(lia)) as (q & Eq & Vq).
  exists p, q. split; [auto|]. split; [auto|]. destruct (pv_spec (Z.to_nat n) ltac:(lia)) as [S B]. set (m := Z.to_nat n) in *.
  assert (Hm : (1 <= m)%nat) by (unfold m; lia).
  assert (Zq : peval q x = 0%Qc <-> emul E m P = Inf).
  { rewrite Vq, <- S. split; [intros Z; destruct (Qcmult_integral _ _ Z); auto|intros ->; ring]. }
  split; [auto|]. split.
  - intros u v Huv. rewrite Vp, Vq, (B u v Huv). ring.
  - intros I. rewrite Vp. apply S in I as I0. rewrite I0.
    assert (N1 : pv (m + 1) <> 0%Qc).
    { intros Z. apply (pv_spec (m + 1)) in Z; [|lia]. rewrite emul_add, I in Z by auto. discriminate Z. }
    assert (N2 : pv (m - 1) <> 0%Qc).
    { destruct (Nat.eq_dec m 1) as [E1|]; [rewrite E1 in I; discriminate I|].
      intros Z. apply (pv_spec (m - 1)) in Z; [|lia]. replace m with (m - 1 + 1)%nat in I by lia. rewrite emul_add, Z in I by auto. discriminate I. }
    intros Z. apply (Q_ne _ _ N1 N2). transitivity (x * (0 * 0) - (x * (0 * 0) - pv (m + 1)%nat * pv (m - 1)%nat))%Qc; [ring|]. rewrite Z. ring.
Qed.
End OnE.
