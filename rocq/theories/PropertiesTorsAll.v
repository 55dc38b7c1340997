(** C82: the whole torsion subgroup, and the points dividing a point *)
From Coq Require Import ZArith Znumtheory Lia List Bool QArith Qcanon Arith Permutation Sorted FinFun.
From Verif Require Import Base RatModel MArithModel CurveModel CurveProofs DivPolModel PointsModel GroupLaw QcGroup PointsProofs PointsGroup PointsMore NagLutz OrderTot DivPolQ PropertiesDivPol RootsModel RootsProofs TorsModel TorsProofs TorsAll TorsDiv PropertiesRoots PropertiesTors.
Import ListNotations.
Open Scope Z_scope.
Local Notation ALL introots E fuel := (torsion_points introots E (sb2 E) (sb4 E) (sb6 E) fuel).
Local Notation DIVP introots roots E fuel m P := (division_points introots roots E (sb2 E) (sb4 E) (sb6 E) fuel m P).

(** torsion_points returns every rational torsion point exactly once, sorted.  Mazur's
    theorem (which the code relies on for its lists of exponents) is the hypothesis [mazur] *)
Theorem C82_torsion_points_partial introots E : introots_right introots -> sdisc E <> 0 -> mazur E ->
  Z.odd (a1 E) = true \/ Z.odd (a3 E) = true \/ a1 E = 0 /\ a3 E = 0 ->
  exists f0, forall fuel, (f0 <= fuel)%nat -> exists l, ALL introots E fuel = Ok l /\
    tors_list E (fun T => exists n, (1 <= n)%nat /\ emul E n T = Inf) l.
Proof.
  intros IR HD MZ HA. destruct (torsion_points_ok E HD introots IR HA MZ) as (f0 & H). exists f0. intros fuel Hf. destruct (H fuel Hf) as (l & El & TL & _). exists l. split; [exact El|exact TL].
Qed.
(** division_points of a torsion point *)
Theorem C82_division_torsion introots roots E m P : introots_right introots -> roots_right roots -> sdisc E <> 0 -> mazur E ->
  Z.odd (a1 E) = true \/ Z.odd (a3 E) = true \/ a1 E = 0 /\ a3 E = 0 ->
  proj_on E P -> reduced P -> ord P = 0 \/ is_order E (ord P) P -> (exists n, (1 <= n)%nat /\ emul E n (aff P) = Inf) -> m <> 0 -> - max32 <= m <= max32 ->
  exists f0, forall fuel, (f0 <= fuel)%nat -> exists l, DIVP introots roots E fuel m P = Ok l /\ div_list E m P l.
Proof. intros IR RR HD MZ HA VP RP OP TP. apply div_torsion; auto. split; auto. Qed.
(** division_points of a point of infinite order: no other hypothesis *)
Theorem C82_division_infinite introots roots E m P : roots_right roots -> sdisc E <> 0 ->
  proj_on E P -> reduced P -> ord P = 0 \/ ord P = -1 -> (forall n, (1 <= n)%nat -> emul E n (aff P) <> Inf) -> 1 <= m <= max32 ->
  exists f0, forall fuel, (f0 <= fuel)%nat -> exists l, DIVP introots roots E fuel m P = Ok l /\ div_list E m P l.
Proof. intros RR HD. now apply div_infinite. Qed.

(** for m <= 0 the recursion of div_pol_odd never ends *)
Lemma num_negative a1 a2 a3 a4 a6 fuel n : n <= 0 -> mul_by_n_num a1 a2 a3 a4 a6 fuel n = OutOfFuel.
Proof.
  intros Hn. unfold mul_by_n_num. cbv zeta. destruct (Z.eq_dec n 0) as [->|N].
  - destruct fuel as [|f]; [reflexivity|]. change (0 + 1) with 1. change (0 - 1) with (-1). rewrite (C78_negative a1 a2 a3 a4 a6 (S f) (-1)) by lia. reflexivity.
  - now rewrite (C78_negative a1 a2 a3 a4 a6 fuel n) by lia.
Qed.
Theorem C82_division_negative E P : sdisc E <> 0 -> proj_on E P -> reduced P -> ord P = 0 \/ ord P = -1 ->
  (forall n, (1 <= n)%nat -> emul E n (aff P) <> Inf) ->
  exists f0, forall introots roots fuel m, (f0 <= fuel)%nat -> m <= 0 -> DIVP introots roots E fuel m P = OutOfFuel.
Proof.
  intros HD VP RP OP NT. destruct (infinite_order E HD P VP RP OP NT) as (f0 & H). exists f0. intros introots roots fuel m Hf Hm.
  unfold division_points. rewrite H, bind_Ok by auto. cbv beta iota. cbn [Z.ltb Z.compare]. unfold division_points_X_pol. now rewrite num_negative.
Qed.

(** ** where torsion_points is wrong: a1 even, not 0.  The group is cyclic of order 6; the
    function takes (1,0), of order 3, and (-1,0), of order 6, for points of order 2 *)
Lemma two_e2 introots fuel exact : introots_right introots -> two_torsion introots e2 (sb2 e2) (sb4 e2) (sb6 e2) fuel exact = two_torsion bf_introots e2 (sb2 e2) (sb4 e2) (sb6 e2) fuel exact.
Proof. intros IR. unfold two_torsion. cbn [a1 a2 a3 a4 a6 e2 Z.odd orb]. rewrite (introots_det introots); auto. exists 3%nat. cbn. lia. Qed.
Lemma m_det introots E fuel m exact p : introots_right introots -> 3 <= m -> div_pol (a1 E) (a2 E) (a3 E) (a4 E) (a6 E) fuel m = Ok p -> (exists j, coeff p j <> 0) ->
  m_torsion introots E (sb2 E) (sb4 E) (sb6 E) fuel m exact = m_torsion bf_introots E (sb2 E) (sb4 E) (sb6 E) fuel m exact.
Proof.
  intros IR Hm Ep Hp. unfold m_torsion. cbv zeta. rewrite Z.abs_eq by lia. destruct (Z.eqb_spec m 2); [lia|]. destruct (Z.eqb_spec m 0); [lia|]. destruct (Z.eqb_spec m 1); [lia|].
  rewrite Ep, !bind_Ok. now rewrite (introots_det introots).
Qed.
Theorem C82_torsion_points_refuted : exists E, sdisc E <> 0 /\ forall introots, introots_right introots ->
  exists fuel l, ALL introots E fuel = Ok l /\ length l = 12%nat /\ ~ NoDup (map aff l).
Proof.
  exists e2. split; [vm_compute; discriminate|]. intros introots IR.
  assert (Q : ALL introots e2 20 = ALL bf_introots e2 20).
  { unfold torsion_points. rewrite two_e2 by auto. assert (T2 : exists l, two_torsion bf_introots e2 (sb2 e2) (sb4 e2) (sb6 e2) 20 false = Ok l /\ length l = 4%nat) by (eexists; split; vm_compute; reflexivity).
    destruct T2 as (l & E2 & L4). rewrite E2, !bind_Ok. cbv zeta. rewrite L4. change (Z.of_nat 4 =? 2) with false. change (Z.of_nat 4 =? 4) with true. cbv iota.
    assert (F : find_exponent introots e2 (sb2 e2) (sb4 e2) (sb6 e2) 20 [8; 6; 4] = find_exponent bf_introots e2 (sb2 e2) (sb4 e2) (sb6 e2) 20 [8; 6; 4]); [|now rewrite F].
    destruct (div_pol 2 0 0 (-1) 0 20 8) as [p8| | |] eqn:E8; try (vm_compute in E8; discriminate E8). destruct (div_pol 2 0 0 (-1) 0 20 6) as [p6| | |] eqn:E6; try (vm_compute in E6; discriminate E6).
    assert (N8 : exists j, coeff p8 j <> 0) by (exists 0%nat; vm_compute in E8; injection E8 as <-; discriminate).
    assert (N6 : exists j, coeff p6 j <> 0) by (exists 0%nat; vm_compute in E6; injection E6 as <-; discriminate).
    cbn [find_exponent]. rewrite (m_det introots e2 20 8 true p8), (m_det introots e2 20 6 true p6) by (auto; lia).
    assert (M8 : m_torsion bf_introots e2 (sb2 e2) (sb4 e2) (sb6 e2) 20 8 true = Ok []) by (vm_compute; reflexivity). rewrite M8, !bind_Ok.
    assert (M6 : exists P l6, m_torsion bf_introots e2 (sb2 e2) (sb4 e2) (sb6 e2) 20 6 true = Ok (P :: l6)) by (eexists; eexists; vm_compute; reflexivity). destruct M6 as (P & l6 & M6). rewrite M6, !bind_Ok. reflexivity. }
  exists 20%nat. rewrite Q. assert (R : exists a b r, ALL bf_introots e2 20 = Ok (a :: b :: r) /\ length (a :: b :: r) = 12%nat /\ pZ a = 0 /\ pZ b = 0) by (do 3 eexists; split; [vm_compute; reflexivity|vm_compute; auto]).
  destruct R as (a & b & r & R & L & ZA & ZB). exists (a :: b :: r). split; [exact R|]. split; [exact L|]. apply aff_inf in ZA, ZB. cbn [map]. intros N. apply NoDup_cons_iff in N as [N _]. apply N. left. congruence.
Qed.

(** ** examples: a product of two groups of order 2, and a cyclic group of order 5 *)
Definition e32a := Cv 0 0 0 (-1) 0.
Lemma aff_z u w : Aff (zq u) (zq w) = aff (Pt u w 1 0).
Proof. unfold aff. cbn [pX pY pZ Z.eqb]. now rewrite !frac_one. Qed.
Lemma z_on E u w : eon_pt E (Aff (zq u) (zq w)) -> w ^ 2 + a1 E * u * w + a3 E * w = u ^ 3 + a2 E * u ^ 2 + a4 E * u + a6 E.
Proof.
  intros O. assert (V : proj_on E (mkpoint u w 1)) by (apply mk_valid; [lia|now rewrite !frac_one]). destruct V as [_ V]. unfold mkpoint, reduce3 in V. cbn [Z.eqb Pos.eqb pX pY pZ] in V. clear - V. lia.
Qed.
(** the double of an integral point, when integral *)
Lemma dbl_int E u w c v : sdisc E <> 0 -> eon_pt E (Aff (zq u) (zq w)) -> emul E 2 (Aff (zq u) (zq w)) = Aff (zq c) v ->
  forall p q, mul_by_n_num (a1 E) (a2 E) (a3 E) (a4 E) (a6 E) 10 2 = Ok p -> mul_by_n_den (a1 E) (a2 E) (a3 E) (a4 E) (a6 E) 10 2 = Ok q -> c * heval q u = heval p u.
Proof.
  intros HD O D p q Ep Eq. destruct (C78_mul_by_n E 2 10 HD ltac:(lia) ltac:(cbn; lia)) as (p' & q' & Ep' & Eq' & S). rewrite Ep in Ep'. rewrite Eq in Eq'. injection Ep' as <-. injection Eq' as <-.
  destruct (S _ _ O) as (S1 & S2 & _). change (Z.to_nat 2) with 2%nat in S1, S2. specialize (S2 _ _ D).
  destruct (peval_int p u) as (a & Ea & Va). destruct (peval_int q u) as (b & Eb & Vb). fold (heval p u) in Va. fold (heval q u) in Vb. rewrite <- Va, <- Vb. rewrite Ea, Eb in S2. rewrite Eb in S1.
  assert (NB : b <> 0). { intros ->. rewrite (proj1 S1 zq_0) in D. discriminate. }
  rewrite <- (frac_one c) in S2. apply frac_eq in S2; lia.
Qed.
Lemma integral_double E x y : sdisc E <> 0 -> eon_pt E (Aff x y) -> tors E (Aff x y) ->
  (forall x' y', eon_pt E (Aff x' y') -> emul E 2 (Aff x' y') = Inf -> exists c, x' = zq c) ->
  emul E 2 (Aff x y) = Inf \/ exists u w c v, x = zq u /\ y = zq w /\ emul E 2 (Aff x y) = Aff (zq c) v.
Proof.
  intros HD O T I2.
  assert (W : forall x y, eon_pt E (Aff x y) -> tors E (Aff x y) -> emul E 2 (Aff x y) = Inf \/ exists u w, x = zq u /\ y = zq w).
  { intros x0 y0 O0 T0. destruct (tors_order E _ T0) as (o & Ho). destruct (Z_le_gt_dec 3 o) as [L|G].
    - right. apply (torsion_integral E HD (Z.to_nat o)); auto; [|lia]. apply pt_order_ho. rewrite Z2Nat.id by lia. exact Ho.
    - left. destruct Ho as (P0 & Z0 & _). assert (o = 1 \/ o = 2) as [->| ->] by lia; [|exact Z0]. change (Z.to_nat 1) with 1%nat in Z0. cbn [emul] in Z0. rewrite eadd_inf_r in Z0. discriminate Z0. }
  destruct (W x y O T) as [H|(u & w & Ex & Ey)]; [now left|]. pose proof (emul_on E 2 _ O) as O2. pose proof (tors_mul E HD 2 _ O T) as T2.
  destruct (emul E 2 (Aff x y)) as [|x2 y2]; [now left|right]. exists u, w. destruct (W x2 y2 O2 T2) as [H|(c & v & -> & _)].
  - destruct (I2 x2 y2 O2 H) as (c & ->). exists c, y2. auto.
  - exists c, y2. auto.
Qed.
Lemma two_x E x y : sdisc E <> 0 -> eon_pt E (Aff x y) -> emul E 2 (Aff x y) = Inf -> peval (div_pol_2 (a1 E) (a2 E) (a3 E) (a4 E) (a6 E)) x = 0%Qc /\ (y + y + zq (a1 E) * x + zq (a3 E))%Qc = 0%Qc.
Proof. intros HD O T. apply two_char; auto. Qed.
Lemma e32a_two x y : eon_pt e32a (Aff x y) -> emul e32a 2 (Aff x y) = Inf -> exists u, x = zq u /\ y = zq 0 /\ (u = 0 \/ u = 1 \/ u = -1).
Proof.
  intros O T. destruct (two_x e32a x y ltac:(vm_compute; discriminate) O T) as [R Y]. cbn [a1 a2 a3 a4 a6 e32a] in *. change (zq 0) with 0%Qc in *.
  assert (Y0 : y = 0%Qc). { assert (Q : ((1 + 1) * y)%Qc = 0%Qc) by (rewrite <- Y; ring). apply Qcmult_integral in Q as [Q|Q]; [discriminate|exact Q]. }
  assert (Q : (x * ((x - 1) * (x + 1)))%Qc = 0%Qc).
  { assert (Q : ((1 + 1 + 1 + 1) * (x * ((x - 1) * (x + 1))))%Qc = 0%Qc).
    { rewrite <- R. change (div_pol_2 0 0 0 (-1) 0) with [0; -4; 0; 4]. cbn [peval]. change (zq 0) with 0%Qc. change (zq 4) with (1 + 1 + 1 + 1)%Qc. change (zq (-4)) with (- (1 + 1 + 1 + 1))%Qc. ring. }
    apply Qcmult_integral in Q as [Q|Q]; [discriminate|exact Q]. }
  apply Qcmult_integral in Q as [Q|Q]; [exists 0; auto|]. apply Qcmult_integral in Q as [Q|Q].
  - exists 1. split; [|auto]. change (zq 1) with 1%Qc. replace x with (x - 1 + 1)%Qc by ring. rewrite Q. ring.
  - exists (-1). split; [|auto]. change (zq (-1)) with (- (1))%Qc. replace x with (x + 1 - 1)%Qc by ring. rewrite Q. ring.
Qed.
Lemma e32a_tors T : eon_pt e32a T -> tors e32a T -> T = Inf \/ exists u, T = Aff (zq u) (zq 0) /\ (u = 0 \/ u = 1 \/ u = -1).
Proof.
  intros O TT. destruct T as [|x y]; [now left|right]. assert (HD : sdisc e32a <> 0) by (vm_compute; discriminate).
  destruct (integral_double e32a x y HD O TT) as [Z|(u & w & c & v & -> & -> & D)].
  - intros x' y' O' Z'. destruct (e32a_two x' y' O' Z') as (c & -> & _). now exists c.
  - destruct (e32a_two x y O Z) as (u & -> & -> & H). exists u. auto.
  - exfalso. pose proof (dbl_int e32a u w c v HD O D [1; 0; 2; 0; 1] [0; -4; 0; 4] eq_refl eq_refl) as Q. cbn [heval fold_right] in Q.
    assert (D1 : (u | 1)). { exists (c * (4 * (u * u) - 4) - u * (u * u) - 2 * u). lia. }
    apply Z.divide_1_r in D1 as [->| ->]; lia.
Qed.
Lemma pick_mul E n P R : sdisc E <> 0 -> proj_on E P -> 0 <= n <= max32 -> p_mul E n P = Ok R -> emul E (Z.to_nat n) (aff P) = aff R.
Proof. intros HD V Hn ER. destruct (p_mul_spec E HD n P V ltac:(unfold max32 in *; lia)) as (R' & E' & _ & A). rewrite ER in E'. injection E' as <-. destruct (Z.ltb_spec n 0); [lia|]. now symmetry. Qed.
Lemma z_ne u w u' w' : u <> u' \/ w <> w' -> Aff (zq u) (zq w) <> Aff (zq u') (zq w').
Proof. intros H Q. apply Aff_inj in Q as [Q1 Q2]. apply zq_inj in Q1, Q2. destruct H; congruence. Qed.
Lemma mazur_e32a : mazur e32a.
Proof.
  assert (HD : sdisc e32a <> 0) by (vm_compute; discriminate). right. exists 2%nat, (Aff (zq 1) (zq 0)), (Aff (zq 0) (zq 0)).
  assert (O1 : eon_pt e32a (Aff (zq 1) (zq 0))) by (apply Qc_is_canon; vm_compute; reflexivity). assert (O0 : eon_pt e32a (Aff (zq 0) (zq 0))) by (apply Qc_is_canon; vm_compute; reflexivity).
  assert (T1 : emul e32a 2 (Aff (zq 1) (zq 0)) = Inf) by (vm_compute; reflexivity). assert (T0 : emul e32a 2 (Aff (zq 0) (zq 0)) = Inf) by (vm_compute; reflexivity).
  split; [now left|]. split; [exact O1|]. split; [apply order_two; auto; split; [exact T1|discriminate]|]. split; [exact O0|]. split; [exact T0|].
  assert (PO : pt_order e32a (Z.of_nat 2) (Aff (zq 1) (zq 0))) by (apply order_two; auto; split; [exact T1|discriminate]). split.
  - intros k Q. rewrite (mul_mod e32a HD 2 _ O1 PO) in Q. pose proof (Nat.mod_upper_bound k 2 ltac:(lia)). destruct (k mod 2)%nat as [|[|?]]; [discriminate| |lia].
    cbn [emul] in Q. rewrite eadd_inf_r in Q. revert Q. apply z_ne. lia.
  - intros Q OQ TQ. destruct (e32a_tors Q OQ TQ) as [->|(u & -> & [-> |[-> | ->]])].
    + exists 0%nat. left. reflexivity.
    + exists 0%nat. right. cbn [emul]. now rewrite eadd_inf_r.
    + exists 1%nat. left. cbn [emul]. now rewrite eadd_inf_r.
    + exists 1%nat. right. cbn [emul]. rewrite eadd_inf_r, !aff_z. rewrite <- (proj1 (add_spec e32a (Pt 0 0 1 0) (Pt 1 0 1 0) ltac:(split; [cbn; lia|reflexivity]) ltac:(split; [cbn; lia|reflexivity]))). vm_compute (p_add _ _ _). reflexivity.
Qed.
(** y^2+y = x^3-x^2 *)
Lemma e11_two x y : eon_pt e11 (Aff x y) -> emul e11 2 (Aff x y) = Inf -> False.
Proof.
  intros O T. destruct (two_x e11 x y ltac:(vm_compute; discriminate) O T) as [R _]. change (div_pol_2 _ _ _ _ _) with [1; 0; -4; 4] in R. cbn [peval] in R.
  destruct (qc_frac x) as (u & v & Hv & G & ->).
  assert (Q : 4 * u * u * u - 4 * u * u * v + v * v * v = 0).
  { assert (NV : zq v <> 0%Qc) by (apply zq_ne; lia). assert (Q : (zq (4 * u * u * u - 4 * u * u * v + v * v * v) / zq (v * v * v))%Qc = (zq 0 / zq 1)%Qc).
    { rewrite frac_one. change (zq 0) with 0%Qc. rewrite <- R. change (zq (-4)) with (- zq 4)%Qc. rewrite zq_add, zq_sub, !zq_mul. change (zq 0) with 0%Qc. change (zq 1) with 1%Qc. field. auto. }
    apply frac_eq in Q; [lia|nia|lia]. }
  assert (P2 : prime 2) by apply prime_2.
  assert (Dv : (2 | v)). { assert (D : (2 | v * (v * v))) by (exists (2 * (u * u * v - u * u * u)); lia). apply prime_mult in D as [D|D]; auto. apply prime_mult in D as [D|D]; auto. }
  destruct Dv as [v' ->]. assert (Du : (2 | u)). { assert (D : (2 | u * (u * u))) by (exists (u * u * v' - v' * v' * v'); lia). apply prime_mult in D as [D|D]; auto. apply prime_mult in D as [D|D]; auto. }
  assert (D : (2 | Z.gcd u (v' * 2))) by (apply Z.gcd_greatest; [auto|now exists v']). rewrite G in D. apply Z.divide_1_r in D. lia.
Qed.
Lemma e11_tors T : eon_pt e11 T -> tors e11 T -> T = Inf \/ exists u w, T = Aff (zq u) (zq w) /\ (u = 0 \/ u = 1) /\ (w = 0 \/ w = -1).
Proof.
  intros O TT. destruct T as [|x y]; [now left|right]. assert (HD : sdisc e11 <> 0) by (vm_compute; discriminate).
  destruct (integral_double e11 x y HD O TT) as [Z|(u & w & c & v & -> & -> & D)].
  - intros x' y' O' Z'. destruct (e11_two x' y' O' Z').
  - destruct (e11_two x y O Z).
  - exists u, w. split; [reflexivity|]. pose proof (dbl_int e11 u w c v HD O D [1; -2; 0; 0; 1] [1; 0; -4; 4] eq_refl eq_refl) as Q. cbn [heval fold_right] in Q.
    pose proof (z_on e11 u w O) as C. cbn [a1 a2 a3 a4 a6 e11] in C. assert (Et : exists t, t = 2 * w + 1) by eauto. destruct Et as (t & Et).
    assert (Ct : t * t = 4 * u * u * u - 4 * u * u + 1) by (rewrite Et; lia).
    assert (Dt : (t * t | 11)).
    { exists ((-16 - 32 * u + 48 * u * u) * c + (27 - 4 * u * u - 12 * u * u * u)). rewrite Ct. transitivity ((-16 - 32 * u + 48 * u * u) * (u * u * u * u - 2 * u + 1) + (27 - 4 * u * u - 12 * u * u * u) * (4 * u * u * u - 4 * u * u + 1)); [ring|].
      replace (u * u * u * u - 2 * u + 1) with (c * (4 * u * u * u - 4 * u * u + 1)) by lia. ring. }
    assert (T1 : t * t = 1).
    { pose proof (Z.divide_pos_le (t * t) 11 eq_refl Dt) as B. assert (B3 : -3 <= t <= 3) by (clear - B; nia). assert (Ht : t = 1 \/ t = -1 \/ t = 3 \/ t = -3) by (clear - Et B3; lia). clear - Ht Dt. destruct Dt as [k Hk]. destruct Ht as [->|[->|[->| ->]]]; lia. }
    rewrite T1 in Ct. assert (U : u * u * (u - 1) = 0) by lia. assert (t = 1 \/ t = -1) as Ht by (clear - T1; nia). split; [|lia].
    apply Z.mul_eq_0 in U as [U|U]; [|lia]. apply Z.mul_eq_0 in U. lia.
Qed.
Lemma mazur_e11 : mazur e11.
Proof.
  assert (HD : sdisc e11 <> 0) by (vm_compute; discriminate). left. exists 5%nat, (Aff (zq 0) (zq 0)).
  assert (V : proj_on e11 (Pt 0 0 1 0)) by (split; [cbn; lia|reflexivity]).
  assert (M : forall n R, 0 <= n <= max32 -> p_mul e11 n (Pt 0 0 1 0) = Ok R -> emul e11 (Z.to_nat n) (Aff (zq 0) (zq 0)) = aff R) by (intros n R Hn ER; rewrite aff_z; now apply pick_mul).
  pose proof (M 2 (Pt 1 (-1) 1 0) ltac:(unfold max32; lia) ltac:(vm_compute; reflexivity)) as M2. pose proof (M 3 (Pt 1 0 1 0) ltac:(unfold max32; lia) ltac:(vm_compute; reflexivity)) as M3.
  pose proof (M 4 (Pt 0 (-1) 1 0) ltac:(unfold max32; lia) ltac:(vm_compute; reflexivity)) as M4. pose proof (M 5 infpt ltac:(unfold max32; lia) ltac:(vm_compute; reflexivity)) as M5.
  rewrite <- aff_z in M2, M3, M4. change (Z.to_nat 2) with 2%nat in M2. change (Z.to_nat 3) with 3%nat in M3. change (Z.to_nat 4) with 4%nat in M4. change (Z.to_nat 5) with 5%nat in M5. change (aff infpt) with (@Inf Qc) in M5.
  assert (M1 : emul e11 1 (Aff (zq 0) (zq 0)) = Aff (zq 0) (zq 0)) by (cbn [emul]; apply eadd_inf_r).
  split; [cbn [In]; tauto|]. split; [rewrite aff_z; now apply aff_on_all|]. split.
  - split; [lia|]. change (Z.to_nat (Z.of_nat 5)) with 5%nat. split; [exact M5|]. intros j Hj. assert (J : (j = 1 \/ j = 2 \/ j = 3 \/ j = 4)%nat) by lia. destruct J as [->|[->|[->| ->]]]; rewrite ?M1, ?M2, ?M3, ?M4; discriminate.
  - intros Q OQ TQ. destruct (e11_tors Q OQ TQ) as [->|(u & w & -> & [->| ->] & [->| ->])]; [exists 0%nat; reflexivity|exists 1%nat|exists 4%nat|exists 3%nat|exists 2%nat]; now symmetry.
Qed.
(** the rational roots by trial *)
Fixpoint scl (f : poly) (d : Z) : poly := match f with [] => [] | a :: g => a * d ^ Z.of_nat (length g) :: scl g d end.
Lemma scl_eval f n d : 0 < d -> (zq (heval (scl f d) n) * zq d)%Qc = (zq (d ^ Z.of_nat (length f)) * peval f (zq n / zq d))%Qc.
Proof.
  intros D. assert (ND : zq d <> 0%Qc) by (apply zq_ne; lia). induction f as [|a f IH]; [cbn [scl heval fold_right peval length]; change (zq 0) with 0%Qc; ring|].
  cbn [scl heval fold_right peval length]. fold (heval (scl f d) n). rewrite Nat2Z.inj_succ, Z.pow_succ_r by lia. rewrite zq_add, !zq_mul.
  transitivity (zq a * zq (d ^ Z.of_nat (length f)) * zq d + zq n * (zq (heval (scl f d) n) * zq d))%Qc; [ring|]. rewrite IH. field. auto.
Qed.
Lemma scl_root f n d : 0 < d -> (peval f (zq n / zq d)%Qc = 0%Qc <-> heval (scl f d) n = 0).
Proof.
  intros D. pose proof (scl_eval f n d D) as Q. assert (ND : zq d <> 0%Qc) by (apply zq_ne; lia). assert (NP : zq (d ^ Z.of_nat (length f)) <> 0%Qc) by (apply zq_ne, Z.pow_nonzero; lia). split; intros H.
  - rewrite H, Qcmult_0_r in Q. apply Qcmult_integral in Q as [Q|Q]; [|contradiction]. apply zq_inj. now rewrite zq_0.
  - rewrite H, zq_0, Qcmult_0_l in Q. symmetry in Q. apply Qcmult_integral in Q as [Q|Q]; [contradiction|exact Q].
Qed.
Lemma scl_nz f d : 0 < d -> (exists j, coeff f j <> 0) -> exists j, coeff (scl f d) j <> 0.
Proof.
  intros D. induction f as [|a f IH]; intros (j & Hj); [exfalso; apply Hj; unfold coeff; now destruct j|]. destruct j as [|j].
  - exists 0%nat. unfold coeff in *. cbn [nth scl] in *. apply Z.neq_mul_0. split; [auto|]. apply Z.pow_nonzero; lia.
  - destruct (IH (ex_intro _ j Hj)) as (k & Hk). exists (S k). exact Hk.
Qed.
Definition bf_roots (f : poly) : res (list rat) :=
  let B := fold_right (fun a r => Z.abs a + r) 0 f in
  Ok (isort brat_lt (flat_map (fun d => match bf_introots (scl f d) with Ok l => map (fun n => (n, d)) (filter (fun n => Z.gcd n d =? 1) l) | _ => [] end) (map Z.of_nat (seq 1 (Z.to_nat B))))).
Lemma bf_roots_ok : roots_right bf_roots.
Proof.
  intros f Hf. unfold bf_roots. cbv zeta. set (B := fold_right (fun a r => Z.abs a + r) 0 f). set (h := fun d : Z => match bf_introots (scl f d) with Ok l => map (fun n => (n, d)) (filter (fun n => Z.gcd n d =? 1) l) | _ => [] end). set (r := flat_map h _). eexists. split; [reflexivity|].
  assert (HB : forall j, Z.abs (coeff f j) <= B).
  { unfold B. clear. induction f as [|a f IH]; intros [|j]; unfold coeff in *; cbn [nth fold_right]; try lia; [pose proof (IH (length f)); lia|specialize (IH j); lia]. }
  assert (Hh : forall d n d', 0 < d -> In (n, d') (h d) <-> d' = d /\ Z.gcd n d = 1 /\ peval f (zq n / zq d)%Qc = 0%Qc).
  { intros d n d' D. unfold h. destruct (bf_introots_ok (scl f d) (scl_nz f d D Hf)) as (l & El & Il & _). rewrite El, in_map_iff. rewrite scl_root by auto. split.
    - intros (n' & Q & I). injection Q as -> <-. apply filter_In in I as [I G]. apply Il in I. apply peval_zq in I. split; [auto|]. split; [lia|exact I].
    - intros (-> & G & R). exists n. split; [auto|]. apply filter_In. split; [|lia]. apply Il. apply peval_zq. exact R. }
  assert (Ir : forall n d, In (n, d) r <-> 0 < d /\ Z.gcd n d = 1 /\ peval f (zq n / zq d)%Qc = 0%Qc).
  { intros n d. unfold r. rewrite in_flat_map. split.
    - intros (d0 & I & J). apply in_map_iff in I as (i & <- & Ii). apply in_seq in Ii. apply Hh in J as (-> & G & R); [|lia]. split; [lia|auto].
    - intros (D & G & R). exists d. split; [|apply Hh; auto]. apply in_map_iff. exists (Z.to_nat d). split; [lia|]. apply in_seq.
      destruct (pdeg_ld f) as [[_ Z0]|(k & _ & NK & LK)]; [destruct Hf as (j & Hj); exfalso; apply Hj, Z0|]. pose proof (root_den f k _ n d D G LK R) as Dv. apply Z.divide_abs_r, Z.divide_pos_le in Dv; [|lia].
      specialize (HB k). unfold coeff in HB. unfold DivPolProofs.co in *. lia. }
  split; [intros n d; rewrite <- Ir; split; apply Permutation_in; [|apply Permutation_sym]; apply isort_perm|].
  apply (isort_sorted brat_lt (fun a b => fst a * snd b < fst b * snd a) (fun a => 0 < snd a /\ Z.gcd (fst a) (snd a) = 1)); auto.
  - intros [a b] [c' d] _ _ H. unfold brat_lt in H. cbn. lia.
  - intros [a b] [c' d] [O1 G1] [O2 G2] H NE. unfold brat_lt in H. cbn [fst snd] in *. assert (a * d <> c' * b); [|lia]. intros Q. apply NE.
    assert (D1 : (b | d)). { apply (Z.gauss b a); [exists c'; lia|now rewrite Z.gcd_comm]. }
    assert (D2 : (d | b)). { apply (Z.gauss d c'); [exists a; lia|now rewrite Z.gcd_comm]. }
    assert (b = d) by (apply Z.divide_antisym_nonneg; auto; lia). subst d. f_equal. nia.
  - intros [x1 y1] [x2 y2] [x3 y3] [O1 _] [O2 _] [O3 _]. cbn [fst snd] in *. intros A C.
    apply (Z.mul_lt_mono_pos_r y2); [auto|]. clear - A C O1 O2 O3. assert (x1 * y2 * y3 < x2 * y1 * y3) by now apply Z.mul_lt_mono_pos_r. assert (x2 * y3 * y1 < x3 * y2 * y1) by now apply Z.mul_lt_mono_pos_r. nia.
  - apply Forall_forall. intros [n d] I. apply Ir in I. cbn. tauto.
  - unfold r. assert (G : forall l, (forall d, In d l -> 0 < d) -> NoDup l -> NoDup (flat_map h l)).
    { induction l as [|d l IH]; intros P N; cbn [flat_map]; [constructor|]. apply NoDup_cons_iff in N as [ND N]. pose proof (P d (or_introl eq_refl)) as Pd.
      assert (N1 : NoDup (h d)).
      { unfold h. destruct (bf_introots_ok (scl f d) (scl_nz f d Pd Hf)) as (l0 & El & _ & SS). rewrite El. apply FinFun.Injective_map_NoDup; [intros x y Q; now injection Q|]. apply NoDup_filter.
        clear - SS. induction SS as [|x l SS IH F]; constructor; [|exact IH]. intros I. rewrite Forall_forall in F. specialize (F _ I). lia. }
      specialize (IH ltac:(intros; apply P; now right) N). assert (DJ : forall x, In x (h d) -> In x (flat_map h l) -> False).
      { intros [n d'] I J. apply Hh in I as (-> & _); [|auto]. apply in_flat_map in J as (d2 & I2 & J). apply Hh in J as (-> & _); [contradiction|]. apply P. now right. }
      clear - N1 IH DJ. induction (h d) as [|x k IHk]; [exact IH|]. apply NoDup_cons_iff in N1 as [NX N1]. cbn [app]. constructor.
      - intros J. apply in_app_or in J as [J|J]; [contradiction|]. apply (DJ x); [now left|auto].
      - apply IHk; auto. intros y I1 I2. apply (DJ y); [now right|auto]. }
    apply G; [|apply FinFun.Injective_map_NoDup; [intros x y; apply Nat2Z.inj|apply seq_NoDup]]. intros d I. apply in_map_iff in I as (i & <- & Ii). apply in_seq in Ii. lia.
Qed.
Example C82_ex : introots_right bf_introots /\ mazur e11 /\ mazur e32a /\ sdisc e11 <> 0 /\ sdisc e32a <> 0 /\
  ALL bf_introots e11 10 = Ok [infpt; Pt 0 (-1) 1 5; Pt 0 0 1 0; Pt 1 (-1) 1 0; Pt 1 0 1 0] /\
  ALL bf_introots e32a 10 = Ok [infpt; Pt (-1) 0 1 0; Pt 0 0 1 0; Pt 1 0 1 0].
Proof.
  split; [apply bf_introots_ok|]. split; [apply mazur_e11|]. split; [apply mazur_e32a|]. split; [vm_compute; discriminate|]. split; [vm_compute; discriminate|]. split; vm_compute; reflexivity.
Qed.
(** on y^2+y = x^3-x the point (0,0) has infinite order and (1,0) is its double *)
Definition e37 := Cv 0 0 1 (-1) 0.
Example C82_ex_infinite : roots_right bf_roots /\ sdisc e37 <> 0 /\ proj_on e37 (Pt 0 0 1 0) /\ reduced (Pt 0 0 1 0) /\
  (forall n, (1 <= n)%nat -> emul e37 n (aff (Pt 0 0 1 0)) <> Inf) /\
  DIVP bf_introots bf_roots e37 10 2 (Pt 0 0 1 0) = Ok [] /\
  DIVP bf_introots bf_roots e37 10 2 (Pt 1 0 1 0) = Ok [Pt 0 0 1 0].
Proof.
  assert (HD : sdisc e37 <> 0) by (vm_compute; discriminate). assert (V : proj_on e37 (Pt 0 0 1 0)) by (split; [cbn; lia|reflexivity]).
  split; [apply bf_roots_ok|]. split; [exact HD|]. split; [exact V|]. split; [split; [reflexivity|cbn; lia]|]. split; [|split; vm_compute; reflexivity].
  intros n Hn Z0. pose proof (pick_mul e37 7 (Pt 0 0 1 0) (Pt (-15) 8 27 0) HD V ltac:(unfold max32; lia) ltac:(vm_compute; reflexivity)) as M7. 
  assert (V7 : proj_on e37 (Pt (-15) 8 27 0)) by (split; [cbn; lia|reflexivity]).
  assert (B : pZ (Pt (-15) 8 27 0) <= 8); [|cbn in B; lia].
  apply (tors_Z e37 HD _ n); auto; [split; [reflexivity|cbn; lia]|]. rewrite <- M7, <- (emul_mul e37 HD), Nat.mul_comm, (emul_mul e37 HD), Z0, emul_inf by now apply aff_on_all. reflexivity.
Qed.

Print Assumptions C82_torsion_points_partial.
Print Assumptions C82_torsion_points_refuted.
Print Assumptions C82_division_torsion.
Print Assumptions C82_division_infinite.
Print Assumptions C82_division_negative.
