(** C78: the division polynomials *)
From Coq Require Import ZArith Lia List Bool QArith Qcanon.
From Verif Require Import Base CurveModel CurveProofs DivPolModel GroupLaw QcGroup PointsProofs PointsGroup DivPolProofs DivPolQ.
Import ListNotations.
Open Scope Z_scope.

(** [peval p x]: the value at x of the polynomial with coefficients p, constant term
    first; [emul E n P]: the n-fold sum of P for the chord and tangent law; a point is
    [Inf] or [Aff x y], [eon_pt E] says that it is on E. *)
Local Notation DP E f n := (div_pol (a1 E) (a2 E) (a3 E) (a4 E) (a6 E) f n).
Local Notation NUM E f n := (mul_by_n_num (a1 E) (a2 E) (a3 E) (a4 E) (a6 E) f n).
Local Notation DEN E f n := (mul_by_n_den (a1 E) (a2 E) (a3 E) (a4 E) (a6 E) f n).
Local Notation DIV E f n x z := (division_points_X_pol (a1 E) (a2 E) (a3 E) (a4 E) (a6 E) f n x z).

(** the rational points at whose abscissa the n-th polynomial vanishes are those of order
    dividing n; for even n > 2, those which are not of order 2 *)
Theorem C78_roots E n fuel : sdisc E <> 0 -> 1 <= n -> (Z.to_nat n < fuel)%nat ->
  exists p, DP E fuel n = Ok p /\
    forall x y, eon_pt E (Aff x y) ->
      (peval p x = 0%Qc <->
       emul E (Z.to_nat n) (Aff x y) = Inf /\ (n = 2 \/ Z.odd n = true \/ emul E 2 (Aff x y) <> Inf)).
Proof.
  intros HD Hn Hf. unfold div_pol. destruct (Z.eqb_spec n 2) as [->|N2].
  - eexists. split; [reflexivity|]. intros x y H. rewrite <- (t2_P2 E x y H). change (Z.to_nat 2) with 2%nat. rewrite (two_t E x y H).
    split; [intros Z; split; [|auto]; destruct (Qcmult_integral _ _ Z); auto|intros [-> _]; ring].
  - rewrite dpo_dp by lia. eexists. split; [reflexivity|]. intros x y H. rewrite <- dv_eq, (dv_zero E HD x y H) by lia.
    assert (Q : Nat.even (Z.to_nat n) = negb (Z.odd n)).
    { pose proof (even_eq n ltac:(lia)) as [_ Q]. rewrite <- Q, Z.rem_mod_nonneg, Zmod_odd by lia. now destruct (Z.odd n). }
    rewrite Q. destruct (Z.odd n); cbn [negb]; split; intros [A B]; (split; [exact A|]).
    + auto.
    + auto.
    + destruct B as [B|B]; [discriminate B|auto].
    + destruct B as [B|[B|B]]; [contradiction|discriminate B|auto].
Qed.

(** degree and leading coefficient *)
Theorem C78_degree E n fuel : 1 <= n -> (Z.to_nat n < fuel)%nat ->
  exists p, DP E fuel n = Ok p /\
    let D := if n =? 2 then 3 else if Z.odd n then (n * n - 1) / 2 else (n * n - 4) / 2 in
    nth (Z.to_nat D) p 0 = (if n =? 2 then 4 else if Z.odd n then n else n / 2) /\
    forall j, D < Z.of_nat j -> nth j p 0 = 0.
Proof.
  intros Hn Hf. unfold div_pol. destruct (Z.eqb_spec n 2) as [->|N2].
  - eexists. split; [reflexivity|]. split; [reflexivity|]. intros [|[|[|[|j]]]] Hj; try lia. now destruct j.
  - rewrite dpo_dp by lia. eexists. split; [reflexivity|]. cbv zeta.
    destruct (dp_ld (a1 E) (a2 E) (a3 E) (a4 E) (a6 E) (Z.to_nat n) ltac:(lia)) as [EV OD].
    destruct (Z.odd n) eqn:Q.
    + apply Z.odd_spec in Q. destruct Q as [j Hj]. destruct (OD (Z.to_nat j) ltac:(lia)) as [L1 L2]. unfold co in *.
      replace ((n * n - 1) / 2) with (2 * (j * j) + 2 * j) by (apply Z.div_unique_exact; nia).
      replace (Z.to_nat (2 * (j * j) + 2 * j)) with (2 * (Z.to_nat j * Z.to_nat j) + 2 * Z.to_nat j)%nat by nia.
      split; [rewrite L1; lia|]. intros i Hi. apply L2. nia.
    + assert (Q' : Z.even n = true) by (rewrite <- Z.negb_odd, Q; reflexivity). apply Z.even_spec in Q'. destruct Q' as [j Hj].
      destruct (EV (Z.to_nat j) ltac:(lia)) as [L1 L2]. unfold co in *.
      replace ((n * n - 4) / 2) with (2 * (j * j) - 2) by (apply Z.div_unique_exact; nia).
      replace (n / 2) with j by (apply Z.div_unique_exact; lia).
      replace (Z.to_nat (2 * (j * j) - 2)) with (2 * (Z.to_nat j * Z.to_nat j) - 2)%nat by nia.
      split; [rewrite L1; lia|]. intros i Hi. apply L2. nia.
Qed.

(** multiplication by n on abscissae *)
Theorem C78_mul_by_n E n fuel : sdisc E <> 0 -> 1 <= n -> (Z.to_nat n + 1 < fuel)%nat ->
  exists p q, NUM E fuel n = Ok p /\ DEN E fuel n = Ok q /\
    forall x y, eon_pt E (Aff x y) ->
      (peval q x = 0%Qc <-> emul E (Z.to_nat n) (Aff x y) = Inf) /\
      (forall u v, emul E (Z.to_nat n) (Aff x y) = Aff u v -> u = (peval p x / peval q x)%Qc) /\
      (peval q x = 0%Qc -> peval p x <> 0%Qc).
Proof.
  intros HD Hn Hf.
  assert (TN : exists p, NUM E fuel n = Ok p).
  { unfold mul_by_n_num. cbv zeta. rewrite (dpo_dp _ _ _ _ _ _ n), bind_Ok by lia. rewrite (dpo_dp _ _ _ _ _ _ (n + 1)), bind_Ok by lia.
    rewrite (dpo_dp _ _ _ _ _ _ (n - 1)), bind_Ok by lia. eauto. }
  assert (TD : exists q, DEN E fuel n = Ok q). { unfold mul_by_n_den. rewrite dpo_dp, bind_Ok by lia. eauto. }
  destruct TN as [p Tp]. destruct TD as [q Tq]. exists p, q. split; [exact Tp|]. split; [exact Tq|]. intros x y H.
  destruct (num_den E HD x y H fuel n Hn Hf) as (p' & q' & Ep & Eq & S1 & S2 & S3).
  rewrite Tp in Ep. rewrite Tq in Eq. injection Ep as <-. injection Eq as <-. split; [exact S1|]. split.
  - intros u v Q. rewrite (S2 u v Q). assert (N : peval q x <> 0%Qc) by (intros Z; apply S1 in Z; congruence). field. exact N.
  - intros Z. apply S3. now apply S1.
Qed.

(** the polynomial for dividing a point P by n: P is given by its abscissa xP/zP, or is
    zero when zP is *)
Theorem C78_division_points E n fuel xP zP : sdisc E <> 0 -> 1 <= n -> (Z.to_nat n + 1 < fuel)%nat ->
  exists r, DIV E fuel n xP zP = Ok r /\
    forall x y, eon_pt E (Aff x y) ->
      (zP <> 0 -> forall w, eon_pt E (Aff (zq xP / zq zP)%Qc w) ->
         (peval r x = 0%Qc <-> emul E (Z.to_nat n) (Aff x y) = Aff (zq xP / zq zP)%Qc w \/
                               emul E (Z.to_nat n) (Aff x y) = eneg E (Aff (zq xP / zq zP)%Qc w))) /\
      (zP = 0 -> xP <> 0 -> (peval r x = 0%Qc <-> emul E (Z.to_nat n) (Aff x y) = Inf)).
Proof.
  intros HD Hn Hf. destruct (C78_mul_by_n E n fuel HD Hn Hf) as (p & q & Ep & Eq & S). unfold division_points_X_pol. rewrite Ep, bind_Ok, Eq, bind_Ok.
  eexists. split; [reflexivity|]. intros x y H. destruct (S x y H) as (S1 & S2 & S3). rewrite peval_sub, !peval_scal.
  pose proof (emul_on E (Z.to_nat n) (Aff x y) H) as O.
  split.
  - intros NZ w Hw. assert (NZ' : zq zP <> 0%Qc) by (now apply zq_ne).
    destruct (emul E (Z.to_nat n) (Aff x y)) as [|u v] eqn:M.
    + assert (Q0 : peval q x = 0%Qc) by (now apply S1). rewrite Q0. split.
      * intros Z. exfalso. apply (S3 Q0). destruct (Qcmult_integral (zq zP) (peval p x)); [|contradiction|auto]. rewrite <- Z. ring.
      * intros [Z|Z]; discriminate Z.
    + assert (Q0 : peval q x <> 0%Qc) by (intros Z; apply S1 in Z; discriminate Z). pose proof (S2 u v eq_refl) as EU.
      assert (R : (zq zP * peval p x - zq xP * peval q x = zq zP * peval q x * (u - zq xP / zq zP))%Qc) by (rewrite EU; field; auto).
      rewrite R. split.
      * intros Z. assert (Eu : u = (zq xP / zq zP)%Qc).
        { destruct (Qcmult_integral _ _ Z) as [Z1|Z1]; [destruct (Qcmult_integral _ _ Z1); contradiction|].
          transitivity (u - zq xP / zq zP + zq xP / zq zP)%Qc; [ring|]. rewrite Z1. ring. }
        rewrite <- Eu in *. destruct (Qc_eq_dec v (- w - zq (a1 E) * u - zq (a3 E))%Qc) as [Ev|Nv].
        -- right. cbn. now rewrite <- Ev.
        -- left. f_equal. exact (proj1 (@qsame_x (zq (a1 E)) (zq (a2 E)) (zq (a3 E)) (zq (a4 E)) (zq (a6 E)) u v w O Hw Nv)).
      * intros [Z|Z]; injection Z as -> _; ring.
  - intros -> NX. rewrite zq_0. rewrite <- S1. assert (NX' : zq xP <> 0%Qc) by (now apply zq_ne). split.
    + intros Z. destruct (Qcmult_integral (zq xP) (peval q x)); [|contradiction|auto].
      transitivity (- (0 * peval p x - zq xP * peval q x))%Qc; [ring|]. rewrite Z. ring.
    + intros ->. ring.
Qed.

(** for a negative index the recursion does not end *)
Theorem C78_negative a1 a2 a3 a4 a6 fuel : forall n, n < 0 -> div_pol_odd a1 a2 a3 a4 a6 fuel n = OutOfFuel.
Proof.
  induction fuel as [|f IH]; intros n Hn; [reflexivity|]. cbn [div_pol_odd].
  replace (n =? 0) with false by (symmetry; apply Z.eqb_neq; lia). replace ((n =? 1) || (n =? 2)) with false by (symmetry; apply orb_false_iff; split; apply Z.eqb_neq; lia).
  replace (n =? 3) with false by (symmetry; apply Z.eqb_neq; lia). replace (n =? 4) with false by (symmetry; apply Z.eqb_neq; lia).
  replace (Z.rem n 2 =? 1) with false by (symmetry; apply Z.eqb_neq; pose proof (Z.rem_nonpos n 2 ltac:(lia) ltac:(lia)); lia).
  rewrite (IH (Z.quot n 2 - 1)); [reflexivity|]. pose proof (Z.quot_opp_l n 2 ltac:(lia)). pose proof (Z.quot_pos (- n) 2 ltac:(lia) ltac:(lia)). lia.
Qed.

(** the curve y^2+y = x^3-x^2 with the point (0,0) of order 5,
    and y^2 = x^3 + 4x with the point (2,4) of order 4 above (0,0) of order 2 *)
Definition e11 := Cv 0 (-1) 1 0 0.
Definition e32 := Cv 0 0 0 4 0.
Example C78_ex : sdisc e11 = -11 /\ sdisc e32 = -4096 /\
  (exists p, DP e11 6 5 = Ok p /\ peval p 0%Qc = 0%Qc /\ nth 12 p 0 = 5) /\
  emul e11 5 (Aff 0%Qc 0%Qc) = Inf /\ emul e11 1 (Aff 0%Qc 0%Qc) <> Inf /\
  (exists p, DP e32 5 4 = Ok p /\ peval p (zq 2) = 0%Qc /\ peval p 0%Qc <> 0%Qc) /\
  eon_pt e32 (Aff (zq 2) (zq 4)) /\ emul e32 4 (Aff (zq 2) (zq 4)) = Inf /\ emul e32 2 (Aff (zq 2) (zq 4)) = Aff 0%Qc 0%Qc /\
  (exists r, DIV e32 4 2 0 1 = Ok r /\ peval r (zq 2) = 0%Qc).
Proof.
  split; [reflexivity|]. split; [reflexivity|].
  split; [eexists; split; [vm_compute; reflexivity|]; split; [apply Qc_is_canon|]; vm_compute; reflexivity|].
  split; [vm_compute; reflexivity|]. split; [vm_compute; discriminate|].
  split; [eexists; split; [vm_compute; reflexivity|]; split; [apply Qc_is_canon; vm_compute; reflexivity|vm_compute; discriminate]|].
  split; [apply Qc_is_canon; vm_compute; reflexivity|]. split; [vm_compute; reflexivity|]. split; [vm_compute; reflexivity|].
  eexists; split; [vm_compute; reflexivity|]. apply Qc_is_canon. vm_compute. reflexivity.
Qed.
Print Assumptions C78_roots.
Print Assumptions C78_degree.
Print Assumptions C78_mul_by_n.
Print Assumptions C78_division_points.
Print Assumptions C78_negative.
