(** legendre_solve with LLL (method 5). *)
From Coq Require Import ZArith Lia List Bool Znumtheory.
From Verif Require Import Base RatModel MArithModel MArithProofs SqrtModProofs JacobiMath DivisorProofs
  LLLSpec LegModel LegArith LegLem1 LegBody LegDescent LegReduce LegSolve LegLLLModel LegLLL.
Import ListNotations.
Open Scope Z_scope.
Open Scope res_scope.

Section SolveLLL.
Variable xgcd : Z -> Z -> Z * Z * Z.
Hypothesis X : xgcd_spec xgcd.
Variable srm : Z -> Z -> Z.
Hypothesis SR : sqrrootmod_spec srm.

Lemma legendre_solve_lll f a b c ps : a <> 0 -> b <> 0 -> c <> 0 -> prime_base (a * b * c) ps ->
  exists N r, (forall div lf, exact_division (@Ok Z) div -> (N <= lf)%nat ->
    legendre_solve xgcd srm (legendre_via_lll xgcd div lf) f a b c ps true = Ok r) /\
  match r with
  | Some (x, y, z) => leg_sol a b c (x, y, z) /\ prim3 (x, y, z) /\ 0 <= x /\ 0 <= y /\ 0 <= z
  | None => ~ soluble a b c
  end.
Proof.
  intros A B C PB. unfold legendre_solve, bind. cbv zeta.
  assert (SG0 : forall n, n <> 0 -> (Z.sgn n =? 0) = false) by (intros n N; apply Z.eqb_neq; lia).
  rewrite !SG0 by assumption. cbn [orb].
  destruct ((Z.sgn a =? Z.sgn b) && (Z.sgn a =? Z.sgn c) && (Z.sgn b =? Z.sgn c)) eqn:SS.
  { exists O. eexists. split; [intros; reflexivity|]. cbv beta iota. rewrite !andb_true_iff, !Z.eqb_eq in SS. destruct SS as ((SS1 & SS2) & _).
    intros ([[x y] z] & E & N).
    assert (Sq : forall u, 0 <= u * u) by (intros u; apply Z.square_nonneg).
    assert (Sp : forall u, u <> 0 -> 0 < u * u) by (intros u U; apply Z.le_neq; split; [apply Sq|]; intros H; symmetry in H; revert H; now apply mul_nz).
    assert (T : (0 < a /\ 0 < b /\ 0 < c) \/ (a < 0 /\ b < 0 /\ c < 0)) by (clear - A B C SS1 SS2; lia).
    destruct T as [(TA & TB & TC)|(TA & TB & TC)].
    - pose proof (Z.mul_nonneg_nonneg a (x * x) (Z.lt_le_incl _ _ TA) (Sq x)) as Q1.
      pose proof (Z.mul_nonneg_nonneg b (y * y) (Z.lt_le_incl _ _ TB) (Sq y)) as Q2.
      pose proof (Z.mul_nonneg_nonneg c (z * z) (Z.lt_le_incl _ _ TC) (Sq z)) as Q3.
      destruct N as [N|[N|N]].
      + pose proof (Z.mul_pos_pos _ _ TA (Sp x N)) as Q. clear - Q Q2 Q3 E. lia.
      + pose proof (Z.mul_pos_pos _ _ TB (Sp y N)) as Q. clear - Q Q1 Q3 E. lia.
      + pose proof (Z.mul_pos_pos _ _ TC (Sp z N)) as Q. clear - Q Q1 Q2 E. lia.
    - pose proof (Z.mul_nonpos_nonneg a (x * x) (Z.lt_le_incl _ _ TA) (Sq x)) as Q1.
      pose proof (Z.mul_nonpos_nonneg b (y * y) (Z.lt_le_incl _ _ TB) (Sq y)) as Q2.
      pose proof (Z.mul_nonpos_nonneg c (z * z) (Z.lt_le_incl _ _ TC) (Sq z)) as Q3.
      destruct N as [N|[N|N]].
      + pose proof (Z.mul_neg_pos _ _ TA (Sp x N)) as Q. clear - Q Q2 Q3 E. lia.
      + pose proof (Z.mul_neg_pos _ _ TB (Sp y N)) as Q. clear - Q Q1 Q3 E. lia.
      + pose proof (Z.mul_neg_pos _ _ TC (Sp z N)) as Q. clear - Q Q1 Q2 E. lia. }
  destruct (coprime_loop_ok a b c A B C) as (a1 & b1 & c1 & xf & yf & zf & -> & R1 & G1 & G2 & G3).
  cbv beta iota.
  pose proof R1 as ((A1 & B1 & C1) & (T1 & T2 & T3) & _ & D1 & _).
  destruct PB as (ND & PR & CV).
  assert (PBS : forall n, (n | a1 * b1 * c1) -> prime_base n ps).
  { intros n Dn. split; [exact ND|]. split; [exact PR|]. intros p Pp Dp. apply CV; [exact Pp|].
    eapply Z.divide_trans; [exact Dp|]. eapply Z.divide_trans; [exact Dn|exact D1]. }
  destruct (sqfdecomp_ok a1 ps A1) as (a2 & a3 & al & EA & QA & A3 & SA & HA). { apply PBS. exists (b1 * c1). ring. }
  rewrite EA. cbv beta iota zeta.
  destruct (sqfdecomp_ok b1 ps B1) as (b2 & b3 & bl & EB & QB & B3 & SB & HB). { apply PBS. exists (a1 * c1). ring. }
  rewrite EB. cbv beta iota zeta.
  destruct (sqfdecomp_ok c1 ps C1) as (c2 & c3 & cl & EC & QC & C3 & SC & HC). { apply PBS. exists (a1 * b1). ring. }
  rewrite EC. cbv beta iota zeta.
  assert (NA : NoDup al) by (eapply sqfdecomp_loop_nodup; [|exact EA]; exact ND).
  assert (NB : NoDup bl) by (eapply sqfdecomp_loop_nodup; [|exact EB]; exact ND).
  assert (NC : NoDup cl) by (eapply sqfdecomp_loop_nodup; [|exact EC]; exact ND).
  assert (A2 : a2 <> 0) by (intros H; apply A1; rewrite QA, H; reflexivity).
  assert (B2 : b2 <> 0) by (intros H; apply B1; rewrite QB, H; reflexivity).
  assert (C2 : c2 <> 0) by (intros H; apply C1; rewrite QC, H; reflexivity).
  assert (DA : (a2 | a1)) by (rewrite QA; apply Z.divide_factor_l).
  assert (DB : (b2 | b1)) by (rewrite QB; apply Z.divide_factor_l).
  assert (DC : (c2 | c1)) by (rewrite QC; apply Z.divide_factor_l).
  assert (H1 : cop a2 b2) by exact (cop_div _ _ _ _ G1 DA DB).
  assert (H2 : cop a2 c2) by exact (cop_div _ _ _ _ G2 DA DC).
  assert (H3 : cop b2 c2) by exact (cop_div _ _ _ _ G3 DB DC).
  pose proof (rel_sq a2 a3 b2 b3 c2 c3 A3 B3 C3 A2 B2 C2) as R2. rewrite <- QA, <- QB, <- QC in R2.
  pose proof (rel_trans _ _ _ _ _ _ _ _ _ _ _ _ _ _ _ R1 R2) as R3. clear R1 R2.
  rewrite !Z.mul_assoc in R3.
  replace (zf * a3 * b3) with (zf * a3 * b3) in R3 by ring.
  destruct (cancel1_ok (xf * b3 * c3) (yf * a3 * c3) (zf * a3 * b3)) as ([[xg yg] zg] & g & -> & G & EG & _).
  { destruct R3 as (_ & _ & (P1 & _) & _). left. lia. }
  cbv beta iota.
  cbn [scal3] in EG.
  pose proof (f_equal (fun t : tri => fst (fst t)) EG) as EG1. pose proof (f_equal (fun t : tri => snd (fst t)) EG) as EG2.
  pose proof (f_equal (fun t : tri => snd t) EG) as EG3. cbn [fst snd] in EG1, EG2, EG3. clear EG.
  rewrite EG1, EG2, EG3 in R3. apply rel_cancel in R3; [|exact G].
  destruct (make_certificate_ok xgcd X srm SR a2 b2 c2 al bl cl A2 B2 C2 H1 H2 H3 SA SB SC NA NB NC HA HB HC) as (r & -> & R).
  destruct r as [code|[[n p] q]].
  { exists O. eexists. split; [intros; reflexivity|]. cbv beta iota. intros S. apply R. apply R3. exact S. }
  cbv beta iota.
  destruct R3 as (_ & (U1 & U2 & U3) & (P1 & P2 & P3) & D3 & F3 & _).
  assert (OK : leg_ok a2 b2 c2).
  { split; [exact A2|]. split; [exact B2|]. split; [exact C2|]. split; [exact H1|]. split; [exact H2|]. split; [exact H3|].
    apply andb_false_iff in SS. rewrite andb_false_iff in SS. rewrite !Z.eqb_neq in SS.
    clear - SS U1 U2 U3. split; intros (K1 & K2 & K3); lia. }
  destruct (legendre_via_lll_ok xgcd X a2 b2 c2 n p q OK R) as (N & [[x2 y2] z2] & EN & S2).
  assert (AB : forall t : Z, (if t <? 0 then - t else t) = Z.abs t).
  { clear. intros t. destruct (Z.ltb_spec t 0); lia. }
  apply F3 in S2. rewrite (Z.mul_comm xg), (Z.mul_comm yg), (Z.mul_comm zg) in S2. apply abs_sol in S2.
  destruct (cancel1_ok _ _ _ (proj2 S2)) as ([[x3 y3] z3] & g' & E3 & G' & EG & PR3).
  exists N. eexists. split; [intros div lf HD HF; rewrite (EN div lf HD HF); cbv beta iota; rewrite !AB, E3; reflexivity|]. cbv beta iota.
  split; [apply (sol_unscale a b c g'); [exact G'|]; now rewrite <- EG|]. split; [exact PR3|].
  cbn [scal3] in EG.
  pose proof (f_equal (fun t : tri => fst (fst t)) EG) as F1. pose proof (f_equal (fun t : tri => snd (fst t)) EG) as F2.
  pose proof (f_equal (fun t : tri => snd t) EG) as F4. cbn [fst snd] in F1, F2, F4.
  assert (NN : forall u v, Z.abs u = g' * v -> 0 <= v).
  { intros u v H. apply (Z.mul_nonneg_cancel_l g'); [exact G'|]. rewrite <- H. apply Z.abs_nonneg. }
  split; [eapply NN; exact F1|]. split; [eapply NN; exact F2|eapply NN; exact F4].
Qed.
End SolveLLL.
