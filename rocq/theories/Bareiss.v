(** Determinant identities behind fraction-free elimination, over Z. *)
From mathcomp Require Import all_ssreflect all_algebra ssrZ.
From Coq Require Import ZArith Lia.
From Verif Require Import LinSpec.
Set Implicit Arguments.
Unset Strict Implicit.
Import GRing.Theory.
Local Open Scope ring_scope.
(** determinant of the leading k x k submatrix *)
Definition zdet (k : nat) (A : nat -> nat -> Z) : Z := \det (\matrix_(i < k, j < k) A i j).
Lemma zdet_ext k A B : (forall i j, (i < k)%coq_nat -> (j < k)%coq_nat -> A i j = B i j) -> zdet k A = zdet k B.
Proof. move=> H. congr (\det _). apply/matrixP=> i j. rewrite !mxE. by apply: H; apply/ltP. Qed.
Lemma zdet0 A : zdet 0 A = 1%Z.
Proof. by rewrite /zdet det_mx00. Qed.
Lemma sumnE n f : sumn n f = \sum_(i < n) f i.
Proof. elim: n => [|n IH] /=; first by rewrite big_ord0. by rewrite big_ord_recr /= -IH. Qed.
Lemma block_det k m (A : 'M[Z]_(k + m)) (C : 'M_(m, k)) (W : 'M_m) (E F : Z) :
  C *m ulsubmx A + E *: dlsubmx A = 0 -> C *m ursubmx A + E *: drsubmx A = F *: W ->
  E ^+ m * \det A = \det (ulsubmx A) * (F ^+ m * \det W).
Proof.
  move=> H1 H2. set L := block_mx (1%:M : 'M_k) 0 C (E%:M : 'M_m).
  have EQ : L *m A = block_mx (ulsubmx A) (ursubmx A) 0 (F *: W).
    rewrite -{1}(submxK A) /L mulmx_block !mul1mx !mul0mx !addr0. by rewrite !mul_scalar_mx H1 H2.
  have := congr1 determinant EQ. by rewrite det_mulmx /L det_lblock det1 mul1r det_scalar det_ublock detZ => ->.
Qed.
Lemma det2 (M : 'M[Z]_2) : \det M = M 0 0 * M 1 1 - M 0 1 * M 1 0.
Proof.
  rewrite (expand_det_row _ 0) big_ord_recl big_ord1 /cofactor !det_mx11 !mxE /=.
  have -> : lift 0 0 = 1 :> 'I_2 by apply/val_inj. have -> : lift 1 0 = 0 :> 'I_2 by apply/val_inj.
  by rewrite /= expr0 expr1 mul1r mulN1r mulrN.
Qed.
(** the new pivot is the next determinant *)
Lemma zdet_pivot k A (e s : Z) C w : e <> 0%Z -> zdet k A <> 0%Z -> (s * s = 1)%Z ->
  (forall j, (j <= k)%coq_nat -> (e * w j = e * s * zdet k A * A k j + sumn k (fun t => C t * A t j))%Z) ->
  (forall j, (j < k)%coq_nat -> w j = 0%Z) -> zdet k.+1 A = (s * w k)%Z.
Proof.
  move=> He HD Hs HW H0. rewrite -addn1 /zdet.
  set M := (\matrix_(i, j) A i j : 'M[Z]_(addn k 1)).
  have UL : ulsubmx M = \matrix_(i < k, j < k) A i j by apply/matrixP=> i j; rewrite !mxE.
  have := @block_det k 1 M (\matrix_(i, j) C j) (\matrix_(i, j) w k) (e * s * zdet k A) e.
  rewrite UL -/(zdet k A) !expr1 det_mx11 !mxE. move=> H.
  have K : (e * s * zdet k A * \det M = zdet k A * (e * w k))%Z.
    apply: H.
    - apply/matrixP=> i j. rewrite !mxE ord1 /= addn0.
      have := HW j. rewrite H0; last exact/ltP. rewrite sumnE.
      rewrite [X in X + _](eq_bigr (fun t : 'I_k => C t * A t j)); last by move=> t _; rewrite !mxE.
      move=> K. have {}K := K (Nat.lt_le_incl _ _ (ltP (ltn_ord j))).
      exact: etrans (etrans (addrC _ _) (esym K)) (mulr0 e).
    - apply/matrixP=> i j. rewrite !mxE /= !ord1 /= !addn0.
      rewrite [X in X + _](eq_bigr (fun t : 'I_k => C t * A t k)); last by move=> t _; rewrite !mxE /= addn0.
      have := HW k (Nat.le_refl _). rewrite sumnE => K.
      exact: etrans (addrC _ _) (esym K).
  have {}K : (zdet k A * (e * (s * \det M)) = zdet k A * (e * w k))%Z by rewrite -K; lia.
  apply Z.mul_reg_l in K => //. apply Z.mul_reg_l in K => //.
  rewrite -K. rewrite Z.mul_assoc Hs. by rewrite Z.mul_1_l.
Qed.
(** Sylvester's identity: the 2 x 2 combinations of the reduced rows are divisible by the
    pivot determinant *)
Lemma zdet_sylvester k A (e s : Z) (C0 C1 w0 w1 : nat -> Z) : e <> 0%Z -> zdet k A <> 0%Z -> (s * s = 1)%Z ->
  (forall j, (j <= k.+1)%coq_nat -> (e * w0 j = e * s * zdet k A * A k j + sumn k (fun t => C0 t * A t j))%Z) ->
  (forall j, (j <= k.+1)%coq_nat -> (e * w1 j = e * s * zdet k A * A k.+1 j + sumn k (fun t => C1 t * A t j))%Z) ->
  (forall j, (j < k)%coq_nat -> w0 j = 0%Z) -> (forall j, (j < k)%coq_nat -> w1 j = 0%Z) ->
  (zdet k A * zdet k.+2 A = w0 k * w1 k.+1 - w0 k.+1 * w1 k)%Z.
Proof.
  move=> He HD Hs HW0 HW1 Z0 Z1. rewrite -addn2 {2}/zdet.
  set M := (\matrix_(i, j) A i j : 'M[Z]_(addn k 2)).
  have UL : ulsubmx M = \matrix_(i < k, j < k) A i j by apply/matrixP=> i j; rewrite !mxE.
  pose C (i : 'I_2) (t : nat) := if val i is O then C0 t else C1 t.
  pose w (i : 'I_2) (t : nat) := if val i is O then w0 t else w1 t.
  have HW : forall (i : 'I_2) j, (j <= k.+1)%coq_nat -> (e * w i j = e * s * zdet k A * A (addn k i) j + sumn k (fun t => C i t * A t j))%Z.
    by case; case=> [|[|//]] Hi j Hj; rewrite /w /C /= ?addn0 ?addn1; [exact: HW0 | exact: HW1].
  have HZ : forall (i : 'I_2) j, (j < k)%coq_nat -> w i j = 0%Z by case; case=> [|[|//]] Hi j Hj; rewrite /w /=; auto.
  have := @block_det k 2 M (\matrix_(i, j) C i j) (\matrix_(i, j) w i (addn k j)) (e * s * zdet k A) e.
  rewrite UL -/(zdet k A) det2 !mxE /= !addn0 !addn1. move=> H.
  have K : ((e * s * zdet k A) * (e * s * zdet k A) * \det M = zdet k A * (e * e * (w0 k * w1 k.+1 - w0 k.+1 * w1 k)))%Z.
    apply: H.
    - apply/matrixP=> i j. rewrite !mxE /=.
      have := HW i j. rewrite HZ; last exact/ltP. rewrite sumnE.
      rewrite [X in X + _](eq_bigr (fun t : 'I_k => C i t * A t j)); last by move=> t _; rewrite !mxE.
      move=> K. have {}K := K (Nat.lt_le_incl _ _ (Nat.lt_trans _ _ _ (ltP (ltn_ord j)) (Nat.lt_succ_diag_r _))).
      exact: etrans (etrans (addrC _ _) (esym K)) (mulr0 e).
    - apply/matrixP=> i j. rewrite !mxE /=.
      rewrite [X in X + _](eq_bigr (fun t : 'I_k => C i t * A t (addn k j))); last by move=> t _; rewrite !mxE.
      have Hj : (addn k j <= k.+1)%coq_nat by apply/leP; case: j => j Hj; rewrite /= -addn1 leq_add2l -ltnS.
      have := HW i _ Hj. rewrite sumnE => K.
      exact: etrans (addrC _ _) (esym K).
  have {}K : ((e * e) * (zdet k A * (zdet k A * \det M)) = (e * e) * (zdet k A * (w0 k * w1 k.+1 - w0 k.+1 * w1 k)))%Z.
    transitivity ((s * s) * ((e * e) * (zdet k A * (zdet k A * \det M))))%Z; first by rewrite Hs Z.mul_1_l.
    transitivity (e * s * zdet k A * (e * s * zdet k A) * \det M)%Z; first by ring.
    rewrite K. by ring.
  apply Z.mul_reg_l in K => //; last by apply Z.neq_mul_0. by apply Z.mul_reg_l in K.
Qed.
Lemma zdet2 A : zdet 2 A = (A 0%nat 0%nat * A 1%nat 1%nat - A 0%nat 1%nat * A 1%nat 0%nat)%Z.
Proof. by rewrite /zdet det2 !mxE. Qed.
