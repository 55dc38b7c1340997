(** Gram minors: the determinant with rows v_0..v_{l-1},x and columns v_0..v_{l-1},y, and the
    recurrence between them (Sylvester). *)
From mathcomp Require Import all_ssreflect all_algebra ssrZ.
From Coq Require Import ZArith Lia.
From Verif Require Import LinSpec Bareiss.
Set Implicit Arguments.
Unset Strict Implicit.
Import GRing.Theory.
Local Open Scope ring_scope.

Section Minor.
Variable V : Type.
Variable G : V -> V -> Z.
Variable vs : nat -> V.
Definition ix (l : nat) (x : V) (i : nat) : V := if Nat.ltb i l then vs i else x.
Definition gdet (l : nat) : Z := zdet l (fun i j => G (vs i) (vs j)).
Definition minor (l : nat) (x y : V) : Z := zdet (S l) (fun i j => G (ix l x i) (ix l y j)).

Lemma gdet0 : gdet 0 = 1%Z.
Proof. exact: zdet0. Qed.
Lemma minor0 x y : minor 0 x y = G x y.
Proof. by rewrite /minor /zdet det_mx11 !mxE. Qed.
Lemma ix_lt l x i : (i < l)%coq_nat -> ix l x i = vs i.
Proof. by move=> H; rewrite /ix; move/Nat.ltb_lt: H => ->. Qed.
Lemma ix_eq l x : ix l x l = x.
Proof. by rewrite /ix Nat.ltb_irrefl. Qed.
Lemma gdetS l : gdet (S l) = minor l (vs l) (vs l).
Proof.
  apply: zdet_ext => i j Hi Hj. congr (G _ _).
  - case: (Nat.eq_dec i l) => [->|N]; first by rewrite ix_eq. by rewrite ix_lt //; lia.
  - case: (Nat.eq_dec j l) => [->|N]; first by rewrite ix_eq. by rewrite ix_lt //; lia.
Qed.

(** The Schur complement, multiplied by the determinant, is given by bordered minors. *)
Lemma bordered k (A : 'M[Z]_(k + 1)) : \det (ulsubmx A) <> 0%Z ->
  \det A = (\det (ulsubmx A) *: drsubmx A - dlsubmx A *m \adj (ulsubmx A) *m ursubmx A) 0 0.
Proof.
  move=> H. set E := \det (ulsubmx A). set C := - (dlsubmx A *m \adj (ulsubmx A)).
  have := @block_det k 1 A C (C *m ursubmx A + E *: drsubmx A) E 1.
  move=> K.
  have {}K : E ^+ 1 * \det A = \det (ulsubmx A) * (1 ^+ 1 * \det (C *m ursubmx A + E *: drsubmx A)).
    apply: K; last by rewrite scale1r.
    rewrite /C mulNmx -mulmxA mul_adj_mx -/E mul_mx_scalar.  exact: addNr.
  rewrite -/E !expr1 mul1r in K.
  have {}K : \det A = \det (C *m ursubmx A + E *: drsubmx A) by exact: (Z.mul_reg_l _ _ E H).
  by rewrite {1}K det_mx11 /C mulNmx addrC.
Qed.
Lemma bord_minor l x y (M : 'M[Z]_(l + 1)) : (forall i j, M i j = G (ix l x i) (ix l y j)) -> minor l x y = \det M.
Proof.
  move=> H. rewrite /minor -addn1 /zdet. congr (\det _). apply/matrixP=> i j. by rewrite mxE H.
Qed.
Lemma minor_rec l x y : gdet l <> 0%Z ->
  (gdet l * minor (S l) x y = gdet (S l) * minor l x y - minor l x (vs l) * minor l (vs l) y)%Z.
Proof.
  move=> HD. rewrite gdetS.
  pose A : 'M[Z]_(l + 2) := \matrix_(i, j) G (ix (S l) x i) (ix (S l) y j).
  have HN : forall N, N = l.+2 -> minor (S l) x y = \det (\matrix_(i < N, j < N) G (ix (S l) x i) (ix (S l) y j)) by move=> N ->.
  have -> : minor (S l) x y = \det A. { exact: HN (addn2 l). }
  have UL : \det (ulsubmx A) = gdet l.
    rewrite /gdet /zdet. congr (\det _). apply/matrixP=> i j. rewrite !mxE /=.
    have Hi := ltP (ltn_ord i). have Hj := ltP (ltn_ord j). by rewrite !ix_lt //; lia.
  set C := - (dlsubmx A *m \adj (ulsubmx A)).
  have := @block_det l 2 A C (C *m ursubmx A + gdet l *: drsubmx A) (gdet l) 1.
  move=> K.
  have {}K : gdet l ^+ 2 * \det A = \det (ulsubmx A) * (1 ^+ 2 * \det (C *m ursubmx A + gdet l *: drsubmx A)).
    apply: K; last by rewrite scale1r.
    rewrite /C mulNmx -mulmxA mul_adj_mx UL mul_mx_scalar. exact: addNr.
  rewrite UL expr1n mul1r det2 in K.
  have W : forall (i j : 'I_2) u v, (if val i is O then vs l else x) = u -> (if val j is O then vs l else y) = v ->
     (C *m ursubmx A + gdet l *: drsubmx A) i j = minor l u v.
    move=> i j u v Eu Ev.
    pose M : 'M[Z]_(l + 1) := block_mx (ulsubmx A) (col j (ursubmx A)) (row i (dlsubmx A)) ((drsubmx A i j)%:M).
    have HM : forall a b, M a b = G (ix l u a) (ix l v b).
      have Ru : ix (S l) x (addn l i) = u.
        rewrite -Eu; case: (i) => [[|[|//]] Hi] /=; first by rewrite addn0 ix_lt //; lia. by rewrite addn1 ix_eq.
      have Rv : ix (S l) y (addn l j) = v.
        rewrite -Ev; case: (j) => [[|[|//]] Hj] /=; first by rewrite addn0 ix_lt //; lia. by rewrite addn1 ix_eq.
      move=> a b. rewrite /M.
      case: (split_ordP a) => a' ->; case: (split_ordP b) => b' ->.
      - rewrite block_mxEul !mxE /=. have Ha := ltP (ltn_ord a'). have Hb := ltP (ltn_ord b'). by rewrite !ix_lt //; lia.
      - rewrite block_mxEur !mxE /= ord1 /= addn0 ix_eq. have Ha := ltP (ltn_ord a'). by rewrite Rv !ix_lt //; lia.
      - rewrite block_mxEdl !mxE /= ord1 /= addn0 ix_eq. have Hb := ltP (ltn_ord b'). by rewrite Ru !ix_lt //; lia.
      - rewrite block_mxEdr !ord1 !mxE /= !addn0 !ix_eq Ru Rv. by [].
    rewrite (bord_minor HM) bordered /M block_mxKul ?UL // block_mxKdr block_mxKdl block_mxKur.
    rewrite /C mulNmx addrC. rewrite !mxE /= mulr1n. congr (_ - _).
    apply: eq_bigr => t _. rewrite !mxE. congr (_ * _). apply: eq_bigr => t' _. by rewrite !mxE.
  rewrite (W 0 0 (vs l) (vs l)) // (W 1 1 x y) // (W 0 1 (vs l) y) // (W 1 0 x (vs l)) // in K.
  have {}K : (gdet l * (gdet l * \det A) = gdet l * (minor l (vs l) (vs l) * minor l x y - minor l (vs l) y * minor l x (vs l)))%Z.
    etransitivity; last exact: K. rewrite expr2. by rewrite Z.mul_assoc.
  apply Z.mul_reg_l in K => //. rewrite K. by rewrite (Z.mul_comm (minor l (vs l) y)).
Qed.
End Minor.
Lemma gdet_ext V (G : V -> V -> Z) vs vs' l : (forall i, (i < l)%coq_nat -> vs i = vs' i) -> gdet G vs l = gdet G vs' l.
Proof. move=> H. apply: zdet_ext => i j Hi Hj. by rewrite (H i Hi) (H j Hj). Qed.
Lemma minor_ext V (G : V -> V -> Z) vs vs' l x y : (forall i, (i < l)%coq_nat -> vs i = vs' i) -> minor G vs l x y = minor G vs' l x y.
Proof.
  move=> H. apply: zdet_ext => i j Hi Hj. congr (G _ _).
  - case: (Nat.eq_dec i l) => [->|N]; first by rewrite !ix_eq. by rewrite !ix_lt ?H //; lia.
  - case: (Nat.eq_dec j l) => [->|N]; first by rewrite !ix_eq. by rewrite !ix_lt ?H //; lia.
Qed.
Arguments minor_rec {V} G vs l x y _.
Arguments gdetS {V} G vs l.
