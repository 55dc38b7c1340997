(** Identities behind the Faddeev-LeVerrier method: the coefficients of the characteristic
    polynomial and of the adjoint of xI - A. *)
From mathcomp Require Import all_ssreflect fingroup perm all_algebra ssrZ.
From Coq Require Import ZArith Lia.
From Verif Require Import LinSpec Bareiss.
Set Implicit Arguments.
Unset Strict Implicit.
Import GRing.Theory.
Local Open Scope ring_scope.

Section Gen.
Variable R : comRingType.
Lemma deriv_prod n (F : 'I_n -> {poly R}) : (\prod_i F i)^`() = \sum_i (F i)^`() * \prod_(j | j != i) F j.
Proof.
  elim: n F => [|n IH] F; first by rewrite !big_ord0 derivC.
  rewrite !big_ord_recl derivM IH. congr (_ * _ + _).
    rewrite [in RHS]big_mkcond big_ord_recl. by rewrite /= mul1r.
  rewrite mulr_sumr. apply: eq_bigr => i _. rewrite [in RHS]big_mkcond big_ord_recl /=.
  rewrite mulrCA. congr (_ * (_ * _)). rewrite [in LHS]big_mkcond. apply: eq_bigr => j _. by rewrite (eqtype.inj_eq (@lift_inj _ _)).
Qed.
Variables (n : nat) (A : 'M[R]_n).
Let M := char_poly_mx A.
Let Nk (k : nat) : 'M[R]_n := \matrix_(i, j) ((\adj M) i j)`_k.
Lemma deriv_char_poly : (char_poly A)^`() = \tr (\adj M).
Proof.
  rewrite /char_poly -/M /determinant raddf_sum /=.
  pose Mi i := \matrix_(j, k) (if j == i then (i == k)%:R else M j k).
  have DT i : \det (Mi i) = (\adj M) i i.
    rewrite (expand_det_row _ i) (bigD1 i) //= big1 ?addr0.
      rewrite !mxE !eqxx mul1r /cofactor. congr (_ * \det _). apply/matrixP=> a b. by rewrite !mxE eq_sym (negbTE (neq_lift _ _)).
    move=> k Hk. by rewrite !mxE eqxx eq_sym (negbTE Hk) mul0r.
  transitivity (\sum_(s : 'S_n) \sum_i (-1) ^+ s * \prod_j Mi i j (s j)).
    apply: eq_bigr => s _. rewrite derivM deriv_prod mulr_sumr.
    have -> : ((-1) ^+ s : {poly R})^`() = 0 by case: (odd_perm s); rewrite ?expr0 ?expr1 ?derivN derivC ?oppr0.
    rewrite mul0r add0r. apply: eq_bigr => i _. rewrite [in RHS](bigD1 i) //=. congr (_ * (_ * _)).
      by rewrite !mxE eqxx derivB derivC subr0 derivMn derivX.
    apply: eq_bigr => j Hj. by rewrite [in RHS]mxE (negbTE Hj).
  rewrite exchange_big /=. apply: eq_bigr => i _. by rewrite -DT.
Qed.
Lemma trace_N k : \tr (Nk k) = (char_poly A)`_k.+1 *+ k.+1.
Proof. rewrite -coef_deriv deriv_char_poly /mxtrace coef_sum. apply: eq_bigr => i _. by rewrite mxE. Qed.
Lemma N_rec k : (if k is k'.+1 then Nk k' else 0) = A *m Nk k + ((char_poly A)`_k)%:M.
Proof.
  apply/matrixP=> i j. have := congr1 (fun X : 'M[{poly R}]_n => (X i j)`_k) (mul_mx_adj M). rewrite !mxE coef_sum.
  have ME a b : M a b = 'X *+ (a == b) - (A a b)%:P by rewrite /M !mxE.
  under eq_bigr => t _ do rewrite ME mulrDl coefD mulrnAl mulNr coefN coefCM coefMn coefXM.
  rewrite big_split /= (bigD1 i) //= eqxx mulr1n big1 ?addr0 => [|t Ht]; last by rewrite [i == t]eq_sym (negbTE Ht).
  rewrite sumrN coefMn => H.
  have -> : \sum_j0 A i j0 * Nk k j0 j = \sum_i0 A i i0 * ((\adj M) i0 j)`_k by apply: eq_bigr => t _; rewrite !mxE.
  rewrite -/(char_poly A) in H. rewrite -H addrC subrK. by case: k {H} => [|k]; rewrite ?mxE.
Qed.
Lemma N_zero k : leq n k -> Nk k = 0.
Proof.
  have [K HK] : exists K, forall k, leq K k -> Nk k = 0.
    exists (\max_i \max_j size ((\adj M) i j)) => q Hq. apply/matrixP=> i j. rewrite mxE [RHS]mxE nth_default //.
    apply: leq_trans Hq. move: (@leq_bigmax _ (fun j => size ((\adj M) i j)) j) (@leq_bigmax _ (fun i => \max_j size ((\adj M) i j)) i). exact: leq_trans.
  have ST q : leq n q -> Nk q.+1 = 0 -> Nk q = 0.
    move=> Hq H0. have := N_rec q.+1 => /= ->. rewrite H0 mulmx0 add0r nth_default ?raddf0 //. by rewrite size_char_poly ltnS.
  move=> Hk. have : leq k (maxn k K) by exact: leq_maxl. have : Nk (maxn k K) = 0 by apply: HK; exact: leq_maxr.
  elim: {1 2}(maxn k K) => [|q IH] Hq.
    by rewrite leqn0 => /eqP E; rewrite -E in Hq.
  rewrite leq_eqVlt => /orP[/eqP E|]; first by rewrite E.
  rewrite ltnS => L. apply: IH => //. apply: ST => //. exact: leq_trans Hk L.
Qed.
Lemma lead_char_poly : (char_poly A)`_n = 1.
Proof. have /monicP := char_poly_monic A. by rewrite lead_coefE size_char_poly. Qed.
Lemma N_top m : n = m.+1 -> Nk m = 1%:M.
Proof. move=> E. have := N_rec m.+1 => /= ->. by rewrite N_zero ?E // mulmx0 add0r -E lead_char_poly. Qed.
Lemma trace_AN k : \tr (A *m Nk k) + (char_poly A)`_k *+ n = (char_poly A)`_k *+ k.
Proof.
  have := congr1 mxtrace (N_rec k). rewrite mxtraceD mxtrace_scalar => <-. case: k => [|k]; first by rewrite mxtrace0 mulr0n.
  by rewrite trace_N.
Qed.
End Gen.

(** the coefficient of x^k of det(xI - A), for the leading n x n submatrix of A *)
Definition cpoly (n : nat) (A : nat -> nat -> Z) (k : nat) : Z := (char_poly (\matrix_(i < n, j < n) A i j))`_k.
Definition adjc (n : nat) (A : nat -> nat -> Z) (k i j : nat) : Z :=
  match n return Z with
  | O => 0%Z
  | m.+1 => ((\adj (char_poly_mx (\matrix_(i < m.+1, j < m.+1) A i j))) (inord i) (inord j))`_k
  end.
Lemma adjcE n A k (i j : 'I_n) : adjc n A k i j = ((\adj (char_poly_mx (\matrix_(i < n, j < n) A i j))) i j)`_k.
Proof. case: n i j => [|n] i j; first by case: i. by rewrite /adjc !inord_val. Qed.
Lemma mulrnZ (x : Z) m : x *+ m = (x * Z.of_nat m)%Z.
Proof. elim: m => [|m IH]; first by rewrite mulr0n Z.mul_0_r. rewrite mulrS IH Nat2Z.inj_succ. change (x + x * Z.of_nat m = x * Z.succ (Z.of_nat m))%Z. lia. Qed.
Lemma cpoly_lead n A : cpoly n A n = 1%Z.
Proof. exact: lead_char_poly. Qed.
Lemma cpoly_zero n A k : (n < k)%coq_nat -> cpoly n A k = 0%Z.
Proof. move=> /ltP H. by rewrite /cpoly nth_default // size_char_poly. Qed.
Lemma adjc_top n A i j : (i < n.+1)%coq_nat -> (j < n.+1)%coq_nat -> adjc n.+1 A n i j = if Nat.eqb i j then 1%Z else 0%Z.
Proof.
  move=> /ltP Hi /ltP Hj. rewrite -[i]/(nat_of_ord (Ordinal Hi)) -[j]/(nat_of_ord (Ordinal Hj)) adjcE.
  have := congr1 (fun X : 'M[Z]_n.+1 => X (Ordinal Hi) (Ordinal Hj)) (N_top (\matrix_(i < n.+1, j < n.+1) A i j) (erefl n.+1)). rewrite !mxE => ->.
  have -> : Nat.eqb i j = (Ordinal Hi == Ordinal Hj) by apply/idP/eqP => [/Nat.eqb_eq E|[->]]; [apply/val_inj|apply/Nat.eqb_eq].
  by case: (_ == _).
Qed.
Lemma adjc_rec n A k i j : (i < n)%coq_nat -> (j < n)%coq_nat ->
  adjc n A k i j = (sumn n (fun t => A i t * adjc n A k.+1 t j) + (if Nat.eqb i j then cpoly n A k.+1 else 0))%Z.
Proof.
  move=> /ltP Hi /ltP Hj. rewrite -[i]/(nat_of_ord (Ordinal Hi)) -[j]/(nat_of_ord (Ordinal Hj)) adjcE.
  have := congr1 (fun X : 'M[Z]_n => X (Ordinal Hi) (Ordinal Hj)) (N_rec (\matrix_(i < n, j < n) A i j) k.+1). rewrite !mxE => ->.
  have -> : Nat.eqb (Ordinal Hi) (Ordinal Hj) = (Ordinal Hi == Ordinal Hj) by apply/idP/eqP => [/Nat.eqb_eq E|[E]]; [apply/val_inj|apply/Nat.eqb_eq].
  rewrite sumnE. congr (_ + _); last by case: (_ == _).
  apply: eq_bigr => t _. by rewrite adjcE !mxE.
Qed.
Lemma adjc_trace n A k : (sumn n (fun i => sumn n (fun t => A i t * adjc n A k t i)) + Z.of_nat n * cpoly n A k = Z.of_nat k * cpoly n A k)%Z.
Proof.
  have := trace_AN (\matrix_(i < n, j < n) A i j) k. rewrite !mulrnZ -/(cpoly n A k) !(Z.mul_comm (cpoly _ _ _)) => <-.
  congr (_ + _). rewrite sumnE /mxtrace. apply: eq_bigr => i _. rewrite sumnE mxE. apply: eq_bigr => t _. by rewrite adjcE !mxE.
Qed.
Lemma cpoly_det n A : cpoly n A 0 = ((-1) ^ Z.of_nat n * zdet n A)%Z.
Proof.
  rewrite /cpoly char_poly_det. congr (_ * _). elim: n => [|m IH] //. rewrite exprS IH Nat2Z.inj_succ Z.pow_succ_r //. lia.
Qed.
