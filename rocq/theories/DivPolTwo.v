(** The division polynomials of even index, without their factor, at a point of order 2 *)
From Coq Require Import Ring Field ZArith Lia Arith Bool.
From Verif Require Import DivPolEds DivPolCurve.

Section Two.
Variable K : Type.
Variables k0 k1 : K.
Variables kadd kmul ksub : K -> K -> K.
Variable kopp : K -> K.
Variable kdiv : K -> K -> K.
Variable kinv : K -> K.
Hypothesis Kft : field_theory k0 k1 kadd kmul ksub kopp kdiv kinv eq.
Add Field Kfield : Kft.
Declare Scope K_scope.
Delimit Scope K_scope with K.
Bind Scope K_scope with K.
Local Notation "x + y" := (kadd x y) : K_scope.
Local Notation "x * y" := (kmul x y) : K_scope.
Local Notation "x - y" := (ksub x y) : K_scope.
Local Notation "- x" := (kopp x) : K_scope.
Local Notation "0" := k0 : K_scope.
Local Notation "1" := k1 : K_scope.
Variable iz : nat -> K.
Hypothesis iz0 : iz 0 = 0%K.
Hypothesis izS : forall n, (iz (S n) = 1 + iz n)%K.
Fixpoint kpow (v : K) (n : nat) : K := match n with O => 1%K | S m => (v * kpow v m)%K end.
Lemma kpow_add v m n : kpow v (m + n) = (kpow v m * kpow v n)%K.
Proof. induction m as [|m IH]; cbn [Nat.add kpow]; [ring|]. rewrite IH. ring. Qed.
Definition sgn (j : nat) : K := if Nat.even j then 1%K else (- (1))%K.
Lemma sgn_S j : sgn (S j) = (- sgn j)%K.
Proof. unfold sgn. rewrite Nat.even_succ, <- Nat.negb_even. destruct (Nat.even j); cbn [negb]; ring. Qed.
Lemma sgn_sq j : (sgn j * sgn j = 1)%K.
Proof. unfold sgn. destruct (Nat.even j); ring. Qed.
Lemma iz_add m n : iz (m + n) = (iz m + iz n)%K.
Proof. induction m as [|m IH]; cbn [Nat.add]; rewrite ?iz0, ?izS, ?IH; ring. Qed.
Variable d : nat -> K.
Variable v : K.
Hypothesis Hd : dsys K k0 k1 kmul ksub k0 d.
Hypothesis d3 : (d 3 = - (v * v))%K.
Hypothesis d4 : (d 4 = (1 + 1) * (v * v * v))%K.
Lemma two_val n : 1 <= n ->
  (forall j, n = 2 * j -> d n = (iz j * kpow v (j * j - 1))%K) /\ (forall j, n = 2 * j + 1 -> d n = (sgn j * kpow v (j * j + j))%K).
Proof.
  destruct Hd as (E0 & E1 & E2 & O & E).
  induction n as [n IH] using lt_wf_ind. intros Hn.
  destruct (le_lt_dec n 4) as [L|L].
  { assert (n = 1 \/ n = 2 \/ n = 3 \/ n = 4) as [->|[->|[->| ->]]] by lia; split; intros j Ej; try (exfalso; lia).
    - replace j with 0 by lia. rewrite E1. cbn. ring.
    - replace j with 1 by lia. rewrite E2, izS, iz0. cbn. ring.
    - replace j with 1 by lia. rewrite d3. cbn. ring.
    - replace j with 2 by lia. rewrite d4, !izS, iz0. cbn. ring. }
  assert (EV : forall j, 1 <= j -> 2 * j < n -> d (2 * j) = (iz j * kpow v (j * j - 1))%K) by (intros j H1 H2; apply (IH (2 * j)); lia).
  assert (OD : forall j, 2 * j + 1 < n -> d (2 * j + 1) = (sgn j * kpow v (j * j + j))%K) by (intros j H2; apply (IH (2 * j + 1)); lia).
  split; intros m ->.
  - rewrite E by lia. destruct (Nat.Even_or_Odd m) as [[k ->]|[k ->]].
    + destruct k as [|[|k]]; [lia|lia|]. set (i := S (S k)) in *.
      replace (2 * i + 2) with (2 * (i + 1)) by lia. replace (2 * i - 1) with (2 * (S k) + 1) by lia. replace (2 * i - 2) with (2 * S k) by lia.
      rewrite (EV i), (EV (i + 1)), (OD (S k)), (EV (S k)), (OD i) by lia.
      set (u := kpow v (i * i - 1)). set (u1 := kpow v ((i + 1) * (i + 1) - 1)). set (u2 := kpow v (S k * S k + S k)). set (u3 := kpow v (S k * S k - 1)). set (u4 := kpow v (i * i + i)).
      assert (F1 : kpow v (2 * i * (2 * i) - 1) = (u * (u1 * (u2 * u2)))%K).
      { unfold u, u1, u2. rewrite <- !kpow_add. f_equal. unfold i. nia. }
      assert (F2 : kpow v (2 * i * (2 * i) - 1) = (u * (u3 * (u4 * u4)))%K).
      { unfold u, u3, u4. rewrite <- !kpow_add. f_equal. unfold i. nia. }
      transitivity (iz i * (iz (i + 1) * (u * (u1 * (u2 * u2))) * (sgn (S k) * sgn (S k)) - iz (S k) * (u * (u3 * (u4 * u4))) * (sgn i * sgn i)))%K; [ring|].
      rewrite <- F1, <- F2, !sgn_sq. replace (2 * i) with (i + i) by lia. rewrite !iz_add. replace (iz i) with (1 + iz (S k))%K by (symmetry; apply izS).
      rewrite !izS, iz0. ring.
    + destruct k as [|k]; [lia|]. set (i := S k) in *.
      replace (2 * i + 1 + 2) with (2 * (i + 1) + 1) by lia. replace (2 * i + 1 - 1) with (2 * i) by lia. replace (2 * i + 1 - 2) with (2 * k + 1) by lia.
      replace (2 * i + 1 + 1) with (2 * (i + 1)) by lia.
      rewrite (OD i), (OD (i + 1)), (EV i), (OD k), (EV (i + 1)) by lia.
      set (u := kpow v (i * i + i)). set (u1 := kpow v ((i + 1) * (i + 1) + (i + 1))). set (u2 := kpow v (i * i - 1)). set (u3 := kpow v (k * k + k)). set (u4 := kpow v ((i + 1) * (i + 1) - 1)).
      assert (F1 : kpow v ((2 * i + 1) * (2 * i + 1) - 1) = (u * (u1 * (u2 * u2)))%K).
      { unfold u, u1, u2. rewrite <- !kpow_add. f_equal. unfold i. nia. }
      assert (F2 : kpow v ((2 * i + 1) * (2 * i + 1) - 1) = (u * (u3 * (u4 * u4)))%K).
      { unfold u, u3, u4. rewrite <- !kpow_add. f_equal. unfold i. nia. }
      transitivity ((sgn i * sgn (i + 1)) * (iz i * iz i) * (u * (u1 * (u2 * u2))) - (sgn i * sgn k) * (iz (i + 1) * iz (i + 1)) * (u * (u3 * (u4 * u4))))%K; [ring|].
      rewrite <- F1, <- F2. rewrite Nat.add_1_r, sgn_S. unfold i at 2 3 5. rewrite sgn_S.
      transitivity ((sgn k * sgn k) * (iz (S i) * iz (S i) - iz i * iz i) * kpow v ((2 * i + 1) * (2 * i + 1) - 1))%K; [unfold i; rewrite sgn_S; ring|].
      rewrite sgn_sq. replace (2 * i + 1) with (S (i + i)) at 3 by lia. rewrite !izS, iz_add. ring.
  - rewrite O by lia. cbv zeta. destruct (Nat.Even_or_Odd m) as [[k ->]|[k ->]].
    + replace (Nat.even (2 * k)) with true by (now rewrite Nat.even_mul). destruct k as [|k]; [lia|]. set (i := S k) in *.
      replace (2 * i - 1) with (2 * k + 1) by lia. rewrite (OD k), (OD i) by lia.
      set (u := kpow v (k * k + k)). set (u1 := kpow v (i * i + i)).
      assert (F1 : kpow v (2 * i * (2 * i) + 2 * i) = (u * (u1 * (u1 * u1)))%K).
      { unfold u, u1. rewrite <- !kpow_add. f_equal. unfold i. nia. }
      transitivity (- ((sgn i * sgn i) * (sgn i * sgn k) * (u * (u1 * (u1 * u1)))))%K; [ring|]. rewrite <- F1, sgn_sq. unfold i at 1. rewrite sgn_S.
      replace (sgn (2 * i)) with 1%K by (unfold sgn; now rewrite Nat.even_mul). transitivity ((sgn k * sgn k) * kpow v (2 * i * (2 * i) + 2 * i))%K; [ring|]. rewrite sgn_sq. ring.
    + replace (Nat.even (2 * k + 1)) with false by (now rewrite Nat.even_add, Nat.even_mul).
      replace (2 * k + 1 + 2) with (2 * (k + 1) + 1) by lia. rewrite (OD (k + 1)), (OD k) by lia.
      set (u := kpow v ((k + 1) * (k + 1) + (k + 1))). set (u1 := kpow v (k * k + k)).
      assert (F1 : kpow v ((2 * k + 1) * (2 * k + 1) + (2 * k + 1)) = (u * (u1 * (u1 * u1)))%K).
      { unfold u, u1. rewrite <- !kpow_add. f_equal. nia. }
      transitivity ((sgn k * sgn k) * (sgn (k + 1) * sgn k) * (u * (u1 * (u1 * u1))))%K; [ring|]. rewrite <- F1, sgn_sq. rewrite Nat.add_1_r, sgn_S.
      replace (sgn (2 * k + 1)) with (- (1))%K by (unfold sgn; now rewrite Nat.even_add, Nat.even_mul).
      transitivity (- (sgn k * sgn k) * kpow v ((2 * k + 1) * (2 * k + 1) + (2 * k + 1)))%K; [ring|]. rewrite sgn_sq. ring.
Qed.
End Two.
