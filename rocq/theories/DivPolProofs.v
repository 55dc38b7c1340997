(** The recursion for the division polynomials ends; degrees and leading coefficients. *)
From Coq Require Import ZArith Lia List Bool Arith.
From Verif Require Import Base DivPolModel.
Import ListNotations.
Open Scope Z_scope.

(** ** coefficients *)
Definition co (p : poly) (j : nat) : Z := nth j p 0.
Lemma co_nil j : co [] j = 0. Proof. unfold co. now destruct j. Qed.
Lemma co_add p : forall q j, co (padd p q) j = co p j + co q j.
Proof.
  induction p as [|a p IH]; intros q j; [cbn [padd]; rewrite co_nil; lia|].
  destruct q as [|b q]; cbn [padd]; [rewrite co_nil; lia|]. destruct j; [reflexivity|]. exact (IH q j).
Qed.
Lemma co_scal c p : forall j, co (pscal c p) j = c * co p j.
Proof.
  induction p as [|a p IH]; intros j; [cbn [pscal map]; rewrite co_nil; lia|]. destruct j; [reflexivity|]. exact (IH j).
Qed.
Lemma co_sub p q j : co (psub p q) j = co p j - co q j.
Proof. unfold psub. rewrite co_add, co_scal. lia. Qed.
(** coefficient c at D and none above *)
Definition ld (p : poly) (D : nat) (c : Z) : Prop := co p D = c /\ forall j, (D < j)%nat -> co p j = 0.
Lemma mul_zero p : (forall j, co p j = 0) -> forall q j, co (pmul p q) j = 0.
Proof.
  induction p as [|a p IH]; intros H q j; [apply co_nil|]. cbn [pmul]. rewrite co_add, co_scal.
  rewrite (H O : a = 0). destruct j; [cbn; lia|]. change (co (0 :: pmul p q) (S j)) with (co (pmul p q) j). rewrite IH; [lia|].
  intros i. exact (H (S i)).
Qed.
Lemma ld_mul p : forall q D E c e, ld p D c -> ld q E e -> ld (pmul p q) (D + E) (c * e).
Proof.
  induction p as [|a p IH]; intros q D E c e [H1 H2] [G1 G2].
  { rewrite co_nil in H1. subst c. cbn [pmul]. split; [apply co_nil|intros; apply co_nil]. }
  cbn [pmul]. destruct D as [|D].
  - assert (Z : forall j, co (pmul p q) j = 0) by (apply mul_zero; intros i; apply (H2 (S i)); lia).
    assert (Q : forall j, co (0 :: pmul p q) j = 0) by (intros [|j]; [reflexivity|apply Z]).
    cbn [Nat.add]. split; [rewrite co_add, co_scal, Q, G1; cbn in H1; lia|]. intros j Hj. rewrite co_add, co_scal, Q, G2 by lia. lia.
  - destruct (IH q D E c e) as [I1 I2].
    + split; [exact H1|]. intros j Hj. apply (H2 (S j)). lia.
    + now split.
    + split.
      * rewrite co_add, co_scal, G2 by lia. change (co (0 :: pmul p q) (S D + E)) with (co (pmul p q) (D + E)). lia.
      * intros j Hj. rewrite co_add, co_scal, G2 by lia. destruct j; [lia|].
        change (co (0 :: pmul p q) (S j)) with (co (pmul p q) j). rewrite I2 by lia. lia.
Qed.
Lemma ld_sub p q D c e : ld p D c -> ld q D e -> ld (psub p q) D (c - e).
Proof. intros [H1 H2] [G1 G2]. split; [rewrite co_sub; lia|]. intros j Hj. rewrite co_sub, H2, G2 by lia. lia. Qed.
Lemma ld_eq p D c D' c' : ld p D c -> D = D' -> c = c' -> ld p D' c'.
Proof. now intros H -> ->. Qed.

Section OnE.
Variables a1 a2 a3 a4 a6 : Z.
Local Notation dpo := (div_pol_odd a1 a2 a3 a4 a6).
Local Notation P2 := (div_pol_2 a1 a2 a3 a4 a6).
Local Notation P24 := (psi24 a1 a2 a3 a4 a6).
(** ** the recursion ends, and its result does not depend on the fuel *)
Lemma dpo_total f : forall n, 0 <= n -> (Z.to_nat n < f)%nat -> exists p, forall f', (Z.to_nat n < f')%nat -> dpo f' n = Ok p.
Proof.
  induction f as [f IH] using lt_wf_ind. intros n Hn Hf.
  destruct (Z_le_gt_dec n 4) as [L|L].
  { assert (n = 0 \/ n = 1 \/ n = 2 \/ n = 3 \/ n = 4) as [->|[->|[->|[->| ->]]]] by lia;
    eexists; intros [|f'] Hf'; try (exfalso; lia); reflexivity. }
  assert (R : forall k, 0 <= k < n -> exists p, forall f', (Z.to_nat n <= f')%nat -> dpo f' k = Ok p).
  { intros k Hk. destruct (IH (Z.to_nat n) ltac:(lia) k ltac:(lia) ltac:(lia)) as [p Hp]. exists p. intros f' Hf'. apply Hp. lia. }
  assert (U : forall f', (Z.to_nat n < f')%nat -> exists f'', f' = S f'' /\ (Z.to_nat n <= f'')%nat).
  { intros [|f'] Hf'; [lia|]. exists f'. split; [reflexivity|lia]. }
  assert (N0 : n =? 0 = false) by (apply Z.eqb_neq; lia). assert (N1 : (n =? 1) || (n =? 2) = false) by (apply orb_false_iff; split; apply Z.eqb_neq; lia).
  assert (N3 : n =? 3 = false) by (apply Z.eqb_neq; lia). assert (N4 : n =? 4 = false) by (apply Z.eqb_neq; lia).
  destruct (Z.rem n 2 =? 1) eqn:OD.
  - pose proof (Z.div_mod (n - 1) 2 ltac:(lia)). pose proof (Z.mod_pos_bound (n - 1) 2 ltac:(lia)).
    set (m := Z.quot (n - 1) 2). assert (Em : m = (n - 1) / 2) by (unfold m; rewrite Z.quot_div_nonneg; lia).
    destruct (R m ltac:(lia)) as [p1 H1]. destruct (R (m + 2) ltac:(lia)) as [p2 H2].
    destruct (R (m + 1) ltac:(lia)) as [p3 H3]. destruct (R (m - 1) ltac:(lia)) as [p4 H4].
    eexists. intros f' Hf'. destruct (U f' Hf') as (g & -> & Hg). cbn [div_pol_odd]. rewrite N0, N1, N3, N4, OD. fold m.
    rewrite (H1 g Hg), bind_Ok, (H2 g Hg), bind_Ok, (H3 g Hg), bind_Ok, (H4 g Hg), bind_Ok. reflexivity.
  - pose proof (Z.div_mod n 2 ltac:(lia)). pose proof (Z.mod_pos_bound n 2 ltac:(lia)).
    set (m := Z.quot n 2). assert (Em : m = n / 2) by (unfold m; rewrite Z.quot_div_nonneg; lia).
    destruct (R (m - 1) ltac:(lia)) as [p1 H1]. destruct (R (m + 2) ltac:(lia)) as [p2 H2].
    destruct (R (m + 1) ltac:(lia)) as [p3 H3]. destruct (R (m - 2) ltac:(lia)) as [p4 H4]. destruct (R m ltac:(lia)) as [p5 H5].
    eexists. intros f' Hf'. destruct (U f' Hf') as (g & -> & Hg). cbn [div_pol_odd]. rewrite N0, N1, N3, N4, OD. fold m.
    rewrite (H1 g Hg), bind_Ok, (H2 g Hg), bind_Ok, (H3 g Hg), bind_Ok, (H4 g Hg), bind_Ok, (H5 g Hg), bind_Ok. reflexivity.
Qed.
Definition dp (n : nat) : poly := match dpo (S n) (Z.of_nat n) with Ok p => p | _ => [] end.
Lemma dpo_dp f n : 0 <= n -> (Z.to_nat n < f)%nat -> dpo f n = Ok (dp (Z.to_nat n)).
Proof.
  intros Hn Hf. destruct (dpo_total f n Hn Hf) as [p Hp]. rewrite (Hp f Hf). unfold dp. rewrite Z2Nat.id by lia.
  rewrite (Hp (S (Z.to_nat n)) ltac:(lia)). reflexivity.
Qed.
Lemma dpo_nat f n : (n < f)%nat -> dpo f (Z.of_nat n) = Ok (dp n).
Proof. intros H. rewrite dpo_dp by lia. now rewrite Nat2Z.id. Qed.
Lemma dp0 : dp 0 = [0]. Proof. reflexivity. Qed.
Lemma dp1 : dp 1 = [1]. Proof. reflexivity. Qed.
Lemma dp2 : dp 2 = [1]. Proof. reflexivity. Qed.
Lemma dp3 : dp 3 = div_pol_3 a1 a2 a3 a4 a6. Proof. reflexivity. Qed.
Lemma dp4 : dp 4 = div_pol_4 a1 a2 a3 a4 a6. Proof. reflexivity. Qed.
Definition odd1 (m : nat) := pmul (pmul (pmul (dp (m + 2)) (dp m)) (dp m)) (dp m).
Definition odd2 (m : nat) := pmul (pmul (pmul (dp (m - 1)) (dp (m + 1))) (dp (m + 1))) (dp (m + 1)).
Lemma dp_odd m : (2 <= m)%nat -> dp (2 * m + 1) = if Nat.even m then psub (pmul P24 (odd1 m)) (odd2 m) else psub (odd1 m) (pmul P24 (odd2 m)).
Proof.
  intros Hm. unfold dp at 1. set (n := Z.of_nat (2 * m + 1)).
  assert (N0 : n =? 0 = false) by (apply Z.eqb_neq; lia). assert (N1 : (n =? 1) || (n =? 2) = false) by (apply orb_false_iff; split; apply Z.eqb_neq; lia).
  assert (N3 : n =? 3 = false) by (apply Z.eqb_neq; lia). assert (N4 : n =? 4 = false) by (apply Z.eqb_neq; lia).
  assert (Em : Z.quot (n - 1) 2 = Z.of_nat m).
  { unfold n. replace (Z.of_nat (2 * m + 1) - 1) with (Z.of_nat m * 2) by lia. rewrite Z.quot_mul; lia. }
  assert (OD : Z.rem n 2 =? 1 = true).
  { apply Z.eqb_eq. unfold n. rewrite Z.rem_mod_nonneg by lia. replace (Z.of_nat (2 * m + 1)) with (1 + Z.of_nat m * 2) by lia. now rewrite Z.mod_add by lia. }
  cbn [div_pol_odd]. rewrite N0, N1, N3, N4, OD, Em.
  rewrite (dpo_nat _ m) by lia. rewrite bind_Ok. replace (Z.of_nat m + 2) with (Z.of_nat (m + 2)) by lia. rewrite dpo_nat, bind_Ok by lia.
  replace (Z.of_nat m + 1) with (Z.of_nat (m + 1)) by lia. rewrite dpo_nat, bind_Ok by lia.
  replace (Z.of_nat m - 1) with (Z.of_nat (m - 1)) by lia. rewrite dpo_nat, bind_Ok by lia.
  assert (OM : Z.rem (Z.of_nat m) 2 =? 1 = negb (Nat.even m)).
  { rewrite Z.rem_mod_nonneg, Nat.negb_even by lia. destruct (Nat.Even_or_Odd m) as [[k ->]|[k ->]].
    - replace (Nat.odd (2 * k)) with false by (now rewrite Nat.odd_mul). replace (Z.of_nat (2 * k)) with (Z.of_nat k * 2) by lia. now rewrite Z.mod_mul.
    - replace (Nat.odd (2 * k + 1)) with true by (now rewrite Nat.odd_add, Nat.odd_mul).
      replace (Z.of_nat (2 * k + 1)) with (1 + Z.of_nat k * 2) by lia. now rewrite Z.mod_add. }
  rewrite OM. destruct (Nat.even m); reflexivity.
Qed.
Lemma dp_even m : (3 <= m)%nat -> dp (2 * m) = pmul (dp m) (psub (pmul (pmul (dp (m + 2)) (dp (m - 1))) (dp (m - 1))) (pmul (pmul (dp (m - 2)) (dp (m + 1))) (dp (m + 1)))).
Proof.
  intros Hm. unfold dp at 1. set (n := Z.of_nat (2 * m)).
  assert (N0 : n =? 0 = false) by (apply Z.eqb_neq; lia). assert (N1 : (n =? 1) || (n =? 2) = false) by (apply orb_false_iff; split; apply Z.eqb_neq; lia).
  assert (N3 : n =? 3 = false) by (apply Z.eqb_neq; lia). assert (N4 : n =? 4 = false) by (apply Z.eqb_neq; lia).
  assert (Em : Z.quot n 2 = Z.of_nat m).
  { unfold n. replace (Z.of_nat (2 * m)) with (Z.of_nat m * 2) by lia. rewrite Z.quot_mul; lia. }
  assert (OD : Z.rem n 2 =? 1 = false).
  { apply Z.eqb_neq. unfold n. rewrite Z.rem_mod_nonneg by lia. replace (Z.of_nat (2 * m)) with (Z.of_nat m * 2) by lia. rewrite Z.mod_mul; lia. }
  cbn [div_pol_odd]. rewrite N0, N1, N3, N4, OD, Em.
  replace (Z.of_nat m - 1) with (Z.of_nat (m - 1)) by lia. rewrite dpo_nat, bind_Ok by lia.
  replace (Z.of_nat m + 2) with (Z.of_nat (m + 2)) by lia. rewrite dpo_nat, bind_Ok by lia.
  replace (Z.of_nat m + 1) with (Z.of_nat (m + 1)) by lia. rewrite dpo_nat, bind_Ok by lia.
  replace (Z.of_nat m - 2) with (Z.of_nat (m - 2)) by lia. rewrite dpo_nat, bind_Ok by lia.
  rewrite (dpo_nat _ m) by lia. reflexivity.
Qed.
(** ** degrees and leading coefficients *)
Lemma ld_P2 : ld P2 3 4.
Proof. split; [reflexivity|]. intros [|[|[|[|j]]]] Hj; try lia. apply co_nil. Qed.
Lemma ld_P24 : ld P24 6 16.
Proof.
  unfold psi24. cbv zeta. change 6%nat with (3 + 3)%nat. change 16 with (4 * 4). 
  assert (L : ld (padd (pscal 4 (dp_f1 a2 a4 a6)) (pmul (dp_f2 a1 a3) (dp_f2 a1 a3))) 3 4).
  { cbn [dp_f1 dp_f2 pX padd pmul pscal map]. split; [cbn; lia|]. intros [|[|[|[|j]]]] Hj; try lia. cbn. destruct j; lia. }
  now apply ld_mul.
Qed.
(** the even ones, n = 2j, have degree 2 j^2 - 2, the odd ones, n = 2j+1, degree 2 j^2 + 2 j *)
Lemma dp_ld n : (1 <= n)%nat ->
  (forall j, n = (2 * j)%nat -> ld (dp n) (2 * (j * j) - 2) (Z.of_nat j)) /\ (forall j, n = (2 * j + 1)%nat -> ld (dp n) (2 * (j * j) + 2 * j) (Z.of_nat (2 * j + 1))).
Proof.
  induction n as [n IH] using lt_wf_ind. intros Hn.
  destruct (le_lt_dec n 4) as [L|L].
  { assert (n = 1 \/ n = 2 \/ n = 3 \/ n = 4)%nat as [->|[->|[->| ->]]] by lia; split; intros j Ej; try (exfalso; lia).
    - replace j with 0%nat by lia. split; [reflexivity|]. intros [|i] Hi; [lia|]. apply co_nil.
    - replace j with 1%nat by lia. split; [reflexivity|]. intros [|i] Hi; [lia|]. apply co_nil.
    - replace j with 1%nat by lia. split; [reflexivity|]. intros [|[|[|[|[|i]]]]] Hi; try (cbn in Hi; lia). apply co_nil.
    - replace j with 2%nat by lia. split; [reflexivity|]. intros [|[|[|[|[|[|[|i]]]]]]] Hi; try (cbn in Hi; lia). apply co_nil. }
  assert (EV : forall j, (1 <= j)%nat -> (2 * j < n)%nat -> ld (dp (2 * j)) (2 * (j * j) - 2) (Z.of_nat j)) by (intros j H1 H2; apply (IH (2 * j)%nat); lia).
  assert (OD : forall j, (2 * j + 1 < n)%nat -> ld (dp (2 * j + 1)) (2 * (j * j) + 2 * j) (Z.of_nat (2 * j + 1))) by (intros j H2; apply (IH (2 * j + 1)%nat); lia).
  split; intros m ->.
  - rewrite dp_even by lia. destruct (Nat.Even_or_Odd m) as [[k ->]|[k ->]].
    + destruct k as [|[|k]]; [lia|lia|]. set (i := S (S k)) in *.
      replace (2 * i + 2)%nat with (2 * (i + 1))%nat by lia. replace (2 * i - 1)%nat with (2 * (S k) + 1)%nat by lia. replace (2 * i - 2)%nat with (2 * S k)%nat by lia.
      pose proof (EV i ltac:(lia) ltac:(lia)) as Q0. pose proof (EV (i + 1)%nat ltac:(lia) ltac:(lia)) as Q1. pose proof (OD (S k) ltac:(lia)) as Q2.
      pose proof (EV (S k) ltac:(lia) ltac:(lia)) as Q3. pose proof (OD i ltac:(lia)) as Q4.
      eapply ld_eq; [apply ld_mul; [exact Q0|apply ld_sub; [exact (ld_mul _ _ _ _ _ _ (ld_mul _ _ _ _ _ _ Q1 Q2) Q2)|eapply ld_eq; [exact (ld_mul _ _ _ _ _ _ (ld_mul _ _ _ _ _ _ Q3 Q4) Q4)| |reflexivity]]]| |].
      * unfold i. nia.
      * unfold i. nia.
      * unfold i. nia.
    + destruct k as [|k]; [lia|]. set (i := S k) in *.
      replace (2 * i + 1 + 2)%nat with (2 * (i + 1) + 1)%nat by lia. replace (2 * i + 1 - 1)%nat with (2 * i)%nat by lia. replace (2 * i + 1 - 2)%nat with (2 * k + 1)%nat by lia.
      replace (2 * i + 1 + 1)%nat with (2 * (i + 1))%nat by lia.
      pose proof (OD i ltac:(lia)) as Q0. pose proof (OD (i + 1)%nat ltac:(lia)) as Q1. pose proof (EV i ltac:(lia) ltac:(lia)) as Q2.
      pose proof (OD k ltac:(lia)) as Q3. pose proof (EV (i + 1)%nat ltac:(lia) ltac:(lia)) as Q4.
      eapply ld_eq; [apply ld_mul; [exact Q0|apply ld_sub; [exact (ld_mul _ _ _ _ _ _ (ld_mul _ _ _ _ _ _ Q1 Q2) Q2)|eapply ld_eq; [exact (ld_mul _ _ _ _ _ _ (ld_mul _ _ _ _ _ _ Q3 Q4) Q4)| |reflexivity]]]| |].
      * unfold i. nia.
      * unfold i. nia.
      * unfold i. nia.
  - rewrite dp_odd by lia. unfold odd1, odd2. destruct (Nat.Even_or_Odd m) as [[k ->]|[k ->]].
    + replace (Nat.even (2 * k)) with true by (now rewrite Nat.even_mul). destruct k as [|k]; [lia|]. set (i := S k) in *.
      replace (2 * i + 2)%nat with (2 * (i + 1))%nat by lia. replace (2 * i - 1)%nat with (2 * k + 1)%nat by lia.
      pose proof (EV i ltac:(lia) ltac:(lia)) as Q0. pose proof (EV (i + 1)%nat ltac:(lia) ltac:(lia)) as Q1. pose proof (OD k ltac:(lia)) as Q2.
      pose proof (OD i ltac:(lia)) as Q3.
      pose proof (ld_mul _ _ _ _ _ _ ld_P24 (ld_mul _ _ _ _ _ _ (ld_mul _ _ _ _ _ _ (ld_mul _ _ _ _ _ _ Q1 Q0) Q0) Q0)) as R1.
      pose proof (ld_mul _ _ _ _ _ _ (ld_mul _ _ _ _ _ _ (ld_mul _ _ _ _ _ _ Q2 Q3) Q3) Q3) as R2.
      eapply ld_eq; [apply ld_sub; [exact R1|eapply ld_eq; [exact R2| |reflexivity]]| |].
      * unfold i. nia.
      * unfold i. nia.
      * unfold i. nia.
    + replace (Nat.even (2 * k + 1)) with false by (now rewrite Nat.even_add, Nat.even_mul). destruct k as [|k]; [lia|]. set (i := S k) in *.
      replace (2 * i + 1 + 2)%nat with (2 * (i + 1) + 1)%nat by lia. replace (2 * i + 1 - 1)%nat with (2 * i)%nat by lia.
      replace (2 * i + 1 + 1)%nat with (2 * (i + 1))%nat by lia.
      pose proof (OD i ltac:(lia)) as Q0. pose proof (OD (i + 1)%nat ltac:(lia)) as Q1. pose proof (EV i ltac:(lia) ltac:(lia)) as Q2.
      pose proof (EV (i + 1)%nat ltac:(lia) ltac:(lia)) as Q3.
      pose proof (ld_mul _ _ _ _ _ _ (ld_mul _ _ _ _ _ _ (ld_mul _ _ _ _ _ _ Q1 Q0) Q0) Q0) as R1.
      pose proof (ld_mul _ _ _ _ _ _ ld_P24 (ld_mul _ _ _ _ _ _ (ld_mul _ _ _ _ _ _ (ld_mul _ _ _ _ _ _ Q2 Q3) Q3) Q3)) as R2.
      eapply ld_eq; [apply ld_sub; [exact R1|eapply ld_eq; [exact R2| |reflexivity]]| |].
      * unfold i. nia.
      * unfold i. nia.
      * unfold i. nia.
Qed.
End OnE.
