(** makenum and makeindex on a list of -1 and distinct primes. *)
From Coq Require Import ZArith Znumtheory Lia List Bool.
From Verif Require Import Base RatModel LinModel LinProofs MArithModel MArithProofs BitModel BitSpec BitProofs SqfModel SqfSpec SqfProofs SqfMain.
Import ListNotations.
Open Scope Z_scope.
Open Scope res_scope.

Section Supp.
Variable supp : list Z.
Hypothesis F : Forall okx supp.
Hypothesis N : NoDup supp.
Notation len := (length supp).
Lemma deref_supp i : (i < len)%nat -> deref supp i = Ok (nth i supp 0).
Proof. intros H. unfold deref. rewrite (nth_error_nth' supp 0 H). reflexivity. Qed.
Lemma nth_okx i : (i < len)%nat -> okx (nth i supp 0).
Proof. intros H. apply Forall_nth; auto. Qed.
Lemma makenum_fold m n : (n <= len)%nat -> (n <= 32)%nat ->
  mfold (fun ans i => t <- testbit_ m (Z.of_nat i) ;; if t : bool then s <- deref supp i ;; sqfmul ans s else Ok ans) (seq 0 n) 1 = Ok (sprod 0 supp (m mod 2 ^ Z.of_nat n)).
Proof.
  intros L1 L2. destruct (mfold_seq (fun i a => a = sprod 0 supp (m mod 2 ^ Z.of_nat i)) (fun ans i => t <- testbit_ m (Z.of_nat i) ;; if t : bool then s <- deref supp i ;; sqfmul ans s else Ok ans) 0 n 1) as (a & E & Ha).
  - rewrite sprod_1; auto. intros i Hi. change (2 ^ Z.of_nat 0) with 1. rewrite Z.mod_1_r. apply Z.bits_0.
  - intros k a Hk ->. rewrite testbit_ok by lia. rewrite bind_Ok.
    assert (B : forall j, 0 <= j -> Z.testbit (m mod 2 ^ Z.of_nat (k + 1)) j = if j =? Z.of_nat k then Z.testbit m j else Z.testbit (m mod 2 ^ Z.of_nat k) j).
    { intros j Hj. destruct (Z.eqb_spec j (Z.of_nat k)) as [->|n']; [rewrite Z.mod_pow2_bits_low by lia; auto|]. destruct (Z.lt_ge_cases j (Z.of_nat k)); [rewrite !Z.mod_pow2_bits_low by lia|rewrite !Z.mod_pow2_bits_high by lia]; auto. }
    destruct (Z.testbit m (Z.of_nat k)) eqn:T.
    + rewrite deref_supp, bind_Ok by lia. pose proof (sprod_pow2 supp 0 k ltac:(lia) ltac:(lia)) as Q. change (0 + Z.of_nat k) with (Z.of_nat k) in Q. rewrite <- Q, (sqfmul_ok supp _ _ F N). eexists; split; [reflexivity|]. apply sprod_ext. intros i Hi. cbn [Z.add]. rewrite flip_bit, B by lia. destruct (Z.eqb_spec i (Z.of_nat k)) as [->|n']; [|apply xorb_false_r]. rewrite Z.mod_pow2_bits_high by lia. rewrite T. reflexivity.
    + eexists; split; [reflexivity|]. apply sprod_ext. intros i Hi. cbn [Z.add]. rewrite B by lia. destruct (Z.eqb_spec i (Z.of_nat k)) as [->|n']; auto. rewrite Z.mod_pow2_bits_high by lia. auto.
  - rewrite E, Ha. reflexivity.
Qed.
Lemma sprod_mod m n : (len <= n)%nat -> sprod 0 supp (m mod 2 ^ Z.of_nat n) = sprod 0 supp m.
Proof. intros H. apply sprod_ext. intros i Hi. cbn [Z.add]. apply Z.mod_pow2_bits_low. lia. Qed.
Lemma makenum_ok m : (len <= 32)%nat -> makenum supp m = Ok (sprod 0 supp m).
Proof. intros H. unfold makenum. rewrite makenum_fold by lia. rewrite sprod_mod by lia. reflexivity. Qed.
Lemma makenum_wide m : (32 < len)%nat -> makenum supp m = UB.
Proof.
  intros H. unfold makenum. replace len with (32 + S (len - 33))%nat by lia. rewrite seq_app. pose proof (makenum_fold m 32 ltac:(lia) ltac:(lia)) as Q. cbn [Nat.add]. cbn [seq]. change (seq 0 32) with (seq 0 32) in Q.
  assert (G : forall {A B} (f : A -> B -> res A) l l' a a', mfold f l a = Ok a' -> mfold f (l ++ l') a = mfold f l' a'). { clear. induction l as [|b l IH]; intros l' a a' E; cbn [mfold app] in *; [injection E as ->; auto|]. destruct (f a b) as [x| | |]; try discriminate. rewrite bind_Ok in *. apply IH, E. }
  erewrite G by exact Q. cbn [mfold]. unfold testbit_, shl1. change ((Z.of_nat 32 <? 0) || (32 <=? Z.of_nat 32)) with true. reflexivity.
Qed.
(** products of chosen entries *)
Lemma sprod_cprod : forall l k m, sprod k l m = cprod (map (fun i => Z.testbit m (k + Z.of_nat i)) (seq 0 (length l))) l.
Proof.
  induction l as [|s l IH]; intros k m; cbn [sprod length seq map cprod]; auto. rewrite Z.add_0_r. f_equal. rewrite IH, <- seq_shift, map_map. f_equal. apply map_ext. intros i. f_equal. lia.
Qed.
Lemma cprod_sprod l : forall k bs, 0 <= k -> length bs = length l -> exists m, cprod bs l = sprod k l m /\ forall j, Z.testbit m j = true -> k <= j.
Proof.
  induction l as [|s l IH]; intros k [|b bs] Hk L; cbn [length] in L; try discriminate; cbn [cprod sprod].
  - exists 0. split; auto. intros j. rewrite Z.bits_0. discriminate.
  - destruct (IH (k + 1) bs ltac:(lia) ltac:(lia)) as (m & E & Hm). assert (M0 : Z.testbit m k = false) by (destruct (Z.testbit m k) eqn:T; auto; apply Hm in T; lia).
    destruct b.
    + exists (Z.lxor m (2 ^ k)). rewrite flip_bit, M0, Z.eqb_refl by auto. cbn [xorb]. split; [f_equal; rewrite E; apply sprod_ext; intros i Hi; rewrite flip_bit by auto; destruct (Z.eqb_spec (k + 1 + i) k); [lia|symmetry; apply xorb_false_r]|]. intros j. rewrite flip_bit by auto. destruct (Z.eqb_spec j k) as [->|n]; [lia|]. rewrite xorb_false_r. intros Q. apply Hm in Q. lia.
    + exists m. rewrite M0, E. split; auto. intros j Q. apply Hm in Q. lia.
Qed.
Lemma sprod_sign : forall l, Forall okx l -> NoDup l -> forall k m, sprod k l m < 0 <-> exists i, (i < length l)%nat /\ nth i l 0 = -1 /\ Z.testbit m (k + Z.of_nat i) = true.
Proof.
  induction 1 as [|s l H Hl IH]; intros Nd k m; cbn [sprod length].
  - split; [lia|]. intros (i & Hi & _). lia.
  - inversion Nd as [|? ? N1 N2]; subst. specialize (IH N2 (k + 1) m). pose proof (sprod_nz l Hl (k + 1) m) as Nz. destruct H as [->|Hp].
    + assert (Hpos : 0 < sprod (k + 1) l m). { destruct (Z.lt_ge_cases (sprod (k + 1) l m) 0) as [Q|Q]; [|lia]. apply IH in Q. destruct Q as (i & Hi & E & _). exfalso. apply N1. rewrite <- E. apply nth_In; auto. }
      destruct (Z.testbit m k) eqn:T.
      * split; [|lia]. intros _. exists 0%nat. rewrite Z.add_0_r. split; [lia|auto].
      * split; [lia|]. intros ([|i] & Hi & E & Q); [rewrite Z.add_0_r in Q; congruence|]. exfalso. apply N1. cbn [nth] in E. rewrite <- E. apply nth_In; lia.
    + apply prime_ge in Hp. assert (Eq : (if Z.testbit m k then s else 1) * sprod (k + 1) l m < 0 <-> sprod (k + 1) l m < 0) by (destruct (Z.testbit m k); nia). rewrite Eq, IH. split.
      * intros (i & Hi & E & Q). exists (S i). cbn [nth]. split; [lia|]. split; auto. rewrite <- Q. f_equal. lia.
      * intros ([|i] & Hi & E & Q); [cbn [nth] in E; lia|]. exists i. cbn [nth] in E. split; [lia|]. split; auto. rewrite <- Q. f_equal. lia.
Qed.
Definition want (n s : Z) : Prop := (s = -1 /\ n < 0) \/ (prime s /\ exists e, ev s e n /\ Z.odd e = true).
Lemma m1_not_prime : ~ prime (-1). Proof. intros H. apply prime_ge in H. lia. Qed.
Lemma setbit_ok ix i : 0 <= i < 32 -> exists ix', setbit_ ix i = Ok ix' /\ forall k, 0 <= k < 32 -> Z.testbit ix' k = Z.testbit ix k || (k =? i).
Proof. intros H. unfold setbit_. destruct (shl1_ok i H) as (s & -> & Hs). rewrite bind_Ok. eexists; split; [reflexivity|]. intros k Hk. rewrite Z.lor_spec, Hs by auto. reflexivity. Qed.
Lemma makeindex_ok n : n <> 0 -> (len <= 32)%nat -> exists ix, makeindex supp n = Ok (ix, Some (sprod 0 supp ix)) /\ forall i, (i < len)%nat -> (Z.testbit ix (Z.of_nat i) = true <-> want n (nth i supp 0)).
Proof.
  intros Hn HL. unfold makeindex. destruct (Z.eqb_spec n 0) as [?|Nn]; [contradiction|].
  match goal with |- context [mfold ?f (seq 0 len) (0, 1)] => set (g := f) end.
  destruct (mfold_seq (fun i '(ix, n0) => n0 = sprod 0 supp ix /\ forall j, 0 <= j < 32 -> (Z.testbit ix j = true <-> j < Z.of_nat i /\ want n (nth (Z.to_nat j) supp 0))) g 0 len (0, 1)) as ((ix & n0) & E & H1 & H2).
  - split; [rewrite sprod_1; auto; intros; apply Z.bits_0|]. intros j Hj. rewrite Z.bits_0. split; [discriminate|lia].
  - intros k (ix & n0) Hk (-> & H2). assert (T0 : Z.testbit ix (Z.of_nat k) = false) by (destruct (Z.testbit ix (Z.of_nat k)) eqn:T; auto; apply H2 in T; lia).
    assert (St : forall b, (b = true <-> want n (nth k supp 0)) -> exists ix', (if b then setbit_ ix (Z.of_nat k) else Ok ix) = Ok ix' /\ sprod 0 supp ix' = (if b then nth k supp 0 else 1) * sprod 0 supp ix /\ forall j, 0 <= j < 32 -> (Z.testbit ix' j = true <-> j < Z.of_nat (k + 1) /\ want n (nth (Z.to_nat j) supp 0))).
    { intros b Hb. destruct b.
      - destruct (setbit_ok ix (Z.of_nat k) ltac:(lia)) as (ix' & Es & Hs). exists ix'. split; auto. split.
        + pose proof (sprod_flip supp 0 ix k ltac:(lia) ltac:(lia) T0) as Q. change (0 + Z.of_nat k) with (Z.of_nat k) in Q. rewrite <- Q. apply sprod_ext. intros i Hi. cbn [Z.add]. rewrite Hs, flip_bit by lia. destruct (Z.eqb_spec i (Z.of_nat k)) as [->|]; [rewrite T0; reflexivity|]. rewrite orb_false_r, xorb_false_r. reflexivity.
        + intros j Hj. rewrite Hs, orb_true_iff, H2, Z.eqb_eq by auto. split; [intros [(Q1 & Q2)| ->]; (split; [lia|auto]); rewrite Nat2Z.id; tauto|]. intros (Q1 & Q2). destruct (Z.eq_dec j (Z.of_nat k)); [auto|left; split; [lia|auto]].
      - exists ix. split; auto. split; [ring|]. intros j Hj. rewrite H2 by auto. split; [intros (Q1 & Q2); split; [lia|auto]|]. intros (Q1 & Q2). split; auto. destruct (Z.eq_dec j (Z.of_nat k)) as [->|]; [|lia]. rewrite Nat2Z.id in Q2. apply Hb in Q2. discriminate. }
    unfold g. rewrite deref_supp, bind_Ok by lia. destruct (nth_okx k ltac:(lia)) as [Em|Hp].
    + rewrite Em in *. change (-1 <? 0) with true. cbv iota. destruct (St (n <? 0)) as (ix' & Es & Ep & Hs). { rewrite Z.ltb_lt. unfold want. split; auto. intros [(_ & Q)|(Q & _)]; auto. destruct (m1_not_prime Q). }
      revert Es Ep. destruct (n <? 0); intros Es Ep.
      * rewrite Es, bind_Ok. eexists. split; [reflexivity|]. cbv beta iota. split; [rewrite Ep; ring|exact Hs].
      * injection Es as <-. eexists. split; [reflexivity|]. cbv beta iota. split; [reflexivity|exact Hs].
    + pose proof (prime_ge _ Hp). destruct (Z.ltb_spec (nth k supp 0) 0); [lia|]. destruct (ev_val (nth k supp 0) n Hp Hn) as (e & -> & He). rewrite bind_Ok.
      destruct (St (Z.odd e)) as (ix' & Es & Ep & Hs). { unfold want. split; [intros Q; right; split; eauto|]. intros [(Q & _)|(_ & e' & He' & Q)]; [lia|]. rewrite (ev_unique _ e e' n Hp Hn He He'). exact Q. }
      revert Es Ep. destruct (Z.odd e); intros Es Ep.
      * rewrite Es, bind_Ok. eexists. split; [reflexivity|]. cbv beta iota. split; [rewrite Ep; ring|exact Hs].
      * injection Es as <-. eexists. split; [reflexivity|]. cbv beta iota. split; [reflexivity|exact Hs].
  - rewrite E, bind_Ok. exists ix. rewrite H1. split; auto. intros i Hi. rewrite H2 by lia. rewrite Nat2Z.id. cbn [Nat.add]. split; [tauto|]. intros Q. split; [lia|auto].
Qed.
Lemma class_sign a b : sqclass a b -> (a < 0 <-> b < 0).
Proof. intros (x & y & Hx & Hy & E). assert (0 < x ^ 2) by nia. assert (0 < y ^ 2) by nia. split; intros Q; nia. Qed.
Lemma index_class n ix : n <> 0 -> (len <= 32)%nat -> (forall i, (i < len)%nat -> (Z.testbit ix (Z.of_nat i) = true <-> want n (nth i supp 0))) -> sgen supp n -> sqclass n (sprod 0 supp ix).
Proof.
  intros Hn HL Hix (bs & L & C). destruct (cprod_sprod supp 0 bs ltac:(lia) L) as (m & E & _). rewrite E in C. replace (sprod 0 supp ix) with (sprod 0 supp m); auto. apply sprod_ext. intros i Hi. cbn [Z.add]. replace i with (Z.of_nat (Z.to_nat i)) by lia. set (k := Z.to_nat i). assert (Hk : (k < len)%nat) by lia. apply eq_true_iff_eq. rewrite Hix by auto. clearbody k. clear i Hi.
  destruct (nth_okx k Hk) as [Em|Hp].
  - assert (S1 : n < 0 <-> Z.testbit m (Z.of_nat k) = true). { rewrite (class_sign _ _ C), (sprod_sign supp F N 0 m). cbn [Z.add]. split; [|intros Q; exists k; auto]. intros (j & Hj & Ej & Q). replace k with j; auto. apply (proj1 (NoDup_nth supp 0) N); auto. congruence. }
    rewrite <- S1. unfold want. rewrite Em. split; [auto|]. intros [(_ & Q)|(Q & _)]; auto. destruct (m1_not_prime Q).
  - pose proof (sprod_nz supp F 0 m) as Nz. assert (Sq : ~ (nth k supp 0 * nth k supp 0 | sprod 0 supp m)) by (apply sprod_sqf; auto). pose proof (sprod_div supp F N 0 m k Hk Hp) as Dv. cbn [Z.add] in Dv. rewrite <- Dv. unfold want. destruct (ev_val (nth k supp 0) n Hp Hn) as (e & _ & He). pose proof (ev_class _ n _ e Hp Hn Nz C Sq He) as Q. split.
    + intros K. right. split; auto. exists e. split; auto. apply Q. exact K.
    + intros [(K & _)|(_ & e' & He' & K)]; [apply prime_ge in Hp; lia|]. apply Q. rewrite (ev_unique _ e e' n Hp Hn He He'). exact K.
Qed.
End Supp.
