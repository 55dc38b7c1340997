(** The claims about square-free classes in the words of the specification. *)
From Coq Require Import ZArith Znumtheory Lia List Bool.
From Verif Require Import Base RatModel LinModel MArithModel BitModel SqfModel SqfSpec SqfProofs SqfMain SqfEnd SqfIndex.
Import ListNotations.
Open Scope Z_scope.
Open Scope res_scope.
Lemma index_main supp n : Forall signprime supp -> NoDup supp -> (length supp <= 32)%nat -> n <> 0 -> exists ix n0,
  makeindex supp n = Ok (ix, Some n0) /\ makenum supp ix = Ok n0 /\ (forall p, In p supp -> prime p -> ((p | n0) <-> oddpow p n)) /\ (n0 < 0 <-> n < 0 /\ In (-1) supp) /\
  (exists bs, length bs = length supp /\ n0 = cprod bs supp) /\ (sgen supp n -> sqclass n n0).
Proof.
  intros F N L Hn. destruct (makeindex_ok supp F n Hn L) as (ix & E & Hix). exists ix, (sprod 0 supp ix). split; auto. split; [apply makenum_ok; auto|]. split; [|split; [|split]].
  - intros p Hp Pp. apply (In_nth _ _ 0) in Hp. destruct Hp as (i & Hi & <-). pose proof (sprod_div supp F N 0 ix i Hi Pp) as Q. cbn [Z.add] in Q. rewrite Q, Hix by auto. unfold want, oddpow, ev. split.
    + intros [(K & _)|(_ & e & (K1 & K2 & K3) & K4)]; [apply prime_ge in Pp; lia|]. exists e. auto.
    + intros (e & K1 & K2 & K3 & K4). right. split; auto. exists e. auto.
  - rewrite (sprod_sign supp F N 0 ix). cbn [Z.add]. split.
    + intros (i & Hi & Ei & T). apply Hix in T; auto. rewrite Ei in T. destruct T as [(_ & T)|(T & _)]; [|destruct (m1_not_prime T)]. split; auto. rewrite <- Ei. apply nth_In; auto.
    + intros (Hs & Hin). apply (In_nth _ _ 0) in Hin. destruct Hin as (i & Hi & Ei). exists i. split; auto. split; auto. apply Hix; auto. rewrite Ei. left. auto.
  - eexists. split; [|apply sprod_cprod]. rewrite map_length, seq_length. reflexivity.
  - intros S. apply (index_class supp F N n ix Hn L Hix S).
Qed.
Lemma makenum_main supp m : Forall signprime supp -> NoDup supp -> (length supp <= 32)%nat -> makenum supp m = Ok (cprod (map (fun i => Z.testbit m (Z.of_nat i)) (seq 0 (length supp))) supp).
Proof. intros F N L. rewrite (makenum_ok supp F N m L), sprod_cprod. reflexivity. Qed.
Lemma sqfmul_main a b : a <> 0 -> b <> 0 -> exists c, sqfmul a b = Ok c /\ a * b = c * Z.gcd a b ^ 2.
Proof.
  intros Ha Hb. unfold sqfmul, zz_div. assert (G : Z.gcd a b <> 0) by (intros Q; apply Z.gcd_eq_0 in Q; tauto). destruct (Z.eqb_spec (Z.gcd a b) 0); [contradiction|]. rewrite !bind_Ok. eexists; split; [reflexivity|].
  pose proof (Z.gcd_divide_l a b) as Dl. pose proof (Z.gcd_divide_r a b) as Dr. set (g := Z.gcd a b) in *. clearbody g. destruct Dl as (x & ->), Dr as (y & ->). rewrite !Z.div_mul by auto. ring.
Qed.
Lemma prime_check p : 1 < p -> forallb (fun k => negb (p mod Z.of_nat k =? 0)) (seq 2 (Z.to_nat p - 2)) = true -> prime p.
Proof.
  intros H C. apply prime_alt. split; auto. intros n Hn D. rewrite forallb_forall in C. specialize (C (Z.to_nat n)). rewrite in_seq in C. specialize (C ltac:(lia)). rewrite Z2Nat.id in C by lia. apply Z.mod_divide in D; [|lia]. rewrite D in C. discriminate.
Qed.
Lemma new_wide ps dd posd : Forall prime ps -> (length (divprimes ps dd) = 30)%nat -> sq_new dd posd ps = Die.
Proof.
  intros F L. destruct (mask_exists (fun p => (p | dd)) (fun p => Zdivide_dec p dd) ps 1 ltac:(lia)) as (m & Hm).
  assert (Bits : forall i, (i < length ps)%nat -> (Z.testbit m (1 + Z.of_nat i) = true <-> (nth i ps 0 | dd))). { intros i Hi. rewrite Hm. replace (Z.to_nat (1 + Z.of_nat i - 1)) with i by lia. split; [tauto|]. intros Q. split; [lia|auto]. }
  destruct (new_fold dd ps F 1 1 0 m Bits) as (E & C). unfold sq_new. rewrite E, bind_Ok, C, L. reflexivity.
Qed.
