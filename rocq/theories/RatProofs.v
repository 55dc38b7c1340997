(** Proofs about RatModel, with Coq's QArith as the specification. *)
From Coq Require Import ZArith Lia Bool Znumtheory QArith.
From Verif Require Import Base ArithModel ArithProofs RatModel.
Open Scope Z_scope.
Open Scope res_scope.

(** *** Specification *)
(** Lowest terms, positive denominator. *)
Definition canonical (q : rat) : Prop := 0 < snd q /\ Z.gcd (fst q) (snd q) = 1.
(** The rational number denoted (den > 0). *)
Definition qval (q : rat) : Q := (fst q) # (Z.to_pos (snd q)).

Lemma qval_eq_cross n1 d1 n2 d2 :
  0 < d1 -> 0 < d2 -> ((qval (n1, d1) == qval (n2, d2))%Q <-> n1 * d2 = n2 * d1).
Proof.
  intros H1 H2. unfold qval, Qeq. cbn [fst snd Qnum Qden].
  rewrite !Z2Pos.id by auto. tauto.
Qed.

(** Two canonical pairs denoting the same number are identical. *)
Lemma canonical_inj q1 q2 :
  canonical q1 -> canonical q2 -> (qval q1 == qval q2)%Q -> q1 = q2.
Proof.
  destruct q1 as [n1 d1], q2 as [n2 d2]. intros [P1 G1] [P2 G2] E.
  cbn [fst snd] in *. rewrite qval_eq_cross in E by auto.
  assert (D1 : (d1 | d2)).
  { apply (Gauss d1 n1 d2); [exists n2; exact E|].
    apply rel_prime_sym, Zgcd_1_rel_prime; auto. }
  assert (D2 : (d2 | d1)).
  { apply (Gauss d2 n2 d1); [exists n1; symmetry; exact E|].
    apply rel_prime_sym, Zgcd_1_rel_prime; auto. }
  assert (d1 = d2) by (apply Z.divide_antisym_nonneg; auto; lia). subst d2.
  f_equal. apply (Z.mul_reg_r _ _ d1); lia.
Qed.

(** Dividing by the gcd and fixing the sign. *)
Lemma reduce_by_gcd n d g n' d' :
  d <> 0 -> g = Z.gcd n d -> n = n' * g -> d = d' * g -> Z.gcd n' d' = 1.
Proof.
  intros Hd -> En Ed.
  assert (G : Z.gcd n d <> 0) by (intros E; apply Z.gcd_eq_0 in E; lia).
  pose proof (Z.gcd_nonneg n d).
  assert (En' : n' = n / Z.gcd n d) by (rewrite En at 1; now rewrite Z.div_mul).
  assert (Ed' : d' = d / Z.gcd n d) by (rewrite Ed at 1; now rewrite Z.div_mul).
  rewrite En', Ed'. now apply Z.gcd_div_gcd.
Qed.

(** *** Partial correctness of gcd, with no range hypothesis *)
Lemma rem64_inv a b r : rem64 a b = Ok r -> b <> 0 /\ r = Z.rem a b.
Proof.
  unfold rem64. destruct (Z.eqb_spec b 0); [discriminate|].
  destruct (in64b _); [|discriminate]. intros H; inversion H; auto.
Qed.
Lemma quot64_inv a b r : quot64 a b = Ok r -> b <> 0 /\ r = Z.quot a b.
Proof.
  unfold quot64. destruct (Z.eqb_spec b 0); [discriminate|].
  intros H; apply c64_inv in H. tauto.
Qed.

Lemma gcd_long_partial a b g : gcd_long a b = Ok g -> g = Z.gcd a b.
Proof.
  unfold gcd_long.
  destruct (Z.eqb_spec a 1) as [->|]; [cbn [orb]; intros H; inversion H; now rewrite Z.gcd_1_l|].
  destruct (Z.eqb_spec b 1) as [->|];
    [rewrite orb_true_r; intros H; inversion H; now rewrite Z.gcd_1_r|].
  cbn [orb]. destruct (Z.eqb_spec a 0) as [->|].
  { intros H. apply c64_inv in H as [-> _]. reflexivity. }
  intros H. apply bind_ok in H as (x & Hx & H). apply c64_inv in H as [-> _].
  revert Hx.
  apply (while_partial gcd_step (fun s => Z.gcd (fst s) (snd s) = Z.gcd a b)
           (fun x => Z.abs x = Z.gcd a b)); [| |reflexivity].
  - intros [u v] s' Hs. cbn [fst snd] in Hs. unfold gcd_step.
    destruct (Z.eqb_spec v 0); [discriminate|]. intros H.
    apply bind_ok in H as (c & Hc & H). inversion H; subst.
    apply rem64_inv in Hc as [Hv ->]. cbn [fst snd]. now rewrite gcd_rem.
  - intros [u v] r Hs. cbn [fst snd] in Hs. unfold gcd_step.
    destruct (Z.eqb_spec v 0) as [->|].
    + intros H; inversion H; subst. now rewrite Z.gcd_0_r in Hs.
    + intros H. apply bind_ok in H as (c & Hc & H). inversion H.
Qed.

(** *** cancel *)
Lemma cancel_math n d n' d' :
  d <> 0 ->
  (exists g s, g = Z.gcd n d /\ (s = 1 \/ s = -1) /\ n = s * n' * g /\ d = s * d' * g /\ 0 < d') ->
  canonical (n', d') /\ n' * d = n * d'.
Proof.
  intros Hd (g & s & Hg & Hs & En & Ed & Hp). split.
  - split; [auto|]. cbn [fst snd].
    assert (G : Z.gcd (s * n') (s * d') = 1) by (eapply reduce_by_gcd; eauto).
    rewrite Z.gcd_mul_mono_l in G. destruct Hs as [-> | ->]; lia.
  - rewrite En, Ed. ring.
Qed.

Lemma rat_cancel_partial n d q :
  d <> 0 -> rat_cancel (n, d) = Ok q -> canonical q /\ fst q * d = n * snd q.
Proof.
  intros Hd. unfold rat_cancel. intros H.
  apply bind_ok in H as (g & Hg & H). apply gcd_long_partial in Hg.
  assert (G0 : g <> 0) by (intros E; rewrite E in Hg; symmetry in Hg; apply Z.gcd_eq_0 in Hg; lia).
  assert (Gp : 0 < g) by (pose proof (Z.gcd_nonneg n d); lia).
  destruct (Z.gcd_divide_l n d) as [a Ha]. destruct (Z.gcd_divide_r n d) as [b Hb].
  rewrite <- Hg in Ha, Hb.
  apply bind_ok in H as ([n1 d1] & H1 & H).
  assert (E1 : n1 = a /\ d1 = b).
  { destruct (Z.ltb_spec 1 g).
    - apply bind_ok in H1 as (x & Hx & H1). apply bind_ok in H1 as (y & Hy & H1).
      apply quot64_inv in Hx as [_ ->]. apply quot64_inv in Hy as [_ ->].
      inversion H1. split.
      + rewrite Ha at 1. now rewrite Z.quot_mul.
      + rewrite Hb at 1. now rewrite Z.quot_mul.
    - inversion H1. assert (G1 : g = 1) by lia. rewrite G1 in Ha, Hb. lia. }
  destruct E1 as [-> ->].
  assert (b <> 0) by (intros ->; lia).
  destruct (Z.ltb_spec b 0).
  - apply bind_ok in H as (x & Hx & H). apply bind_ok in H as (y & Hy & H).
    apply c64_inv in Hx as [-> _]. apply c64_inv in Hy as [-> _]. inversion H; subst q.
    apply cancel_math; auto. exists g, (-1). cbn [fst snd]. repeat split; auto; lia.
  - inversion H; subst q. apply cancel_math; auto. exists g, 1. cbn [fst snd]. repeat split; auto; lia.
Qed.

Lemma rat_cancel_total n d : sym64 n -> sym64 d -> exists q, rat_cancel (n, d) = Ok q.
Proof.
  intros Hn Hd. unfold rat_cancel. rewrite gcd_long_ok by auto. rewrite bind_Ok.
  pose proof (Z.gcd_nonneg n d).
  assert (exists n1 d1, (if 1 <? Z.gcd n d
     then n' <- quot64 n (Z.gcd n d) ;; d' <- quot64 d (Z.gcd n d) ;; Ok (n', d')
     else Ok (n, d)) = Ok (n1, d1) /\ sym64 n1 /\ sym64 d1) as (n1 & d1 & -> & Hn1 & Hd1).
  { destruct (Z.ltb_spec 1 (Z.gcd n d)); [|eauto].
    pose proof (quot_abs_le n (Z.gcd n d) ltac:(lia)).
    pose proof (quot_abs_le d (Z.gcd n d) ltac:(lia)).
    rewrite quot64_ok by (try lia; now apply sym64_in). rewrite bind_Ok.
    rewrite quot64_ok by (try lia; now apply sym64_in). rewrite bind_Ok.
    eexists _, _. split; [reflexivity|]. unfold sym64 in *. lia. }
  rewrite bind_Ok. destruct (d1 <? 0); [|eauto].
  unfold sym64 in *.
  rewrite neg64_ok by rg. rewrite bind_Ok. rewrite neg64_ok by rg. rewrite bind_Ok. eauto.
Qed.

Lemma brat_cancel_ok n d :
  d <> 0 -> exists q, brat_cancel (n, d) = Ok q /\ canonical q /\ fst q * d = n * snd q.
Proof.
  intros Hd. unfold brat_cancel.
  assert (G0 : Z.gcd n d <> 0) by (intros E; apply Z.gcd_eq_0 in E; lia).
  pose proof (Z.gcd_nonneg n d).
  destruct (Z.gcd_divide_l n d) as [a Ha]. destruct (Z.gcd_divide_r n d) as [b Hb].
  assert (E : (if 1 <? Z.gcd n d
     then n' <- zz_div n (Z.gcd n d) ;; d' <- zz_div d (Z.gcd n d) ;; Ok (n', d')
     else Ok (n, d)) = Ok (a, b)).
  { destruct (Z.ltb_spec 1 (Z.gcd n d)).
    - unfold zz_div. destruct (Z.eqb_spec (Z.gcd n d) 0); [lia|].
      rewrite !bind_Ok. do 2 f_equal.
      + rewrite Ha at 1. now rewrite Z.div_mul.
      + rewrite Hb at 1. now rewrite Z.div_mul.
    - assert (G1 : Z.gcd n d = 1) by lia. rewrite G1 in Ha, Hb. do 2 f_equal; lia. }
  rewrite E, bind_Ok.
  assert (b <> 0) by (intros ->; lia).
  destruct (Z.ltb_spec b 0).
  - eexists; split; [reflexivity|].
    apply cancel_math; auto. exists (Z.gcd n d), (-1). cbn [fst snd]. repeat split; auto; lia.
  - eexists; split; [reflexivity|].
    apply cancel_math; auto. exists (Z.gcd n d), 1. cbn [fst snd]. repeat split; auto; lia.
Qed.

(** *** Arithmetic *)
Lemma qval_of_cross n d n0 d0 :
  0 < d -> 0 < d0 -> n * d0 = n0 * d -> (qval (n, d) == qval (n0, d0))%Q.
Proof. intros. apply qval_eq_cross; auto. Qed.

Lemma qval_cross_neg n d n0 d0 :
  0 < d -> d0 < 0 -> n * d0 = n0 * d -> (qval (n, d) == qval (- n0, - d0)%Z)%Q.
Proof. intros. apply qval_eq_cross; lia. Qed.

Lemma qval_add n1 d1 n2 d2 :
  0 < d1 -> 0 < d2 -> (qval (n1 * d2 + n2 * d1, d1 * d2)%Z == qval (n1, d1) + qval (n2, d2))%Q.
Proof.
  intros H1 H2. unfold qval, Qeq, Qplus. cbn [fst snd Qnum Qden].
  rewrite Pos2Z.inj_mul, !Z2Pos.id by (auto; apply Z.mul_pos_pos; auto). ring.
Qed.
Lemma qval_sub n1 d1 n2 d2 :
  0 < d1 -> 0 < d2 -> (qval (n1 * d2 - n2 * d1, d1 * d2)%Z == qval (n1, d1) - qval (n2, d2))%Q.
Proof.
  intros H1 H2. unfold qval, Qeq, Qminus, Qplus, Qopp. cbn [fst snd Qnum Qden].
  rewrite Pos2Z.inj_mul, !Z2Pos.id by (auto; apply Z.mul_pos_pos; auto). ring.
Qed.
Lemma qval_mul n1 d1 n2 d2 :
  0 < d1 -> 0 < d2 -> (qval (n1 * n2, d1 * d2)%Z == qval (n1, d1) * qval (n2, d2))%Q.
Proof.
  intros H1 H2. unfold qval, Qeq, Qmult. cbn [fst snd Qnum Qden].
  rewrite Pos2Z.inj_mul, !Z2Pos.id by (auto; apply Z.mul_pos_pos; auto). ring.
Qed.
Lemma qval_div n1 d1 n2 d2 n d :
  0 < d1 -> 0 < d2 -> n2 <> 0 -> 0 < d -> n * (d1 * n2) = n1 * d2 * d ->
  (qval (n, d) == qval (n1, d1) / qval (n2, d2))%Q.
Proof.
  intros H1 H2 H3 H4 E.
  unfold qval, Qdiv, Qinv. cbn [fst snd Qnum Qden].
  destruct n2 as [|p|p]; [lia| |];
    unfold Qeq, Qmult; cbn [Qnum Qden]; rewrite Pos2Z.inj_mul, !Z2Pos.id by auto.
  - rewrite <- E. ring.
  - change (Z.neg (Z.to_pos d2)) with (- Z.pos (Z.to_pos d2)). rewrite Z2Pos.id by auto.
    change (Z.neg p) with (- Z.pos p) in E. lia.
Qed.

Definition op_spec (f : rat -> rat -> res rat) (qf : Q -> Q -> Q) (side : rat -> Prop) : Prop :=
  forall q1 q2 q, canonical q1 -> canonical q2 -> side q2 -> f q1 q2 = Ok q ->
    canonical q /\ (qval q == qf (qval q1) (qval q2))%Q.

Lemma rat_add_partial : op_spec rat_add Qplus (fun _ => True).
Proof.
  intros [n1 d1] [n2 d2] q [P1 _] [P2 _] _ H. cbn [fst snd] in *. unfold rat_add in H.
  apply bind_ok in H as (a & Ha & H). apply bind_ok in H as (b & Hb & H).
  apply bind_ok in H as (n & Hn & H). apply bind_ok in H as (d & Hd & H).
  apply c64_inv in Ha as [-> _]. apply c64_inv in Hb as [-> _].
  apply c64_inv in Hn as [-> _]. apply c64_inv in Hd as [-> _].
  assert (0 < d1 * d2) by (apply Z.mul_pos_pos; auto).
  apply rat_cancel_partial in H as [C E]; [|lia]. split; auto.
  rewrite <- qval_add by auto. destruct q as [n d]. destruct C.
  apply qval_of_cross; auto.
Qed.

Lemma rat_sub_partial : op_spec rat_sub Qminus (fun _ => True).
Proof.
  intros [n1 d1] [n2 d2] q [P1 _] [P2 _] _ H. cbn [fst snd] in *. unfold rat_sub in H.
  apply bind_ok in H as (a & Ha & H). apply bind_ok in H as (b & Hb & H).
  apply bind_ok in H as (n & Hn & H). apply bind_ok in H as (d & Hd & H).
  apply c64_inv in Ha as [-> _]. apply c64_inv in Hb as [-> _].
  apply c64_inv in Hn as [-> _]. apply c64_inv in Hd as [-> _].
  assert (0 < d1 * d2) by (apply Z.mul_pos_pos; auto).
  apply rat_cancel_partial in H as [C E]; [|lia]. split; auto.
  rewrite <- qval_sub by auto. destruct q as [n d]. destruct C.
  apply qval_of_cross; auto.
Qed.

Lemma rat_mul_partial : op_spec rat_mul Qmult (fun _ => True).
Proof.
  intros [n1 d1] [n2 d2] q [P1 _] [P2 _] _ H. cbn [fst snd] in *. unfold rat_mul in H.
  apply bind_ok in H as (n & Hn & H). apply bind_ok in H as (d & Hd & H).
  apply c64_inv in Hn as [-> _]. apply c64_inv in Hd as [-> _].
  assert (0 < d1 * d2) by (apply Z.mul_pos_pos; auto).
  apply rat_cancel_partial in H as [C E]; [|lia]. split; auto.
  rewrite <- qval_mul by auto. destruct q as [n d]. destruct C.
  apply qval_of_cross; auto.
Qed.

Lemma rat_div_partial : op_spec rat_div Qdiv (fun q => fst q <> 0).
Proof.
  intros [n1 d1] [n2 d2] q [P1 _] [P2 _] N2 H. cbn [fst snd] in *. unfold rat_div in H.
  apply bind_ok in H as (n & Hn & H). apply bind_ok in H as (d & Hd & H).
  apply c64_inv in Hn as [-> _]. apply c64_inv in Hd as [-> _].
  assert (d1 * n2 <> 0) by (apply Z.neq_mul_0; lia).
  apply rat_cancel_partial in H as [C E]; [|lia]. split; auto.
  destruct q as [n d]. destruct C. apply qval_div; auto.
Qed.

(** If all the products fit, the long operations succeed. *)
Definition small30 (q : rat) : Prop := Z.abs (fst q) <= 2 ^ 30 /\ Z.abs (snd q) <= 2 ^ 30.

Lemma prod_small a b : Z.abs a <= 2 ^ 30 -> Z.abs b <= 2 ^ 30 -> Z.abs (a * b) <= 2 ^ 60.
Proof.
  intros. rewrite Z.abs_mul. change (2 ^ 60) with (2 ^ 30 * 2 ^ 30).
  apply Z.mul_le_mono_nonneg; lia.
Qed.

Lemma rat_ops_total q1 q2 :
  small30 q1 -> small30 q2 ->
  (exists q, rat_add q1 q2 = Ok q) /\ (exists q, rat_sub q1 q2 = Ok q) /\
  (exists q, rat_mul q1 q2 = Ok q) /\ (exists q, rat_div q1 q2 = Ok q) /\
  (exists b, rat_eq q1 q2 = Ok b).
Proof.
  destruct q1 as [n1 d1], q2 as [n2 d2]. intros [A B] [C D]. cbn [fst snd] in *.
  pose proof (prod_small n1 d2 A D). pose proof (prod_small n2 d1 C B).
  pose proof (prod_small d1 d2 B D). pose proof (prod_small n1 n2 A C).
  pose proof (prod_small d1 n2 B C).
  change (2 ^ 60) with 1152921504606846976 in *.
  assert (R : forall z, Z.abs z <= 1152921504606846976 -> in64 z) by (clear; intros; rg).
  assert (R2 : forall z, Z.abs z <= 1152921504606846976 -> sym64 z)
    by (clear; intros; unfold sym64; rg).
  unfold rat_add, rat_sub, rat_mul, rat_div, rat_eq, mul64, add64, sub64, rat_make.
  repeat rewrite c64_ok by auto. repeat rewrite bind_Ok.
  rewrite (c64_ok (n1 * d2 + n2 * d1)) by (clear - H H0; rg).
  rewrite (c64_ok (n1 * d2 - n2 * d1)) by (clear - H H0; rg).
  repeat rewrite bind_Ok.
  repeat split; try apply rat_cancel_total; auto; unfold sym64; try (clear - H H0; rg).
  eauto.
Qed.

Lemma rat_eq_partial q1 q2 b :
  0 < snd q1 -> 0 < snd q2 -> rat_eq q1 q2 = Ok b -> (b = true <-> (qval q1 == qval q2)%Q).
Proof.
  destruct q1 as [n1 d1], q2 as [n2 d2]. cbn [snd]. intros P1 P2 H. unfold rat_eq in H.
  apply bind_ok in H as (x & Hx & H). apply bind_ok in H as (y & Hy & H).
  apply c64_inv in Hx as [-> _]. apply c64_inv in Hy as [-> _]. inversion H; subst.
  rewrite qval_eq_cross by auto. apply Z.eqb_eq.
Qed.

(** += by an integer keeps lowest terms without a gcd. *)
Lemma addeq_canonical n d m : canonical (n, d) -> canonical (n + d * m, d).
Proof.
  intros [P G]. split; [auto|]. cbn [fst snd] in *.
  rewrite Z.gcd_comm, Z.mul_comm, Z.gcd_add_mult_diag_r, Z.gcd_comm. auto.
Qed.

(** bigrational *)
Definition bop_spec (f : rat -> rat -> res rat) (qf : Q -> Q -> Q) (side : rat -> Prop) : Prop :=
  forall q1 q2, canonical q1 -> canonical q2 -> side q2 ->
    exists q, f q1 q2 = Ok q /\ canonical q /\ (qval q == qf (qval q1) (qval q2))%Q.

Lemma brat_add_ok : bop_spec brat_add Qplus (fun _ => True).
Proof.
  intros [n1 d1] [n2 d2] [P1 _] [P2 _] _. cbn [fst snd] in *. unfold brat_add, brat_make.
  assert (0 < d1 * d2) by (apply Z.mul_pos_pos; auto).
  destruct (brat_cancel_ok (n1 * d2 + n2 * d1) (d1 * d2)) as ([n d] & E & C & X); [lia|].
  exists (n, d). split; [auto|]. split; [auto|]. rewrite <- qval_add by auto.
  destruct C. apply qval_of_cross; auto.
Qed.
Lemma brat_sub_ok : bop_spec brat_sub Qminus (fun _ => True).
Proof.
  intros [n1 d1] [n2 d2] [P1 _] [P2 _] _. cbn [fst snd] in *. unfold brat_sub, brat_make.
  assert (0 < d1 * d2) by (apply Z.mul_pos_pos; auto).
  destruct (brat_cancel_ok (n1 * d2 - n2 * d1) (d1 * d2)) as ([n d] & E & C & X); [lia|].
  exists (n, d). split; [auto|]. split; [auto|]. rewrite <- qval_sub by auto.
  destruct C. apply qval_of_cross; auto.
Qed.
Lemma brat_mul_ok : bop_spec brat_mul Qmult (fun _ => True).
Proof.
  intros [n1 d1] [n2 d2] [P1 _] [P2 _] _. cbn [fst snd] in *. unfold brat_mul, brat_make.
  assert (0 < d1 * d2) by (apply Z.mul_pos_pos; auto).
  destruct (brat_cancel_ok (n1 * n2) (d1 * d2)) as ([n d] & E & C & X); [lia|].
  exists (n, d). split; [auto|]. split; [auto|]. rewrite <- qval_mul by auto.
  destruct C. apply qval_of_cross; auto.
Qed.
Lemma brat_div_ok : bop_spec brat_div Qdiv (fun q => fst q <> 0).
Proof.
  intros [n1 d1] [n2 d2] [P1 _] [P2 _] N2. cbn [fst snd] in *. unfold brat_div, brat_make.
  assert (d1 * n2 <> 0) by (apply Z.neq_mul_0; lia).
  destruct (brat_cancel_ok (n1 * d2) (d1 * n2)) as ([n d] & E & C & X); [lia|].
  exists (n, d). split; [auto|]. split; [auto|]. destruct C. apply qval_div; auto.
Qed.

Lemma brat_eq_ok q1 q2 :
  0 < snd q1 -> 0 < snd q2 -> (brat_eq q1 q2 = true <-> (qval q1 == qval q2)%Q).
Proof.
  destruct q1 as [n1 d1], q2 as [n2 d2]. cbn [snd]. intros P1 P2. unfold brat_eq.
  rewrite qval_eq_cross by auto. apply Z.eqb_eq.
Qed.
Lemma brat_lt_ok q1 q2 :
  0 < snd q1 -> 0 < snd q2 -> (brat_lt q1 q2 = true <-> (qval q1 < qval q2)%Q).
Proof.
  destruct q1 as [n1 d1], q2 as [n2 d2]. cbn [snd]. intros P1 P2. unfold brat_lt, Qlt, qval.
  cbn [fst snd Qnum Qden]. rewrite !Z2Pos.id by auto. apply Z.ltb_lt.
Qed.

(** *** floor and ceil *)
Definition is_floor (q : Q) (z : Z) : Prop := (inject_Z z <= q /\ q < inject_Z (z + 1))%Q.
Definition is_ceil (q : Q) (z : Z) : Prop := (inject_Z (z - 1) < q /\ q <= inject_Z z)%Q.

Lemma is_floor_pair n d z : 0 < d -> (is_floor (qval (n, d)) z <-> z * d <= n < (z + 1) * d).
Proof.
  intros. unfold is_floor, Qle, Qlt, qval, inject_Z. cbn [fst snd Qnum Qden].
  rewrite !Z2Pos.id by auto. lia.
Qed.
Lemma is_ceil_pair n d z : 0 < d -> (is_ceil (qval (n, d)) z <-> (z - 1) * d < n <= z * d).
Proof.
  intros. unfold is_ceil, Qle, Qlt, qval, inject_Z. cbn [fst snd Qnum Qden].
  rewrite !Z2Pos.id by auto. lia.
Qed.

Lemma brat_floor_ok q : canonical q -> exists z, brat_floor q = Ok z /\ is_floor (qval q) z.
Proof.
  destruct q as [n d]. intros [P G]. cbn [fst snd] in *. unfold brat_floor, zz_mod, zz_div.
  destruct (Z.eqb_spec d 0); [lia|]. rewrite bind_Ok.
  pose proof (Z.div_mod n d ltac:(lia)). pose proof (Z.mod_pos_bound n d P).
  eexists; split; [reflexivity|].
  replace (n - n mod d) with (n / d * d) by lia. rewrite Z.div_mul by auto.
  apply is_floor_pair; auto. lia.
Qed.

Lemma brat_ceil_ok q : canonical q -> exists z, brat_ceil q = Ok z /\ is_ceil (qval q) z.
Proof.
  destruct q as [n d]. intros [P G]. cbn [fst snd] in *. unfold brat_ceil.
  destruct (Z.eqb_spec d 1) as [->|].
  { exists n. split; [reflexivity|]. apply is_ceil_pair; lia. }
  unfold zz_mod, zz_div.
  destruct (Z.eqb_spec d 0); [lia|]. rewrite !bind_Ok.
  pose proof (Z.div_mod n d ltac:(lia)). pose proof (Z.mod_pos_bound n d P).
  eexists; split; [reflexivity|].
  replace (n - n mod d) with (n / d * d) by lia. rewrite Z.div_mul by auto.
  apply is_ceil_pair; auto.
  assert (n mod d <> 0).
  { intros E. rewrite E, Z.add_0_r in H.
    rewrite H, Z.gcd_comm, Z.gcd_mul_diag_l in G by lia. lia. }
  lia.
Qed.

(** The long versions are right for q >= 0 (and integers). *)
Lemma rat_floor_nonneg q :
  canonical q -> in64 (fst q) -> in64 (snd q) -> 0 <= fst q ->
  exists z, rat_floor q = Ok z /\ is_floor (qval q) z.
Proof.
  destruct q as [n d]. intros [P G] Hn Hd H0. cbn [fst snd] in *. unfold rat_floor.
  rewrite rem64_ok by (auto; lia). rewrite bind_Ok.
  destruct (quot_rem_pos n d P) as (k & r & Eq & -> & E & Hr & H1 & H2).
  rewrite sub64_ok by rg. rewrite bind_Ok.
  replace (n - r) with (k * d) by lia.
  rewrite quot64_ok by (try lia; rg). rewrite Z.quot_mul by lia.
  eexists; split; [reflexivity|]. apply is_floor_pair; auto. lia.
Qed.

Lemma rat_ceil_nonneg q :
  canonical q -> in64 (fst q) -> in64 (snd q) -> 0 <= fst q ->
  exists z, rat_ceil q = Ok z /\ is_ceil (qval q) z.
Proof.
  destruct q as [n d]. intros [P G] Hn Hd H0. cbn [fst snd] in *. unfold rat_ceil.
  destruct (Z.eqb_spec d 1) as [->|].
  { exists n. split; [reflexivity|]. apply is_ceil_pair; lia. }
  rewrite rem64_ok by (auto; lia). rewrite bind_Ok.
  destruct (quot_rem_pos n d P) as (k & r & Eq & -> & E & Hr & H1 & H2).
  rewrite sub64_ok by rg. rewrite bind_Ok.
  replace (n - r) with (k * d) by lia.
  rewrite quot64_ok by (try lia; rg). rewrite Z.quot_mul, bind_Ok by lia.
  assert (0 <= k) by nia. assert (2 * k <= n) by nia.
  rewrite add64_ok by rg.
  eexists; split; [reflexivity|]. apply is_ceil_pair; auto.
  assert (r <> 0).
  { intros ->. rewrite Z.add_0_r in E.
    rewrite E, Z.gcd_comm, Z.gcd_mul_diag_l in G by lia. lia. }
  lia.
Qed.
