(** Proofs about the baby-step giant-step search of GrpModel. *)
From Coq Require Import ZArith Znumtheory Lia List Bool.
From Verif Require Import Base RatModel MArithModel MArithProofs GrpModel GrpLib.
Import ListNotations.
Open Scope Z_scope.

Section G.
Variable g : grp.
Hypothesis GG : is_grp g.
Notation "P +' Q" := (gadd g P Q) (at level 50, left associativity).
Notation "-' P" := (gneg g P) (at level 35, right associativity).
Notation "0'" := (gz g).
Notation mul := (mul g).

Lemma geqt P Q : geq g P Q = true -> P = Q. Proof. apply (g_eq g GG). Qed.
Lemma geqf P Q : geq g P Q = false -> P <> Q. Proof. apply (geq_false g GG). Qed.

(** the least solution in an interval *)
Lemma least_sol P T D : (exists d, 0 <= d <= D /\ mul d P = T /\ forall e, 0 <= e < d -> mul e P <> T) \/
  (forall d, 0 <= d <= D -> mul d P <> T).
Proof.
  destruct (Z.le_gt_cases 0 D) as [H|H]; [|right; intros; lia]. revert D H.
  apply natlike_ind.
  - destruct (eqdec g GG (mul 0 P) T) as [E|E]; [left; exists 0; split; [lia|split; [exact E|intros; lia]]|].
    right. intros d Hd. replace d with 0 by lia. exact E.
  - intros D H [(d & B & E & L)|F].
    + left. exists d. split; [lia|]. auto.
    + destruct (eqdec g GG (mul (Z.succ D) P) T) as [E|E].
      * left. exists (Z.succ D). split; [lia|]. split; [exact E|]. intros e He. apply F. lia.
      * right. intros d Hd. destruct (Z.eq_dec d (Z.succ D)) as [->|]; [exact E|]. apply F. lia.
Qed.

Section BG.
Variables (P Q : el g) (lower upper : Z).
Hypothesis L0 : 0 <= lower <= upper.

(** *** Small intervals *)
Lemma bgs_ok : mul lower P <> Q -> exists r, while (bgs_step g P Q upper) (zfuel (upper - lower)) (mul lower P, lower) = Ok r /\
  ((r = -1 /\ forall k, lower <= k <= upper -> mul k P <> Q) \/ (lower <= r <= upper + 1 /\ mul r P = Q)).
Proof.
  intros NE.
  apply (while_total (bgs_step g P Q upper)
    (fun s => fst s = mul (snd s) P /\ lower <= snd s <= upper /\ forall k, lower <= k <= snd s -> mul k P <> Q) _
    (fun s => upper - snd s)).
  - intros [H h] (_ & B & _). cbn [snd] in *. lia.
  - intros [H h] (E & B & N). cbn [fst snd] in *. unfold bgs_step. rewrite E, <- (mul_succ g GG).
    destruct (geq g (mul (h + 1) P) Q) eqn:G1.
    + left. eexists. split; [reflexivity|]. right. split; [lia|]. apply geqt. exact G1.
    + apply geqf in G1. assert (N' : forall k, lower <= k <= h + 1 -> mul k P <> Q).
      { intros k Hk. destruct (Z.eq_dec k (h + 1)) as [->|]; [exact G1|]. apply N. lia. }
      destruct (Z.leb_spec (h + 1) upper).
      * right. eexists. split; [reflexivity|]. cbn [fst snd]. split; [|lia]. split; [reflexivity|]. split; [lia|]. exact N'.
      * left. eexists. split; [reflexivity|]. left. split; [reflexivity|]. intros k Hk. apply N'. lia.
  - cbn [fst snd]. split; [reflexivity|]. split; [lia|]. intros k Hk. replace k with lower by lia. exact NE.
  - cbn [snd]. pose proof (zfuel_gt (upper - lower)). lia.
Qed.

(** *** Baby steps *)
Variable nb : Z.
Hypothesis NB : 1 <= nb <= upper - lower.
Variable T : el g.
Hypothesis TQ : T = Q +' -' mul lower P.

Definition tbl (n : Z) (HT : list (Z * Z)) : Prop :=
  (forall x k, ht_find HT x = Some k -> 1 <= k < n /\ mul k P <> 0' /\ gx g (mul k P) = x) /\
  (forall k, 1 <= k < n -> mul k P <> 0' -> exists k', ht_find HT (gx g (mul k P)) = Some k' /\ k <= k').
Lemma tbl_nil n : n <= 1 -> tbl n [].
Proof. intros H. split; [discriminate|]. intros; lia. Qed.
Lemma tbl_skip n HT : tbl n HT -> mul n P = 0' -> tbl (n + 1) HT.
Proof.
  intros [A B] E. split.
  - intros x k H. destruct (A x k H) as (R & ?). split; [lia|assumption].
  - intros k Hk NZ. destruct (Z.eq_dec k n) as [->|]; [contradiction|]. apply B; [lia|exact NZ].
Qed.
Lemma tbl_cons n HT : 1 <= n -> tbl n HT -> mul n P <> 0' -> tbl (n + 1) ((gx g (mul n P), n) :: HT).
Proof.
  intros N [A B] E. split.
  - intros x k. cbn [ht_find]. destruct (Z.eqb_spec (gx g (mul n P)) x) as [<-|].
    + intros [= <-]. split; [lia|]. split; [exact E|reflexivity].
    + intros H. destruct (A x k H) as (R & ?). split; [lia|assumption].
  - intros k Hk NZ. cbn [ht_find]. destruct (Z.eqb_spec (gx g (mul n P)) (gx g (mul k P))) as [|D].
    + exists n. split; [reflexivity|lia].
    + destruct (Z.eq_dec k n) as [->|]; [contradiction|]. apply B; [lia|exact NZ].
Qed.
Lemma baby_ok : exists r, while (baby_step g P T lower nb) (zfuel nb) (1, 0', []) = Ok r /\
  ((exists i, r = inl (lower + i) /\ 1 <= i <= nb /\ mul i P = T) \/
   (exists HT, r = inr (mul nb P, HT) /\ tbl (nb + 1) HT /\ forall i, 1 <= i <= nb -> mul i P <> T)).
Proof.
  apply (while_total (baby_step g P T lower nb)
    (fun s => let '(i, H, HT) := s in 1 <= i <= nb + 1 /\ H = mul (i - 1) P /\ tbl i HT /\ forall k, 1 <= k < i -> mul k P <> T) _
    (fun s => nb + 1 - fst (fst s))).
  - intros [[i H] HT] (B & _). cbn [fst]. lia.
  - intros [[i H] HT] (B & E & TB & N). unfold baby_step. destruct (Z.leb_spec i nb) as [LE|GT].
    + rewrite E. rewrite <- (mul_succ g GG). replace (i - 1 + 1) with i by lia.
      destruct (geq g (mul i P) T) eqn:G1.
      * left. eexists. split; [reflexivity|]. left. exists i. split; [reflexivity|]. split; [lia|]. apply geqt. exact G1.
      * right. apply geqf in G1. eexists. split; [reflexivity|]. cbn [fst]. split; [|lia]. split; [lia|].
        split; [f_equal; lia|]. split.
        -- destruct (is0 g (mul i P)) eqn:Z0.
           ++ apply (is0_iff g GG) in Z0. apply tbl_skip; assumption.
           ++ apply (is0_false g GG) in Z0. apply tbl_cons; [lia|assumption|assumption].
        -- intros k Hk. destruct (Z.eq_dec k i) as [->|]; [exact G1|]. apply N. lia.
    + left. eexists. split; [reflexivity|]. right. exists HT. replace i with (nb + 1) in * by lia.
      replace (nb + 1 - 1) with nb in E by lia. rewrite E. split; [reflexivity|]. split; [exact TB|].
      intros k Hk. apply N. lia.
  - split; [lia|]. split; [reflexivity|]. split; [apply tbl_nil; lia|]. intros; lia.
  - cbn [fst]. pose proof (zfuel_gt nb). lia.
Qed.

(** *** Giant steps *)
Lemma shiftT d : mul d P = T <-> mul (lower + d) P = Q.
Proof.
  rewrite TQ, (mul_add g GG), (gc g GG (mul lower P)). split; intros H.
  - symmetry. apply (gmove g GG). symmetry. exact H.
  - rewrite <- H, <- (ga g GG), (gnr g GG), (g0r g GG). reflexivity.
Qed.
Lemma giantT d j : mul d P = T +' -' mul (j * nb) P <-> mul (d + j * nb) P = T.
Proof.
  rewrite (mul_add g GG). split; intros H.
  - symmetry. apply (gmove g GG). symmetry. exact H.
  - rewrite <- H, <- (ga g GG), (gnr g GG), (g0r g GG). reflexivity.
Qed.
Lemma sol_nz d : 0 <= d -> mul d P = T -> (forall e, 0 <= e < d -> mul e P <> T) -> forall e, 0 < e <= d -> mul e P <> 0'.
Proof.
  intros D E M e He Z. apply (M (d - e)); [lia|]. rewrite (mul_sub g GG), E, Z, (gneg0 g GG), (g0r g GG). reflexivity.
Qed.
Definition gpost (r : Z) : Prop :=
  (r = -1 /\ forall k, lower <= k <= upper -> mul k P <> Q) \/ (lower <= r <= upper /\ mul r P = Q).
Lemma giant_ok HT : tbl (nb + 1) HT -> (forall i, 1 <= i <= nb -> mul i P <> T) ->
  exists r, while (giant_step g P (mul nb P) HT lower upper nb (1 + (upper - lower) / nb)) (zfuel (1 + (upper - lower) / nb)) (0, T) = Ok r /\ gpost r.
Proof.
  intros [TA TB] NH. set (ng := 1 + (upper - lower) / nb).
  assert (NG : 1 <= ng) by (unfold ng; pose proof (Z.div_pos (upper - lower) nb ltac:(lia) ltac:(lia)); lia).
  assert (SND : forall j i h, mul i P = T +' -' mul (j * nb) P -> h = lower + i + j * nb -> 0 <= i -> 0 <= j -> h <= upper -> gpost h).
  { intros j i h H -> Hi Hj U. right. split; [nia|]. apply giantT in H. apply shiftT in H. rewrite <- H. f_equal. ring. }
  assert (FIN : zfuel ng = zfuel ng /\ forall m, m <= ng + 1 -> m < 2 ^ Z.of_nat (zfuel ng)).
  { split; [reflexivity|]. intros m Hm. pose proof (zfuel_gt ng). lia. }
  destruct FIN as [_ FIN].
  destruct (least_sol P T (upper - lower)) as [(d & DB & DE & DM)|NS].
  - (* a solution: d = j0 nb + i0 *)
    pose proof (sol_nz d (proj1 DB) DE DM) as NZ.
    set (j0 := d / nb). set (i0 := d mod nb).
    assert (DD : d = i0 + j0 * nb) by (unfold i0, j0; rewrite (Z.div_mod d nb) at 1 by lia; ring).
    pose proof (Z.mod_pos_bound d nb ltac:(lia)) as IB. fold i0 in IB.
    assert (J0 : 0 <= j0) by (apply Z.div_pos; lia).
    assert (J1 : d = 0 \/ 1 <= j0).
    { destruct (Z.eq_dec d 0) as [|N0]; [left; assumption|right]. 
      destruct (Z.eq_dec j0 0) as [Z0|]; [|lia]. exfalso. apply (NH d); [|exact DE]. nia. }
    assert (J2 : j0 <= (upper - lower) / nb) by (apply Z.div_le_mono; lia).
    apply (while_total (giant_step g P (mul nb P) HT lower upper nb ng)
      (fun s => 0 <= fst s <= j0 /\ snd s = T +' -' mul (fst s * nb) P) gpost (fun s => ng - fst s)).
    + intros [j H2] (B & _). cbn [fst] in *. unfold ng. lia.
    + intros [j H2] (B & E). cbn [fst snd] in *. unfold giant_step.
      destruct (Z.leb_spec j ng); [|unfold ng in *; lia].
      destruct (is0 g H2) eqn:Z0.
      * apply (is0_iff g GG) in Z0. left. eexists. split; [reflexivity|]. cbv zeta.
        assert (UB : lower + j * nb <= upper) by (clear - DB DD B IB NB; nia).
        destruct (Z.leb_spec (lower + j * nb) upper); [|lia].
        apply (SND j 0); [rewrite (mul_0 g), <- E, Z0; reflexivity|lia|lia|lia|assumption].
      * apply (is0_false g GG) in Z0.
        (* one more step keeps the invariant unless the solution is at j *)
        assert (GO : j < j0 -> exists s', Ok (inl (j + 1, H2 +' -' mul nb P)) = Ok (inl (A:=Z*el g) (B:=Z) s') /\
          (0 <= fst s' <= j0 /\ snd s' = T +' -' mul (fst s' * nb) P) /\ ng - fst s' <= ng - j - 1).
        { intros LT. eexists. split; [reflexivity|]. cbn [fst snd]. split; [|lia]. split; [lia|].
          rewrite E, <- (ga g GG), <- (gnadd g GG), <- (mul_add g GG). do 3 f_equal. ring. }
        assert (AT : j = j0 -> exists k', ht_find HT (gx g H2) = Some k' /\ k' = i0 /\ mul i0 P = H2).
        { intros ->. assert (HI : mul i0 P = H2) by (rewrite E; apply giantT; rewrite <- DD; exact DE).
          assert (I1 : 1 <= i0).
          { destruct (Z.eq_dec i0 0) as [I0|]; [|lia]. exfalso. apply Z0. rewrite <- HI, I0. reflexivity. }
          assert (JJ : 1 <= j0) by lia. assert (DN : nb + i0 <= d) by (clear - DD JJ NB IB; nia).
          rewrite <- HI in Z0. destruct (TB i0 ltac:(lia) Z0) as (k' & F & K). exists k'. rewrite <- HI at 1. split; [exact F|].
          split; [|exact HI]. destruct (TA _ _ F) as (KB & KN & KX). apply (g_xc g GG) in KX; [|assumption|assumption].
          destruct KX as [KX|KX].
          - destruct (Z.eq_dec k' i0) as [|NK]; [assumption|]. exfalso. apply (NZ (k' - i0)); [lia|].
            rewrite (mul_sub g GG), KX, (gnr g GG). reflexivity.
          - exfalso. apply (NZ (k' + i0)); [lia|]. rewrite (mul_add g GG), KX, (gnl g GG). reflexivity. }
        destruct (Z.eq_dec j j0) as [JE|JN].
        -- destruct (AT JE) as (k' & F & -> & HI). rewrite F, (pt_mul_ok g GG). rewrite HI.
           rewrite (proj2 (g_eq g GG H2 H2) eq_refl). left. eexists. split; [reflexivity|]. cbv zeta.
           assert (UB : lower + i0 + j * nb <= upper) by (subst j; lia).
           destruct (Z.leb_spec (lower + i0 + j * nb) upper); [|lia].
           apply (SND j i0); [rewrite HI, E; reflexivity|reflexivity|lia|lia|assumption].
        -- destruct (ht_find HT (gx g H2)) as [i|] eqn:F; [|right; apply GO; lia].
           rewrite (pt_mul_ok g GG). destruct (geq g (mul i P) H2) eqn:EQ; [|right; apply GO; lia].
           apply geqt in EQ. destruct (TA _ _ F) as (KB & _).
           left. eexists. split; [reflexivity|]. cbv zeta.
           assert (UB : lower + i + j * nb <= upper) by (assert (j + 1 <= j0) by lia; clear - H0 DB DD B IB NB KB; nia).
           destruct (Z.leb_spec (lower + i + j * nb) upper); [|lia].
           apply (SND j i); [rewrite EQ, E; reflexivity|reflexivity|lia|lia|assumption].
    + cbn [fst snd]. split; [lia|]. rewrite Z.mul_0_l, (mul_0 g), (gneg0 g GG), (g0r g GG). reflexivity.
    + cbn [fst]. apply FIN. lia.
  - (* no solution *)
    assert (NSQ : forall k, lower <= k <= upper -> mul k P <> Q).
    { intros k Hk E. apply (NS (k - lower)); [lia|]. apply shiftT. rewrite <- E. f_equal. lia. }
    assert (BR : forall h i j, mul i P = T +' -' mul (j * nb) P -> h = lower + i + j * nb -> 0 <= i -> 0 <= j -> gpost (if h <=? upper then h else -1)).
    { intros h i j H E Hi Hj. destruct (Z.leb_spec h upper); [apply (SND j i h); assumption|]. left. split; [reflexivity|exact NSQ]. }
    apply (while_total (giant_step g P (mul nb P) HT lower upper nb ng)
      (fun s => 0 <= fst s <= ng + 1 /\ snd s = T +' -' mul (fst s * nb) P) gpost (fun s => ng + 1 - fst s)).
    + intros [j H2] (B & _). cbn [fst] in *. lia.
    + intros [j H2] (B & E). cbn [fst snd] in *. unfold giant_step.
      destruct (Z.leb_spec j ng); [|left; eexists; split; [reflexivity|]; left; split; [reflexivity|exact NSQ]].
      assert (GO : exists s', Ok (inl (j + 1, H2 +' -' mul nb P)) = Ok (inl (A:=Z*el g) (B:=Z) s') /\
          (0 <= fst s' <= ng + 1 /\ snd s' = T +' -' mul (fst s' * nb) P) /\ ng + 1 - fst s' <= ng + 1 - j - 1).
      { eexists. split; [reflexivity|]. cbn [fst snd]. split; [|lia]. split; [lia|].
        rewrite E, <- (ga g GG), <- (gnadd g GG), <- (mul_add g GG). do 3 f_equal. ring. }
      destruct (is0 g H2) eqn:Z0.
      * apply (is0_iff g GG) in Z0. left. eexists. split; [reflexivity|]. cbv zeta.
        apply (BR _ 0 j); [rewrite (mul_0 g), <- E, Z0; reflexivity|lia|lia|lia].
      * destruct (ht_find HT (gx g H2)) as [i|] eqn:F; [|right; exact GO].
        rewrite (pt_mul_ok g GG). destruct (geq g (mul i P) H2) eqn:EQ; [|right; exact GO].
        apply geqt in EQ. destruct (TA _ _ F) as (KB & _).
        left. eexists. split; [reflexivity|]. cbv zeta. apply (BR _ i j); [rewrite EQ, E; reflexivity|reflexivity|lia|lia].
    + cbn [fst snd]. split; [lia|]. rewrite Z.mul_0_l, (mul_0 g), (gneg0 g GG), (g0r g GG). reflexivity.
    + cbn [fst]. apply FIN. lia.
Qed.
End BG.

(** *** The whole search *)
Theorem bg_ok P Q lower upper : 0 <= lower <= upper -> exists r, bg_algorithm g P Q lower upper = Ok r /\
  ((r = -1 /\ forall k, lower <= k <= upper -> mul k P <> Q) \/
   (lower <= r <= upper + 1 /\ mul r P = Q /\ (30 <= upper - lower -> r <= upper))).
Proof.
  intros L0. unfold bg_algorithm. destruct (is0 g P && negb (is0 g Q)) eqn:Z0.
  { apply andb_true_iff in Z0 as [A B]. apply (is0_iff g GG) in A. apply negb_true_iff, (is0_false g GG) in B.
    eexists. split; [reflexivity|]. left. split; [reflexivity|]. intros k _. rewrite A, (mul_g0 g GG). congruence. }
  clear Z0. destruct ((lower =? 0) && is0 g Q) eqn:Z1.
  { apply andb_true_iff in Z1 as [A B]. apply Z.eqb_eq in A. apply (is0_iff g GG) in B.
    eexists. split; [reflexivity|]. right. split; [lia|]. split; [rewrite B; reflexivity|lia]. }
  clear Z1. destruct ((lower <? 0) || (upper <? lower)) eqn:Z2.
  { exfalso. apply orb_true_iff in Z2 as [A|A]; apply Z.ltb_lt in A; lia. }
  clear Z2. destruct (Z.ltb_spec (upper - lower) 30) as [SM|BIG].
  - cbv zeta. rewrite (pt_mul_ok g GG). destruct (geq g (mul lower P) Q) eqn:G1.
    + apply geqt in G1. eexists. split; [reflexivity|]. right. split; [lia|]. split; [exact G1|lia].
    + apply geqf in G1. destruct (bgs_ok P Q lower upper L0 G1) as (r & E & R). exists r. split; [exact E|].
      destruct R as [R|[R1 R2]]; [left; exact R|right]. split; [exact R1|]. split; [exact R2|lia].
  - cbv zeta. set (h := 1 + Z.sqrt (upper - lower)). set (nb := if MAX_BG_STEPS <? h then MAX_BG_STEPS else h).
    assert (NB : 1 <= nb <= upper - lower).
    { assert (H1 : 1 <= h) by (unfold h; pose proof (Z.sqrt_nonneg (upper - lower)); lia).
      assert (H2 : h <= upper - lower).
      { unfold h. pose proof (Z.sqrt_spec (upper - lower) ltac:(lia)) as [S1 S2]. pose proof (Z.sqrt_nonneg (upper - lower)).
        assert (2 <= Z.sqrt (upper - lower)) by (apply Z.sqrt_le_square; lia). nia. }
      unfold nb. destruct (Z.ltb_spec MAX_BG_STEPS h); [|lia]. split; [unfold MAX_BG_STEPS; lia|lia]. }
    rewrite (pt_mul_ok g GG). set (T := Q +' -' mul lower P).
    destruct (baby_ok P lower upper nb NB T) as (r & E & R). rewrite E, bind_Ok.
    destruct R as [(i & -> & IB & IE)|(HT & -> & TB & NH)].
    + eexists. split; [reflexivity|]. right. split; [lia|]. split; [|lia].
      apply (shiftT P Q lower T eq_refl). exact IE.
    + rewrite zz_div_ok by lia. rewrite bind_Ok. cbv zeta.
      destruct (giant_ok P Q lower upper L0 nb NB T eq_refl HT TB NH) as (r & E2 & R). exists r. split; [exact E2|].
      destruct R as [R|[R1 R2]]; [left; exact R|right]. split; [lia|]. split; [exact R2|lia].
Qed.
End G.
