(** Proofs about EchModel: kernel, image and rank over Q, for the scalars with exact divisions. *)
From Coq Require Import ZArith Znumtheory Lia List Bool Sorted Permutation.
From Verif Require Import Base LinModel LinSpec LinProofs LinElim LinKer LinAlg Bareiss EchModel EchProofs EchBack.
Import ListNotations.
Open Scope Z_scope.

Lemma kerq_gen nr nc A R K pc npc d : splits nc pc npc -> rrefq nc (length pc) R pc d -> eqq nc nr A (length pc) R ->
  (forall k l, (k < length npc)%nat -> (l < length npc)%nat -> K (nth k npc 0%nat) l = if (k =? l)%nat then d else 0) ->
  (forall i k, (i < length pc)%nat -> (k < length npc)%nat -> K (nth i pc 0%nat) k = - R i (nth k npc 0%nat)) ->
  kerq nr nc A K npc d.
Proof.
  intros SPL (Hd & RR) SP H1 H2.
  assert (RS : forall i x, (i < length pc)%nat -> sumn nc (fun j => R i j * x j) = d * x (nth i pc 0%nat) + sumn (length npc) (fun k => R i (nth k npc 0%nat) * x (nth k npc 0%nat))).
  { intros i x Hi. rewrite (sumn_splits nc pc npc _ SPL). f_equal.
    rewrite (sumn_ext (length pc) _ (fun t => dlt t i * (d * x (nth t pc 0%nat)))).
    - rewrite (sumn_dlt (length pc) i (fun t => d * x (nth t pc 0%nat))) by auto. auto.
    - intros t Ht. rewrite (proj1 (RR i Hi) t Ht). unfold dlt. rewrite (Nat.eqb_sym t i). destruct (i =? t)%nat; ring. }
  unfold kerq. split; [lia|]. split; [|split; auto].
  - intros k Hk. apply (eqq_ker nc (length pc) R nr A (fun j => K j k)); [apply eqq_sym; auto|].
    intros i Hi. rewrite (RS i (fun j => K j k)) by auto. rewrite H2 by auto.
    rewrite (sumn_ext (length npc) _ (fun t => dlt t k * (d * R i (nth t npc 0%nat)))).
    + rewrite (sumn_dlt (length npc) k (fun t => d * R i (nth t npc 0%nat))) by auto. ring.
    + intros t Ht. rewrite H1 by auto. unfold dlt. destruct (t =? k)%nat; ring.
  - intros x Hx j Hj. pose proof (eqq_ker nc nr A (length pc) R x SP Hx) as KR.
    destruct (splits_cases nc pc npc j SPL Hj) as [(i & Hi & <-)|(i & Hi & <-)].
    + specialize (KR i Hi). rewrite RS in KR by auto.
      rewrite (sumn_ext (length npc) _ (fun k => (-1) * (R i (nth k npc 0%nat) * x (nth k npc 0%nat)))).
      * rewrite sumn_mul. lia.
      * intros k Hk. rewrite H2 by auto. ring.
    + rewrite (sumn_ext (length npc) _ (fun k => dlt k i * (d * x (nth k npc 0%nat)))).
      * rewrite (sumn_dlt (length npc) i (fun k => d * x (nth k npc 0%nat))) by auto. auto.
      * intros k Hk. rewrite H1 by auto. unfold dlt. rewrite (Nat.eqb_sym k i). destruct (i =? k)%nat; ring.
Qed.
Lemma rrefq_indep nc R pc npc d : splits nc pc npc -> rrefq nc (length pc) R pc d -> indepq nc (length pc) R.
Proof.
  intros SPL (Hd & RR) c H i Hi. specialize (H (nth i pc 0%nat)). assert (nth i pc 0 < nc)%nat by (eapply splits_pc; [exact SPL|apply nth_In; auto]).
  specialize (H H0). rewrite (sumn_ext (length pc) _ (fun t => dlt t i * (c t * d))) in H.
  - rewrite (sumn_dlt (length pc) i (fun t => c t * d)) in H by auto. apply Z.mul_eq_0 in H. lia.
  - intros t Ht. rewrite (proj1 (RR t Ht) i Hi). unfold dlt. destruct (t =? i)%nat; ring.
Qed.
Theorem kernel_x m : wfm m ->
  exists K npc d, kernel sc_x m = Ok (Sub K npc d) /\ nro K = nco m /\ nco K = length npc /\ wfm K /\ 1 <= d /\
    (exists pc, splits (nco m) pc npc /\ (length pc <= nro m)%nat /\ hasrankq (nro m) (nco m) (me m) (length pc)) /\ kerq (nro m) (nco m) (me m) (me K) npc d.
Proof.
  intros W. unfold kernel. destruct (echelon0_x m W) as (R & pc & npc & d & -> & NR & NC & LR & RN & SPL & RR & SP). rewrite bind_Ok. cbn beta iota.
  rewrite NC. set (nc := nco m) in *. set (ny := length npc) in *. set (rk := length pc) in *.
  assert (PN : forall j, (j < ny)%nat -> (nth j npc 0 < nc)%nat) by (intros; eapply splits_npc; [exact SPL|apply nth_In; auto]).
  assert (PC : forall j, (j < rk)%nat -> (nth j pc 0 < nc)%nat) by (intros; eapply splits_pc; [exact SPL|apply nth_In; auto]).
  assert (DJ : forall i j, (i < rk)%nat -> (j < ny)%nat -> nth i pc 0%nat <> nth j npc 0%nat).
  { intros i j Hi Hj Eq. apply (splits_disj _ _ _ SPL (nth i pc 0%nat)); [|rewrite Eq]; apply nth_In; auto. }
  assert (NI : forall i j, (i < ny)%nat -> (j < ny)%nat -> nth i npc 0%nat = nth j npc 0%nat -> i = j) by (intros i j; apply sorted_inj, SPL).
  assert (PI : forall i j, (i < rk)%nat -> (j < rk)%nat -> nth i pc 0%nat = nth j pc 0%nat -> i = j) by (intros i j; apply sorted_inj, SPL).
  destruct (mat_new_ok nc ny) as (W0 & Z0).
  assert (RG : forall i j, (i < rk)%nat -> (j < nc)%nat -> mat_get R i j = Ok (me R i j)).
  { intros i j Hi Hj. unfold mat_get, me. rewrite NC. apply (at_ent (nro m) nc); auto. lia. }
  destruct (mfold_seq (fun k b => nro b = nc /\ nco b = ny /\ wfm b /\
     (forall j t, (j < ny)%nat -> (t < ny)%nat -> me b (nth j npc 0%nat) t = if (j =? t)%nat && (j <? k)%nat then d else 0))
     (fun b n => bind (at_ npc n) (fun c => mat_set b c n d)) 0 ny (mat_new nc ny)) as (b1 & -> & N1 & C1 & W1 & I1).
  { sp; auto. intros j t Hj Ht. rewrite Z0. rewrite andb_false_r. auto. }
  { intros k b Hk (Nb & Cb & Wb & Ib). rewrite (at_ok 0%nat) by (fold ny; lia). rewrite bind_Ok. pose proof (PN k ltac:(lia)) as Pk.
    destruct (mat_set_ok b (nth k npc 0%nat) k d Wb) as (b' & -> & Nb' & Cb' & Wb' & Hs & Ho); [lia|lia|]. exists b'. split; auto.
    sp; auto; try congruence. intros j t Hj Ht.
    destruct (Nat.eq_dec j k) as [->|Hjk].
    - destruct (Nat.eqb_spec k t) as [<-|Hkt].
      + rewrite Hs. destruct (Nat.ltb_spec k (k + 1)); [reflexivity|lia].
      + rewrite Ho by (rewrite ?Nb, ?Cb; auto; try (right; lia)). rewrite Ib by auto. destruct (Nat.eqb_spec k t); [lia|]. reflexivity.
    - assert (nth j npc 0%nat <> nth k npc 0%nat) by (intros Eq; apply Hjk; apply NI; auto; lia).
      rewrite Ho by (rewrite ?Nb, ?Cb; auto; apply PN; auto). rewrite Ib by auto.
      destruct (Nat.eqb_spec j t); auto. cbn [andb]. destruct (Nat.ltb_spec j k), (Nat.ltb_spec j (k + 1)); auto; lia. }
  rewrite bind_Ok. cbn [Nat.add] in I1.
  assert (I1' : forall j t, (j < ny)%nat -> (t < ny)%nat -> me b1 (nth j npc 0%nat) t = if (j =? t)%nat then d else 0).
  { intros j t Hj Ht. rewrite I1 by auto. destruct (Nat.ltb_spec j ny); [|lia]. rewrite andb_true_r. auto. }
  destruct (mfold_seq (fun k b => nro b = nc /\ nco b = ny /\ wfm b /\
     (forall j t, (j < ny)%nat -> (t < ny)%nat -> me b (nth j npc 0%nat) t = if (j =? t)%nat then d else 0) /\
     (forall r t, (r < k)%nat -> (t < ny)%nat -> me b (nth r pc 0%nat) t = - me R r (nth t npc 0%nat)))
     (fun b r => bind (at_ pc r) (fun i => mfold (fun b j => bind (at_ npc j) (fun c => bind (mat_get R r c) (fun x => bind (s_neg sc_x x) (fun x => mat_set b i j x)))) (seq 0 ny) b))
     0 rk b1) as (b2 & -> & N2 & C2 & W2 & I2 & K2).
  { sp; auto. intros; lia. }
  { intros r b Hr (Nb & Cb & Wb & Ib & Kb). rewrite (at_ok 0%nat) by (fold rk; lia). rewrite bind_Ok.
    pose proof (PC r ltac:(lia)) as Pr.
    destruct (mfold_seq (fun k b => nro b = nc /\ nco b = ny /\ wfm b /\
       (forall j t, (j < ny)%nat -> (t < ny)%nat -> me b (nth j npc 0%nat) t = if (j =? t)%nat then d else 0) /\
       (forall i t, (i < r)%nat -> (t < ny)%nat -> me b (nth i pc 0%nat) t = - me R i (nth t npc 0%nat)) /\
       (forall t, (t < k)%nat -> me b (nth r pc 0%nat) t = - me R r (nth t npc 0%nat)))
       (fun b j => bind (at_ npc j) (fun c => bind (mat_get R r c) (fun x => bind (s_neg sc_x x) (fun x => mat_set b (nth r pc 0%nat) j x)))) 0 ny b)
       as (b' & -> & Nb' & Cb' & Wb' & Ib' & Kb' & Rb').
    { sp; auto. intros; lia. }
    { clear b Nb Cb Wb Ib Kb. intros k b Hk (Nb & Cb & Wb & Ib & Kb & Rb).
      rewrite (at_ok 0%nat) by (fold ny; lia). rewrite bind_Ok. pose proof (PN k ltac:(lia)) as Pk.
      rewrite RG by lia. rewrite bind_Ok. cbn [s_neg sc_x]. rewrite bind_Ok.
      destruct (mat_set_ok b (nth r pc 0%nat) k (- me R r (nth k npc 0%nat)) Wb) as (b' & -> & Nb' & Cb' & Wb' & Hs & Ho); [lia|lia|].
      exists b'. split; auto. sp; auto; try congruence.
      - intros j t Hj Ht. rewrite Ho; auto; [rewrite Nb; apply PN; auto|lia|]. left. intros Eq. symmetry in Eq. revert Eq. apply DJ; auto; lia.
      - intros i t Hi Ht. rewrite Ho; auto; [rewrite Nb; apply PC; lia|lia|]. left. intros Eq. apply PI in Eq; lia.
      - intros t Ht. destruct (Nat.eq_dec t k) as [->|]; [rewrite Hs; auto|]. rewrite Ho; auto; try lia. apply Rb. lia. }
    exists b'. split; auto. sp; auto. intros i t Hi Ht. destruct (Nat.eq_dec i r) as [->|]; [apply Rb'; lia|apply Kb'; lia]. }
  rewrite bind_Ok. cbn [Nat.add] in K2. exists b2, npc, d. sp; auto.
  - apply RR.
  - exists pc. sp; auto. exists (me R). split; auto. eapply rrefq_indep; eauto.
  - apply (kerq_gen (nro m) nc (me m) (me R) (me b2) pc npc d SPL RR SP I2). auto.
Qed.
Theorem image_x m : wfm m ->
  exists B pc d, image sc_x m = Ok (Sub B pc d) /\ nro B = nro m /\ nco B = length pc /\ wfm B /\ 1 <= d /\
    eqq (nro m) (nco m) (fun j i => me m i j) (length pc) (fun k i => me B i k) /\ indepq (nro m) (length pc) (fun k i => me B i k) /\
    (forall i k, (i < length pc)%nat -> (k < length pc)%nat -> me B (nth i pc 0%nat) k = if (i =? k)%nat then d else 0).
Proof.
  intros W. unfold image. destruct (transpose_ok m W) as (t & -> & (N & C & Wt) & Et). rewrite bind_Ok.
  destruct (echelon0_x t Wt) as (R & pc & npc & d & -> & NR & NC & LR & RN & SPL & RR & SP). rewrite bind_Ok. cbn beta iota.
  rewrite N, C in *.
  destruct (mat_fill_ok (nco R) (nro R) (fun i j => mat_get R j i) (fun i j => me R j i)) as (B & EB & (NB & CB & WB) & HB).
  { intros i j Hi Hj. rewrite NR in Hj. rewrite NC in Hi. unfold mat_get, me. rewrite NC. apply (at_ent (nco m) (nro m)); auto. lia. }
  unfold transpose. rewrite EB, bind_Ok. rewrite NC, NR in *. exists B, pc, d. sp; auto.
  - apply RR.
  - eapply eqq_trans; [|eapply eqq_trans; [exact SP|]]; intros v; split; apply qspan_ext; intros i j Hi Hj; try (rewrite Et by auto; auto); try (rewrite HB by auto; auto).
  - intros c H. apply (rrefq_indep (nro m) (me R) pc npc d SPL RR c). intros j Hj. rewrite <- (H j Hj). apply sumn_ext. intros i Hi. rewrite HB by auto. auto.
  - intros i k Hi Hk. assert (nth i pc 0 < nro m)%nat by (eapply splits_pc; [exact SPL|apply nth_In; auto]). rewrite HB by auto.
    rewrite (proj1 (proj2 RR k Hk) i Hi). rewrite Nat.eqb_sym. auto.
Qed.

(** ** rank *)
Lemma tri_indep nc R pc npc : splits nc pc npc -> (forall i, (i < length pc)%nat -> R i (nth i pc 0%nat) <> 0 /\ forall j, (j < nth i pc 0)%nat -> R i j = 0) -> indepq nc (length pc) R.
Proof.
  intros SPL H c Hc.
  assert (G : forall k i, (i < k)%nat -> (i < length pc)%nat -> c i = 0).
  { induction k as [|k IH]; intros i Hi Hl; [lia|]. destruct (Nat.eq_dec i k) as [->|]; [|apply IH; auto; lia].
    pose proof (Hc (nth k pc 0%nat)) as E. assert (nth k pc 0 < nc)%nat by (eapply splits_pc; [exact SPL|apply nth_In; auto]). specialize (E H0).
    rewrite (sumn_ext (length pc) _ (fun t => dlt t k * (c t * R k (nth k pc 0%nat)))) in E.
    - rewrite (sumn_dlt (length pc) k (fun t => c t * R k (nth k pc 0%nat))) in E by auto. apply Z.mul_eq_0 in E. destruct E; auto. apply H in H1; tauto.
    - intros t Ht. unfold dlt. destruct (Nat.eqb_spec t k) as [->|]; [ring|]. destruct (Nat.lt_ge_cases t k).
      + rewrite IH by auto. ring.
      + rewrite (proj2 (H t Ht)) by (apply sorted_nth; [apply SPL|lia]). ring. }
  intros i Hi. apply (G (length pc)); auto.
Qed.
Section Rank.
Variables (nr nc : nat) (A : nat -> nat -> Z).
Lemma elimrows2_ok e r1 r2 c last : length e = (nr * nc)%nat -> (r1 < nr)%nat -> (r2 < nr)%nat -> (c < nc)%nat -> 1 <= last ->
  (forall j, (j < nc)%nat -> (last | ent nc e r1 c * ent nc e r2 j - ent nc e r2 c * ent nc e r1 j)) ->
  exists e', elimrows2 sc_x (Mt nr nc e) r1 r2 c last = Ok (Mt nr nc e') /\ length e' = (nr * nc)%nat /\
    (forall i j, (i < nr)%nat -> (j < nc)%nat -> i <> r2 -> ent nc e' i j = ent nc e i j) /\
    (forall j, (j < nc)%nat -> last * ent nc e' r2 j = ent nc e r1 c * ent nc e r2 j - ent nc e r2 c * ent nc e r1 j).
Proof.
  intros L H1 H2 Hc HL DV. unfold elimrows2, mat_get. cbn [ents nco nro]. rewrite !(at_ent nr nc) by auto. rewrite !bind_Ok.
  set (p := ent nc e r1 c) in *. set (q := ent nc e r2 c) in *.
  destruct (row_op_ok (fun x y z => z = p * y - q * x) nr nc e r1 r2 0 (fun x y => bind (s_mul sc_x p y) (fun a => bind (s_mul sc_x q x) (fun b => s_sub sc_x a b)))) as (e1 & -> & L1 & O1 & N1); auto; try lia.
  { intros j Hj. eexists. split; [reflexivity|]. reflexivity. }
  rewrite bind_Ok. unfold divrow. cbn [ents nco nro].
  assert (N1' : forall j, (j < nc)%nat -> ent nc e1 r2 j = p * ent nc e r2 j - q * ent nc e r1 j) by (intros; apply N1; lia).
  destruct (Z.eqb_spec last 0); [lia|]. destruct (Z.eqb_spec last 1) as [->|]; cbn [orb].
  - exists e1. sp; auto. intros j Hj. rewrite N1' by auto. ring.
  - destruct (map_row nr nc e1 r2 (fun x => s_div sc_x x last) (fun x y => last * y = x)) as (e2 & E2 & L2 & O2 & N2); auto.
    { intros j Hj. apply x_div; auto. rewrite N1' by auto. auto. }
    exists e2. assert (GG : bind (seg e1 (r2 * nc) nc) (fun a => bind (mmap (fun x => s_div sc_x x last) a) (fun a => mat_setrow (Mt nr nc e1) r2 a)) = Ok (Mt nr nc e2)).
    { apply bind_ok in E2 as (a & -> & E2). apply bind_ok in E2 as (b & Eb & E2). rewrite bind_Ok, Eb, bind_Ok. unfold mat_setrow. cbn [ents nco nro]. rewrite E2. reflexivity. }
    rewrite GG. sp; auto.
    + intros i j Hi Hj Hn. rewrite O2, O1 by auto. auto.
    + intros j Hj. rewrite N2, N1' by auto. auto.
Qed.
Lemma rank_piv_ok e c : length e = (nr * nc)%nat -> (c < nc)%nat ->
  forall rs x r, (forall i, In i rs -> (i < nr)%nat) -> Z.abs (ent nc e r c) = x -> (r < nr)%nat ->
  exists y s, rank_piv sc_x (Mt nr nc e) c rs x r = Ok (y, s) /\ (s < nr)%nat /\ Z.abs (ent nc e s c) = y /\ (s = r \/ In s rs) /\
    (y = 0 -> x = 0 /\ forall i, In i rs -> ent nc e i c = 0).
Proof.
  intros L Hc. induction rs as [|a rs IH]; intros x r Hrs Hx Hr; cbn [rank_piv].
  - exists x, r. sp; auto. intros Hy; split; auto. intros i [].
  - destruct (Z.eqb_spec x 1) as [E|E]. { exists x, r. sp; auto. lia. }
    unfold mat_get at 1. cbn [ents nco nro]. rewrite (at_ent nr nc e a c) by (auto; apply Hrs; cbn; auto). rewrite bind_Ok. cbn [s_abs sc_x]. rewrite bind_Ok.
    destruct (negb (Z.abs (ent nc e a c) =? 0) && ((Z.abs (ent nc e a c) <? x) || (x =? 0))) eqn:T.
    + destruct (IH (Z.abs (ent nc e a c)) a) as (y & s & -> & Hs & Hy & Hin & H0); auto. { intros i Hi. apply Hrs. cbn; auto. } { apply Hrs; cbn; auto. }
      exists y, s. sp; auto. { destruct Hin as [->|]; cbn; auto. }
      intros Hy0. destruct (H0 Hy0). apply andb_prop in T. destruct T as (T & _). apply negb_true_iff, Z.eqb_neq in T. lia.
    + destruct (IH x r) as (y & s & -> & Hs & Hy & Hin & H0); auto. { intros i Hi. apply Hrs. cbn; auto. }
      exists y, s. sp; auto. { destruct Hin; cbn; auto. }
      intros Hy0. destruct (H0 Hy0) as (X0 & H1). split; auto. intros i [->|Hi]; auto.
      rewrite X0, Z.eqb_refl, orb_true_r, andb_true_r in T. apply negb_false_iff, Z.eqb_eq in T. lia.
Qed.
Lemma rank_col_ok e c r pc npc last : length e = (nr * nc)%nat -> bar nr nc A c (ent nc e) r pc npc last -> (c < nc)%nat ->
  exists e' r' pc' npc' last', rank_col sc_x (Mt nr nc e, r, last) c = Ok (Mt nr nc e', r', last') /\ length e' = (nr * nc)%nat /\
    bar nr nc A (c + 1) (ent nc e') r' pc' npc' last'.
Proof.
  intros L B Hc. unfold rank_col. cbn [nro]. destruct (Nat.ltb_spec r nr) as [Hr|Hr].
  2:{ exists e, r, pc, (npc ++ [c]), last. sp; auto. apply bar_skip; auto. intros; lia. }
  unfold mat_get at 1. cbn [ents nco]. rewrite (at_ent nr nc) by auto. rewrite bind_Ok. cbn [s_abs sc_x]. rewrite bind_Ok.
  destruct (rank_piv_ok e c L Hc (seq (r + 1) (nr - (r + 1))) (Z.abs (ent nc e r c)) r) as (y & rm & -> & Hm & Hy & Hin & H0); auto.
  { intros i Hi. apply in_seq in Hi. lia. }
  rewrite bind_Ok. destruct (Z.eqb_spec y 0) as [Y0|Y0].
  - exists e, r, pc, (npc ++ [c]), last. sp; auto. apply bar_skip; auto. intros i Hi. destruct (H0 Y0) as (X0 & X1).
    destruct (Nat.eq_dec i r) as [->|]; [lia|]. apply X1. apply in_seq. lia.
  - assert (HH : exists e1, (if (r <? rm)%nat then bind (swaprows e nc r rm) (fun e => Ok (Mt nr nc e)) else Ok (Mt nr nc e)) = Ok (Mt nr nc e1) /\ length e1 = (nr * nc)%nat /\ bar nr nc A c (ent nc e1) r pc npc last /\ Z.abs (ent nc e1 r c) = y).
    { destruct (Nat.ltb_spec r rm).
      - destruct (swaprows_ok nr nc e r rm) as (e1 & -> & L1 & O1 & S1); auto; try lia. exists e1. sp; auto.
        + eapply bar_swap; [exact B| |exact O1|exact S1]. lia.
        + rewrite (proj1 (S1 c Hc)). auto.
      - assert (rm = r) as ->. { destruct Hin as [|Hin]; auto. apply in_seq in Hin. lia. } exists e. auto. }
    destruct HH as (e1 & -> & L1 & B1 & P1). rewrite bind_Ok. cbn [nro].
    destruct (mfold_seq (fun k m => exists e', m = Mt nr nc e' /\ length e' = (nr * nc)%nat /\ (forall i j, (i <= r \/ k <= i < nr)%nat -> (j < nc)%nat -> ent nc e' i j = ent nc e1 i j) /\
      (forall i j, (r < i < k)%nat -> (j < nc)%nat -> last * ent nc e' i j = ent nc e1 r c * ent nc e1 i j - ent nc e1 i c * ent nc e1 r j))
      (fun m r3 => elimrows2 sc_x m r r3 c last) (r + 1) (nr - (r + 1)) (Mt nr nc e1)) as (m2 & -> & (e2 & -> & L2 & K1 & K2)).
    { exists e1. sp; auto. intros; lia. }
    { intros k m Hk (e0 & -> & L0 & I1 & I2).
      destruct (elimrows2_ok e0 r k c last) as (e2 & -> & L2 & O2 & N2); auto; try lia.
      { eapply bar_last; eauto. } { intros j Hj. rewrite !I1 by lia. eapply bar_div; eauto. lia. }
      eexists. split; [reflexivity|]. exists e2. sp; auto.
      - intros i j Hi Hj. rewrite O2 by lia. apply I1; lia.
      - intros i j Hi Hj. destruct (Nat.eq_dec i k) as [->|]; [rewrite N2 by auto; rewrite !I1 by lia; auto|]. rewrite O2 by lia. apply I2; lia. }
    rewrite bind_Ok. exists e2, (r + 1)%nat, (pc ++ [c]), npc, y. sp; auto. rewrite <- P1. eapply bar_elim; eauto; try lia.
    intros i j Hi Hj. apply K2; lia.
Qed.
End Rank.
Theorem rank_x m : wfm m -> exists r, rank sc_x m = Ok r /\ (r <= nro m)%nat /\ hasrankq (nro m) (nco m) (me m) r.
Proof.
  intros W. unfold rank. set (nr := nro m). set (nc := nco m).
  destruct (mfold_seq (fun c (s : mat * nat * Z) => exists e r pc npc last, s = (Mt nr nc e, r, last) /\ length e = (nr * nc)%nat /\ bar nr nc (me m) c (ent nc e) r pc npc last)
    (rank_col sc_x) 0 nc (m, 0%nat, 1)) as (s & -> & (e & r & pc & npc & last & -> & L & B)).
  - exists (ents m), 0%nat, [], [], 1. sp; auto. { destruct m; reflexivity. } apply bar_init.
  - intros k s Hk (e & r & pc & npc & last & -> & L & B). destruct (rank_col_ok nr nc (me m) e k r pc npc last L B) as (e' & r' & pc' & npc' & last' & -> & L' & B'); [lia|].
    eexists. split; [reflexivity|]. exists e', r', pc', npc', last'. auto.
  - rewrite bind_Ok. exists r. cbn [Nat.add] in B. destruct B as [EL R Cc SPL PIV BEL SP _]. sp; auto. exists (ent nc e). split.
    + eapply eqq_trans; [exact SP|]. apply eqq_drop; auto.
    + subst r. eapply tri_indep; eauto.
Qed.
