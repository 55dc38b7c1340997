(** Proofs about EchModel: back substitution in echelon0, kernels and rank over Q,
    for the scalars with exact divisions. *)
From Coq Require Import ZArith Znumtheory Lia List Bool Sorted Permutation.
From Verif Require Import Base LinModel LinSpec LinProofs LinElim LinKer LinAlg Bareiss EchModel EchProofs.
Import ListNotations.
Open Scope Z_scope.

Lemma lcm_ok a b : a <> 0 -> b <> 0 -> exists d, s_lcm sc_x a b = Ok d /\ d <> 0 /\ (a | d) /\ (b | d).
Proof.
  intros Ha Hb. unfold s_lcm. change (s_gcd sc_x a b) with (Ok (Z.gcd a b)). rewrite bind_Ok.
  pose proof (Z.gcd_divide_l a b) as Da. pose proof (Z.gcd_divide_r a b) as Db.
  assert (G : Z.gcd a b <> 0) by (intros E; apply Z.gcd_eq_0 in E; tauto).
  destruct (Z.eqb_spec (Z.gcd a b) 0); [contradiction|].
  destruct (x_div b (Z.gcd a b) G Db) as (q & -> & Eq). rewrite bind_Ok. cbn [s_mul sc_x]. exists (a * q). sp; auto.
  - intros Z0. apply Z.mul_eq_0 in Z0. destruct Z0; [contradiction|]. subst q. lia.
  - exists q. ring.
  - destruct Da as (k & Ek). exists k. rewrite <- Eq. rewrite Ek at 1. ring.
Qed.

Section Back.
Variables (nr nc : nat) (A : nat -> nat -> Z) (pc npc : list nat).
Hypothesis RK : (length pc <= nr)%nat.
Hypothesis SPL : splits nc pc npc.
Local Notation rk := (length pc).
Local Notation P i := (nth i pc 0%nat).
Lemma PCB i : (i < rk)%nat -> (P i < nc)%nat.
Proof. intros Hi. eapply splits_pc; [exact SPL|]. apply nth_In, Hi. Qed.
Lemma PCS i k : (i < k < rk)%nat -> (P i < P k)%nat.
Proof. intros Hi. apply sorted_nth; auto. apply SPL. Qed.
Record tri (e : list Z) : Prop := Tri {
  t_len : length e = (nr * nc)%nat; t_span : eqq nc nr A rk (ent nc e);
  t_piv : forall i, (i < rk)%nat -> ent nc e i (P i) <> 0;
  t_zero : forall i j, (i < rk)%nat -> (j < P i)%nat -> ent nc e i j = 0 }.
(** one row multiplied by a non-zero rational number *)
Lemma tri_scale e e' r a d : tri e -> (r < rk)%nat -> a <> 0 -> d <> 0 -> length e' = (nr * nc)%nat ->
  (forall i j, (i < nr)%nat -> (j < nc)%nat -> i <> r -> ent nc e' i j = ent nc e i j) ->
  (forall j, (j < nc)%nat -> d * ent nc e' r j = a * ent nc e r j) -> tri e'.
Proof.
  intros [L SP PV Z0] Hr Ha Hd L' Ho Hs. constructor; auto.
  - eapply eqq_trans; [exact SP|]. apply (eqq_scale nc rk (ent nc e) (ent nc e') r a d); auto. intros i j Hi Hj N. apply Ho; auto. lia.
  - intros i Hi. pose proof (PCB i Hi). destruct (Nat.eq_dec i r) as [->|]; [|rewrite Ho by lia; auto].
    specialize (Hs (P r) H). intros E. rewrite E in Hs. specialize (PV r Hr). rewrite Z.mul_0_r in Hs. symmetry in Hs. apply Z.mul_eq_0 in Hs. tauto.
  - intros i j Hi Hj. pose proof (PCB i Hi). destruct (Nat.eq_dec i r) as [->|]; [|rewrite Ho by lia; auto].
    specialize (Hs j ltac:(lia)). rewrite (Z0 r j) in Hs by auto. rewrite Z.mul_0_r in Hs. apply Z.mul_eq_0 in Hs. tauto.
Qed.
Lemma clear_tri e r : tri e -> (r < rk)%nat -> exists e' g, clear_row sc_x e nc r = Ok e' /\ tri e' /\ 1 <= g /\
  (forall i j, (i < nr)%nat -> (j < nc)%nat -> i <> r -> ent nc e' i j = ent nc e i j) /\ (forall j, (j < nc)%nat -> g * ent nc e' r j = ent nc e r j).
Proof.
  intros T Hr. destruct (clear_row_ok nr nc e r) as (e' & g & E & L' & G & Ho & Hd); [apply T|lia|]. exists e', g. sp; auto.
  apply (tri_scale e e' r 1 g); auto; try lia. intros j Hj. rewrite Hd by auto. ring.
Qed.
Lemma phase1 e : tri e -> exists e', mfold (fun e r1 => clear_row sc_x e nc r1) (seq 0 rk) e = Ok e' /\ tri e'.
Proof.
  intros T. destruct (mfold_seq (fun _ e => tri e) (fun e r1 => clear_row sc_x e nc r1) 0 rk e) as (e' & E & T'); eauto.
  intros k a Hk Ta. destruct (clear_tri a k Ta) as (e' & g & E & T' & _); [lia|]. eauto.
Qed.
Lemma phase2_row e r1 : tri e -> (r1 < rk)%nat ->
  exists e', mfold (fun e r2 => bind (at_ pc r2) (fun c => elim sc_x e nc r2 r1 c)) (seq (r1 + 1) (rk - (r1 + 1))) e = Ok e' /\ tri e' /\
    (forall i j, (i < nr)%nat -> (j < nc)%nat -> i <> r1 -> ent nc e' i j = ent nc e i j) /\
    (forall t, (r1 < t < rk)%nat -> ent nc e' r1 (P t) = 0).
Proof.
  intros T Hr.
  destruct (mfold_seq (fun k e' => tri e' /\ (forall i j, (i < nr)%nat -> (j < nc)%nat -> i <> r1 -> ent nc e' i j = ent nc e i j) /\
    (forall t, (r1 < t < k)%nat -> ent nc e' r1 (P t) = 0))
    (fun e r2 => bind (at_ pc r2) (fun c => elim sc_x e nc r2 r1 c)) (r1 + 1) (rk - (r1 + 1)) e) as (e' & E & T' & O' & Z').
  - sp; auto. intros; lia.
  - intros k a Hk (Ta & Oa & Za). rewrite (at_ok 0%nat) by lia. rewrite bind_Ok. pose proof (PCB k ltac:(lia)).
    destruct (elim_ok nr nc a k r1 (P k)) as (b & -> & Lb & Ob & Nb); auto; try lia. { apply Ta. }
    exists b. split; auto. pose proof Ta as [La SPa PVa ZEa]. sp.
    + constructor; auto.
      * eapply eqq_trans; [exact SPa|].
        apply (eqq_op nc rk (ent nc a) (ent nc b) r1 k (ent nc a k (P k)) (- ent nc a r1 (P k)) 1); auto; try lia.
        { apply PVa; lia. } { intros i j Hi Hj Hn. apply Ob; auto. lia. } intros j Hj. rewrite Nb by auto. ring.
      * intros i Hi. pose proof (PCB i Hi). destruct (Nat.eq_dec i r1) as [->|]; [|rewrite Ob by lia; auto].
        rewrite Nb by auto. rewrite (ZEa k (P r1)) by (try apply PCS; lia). rewrite Z.mul_0_r, Z.sub_0_r.
        intros Z0. apply Z.mul_eq_0 in Z0. destruct Z0 as [Z0|Z0]; [apply (PVa k) in Z0; lia|apply (PVa r1) in Z0; lia].
      * intros i j Hi Hj. pose proof (PCB i Hi). destruct (Nat.eq_dec i r1) as [->|]; [|rewrite Ob by lia; auto].
        rewrite Nb by lia. rewrite (ZEa r1 j) by lia. pose proof (PCS r1 k ltac:(lia)). rewrite (ZEa k j) by lia. ring.
    + intros i j Hi Hj Hn. rewrite Ob by auto. auto.
    + intros t Ht. pose proof (PCB t ltac:(lia)). rewrite Nb by auto. destruct (Nat.eq_dec t k) as [->|]; [ring|].
      rewrite Za by lia. rewrite (ZEa k (P t)) by (try apply PCS; lia). ring.
  - exists e'. sp; auto. intros t Ht. apply Z'. lia.
Qed.
Lemma phase2 e : tri e ->
  exists e' d, mfold (fun '(e, d) r1 =>
         bind (mfold (fun e r2 => bind (at_ pc r2) (fun c => elim sc_x e nc r2 r1 c)) (seq (r1 + 1) (rk - (r1 + 1))) e) (fun e =>
         bind (clear_row sc_x e nc r1) (fun e =>
         bind (at_ pc r1) (fun c => bind (deref e (r1 * nc + c)) (fun x => bind (s_lcm sc_x d x) (fun d => Ok (e, d))))))) (seq 0 rk) (e, 1) = Ok (e', d) /\
    tri e' /\ d <> 0 /\ forall k, (k < rk)%nat -> (ent nc e' k (P k) | d) /\ forall t, (t < rk)%nat -> t <> k -> ent nc e' k (P t) = 0.
Proof.
  intros T.
  destruct (mfold_seq (fun r1 (s : list Z * Z) => tri (fst s) /\ snd s <> 0 /\ forall k, (k < r1)%nat -> (k < rk)%nat ->
      (ent nc (fst s) k (P k) | snd s) /\ forall t, (t < rk)%nat -> t <> k -> ent nc (fst s) k (P t) = 0)
    (fun '(e, d) r1 =>
         bind (mfold (fun e r2 => bind (at_ pc r2) (fun c => elim sc_x e nc r2 r1 c)) (seq (r1 + 1) (rk - (r1 + 1))) e) (fun e =>
         bind (clear_row sc_x e nc r1) (fun e =>
         bind (at_ pc r1) (fun c => bind (deref e (r1 * nc + c)) (fun x => bind (s_lcm sc_x d x) (fun d => Ok (e, d))))))) 0 rk (e, 1)) as ((e' & d) & E & T' & D' & K').
  - cbn [fst snd]. split; [auto|split; [lia|intros; lia]].
  - intros r1 (a & d) Hr (Ta & Da & Ka). cbn [fst snd] in *.
    destruct (phase2_row a r1 Ta) as (b & -> & Tb & Ob & Zb); [lia|]. rewrite bind_Ok.
    destruct (clear_tri b r1 Tb) as (c & g & -> & Tc & G & Oc & Dc); [lia|]. rewrite bind_Ok.
    rewrite (at_ok 0%nat) by lia. rewrite bind_Ok. pose proof (PCB r1 ltac:(lia)).
    rewrite (deref_ent nr nc) by (auto; try lia; apply Tc). rewrite bind_Ok.
    destruct (lcm_ok d (ent nc c r1 (P r1))) as (d' & -> & D0 & D1 & D2); auto. { apply (t_piv c Tc); lia. } rewrite bind_Ok.
    exists (c, d'). cbn [fst snd]. sp; auto. intros k Hk1 Hk. pose proof (PCB k Hk). destruct (Nat.eq_dec k r1) as [->|].
    + split; auto. intros t Ht Hn. pose proof (PCB t Ht). destruct (Nat.lt_ge_cases t r1).
      * apply (t_zero c Tc); auto. apply PCS; lia.
      * specialize (Dc (P t) ltac:(auto)). rewrite Zb in Dc by lia. apply Z.mul_eq_0 in Dc. lia.
    + destruct (Ka k ltac:(lia) Hk) as (K1 & K2). split.
      * rewrite Oc, Ob by lia. eapply Z.divide_trans; eauto.
      * intros t Ht Hn. pose proof (PCB t Ht). rewrite Oc, Ob by lia. auto.
  - exists e', d. cbn [fst snd] in *. sp; auto.
Qed.
Lemma phase3 e d : tri e -> 1 <= d -> (forall k, (k < rk)%nat -> (ent nc e k (P k) | d) /\ forall t, (t < rk)%nat -> t <> k -> ent nc e k (P t) = 0) ->
  exists e', mfold (fun e r1 => bind (at_ pc r1) (fun c => bind (deref e (r1 * nc + c)) (fun x => bind (s_div sc_x d x) (fun fac =>
           bind (seg e (r1 * nc) nc) (fun a => bind (mmap (fun x => s_mul sc_x fac x) a) (fun a => put e (r1 * nc) a)))))) (seq 0 rk) e = Ok e' /\
    tri e' /\ rrefq nc rk (ent nc e') pc d.
Proof.
  intros T Hd K.
  destruct (mfold_seq (fun r1 e => tri e /\ forall k, (k < rk)%nat -> ((ent nc e k (P k) | d) /\ ((k < r1)%nat -> ent nc e k (P k) = d)) /\ forall t, (t < rk)%nat -> t <> k -> ent nc e k (P t) = 0)
    (fun e r1 => bind (at_ pc r1) (fun c => bind (deref e (r1 * nc + c)) (fun x => bind (s_div sc_x d x) (fun fac =>
           bind (seg e (r1 * nc) nc) (fun a => bind (mmap (fun x => s_mul sc_x fac x) a) (fun a => put e (r1 * nc) a)))))) 0 rk e) as (e' & E & T' & K').
  - split; auto. intros k Hk. destruct (K k Hk). sp; auto; lia.
  - intros r1 a Hr (Ta & Ka). rewrite (at_ok 0%nat) by lia. rewrite bind_Ok. pose proof (PCB r1 ltac:(lia)).
    rewrite (deref_ent nr nc) by (auto; try lia; apply Ta). rewrite bind_Ok. destruct (Ka r1 ltac:(lia)) as ((DV & _) & ZR).
    destruct (x_div d (ent nc a r1 (P r1))) as (fac & -> & EF); auto. { apply (t_piv a Ta); lia. } rewrite bind_Ok.
    destruct (map_row nr nc a r1 (fun x => s_mul sc_x fac x) (fun x y => y = fac * x)) as (b & -> & Lb & Ob & Nb); [apply Ta|lia|intros; eexists; split; reflexivity|].
    exists b. split; auto. split.
    + apply (tri_scale a b r1 fac 1); auto; try lia. intros j Hj. rewrite Nb by auto. ring.
    + intros k Hk. pose proof (PCB k Hk). destruct (Ka k Hk) as ((K1 & K2) & K3). destruct (Nat.eq_dec k r1) as [->|].
      * assert (ent nc b r1 (P r1) = d) as -> by (rewrite Nb by auto; lia). sp; auto; [apply Z.divide_refl|].
        intros t Ht Hn. pose proof (PCB t Ht). rewrite Nb by auto. rewrite K3 by auto. ring.
      * rewrite Ob by lia. sp; auto. { intros; apply K2; lia. } intros t Ht Hn. pose proof (PCB t Ht). rewrite Ob by lia. auto.
  - exists e'. sp; auto. split; auto. intros i Hi. destruct (K' i Hi) as ((K1 & K2) & K3). split.
    + intros k Hk. destruct (Nat.eqb_spec i k) as [<-|]; [apply K2; lia|apply K3; auto].
    + intros j Hj. apply (t_zero e' T'); auto.
Qed.
(** with no non-pivotal columns *)
Lemma tri_units e : tri e -> npc = [] -> forall i, (i < nc)%nat -> qspan nc nr A (fun j => dlt i j).
Proof.
  intros T N. pose proof (splits_len _ _ _ SPL) as El. rewrite N in El. cbn [length] in El. rewrite Nat.add_0_r in El.
  assert (PI : forall i, (i < rk)%nat -> P i = i).
  { assert (G : forall i, (i < rk)%nat -> (i <= P i)%nat).
    { induction i; intros Hi; [lia|]. specialize (IHi ltac:(lia)). pose proof (PCS i (Datatypes.S i) ltac:(lia)). lia. }
    assert (G' : forall k i, (i + k < rk)%nat -> (P i + k <= P (i + k))%nat).
    { induction k; intros i Hi; [rewrite !Nat.add_0_r; lia|]. specialize (IHk i ltac:(lia)). pose proof (PCS (i + k) (i + Datatypes.S k) ltac:(lia)). lia. }
    intros i Hi. specialize (G i Hi). specialize (G' (rk - 1 - i)%nat i ltac:(lia)). pose proof (PCB (i + (rk - 1 - i)) ltac:(lia)). lia. }
  assert (G : forall k i, (i < nc)%nat -> (nc <= i + k)%nat -> qspan nc nr A (fun j => dlt i j)).
  { induction k as [|k IH]; intros i Hi Hk; [lia|].
    assert (Hr : (i < rk)%nat) by lia.
    (* d_i u_i = row_i - sum_{j>i} *)
    apply (qspan_comb nc nr A (ent nc e i) (fun j => sumn nc (fun t => (if (i <? t)%nat then ent nc e i t else 0) * dlt t j)) _ (ent nc e i i) 1 (-1)).
    - rewrite <- (PI i Hr) at 2. apply (t_piv e T); auto.
    - intros j Hj. rewrite (sumn_ext nc _ (fun t => dlt t j * (if (i <? t)%nat then ent nc e i t else 0))) by (intros; ring).
      rewrite (sumn_dlt nc j (fun t => if (i <? t)%nat then ent nc e i t else 0)) by auto. unfold dlt.
      destruct (Nat.eqb_spec i j) as [E|E]; [subst j; rewrite Nat.ltb_irrefl; lia|]. destruct (Nat.ltb_spec i j); [lia|].
      rewrite (t_zero e T i j); auto; [|rewrite PI by auto; lia]. lia.
    - apply (t_span e T). apply qspan_row. auto.
    - set (cf := fun t : nat => if (i <? t)%nat then ent nc e i t else 0).
      apply (qspan_lin nc nr A nc (fun t j => if (i <? t)%nat then dlt t j else 0) 1 cf); [lia| |].
      + intros t Ht. destruct (Nat.ltb_spec i t); [apply IH; lia|apply qspan_0].
      + intros j Hj. rewrite Z.mul_1_l. apply sumn_ext. intros t Ht. unfold cf. destruct (i <? t)%nat; ring. }
  intros i Hi. apply (G nc i); lia.
Qed.
Lemma phase4 e : tri e -> npc = [] ->
  exists e', mfold (fun e i => bind (at_ pc i) (fun c => put e (i * nc) (map (fun j => if (j =? c)%nat then 1 else 0) (seq 0 nc)))) (seq 0 rk) e = Ok e' /\
    tri e' /\ rrefq nc rk (ent nc e') pc 1.
Proof.
  intros T N.
  destruct (mfold_seq (fun k e => length e = (nr * nc)%nat /\ forall i j, (i < k)%nat -> (i < rk)%nat -> (j < nc)%nat -> ent nc e i j = if (j =? P i)%nat then 1 else 0)
     (fun e i => bind (at_ pc i) (fun c => put e (i * nc) (map (fun j => if (j =? c)%nat then 1 else 0) (seq 0 nc)))) 0 rk e) as (e1 & -> & L1 & I1).
  - split; [apply T|]. intros; lia.
  - intros k a Hk (La & Ia). rewrite (at_ok 0%nat) by lia. rewrite bind_Ok. rewrite <- (Nat.add_0_r (k * nc)).
    destruct (put_row nr nc a k 0 (map (fun j => if (j =? P k)%nat then 1 else 0) (seq 0 nc))) as (b & -> & Lb & Ob & Nb); auto; try lia.
    { rewrite map_length, seq_length. lia. }
    exists b. split; auto. split; auto. intros i j Hi Hir Hj. destruct (Nat.eq_dec i k) as [->|]; [|rewrite Ob by (auto; lia); apply Ia; auto; lia].
    rewrite Nb by (rewrite map_length, seq_length; lia). rewrite Nat.sub_0_r. rewrite nth_indep with (d' := (fun j => if (j =? P k)%nat then 1 else 0) 0%nat) by (rewrite map_length, seq_length; lia).
    rewrite (map_nth (fun j => if (j =? P k)%nat then 1 else 0)). rewrite seq_nth by auto. reflexivity.
  - assert (I2 : forall i j, (i < rk)%nat -> (j < nc)%nat -> ent nc e1 i j = dlt (P i) j).
    { intros i j Hi Hj. rewrite I1 by auto. unfold dlt. rewrite Nat.eqb_sym. reflexivity. }
    exists e1. split; auto. split.
    + constructor; auto.
      * apply eqq_rows; intros k Hk.
        -- apply (qspan_lin nc rk (ent nc e1) nc (fun t j => dlt t j) 1 (fun t => A k t)); [lia| |].
           ++ intros t Ht. destruct (splits_cases nc pc npc t SPL Ht) as [(i & Hi & Ei)|(i & Hi & _)]; [|rewrite N in Hi; cbn in Hi; lia].
              apply (qspan_mult nc rk (ent nc e1) i _ 1 1); auto; try lia. intros j Hj. rewrite I2 by auto. rewrite Ei. ring.
           ++ intros j Hj. rewrite Z.mul_1_l. rewrite (sumn_ext nc _ (fun t => dlt t j * A k t)) by (intros; ring). rewrite (sumn_dlt nc j (fun t => A k t)) by auto. auto.
        -- pose proof (tri_units e T N (P k) (PCB k Hk)) as (e0 & c & E0 & H). exists e0, c. split; auto. intros j Hj. rewrite I2 by auto. auto.
      * intros i Hi. rewrite I2 by (auto; apply PCB; auto). unfold dlt. rewrite Nat.eqb_refl. lia.
      * intros i j Hi Hj. pose proof (PCB i Hi). rewrite I2 by (auto; lia). unfold dlt. destruct (Nat.eqb_spec (P i) j); lia.
    + split; [lia|]. intros i Hi. pose proof (PCB i Hi). split.
      * intros k Hk. rewrite I2 by (auto; apply PCB; auto). unfold dlt. destruct (Nat.eqb_spec i k) as [->|]; [rewrite Nat.eqb_refl; auto|].
        destruct (Nat.eqb_spec (P i) (P k)) as [Eq|]; auto. apply (sorted_inj pc i k) in Eq; auto; [contradiction|apply SPL].
      * intros j Hj. rewrite I2 by (auto; lia). unfold dlt. destruct (Nat.eqb_spec (P i) j); lia.
Qed.
End Back.

(** ** echelon0 with exact divisions *)
Theorem echelon0_x m : wfm m ->
  exists R pc npc d, echelon0 sc_x m = Ok (R, pc, npc, d) /\ nro R = length pc /\ nco R = nco m /\ length (ents R) = (nro m * nco m)%nat /\ (length pc <= nro m)%nat /\
    splits (nco m) pc npc /\ rrefq (nco m) (length pc) (me R) pc d /\ eqq (nco m) (nro m) (me m) (length pc) (me R).
Proof.
  intros W. unfold echelon0. set (nr := nro m). set (nc := nco m).
  destruct (ech0_cols_ok nr nc (me m) nc (ents m) 0 0 [] [] 1) as (e & r & pc & npc & last & c & -> & L & B & HC); auto. { apply bar_init. }
  rewrite bind_Ok. apply bar_fill in B; auto. set (npc' := npc ++ _) in *. clearbody npc'.
  destruct B as [EL R Cc SPL PIV BEL SP _]. subst r.
  assert (T : tri nr nc (me m) pc e).
  { constructor; auto.
    - eapply eqq_trans; [exact SP|]. apply eqq_drop; auto.
    - intros i Hi. apply PIV; auto.
    - intros i j Hi. apply PIV; auto. }
  destruct (Nat.ltb_spec 0 (length npc')) as [HN|HN].
  - destruct (phase1 nr nc (me m) pc npc' R SPL e T) as (e1 & -> & T1). rewrite bind_Ok.
    destruct (phase2 nr nc (me m) pc npc' R SPL e1 T1) as (e2 & d & E2 & T2 & D2 & K2). rewrite E2, bind_Ok. cbn [s_abs sc_x]. rewrite bind_Ok.
    destruct (phase3 nr nc (me m) pc npc' R SPL e2 (Z.abs d) T2) as (e3 & E3 & T3 & RR). { lia. }
    { intros k Hk. destruct (K2 k Hk) as (Q1 & Q2). split; auto. apply Z.divide_abs_r. auto. }
    rewrite E3, bind_Ok. exists (Mt (length pc) nc e3), pc, npc', (Z.abs d). cbn [nro nco ents]. sp; auto; apply T3.
  - assert (npc' = []) as -> by (destruct npc'; auto; cbn in HN; lia).
    destruct (phase4 nr nc (me m) pc [] R SPL e T eq_refl) as (e3 & E3 & T3 & RR). rewrite E3, bind_Ok.
    exists (Mt (length pc) nc e3), pc, [], 1. cbn [nro nco ents]. sp; auto; apply T3.
Qed.
