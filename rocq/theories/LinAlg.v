(** Proofs about LinModel: vector and matrix operations entry by entry. *)
From Coq Require Import ZArith Znumtheory Lia List Bool Sorted Permutation.
From Verif Require Import Base ArithModel ArithProofs XModModel MArithModel RatModel MArithProofs LinModel LinSpec LinProofs LinElim LinKer.
Import ListNotations.
Open Scope Z_scope.

(** the operations are those of the integers when they are defined *)
Record exact (S : scal) : Prop := {
  ex_add : forall a b c, s_add S a b = Ok c -> c = a + b;
  ex_sub : forall a b c, s_sub S a b = Ok c -> c = a - b;
  ex_mul : forall a b c, s_mul S a b = Ok c -> c = a * b;
  ex_neg : forall a c, s_neg S a = Ok c -> c = - a;
  ex_div : forall a b c, s_div S a b = Ok c -> (b | a) -> b * c = a
}.
(** they are always defined (bigint) *)
Record total (S : scal) : Prop := {
  to_add : forall a b, s_add S a b = Ok (a + b);
  to_sub : forall a b, s_sub S a b = Ok (a - b);
  to_mul : forall a b, s_mul S a b = Ok (a * b);
  to_neg : forall a, s_neg S a = Ok (- a);
  to_div : forall a b, b <> 0 -> (b | a) -> exists c, s_div S a b = Ok c /\ b * c = a
}.
Lemma exact_int : exact sc_int.
Proof.
  constructor; cbn [s_add s_sub s_mul s_neg s_div sc_int]; intros.
  1-4: apply c32_inv in H; tauto.
  unfold quot32 in H. destruct (_ =? 0) eqn:E; [discriminate|]. apply c32_inv in H. destruct H as (-> & _).
  apply Z.eqb_neq in E. destruct H0 as [k ->]. rewrite Z.quot_mul by auto. ring.
Qed.
Lemma exact_long : exact sc_long.
Proof.
  constructor; cbn [s_add s_sub s_mul s_neg s_div sc_long]; intros.
  1-4: apply c64_inv in H; tauto.
  unfold quot64 in H. destruct (_ =? 0) eqn:E; [discriminate|]. apply c64_inv in H. destruct H as (-> & _).
  apply Z.eqb_neq in E. destruct H0 as [k ->]. rewrite Z.quot_mul by auto. ring.
Qed.
Lemma total_z xg : total (sc_z xg).
Proof.
  constructor; cbn [s_add s_sub s_mul s_neg s_div sc_z]; auto. intros a b H [k ->].
  rewrite zz_div_ok by auto. rewrite Z.div_mul by auto. exists k. split; auto. ring.
Qed.
Lemma exact_z xg : exact (sc_z xg).
Proof.
  constructor; cbn [s_add s_sub s_mul s_neg s_div sc_z]; intros; try congruence.
  destruct H0 as [k ->]. unfold zz_div in H. destruct (_ =? 0) eqn:E; [discriminate|]. apply Z.eqb_neq in E. injection H as <-.
  rewrite Z.div_mul by auto. ring.
Qed.
Notation vnth v k := (nth k v 0).
Ltac inv H := let x := fresh "x" in let E := fresh "E" in apply bind_ok in H; destruct H as (x & E & H).

Section Alg.
Variable S : scal.
Hypothesis X : exact S.

(** ** vectors *)
Lemma vec_op_inv (f : Z -> Z -> res Z) (g : Z -> Z -> Z) v w r : (forall a b c, f a b = Ok c -> c = g b a) ->
  bind (mmap2 f w v) (fun z => put v 0 z) = Ok r -> length w = length v ->
  length r = length v /\ forall k, (k < length v)%nat -> vnth r k = g (vnth v k) (vnth w k).
Proof.
  intros Hf H L. inv H. apply (mmap2_inv 0 0 0) in E. destruct E as (_ & Lx & Hx).
  apply (put_inv 0) in H. destruct H as (_ & Lr & Hi & _). split; auto.
  intros k Hk. rewrite Hi by lia. rewrite Nat.sub_0_r. apply Hf. apply Hx. lia.
Qed.
Lemma vec_add_inv v w r : vec_add S v w = Ok r -> length w = length v ->
  length r = length v /\ forall k, (k < length v)%nat -> vnth r k = vnth v k + vnth w k.
Proof. unfold vec_add. intros H L. apply (vec_op_inv _ Z.add v w r) in H; auto. intros a b c Hc. apply (ex_add _ X) in Hc. auto. Qed.
Lemma vec_sub_inv v w r : vec_sub S v w = Ok r -> length w = length v ->
  length r = length v /\ forall k, (k < length v)%nat -> vnth r k = vnth v k - vnth w k.
Proof. unfold vec_sub. intros H L. apply (vec_op_inv _ Z.sub v w r) in H; auto. intros a b c Hc. apply (ex_sub _ X) in Hc. auto. Qed.
Lemma vec_scale_inv v c r : vec_scale S v c = Ok r -> length r = length v /\ forall k, (k < length v)%nat -> vnth r k = c * vnth v k.
Proof.
  unfold vec_scale. intros H. apply (mmap_inv 0 0) in H. destruct H as (L & H). split; auto.
  intros k Hk. specialize (H k Hk). apply (ex_mul _ X) in H. rewrite H. ring.
Qed.
Lemma vec_div_inv v c r : vec_div S v c = Ok r -> length r = length v /\ forall k, (k < length v)%nat -> (c | vnth v k) -> c * vnth r k = vnth v k.
Proof.
  unfold vec_div. intros H. apply (mmap_inv 0 0) in H. destruct H as (L & H). split; auto.
  intros k Hk D. apply (ex_div _ X _ _ _ (H k Hk) D).
Qed.
Lemma inner_inv v : forall acc w r, inner S acc v w = Ok r -> (length v <= length w)%nat /\ r = acc + sumn (length v) (fun k => vnth v k * vnth w k).
Proof.
  induction v as [|a v IH]; intros acc w r H; cbn [inner] in H.
  - injection H as <-. split; [cbn; lia|]. cbn [length sumn]. lia.
  - destruct w as [|b w]; [discriminate|]. inv H. inv H. apply (ex_mul _ X) in E. apply (ex_add _ X) in E0. subst.
    apply IH in H. destruct H as (L & ->). split; [cbn [length]; lia|]. cbn [length].
    assert (G : forall n, sumn (Datatypes.S n) (fun k => vnth (a :: v) k * vnth (b :: w) k) = a * b + sumn n (fun k => vnth v k * vnth w k)).
    { induction n; [cbn [sumn nth]; lia|]. cbn [sumn] in *. rewrite IHn. cbn [nth]. lia. }
    rewrite G. lia.
Qed.
Lemma vec_dot_inv v w r : vec_dot S v w = Ok r -> r = sumn (length v) (fun k => vnth v k * vnth w k).
Proof. intros H. apply inner_inv in H. destruct H as (_ & ->). lia. Qed.

(** ** matrices *)
Definition msize (m : mat) (r c : nat) : Prop := nro m = r /\ nco m = c /\ wfm m.
Lemma flat_idx nc k : (0 < nc)%nat -> exists i j, (k = i * nc + j)%nat /\ (j < nc)%nat.
Proof. intros H. exists (k / nc)%nat, (k mod nc)%nat. split; [pose proof (Nat.div_mod k nc ltac:(lia)); lia|apply Nat.mod_upper_bound; lia]. Qed.
Lemma mat_op_inv (f : Z -> Z -> res Z) (g : Z -> Z -> Z) m n r : (forall a b c, f a b = Ok c -> c = g b a) ->
  bind (mmap2 f (ents n) (ents m)) (fun z => bind (put (ents m) 0 z) (fun e => Ok (Mt (nro m) (nco m) e))) = Ok r ->
  msize m (nro m) (nco m) -> msize n (nro m) (nco m) ->
  msize r (nro m) (nco m) /\ forall i j, (i < nro m)%nat -> (j < nco m)%nat -> me r i j = g (me m i j) (me n i j).
Proof.
  intros Hf H (_ & _ & Wm) (N1 & N2 & Wn). inv H. inv H. injection H as <-.
  apply (mmap2_inv 0 0 0) in E. destruct E as (L & Lx & Hx).
  apply (put_inv 0) in E0. destruct E0 as (_ & Lr & Hi & _).
  assert (Ln : length (ents n) = length (ents m)) by (unfold wfm in *; congruence).
  unfold msize, wfm; cbn [nro nco ents]. split; [unfold wfm in Wm; repeat split; congruence|].
  intros i j Hi' Hj. assert (K : (i * nco m + j < length (ents m))%nat) by (rewrite Wm; apply idx_lt; auto).
  unfold me, ent; cbn [nco ents]. rewrite N2. rewrite Hi by lia. rewrite Nat.sub_0_r. apply Hf, Hx. lia.
Qed.
Lemma mat_add_inv m n r : mat_add S m n = Ok r -> msize m (nro m) (nco m) -> msize n (nro m) (nco m) ->
  msize r (nro m) (nco m) /\ forall i j, (i < nro m)%nat -> (j < nco m)%nat -> me r i j = me m i j + me n i j.
Proof. intros H Hm Hn. refine (mat_op_inv _ (fun a b => a + b) m n r _ H Hm Hn). intros a b c Hc. apply (ex_add _ X) in Hc. lia. Qed.
Lemma mat_sub_inv m n r : mat_sub S m n = Ok r -> msize m (nro m) (nco m) -> msize n (nro m) (nco m) ->
  msize r (nro m) (nco m) /\ forall i j, (i < nro m)%nat -> (j < nco m)%nat -> me r i j = me m i j - me n i j.
Proof. intros H Hm Hn. refine (mat_op_inv _ (fun a b => a - b) m n r _ H Hm Hn). intros a b c Hc. apply (ex_sub _ X) in Hc. lia. Qed.
Lemma mat_scale_inv m c r : mat_scale S m c = Ok r -> wfm m ->
  msize r (nro m) (nco m) /\ forall i j, (i < nro m)%nat -> (j < nco m)%nat -> me r i j = c * me m i j.
Proof.
  unfold mat_scale. intros H W. destruct (Z.eqb_spec c 1) as [->|]; [|destruct (Z.eqb_spec c 0) as [->|]].
  - injection H as <-. split; [repeat split; auto|]. intros; ring.
  - injection H as <-. unfold msize, wfm, me, ent; cbn [nro nco ents]. split; [repeat split; auto; unfold zeros; rewrite repeat_length; auto|].
    intros i j Hi Hj. unfold zeros. rewrite nth_repeat. ring.
  - inv H. injection H as <-. apply (mmap_inv 0 0) in E. destruct E as (L & Hx).
    unfold msize, wfm, me, ent; cbn [nro nco ents]. split; [unfold wfm in W; repeat split; congruence|].
    intros i j Hi Hj. specialize (Hx (i * nco m + j)%nat ltac:(rewrite W; apply idx_lt; auto)). apply (ex_mul _ X) in Hx. rewrite Hx. ring.
Qed.
Lemma mat_div_inv m c r : mat_div S m c = Ok r -> wfm m -> c <> 0 ->
  msize r (nro m) (nco m) /\ forall i j, (i < nro m)%nat -> (j < nco m)%nat -> (c | me m i j) -> c * me r i j = me m i j.
Proof.
  unfold mat_div. intros H W N. destruct (Z.eqb_spec c 0) as [->|]; [contradiction|]. cbn [orb] in H. destruct (Z.eqb_spec c 1) as [->|].
  - injection H as <-. split; [repeat split; auto|]. intros; ring.
  - inv H. injection H as <-. apply (mmap_inv 0 0) in E. destruct E as (L & Hx).
    unfold msize, wfm, me, ent; cbn [nro nco ents]. split; [unfold wfm in W; repeat split; congruence|].
    intros i j Hi Hj D. apply (ex_div _ X _ _ _ (Hx (i * nco m + j)%nat ltac:(rewrite W; apply idx_lt; auto)) D).
Qed.
(** one row of a product *)
Lemma mul_row_inv m1 m2 i r : wfm m1 -> wfm m2 -> nco m1 = nro m2 -> (i < nro m1)%nat ->
  mul_row (fun a b c => bind (s_mul S a b) (fun x => s_add S x c)) m1 m2 i = Ok r ->
  length r = nco m2 /\ forall j, (j < nco m2)%nat -> vnth r j = sumn (nro m2) (fun k => me m1 i k * me m2 k j).
Proof.
  intros W1 W2 Hn Hi H. unfold mul_row in H.
  apply (mfold_seq_inv (fun k c => length c = nco m2 /\ forall j, (j < nco m2)%nat -> vnth c j = sumn k (fun k => me m1 i k * me m2 k j))) in H; auto.
  - split; [apply repeat_length|]. intros j Hj. unfold zeros. rewrite nth_repeat. reflexivity.
  - clear H. intros k c c' Hk (Lc & Hc) H. inv H. inv H.
    rewrite (deref_ent (nro m1) (nco m1)) in E by (auto; lia). injection E as <-.
    destruct (seg_row (nro m2) (nco m2) (ents m2) k 0 (nco m2) W2 ltac:(lia) ltac:(lia)) as (b & Eb & Lb & Hb).
    rewrite Nat.add_0_r in Eb. rewrite Eb in E0. injection E0 as <-.
    apply (mmap2_inv 0 0 0) in H. destruct H as (L & L' & H). split; [lia|].
    intros j Hj. specialize (H j ltac:(lia)). inv H. apply (ex_mul _ X) in E. apply (ex_add _ X) in H. subst.
    rewrite H. replace (k + 1)%nat with (Datatypes.S k) by lia. cbn [sumn]. rewrite Hb, Hc by auto. cbn [Nat.add]. unfold me. lia.
Qed.
Lemma mul_gen_inv f m1 m2 r (Q : nat -> nat -> Z -> Prop) : nco m1 = nro m2 -> mul_gen f m1 m2 = Ok r ->
  (forall i v, (i < nro m1)%nat -> mul_row f m1 m2 i = Ok v -> length v = nco m2 /\ forall j, (j < nco m2)%nat -> Q i j (vnth v j)) ->
  msize r (nro m1) (nco m2) /\ forall i j, (i < nro m1)%nat -> (j < nco m2)%nat -> Q i j (me r i j).
Proof.
  intros Hn H HQ. unfold mul_gen in H. rewrite Hn, Nat.eqb_refl in H. inv H. injection H as <-.
  apply (mmap_inv 0%nat []) in E. destruct E as (L & E). rewrite seq_length in *.
  assert (R : forall i, (i < nro m1)%nat -> length (nth i x []) = nco m2 /\ forall j, (j < nco m2)%nat -> Q i j (vnth (nth i x []) j)).
  { intros i Hi. apply HQ; auto. specialize (E i Hi). rewrite seq_nth in E by auto. auto. }
  destruct (concat_rows (nco m2) x) as (Lc & Hc).
  { intros v Hv. apply (In_nth _ _ []) in Hv. destruct Hv as (i & Hi & <-). apply R. lia. }
  unfold msize, wfm, me; cbn [nro nco ents]. split; [repeat split; lia|].
  intros i j Hi Hj. rewrite Hc by lia. apply R; auto.
Qed.
Lemma mat_mul_inv m1 m2 r : mat_mul S m1 m2 = Ok r -> wfm m1 -> wfm m2 -> nco m1 = nro m2 ->
  msize r (nro m1) (nco m2) /\ forall i j, (i < nro m1)%nat -> (j < nco m2)%nat -> me r i j = sumn (nco m1) (fun k => me m1 i k * me m2 k j).
Proof.
  intros H W1 W2 Hn. rewrite Hn. apply (mul_gen_inv _ m1 m2 r (fun i j x => x = sumn (nro m2) (fun k => me m1 i k * me m2 k j)) Hn H).
  intros i v Hi Hv. apply mul_row_inv; auto.
Qed.
Lemma mat_vec_inv m v r : mat_vec S m v = Ok r -> wfm m -> nco m = length v ->
  length r = nro m /\ forall i, (i < nro m)%nat -> vnth r i = sumn (nco m) (fun k => me m i k * vnth v k).
Proof.
  intros H W L. unfold mat_vec in H. rewrite L, Nat.eqb_refl in H. apply (mmap_inv 0%nat 0) in H. rewrite seq_length in H.
  destruct H as (Lr & H). split; auto. intros i Hi. specialize (H i Hi). rewrite seq_nth in H by auto. cbn [Nat.add] in H. inv H.
  rewrite <- L in E. destruct (seg_row (nro m) (nco m) (ents m) i 0 (nco m) W Hi ltac:(lia)) as (a & Ea & La & Ha). rewrite Nat.add_0_r in Ea.
  rewrite Ea in E. injection E as <-. apply inner_inv in H. destruct H as (_ & ->). rewrite La, Z.add_0_l.
  apply sumn_ext. intros k Hk. rewrite Ha by auto. auto.
Qed.
Lemma trace_inv m r : trace S m = Ok r -> wfm m -> nro m = nco m -> r = sumn (nro m) (fun i => me m i i).
Proof.
  unfold trace. intros H W E.
  apply (mfold_seq_inv (fun k t => t = sumn k (fun i => me m i i))) in H; auto.
  clear H. intros k a a' Hk -> H. inv H. replace (k * (nco m + 1))%nat with (k * nco m + k)%nat in E0 by lia.
  rewrite (at_ent (nro m) (nco m)) in E0 by (auto; lia). injection E0 as <-. apply (ex_add _ X) in H. rewrite H.
  replace (k + 1)%nat with (Datatypes.S k) by lia. reflexivity.
Qed.
End Alg.

(** ** operations that only move entries: always defined on matching sizes *)
Lemma mat_fill_ok nr nc g h : (forall i j, (i < nr)%nat -> (j < nc)%nat -> g i j = Ok (h i j)) ->
  exists r, mat_fill nr nc g = Ok r /\ msize r nr nc /\ forall i j, (i < nr)%nat -> (j < nc)%nat -> me r i j = h i j.
Proof.
  intros Hg. unfold mat_fill. destruct (mat_new_ok nr nc) as (W0 & Z0).
  destruct (mfold_seq (fun k m => msize m nr nc /\ forall i j, (i < k)%nat -> (j < nc)%nat -> me m i j = h i j)
     (fun m i => mfold (fun m j => bind (g i j) (fun x => mat_set m i j x)) (seq 0 nc) m) 0 nr (mat_new nr nc)) as (m & E & Hm & He).
  { split; [split; [|split]; auto|]. intros; lia. }
  { intros k m Hk (Hm & He).
    destruct (mfold_seq (fun t m => msize m nr nc /\ (forall i j, (i < k)%nat -> (j < nc)%nat -> me m i j = h i j) /\ forall j, (j < t)%nat -> me m k j = h k j)
       (fun m j => bind (g k j) (fun x => mat_set m k j x)) 0 nc m) as (m' & E & Hm' & He' & Hk').
    { split; auto. split; auto. intros; lia. }
    { intros t m1 Ht ((N1 & C1 & W1) & He1 & Hk1). rewrite Hg by lia. rewrite bind_Ok.
      destruct (mat_set_ok m1 k t (h k t) W1) as (m2 & -> & N2 & C2 & W2 & S2 & O2); [lia|lia|].
      exists m2. split; auto. split; [split; [|split]; auto; congruence|]. split.
      - intros i j Hi Hj. rewrite O2 by lia. auto.
      - intros j Hj. destruct (Nat.eq_dec j t) as [->|]; auto. rewrite O2 by lia. apply Hk1. lia. }
    exists m'. split; auto. split; auto. intros i j Hi Hj. destruct (Nat.eq_dec i k) as [->|]; [apply Hk'; auto|apply He'; auto; lia]. }
  exists m. auto.
Qed.
Lemma mat_get_ok m i j : wfm m -> (i < nro m)%nat -> (j < nco m)%nat -> mat_get m i j = Ok (me m i j).
Proof. intros W Hi Hj. unfold mat_get. apply (at_ent (nro m) (nco m)); auto. Qed.
Lemma transpose_ok m : wfm m -> exists r, transpose m = Ok r /\ msize r (nco m) (nro m) /\ forall i j, (i < nco m)%nat -> (j < nro m)%nat -> me r i j = me m j i.
Proof. intros W. apply mat_fill_ok. intros. apply mat_get_ok; auto. Qed.
Lemma rowsubmat_ok m v : wfm m -> (forall i, (i < length v)%nat -> (nth i v 0 < nro m)%nat) ->
  exists r, rowsubmat m v = Ok r /\ msize r (length v) (nco m) /\ forall i j, (i < length v)%nat -> (j < nco m)%nat -> me r i j = me m (nth i v 0%nat) j.
Proof. intros W H. apply mat_fill_ok. intros i j Hi Hj. rewrite (at_ok 0%nat) by auto. rewrite bind_Ok. apply mat_get_ok; auto. Qed.
Lemma submat_ok m iv jv : wfm m -> (forall i, (i < length iv)%nat -> (nth i iv 0 < nro m)%nat) -> (forall j, (j < length jv)%nat -> (nth j jv 0 < nco m)%nat) ->
  exists r, submat m iv jv = Ok r /\ msize r (length iv) (length jv) /\ forall i j, (i < length iv)%nat -> (j < length jv)%nat -> me r i j = me m (nth i iv 0%nat) (nth j jv 0%nat).
Proof.
  intros W H1 H2. apply mat_fill_ok. intros i j Hi Hj. rewrite (at_ok 0%nat) by auto. rewrite bind_Ok.
  rewrite (at_ok 0%nat) by auto. rewrite bind_Ok. apply mat_get_ok; auto.
Qed.
Lemma mat_slice_gen m r1 r2 c1 c2 : wfm m -> (r1 <= r2 <= nro m)%nat -> (c1 <= c2 <= nco m)%nat ->
  exists r, mat_slice m r1 r2 c1 c2 = Ok r /\ msize r (r2 - r1) (c2 - c1) /\
    forall i j, (i < r2 - r1)%nat -> (j < c2 - c1)%nat -> me r i j = me m (r1 + i) (c1 + j).
Proof.
  intros W Hr Hc. unfold mat_slice. set (n := (r2 - r1)%nat). set (k := (c2 - c1)%nat).
  destruct (mmap_ok 0%nat [] (fun i r => length r = k /\ forall j, (j < k)%nat -> nth j r 0 = me m i (c1 + j)) (fun i => seg (ents m) (i * nco m + c1) k) (seq r1 n)) as (rs & -> & Lr & Hrs).
  { rewrite seq_length. intros i Hi. rewrite seq_nth by auto.
    destruct (seg_row (nro m) (nco m) (ents m) (r1 + i) c1 k W ltac:(subst n; lia) ltac:(subst k; lia)) as (v & -> & Lv & Hv). exists v. split; auto. }
  rewrite bind_Ok. rewrite seq_length in *.
  destruct (concat_rows k rs) as (Lc & Hcc).
  { intros r Hin. apply (In_nth _ _ []) in Hin. destruct Hin as (i & Hi & <-). apply Hrs. lia. }
  eexists; split; [reflexivity|]. unfold msize, wfm, me; cbn [nro nco ents]. split; [split; [|split]; auto; lia|].
  intros i j Hi Hj. rewrite Hcc by lia. destruct (Hrs i Hi) as (_ & Hv). rewrite seq_nth in Hv by auto. apply Hv; auto.
Qed.
Lemma colcat_ok a b : wfm a -> wfm b -> nro a = nro b ->
  exists r, colcat a b = Ok r /\ msize r (nro a) (nco a + nco b) /\
    (forall i j, (i < nro a)%nat -> (j < nco a)%nat -> me r i j = me a i j) /\ (forall i j, (i < nro a)%nat -> (j < nco b)%nat -> me r i (nco a + j) = me b i j).
Proof.
  intros Wa Wb Hn. unfold colcat. rewrite Hn, Nat.eqb_refl.
  destruct (mmap_ok 0%nat [] (fun i r => length r = (nco a + nco b)%nat /\ (forall j, (j < nco a)%nat -> nth j r 0 = me a i j) /\ (forall j, (j < nco b)%nat -> nth (nco a + j) r 0 = me b i j))
     (fun i => bind (seg (ents a) (i * nco a) (nco a)) (fun x => bind (seg (ents b) (i * nco b) (nco b)) (fun y => Ok (x ++ y)))) (seq 0 (nro b))) as (rs & -> & Lr & Hrs).
  { rewrite seq_length. intros i Hi. rewrite seq_nth by auto. cbn [Nat.add].
    rewrite <- (Nat.add_0_r (i * nco a)), <- (Nat.add_0_r (i * nco b)).
    destruct (seg_row (nro a) (nco a) (ents a) i 0 (nco a) Wa ltac:(lia) ltac:(lia)) as (x & -> & Lx & Hx). rewrite bind_Ok.
    destruct (seg_row (nro b) (nco b) (ents b) i 0 (nco b) Wb ltac:(lia) ltac:(lia)) as (y & -> & Ly & Hy). rewrite bind_Ok.
    eexists; split; [reflexivity|]. rewrite app_length. split; [lia|]. split.
    - intros j Hj. rewrite app_nth1 by lia. rewrite Hx by auto. auto.
    - intros j Hj. rewrite app_nth2 by lia. rewrite Lx. replace (nco a + j - nco a)%nat with j by lia. rewrite Hy by auto. auto. }
  rewrite bind_Ok. rewrite seq_length in *.
  destruct (concat_rows (nco a + nco b) rs) as (Lc & Hcc).
  { intros r Hin. apply (In_nth _ _ []) in Hin. destruct Hin as (i & Hi & <-). apply Hrs. lia. }
  eexists; split; [reflexivity|]. unfold msize, wfm; cbn [nro nco ents]. split; [split; [|split]; auto; lia|].
  split; intros i j Hi Hj; unfold me at 1; cbn [nco ents]; rewrite Hcc by lia; destruct (Hrs i Hi) as (_ & H1 & H2); rewrite seq_nth in H1, H2 by auto; auto.
Qed.
Lemma rowcat_ok a b : wfm a -> wfm b -> nco a = nco b ->
  exists r, rowcat a b = Ok r /\ msize r (nro a + nro b) (nco a) /\
    (forall i j, (i < nro a)%nat -> (j < nco a)%nat -> me r i j = me a i j) /\ (forall i j, (i < nro b)%nat -> (j < nco a)%nat -> me r (nro a + i) j = me b i j).
Proof.
  intros Wa Wb Hn. unfold rowcat. rewrite <- Hn, Nat.eqb_refl. unfold wfm in Wa, Wb. rewrite <- Hn in Wb.
  destruct (put_ok 0 (zeros ((nro a + nro b) * nco a)) 0 (ents a)) as (e1 & -> & L1 & I1 & _).
  { unfold zeros. rewrite repeat_length. nia. }
  rewrite bind_Ok. unfold zeros in L1. rewrite repeat_length in L1.
  destruct (put_ok 0 e1 (length (ents a)) (ents b)) as (e2 & -> & L2 & I2 & O2). { rewrite L1, Wa, Wb. nia. }
  rewrite bind_Ok. eexists; split; [reflexivity|]. unfold msize, wfm, me; cbn [nro nco ents]. split; [split; [|split]; auto; lia|]. rewrite <- Hn. split; intros i j Hi Hj.
  - unfold ent. assert (i * nco a + j < nro a * nco a)%nat by (apply idx_lt; auto). rewrite O2 by lia. rewrite I1 by lia. f_equal. lia.
  - unfold ent. assert (i * nco a + j < nro b * nco a)%nat by (apply idx_lt; auto).
    replace ((nro a + i) * nco a + j)%nat with (length (ents a) + (i * nco a + j))%nat by (rewrite Wa; lia).
    rewrite I2 by lia. f_equal. lia.
Qed.
Lemma directsum_ok a b : wfm a -> wfm b ->
  exists r, directsum a b = Ok r /\ msize r (nro a + nro b) (nco a + nco b) /\
    (forall i j, (i < nro a)%nat -> (j < nco a)%nat -> me r i j = me a i j) /\
    (forall i j, (i < nro a)%nat -> (j < nco b)%nat -> me r i (nco a + j) = 0) /\
    (forall i j, (i < nro b)%nat -> (j < nco a)%nat -> me r (nro a + i) j = 0) /\
    (forall i j, (i < nro b)%nat -> (j < nco b)%nat -> me r (nro a + i) (nco a + j) = me b i j).
Proof.
  intros Wa Wb. unfold directsum. destruct (mat_new_ok (nro a) (nco b)) as (W1 & Z1). destruct (mat_new_ok (nro b) (nco a)) as (W2 & Z2).
  destruct (colcat_ok a (mat_new (nro a) (nco b)) Wa W1 eq_refl) as (x & -> & (Nx & Cx & Wx) & X1 & X2). rewrite bind_Ok.
  destruct (colcat_ok (mat_new (nro b) (nco a)) b W2 Wb eq_refl) as (y & -> & (Ny & Cy & Wy) & Y1 & Y2). rewrite bind_Ok.
  cbn [nro nco mat_new] in *. destruct (rowcat_ok x y Wx Wy ltac:(lia)) as (r & -> & Mr & R1 & R2). rewrite Nx, Ny, Cx in *.
  exists r. split; auto. split; auto. split; [|split; [|split]]; intros i j Hi Hj.
  - rewrite R1 by lia. auto.
  - rewrite R1 by lia. rewrite X2 by auto. apply Z1.
  - rewrite R2 by lia. rewrite Y1 by auto. apply Z2.
  - rewrite R2 by lia. apply Y2; auto.
Qed.
Lemma scalar_matrix_ok n a : exists r, scalar_matrix n a = Ok r /\ msize r n n /\ forall i j, (i < n)%nat -> (j < n)%nat -> me r i j = if Nat.eqb i j then a else 0.
Proof.
  unfold scalar_matrix. destruct (mat_new_ok n n) as (W0 & Z0).
  destruct (mfold_seq (fun k m => msize m n n /\ forall i j, (i < n)%nat -> (j < n)%nat -> me m i j = if Nat.eqb i j then (if (i <? k)%nat then a else 0) else 0)
     (fun d i => mat_set d i i a) 0 n (mat_new n n)) as (m & E & Hm & He).
  { split; [split; [|split]; auto|]. intros i j Hi Hj. rewrite Z0. destruct (Nat.eqb i j); reflexivity. }
  { intros k m Hk ((N1 & C1 & W1) & He). destruct (mat_set_ok m k k a W1) as (m2 & -> & N2 & C2 & W2 & S2 & O2); [lia|lia|].
    exists m2. split; auto. split; [split; [|split]; auto; congruence|]. intros i j Hi Hj.
    destruct (Nat.eq_dec i k) as [->|]; [destruct (Nat.eq_dec j k) as [->|]|].
    - rewrite S2, Nat.eqb_refl. destruct (Nat.ltb_spec k (k + 1)); auto. lia.
    - rewrite O2 by lia. rewrite He by auto. destruct (Nat.eqb_spec k j); auto. lia.
    - rewrite O2 by lia. rewrite He by auto. destruct (Nat.eqb_spec i j); auto. destruct (Nat.ltb_spec i k), (Nat.ltb_spec i (k + 1)); auto; lia. }
  exists m. split; auto. split; auto. intros i j Hi Hj. rewrite He by auto. destruct (Nat.eqb i j); auto. destruct (Nat.ltb_spec i (0 + n)); auto. lia.
Qed.

(** ** for bigint the arithmetic operations are defined on matching sizes *)
Section Tot.
Variable S : scal.
Hypothesis T : total S.
Lemma vec_add_tot v w : length w = length v -> exists r, vec_add S v w = Ok r.
Proof.
  intros L. unfold vec_add. destruct (mmap2_ok 0 0 0 (fun _ _ _ => True) (fun wi vi => s_add S vi wi) w v) as (z & -> & Lz & _); [lia| |].
  { intros. rewrite (to_add _ T). eauto. }
  rewrite bind_Ok. destruct (put_ok 0 v 0 z ltac:(lia)) as (r & -> & _). eauto.
Qed.
Lemma vec_sub_tot v w : length w = length v -> exists r, vec_sub S v w = Ok r.
Proof.
  intros L. unfold vec_sub. destruct (mmap2_ok 0 0 0 (fun _ _ _ => True) (fun wi vi => s_sub S vi wi) w v) as (z & -> & Lz & _); [lia| |].
  { intros. rewrite (to_sub _ T). eauto. }
  rewrite bind_Ok. destruct (put_ok 0 v 0 z ltac:(lia)) as (r & -> & _). eauto.
Qed.
Lemma vec_scale_tot v c : exists r, vec_scale S v c = Ok r.
Proof.
  unfold vec_scale. destruct (mmap_ok 0 0 (fun _ _ => True) (fun x => s_mul S x c) v) as (z & -> & Lz & _); eauto.
  intros. rewrite (to_mul _ T). eauto.
Qed.
Lemma inner_tot v : forall acc w, (length v <= length w)%nat -> exists r, inner S acc v w = Ok r.
Proof.
  induction v as [|a v IH]; intros acc w L; cbn [inner]; eauto.
  destruct w as [|b w]; [cbn in L; lia|]. rewrite (to_mul _ T), bind_Ok, (to_add _ T), bind_Ok. apply IH. cbn [length] in L. lia.
Qed.
Lemma mat_add_tot m n : msize n (nro m) (nco m) -> wfm m -> exists r, mat_add S m n = Ok r.
Proof.
  intros (N & C & W) Wm. assert (L : length (ents n) = length (ents m)) by (unfold wfm in *; congruence).
  unfold mat_add. destruct (mmap2_ok 0 0 0 (fun _ _ _ => True) (fun x y => s_add S x y) (ents n) (ents m)) as (z & -> & Lz & _); [lia| |].
  { intros. rewrite (to_add _ T). eauto. }
  rewrite bind_Ok. destruct (put_ok 0 (ents m) 0 z ltac:(lia)) as (r & -> & _). rewrite bind_Ok. eauto.
Qed.
Lemma mat_sub_tot m n : msize n (nro m) (nco m) -> wfm m -> exists r, mat_sub S m n = Ok r.
Proof.
  intros (N & C & W) Wm. assert (L : length (ents n) = length (ents m)) by (unfold wfm in *; congruence).
  unfold mat_sub. destruct (mmap2_ok 0 0 0 (fun _ _ _ => True) (fun x y => s_sub S y x) (ents n) (ents m)) as (z & -> & Lz & _); [lia| |].
  { intros. rewrite (to_sub _ T). eauto. }
  rewrite bind_Ok. destruct (put_ok 0 (ents m) 0 z ltac:(lia)) as (r & -> & _). rewrite bind_Ok. eauto.
Qed.
Lemma mat_scale_tot m c : exists r, mat_scale S m c = Ok r.
Proof.
  unfold mat_scale. destruct (c =? 1); eauto. destruct (c =? 0); eauto.
  destruct (mmap_ok 0 0 (fun _ _ => True) (fun x => s_mul S x c) (ents m)) as (z & -> & Lz & _); [|rewrite bind_Ok; eauto].
  intros. rewrite (to_mul _ T). eauto.
Qed.
Lemma mat_mul_tot m1 m2 : wfm m1 -> wfm m2 -> exists r, mat_mul S m1 m2 = Ok r.
Proof.
  intros W1 W2. unfold mat_mul, mul_gen. destruct (Nat.eqb_spec (nco m1) (nro m2)) as [Hn|]; eauto.
  match goal with |- context[mmap ?f ?l] => destruct (mmap_ok 0%nat [] (fun _ _ => True) f l) as (rs & -> & _) end; [|rewrite bind_Ok; eauto].
  rewrite seq_length. intros i Hi. rewrite seq_nth by auto. cbn [Nat.add]. unfold mul_row.
  match goal with |- context[mfold ?f (seq 0 ?n) ?a] => destruct (mfold_seq (fun _ c => length c = nco m2) f 0 n a) as (r & -> & _) end; eauto.
  - apply repeat_length.
  - intros k c Hk Lc. rewrite (deref_ent (nro m1) (nco m1)) by (auto; lia). rewrite bind_Ok.
    destruct (seg_row (nro m2) (nco m2) (ents m2) k 0 (nco m2) W2 ltac:(lia) ltac:(lia)) as (b & Eb & Lb & Hb).
    rewrite Nat.add_0_r in Eb. rewrite Eb, bind_Ok.
    match goal with |- context[mmap2 ?f ?l ?m] => destruct (mmap2_ok 0 0 0 (fun _ _ _ => True) f l m) as (z & -> & Lz & _) end; [lia| |exists z; split; auto; lia].
    intros. rewrite (to_mul _ T), bind_Ok, (to_add _ T). eauto.
Qed.
Lemma mat_vec_tot m v : wfm m -> exists r, mat_vec S m v = Ok r.
Proof.
  intros W. unfold mat_vec. destruct (Nat.eqb_spec (nco m) (length v)) as [Hn|]; eauto.
  match goal with |- context[mmap ?f ?l] => destruct (mmap_ok 0%nat 0 (fun _ _ => True) f l) as (rs & -> & _) end; eauto.
  rewrite seq_length. intros i Hi. rewrite seq_nth by auto. cbn [Nat.add].
  destruct (seg_row (nro m) (nco m) (ents m) i 0 (nco m) W ltac:(lia) ltac:(lia)) as (b & Eb & Lb & Hb).
  rewrite Nat.add_0_r in Eb. rewrite Eb, bind_Ok. destruct (inner_tot b 0 v ltac:(lia)) as (r & ->). eauto.
Qed.
End Tot.

(** ** modular products *)
Section Mod.
Variables (S : scal) (D : Z -> Prop) (p : Z).
Hypothesis M : modok S D p.
Lemma matmulmodp_ok m1 m2 : wfm m1 -> wfm m2 -> nco m1 = nro m2 ->
  (forall i j, (i < nro m1)%nat -> (j < nco m1)%nat -> Z.abs (me m1 i j) < p) ->
  (forall i j, (i < nro m2)%nat -> (j < nco m2)%nat -> Z.abs (me m2 i j) < p) ->
  exists r, matmulmodp S m1 m2 p = Ok r /\ msize r (nro m1) (nco m2) /\
    forall i j, (i < nro m1)%nat -> (j < nco m2)%nat -> Z.abs (me r i j) < p /\ cong p (me r i j) (sumn (nco m1) (fun k => me m1 i k * me m2 k j)).
Proof.
  intros W1 W2 Hn B1 B2. pose proof (p_pos S D p M) as P.
  set (f := fun a b c => bind (s_xmm S a b p) (fun x => bind (s_add S x c) (fun y => s_xmod S y p))).
  assert (R : forall i, (i < nro m1)%nat -> exists v, mul_row f m1 m2 i = Ok v /\ length v = nco m2 /\
     forall j, (j < nco m2)%nat -> Z.abs (vnth v j) < p /\ cong p (vnth v j) (sumn (nro m2) (fun k => me m1 i k * me m2 k j))).
  { intros i Hi. unfold mul_row.
    destruct (mfold_seq (fun k c => length c = nco m2 /\ forall j, (j < nco m2)%nat -> Z.abs (vnth c j) < p /\ cong p (vnth c j) (sumn k (fun k => me m1 i k * me m2 k j)))
      (fun c k => bind (deref (ents m1) (i * nco m1 + k)) (fun a => bind (seg (ents m2) (k * nco m2) (nco m2)) (fun b => mmap2 (f a) b c))) 0 (nro m2) (zeros (nco m2))) as (v & -> & Lv & Hv).
    - split; [apply repeat_length|]. intros j Hj. unfold zeros. rewrite nth_repeat. split; [lia|apply cong_refl].
    - intros k c Hk (Lc & Hc). rewrite (deref_ent (nro m1) (nco m1)) by (auto; lia). rewrite bind_Ok.
      destruct (seg_row (nro m2) (nco m2) (ents m2) k 0 (nco m2) W2 ltac:(lia) ltac:(lia)) as (b & Eb & Lb & Hb).
      rewrite Nat.add_0_r in Eb. rewrite Eb, bind_Ok. change (ent (nco m1) (ents m1) i k) with (me m1 i k).
      destruct (mmap2_ok 0 0 0 (fun x y z => Z.abs z < p /\ cong p z (me m1 i k * x + y)) (f (me m1 i k)) b c) as (z & -> & Lz & Hz); [lia| |].
      + intros j Hj. rewrite Hb by lia. destruct (Hc j ltac:(lia)) as (Bc & _). unfold f.
        destruct (mo_xmm _ _ _ M (me m1 i k) (ent (nco m2) (ents m2) k (0 + j))) as (x & -> & Cx & Bx); [apply B1; lia|apply B2; lia|]. rewrite bind_Ok.
        rewrite (mo_add _ _ _ M) by auto. rewrite bind_Ok.
        destruct (mo_xmod _ _ _ M (x + vnth c j)) as (y & -> & Cy & By); [apply (mo_D _ _ _ M); lia|].
        exists y. split; auto. split; auto. eapply cong_trans; [exact Cy|]. apply cong_add; auto using cong_refl.
      + exists z. split; auto. split; [lia|]. intros j Hj. destruct (Hz j ltac:(lia)) as (Bz & Cz). split; auto.
        eapply cong_trans; [exact Cz|]. rewrite Hb by auto. replace (k + 1)%nat with (Datatypes.S k) by lia. cbn [sumn Nat.add].
        change (ent (nco m2) (ents m2) k j) with (me m2 k j). rewrite Z.add_comm. apply cong_add; [apply Hc; auto|apply cong_refl].
    - exists v. auto. }
  assert (E : exists r, mul_gen f m1 m2 = Ok r).
  { unfold mul_gen. rewrite Hn, Nat.eqb_refl.
    destruct (mmap_ok 0%nat [] (fun _ _ => True) (mul_row f m1 m2) (seq 0 (nro m1))) as (rs & -> & _); [|rewrite bind_Ok; eauto].
    rewrite seq_length. intros i Hi. rewrite seq_nth by auto. cbn [Nat.add]. destruct (R i Hi) as (v & -> & _). eauto. }
  destruct E as (r & E). exists r. split; [exact E|]. rewrite Hn.
  apply (mul_gen_inv f m1 m2 r (fun i j x => Z.abs x < p /\ cong p x (sumn (nro m2) (fun k => me m1 i k * me m2 k j))) Hn E).
  intros i v Hi Hv. destruct (R i Hi) as (v' & Ev & L & H). rewrite Hv in Ev. injection Ev as <-. auto.
Qed.
Lemma dotmodp_ok v w : (length v <= length w)%nat -> (forall k, (k < length v)%nat -> Z.abs (vnth v k) < p /\ Z.abs (vnth w k) < p) ->
  exists r, dotmodp S v w p = Ok r /\ cent p r /\ cong p r (sumn (length v) (fun k => vnth v k * vnth w k)).
Proof.
  pose proof (p_pos S D p M) as P. intros L B. unfold dotmodp.
  assert (G : forall v acc w, (length v <= length w)%nat -> cent p acc -> (forall k, (k < length v)%nat -> Z.abs (vnth v k) < p /\ Z.abs (vnth w k) < p) ->
     exists r, innermod S p acc v w = Ok r /\ cent p r /\ cong p r (acc + sumn (length v) (fun k => vnth v k * vnth w k))).
  { clear v w L B. induction v as [|a v IH]; intros acc w L Ca B; cbn [innermod].
    - exists acc. split; auto. split; auto. cbn [length sumn]. rewrite Z.add_0_r. apply cong_refl.
    - destruct w as [|b w]; [cbn in L; lia|]. cbn [length] in L. destruct (B 0%nat) as (Ba & Bb); [cbn; lia|]. cbn [nth] in Ba, Bb.
      destruct (mo_xmm _ _ _ M a b Ba Bb) as (x & -> & Cx & Bx). rewrite bind_Ok.
      pose proof (cent_lt p acc P Ca). rewrite (mo_add _ _ _ M) by auto. rewrite bind_Ok.
      destruct (mo_mod _ _ _ M (acc + x)) as (y & -> & Cy & Hy); [apply (mo_D _ _ _ M); lia|]. rewrite bind_Ok.
      destruct (IH y w) as (r & -> & Cr & Hr); auto; [lia| |].
      { intros k Hk. apply (B (Datatypes.S k)). cbn [length]. lia. }
      exists r. split; auto. split; auto. eapply cong_trans; [exact Hr|].
      assert (G : forall n, sumn (Datatypes.S n) (fun k => vnth (a :: v) k * vnth (b :: w) k) = a * b + sumn n (fun k => vnth v k * vnth w k)).
      { induction n; [cbn [sumn nth]; lia|]. cbn [sumn] in *. rewrite IHn. cbn [nth]. lia. }
      cbn [length]. rewrite G. rewrite Z.add_assoc. apply cong_add; [|apply cong_refl].
      eapply cong_trans; [exact Cy|]. apply cong_add; auto using cong_refl. }
  destruct (G v 0 w L (cent0 S D p M) B) as (r & E & C & H). exists r. auto.
Qed.
(** ** restriction of an operator to an invariant subspace, modulo p *)
Lemma prestrict_ok (A : mat) (s : subspace) (Xm : nat -> nat -> Z) :
  wfm A -> wfm (basis s) -> nro A = nco A -> nro (basis s) = nro A -> length (pivs s) = nco (basis s) ->
  (forall i, (i < length (pivs s))%nat -> (nth i (pivs s) 0 < nro A)%nat) ->
  (forall i j, (i < nro A)%nat -> (j < nco A)%nat -> Z.abs (me A i j) < p) ->
  (forall i j, (i < nro A)%nat -> (j < nco (basis s))%nat -> Z.abs (me (basis s) i j) < p) ->
  (* the basis is the identity at the pivots, and A B = B X *)
  (forall i j, (i < length (pivs s))%nat -> (j < length (pivs s))%nat -> me (basis s) (nth i (pivs s) 0%nat) j = if Nat.eqb i j then 1 else 0) ->
  (forall i j, (i < nro A)%nat -> (j < nco (basis s))%nat ->
     cong p (sumn (nro A) (fun k => me A i k * me (basis s) k j)) (sumn (nco (basis s)) (fun k => me (basis s) i k * Xm k j))) ->
  (nco (basis s) < nro A)%nat ->
  exists R, prestrict S A s p = Ok R /\ msize R (nco (basis s)) (nco (basis s)) /\
    forall i j, (i < nco (basis s))%nat -> (j < nco (basis s))%nat -> cong p (me R i j) (Xm i j).
Proof.
  intros WA WB SQ NB LP PV BA BB ID INV LT. unfold prestrict. destruct (Nat.eqb_spec (nco (basis s)) (nro A)); [lia|].
  destruct (rowsubmat_ok A (pivs s) WA PV) as (A1 & -> & (N1 & C1 & W1) & E1). rewrite bind_Ok.
  destruct (matmulmodp_ok A1 (basis s) W1 WB) as (R & -> & MR & ER).
  - lia.
  - intros i j Hi Hj. rewrite E1 by lia. apply BA; [apply PV; lia|lia].
  - intros i j Hi Hj. apply BB; lia.
  - exists R. split; auto. rewrite N1, LP in *. split; auto. intros i j Hi Hj. eapply cong_trans; [apply ER; auto|].
    rewrite C1. rewrite (sumn_ext (nco A) _ (fun k => me A (nth i (pivs s) 0%nat) k * me (basis s) k j)) by (intros k Hk; rewrite E1 by lia; auto).
    rewrite <- SQ. eapply cong_trans; [apply INV; auto; apply PV; lia|]. apply cong_eq.
    rewrite (sumn_ext (nco (basis s)) _ (fun k => dlt k i * Xm k j)).
    + apply (sumn_dlt _ i (fun k => Xm k j)); auto.
    + intros k Hk. rewrite ID by lia. unfold dlt. rewrite Nat.eqb_sym. auto.
Qed.
End Mod.

(** ** the rows of a reduced echelon form are independent modulo p *)
Lemma rref_indep p nc rk R pc : rref p nc rk R pc -> (forall i, (i < rk)%nat -> (nth i pc 0 < nc)%nat) ->
  forall c, (forall j, (j < nc)%nat -> cong p (sumn rk (fun i => c i * R i j)) 0) -> forall i, (i < rk)%nat -> cong p (c i) 0.
Proof.
  intros [_ ID _] PV c H i Hi. specialize (H (nth i pc 0%nat) (PV i Hi)).
  rewrite (sumn_ext rk _ (fun k => dlt k i * c k)) in H.
  - rewrite (sumn_dlt rk i c Hi) in H. exact H.
  - intros k Hk. rewrite ID by auto. unfold dlt. ring.
Qed.
Lemma sorted_full l : StronglySorted lt l -> (forall x, In x l -> (x < length l)%nat) -> l = seq 0 (length l).
Proof.
  assert (G : forall l s, StronglySorted lt l -> (forall x, In x l -> (s <= x < s + length l)%nat) -> l = seq s (length l)).
  { clear l. induction l as [|a l IH]; intros s H B; auto. cbn [length seq]. inversion H as [|? ? H1 F]; subst. rewrite Forall_forall in F.
    assert (a = s).
    { destruct (Nat.eq_dec a s) as [|N]; auto. exfalso.
      assert (K : (length l <= length (seq (Datatypes.S a) (s + length l - a)))%nat).
      { apply NoDup_incl_length. - clear - H1. induction H1 as [|b l H1 IH F]; constructor; auto. intros Hb. rewrite Forall_forall in F. specialize (F _ Hb). lia.
        - intros x Hx. apply in_seq. specialize (F _ Hx). specialize (B x (or_intror Hx)). cbn [length] in B. lia. }
      rewrite seq_length in K. pose proof (B a (or_introl eq_refl)). cbn [length] in *. lia. }
    subst a. f_equal. apply IH; auto. intros x Hx. specialize (F _ Hx). specialize (B x (or_intror Hx)). cbn [length] in B. lia. }
  intros H B. apply G; auto. intros x Hx. specialize (B x Hx). lia.
Qed.

(** ** restrict_mat over the integers: den M B = B R whenever the subspace is invariant *)
Definition psub (s : subspace) (n : nat) : Prop :=
  wfm (basis s) /\ nro (basis s) = n /\ length (pivs s) = nco (basis s) /\ StronglySorted lt (pivs s) /\
  (forall x, In x (pivs s) -> (x < n)%nat) /\ denom s <> 0 /\
  forall i j, (i < nco (basis s))%nat -> (j < nco (basis s))%nat -> me (basis s) (nth i (pivs s) 0%nat) j = if Nat.eqb i j then denom s else 0.
Lemma restrict_ok S (X : exact S) (A : mat) (s : subspace) (Y : nat -> nat -> Z) R :
  restrict_mat S A s = Ok R -> wfm A -> nro A = nco A -> psub s (nro A) -> ((nco (basis s) < nro A)%nat \/ denom s = 1) ->
  (forall i j, (i < nro A)%nat -> (j < nco (basis s))%nat ->
     denom s * sumn (nro A) (fun k => me A i k * me (basis s) k j) = sumn (nco (basis s)) (fun k => me (basis s) i k * Y k j)) ->
  msize R (nco (basis s)) (nco (basis s)) /\
  (forall i j, (i < nco (basis s))%nat -> (j < nco (basis s))%nat -> me R i j = Y i j).
Proof.
  intros H WA SQ (WB & NB & LP & SP & PV & DN & ID) ONE INV. unfold restrict_mat in H.
  assert (PI : forall i, (i < length (pivs s))%nat -> (nth i (pivs s) 0 < nro A)%nat) by (intros; apply PV, nth_In; auto).
  assert (AT : forall i j, (i < nco (basis s))%nat -> (j < nco (basis s))%nat -> sumn (nro A) (fun k => me A (nth i (pivs s) 0%nat) k * me (basis s) k j) = Y i j).
  { intros i j Hi Hj. specialize (INV (nth i (pivs s) 0%nat) j (PI i ltac:(lia)) Hj).
    rewrite (sumn_ext (nco (basis s)) _ (fun k => dlt k i * (denom s * Y k j))) in INV.
    - rewrite (sumn_dlt _ i (fun k => denom s * Y k j)) in INV by auto. apply Z.mul_reg_l in INV; auto.
    - intros k Hk. rewrite ID by auto. unfold dlt. rewrite Nat.eqb_sym. destruct (Nat.eqb k i); ring. }
  destruct (Nat.eqb_spec (nco (basis s)) (nro A)) as [E|E].
  - injection H as <-. split; [unfold msize; repeat split; congruence || auto|].
    assert (P : pivs s = seq 0 (nro A)). { rewrite <- E, <- LP. apply sorted_full; auto. intros x Hx. rewrite LP, E. auto. }
    intros i j Hi Hj. pose proof (INV i j ltac:(lia) Hj) as G.
    assert (BI : forall a b, (a < nro A)%nat -> (b < nro A)%nat -> me (basis s) a b = if Nat.eqb a b then denom s else 0).
    { intros a b Ha Hb. specialize (ID a b ltac:(lia) ltac:(lia)). rewrite P, seq_nth in ID by auto. exact ID. }
    rewrite E in G. rewrite (sumn_ext (nro A) (fun k => me A i k * me (basis s) k j) (fun k => dlt k j * (denom s * me A i k))) in G.
    + rewrite (sumn_ext (nro A) (fun k => me (basis s) i k * Y k j) (fun k => dlt k i * (denom s * Y k j))) in G.
      * rewrite (sumn_dlt _ j (fun k => denom s * me A i k)), (sumn_dlt _ i (fun k => denom s * Y k j)) in G by lia.
        apply Z.mul_reg_l in G; auto. destruct ONE as [|O]; [lia|]. rewrite O in G. lia.
      * intros k Hk. rewrite BI by lia. unfold dlt. rewrite Nat.eqb_sym. destruct (Nat.eqb k i); ring.
    + intros k Hk. rewrite BI by lia. unfold dlt. destruct (Nat.eqb k j); ring.
  - inv H. destruct (rowsubmat_ok A (pivs s) WA PI) as (A1 & E1 & (N1 & C1 & W1) & G1). rewrite E0 in E1. injection E1 as <-.
    apply (mat_mul_inv S X) in H; auto; [|lia]. destruct H as (MR & HR). rewrite N1, LP in *. split; auto.
    intros i j Hi Hj. rewrite HR by auto. rewrite C1, <- SQ. rewrite <- AT by auto. apply sumn_ext. intros k Hk. rewrite G1 by lia. reflexivity.
Qed.

(** ** maxabs and liftmat *)
Lemma maxabs_zero S m : (forall x, In x (ents m) -> exists y, s_abs S x = Ok y) -> mat_maxabs S m = Ok 0.
Proof.
  unfold mat_maxabs. generalize (ents m) 0. induction l as [|x l IH]; intros z H; cbn [mfold]; auto.
  destruct (H x) as (y & ->); [cbn; auto|]. rewrite bind_Ok. cbn beta. rewrite bind_Ok. apply IH. intros; apply H; cbn; auto.
Qed.
Lemma lim_pos p : 2 <= p -> 0 < Z.sqrt (Z.shiftr p 1).
Proof. intros H. apply Z.sqrt_pos. rewrite Z.shiftr_div_pow2 by lia. apply Z.div_str_pos. lia. Qed.
Lemma liftmat_eq S D p m dd0 : modok S D p -> (forall x, cent p x -> exists y, s_abs S x = Ok y) -> Forall D (ents m) -> wfm m ->
  exists r, liftmat S m p dd0 = Ok (true, r, dd0) /\ msize r (nro m) (nco m) /\
    forall i j, (i < nro m)%nat -> (j < nco m)%nat -> cong p (me r i j) (me m i j) /\ cent p (me r i j).
Proof.
  intros M A F W. pose proof (p_pos S D p M) as P. unfold liftmat, mat_redp.
  replace (p =? 0) with false by (symmetry; apply Z.eqb_neq; lia).
  destruct (mmap_ok 0 0 (fun x y => cong p y x /\ cent p y) (fun x => s_mod S x p) (ents m)) as (e & -> & Le & He).
  { intros i Hi. apply (mo_mod _ _ _ M). rewrite Forall_forall in F. apply F, nth_In; auto. }
  rewrite !bind_Ok. rewrite maxabs_zero.
  - rewrite bind_Ok. replace (0 <? Z.sqrt (Z.shiftr p 1)) with true by (symmetry; apply Z.ltb_lt, lim_pos; lia).
    eexists; split; [reflexivity|]. unfold msize, wfm, me, ent; cbn [nro nco ents]. split; [unfold wfm in W; repeat split; congruence|].
    intros i j Hi Hj. apply He. rewrite W. apply idx_lt; auto.
  - cbn [ents]. intros x Hx. apply A. apply (In_nth _ _ 0) in Hx. destruct Hx as (i & Hi & <-). apply He. lia.
Qed.

Lemma sumn_one p n k f : (k < n)%nat -> (forall i, (i < n)%nat -> i <> k -> cong p (f i) 0) -> cong p (sumn n f) (f k).
Proof.
  intros Hk H. rewrite <- (sumn_dlt n k f Hk). apply cong_sumn. intros i Hi. unfold dlt. destruct (Nat.eqb_spec i k) as [->|N].
  - apply cong_eq. ring.
  - eapply cong_trans; [apply H; auto|]. apply cong_eq. ring.
Qed.
Lemma uptri_indep p nc rk R pc : uptri rk R pc -> rk = length pc -> StronglySorted lt pc -> (forall i, (i < rk)%nat -> (nth i pc 0 < nc)%nat) -> indep p nc rk R.
Proof.
  intros (U1 & U2) -> SO PV c H i. induction i as [i IH] using (well_founded_induction Wf_nat.lt_wf). intros Hi.
  specialize (H (nth i pc 0%nat) (PV i Hi)).
  assert (G1 : cong p (sumn (length pc) (fun k => c k * R k (nth i pc 0%nat))) (c i * R i (nth i pc 0%nat))).
  { apply (sumn_one p (length pc) i (fun k => c k * R k (nth i pc 0%nat)) Hi). intros k Hk N. destruct (Nat.lt_ge_cases k i) as [L|L].
      - eapply cong_trans; [apply cong_mul; [apply IH; auto|apply cong_refl]|]. apply cong_eq. ring.
      - rewrite (U2 k) by (auto; apply sorted_nth; auto; lia). apply cong_eq. ring. }
  rewrite U1 in G1 by auto. rewrite Z.mul_1_r in G1. eapply cong_trans; [apply cong_sym; exact G1|exact H].
Qed.
