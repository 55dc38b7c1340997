(** Proofs about EchModel: charpoly and determinant, for the scalars with exact divisions. *)
From Coq Require Import ZArith Znumtheory Lia List Bool.
From Verif Require Import Base LinModel LinSpec LinProofs LinElim LinKer LinAlg Bareiss CharPoly EchModel EchProofs.
Import ListNotations.
Open Scope Z_scope.

Lemma exact_x : exact sc_x.
Proof. constructor; cbn [s_add s_sub s_mul s_neg sc_x]; try congruence. intros a b c H _. apply x_div_inv in H. tauto. Qed.
Lemma total_x : total sc_x.
Proof. constructor; try reflexivity. intros. apply x_div; auto. Qed.
Lemma trace_tot_x m : wfm m -> nro m = nco m -> exists t, trace sc_x m = Ok t.
Proof.
  intros W E. unfold trace. destruct (mfold_seq (fun _ (_ : Z) => True) (fun t i => bind (at_ (ents m) (i * (nco m + 1))) (fun x => s_add sc_x t x)) 0 (nro m) 0) as (t & -> & _); eauto.
  intros k a Hk _. replace (k * (nco m + 1))%nat with (k * nco m + k)%nat by lia. rewrite (at_ent (nro m) (nco m)) by (auto; lia). rewrite bind_Ok. cbn [s_add sc_x]. eauto.
Qed.
Theorem charpoly_x m n : wfm m -> nro m = n -> nco m = n -> (1 <= n)%nat ->
  charpoly sc_x m = Ok (map (cpoly n (me m)) (seq 0 (n + 1))).
Proof.
  intros W NR NC Hn. unfold charpoly. rewrite NR.
  destruct (scalar_matrix_ok n 1) as (id & -> & (Nid & Cid & Wid) & Hid). rewrite bind_Ok.
  destruct (trace_tot_x m W ltac:(congruence)) as (t & Et). pose proof (trace_inv _ exact_x m t Et W ltac:(congruence)) as Ht. rewrite NR in Ht.
  rewrite Et, bind_Ok. destruct n as [|n']; [lia|]. set (n := Datatypes.S n') in *. change (s_neg sc_x t) with (Ok (- t)). rewrite bind_Ok.
  set (A := me m) in *. set (cp := cpoly n A).
  assert (TOP : forall i j, (i < n)%nat -> (j < n)%nat -> adjc n A n' i j = if (i =? j)%nat then 1 else 0) by (intros; apply adjc_top; auto).
  assert (AN : forall i j, (i < n)%nat -> (j < n)%nat -> sumn n (fun t => A i t * adjc n A n' t j) = A i j).
  { intros i j Hi Hj. rewrite (sumn_ext n _ (fun t => dlt t j * A i t)).
    - rewrite (sumn_dlt n j (fun t => A i t)) by auto. auto.
    - intros k Hk. rewrite TOP by auto. unfold dlt. rewrite (Z.mul_comm). reflexivity. }
  destruct (mfold_seq (fun k (s : mat * Z * list Z) => let '(b, t, cl) := s in msize b n n /\
      (forall i j, (i < n)%nat -> (j < n)%nat -> me b i j = sumn n (fun t => A i t * adjc n A (n - (k - 1)) t j)) /\
      t = - cp (n - (k - 1))%nat /\ cl = map cp (seq (n - (k - 1)) k))
    (fun '(b, t, cl) i =>
          bind (mat_scale sc_x id t) (fun ti => bind (mat_sub sc_x b ti) (fun d => bind (mat_mul sc_x m d) (fun b =>
          bind (trace sc_x b) (fun tr => bind (s_div sc_x tr (Z.of_nat i)) (fun t => bind (s_neg sc_x t) (fun nt => Ok (b, t, nt :: cl)))))))) 2 (n - 1) (m, t, [- t; 1]))
    as (((b & t1) & cl) & E & _ & _ & _ & Hc).
  - change (2 - 1)%nat with 1%nat. replace (n - 1)%nat with n' by lia. pose proof (adjc_trace n A n') as TR. fold cp in TR.
    assert (Ht' : t = - cp n').
    { rewrite Ht. rewrite (sumn_ext n _ (fun i => sumn n (fun t => A i t * adjc n A n' t i))) by (intros i Hi; rewrite AN by auto; auto).
      replace (Z.of_nat n) with (Z.of_nat n' + 1) in TR by lia. lia. }
    split; [repeat split; auto|]. split; [intros i j Hi Hj; rewrite AN by auto; auto|]. split; auto. cbn [seq map].
    replace (Datatypes.S n') with n by reflexivity. unfold cp at 2. rewrite cpoly_lead. rewrite Ht'. f_equal. lia.
  - intros k ((b & t0) & cl) Hk ((Nb & Cb & Wb) & Hb & Ht0 & Hcl).
    destruct (mat_scale_tot _ total_x id t0) as (ti & Eti). pose proof (mat_scale_inv _ exact_x _ _ _ Eti Wid) as ((Nti & Cti & Wti) & Hti). rewrite Nid, Cid in *. rewrite Eti, bind_Ok.
    destruct (mat_sub_tot _ total_x b ti) as (d & Ed); [repeat split; congruence|auto|].
    pose proof (mat_sub_inv _ exact_x _ _ _ Ed) as ((Nd & Cd & Wd) & Hd); [repeat split; auto|repeat split; congruence|]. rewrite Nb, Cb in *. rewrite Ed, bind_Ok.
    destruct (mat_mul_tot _ total_x m d W Wd) as (b1 & Eb1). pose proof (mat_mul_inv _ exact_x _ _ _ Eb1 W Wd ltac:(congruence)) as ((Nb1 & Cb1 & Wb1) & Hb1). rewrite NR, NC, Cd in *. rewrite Eb1, bind_Ok.
    destruct (trace_tot_x b1 Wb1 ltac:(congruence)) as (tr & Etr). pose proof (trace_inv _ exact_x b1 tr Etr Wb1 ltac:(congruence)) as Htr. rewrite Nb1 in Htr. rewrite Etr, bind_Ok.
    set (q := (n - k)%nat). assert (Eq : (n - (k - 1))%nat = Datatypes.S q) by lia.
    assert (Hd' : forall i j, (i < n)%nat -> (j < n)%nat -> me d i j = adjc n A q i j).
    { intros i j Hi Hj. rewrite Hd, Hb, Hti, Hid by auto. rewrite Eq, adjc_rec by auto. fold cp. rewrite Ht0, Eq. destruct (i =? j)%nat; ring. }
    assert (Hb1' : forall i j, (i < n)%nat -> (j < n)%nat -> me b1 i j = sumn n (fun t => A i t * adjc n A q t j)).
    { intros i j Hi Hj. rewrite Hb1 by auto. apply sumn_ext. intros s Hs. rewrite Hd' by auto. auto. }
    assert (Htr' : tr = Z.of_nat k * - cp q).
    { rewrite Htr. rewrite (sumn_ext n _ (fun i => sumn n (fun t => A i t * adjc n A q t i))) by (intros; apply Hb1'; auto).
      pose proof (adjc_trace n A q) as TR. fold cp in TR. replace (Z.of_nat q) with (Z.of_nat n - Z.of_nat k) in TR by lia. clear - TR. lia. }
    destruct (x_div tr (Z.of_nat k)) as (t2 & -> & Et2); [lia|exists (- cp q); lia|]. rewrite bind_Ok. cbn [s_neg sc_x]. rewrite bind_Ok.
    assert (t2 = - cp q) as ->. { rewrite Htr' in Et2. apply Z.mul_reg_l in Et2; lia. }
    eexists. split; [reflexivity|]. cbn beta iota. replace (k + 1 - 1)%nat with k by lia. fold q.
    split; [repeat split; auto|]. split; [exact Hb1'|]. split; auto.
    rewrite Hcl, Eq. rewrite Nat.add_1_r. cbn [seq map]. f_equal. lia.
  - rewrite E. rewrite bind_Ok. f_equal. rewrite Hc. replace (2 + (n - 1))%nat with (n + 1)%nat by lia. replace (n - (n + 1 - 1))%nat with 0%nat by lia. reflexivity.
Qed.
Theorem determinant_x m n : wfm m -> nro m = n -> nco m = n -> (1 <= n)%nat -> determinant sc_x m = Ok (zdet n (me m)).
Proof.
  intros W NR NC Hn. unfold determinant. rewrite (charpoly_x m n) by auto. rewrite bind_Ok, NR. rewrite Nat.add_1_r. cbn [seq map].
  unfold at_. cbn [nth_error]. rewrite bind_Ok. rewrite cpoly_det.
  destruct (Nat.odd n) eqn:O.
  - cbn [s_neg sc_x]. f_equal. apply Nat.odd_spec in O. destruct O as (k & ->).
    replace (Z.of_nat (2 * k + 1)) with (2 * Z.of_nat k + 1) by lia. rewrite Z.pow_add_r, Z.pow_mul_r by lia. rewrite Z.pow_1_l by lia. lia.
  - f_equal. assert (E : Nat.even n = true) by (rewrite <- Nat.negb_odd, O; auto). apply Nat.even_spec in E. destruct E as (k & ->).
    replace (Z.of_nat (2 * k)) with (2 * Z.of_nat k) by lia. rewrite Z.pow_mul_r by lia. rewrite Z.pow_1_l by lia. lia.
Qed.
