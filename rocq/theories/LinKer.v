(** Proofs about LinModel: the scalar types meet the contract; modular kernels. *)
From Coq Require Import ZArith Znumtheory Lia List Bool Sorted Permutation.
From Verif Require Import Base ArithModel ArithProofs XModModel XModProofs MArithModel MArithProofs RatModel LinModel LinSpec LinProofs LinElim.
Import ListNotations.
Open Scope Z_scope.

(** ** the three scalar types *)
Definition sym32 (x : Z) : Prop := - max32 <= x <= max32.
Lemma small_coprime p a : prime p -> cent p a -> a <> 0 -> Z.gcd a p = 1.
Proof.
  intros Hp C N. apply Zgcd_1_rel_prime, rel_prime_sym, prime_rel_prime; auto.
  intros [k H]. destruct Hp as [H1 _]. unfold cent in C. assert (k = 0) by nia. lia.
Qed.
Lemma rem_cong x p : p <> 0 -> cong p (Z.rem x p) x /\ Z.abs (Z.rem x p) < Z.abs p.
Proof.
  intros H. split; [|apply rem_abs_lt; auto]. exists (- (Z.quot x p)). pose proof (quot_rem_eq x p H). lia.
Qed.
Lemma wrap32_id r : in32 r -> wrap32 r = r.
Proof. unfold in32, min32, max32, wrap32. intros H. rewrite Z.mod_small by lia. lia. Qed.
Lemma invmod_long_bound a p : sym64 a -> sym64 p -> 1 <= p -> exists x, invmod_long a p = Ok x /\ (Z.gcd a p = 1 -> (p | a * x - 1)) /\ Z.abs x <= p.
Proof.
  intros Ha Hp H1. destruct (bezout_long_ok a p Ha Hp) as (x & y & Hb & E & B & _).
  unfold invmod_long. rewrite Hb, bind_Ok. cbn beta iota. destruct (Z.eqb_spec (Z.gcd a p) 1) as [G|G].
  - exists x. split; auto. split; [|lia]. intros _. exists (- y). lia.
  - exists 0. split; auto. split; [|lia]. intros; contradiction.
Qed.
Lemma modok_int p : prime p -> 2 * p <= max32 -> modok sc_int sym32 p.
Proof.
  intros Hp Hb. destruct (Hp) as [H1 _]. unfold max32 in Hb.
  assert (INV : forall a, cent p a -> a <> 0 -> exists x, invmod_long a p = Ok x /\ cong p (a * x) 1 /\ Z.abs x <= p).
  { intros a C N. destruct (invmod_long_bound a p) as (x & -> & Hx & B).
    - unfold sym64, max64, min64; unfold cent in C; lia.
    - unfold sym64, max64, min64; lia.
    - lia.
    - exists x. split; auto. split; auto. apply Hx, small_coprime; auto. }
  constructor; cbn [s_add s_sub s_mul s_neg s_mod s_xmod s_xmm s_invx s_invm sc_int]; auto.
  - intros x Hx. unfold sym32, max32 in Hx. destruct (mod_int_ok x p) as (r & -> & Hr & B); try (unfold in32, min32, max32; lia); try (unfold min32; lia).
    exists r. split; auto. split; [apply cong_sym; auto|unfold cent; lia].
  - intros x Hx. unfold sym32, max32 in Hx. unfold xmod_int. rewrite rem32_ok; try (unfold in32, min32, max32; lia).
    destruct (rem_cong x p ltac:(lia)). exists (Z.rem x p). rewrite Z.abs_eq with p in * by lia. auto.
  - intros a b Ha Hb'. destruct (xmodmul_int_ok a b p) as (r & -> & B & Hr); auto. { unfold max32. lia. } eauto.
  - intros x Hx. unfold sym32, max32. lia.
  - intros a b Ha Hb'. unfold add32. rewrite c32_ok; auto. unfold in32, min32, max32. lia.
  - intros a b Ha Hb'. unfold sub32. rewrite c32_ok; auto. unfold in32, min32, max32. lia.
  - intros a Ha. unfold neg32. rewrite c32_ok; auto. unfold in32, min32, max32. lia.
  - intros a C N. destruct (INV a C N) as (x & -> & Hx & B). rewrite bind_Ok.
    rewrite rem64_ok; try (unfold in64, min64, max64; lia). rewrite bind_Ok.
    destruct (rem_cong x p ltac:(lia)) as (Hc & Ha). rewrite Z.abs_eq with p in Ha by lia.
    exists (wrap32 (Z.rem x p)). rewrite wrap32_id by (unfold in32, min32, max32; lia). split; auto. split; auto.
    eapply cong_trans; [apply cong_mul; [apply cong_refl|exact Hc]|auto].
  - intros a C N. destruct (INV a C N) as (x & -> & Hx & B). rewrite bind_Ok.
    destruct (mod_long_ok x p) as (r & -> & Hr & Br); try (unfold in64, min64, max64; lia); try (unfold min64; lia).
    rewrite bind_Ok. exists r. rewrite wrap32_id by (unfold in32, min32, max32; lia). split; auto. split; [|unfold cent; lia].
    eapply cong_trans; [apply cong_mul; [apply cong_refl|apply cong_sym, Hr]|auto].
Qed.
Lemma modok_long p : prime p -> p * p <= max64 -> modok sc_long sym64 p.
Proof.
  intros Hp Hb. destruct (Hp) as [H1 _]. assert (Hb2 : 4 * p <= max64) by (unfold max64 in *; nia). unfold max64 in Hb2.
  assert (INV : forall a, cent p a -> a <> 0 -> exists x, invmod_long a p = Ok x /\ cong p (a * x) 1 /\ Z.abs x <= p).
  { intros a C N. destruct (invmod_long_bound a p) as (x & -> & Hx & B).
    - unfold sym64, max64, min64; unfold cent in C; lia.
    - unfold sym64, max64, min64; lia.
    - lia.
    - exists x. split; auto. split; auto. apply Hx, small_coprime; auto. }
  constructor; cbn [s_add s_sub s_mul s_neg s_mod s_xmod s_xmm s_invx s_invm sc_long]; auto.
  - intros x Hx. unfold sym64, max64, min64 in Hx. destruct (mod_long_ok x p) as (r & -> & Hr & B); try (unfold in64, min64, max64; lia); try (unfold min64; lia).
    exists r. split; auto. split; [apply cong_sym; auto|unfold cent; lia].
  - intros x Hx. unfold sym64, max64, min64 in Hx. unfold xmod_long. rewrite rem64_ok; try (unfold in64, min64, max64; lia).
    destruct (rem_cong x p ltac:(lia)). exists (Z.rem x p). rewrite Z.abs_eq with p in * by lia. auto.
  - intros a b Ha Hb'. destruct (xmodmul_long_ok a b p) as (r & -> & B & Hr); auto; [lia|unfold in64, min64, max64; lia| |eauto].
    assert (Z.abs (a * b) <= max64) as HA by (rewrite Z.abs_mul; clear - Ha Hb' Hb; nia).
    unfold in64, min64, max64 in *. lia.
  - intros x Hx. unfold sym64, max64, min64. lia.
  - intros a b Ha Hb'. rewrite add64_ok; auto. unfold in64, min64, max64. lia.
  - intros a b Ha Hb'. rewrite sub64_ok; auto. unfold in64, min64, max64. lia.
  - intros a Ha. rewrite neg64_ok; auto. unfold in64, min64, max64. lia.
  - intros a C N. destruct (INV a C N) as (x & -> & Hx & B). rewrite bind_Ok. unfold xmod_long.
    rewrite rem64_ok; try (unfold in64, min64, max64; lia).
    destruct (rem_cong x p ltac:(lia)) as (Hc & Ha). rewrite Z.abs_eq with p in Ha by lia.
    exists (Z.rem x p). split; auto. split; auto.
    eapply cong_trans; [apply cong_mul; [apply cong_refl|exact Hc]|auto].
  - intros a C N. destruct (INV a C N) as (x & -> & Hx & B). rewrite bind_Ok.
    destruct (mod_long_ok x p) as (r & -> & Hr & Br); try (unfold in64, min64, max64; lia); try (unfold min64; lia).
    exists r. split; auto. split; [|unfold cent; lia].
    eapply cong_trans; [apply cong_mul; [apply cong_refl|apply cong_sym, Hr]|auto].
Qed.
Lemma modok_z xgcd p : xgcd_spec xgcd -> prime p -> modok (sc_z xgcd) (fun _ => True) p.
Proof.
  intros X Hp. destruct (Hp) as [H1 _].
  assert (INV : forall a, cent p a -> a <> 0 -> cong p (a * invmod_z xgcd a p) 1).
  { intros a C N. apply (invmod_z_ok xgcd X a p). apply small_coprime; auto. }
  assert (MD : forall x, exists r, mod_z x p = Ok r /\ cong p r x /\ cent p r).
  { intros x. destruct (mod_z_ok x p) as (r & -> & Hr & B); [lia|]. exists r. split; auto. split; [apply cong_sym; auto|unfold cent; lia]. }
  assert (ZM : forall x, exists r, zz_mod x p = Ok r /\ cong p r x /\ Z.abs r < p).
  { intros x. rewrite zz_mod_ok by lia. exists (x mod p). split; auto. pose proof (Z.div_mod x p ltac:(lia)). pose proof (Z.mod_pos_bound x p ltac:(lia)).
    split; [exists (- (x / p)); lia|lia]. }
  constructor; cbn [s_add s_sub s_mul s_neg s_mod s_xmod s_xmm s_invx s_invm sc_z]; auto.
  - intros a C N. destruct (ZM (invmod_z xgcd a p)) as (r & -> & Hr & B). exists r. split; auto. split; auto.
    eapply cong_trans; [apply cong_mul; [apply cong_refl|exact Hr]|auto].
  - intros a C N. destruct (MD (invmod_z xgcd a p)) as (r & -> & Hr & B). exists r. split; auto. split; auto.
    eapply cong_trans; [apply cong_mul; [apply cong_refl|exact Hr]|auto].
Qed.
Lemma mulok_int p : 2 <= p <= 92681 -> mulok sc_int sym32 p.
Proof.
  intros Hp a b Ca Cb. unfold cent in *. cbn [s_mul sc_int].
  assert (Z.abs a <= 46340) by lia. assert (Z.abs b <= 46340) by lia.
  assert (Z.abs (a * b) <= 2147395600) as HA by (rewrite Z.abs_mul; clear - H H0; nia).
  split; [unfold mul32; rewrite c32_ok; auto|]; unfold in32, sym32, min32, max32; lia.
Qed.
Lemma mulok_long p : 1 < p -> p * p <= max64 -> mulok sc_long sym64 p.
Proof.
  intros H1 Hp a b Ca Cb. unfold cent in *. cbn [s_mul sc_long].
  assert (Z.abs (a * b) <= max64) as HA. { rewrite Z.abs_mul. assert (Z.abs a <= p) by lia. assert (Z.abs b <= p) by lia. clear - H H0 Hp. nia. }
  unfold max64 in HA. split; [rewrite mul64_ok; auto|]; unfold in64, sym64, min64, max64; lia.
Qed.
Lemma mulok_z xgcd p : mulok (sc_z xgcd) (fun _ => True) p.
Proof. intros a b _ _. split; auto. Qed.

(** ** sums over pivot and non-pivot columns *)
Fixpoint lsum (f : nat -> Z) (l : list nat) : Z := match l with [] => 0 | x :: l => f x + lsum f l end.
Lemma lsum_app f l m : lsum f (l ++ m) = lsum f l + lsum f m.
Proof. induction l; cbn [lsum app]; lia. Qed.
Lemma lsum_perm f l m : Permutation l m -> lsum f l = lsum f m.
Proof. induction 1; cbn [lsum]; lia. Qed.
Lemma sumn_lsum n f : sumn n f = lsum f (seq 0 n).
Proof. induction n; [reflexivity|]. rewrite seq_S, lsum_app. cbn [sumn lsum Nat.add]. lia. Qed.
Lemma lsum_nth f l : lsum f l = sumn (length l) (fun i => f (nth i l 0%nat)).
Proof.
  induction l as [|x l IH] using rev_ind; [reflexivity|]. rewrite lsum_app, app_length. cbn [length lsum].
  replace (length l + 1)%nat with (S (length l)) by lia. cbn [sumn]. rewrite IH, nth_snoc_eq.
  rewrite (sumn_ext (length l) (fun i => f (nth i (l ++ [x]) 0%nat)) (fun i => f (nth i l 0%nat))); [lia|].
  intros i Hi. rewrite nth_snoc_lt; auto.
Qed.
Lemma sumn_splits nc pc npc f : splits nc pc npc ->
  sumn nc f = sumn (length pc) (fun i => f (nth i pc 0%nat)) + sumn (length npc) (fun i => f (nth i npc 0%nat)).
Proof. intros (_ & _ & P). rewrite sumn_lsum, <- (lsum_perm f _ _ P), lsum_app, !lsum_nth. auto. Qed.
Lemma splits_disj nc pc npc : splits nc pc npc -> forall x, In x pc -> In x npc -> False.
Proof.
  intros (_ & _ & P) x H1 H2. assert (N : NoDup (pc ++ npc)) by (apply (Permutation_NoDup (Permutation_sym P)), seq_NoDup).
  apply in_split in H1. destruct H1 as (a & b & ->). rewrite <- app_assoc in N. cbn [app] in N.
  apply NoDup_remove_2 in N. apply N. apply in_or_app. right. apply in_or_app. auto.
Qed.
Lemma splits_cases nc pc npc j : splits nc pc npc -> (j < nc)%nat ->
  (exists i, (i < length pc)%nat /\ nth i pc 0%nat = j) \/ (exists i, (i < length npc)%nat /\ nth i npc 0%nat = j).
Proof.
  intros (_ & _ & P) Hj. assert (In j (pc ++ npc)) as H by (apply (Permutation_in _ (Permutation_sym P)), in_seq; lia).
  apply in_app_or in H. destruct H as [H|H]; apply (In_nth _ _ 0%nat) in H; auto.
Qed.
Lemma sorted_inj l i k : StronglySorted lt l -> (i < length l)%nat -> (k < length l)%nat -> nth i l 0%nat = nth k l 0%nat -> i = k.
Proof.
  intros H Hi Hk E. destruct (lt_eq_lt_dec i k) as [[L|]|L]; auto.
  - pose proof (sorted_nth l i k H ltac:(lia)). lia.
  - pose proof (sorted_nth l k i H ltac:(lia)). lia.
Qed.
Definition rsum (a b : nat) (f : nat -> Z) : Z := sumn b f - sumn a f.
Lemma rsum_ext a b f g : (a <= b)%nat -> (forall i, (a <= i < b)%nat -> f i = g i) -> rsum a b f = rsum a b g.
Proof.
  intros Hab H. unfold rsum. induction Hab; [lia|]. cbn [sumn]. rewrite H by lia. assert (forall i, (a <= i < m)%nat -> f i = g i) by (intros; apply H; lia). specialize (IHHab H0). lia.
Qed.
Lemma rsum_zero a b f : (a <= b)%nat -> (forall i, (a <= i < b)%nat -> f i = 0) -> rsum a b f = 0.
Proof. intros Hab H. rewrite (rsum_ext a b f (fun _ => 0)); auto. unfold rsum. rewrite !sumn_0. lia. Qed.

(** ** kernels *)
Section Ker.
Variables (p : Z) (nc : nat).
(** a matrix in upper triangular echelon form (pivots 1) *)
Definition uptri (rk : nat) (R : nat -> nat -> Z) (pc : list nat) : Prop :=
  (forall i, (i < rk)%nat -> R i (nth i pc 0%nat) = 1) /\ (forall i j, (i < rk)%nat -> (j < nth i pc 0)%nat -> R i j = 0).
(** x at the non-pivot positions zero and in the kernel: x is zero *)
Lemma ker_zero R pc npc y : splits nc pc npc -> uptri (length pc) R pc -> inker p nc (length pc) R y ->
  (forall k, (k < length npc)%nat -> cong p (y (nth k npc 0%nat)) 0) -> forall j, (j < nc)%nat -> cong p (y j) 0.
Proof.
  intros SPL (P & Z) K N.
  assert (G : forall d i, (i + d = length pc)%nat -> forall t, (i <= t < length pc)%nat -> cong p (y (nth t pc 0%nat)) 0).
  { induction d; intros i Hd t Ht; [lia|]. destruct (Nat.eq_dec t i) as [->|]; [|apply (IHd (S i)); lia].
    pose proof (K i ltac:(lia)) as Ki. rewrite (sumn_splits nc pc npc _ SPL) in Ki.
    set (f := fun s => R i (nth s pc 0%nat) * y (nth s pc 0%nat)) in *.
    assert (E : cong p (sumn (length pc) f) (y (nth i pc 0%nat))).
    { assert (H0 : cong p (rsum (i + 1) (length pc) f) 0).
      { assert (Gs : forall b, (i + 1 <= b <= length pc)%nat -> cong p (rsum (i + 1) b f) 0).
        { induction b; intros Hb; [lia|]. destruct (Nat.eq_dec (i + 1) (S b)) as [Eb|].
          - unfold rsum. rewrite Eb. apply cong_eq. lia.
          - replace (rsum (i + 1) (S b) f) with (rsum (i + 1) b f + f b) by (unfold rsum; cbn [sumn]; lia).
            replace 0 with (0 + R i (nth b pc 0%nat) * 0) by ring. apply cong_add; [apply IHb; lia|].
            apply cong_mul; [apply cong_refl|]. apply (IHd (S i)); lia. }
        apply Gs; lia. }
      replace (sumn (length pc) f) with (rsum (i + 1) (length pc) f + sumn (i + 1) f) by (unfold rsum; lia).
      replace (y (nth i pc 0%nat)) with (0 + y (nth i pc 0%nat)) by ring. apply cong_add; auto. apply cong_eq.
      replace (i + 1)%nat with (S i) by lia. cbn [sumn]. rewrite (sumn_ext i f (fun _ => 0)).
      - rewrite sumn_0. unfold f. rewrite P by lia. ring.
      - intros s Hs. unfold f. rewrite Z; [ring|lia|]. apply sorted_nth; [apply SPL|lia]. }
    assert (E2 : cong p (sumn (length npc) (fun s => R i (nth s npc 0%nat) * y (nth s npc 0%nat))) 0).
    { rewrite <- (sumn_0 (length npc)). apply cong_sumn. intros s Hs.
      replace 0 with (R i (nth s npc 0%nat) * 0) by ring. apply cong_mul; [apply cong_refl|auto]. }
    apply (cong_trans p _ (sumn (length pc) f + 0)); [rewrite Z.add_0_r; apply cong_sym, E|].
    eapply cong_trans; [|exact Ki]. apply cong_sym. apply cong_add; [apply cong_refl|auto]. }
  intros j Hj. destruct (splits_cases nc pc npc j SPL Hj) as [(i & Hi & <-)|(i & Hi & <-)]; auto.
  apply (G (length pc) 0%nat); lia.
Qed.
Lemma ker_lin n R x y a b : inker p nc n R x -> inker p nc n R y -> inker p nc n R (fun j => a * x j + b * y j).
Proof.
  intros Hx Hy i Hi. rewrite (sumn_ext nc _ (fun j => a * (R i j * x j) + b * (R i j * y j))) by (intros; ring).
  rewrite sumn_add, !sumn_mul. replace 0 with (a * 0 + b * 0) by ring.
  apply cong_add; (apply cong_mul; [apply cong_refl|auto]).
Qed.
Lemma ker_cong n R x y : (forall j, (j < nc)%nat -> cong p (x j) (y j)) -> inker p nc n R y -> inker p nc n R x.
Proof.
  intros H Hy i Hi. eapply cong_trans; [|apply Hy, Hi]. apply cong_sumn. intros j Hj. apply cong_mul; [apply cong_refl|auto].
Qed.
Lemma ker_sum n R m w K : (forall k, (k < m)%nat -> inker p nc n R (fun j => K j k)) -> inker p nc n R (fun j => sumn m (fun k => K j k * w k)).
Proof.
  induction m; intros H; cbn [sumn].
  - intros i Hi. rewrite (sumn_ext nc _ (fun _ => 0)) by (intros; ring). rewrite sumn_0. apply cong_refl.
  - eapply ker_cong; [|apply (ker_lin n R (fun j => sumn m (fun k => K j k * w k)) (fun j => K j m) 1 (w m))]; auto.
    intros j _. apply cong_eq. ring.
Qed.
(** what it means for the columns of K to be the reduced basis of the kernel of A *)
Definition kerbasis (nr : nat) (A K : nat -> nat -> Z) (npc : list nat) : Prop :=
  (forall j k, (j < length npc)%nat -> (k < length npc)%nat -> K (nth j npc 0%nat) k = if Nat.eqb j k then 1 else 0) /\
  (forall k, (k < length npc)%nat -> inker p nc nr A (fun i => K i k)) /\
  (forall x, inker p nc nr A x -> forall i, (i < nc)%nat -> cong p (x i) (sumn (length npc) (fun k => K i k * x (nth k npc 0%nat)))).
Lemma ker_gen nr A R K pc npc : splits nc pc npc -> uptri (length pc) R pc -> eqspan p nc nr A (length pc) R ->
  (forall j k, (j < length npc)%nat -> (k < length npc)%nat -> K (nth j npc 0%nat) k = if Nat.eqb j k then 1 else 0) ->
  (forall k, (k < length npc)%nat -> inker p nc (length pc) R (fun i => K i k)) ->
  kerbasis nr A K npc.
Proof.
  intros SPL U E I KR. repeat split; auto.
  - intros k Hk. apply (eqspan_ker p nc _ _ _ _ _ (eqspan_sym p nc _ _ _ _ E)). auto.
  - intros x Hx i Hi.
    pose proof (eqspan_ker p nc _ _ _ _ x E Hx) as HR.
    assert (G : cong p (1 * x i + (-1) * sumn (length npc) (fun k => K i k * x (nth k npc 0%nat))) 0).
    { apply (ker_zero R pc npc (fun i => 1 * x i + (-1) * sumn (length npc) (fun k => K i k * x (nth k npc 0%nat))) SPL U); auto.
      - apply ker_lin; auto. apply ker_sum. auto.
      - intros k Hk. rewrite (sumn_ext (length npc) _ (fun t => dlt t k * x (nth t npc 0%nat))).
        + rewrite sumn_dlt by auto. apply cong_eq. ring.
        + intros t Ht. rewrite I by auto. unfold dlt. rewrite Nat.eqb_sym. auto. }
    destruct G as [g G]. exists g. lia.
Qed.
End Ker.

Lemma mat_set_ok m i j x : wfm m -> (i < nro m)%nat -> (j < nco m)%nat ->
  exists m', mat_set m i j x = Ok m' /\ nro m' = nro m /\ nco m' = nco m /\ wfm m' /\
    me m' i j = x /\ forall a b, (a < nro m)%nat -> (b < nco m)%nat -> a <> i \/ b <> j -> me m' a b = me m a b.
Proof.
  intros W Hi Hj. unfold mat_set, at_set.
  destruct (Nat.ltb_spec (i * nco m + j) (length (ents m))) as [H|H]; [|rewrite W in H; pose proof (idx_lt _ _ i j Hi Hj); lia].
  destruct (put_row (nro m) (nco m) (ents m) i j [x] W Hi ltac:(cbn [length]; lia)) as (e & -> & L & Ho & Hs).
  rewrite bind_Ok. cbn [length] in *. eexists; split; [reflexivity|]. unfold me, wfm; cbn [nro nco ents].
  split; auto. split; auto. split; auto. split.
  - rewrite Hs by lia. rewrite Nat.sub_diag. reflexivity.
  - intros a b Ha Hb Ho'. apply Ho; auto. lia.
Qed.
Lemma mat_new_ok nr nc : wfm (mat_new nr nc) /\ forall i j, me (mat_new nr nc) i j = 0.
Proof.
  split; [apply repeat_length|]. intros i j. unfold me, ent. cbn [ents mat_new nco]. unfold zeros.
  destruct (lt_dec (i * nc + j) (nr * nc)); [apply nth_repeat|apply nth_overflow; rewrite repeat_length; lia].
Qed.

Section PKer.
Variables (S : scal) (D : Z -> Prop) (p : Z).
Hypothesis M : modok S D p.
Theorem oldpkernel_ok m : wfm m -> Forall D (ents m) ->
  exists K npc, oldpkernel S m p = Ok (Sub K npc 1) /\ nro K = nco m /\ nco K = length npc /\ wfm K /\
    (exists pc, splits (nco m) pc npc /\ exists R, eqspan p (nco m) (nro m) (me m) (length pc) R /\ uptri (length pc) R pc) /\
    kerbasis p (nco m) (nro m) (me m) (me K) npc.
Proof.
  intros W HD. unfold oldpkernel.
  destruct (echmodp_ok S D p M m W HD) as (R & pc & npc & -> & NR & NC & WR & E & SPL & [RC RI RZ]). rewrite bind_Ok. cbn beta iota.
  rewrite NC. set (nc := nco m) in *. set (ny := length npc) in *. set (rk := length pc) in *.
  assert (PN : forall j, (j < ny)%nat -> (nth j npc 0 < nc)%nat) by (intros; eapply splits_npc; [exact SPL|apply nth_In; auto]).
  assert (PC : forall j, (j < rk)%nat -> (nth j pc 0 < nc)%nat) by (intros; eapply splits_pc; [exact SPL|apply nth_In; auto]).
  assert (DJ : forall i j, (i < rk)%nat -> (j < ny)%nat -> nth i pc 0%nat <> nth j npc 0%nat).
  { intros i j Hi Hj Eq. apply (splits_disj _ _ _ SPL (nth i pc 0%nat)); [|rewrite Eq]; apply nth_In; auto. }
  assert (NI : forall i j, (i < ny)%nat -> (j < ny)%nat -> nth i npc 0%nat = nth j npc 0%nat -> i = j) by (intros i j; apply sorted_inj, SPL).
  assert (PI : forall i j, (i < rk)%nat -> (j < rk)%nat -> nth i pc 0%nat = nth j pc 0%nat -> i = j) by (intros i j; apply sorted_inj, SPL).
  destruct (mat_new_ok nc ny) as (W0 & Z0).
  destruct (mfold_seq (fun k b => nro b = nc /\ nco b = ny /\ wfm b /\
     forall j t, (j < ny)%nat -> (t < ny)%nat -> me b (nth j npc 0%nat) t = if (Nat.eqb j t && (j <? k)%nat)%bool then 1 else 0)
     (fun b n => bind (at_ npc n) (fun c => mat_set b c n 1)) 0 ny (mat_new nc ny)) as (b1 & -> & N1 & C1 & W1 & I1).
  { sp; auto. intros j t Hj Ht. rewrite Z0. destruct (Nat.ltb_spec j 0); [lia|]. rewrite andb_false_r. auto. }
  { intros k b Hk (Nb & Cb & Wb & Ib). rewrite (at_ok 0%nat) by (fold ny; lia). rewrite bind_Ok.
    destruct (mat_set_ok b (nth k npc 0%nat) k 1 Wb) as (b' & -> & Nb' & Cb' & Wb' & Hs & Ho); [rewrite Nb; apply PN; lia|lia|].
    exists b'. split; auto. sp; auto; try congruence. intros j t Hj Ht.
    destruct (Nat.eq_dec j k) as [->|Hjk]; [destruct (Nat.eq_dec t k) as [->|Htk]|].
    - rewrite Hs, Nat.eqb_refl. destruct (Nat.ltb_spec k (k + 1)); [auto|lia].
    - rewrite Ho by (rewrite ?Nb, ?Cb; auto; apply PN; auto). rewrite Ib by auto. destruct (Nat.eqb_spec k t); [lia|auto].
    - assert (nth j npc 0%nat <> nth k npc 0%nat) by (intros Eq; apply Hjk; apply NI; auto; lia).
      rewrite Ho by (rewrite ?Nb, ?Cb; auto; apply PN; auto). rewrite Ib by auto.
      destruct (Nat.eqb_spec j t); auto. cbn [andb]. destruct (Nat.ltb_spec j k), (Nat.ltb_spec j (k + 1)); auto; lia. }
  rewrite bind_Ok. cbn [Nat.add] in I1.
  assert (I1' : forall j t, (j < ny)%nat -> (t < ny)%nat -> me b1 (nth j npc 0%nat) t = if Nat.eqb j t then 1 else 0).
  { intros j t Hj Ht. rewrite I1 by auto. destruct (Nat.ltb_spec j ny); [|lia]. rewrite andb_true_r. auto. }
  destruct (mfold_seq (fun k b => nro b = nc /\ nco b = ny /\ wfm b /\
     (forall j t, (j < ny)%nat -> (t < ny)%nat -> me b (nth j npc 0%nat) t = if Nat.eqb j t then 1 else 0) /\
     (forall r t, (r < k)%nat -> (t < ny)%nat -> cong p (me b (nth r pc 0%nat) t) (- me R r (nth t npc 0%nat))))
     (fun b r => bind (at_ pc r) (fun i => mfold (fun b j => bind (at_ npc j) (fun c => bind (mat_get R r c) (fun x => bind (s_neg S x) (fun x => bind (s_mod S x p) (fun x => mat_set b i j x))))) (seq 0 ny) b))
     0 rk b1) as (b2 & -> & N2 & C2 & W2 & I2 & K2).
  { sp; auto. intros; lia. }
  { intros r b Hr (Nb & Cb & Wb & Ib & Kb). rewrite (at_ok 0%nat) by (fold rk; lia). rewrite bind_Ok.
    pose proof (PC r ltac:(lia)) as Pr.
    destruct (mfold_seq (fun k b => nro b = nc /\ nco b = ny /\ wfm b /\
       (forall j t, (j < ny)%nat -> (t < ny)%nat -> me b (nth j npc 0%nat) t = if Nat.eqb j t then 1 else 0) /\
       (forall i t, (i < r)%nat -> (t < ny)%nat -> cong p (me b (nth i pc 0%nat) t) (- me R i (nth t npc 0%nat))) /\
       (forall t, (t < k)%nat -> cong p (me b (nth r pc 0%nat) t) (- me R r (nth t npc 0%nat))))
       (fun b j => bind (at_ npc j) (fun c => bind (mat_get R r c) (fun x => bind (s_neg S x) (fun x => bind (s_mod S x p) (fun x => mat_set b (nth r pc 0%nat) j x))))) 0 ny b)
       as (b' & -> & Nb' & Cb' & Wb' & Ib' & Kb' & Rb').
    { sp; auto. intros; lia. }
    { clear b Nb Cb Wb Ib Kb. intros k b Hk (Nb & Cb & Wb & Ib & Kb & Rb).
      rewrite (at_ok 0%nat) by (fold ny; lia). rewrite bind_Ok. pose proof (PN k ltac:(lia)) as Pk.
      unfold mat_get. rewrite NC. rewrite (at_ent rk nc) by (auto; try lia; unfold wfm in WR; rewrite NC, NR in WR; auto).
      change (ent nc (ents R) r (nth k npc 0%nat)) with (ent nc (ents R) r (nth k npc 0%nat)). rewrite bind_Ok.
      assert (ER : ent nc (ents R) r (nth k npc 0%nat) = me R r (nth k npc 0%nat)) by (unfold me; rewrite NC; auto). rewrite ER.
      pose proof (RC r (nth k npc 0%nat) ltac:(lia) Pk) as CR.
      assert (BR : Z.abs (me R r (nth k npc 0%nat)) < p) by (eapply cl; eauto).
      rewrite (mo_neg _ _ _ M) by auto. rewrite bind_Ok.
      destruct (mo_mod _ _ _ M (- me R r (nth k npc 0%nat))) as (x & -> & Hx & Cx); [apply (mo_D _ _ _ M); lia|]. rewrite bind_Ok.
      destruct (mat_set_ok b (nth r pc 0%nat) k x Wb) as (b' & -> & Nb' & Cb' & Wb' & Hs & Ho); [lia|lia|].
      exists b'. split; auto. sp; auto; try congruence.
      - intros j t Hj Ht. rewrite Ho; auto; [rewrite Nb; apply PN; auto|lia|]. left. intros Eq. symmetry in Eq. revert Eq. apply DJ; auto; lia.
      - intros i t Hi Ht. rewrite Ho; auto; [rewrite Nb; apply PC; lia|lia|]. left. intros Eq. apply PI in Eq; lia.
      - intros t Ht. destruct (Nat.eq_dec t k) as [->|]; [rewrite Hs; auto|]. rewrite Ho; auto; try lia. apply Rb. lia. }
    exists b'. split; auto. sp; auto. intros i t Hi Ht. destruct (Nat.eq_dec i r) as [->|]; [apply Rb'; lia|apply Kb'; lia]. }
  rewrite bind_Ok. cbn [Nat.add] in K2.
  assert (U : uptri rk (me R) pc).
  { split; [|exact RZ]. intros i Hi. rewrite RI by auto. rewrite Nat.eqb_refl. auto. }
  exists b2, npc. split; auto. split; auto. split; auto. split; auto. split.
  { exists pc. split; auto. exists (me R). auto. }
  apply (ker_gen p nc _ _ (me R) _ pc npc SPL U E I2).
  intros k Hk i Hi. rewrite (sumn_splits nc pc npc _ SPL).
  rewrite (sumn_ext (length pc) _ (fun s => dlt s i * me b2 (nth s pc 0%nat) k)).
  2:{ intros s Hs. rewrite RI by auto. unfold dlt. rewrite Nat.eqb_sym. auto. }
  rewrite sumn_dlt by auto.
  rewrite (sumn_ext (length npc) _ (fun s => dlt s k * me R i (nth s npc 0%nat))).
  2:{ intros s Hs. rewrite I2 by auto. unfold dlt. ring. }
  rewrite sumn_dlt by auto.
  replace 0 with (- me R i (nth k npc 0%nat) + me R i (nth k npc 0%nat)) by ring.
  apply cong_add; [apply K2; auto|apply cong_refl].
Qed.

(** ** echmodp_uptri and pkernel *)
Lemma echmodp_uptri_ok m : mulok S D p -> wfm m -> Forall D (ents m) ->
  exists R pc npc, echmodp_uptri S m p = Ok (R, pc, npc) /\ nro R = length pc /\ nco R = nco m /\ wfm R /\
    eqspan p (nco m) (nro m) (me m) (length pc) (me R) /\ splits (nco m) pc npc /\ uptri (length pc) (me R) pc /\
    (forall i j, (i < length pc)%nat -> (j < nco m)%nat -> cent p (me R i j)).
Proof.
  intros MU W HD. unfold echmodp_uptri.
  destruct (mmap_ok 0 0 (fun x r => cong p r x /\ cent p r) (fun x => s_mod S x p) (ents m)) as (e & -> & Le & He).
  { intros k Hk. apply (mo_mod _ _ _ M). rewrite Forall_forall in HD. apply HD, nth_In, Hk. }
  rewrite bind_Ok.
  destruct (utri_cols_ok S D p M (nro m) (nco m) (me m) (nco m) MU e 0 [] [] 0) as (e' & r' & pc & npc' & c' & -> & F & Hc).
  { eapply fwd_init; eauto. } { lia. }
  rewrite bind_Ok. cbn beta iota.
  apply (fwd_fill p) in F; auto. set (npc := npc' ++ _) in *.
  destruct F as [L C SP Er Ern SPL PIV ZERO BEL]. subst r'.
  assert (PL : forall i, (i < length pc)%nat -> (nth i pc 0 < nco m)%nat).
  { intros i Hi. eapply splits_pc; [exact SPL|]. apply nth_In, Hi. }
  destruct (mat_slice_ok (nro m) (nco m) e' (length pc) L Ern) as (e2 & -> & L2 & H2). rewrite bind_Ok.
  exists (Mt (length pc) (nco m) e2), pc, npc. unfold me, wfm; cbn [nro nco ents]. sp; auto.
  - eapply eqspan_trans; [exact SP|]. eapply eqspan_trans; [apply (eqspan_drop p _ _ _ (length pc)); auto|].
    + intros i j Hi Hj. rewrite BEL by auto. apply cong_refl.
    + apply eqspan_cong. intros. apply cong_eq. symmetry; auto.
  - split.
    + intros i Hi. rewrite H2 by auto. auto.
    + intros i j Hi Hj. specialize (PL i Hi). rewrite H2 by (auto; lia). auto.
  - intros i j Hi Hj. rewrite H2 by auto. apply C; auto; lia.
Qed.
Theorem pkernel_ok m : mulok S D p -> wfm m -> Forall D (ents m) ->
  exists K npc, pkernel S m p = Ok (Sub K npc 1) /\ nro K = nco m /\ nco K = length npc /\ wfm K /\
    (exists pc, splits (nco m) pc npc /\ exists R, eqspan p (nco m) (nro m) (me m) (length pc) R /\ uptri (length pc) R pc) /\
    kerbasis p (nco m) (nro m) (me m) (me K) npc.
Proof.
  intros MU W HD. unfold pkernel.
  destruct (echmodp_uptri_ok m MU W HD) as (R & pc & npc & -> & NR & NC & WR & E & SPL & U & RC). rewrite bind_Ok. cbn beta iota.
  rewrite NC. set (nc := nco m) in *. set (ny := length npc) in *. set (rk := length pc) in *.
  assert (PN : forall j, (j < ny)%nat -> (nth j npc 0 < nc)%nat) by (intros; eapply splits_npc; [exact SPL|apply nth_In; auto]).
  assert (PC : forall j, (j < rk)%nat -> (nth j pc 0 < nc)%nat) by (intros; eapply splits_pc; [exact SPL|apply nth_In; auto]).
  assert (DJ : forall i j, (i < rk)%nat -> (j < ny)%nat -> nth i pc 0%nat <> nth j npc 0%nat).
  { intros i j Hi Hj Eq. apply (splits_disj _ _ _ SPL (nth i pc 0%nat)); [|rewrite Eq]; apply nth_In; auto. }
  assert (NI : forall i j, (i < ny)%nat -> (j < ny)%nat -> nth i npc 0%nat = nth j npc 0%nat -> i = j) by (intros i j; apply sorted_inj, SPL).
  assert (PI : forall i j, (i < rk)%nat -> (j < rk)%nat -> nth i pc 0%nat = nth j pc 0%nat -> i = j) by (intros i j; apply sorted_inj, SPL).
  destruct (mat_new_ok nc ny) as (W0 & Z0).
  assert (RG : forall i j, (i < rk)%nat -> (j < nc)%nat -> mat_get R i j = Ok (me R i j)).
  { intros i j Hi Hj. unfold mat_get, me. rewrite NC. rewrite (at_ent rk nc); auto. unfold wfm in WR. rewrite NC, NR in WR. auto. }
  assert (GG : forall b i j, nro b = nc -> nco b = ny -> wfm b -> (i < nc)%nat -> (j < ny)%nat -> mat_get b i j = Ok (me b i j)).
  { intros b i j Nb Cb Wb Hi Hj. unfold mat_get, me. rewrite Cb. rewrite (at_ent nc ny); auto. unfold wfm in Wb. rewrite Nb, Cb in Wb. auto. }
  (* the column condition *)
  set (g := fun (K : nat -> nat -> Z) (i j s : nat) => me R i (nth s pc 0%nat) * K (nth s pc 0%nat) j).
  set (eqn := fun (K : nat -> nat -> Z) (j i : nat) => cent p (K (nth i pc 0%nat) j) /\
     cong p (K (nth i pc 0%nat) j) (- me R i (nth j npc 0%nat) - rsum (i + 1) rk (g K i j))).
  assert (eqn_ext : forall K K' j i, (i < rk)%nat -> (forall s, (i <= s < rk)%nat -> K' (nth s pc 0%nat) j = K (nth s pc 0%nat) j) -> eqn K j i -> eqn K' j i).
  { intros K K' j i Hi H (H1 & H2). unfold eqn. rewrite H by lia. split; auto.
    rewrite (rsum_ext (i + 1) rk (g K' i j) (g K i j)); auto; [lia|]. intros s Hs. unfold g. rewrite H by lia. auto. }
  destruct (mfold_rev_seq (fun k b => nro b = nc /\ nco b = ny /\ wfm b /\
     (forall i t, (i < nc)%nat -> (t < k)%nat -> (t < ny)%nat -> me b i t = 0) /\
     (forall j t, (j < ny)%nat -> (k <= t < ny)%nat -> me b (nth j npc 0%nat) t = if Nat.eqb j t then 1 else 0) /\
     (forall i t, (i < rk)%nat -> (k <= t < ny)%nat -> eqn (me b) t i))
     (fun b j => bind (at_ npc j) (fun jj => bind (mat_set b jj j 1) (fun b =>
        mfold (fun b i => bind (mat_get R i jj) (fun x => bind (s_neg S x) (fun t0 =>
          bind (mfold (fun t k => bind (at_ pc k) (fun tt => bind (mat_get R i tt) (fun a => bind (mat_get b tt j) (fun y => bind (s_xmm S a y p) (fun z => bind (s_sub S t z) (fun t => s_xmod S t p))))))
                  (rev (seq (i + 1) (rk - (i + 1)))) t0) (fun t =>
          bind (s_mod S t p) (fun t => bind (at_ pc i) (fun c => mat_set b c j t)))))) (rev (seq 0 rk)) b)))
     0 ny (mat_new nc ny)) as (b1 & -> & N1 & C1 & W1 & _ & I1 & Q1).
  { sp; auto; intros; lia. }
  { intros j b0 Hj (Nb0 & Cb0 & Wb0 & Zb0 & Ib0 & Qb0).
    rewrite (at_ok 0%nat) by (fold ny; lia). rewrite bind_Ok. set (jj := nth j npc 0%nat) in *.
    pose proof (PN j ltac:(lia)) as Pj. fold jj in Pj.
    destruct (mat_set_ok b0 jj j 1 Wb0) as (b1 & -> & N1 & C1 & W1 & S1 & O1); [lia|lia|]. rewrite Nb0, Cb0 in *. rewrite bind_Ok.
    assert (I1 : forall k, (k < ny)%nat -> me b1 (nth k npc 0%nat) j = if Nat.eqb k j then 1 else 0).
    { intros k Hk. destruct (Nat.eqb_spec k j) as [->|]; auto. rewrite O1; [apply Zb0; auto; try lia; apply PN; auto|apply PN; auto|lia|].
      left. intros Eq. apply NI in Eq; lia. }
    destruct (mfold_rev_seq (fun i b => nro b = nc /\ nco b = ny /\ wfm b /\
       (forall a t, (a < nc)%nat -> (t < ny)%nat -> t <> j -> me b a t = me b1 a t) /\
       (forall k, (k < ny)%nat -> me b (nth k npc 0%nat) j = if Nat.eqb k j then 1 else 0) /\
       (forall s, (i <= s < rk)%nat -> eqn (me b) j s))
       (fun b i => bind (mat_get R i jj) (fun x => bind (s_neg S x) (fun t0 =>
          bind (mfold (fun t k => bind (at_ pc k) (fun tt => bind (mat_get R i tt) (fun a => bind (mat_get b tt j) (fun y => bind (s_xmm S a y p) (fun z => bind (s_sub S t z) (fun t => s_xmod S t p))))))
                  (rev (seq (i + 1) (rk - (i + 1)))) t0) (fun t =>
          bind (s_mod S t p) (fun t => bind (at_ pc i) (fun c => mat_set b c j t))))))
       0 rk b1) as (b2 & -> & N2 & C2 & W2 & O2 & I2 & Q2).
    { sp; auto; try congruence. intros; lia. }
    { intros i b Hi (Nb & Cb & Wb & Ob & Ib & Qb).
      rewrite RG by (auto; lia). rewrite bind_Ok.
      assert (BR : Z.abs (me R i jj) < p) by (eapply cl; eauto; apply RC; auto; lia).
      rewrite (mo_neg _ _ _ M) by auto. rewrite bind_Ok.
      destruct (mfold_rev_seq (fun k t => Z.abs t < p /\ cong p t (- me R i jj - rsum k rk (g (me b) i j)))
         (fun t k => bind (at_ pc k) (fun tt => bind (mat_get R i tt) (fun a => bind (mat_get b tt j) (fun y => bind (s_xmm S a y p) (fun z => bind (s_sub S t z) (fun t => s_xmod S t p))))))
         (i + 1) (rk - (i + 1)) (- me R i jj)) as (t1 & -> & B1 & E1).
      { replace (i + 1 + (rk - (i + 1)))%nat with rk by lia. split; [lia|]. unfold rsum. apply cong_eq. ring. }
      { intros k t Hk (Bt & Et). rewrite (at_ok 0%nat) by (fold rk; lia). rewrite bind_Ok.
        pose proof (PC k ltac:(lia)) as Pk. rewrite RG by (auto; lia). rewrite bind_Ok.
        rewrite GG by (auto; lia). rewrite bind_Ok.
        destruct (mo_xmm _ _ _ M (me R i (nth k pc 0%nat)) (me b (nth k pc 0%nat) j)) as (z & -> & Hz & Bz).
        { eapply cl; eauto. apply RC; auto; lia. } { eapply cl; eauto. apply Qb; lia. }
        rewrite bind_Ok. rewrite (mo_sub _ _ _ M) by auto. rewrite bind_Ok.
        destruct (mo_xmod _ _ _ M (t - z)) as (t' & -> & Ht' & Bt'); [apply (mo_D _ _ _ M); lia|].
        exists t'. split; auto. split; auto. eapply cong_trans; [exact Ht'|].
        replace (- me R i jj - rsum k rk (g (me b) i j)) with (- me R i jj - rsum (k + 1) rk (g (me b) i j) - g (me b) i j k).
        2:{ unfold rsum. replace (k + 1)%nat with (Datatypes.S k) by lia. cbn [sumn]. ring. }
        apply cong_sub; auto. }
      rewrite bind_Ok.
      destruct (mo_mod _ _ _ M t1) as (t2 & -> & H2 & B2); [apply (mo_D _ _ _ M); lia|]. rewrite bind_Ok.
      rewrite (at_ok 0%nat) by (fold rk; lia). rewrite bind_Ok.
      pose proof (PC i ltac:(lia)) as Pi.
      destruct (mat_set_ok b (nth i pc 0%nat) j t2 Wb) as (b' & -> & Nb' & Cb' & Wb' & Sb' & Ob'); [lia|lia|]. rewrite Nb, Cb in *.
      exists b'. split; auto.
      assert (Keep : forall s, (i < s < rk)%nat -> me b' (nth s pc 0%nat) j = me b (nth s pc 0%nat) j).
      { intros s Hs. apply Ob'; [apply PC; lia|lia|]. left. intros Eq. apply PI in Eq; lia. }
      sp; auto.
      - intros a t Ha Ht Hn. rewrite Ob' by auto. auto.
      - intros k Hk. rewrite Ob'; [auto|apply PN; auto|lia|]. left. intros Eq. symmetry in Eq. revert Eq. apply DJ; auto; lia.
      - intros s Hs. destruct (Nat.eq_dec s i) as [->|].
        + split; [rewrite Sb'; auto|]. rewrite Sb'. fold jj.
          rewrite (rsum_ext (i + 1) rk (g (me b') i j) (g (me b) i j)); [|lia|intros k Hk; unfold g; rewrite Keep by lia; auto].
          eapply cong_trans; eauto.
        + apply (eqn_ext (me b)); [lia| |apply Qb; lia]. intros k Hk. apply Keep. lia. }
    exists b2. split; auto. sp; auto.
    - intros a t Ha Ht Ht'. rewrite O2 by (auto; lia). rewrite O1 by (auto; lia). apply Zb0; auto; lia.
    - intros k t Hk Ht. destruct (Nat.eq_dec t j) as [->|]; [apply I2; auto|].
      rewrite O2 by (auto; try lia; apply PN; auto). rewrite O1 by (auto; try lia; apply PN; auto). apply Ib0; auto; lia.
    - intros i t Hi Ht. destruct (Nat.eq_dec t j) as [->|]; [apply Q2; lia|].
      apply (eqn_ext (me b0)); auto; [|apply Qb0; auto; lia].
      intros s Hs. rewrite O2 by (auto; try lia; apply PC; lia). apply O1; [apply PC; lia|lia|lia]. }
  rewrite bind_Ok. exists b1, npc. split; auto. split; auto. split; auto. split; auto. split.
  { exists pc. split; auto. exists (me R). auto. }
  apply (ker_gen p nc _ _ (me R) _ pc npc SPL U E).
  { intros j k Hj Hk. apply I1; auto. fold ny in Hk. lia. }
  intros k Hk i Hi. rewrite (sumn_splits nc pc npc _ SPL). fold rk ny in Hi, Hk |- *.
  rewrite (sumn_ext ny _ (fun s => dlt s k * me R i (nth s npc 0%nat))).
  2:{ intros s Hs. rewrite I1 by (auto; lia). unfold dlt. ring. }
  rewrite sumn_dlt by auto. destruct (Q1 i k Hi ltac:(lia)) as (_ & HQ).
  change (sumn rk (fun s => me R i (nth s pc 0%nat) * me b1 (nth s pc 0%nat) k)) with (sumn rk (g (me b1) i k)).
  replace (sumn rk (g (me b1) i k)) with (rsum (i + 1) rk (g (me b1) i k) + sumn (i + 1) (g (me b1) i k)) by (unfold rsum; lia).
  assert (Es : sumn (i + 1) (g (me b1) i k) = me b1 (nth i pc 0%nat) k).
  { replace (i + 1)%nat with (Datatypes.S i) by lia. cbn [sumn]. rewrite (sumn_ext i _ (fun _ => 0)).
    - rewrite sumn_0. unfold g. rewrite (proj1 U) by auto. ring.
    - intros s Hs. unfold g. rewrite (proj2 U); [ring|auto|]. apply sorted_nth; [apply SPL|lia]. }
  rewrite Es. destruct HQ as [q HQ]. exists q. lia.
Qed.
End PKer.
