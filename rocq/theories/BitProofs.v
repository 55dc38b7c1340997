(** Proofs about BitModel. *)
From Coq Require Import ZArith Lia List Bool.
From Verif Require Import Base LinModel LinProofs BitModel BitSpec.
Import ListNotations.
Open Scope Z_scope.
Open Scope res_scope.

(** ** single bits *)
Lemma bits_mod a b n : (a - b) mod 2 ^ n = 0 -> 0 <= n -> forall k, 0 <= k < n -> Z.testbit a k = Z.testbit b k.
Proof.
  intros H Hn k Hk. rewrite <- (Z.mod_pow2_bits_low a n k) by lia. rewrite <- (Z.mod_pow2_bits_low b n k) by lia. f_equal.
  assert (P : 0 < 2 ^ n) by (apply Z.pow_pos_nonneg; lia). apply Z.mod_divide in H; [|lia]. destruct H as (q & Hq). replace a with (b + q * 2 ^ n) by lia. apply Z.mod_add. lia.
Qed.
Lemma ul2l_bits v k : 0 <= k < 64 -> Z.testbit (ul2l v) k = Z.testbit v k.
Proof.
  intros H. unfold ul2l. destruct (v <? 2 ^ 63); auto. apply bits_mod with (n := 64); try lia. replace (v - 2 ^ 64 - v) with (- (2 ^ 64)) by lia. reflexivity.
Qed.
Lemma shl1_ok i : 0 <= i < 32 -> exists s, shl1 i = Ok s /\ forall k, 0 <= k < 32 -> Z.testbit s k = (k =? i).
Proof.
  intros H. unfold shl1. destruct (Z.ltb_spec i 0); [lia|]. destruct (Z.leb_spec 32 i); [lia|]. cbn [orb]. eexists; split; [reflexivity|]. intros k Hk. destruct (Z.eqb_spec i 31) as [->|n].
  - rewrite (bits_mod (- 2 ^ 31) (2 ^ 31) 32 eq_refl ltac:(lia) k Hk). rewrite Z.pow2_bits_eqb by lia. apply Z.eqb_sym.
  - rewrite Z.pow2_bits_eqb by lia. apply Z.eqb_sym.
Qed.
Lemma wrap32_zero z : wrap32 z = 0 <-> forall k, 0 <= k < 32 -> Z.testbit z k = false.
Proof.
  assert (E : wrap32 z = 0 <-> z mod 2 ^ 32 = 0).
  { unfold wrap32. change (2 ^ 32) with 4294967296. pose proof (Z.div_mod (z + 2147483648) 4294967296 ltac:(lia)). pose proof (Z.mod_pos_bound (z + 2147483648) 4294967296 ltac:(lia)). pose proof (Z.div_mod z 4294967296 ltac:(lia)). pose proof (Z.mod_pos_bound z 4294967296 ltac:(lia)). lia. }
  rewrite E. split; intros H.
  - intros k Hk. rewrite <- (Z.mod_pow2_bits_low z 32 k) by lia. rewrite H. apply Z.bits_0.
  - apply Z.bits_inj. intros k. rewrite Z.bits_0. destruct (Z.lt_ge_cases k 0); [apply Z.testbit_neg_r; auto|]. destruct (Z.lt_ge_cases k 32); [rewrite Z.mod_pow2_bits_low by lia; apply H; lia|apply Z.mod_pow2_bits_high; lia].
Qed.
Lemma testbit_ok v i : 0 <= i < 32 -> testbit_ v i = Ok (Z.testbit v i).
Proof.
  intros H. unfold testbit_. destruct (shl1_ok i H) as (s & -> & Hs). rewrite bind_Ok. f_equal. destruct (Z.eqb_spec (wrap32 (Z.land (ul2l v) s)) 0) as [E|E]; cbn [negb].
  - rewrite wrap32_zero in E. specialize (E i H). rewrite Z.land_spec, ul2l_bits, Hs, Z.eqb_refl, andb_true_r in E by lia. auto.
  - destruct (Z.testbit v i) eqn:T; auto. exfalso. apply E, wrap32_zero. intros k Hk. rewrite Z.land_spec, ul2l_bits, Hs by lia. destruct (Z.eqb_spec k i) as [->|]; [rewrite T; reflexivity|apply andb_false_r].
Qed.
(** ** spans *)
Lemma xsum_lxor vs : forall bs cs, length bs = length vs -> length cs = length vs -> exists ds, length ds = length vs /\ xsum ds vs = Z.lxor (xsum bs vs) (xsum cs vs).
Proof.
  induction vs as [|v vs IH]; intros [|b bs] [|c cs] Lb Lc; cbn [length] in *; try lia; [exists []; auto|].
  destruct (IH bs cs) as (ds & L & E); [lia|lia|]. exists (xorb b c :: ds). cbn [length xsum]. split; [lia|]. rewrite E. set (X := xsum bs vs). set (Y := xsum cs vs). clearbody X Y.
  destruct b, c; cbn [xorb]; apply Z.bits_inj; intros k; rewrite ?Z.lxor_spec; destruct (Z.testbit v k), (Z.testbit X k), (Z.testbit Y k); reflexivity.
Qed.
Lemma eqbits_lxor d a b a' b' : eqbits d a a' -> eqbits d b b' -> eqbits d (Z.lxor a b) (Z.lxor a' b').
Proof. intros H1 H2 i Hi. rewrite !Z.lxor_spec, H1, H2 by auto. reflexivity. Qed.
Lemma spans_eq d vs v w : eqbits d v w -> spans d vs v -> spans d vs w.
Proof. intros E (bs & L & H). exists bs. split; auto. intros i Hi. rewrite H by auto. apply E, Hi. Qed.
Lemma spans_lxor d vs v w : spans d vs v -> spans d vs w -> spans d vs (Z.lxor v w).
Proof.
  intros (bs & L & H) (cs & L' & H'). destruct (xsum_lxor vs bs cs L L') as (ds & L'' & E). exists ds. split; auto. rewrite E. apply eqbits_lxor; auto.
Qed.
Lemma xsum_false n vs : xsum (repeat false n) vs = 0.
Proof. revert vs. induction n; intros [|v vs]; cbn [repeat xsum]; auto. Qed.
Lemma spans_0 d vs : spans d vs 0.
Proof. exists (repeat false (length vs)). rewrite repeat_length, xsum_false. split; auto. intros i _. reflexivity. Qed.
Lemma xsum_app bs vs cs ws : length bs = length vs -> xsum (bs ++ cs) (vs ++ ws) = Z.lxor (xsum bs vs) (xsum cs ws).
Proof.
  revert bs. induction vs as [|v vs IH]; intros [|b bs] L; cbn [length] in L; try lia; cbn [app xsum]; [rewrite Z.lxor_0_l; auto|]. rewrite IH by lia. destruct b; auto. symmetry; apply Z.lxor_assoc.
Qed.
Lemma spans_snoc d vs v w : spans d (vs ++ [v]) w <-> spans d vs w \/ spans d vs (Z.lxor w v).
Proof.
  split.
  - intros (bs & L & H). rewrite app_length in L. cbn [length] in L. destruct (exists_last (l := bs)) as (bs' & b & ->); [intros ->; cbn in L; lia|]. rewrite app_length in L. cbn [length] in L. rewrite xsum_app in H by lia. cbn [xsum] in H.
    destruct b; [right|left]; exists bs'; split; try lia; intros i Hi; specialize (H i Hi); rewrite !Z.lxor_spec in H; rewrite ?Z.lxor_spec, ?Z.bits_0 in *.
    + rewrite <- H. destruct (Z.testbit (xsum bs' vs) i), (Z.testbit v i); reflexivity.
    + rewrite <- H. destruct (Z.testbit (xsum bs' vs) i); reflexivity.
  - intros [(bs & L & H)|(bs & L & H)]; [exists (bs ++ [false])|exists (bs ++ [true])]; rewrite !app_length; (split; [cbn [length]; lia|]); rewrite xsum_app by auto; cbn [xsum]; intros i Hi; specialize (H i Hi); rewrite !Z.lxor_spec, ?Z.bits_0 in *; rewrite H.
    + apply xorb_false_r.
    + destruct (Z.testbit w i), (Z.testbit v i); reflexivity.
Qed.
Lemma spans_shift d vs v w : spans d vs (Z.lxor v w) -> (spans d vs v <-> spans d vs w).
Proof.
  intros H. split; intros K.
  - apply (spans_eq d vs (Z.lxor (Z.lxor v w) v)); [|apply spans_lxor; auto]. intros i _. rewrite !Z.lxor_spec. destruct (Z.testbit v i), (Z.testbit w i); reflexivity.
  - apply (spans_eq d vs (Z.lxor (Z.lxor v w) w)); [|apply spans_lxor; auto]. intros i _. rewrite !Z.lxor_spec. destruct (Z.testbit v i), (Z.testbit w i); reflexivity.
Qed.
(** ** the basis *)
Fixpoint ech (d : Z) (gs ps : list Z) : Prop :=
  match gs, ps with
  | [], [] => True
  | g :: gs, p :: ps => 0 <= p < d /\ Z.testbit g p = true /\ (forall h, In h gs -> Z.testbit h p = false) /\ ech d gs ps
  | _, _ => False
  end.
Fixpoint red (gs ps : list Z) (v : Z) : Z :=
  match gs, ps with g :: gs, p :: ps => red gs ps (if Z.testbit v p then Z.lxor v g else v) | _, _ => v end.
Lemma ech_len d gs : forall ps, ech d gs ps -> length ps = length gs.
Proof. induction gs as [|g gs IH]; intros [|p ps] H; cbn [ech] in H; try contradiction; auto. cbn [length]. f_equal. apply IH, H. Qed.
Lemma ech_in d gs : forall ps, ech d gs ps -> forall p, In p ps -> 0 <= p < d.
Proof. induction gs as [|g gs IH]; intros [|p ps] H q Hq; cbn [ech] in H; try contradiction. destruct H as (H1 & _ & _ & H2). destruct Hq as [<-|Hq]; auto. apply (IH ps); auto. Qed.
Lemma red_keep d gs : forall ps v q, ech d gs ps -> (forall h, In h gs -> Z.testbit h q = false) -> Z.testbit (red gs ps v) q = Z.testbit v q.
Proof.
  induction gs as [|g gs IH]; intros [|p ps] v q H Hq; cbn [ech red] in *; try contradiction; auto. destruct H as (_ & _ & _ & H). rewrite IH; auto; [|intros; apply Hq; right; auto].
  destruct (Z.testbit v p); auto. rewrite Z.lxor_spec, (Hq g) by (left; auto). apply xorb_false_r.
Qed.
Lemma red_zero d gs : forall ps v, ech d gs ps -> forall q, In q ps -> Z.testbit (red gs ps v) q = false.
Proof.
  induction gs as [|g gs IH]; intros [|p ps] v H q Hq; cbn [ech red] in *; try contradiction. destruct H as (_ & H1 & H2 & H). destruct Hq as [<-|Hq]; [|apply IH; auto].
  rewrite (red_keep d) by auto. destruct (Z.testbit v p) eqn:E; auto. rewrite Z.lxor_spec, E, H1. reflexivity.
Qed.
Lemma red_span d gs : forall ps v, ech d gs ps -> exists bs, length bs = length gs /\ red gs ps v = Z.lxor v (xsum bs gs).
Proof.
  induction gs as [|g gs IH]; intros [|p ps] v H; cbn [ech red] in *; try contradiction; [exists []; split; auto; cbn; rewrite Z.lxor_0_r; auto|]. destruct H as (_ & _ & _ & H).
  destruct (IH ps (if Z.testbit v p then Z.lxor v g else v) H) as (bs & L & ->). exists (Z.testbit v p :: bs). cbn [length xsum]. split; [lia|]. destruct (Z.testbit v p); auto. apply Z.lxor_assoc.
Qed.
Lemma xsum_bit gs q : forall bs, (forall h, In h gs -> Z.testbit h q = false) -> Z.testbit (xsum bs gs) q = false.
Proof.
  induction gs as [|g gs IH]; intros [|b bs] H; cbn [xsum]; try apply Z.bits_0. assert (Q : Z.testbit (xsum bs gs) q = false) by (apply IH; intros; apply H; right; auto). destruct b; auto. rewrite Z.lxor_spec, Q, H by (left; auto). reflexivity.
Qed.
(** a vector of the span without pivots is zero *)
Lemma nopiv_zero d gs : forall ps bs, ech d gs ps -> length bs = length gs -> (forall q, In q ps -> Z.testbit (xsum bs gs) q = false) -> xsum bs gs = 0.
Proof.
  induction gs as [|g gs IH]; intros [|p ps] [|b bs] H L Hz; cbn [ech length] in *; try contradiction; try lia; auto. destruct H as (_ & H1 & H2 & H). cbn [xsum] in *. destruct b.
  - exfalso. specialize (Hz p (or_introl eq_refl)). rewrite Z.lxor_spec, H1, (xsum_bit gs p bs H2) in Hz. discriminate.
  - apply (IH ps); auto. intros q Hq. apply Hz. right; auto.
Qed.
Lemma nopiv_span d gs ps v : ech d gs ps -> (forall q, In q ps -> Z.testbit v q = false) -> (spans d gs v <-> eqbits d v 0).
Proof.
  intros H Hz. split.
  - intros (bs & L & E). assert (Z0 : xsum bs gs = 0). { apply (nopiv_zero d gs ps); auto. intros q Hq. rewrite E by (apply (ech_in d gs ps H q Hq)). auto. } intros i Hi. rewrite <- E, Z0 by auto. reflexivity.
  - intros E. apply (spans_eq d gs 0); [|apply spans_0]. intros i Hi. symmetry. apply E, Hi.
Qed.
Lemma ech_snoc d gs : forall ps v p, ech d gs ps -> (forall q, In q ps -> Z.testbit v q = false) -> 0 <= p < d -> Z.testbit v p = true -> ech d (gs ++ [v]) (ps ++ [p]).
Proof.
  induction gs as [|g gs IH]; intros [|q ps] v p H Hz Hp Hv; cbn [ech app] in *; try contradiction.
  - split; auto. split; auto. split; auto. intros ? [].
  - destruct H as (H0 & H1 & H2 & H). split; auto. split; auto. split; [|apply IH; auto; intros; apply Hz; right; auto]. intros h Hh. apply in_app_or in Hh. destruct Hh as [Hh|[<-|[]]]; auto. apply Hz. left; auto.
Qed.
(** pivots are distinct *)
Lemma ech_nodup d gs : forall ps, ech d gs ps -> NoDup ps.
Proof.
  induction gs as [|g gs IH]; intros [|p ps] H; cbn [ech] in H; try contradiction; constructor; destruct H as (_ & _ & H2 & H); [|apply IH; auto].
  clear - H H2. revert ps H. induction gs as [|g gs IH]; intros [|q ps] H Hin; cbn [ech] in H; try contradiction. destruct H as (_ & H1 & _ & H). destruct Hin as [<-|Hin].
  - rewrite (H2 g) in H1 by (left; auto). discriminate.
  - apply (IH (fun h Hh => H2 h (or_intror Hh)) ps H Hin).
Qed.
Lemma nodup_bound d (ps : list Z) : 0 <= d -> NoDup ps -> (forall p, In p ps -> 0 <= p < d) -> Z.of_nat (length ps) <= d.
Proof.
  intros Hd N H. assert (L : (length ps <= length (map Z.of_nat (seq 0 (Z.to_nat d))))%nat).
  { apply NoDup_incl_length; auto. intros p Hp. apply H in Hp. apply in_map_iff. exists (Z.to_nat p). split; [lia|]. apply in_seq. lia. }
  rewrite map_length, seq_length in L. lia.
Qed.
(** ** reduce *)
Lemma deref_nth {A} (l1 l2 : list A) x : deref (l1 ++ x :: l2) (length l1) = Ok x.
Proof. unfold deref. rewrite nth_error_app2, Nat.sub_diag by lia. reflexivity. Qed.
Lemma bs_red_ok b d gs : d <= 32 -> forall ps G P v, bgens b = G ++ gs -> bpivs b = P ++ ps -> length P = length G -> ech d gs ps ->
  mfold (fun v j => p <- deref (bpivs b) j ;; t <- testbit_ v p ;; if t : bool then g <- deref (bgens b) j ;; Ok (Z.lxor v g) else Ok v) (seq (length G) (length gs)) v = Ok (red gs ps v).
Proof.
  intros Hd. induction gs as [|g gs IH]; intros [|p ps] G P v EG EP L H; cbn [ech length seq mfold red] in *; try contradiction; auto.
  destruct H as (Hp & H1 & H2 & H). rewrite EP at 1. rewrite <- L at 1. rewrite deref_nth, bind_Ok, testbit_ok, bind_Ok by lia. specialize (IH ps (G ++ [g]) (P ++ [p])).
  assert (IH' : forall v', mfold (fun v j => p <- deref (bpivs b) j ;; t <- testbit_ v p ;; if t : bool then g <- deref (bgens b) j ;; Ok (Z.lxor v g) else Ok v) (seq (S (length G)) (length gs)) v' = Ok (red gs ps v')).
  { intros v'. rewrite <- (IH v'); auto.
    - rewrite app_length. cbn [length]. rewrite Nat.add_1_r. reflexivity.
    - rewrite <- app_assoc. exact EG.
    - rewrite <- app_assoc. exact EP.
    - rewrite !app_length. cbn [length]. lia. }
  destruct (Z.testbit v p).
  - rewrite EG at 1. rewrite deref_nth, !bind_Ok. apply IH'.
  - rewrite bind_Ok. apply IH'.
Qed.
Lemma bs_top_ok v : forall n, (n <= 32)%nat -> exists j, bs_top n v = Ok j /\ -1 <= j < Z.of_nat n /\ (forall k, j < k < Z.of_nat n -> Z.testbit v k = false) /\ (0 <= j -> Z.testbit v j = true).
Proof.
  induction n as [|n IH]; intros Hn; cbn [bs_top]; [exists (-1); split; auto; split; [lia|split; lia]|]. rewrite testbit_ok by lia. rewrite bind_Ok. destruct (Z.testbit v (Z.of_nat n)) eqn:E.
  - exists (Z.of_nat n). split; auto. split; [lia|]. split; [lia|auto].
  - destruct (IH ltac:(lia)) as (j & Ej & B & H1 & H2). exists j. split; auto. split; [lia|]. split; auto. intros k Hk. destruct (Z.eq_dec k (Z.of_nat n)) as [->|]; auto. apply H1. lia.
Qed.
Definition binv (d : Z) (b : bitspace) (vs : list Z) : Prop :=
  bmax b = d /\ ech d (bgens b) (bpivs b) /\ (forall v, spans d (bgens b) v <-> spans d vs v) /\ (forall k, 0 <= k < d -> (Z.testbit (bmask b) k = true <-> In k (bpivs b))).
Lemma bs_reduce_ok d b vs v : 0 <= d <= 32 -> binv d b vs -> exists j v', bs_reduce b v 0 = Ok (j, v') /\ v' = red (bgens b) (bpivs b) v /\ -1 <= j < d /\ (j = -1 <-> spans d vs v) /\ spans d vs (Z.lxor v v') /\
  (forall k, j < k < d -> Z.testbit v' k = false) /\ (0 <= j -> Z.testbit v' j = true).
Proof.
  intros Hd (B1 & B2 & B3 & _). unfold bs_reduce, bs_red, bdim. rewrite Nat.sub_0_r. pose proof (bs_red_ok b d (bgens b) ltac:(lia) (bpivs b) [] [] v eq_refl eq_refl eq_refl B2) as Q0; cbn [length] in Q0; rewrite Q0. rewrite bind_Ok, B1.
  set (v' := red (bgens b) (bpivs b) v). destruct (bs_top_ok v' (Z.to_nat d) ltac:(lia)) as (j & -> & J1 & J2 & J3). rewrite Z2Nat.id in J1, J2 by lia. rewrite bind_Ok. exists j, v'. split; auto. split; auto. split; [lia|].
  assert (Sp : spans d vs (Z.lxor v v')). { apply B3. destruct (red_span d _ _ v B2) as (bs & L & E). fold v' in E. exists bs. split; auto. intros i _. rewrite E, !Z.lxor_spec. destruct (Z.testbit v i), (Z.testbit (xsum bs (bgens b)) i); reflexivity. }
  split; [|split; auto]. rewrite (spans_shift d vs v v' Sp), <- B3, (nopiv_span d _ (bpivs b)); auto; [|apply (red_zero d); auto]. split.
  - intros -> i Hi. rewrite J2 by lia. symmetry. apply Z.bits_0.
  - intros H. destruct (Z.lt_ge_cases j 0); [lia|]. specialize (J3 ltac:(lia)). rewrite (H j) in J3 by lia. rewrite Z.bits_0 in J3. discriminate.
Qed.
Lemma bs_reduce_start d b vs v start : 0 <= d <= 32 -> binv d b vs -> (start <= bdim b)%nat -> (forall k, (k < start)%nat -> Z.testbit v (nth k (bpivs b) 0) = false) -> bs_reduce b v start = bs_reduce b v 0.
Proof.
  intros Hd (B1 & B2 & _) Hs Hz. unfold bs_reduce, bs_red, bdim in *. rewrite Nat.sub_0_r. pose proof (bs_red_ok b d (bgens b) ltac:(lia) (bpivs b) [] [] v eq_refl eq_refl eq_refl B2) as Q0; cbn [length] in Q0; rewrite Q0. pose proof (ech_len _ _ _ B2) as Lp.
  assert (E : forall gs ps G P, ech d (G ++ gs) (P ++ ps) -> length P = length G -> ech d gs ps /\ ((forall q, In q P -> Z.testbit v q = false) -> red (G ++ gs) (P ++ ps) v = red gs ps v)).
  { clear. intros gs ps G. induction G as [|g G IH]; intros [|p P] H L; cbn [length app ech red] in *; try lia; auto. destruct H as (_ & _ & _ & H). destruct (IH P H ltac:(lia)) as (Q1 & Q2). split; auto. intros Hz. rewrite (Hz p) by (left; auto). apply Q2. intros; apply Hz; right; auto. }
  rewrite <- (firstn_skipn start (bgens b)) in B2. rewrite <- (firstn_skipn start (bpivs b)) in B2. destruct (E _ _ _ _ B2) as (E1 & E2); [rewrite !firstn_length; lia|].
  pose proof (bs_red_ok b d (skipn start (bgens b)) ltac:(lia) (skipn start (bpivs b)) (firstn start (bgens b)) (firstn start (bpivs b)) v) as Q. rewrite !firstn_skipn, !firstn_length, skipn_length in Q. replace (Nat.min start (length (bgens b))) with start in Q by lia.
  rewrite Q; auto; [|lia]. rewrite <- E2; [rewrite !firstn_skipn; reflexivity|]. intros q Hq. apply (In_nth _ _ 0) in Hq. destruct Hq as (k & Hk & <-). rewrite firstn_length in Hk. rewrite nth_firstn' by lia. apply Hz. lia.
Qed.
Lemma bs_aug_ok d b vs v0 v p : 0 <= d <= 32 -> binv d b vs -> spans d vs (Z.lxor v0 v) -> (forall q, In q (bpivs b) -> Z.testbit v q = false) -> 0 <= p < d -> Z.testbit v p = true -> exists b', bs_aug b v p = Ok b' /\ binv d b' (vs ++ [v0]).
Proof.
  intros Hd (B1 & B2 & B3 & B4) Sp Hz Hp Hv. pose proof (ech_len _ _ _ B2) as Lp. unfold bs_aug.
  assert (E2 : ech d (bgens b ++ [v]) (bpivs b ++ [p])) by (apply ech_snoc; auto).
  assert (L2 : Z.of_nat (length (bpivs b ++ [p])) <= d) by (apply nodup_bound; [lia|apply (ech_nodup d _ _ E2)|apply (ech_in d _ _ E2)]). rewrite app_length in L2. cbn [length] in L2.
  unfold bdim. destruct (Z.leb_spec (bmax b) (Z.of_nat (length (bgens b)))); [lia|]. destruct (shl1_ok p ltac:(lia)) as (s & -> & Hs). rewrite bind_Ok. eexists; split; [reflexivity|]. split; [exact B1|]. split; [exact E2|]. cbn [bgens bmask bpivs]. split.
  - intros w. rewrite !spans_snoc, !B3. assert (Q : spans d vs (Z.lxor w v) <-> spans d vs (Z.lxor w v0)).
    { apply spans_shift. apply (spans_eq d vs (Z.lxor v0 v)); auto. intros i _. rewrite !Z.lxor_spec. destruct (Z.testbit v0 i), (Z.testbit v i), (Z.testbit w i); reflexivity. } rewrite Q. tauto.
  - intros k Hk. rewrite Z.lor_spec, Z.mod_pow2_bits_low, Hs by lia. rewrite orb_true_iff, B4 by auto. rewrite in_app_iff. cbn [In]. rewrite Z.eqb_eq. intuition.
Qed.
Lemma bs_augment_ok d b vs v : 0 <= d <= 32 -> binv d b vs -> exists r b', bs_augment b v = Ok (r, b') /\ (r = true <-> ~ spans d vs v) /\ binv d b' (vs ++ [v]).
Proof.
  intros Hd B. unfold bs_augment. destruct (bs_reduce_ok d b vs v Hd B) as (j & v' & -> & Ev & J & Sv & Sd & J2 & J3). rewrite bind_Ok. destruct (Z.ltb_spec j 0) as [N|N].
  - assert (K : spans d vs v) by (apply Sv; lia). exists false, b. split; auto. split; [split; [discriminate|contradiction]|]. destruct B as (B1 & B2 & B3 & B4). split; auto. split; auto. split; auto. intros w. rewrite B3, spans_snoc. split; [auto|].
    intros [|H]; auto. apply (spans_eq d vs (Z.lxor (Z.lxor w v) v)); [|apply spans_lxor; auto]. intros i _. rewrite !Z.lxor_spec. destruct (Z.testbit v i), (Z.testbit w i); reflexivity.
  - destruct (bs_aug_ok d b vs v v' j Hd B Sd) as (b' & -> & B'); auto; [|lia|]. { subst v'. apply (red_zero d). apply B. } rewrite bind_Ok. exists true, b'. split; auto. split; auto. split; auto. intros _ H. apply Sv in H. lia.
Qed.
Lemma bs_run_ok d vs : 0 <= d <= 32 -> forall b us, binv d b us -> exists rs b', bs_run vs b = Ok (rs, b') /\ newflags d us vs rs /\ binv d b' (us ++ vs).
Proof.
  intros Hd. induction vs as [|v vs IH]; intros b us B; cbn [bs_run]; [exists [], b; rewrite app_nil_r; split; auto; split; cbn; auto|].
  destruct (bs_augment_ok d b us v Hd B) as (r & b1 & -> & Hr & B1). rewrite bind_Ok. destruct (IH b1 _ B1) as (rs & b' & -> & N & B'). rewrite bind_Ok. exists (r :: rs), b'. split; auto. rewrite <- app_assoc in B'. split; auto. cbn [newflags]. auto.
Qed.
Lemma bs_new_ok d : 0 <= d <= 64 -> binv d (bs_new d) [].
Proof.
  intros Hd. unfold bs_new. destruct (Z.ltb_spec d 0); [lia|]. destruct (Z.ltb_spec 64 d); [lia|]. split; [reflexivity|]. split; [exact Logic.I|]. split; [tauto|]. intros k _. cbn [bmask bpivs In]. rewrite Z.bits_0. split; [discriminate|tauto].
Qed.
(** the mask chooses one representative of each class *)
Lemma bs_mask_zero d b vs w : 0 <= d <= 32 -> binv d b vs -> 0 <= w < 2 ^ d -> (bs_mask b w = false <-> forall q, In q (bpivs b) -> Z.testbit w q = false).
Proof.
  intros Hd (B1 & B2 & B3 & B4) Hw. unfold bs_mask. rewrite negb_false_iff, Z.eqb_eq. split.
  - intros H q Hq. pose proof (ech_in d _ _ B2 q Hq) as Bq. assert (T : Z.testbit (Z.land w (bmask b)) q = false) by (rewrite H; apply Z.bits_0). rewrite Z.land_spec in T. rewrite (proj2 (B4 q Bq) Hq), andb_true_r in T. exact T.
  - intros H. apply Z.bits_inj. intros k. rewrite Z.bits_0, Z.land_spec. destruct (Z.lt_ge_cases k 0); [rewrite !Z.testbit_neg_r by auto; reflexivity|]. destruct (Z.lt_ge_cases k d).
    + destruct (Z.testbit (bmask b) k) eqn:E; [|apply andb_false_r]. rewrite H; auto. apply B4; auto.
    + assert (T : Z.testbit w k = false). { destruct (Z.eq_dec w 0) as [->|]; [apply Z.bits_0|]. apply Z.bits_above_log2; [lia|]. assert (Z.log2 w < d) by (apply Z.log2_lt_pow2; lia). lia. } rewrite T. reflexivity.
Qed.
Lemma eqbits_range d v w : 0 <= d -> 0 <= v < 2 ^ d -> 0 <= w < 2 ^ d -> eqbits d v w -> v = w.
Proof.
  intros Hd Hv Hw H. assert (T : forall z k, 0 <= z < 2 ^ d -> d <= k -> Z.testbit z k = false). { intros z k Hz Hk. destruct (Z.eq_dec z 0) as [->|]; [apply Z.bits_0|]. apply Z.bits_above_log2; [lia|]. assert (Z.log2 z < d) by (apply Z.log2_lt_pow2; lia). lia. }
  apply Z.bits_inj. intros k. destruct (Z.lt_ge_cases k 0); [rewrite !Z.testbit_neg_r by auto; reflexivity|]. destruct (Z.lt_ge_cases k d); [apply H; lia|rewrite !T by auto; reflexivity].
Qed.
Lemma bs_rep d b vs v : 0 <= d <= 32 -> binv d b vs -> exists w, 0 <= w < 2 ^ d /\ bs_mask b w = false /\ spans d vs (Z.lxor v w) /\ forall w', 0 <= w' < 2 ^ d -> bs_mask b w' = false -> spans d vs (Z.lxor v w') -> w' = w.
Proof.
  intros Hd B. destruct (bs_reduce_ok d b vs v Hd B) as (j & v' & _ & Ev & _ & _ & Sd & _). exists (v' mod 2 ^ d). assert (R : 0 <= v' mod 2 ^ d < 2 ^ d) by (apply Z.mod_pos_bound, Z.pow_pos_nonneg; lia).
  assert (Eb : eqbits d (v' mod 2 ^ d) v') by (intros i Hi; apply Z.mod_pow2_bits_low; lia).
  assert (M : bs_mask b (v' mod 2 ^ d) = false). { apply (bs_mask_zero d b vs); auto. intros q Hq. destruct B as (_ & B2 & _). rewrite Z.mod_pow2_bits_low by (pose proof (ech_in d _ _ B2 q Hq); lia). subst v'. apply (red_zero d); auto. }
  assert (Sw : spans d vs (Z.lxor v (v' mod 2 ^ d))). { apply (spans_eq d vs (Z.lxor v v')); auto. apply eqbits_lxor; [intros i _; reflexivity|intros i Hi; symmetry; apply Eb, Hi]. }
  split; auto. split; auto. split; auto. intros w' Hw' M' S'. apply (eqbits_range d); auto; [lia|].
  assert (Q : spans d vs (Z.lxor w' (v' mod 2 ^ d))). { apply (spans_eq d vs (Z.lxor (Z.lxor v w') (Z.lxor v (v' mod 2 ^ d)))); [|apply spans_lxor; auto]. intros i _. rewrite !Z.lxor_spec. destruct (Z.testbit v i), (Z.testbit w' i), (Z.testbit (v' mod 2 ^ d) i); reflexivity. }
  rewrite (bs_mask_zero d b vs) in M, M' by auto. destruct B as (_ & B2 & B3 & _). apply B3 in Q. apply (nopiv_span d _ (bpivs b)) in Q; auto; [|intros q Hq; rewrite Z.lxor_spec, M, M' by auto; reflexivity].
  intros i Hi. specialize (Q i Hi). rewrite Z.lxor_spec, Z.bits_0 in Q. destruct (Z.testbit w' i), (Z.testbit (v' mod 2 ^ d) i); auto; discriminate.
Qed.
