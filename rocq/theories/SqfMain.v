(** The subgroup and the representatives kept by class sqfdiv. *)
From Coq Require Import ZArith Znumtheory Lia List Bool.
From Verif Require Import Base RatModel LinModel LinProofs MArithModel MArithProofs BitModel BitSpec BitProofs SqfModel SqfSpec SqfProofs.
Import ListNotations.
Open Scope Z_scope.
Open Scope res_scope.

(** ** classes *)
Lemma sqclass_refl a : sqclass a a. Proof. exists 1, 1. repeat split; lia. Qed.
Lemma sqclass_sym a b : sqclass a b -> sqclass b a.
Proof. intros (x & y & Hx & Hy & E). exists y, x. auto. Qed.
Lemma sqclass_trans a b c : sqclass a b -> sqclass b c -> sqclass a c.
Proof.
  intros (x & y & Hx & Hy & E) (u & v & Hu & Hv & E'). exists (x * u), (y * v). split; [apply Z.neq_mul_0; auto|]. split; [apply Z.neq_mul_0; auto|].
  replace (a * (x * u) ^ 2) with (a * x ^ 2 * u ^ 2) by ring. rewrite E. replace (b * y ^ 2 * u ^ 2) with (b * u ^ 2 * y ^ 2) by ring. rewrite E'. ring.
Qed.
Lemma sqclass_mul a b a' b' : sqclass a a' -> sqclass b b' -> sqclass (a * b) (a' * b').
Proof.
  intros (x & y & Hx & Hy & E) (u & v & Hu & Hv & E'). exists (x * u), (y * v). split; [apply Z.neq_mul_0; auto|]. split; [apply Z.neq_mul_0; auto|].
  replace (a * b * (x * u) ^ 2) with (a * x ^ 2 * (b * u ^ 2)) by ring. rewrite E, E'. ring.
Qed.
Lemma sqclass_nz a b : sqclass a b -> a <> 0 -> b <> 0.
Proof. intros (x & y & Hx & Hy & E) Ha ->. rewrite Z.mul_0_l in E. apply Z.mul_eq_0 in E. destruct E as [|E]; [contradiction|]. apply Z.pow_eq_0 in E; [contradiction|lia]. Qed.
(** ** changing one bit *)
Lemma sprod_flip supp : forall k m i, 0 <= k -> (i < length supp)%nat -> Z.testbit m (k + Z.of_nat i) = false -> sprod k supp (Z.lxor m (2 ^ (k + Z.of_nat i))) = nth i supp 0 * sprod k supp m.
Proof.
  induction supp as [|s supp IH]; intros k m [|i] Hk Hi Hb; cbn [length sprod nth] in *; try lia; rewrite Z.lxor_spec, Z.pow2_bits_eqb by lia.
  - rewrite Z.add_0_r in *. rewrite Hb, Z.eqb_refl. cbn [xorb]. rewrite Z.mul_1_l. f_equal. apply sprod_ext. intros j Hj. rewrite Z.lxor_spec, Z.pow2_bits_eqb by lia. destruct (Z.eqb_spec k (k + 1 + j)); [lia|apply xorb_false_r].
  - destruct (Z.eqb_spec (k + Z.of_nat (S i)) k); [lia|]. rewrite xorb_false_r. replace (k + Z.of_nat (S i)) with (k + 1 + Z.of_nat i) in * by lia. rewrite IH by (auto; lia). ring.
Qed.
Lemma flip_flip m q : Z.lxor (Z.lxor m (2 ^ q)) (2 ^ q) = m.
Proof. rewrite Z.lxor_assoc, Z.lxor_nilpotent. apply Z.lxor_0_r. Qed.
Lemma flip_bit m q k : 0 <= q -> Z.testbit (Z.lxor m (2 ^ q)) k = xorb (Z.testbit m k) (k =? q).
Proof. intros H. rewrite Z.lxor_spec, Z.pow2_bits_eqb by auto. rewrite (Z.eqb_sym q k). reflexivity. Qed.
Lemma rng_pow2 n q : 0 <= q < Z.of_nat n -> rng n (2 ^ q).
Proof. intros H. split; [apply Z.pow_nonneg; lia|apply Z.pow_lt_mono_r; lia]. Qed.
Lemma rng_0 n : rng n 0. Proof. split; [lia|apply Z.pow_pos_nonneg; lia]. Qed.
(** ** masks and chosen products *)
Section Ps.
Variables (ps : list Z) (dd : Z).
Hypothesis Hps : primes ps.
Notation D := (dm ps).
Notation DEC := (dec ps).
Definition okm (m : Z) : Prop := rng D m /\ forall i, (i < length ps)%nat -> Z.testbit m (Z.of_nat i + 1) = true -> (nth i ps 0 | dd).
Lemma okm_lxor a b : okm a -> okm b -> okm (Z.lxor a b).
Proof.
  intros (A1 & A2) (B1 & B2). split; [apply rng_lxor; auto|]. intros i Hi. rewrite Z.lxor_spec. specialize (A2 i Hi). specialize (B2 i Hi). destruct (Z.testbit a (Z.of_nat i + 1)), (Z.testbit b (Z.of_nat i + 1)); cbn [xorb]; intros Q; auto; discriminate.
Qed.
Lemma okm_0 : okm 0. Proof. split; [apply rng_0|]. intros i _. rewrite Z.bits_0. discriminate. Qed.
Lemma okm_1 : okm 1.
Proof. split; [apply (rng_pow2 D 0); unfold dm; lia|]. intros i _. change (Z.testbit 1) with (Z.testbit (2 ^ 0)). rewrite Z.pow2_bits_eqb by lia. destruct (Z.eqb_spec 0 (Z.of_nat i + 1)); [lia|discriminate]. Qed.
Lemma nzp l : Forall prime l -> Forall (fun p => p <> 0) l.
Proof. apply Forall_impl. intros p H. apply prime_ge in H. lia. Qed.
Lemma cprod_mask l : Forall prime l -> forall k bs, 0 <= k -> exists m, sprod k l m = cprod bs (divprimes l dd) /\ (forall j, Z.testbit m j = true -> k <= j < k + Z.of_nat (length l) /\ (nth (Z.to_nat (j - k)) l 0 | dd)).
Proof.
  induction 1 as [|p l H _ IH]; intros k bs Hk; cbn [sprod divprimes filter length].
  - exists 0. split; [destruct bs; reflexivity|]. intros j. rewrite Z.bits_0. discriminate.
  - apply prime_ge in H. destruct (Z.eqb_spec (dd mod p) 0) as [E|E].
    + set (bs' := tl bs). destruct (IH (k + 1) bs' ltac:(lia)) as (m & E1 & Hm). assert (M0 : Z.testbit m k = false) by (destruct (Z.testbit m k) eqn:T; auto; apply Hm in T; lia).
      assert (X : sprod (k + 1) l (Z.lxor m (2 ^ k)) = sprod (k + 1) l m). { apply sprod_ext. intros i Hi. rewrite flip_bit by lia. destruct (Z.eqb_spec (k + 1 + i) k); [lia|apply xorb_false_r]. }
      assert (R : forall j, Z.testbit m j = true -> k <= j < k + Z.of_nat (S (length l)) /\ (nth (Z.to_nat (j - k)) (p :: l) 0 | dd)). { intros j Hj. apply Hm in Hj. destruct Hj as (J1 & J2). split; [lia|]. replace (Z.to_nat (j - k)) with (S (Z.to_nat (j - (k + 1)))) by lia. exact J2. }
      destruct bs as [|[|] bs]; cbn [cprod tl] in *.
      * exists m. rewrite M0, E1. split; [reflexivity|exact R].
      * exists (Z.lxor m (2 ^ k)). rewrite flip_bit, M0, Z.eqb_refl by lia. cbn [xorb]. split; [rewrite X, E1; reflexivity|]. intros j. rewrite flip_bit by lia. destruct (Z.eqb_spec j k) as [->|n]; [|rewrite xorb_false_r; apply R]. intros _. split; [lia|]. rewrite Z.sub_diag. cbn [nth Z.to_nat]. apply Z.mod_divide; [lia|exact E].
      * exists m. rewrite M0, E1. split; auto.
    + destruct (IH (k + 1) bs ltac:(lia)) as (m & E1 & Hm). assert (M0 : Z.testbit m k = false) by (destruct (Z.testbit m k) eqn:T; auto; apply Hm in T; lia). exists m. rewrite M0, E1. split; [apply Z.mul_1_l|]. intros j Hj. apply Hm in Hj. destruct Hj as (J1 & J2). split; [lia|]. replace (Z.to_nat (j - k)) with (S (Z.to_nat (j - (k + 1)))) by lia. exact J2.
Qed.
Lemma mask_cprod l : Forall prime l -> forall k m, (forall i, (i < length l)%nat -> Z.testbit m (k + Z.of_nat i) = true -> (nth i l 0 | dd)) -> exists bs, length bs = length (divprimes l dd) /\ sprod k l m = cprod bs (divprimes l dd).
Proof.
  induction 1 as [|p l H _ IH]; intros k m Hm; cbn [sprod divprimes filter length] in *; [exists []; auto|]. apply prime_ge in H.
  destruct (IH (k + 1) m) as (bs & L & E). { intros i Hi Hb. apply (Hm (S i) ltac:(lia)). rewrite <- Hb. f_equal. lia. } unfold divprimes in *. destruct (Z.eqb_spec (dd mod p) 0) as [Ed|Ed].
  - exists (Z.testbit m k :: bs). cbn [length cprod]. rewrite L, E. auto.
  - exists bs. split; auto. rewrite E. destruct (Z.testbit m k) eqn:T; [|ring]. exfalso. apply Ed. apply Z.mod_divide; [lia|]. apply (Hm 0%nat ltac:(lia)). rewrite Z.add_0_r. exact T.
Qed.
Lemma okm_cprod m : okm m -> exists bs, length bs = length (-1 :: divprimes ps dd) /\ DEC m = cprod bs (-1 :: divprimes ps dd).
Proof.
  intros (_ & H). destruct (mask_cprod ps (proj1 Hps) 1 m) as (bs & L & E). { intros i Hi Hb. apply H; auto. rewrite <- Hb. f_equal. lia. } exists (Z.testbit m 0 :: bs). cbn [length cprod]. split; [lia|]. unfold dec. cbn [sprod]. change (0 + 1) with 1. rewrite E. reflexivity.
Qed.
Lemma ingroup_okm n : ingroup ps dd n -> exists m, okm m /\ sqclass n (DEC m).
Proof.
  intros (_ & bs & L & C). destruct bs as [|b bs]; [discriminate|]. cbn [cprod] in C. destruct (cprod_mask ps (proj1 Hps) 1 bs ltac:(lia)) as (m & E & Hm). rewrite <- E in C.
  assert (M0 : Z.testbit m 0 = false) by (destruct (Z.testbit m 0) eqn:T; auto; apply Hm in T; lia).
  assert (Om : okm m). { split; [apply rng_bits; intros j Hj; destruct (Z.testbit m j) eqn:T; auto; apply Hm in T; unfold dm in Hj; lia|]. intros i Hi Hb. apply Hm in Hb. replace (Z.to_nat (Z.of_nat i + 1 - 1)) with i in Hb by lia. apply Hb. }
  destruct b.
  - exists (Z.lxor m (2 ^ 0)). split; [apply okm_lxor; auto; apply okm_1|]. pose proof (sprod_flip (-1 :: ps) 0 m 0 ltac:(lia) ltac:(cbn [length]; lia) M0) as Q. change (0 + Z.of_nat 0) with 0 in Q. unfold dec. rewrite Q. cbn [nth sprod]. rewrite M0. change (0 + 1) with 1. rewrite Z.mul_1_l. exact C.
  - exists m. split; auto. unfold dec. cbn [sprod]. rewrite M0. change (0 + 1) with 1. exact C.
Qed.
Lemma dec_class_mul a b : sqclass (DEC a * DEC b) (DEC (Z.lxor a b)).
Proof. destruct (dec_lxor ps Hps a b) as (g & Hg & E). exists 1, g. split; [lia|]. split; auto. rewrite <- E. ring. Qed.
(** ** the reduction of an element *)
Fixpoint one0 (gs qs : list Z) : Prop := match gs, qs with g :: gs, q :: qs => (q = 0 -> g = 1) /\ one0 gs qs | _, _ => True end.
Lemma red_0 gs : forall qs, red gs qs 0 = 0.
Proof. induction gs as [|g gs IH]; intros [|q qs]; cbn [red]; auto. rewrite Z.bits_0. apply IH. Qed.
Lemma div_ok m q : 1 <= q < Z.of_nat D -> div_z (nth (Z.to_nat (q - 1)) ps 0) (DEC m) = Ok (Z.testbit m q).
Proof.
  intros Hq. unfold dm in Hq. destruct (div_z_ok (nth (Z.to_nat (q - 1)) ps 0) (DEC m)) as (b & -> & Hb). f_equal. apply eq_true_iff_eq. rewrite Hb. rewrite (dec_div ps Hps) by lia. replace (Z.of_nat (Z.to_nat (q - 1)) + 1) with q by lia. tauto.
Qed.
Lemma deref_ps i : (i < length ps)%nat -> deref ps i = Ok (nth i ps 0).
Proof. intros H. unfold deref. rewrite (nth_error_nth' ps 0 H). reflexivity. Qed.
Lemma abs_dec m : Z.testbit m 0 = true -> Z.abs (DEC m) = DEC (Z.lxor m 1).
Proof.
  intros H. assert (E : DEC m = -1 * DEC (Z.lxor m 1)). { pose proof (sprod_flip (-1 :: ps) 0 (Z.lxor m (2 ^ 0)) 0 ltac:(lia) ltac:(cbn [length]; lia)) as Q. cbn [nth] in Q. change (0 + Z.of_nat 0) with 0 in Q. rewrite flip_flip in Q. apply Q. rewrite flip_bit, H by lia. reflexivity. }
  pose proof (proj2 (dec_neg ps Hps m) H). lia.
Qed.
Lemma sq_red_ok gs : forall qs m, ech (Z.of_nat D) gs qs -> one0 gs qs -> Forall (rng D) gs -> rng D m -> sq_red ps (map DEC gs) (map (fun q => q - 1) qs) (DEC m) = Ok (DEC (red gs qs m)) /\ rng D (red gs qs m).
Proof.
  induction gs as [|g gs IH]; intros [|q qs] m He Ho Hg Hm; cbn [ech one0 map sq_red red] in *; try contradiction; auto. destruct He as (Hq & _ & _ & He), Ho as (Ho1 & Ho). inversion Hg as [|? ? G1 G2]; subst.
  destruct (Z.eqb_spec (DEC m) 1) as [E|E].
  - apply (dec_one ps Hps) in E; auto. subst m. rewrite Z.bits_0, red_0, (dec_0 ps). split; auto.
  - assert (St : (if q - 1 =? -1 then Ok (Z.abs (DEC m)) else p <- (if q - 1 <? 0 then UB else deref ps (Z.to_nat (q - 1))) ;; t <- div_z p (DEC m) ;; if t : bool then sqfmul (DEC m) (DEC g) else Ok (DEC m)) = Ok (DEC (if Z.testbit m q then Z.lxor m g else m))).
    { destruct (Z.eqb_spec (q - 1) (-1)) as [Eq|Eq].
      - assert (q = 0) by lia. subst q. rewrite (Ho1 eq_refl). destruct (Z.testbit m 0) eqn:T; [rewrite abs_dec by auto; reflexivity|]. f_equal. apply Z.abs_eq. pose proof (dec_neg ps Hps m) as Q. rewrite T in Q. destruct (Z.lt_ge_cases (DEC m) 0) as [L|L]; [apply Q in L; discriminate|lia].
      - destruct (Z.ltb_spec (q - 1) 0); [lia|]. rewrite deref_ps by (unfold dm in Hq; lia). rewrite bind_Ok, div_ok by lia. rewrite bind_Ok. destruct (Z.testbit m q); [apply (dec_mul ps Hps)|reflexivity]. }
    rewrite St, bind_Ok. apply IH; auto. destruct (Z.testbit m q); auto. apply rng_lxor; auto.
Qed.
(** ** the new pivot *)
Lemma sq_piv_ok fm m i : okm m -> (i <= length ps)%nat -> exists r, sq_piv ps (DEC fm) (DEC m) i = Ok r /\
  match r with
  | Some (p, j) => (j < i)%nat /\ p = nth j ps 0 /\ Z.testbit fm (Z.of_nat j + 1) = true /\ Z.testbit m (Z.of_nat j + 1) = true
  | None => forall j, (j < i)%nat -> Z.testbit fm (Z.of_nat j + 1) = true -> Z.testbit m (Z.of_nat j + 1) = false
  end.
Proof.
  intros Hm. induction i as [|i IH]; intros Hi; cbn [sq_piv]; [exists None; split; auto; intros; lia|]. destruct (IH ltac:(lia)) as (r & E & Hr). rewrite deref_ps by lia. rewrite bind_Ok.
  pose proof (div_ok fm (Z.of_nat i + 1)) as Q. replace (Z.to_nat (Z.of_nat i + 1 - 1)) with i in Q by lia. rewrite Q by (unfold dm; lia). rewrite bind_Ok.
  assert (Ext : forall b, (Z.testbit fm (Z.of_nat i + 1) = true -> Z.testbit m (Z.of_nat i + 1) = b) -> b = false -> match r with Some (p, j) => (j < S i)%nat /\ p = nth j ps 0 /\ Z.testbit fm (Z.of_nat j + 1) = true /\ Z.testbit m (Z.of_nat j + 1) = true | None => forall j, (j < S i)%nat -> Z.testbit fm (Z.of_nat j + 1) = true -> Z.testbit m (Z.of_nat j + 1) = false end).
  { intros b Hb ->. destruct r as [(p & j)|]; [destruct Hr as (R1 & R2); split; [lia|exact R2]|]. intros j Hj. destruct (Nat.eq_dec j i) as [->|]; [exact Hb|apply Hr; lia]. }
  destruct (Z.testbit fm (Z.of_nat i + 1)) eqn:T; [|exists r; split; [exact E|apply (Ext false); auto; discriminate]].
  destruct (ev_val (nth i ps 0) (DEC m) (nth_prime ps Hps i ltac:(lia)) (dec_nz ps Hps m)) as (v & -> & (V0 & V1 & V2)). rewrite bind_Ok. pose proof (dec_div ps Hps m i ltac:(lia)) as Dv. destruct (Z.eqb_spec v 0) as [->|Nv].
  - exists r. split; [exact E|]. apply (Ext false); auto. intros _. destruct (Z.testbit m (Z.of_nat i + 1)); auto. exfalso. apply V2. rewrite Z.pow_1_r. apply Dv. reflexivity.
  - eexists; split; [reflexivity|]. split; [lia|]. split; auto. split; auto. apply Dv. apply Z.divide_trans with (nth i ps 0 ^ v); auto. exists (nth i ps 0 ^ (v - 1)). rewrite <- (Z.pow_1_r (nth i ps 0)) at 3. rewrite <- Z.pow_add_r by lia. f_equal. lia.
Qed.
(** number of bits set in the places of a list *)
Fixpoint cnt (k : Z) (l : list Z) (m : Z) : Z := match l with [] => 0 | _ :: l => (if Z.testbit m k then 1 else 0) + cnt (k + 1) l m end.
Lemma cnt_ext l : forall k m m', (forall i, 0 <= i < Z.of_nat (length l) -> Z.testbit m (k + i) = Z.testbit m' (k + i)) -> cnt k l m = cnt k l m'.
Proof.
  induction l as [|s l IH]; intros k m m' H; cbn [cnt length] in *; auto. rewrite (IH (k + 1) m m'); [|intros i Hi; rewrite <- !Z.add_assoc; apply H; lia]. specialize (H 0 ltac:(lia)). rewrite !Z.add_0_r in H. rewrite H. reflexivity.
Qed.
Lemma cnt_flip l : forall k m i, 0 <= k -> (i < length l)%nat -> Z.testbit m (k + Z.of_nat i) = true -> cnt k l (Z.lxor m (2 ^ (k + Z.of_nat i))) = cnt k l m - 1.
Proof.
  induction l as [|s l IH]; intros k m [|i] Hk Hi Hb; cbn [length cnt] in *; try lia; rewrite flip_bit by lia.
  - rewrite Z.add_0_r in *. rewrite Hb, Z.eqb_refl. cbn [xorb]. rewrite (cnt_ext l (k + 1) (Z.lxor m (2 ^ k)) m); [lia|]. intros j Hj. rewrite flip_bit by lia. destruct (Z.eqb_spec (k + 1 + j) k); [lia|apply xorb_false_r].
  - destruct (Z.eqb_spec k (k + Z.of_nat (S i))); [lia|]. rewrite xorb_false_r. replace (k + Z.of_nat (S i)) with (k + 1 + Z.of_nat i) in * by lia. rewrite IH by (auto; lia). lia.
Qed.
Lemma cnt_nonneg l : forall k m, 0 <= cnt k l m <= Z.of_nat (length l).
Proof. induction l as [|s l IH]; intros k m; cbn [cnt length]; [lia|]. specialize (IH (k + 1) m). destruct (Z.testbit m k); lia. Qed.
Lemma cnt_pos l : forall k m i, (i < length l)%nat -> Z.testbit m (k + Z.of_nat i) = true -> 1 <= cnt k l m.
Proof.
  induction l as [|s l IH]; intros k m [|i] Hi Hb; cbn [length cnt] in *; try lia.
  - rewrite Z.add_0_r in Hb. rewrite Hb. pose proof (cnt_nonneg l (k + 1) m). lia.
  - replace (k + Z.of_nat (S i)) with (k + 1 + Z.of_nat i) in Hb by lia. pose proof (IH (k + 1) m i ltac:(lia) Hb). destruct (Z.testbit m k); lia.
Qed.
(** ** the state *)
Lemma okm_xsum gs : Forall okm gs -> forall bs, okm (xsum bs gs).
Proof. induction 1 as [|g gs H _ IH]; intros [|b bs]; cbn [xsum]; try apply okm_0. destruct b; auto. apply okm_lxor; auto. Qed.
Lemma okm_bits m : okm m -> (forall i, (i < length ps)%nat -> Z.testbit m (Z.of_nat i + 1) = false) -> m = 0 \/ m = 1.
Proof.
  intros (R & _) H. destruct (Z.testbit m 0) eqn:T; [right|left].
  - apply (rng_eq D); auto; [apply (rng_pow2 D 0); unfold dm; lia|]. intros k Hk. unfold dm in Hk. destruct (Z.eq_dec k 0) as [->|n]; [rewrite T; reflexivity|]. specialize (H (Z.to_nat (k - 1)) ltac:(lia)). replace (Z.of_nat (Z.to_nat (k - 1)) + 1) with k in H by lia. rewrite H. change (Z.testbit 1) with (Z.testbit (2 ^ 0)). rewrite Z.pow2_bits_eqb by lia. symmetry. apply Z.eqb_neq. lia.
  - apply (rng_eq D); auto; [apply rng_0|]. intros k Hk. unfold dm in Hk. rewrite Z.bits_0. destruct (Z.eq_dec k 0) as [->|n]; auto. specialize (H (Z.to_nat (k - 1)) ltac:(lia)). replace (Z.of_nat (Z.to_nat (k - 1)) + 1) with k in H by lia. exact H.
Qed.
Record sinv (np0 : Z) (posd : bool) (L : list Z) (s : sqfdiv) (gs qs sub : list Z) (fm : Z) : Prop := {
  si_ech : ech (Z.of_nat D) gs qs;
  si_one : one0 gs qs;
  si_okm : Forall okm gs;
  si_gens : sq_gens s = map DEC gs;
  si_pivs : sq_pivs s = map (fun q => q - 1) qs;
  si_subgp : sq_subgp s = map DEC sub;
  si_sub : forall m, In m sub <-> exists bs, length bs = length gs /\ m = xsum bs gs;
  si_nodup : NoDup sub;
  si_len : Z.of_nat (length sub) = 2 ^ Z.of_nat (length gs);
  si_pos : sq_pos s = true <-> In 0 qs;
  si_d : sq_d s = DEC fm;
  si_fm : rng D fm /\ Z.testbit fm 0 = false;
  si_bits : forall i, (i < length ps)%nat -> (Z.testbit fm (Z.of_nat i + 1) = true <-> (nth i ps 0 | dd) /\ ~ In (Z.of_nat i + 1) qs);
  si_np : sq_np s = cnt 1 ps fm;
  si_mg : sq_maxngens s = np0 + 1;
  si_ms : sq_maxnsub s = 2 ^ (np0 + 1);
  si_count : Z.of_nat (length gs) + sq_np s + (if sq_pos s then 0 else 1) = np0 + 1;
  si_factor : sq_factor s = Z.of_nat (length gs) - (if posd then 1 else 0);
  si_span : forall v, spans (Z.of_nat D) gs v <-> spans (Z.of_nat D) L v }.
Lemma mmap_sqfmul e sub : mmap (fun x => sqfmul x (DEC e)) (map DEC sub) = Ok (map DEC (map (fun m => Z.lxor m e) sub)).
Proof. induction sub as [|m sub IH]; cbn [mmap map]; auto. rewrite (dec_mul ps Hps), bind_Ok, IH, bind_Ok. reflexivity. Qed.
Lemma one0_snoc gs : forall qs g q, length gs = length qs -> one0 gs qs -> (q = 0 -> g = 1) -> one0 (gs ++ [g]) (qs ++ [q]).
Proof. induction gs as [|a gs IH]; intros [|b qs] g q L H1 H2; cbn [length app one0] in *; try lia; auto. destruct H1. split; auto. Qed.
Lemma pow2_succ n : 2 ^ Z.of_nat (S n) = 2 * 2 ^ Z.of_nat n.
Proof. rewrite Nat2Z.inj_succ, Z.pow_succ_r by lia. reflexivity. Qed.
(** the parts that do not depend on the kind of pivot *)
Lemma sub_double gs qs sub e : ech (Z.of_nat D) gs qs -> Forall okm gs -> okm e -> e <> 0 -> (forall q, In q qs -> Z.testbit e q = false) ->
  (forall m, In m sub <-> exists bs, length bs = length gs /\ m = xsum bs gs) -> NoDup sub ->
  (forall m, In m (sub ++ map (fun m => Z.lxor m e) sub) <-> exists bs, length bs = length (gs ++ [e]) /\ m = xsum bs (gs ++ [e])) /\ NoDup (sub ++ map (fun m => Z.lxor m e) sub).
Proof.
  intros He Hg Oe Ne Hz Hs Hn. split.
  - intros m. rewrite in_app_iff, in_map_iff, app_length. cbn [length]. split.
    + intros [Hm|(m' & <- & Hm)]; apply Hs in Hm; destruct Hm as (bs & L & ->); [exists (bs ++ [false])|exists (bs ++ [true])]; rewrite app_length; (split; [cbn [length]; lia|]); rewrite xsum_app by auto; cbn [xsum]; rewrite ?Z.lxor_0_r; auto.
    + intros (bs & L & ->). destruct (exists_last (l := bs)) as (bs' & b & ->); [intros ->; cbn in L; lia|]. rewrite app_length in L. cbn [length] in L. rewrite xsum_app by lia. cbn [xsum]. rewrite Z.lxor_0_r. destruct b; [right|left].
      * exists (xsum bs' gs). split; auto. apply Hs. exists bs'. split; auto. lia.
      * rewrite Z.lxor_0_r. apply Hs. exists bs'. split; auto. lia.
  - assert (G : forall (a b : list Z), NoDup a -> NoDup b -> (forall x, In x a -> In x b -> False) -> NoDup (a ++ b)).
    { clear. induction a as [|x a IH]; intros b Ha Hb H; cbn [app]; auto. inversion Ha; subst. constructor; [rewrite in_app_iff; intros [|Q]; auto; apply (H x); auto; left; auto|]. apply IH; auto. intros y Hy. apply H. right; auto. }
    apply G; auto.
    + clear - Hn. induction Hn as [|x l H _ IH]; cbn [map]; constructor; auto. rewrite in_map_iff. intros (y & E & Hy). apply H. replace x with y; auto. apply (f_equal (fun z => Z.lxor z e)) in E. rewrite !Z.lxor_assoc, Z.lxor_nilpotent, !Z.lxor_0_r in E. exact E.
    + intros x Hx Hy. apply in_map_iff in Hy. destruct Hy as (y & E & Hy). apply Hs in Hx. apply Hs in Hy. destruct Hx as (bs & L & Ex), Hy as (cs & L' & Ey).
      assert (Sp : spans (Z.of_nat D) gs e). { destruct (xsum_lxor gs bs cs L L') as (ds & L'' & E'). exists ds. split; auto. rewrite E', <- Ex, <- Ey, <- E. intros i _. rewrite !Z.lxor_spec. destruct (Z.testbit y i), (Z.testbit e i); reflexivity. }
      apply (nopiv_span _ _ qs e He Hz) in Sp. apply Ne. apply (rng_eq D); auto; [apply Oe|apply rng_0].
Qed.
Lemma sq_use_ok np0 posd L s gs qs sub fm ee m : 0 <= np0 -> sinv np0 posd L s gs qs sub fm -> ee <> 0 -> sqclass ee (DEC m) -> okm m ->
  exists s' gs' qs' sub' fm', sq_use ps s ee = Ok s' /\ sinv np0 posd (L ++ [m]) s' gs' qs' sub' fm'.
Proof.
  intros Hnp0 I Hee Hc Om. unfold sq_use. rewrite (sqfred_ok ps Hps m ee Hee Hc), bind_Ok. rewrite (si_gens _ _ _ _ _ _ _ _ I), (si_pivs _ _ _ _ _ _ _ _ I).
  assert (Rg : Forall (rng D) gs) by (apply Forall_impl with (2 := si_okm _ _ _ _ _ _ _ _ I); intros g Q; apply Q).
  destruct (sq_red_ok gs qs m (si_ech _ _ _ _ _ _ _ _ I) (si_one _ _ _ _ _ _ _ _ I) Rg (proj1 Om)) as (-> & Re). rewrite bind_Ok. set (e := red gs qs m) in *.
  destruct (red_span _ _ _ m (si_ech _ _ _ _ _ _ _ _ I)) as (bs & Lb & Eb). fold e in Eb. assert (Oe : okm e) by (rewrite Eb; apply okm_lxor; auto; apply okm_xsum, I).
  assert (Hz : forall q, In q qs -> Z.testbit e q = false) by (apply (red_zero (Z.of_nat D)), I).
  assert (Sh : spans (Z.of_nat D) L (Z.lxor m e)). { apply (si_span _ _ _ _ _ _ _ _ I). exists bs. split; auto. intros i _. rewrite Eb, !Z.lxor_spec. destruct (Z.testbit m i), (Z.testbit (xsum bs gs) i); reflexivity. }
  destruct (Z.eqb_spec (DEC e) 1) as [E1|E1].
  - apply (dec_one ps Hps) in E1; auto. exists s, gs, qs, sub, fm. split; auto. destruct I. constructor; auto. intros v. rewrite si_span0, spans_snoc. rewrite E1, Z.lxor_0_r in Sh. split; [auto|]. intros [|Q]; auto. apply (spans_eq _ L (Z.lxor (Z.lxor v m) m)); [|apply spans_lxor; auto]. intros i _. rewrite !Z.lxor_spec. destruct (Z.testbit v i), (Z.testbit m i); reflexivity.
  - assert (Ne : e <> 0) by (intros Q; apply E1; rewrite Q; apply dec_0).
    destruct (sub_double gs qs sub e (si_ech _ _ _ _ _ _ _ _ I) (si_okm _ _ _ _ _ _ _ _ I) Oe Ne Hz (si_sub _ _ _ _ _ _ _ _ I) (si_nodup _ _ _ _ _ _ _ _ I)) as (S1 & S2).
    assert (Spn : forall v, spans (Z.of_nat D) (gs ++ [e]) v <-> spans (Z.of_nat D) (L ++ [m]) v).
    { intros v. rewrite !spans_snoc, !(si_span _ _ _ _ _ _ _ _ I). assert (Q : spans (Z.of_nat D) L (Z.lxor v e) <-> spans (Z.of_nat D) L (Z.lxor v m)).
      { apply spans_shift. apply (spans_eq _ L (Z.lxor m e)); auto. intros i _. rewrite !Z.lxor_spec. destruct (Z.testbit v i), (Z.testbit e i), (Z.testbit m i); reflexivity. } rewrite Q. tauto. }
    pose proof (ech_len _ _ _ (si_ech _ _ _ _ _ _ _ _ I)) as Lq.
    destruct (sq_piv_ok fm e (length ps) Oe ltac:(lia)) as (r & Er & Hr).
    assert (Dich : (exists p j, r = Some (p, j)) \/ (r = None /\ e = 1 /\ sq_pos s = false)).
    { destruct r as [(p & j)|]; [left; eauto|right]. split; auto. destruct (okm_bits e Oe) as [|E]; [|contradiction|].
      - intros i Hi. destruct (Z.testbit e (Z.of_nat i + 1)) eqn:T; auto. exfalso. assert (Q : Z.testbit fm (Z.of_nat i + 1) = true). { apply (si_bits _ _ _ _ _ _ _ _ I); auto. split; [apply Oe; auto|]. intros Q. apply Hz in Q. congruence. } apply (Hr i Hi) in Q. congruence.
      - split; auto. destruct (sq_pos s) eqn:Ps; auto. apply (si_pos _ _ _ _ _ _ _ _ I) in Ps. apply Hz in Ps. rewrite E in Ps. discriminate. }
    assert (NP : 0 <= sq_np s) by (rewrite (si_np _ _ _ _ _ _ _ _ I); apply cnt_nonneg).
    assert (Room : Z.of_nat (length gs) <= np0).
    { pose proof (si_count _ _ _ _ _ _ _ _ I) as C. destruct Dich as [(p & j & ->)|(_ & _ & P)]; [|rewrite P in C; lia]. destruct Hr as (J & _ & J1 & _). assert (1 <= sq_np s). { rewrite (si_np _ _ _ _ _ _ _ _ I). apply (cnt_pos ps 1 fm j J). rewrite <- J1. f_equal. lia. } destruct (sq_pos s); lia. }
    rewrite (si_mg _ _ _ _ _ _ _ _ I), map_length. destruct (Z.leb_spec (np0 + 1) (Z.of_nat (length gs))); [lia|]. rewrite (si_subgp _ _ _ _ _ _ _ _ I), mmap_sqfmul, bind_Ok.
    assert (Two : 2 * Z.of_nat (length sub) <= 2 ^ (np0 + 1)). { rewrite (si_len _ _ _ _ _ _ _ _ I). rewrite <- Z.pow_succ_r by lia. apply Z.pow_le_mono_r; lia. }
    rewrite (si_ms _ _ _ _ _ _ _ _ I), map_length. destruct (Z.ltb_spec (2 ^ (np0 + 1)) (2 * Z.of_nat (length sub))); [lia|]. rewrite (si_d _ _ _ _ _ _ _ _ I), Er, bind_Ok.
    assert (Ln : Z.of_nat (length (sub ++ map (fun m0 => Z.lxor m0 e) sub)) = 2 ^ Z.of_nat (length (gs ++ [e]))). { rewrite !app_length, map_length. cbn [length]. rewrite Nat.add_1_r, pow2_succ, <- (si_len _ _ _ _ _ _ _ _ I). lia. }
    assert (Og : Forall okm (gs ++ [e])) by (apply Forall_app; split; [apply I|constructor; auto]).
    destruct I. destruct Dich as [(p & j & ->)|(-> & E & P)].
    + destruct Hr as (J & -> & J1 & J2). set (q := Z.of_nat j + 1) in *. assert (Hp : nth j ps 0 <> 0) by (pose proof (prime_ge _ (nth_prime ps Hps j J)); lia).
      assert (Ed : DEC fm = nth j ps 0 * DEC (Z.lxor fm (2 ^ q))). { pose proof (sprod_flip (-1 :: ps) 0 (Z.lxor fm (2 ^ q)) (S j) ltac:(lia) ltac:(cbn [length]; lia)) as Q. cbn [nth] in Q. replace (0 + Z.of_nat (S j)) with q in Q by lia. rewrite flip_flip in Q. apply Q. rewrite flip_bit, J1, Z.eqb_refl by lia. reflexivity. }
      unfold zz_div. destruct (Z.eqb_spec (nth j ps 0) 0); [contradiction|]. rewrite bind_Ok. assert (Eq : DEC fm / nth j ps 0 = DEC (Z.lxor fm (2 ^ q))) by (rewrite Ed, Z.mul_comm; apply Z.div_mul; auto). rewrite Eq.
      assert (Nq : 0 <= q < Z.of_nat D) by (unfold dm, q; lia). assert (Nin : ~ In q qs) by (intros Q; apply Hz in Q; congruence).
      eexists _, (gs ++ [e]), (qs ++ [q]), (sub ++ map (fun m0 => Z.lxor m0 e) sub), (Z.lxor fm (2 ^ q)). split; [reflexivity|].
      constructor; cbn [sq_gens sq_pivs sq_subgp sq_pos sq_d sq_np sq_maxngens sq_maxnsub sq_factor]; auto.
      * apply ech_snoc; auto.
      * apply one0_snoc; auto. unfold q. lia.
      * rewrite map_app. reflexivity.
      * rewrite map_app. cbn [map]. do 3 f_equal. unfold q. lia.
      * rewrite map_app. reflexivity.
      * rewrite si_pos0, in_app_iff. cbn [In]. unfold q. intuition lia.
      * destruct si_fm0 as (F1 & F2). split; [apply rng_lxor; auto; apply rng_pow2; auto|]. rewrite flip_bit, F2 by lia. destruct (Z.eqb_spec 0 q); auto. unfold q in *. lia.
      * intros i Hi. rewrite flip_bit by lia. rewrite in_app_iff. cbn [In]. destruct (Z.eqb_spec (Z.of_nat i + 1) q) as [Ei|Ei].
        -- rewrite Ei, J1. cbn [xorb]. split; [discriminate|]. intros (_ & Q). exfalso. apply Q. auto.
        -- rewrite xorb_false_r, si_bits0 by auto. intuition.
      * rewrite si_np0. pose proof (cnt_flip ps 1 fm j ltac:(lia) J) as Q. replace (1 + Z.of_nat j) with q in Q by (unfold q; lia). rewrite Q; auto.
      * rewrite app_length. cbn [length]. destruct (sq_pos s); lia.
      * rewrite app_length. cbn [length]. lia.
    + rewrite E in *. assert (N1 : DEC 1 <? 0 = true) by (rewrite (dec_m1 ps); reflexivity). rewrite N1, P. cbn [andb negb].
      assert (Nin : ~ In 0 qs) by (intros Q; apply si_pos0 in Q; congruence).
      eexists _, (gs ++ [1]), (qs ++ [0]), (sub ++ map (fun m0 => Z.lxor m0 1) sub), fm. split; [reflexivity|].
      constructor; cbn [sq_gens sq_pivs sq_subgp sq_pos sq_d sq_np sq_maxngens sq_maxnsub sq_factor]; auto.
      * apply ech_snoc; auto. unfold dm. lia.
      * apply one0_snoc; auto.
      * rewrite map_app. reflexivity.
      * rewrite map_app. reflexivity.
      * rewrite map_app. reflexivity.
      * rewrite in_app_iff. cbn [In]. split; auto.
      * intros i Hi. rewrite si_bits0 by auto. rewrite in_app_iff. cbn [In]. intuition lia.
      * rewrite app_length. cbn [length]. rewrite P in si_count0. lia.
      * rewrite app_length. cbn [length]. lia.
Qed.
End Ps.
