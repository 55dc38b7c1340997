(** The state of class sqfdiv: constructor, getdivs, getsupp, and what they give together. *)
From Coq Require Import ZArith Znumtheory Lia List Bool.
From Verif Require Import Base RatModel LinModel LinProofs MArithModel MArithProofs BitModel BitSpec BitProofs SqfModel SqfSpec SqfProofs SqfMain.
Import ListNotations.
Open Scope Z_scope.
Open Scope res_scope.

Lemma mask_exists (P : Z -> Prop) (dec : forall p, {P p} + {~ P p}) l : forall k, 0 <= k -> exists m, forall j, Z.testbit m j = true <-> k <= j < k + Z.of_nat (length l) /\ P (nth (Z.to_nat (j - k)) l 0).
Proof.
  induction l as [|p l IH]; intros k Hk; cbn [length].
  - exists 0. intros j. rewrite Z.bits_0. split; [discriminate|]. intros Q. lia.
  - destruct (IH (k + 1) ltac:(lia)) as (m & Hm).
    assert (R : forall j, j <> k -> (Z.testbit m j = true <-> k <= j < k + Z.of_nat (S (length l)) /\ P (nth (Z.to_nat (j - k)) (p :: l) 0))).
    { intros j Hj. rewrite Hm. split; intros (Q1 & Q2); (split; [lia|]); replace (Z.to_nat (j - k)) with (S (Z.to_nat (j - (k + 1)))) in * by lia; auto. }
    assert (M0 : Z.testbit m k = false) by (destruct (Z.testbit m k) eqn:T; auto; apply Hm in T; lia).
    destruct (dec p) as [d|d].
    + exists (Z.lxor m (2 ^ k)). intros j. rewrite flip_bit by auto. destruct (Z.eqb_spec j k) as [->|n]; [|rewrite xorb_false_r; auto]. rewrite M0, Z.sub_diag. cbn [xorb nth Z.to_nat]. split; auto. intros _. split; [lia|auto].
    + exists m. intros j. destruct (Z.eq_dec j k) as [->|n]; auto. rewrite M0, Z.sub_diag. cbn [nth Z.to_nat]. split; [discriminate|tauto].
Qed.
Lemma new_fold dd l : Forall prime l -> forall k d np m, (forall i, (i < length l)%nat -> (Z.testbit m (k + Z.of_nat i) = true <-> (nth i l 0 | dd))) ->
  mfold (fun '(d, np) p => t <- div_z p dd ;; Ok (if t : bool then (d * p, np + 1) else (d, np))) l (d, np) = Ok (d * sprod k l m, np + cnt k l m) /\ cnt k l m = Z.of_nat (length (divprimes l dd)).
Proof.
  induction 1 as [|p l H _ IH]; intros k d np m Hm; cbn [mfold sprod cnt divprimes filter length] in *; [split; auto; do 2 f_equal; lia|].
  destruct (div_z_ok p dd) as (b & -> & Hb). rewrite bind_Ok. specialize (Hm 0%nat ltac:(lia)) as Q0. cbn [nth] in Q0. rewrite Z.add_0_r in Q0. assert (Eb : b = Z.testbit m k) by (apply eq_true_iff_eq; rewrite Hb, Q0; tauto). subst b.
  assert (H' : forall i, (i < length l)%nat -> (Z.testbit m (k + 1 + Z.of_nat i) = true <-> (nth i l 0 | dd))) by (intros i Hi; specialize (Hm (S i) ltac:(lia)); cbn [nth] in Hm; rewrite <- Hm; replace (k + Z.of_nat (S i)) with (k + 1 + Z.of_nat i) by lia; tauto).
  assert (Eq : (dd mod p =? 0) = Z.testbit m k). { apply eq_true_iff_eq. rewrite Q0, Z.eqb_eq. apply Z.mod_divide. apply prime_ge in H. lia. } unfold divprimes in *. rewrite Eq. rewrite bind_Ok.
  destruct (Z.testbit m k); [destruct (IH (k + 1) (d * p) (np + 1) m H') as (-> & E)|destruct (IH (k + 1) d np m H') as (-> & E)]; cbn [length]; (split; [do 2 f_equal; try ring; lia|lia]).
Qed.
Lemma sq_new_ok ps dd posd (Hps : primes ps) : (length (divprimes ps dd) <= 29)%nat ->
  exists s gs qs sub fm, sq_new dd posd ps = Ok s /\ sinv ps dd (Z.of_nat (length (divprimes ps dd))) posd (if posd then [1] else []) s gs qs sub fm.
Proof.
  intros Hn. destruct (mask_exists (fun p => (p | dd)) (fun p => Zdivide_dec p dd) ps 1 ltac:(lia)) as (m & Hm).
  assert (Bits : forall i, (i < length ps)%nat -> (Z.testbit m (1 + Z.of_nat i) = true <-> (nth i ps 0 | dd))). { intros i Hi. rewrite Hm. replace (Z.to_nat (1 + Z.of_nat i - 1)) with i by lia. split; [tauto|]. intros Q. split; [lia|auto]. }
  assert (M0 : Z.testbit m 0 = false) by (destruct (Z.testbit m 0) eqn:T; auto; apply Hm in T; lia).
  assert (Rm : rng (dm ps) m). { apply rng_bits. intros j Hj. destruct (Z.testbit m j) eqn:T; auto. apply Hm in T. unfold dm in Hj. lia. }
  destruct (new_fold dd ps (proj1 Hps) 1 1 0 m Bits) as (E & C). unfold sq_new. rewrite E, bind_Ok. rewrite !Z.mul_1_l, Z.add_0_l, C.
  set (N := Z.of_nat (length (divprimes ps dd))) in *. assert (HN : 0 <= N <= 29) by lia. unfold shl2. destruct (Z.ltb_spec N 0); [lia|]. destruct (Z.leb_spec 31 N); [lia|]. cbn [orb]. destruct (Z.eqb_spec N 30); [lia|]. rewrite bind_Ok. assert (0 < 2 ^ (N + 1)) by (apply Z.pow_pos_nonneg; lia). destruct (Z.ltb_spec (2 ^ (N + 1)) 0); [lia|].
  assert (Dm : sprod 1 ps m = dec ps m). { unfold dec. cbn [sprod]. rewrite M0. change (0 + 1) with 1. ring. }
  destruct posd.
  - eexists _, [1], [0], [0; 1], m. split; [reflexivity|]. constructor; cbn [sq_gens sq_pivs sq_subgp sq_pos sq_d sq_np sq_maxngens sq_maxnsub sq_factor map length one0 ech]; auto.
    + unfold dm. repeat split; try lia; auto; intros; contradiction.
    + constructor; auto. apply okm_1.
    + rewrite (dec_m1 ps). reflexivity.
    + rewrite (dec_0 ps), (dec_m1 ps). reflexivity.
    + intros v. split.
      * intros [<-|[<-|[]]]; [exists [false]|exists [true]]; auto.
      * intros ([|[|] [|? ?]] & L & ->); cbn [length] in L; try lia; cbn; auto.
    + constructor; [intros [|[]]; lia|]. constructor; auto; constructor.
    + cbn. tauto.
    + intros i Hi. rewrite Z.add_comm, Bits by auto. cbn [In]. intuition lia.
    + lia.
    + intros v. tauto.
  - eexists _, [], [], [0], m. split; [reflexivity|]. constructor; cbn [sq_gens sq_pivs sq_subgp sq_pos sq_d sq_np sq_maxngens sq_maxnsub sq_factor map length one0 ech]; auto.
    + rewrite (dec_0 ps). reflexivity.
    + intros v. split.
      * intros [<-|[]]. exists []. auto.
      * intros ([|? ?] & L & ->); cbn [length] in L; try lia; cbn; auto.
    + constructor; auto; constructor.
    + cbn [In]. split; [discriminate|tauto].
    + intros i Hi. rewrite Z.add_comm, Bits by auto. cbn [In]. tauto.
    + intros v. tauto.
Qed.
(** ** getdivs *)
Definition free (pos : bool) (fm m : Z) : Prop := forall j, Z.testbit m j = true -> (j = 0 /\ pos = false) \/ Z.testbit fm j = true.
Lemma divs_fold ps (Hps : primes ps) pos fm n l : forall pre M, ps = pre ++ l -> NoDup M -> (forall m, In m M <-> rng (S (length pre)) m /\ free pos fm m) -> Z.of_nat (length M) * 2 ^ cnt (1 + Z.of_nat (length pre)) l fm = n ->
  exists M', mfold (fun l p => t <- div_z p (dec ps fm) ;; if t : bool then (if n <? 2 * Z.of_nat (length l) then UB else Ok (l ++ map (Z.mul p) l)) else Ok l) l (map (dec ps) M) = Ok (map (dec ps) M') /\
    NoDup M' /\ (forall m, In m M' <-> rng (dm ps) m /\ free pos fm m) /\ Z.of_nat (length M') = n.
Proof.
  induction l as [|p l IH]; intros pre M E N HM Hl; cbn [mfold cnt] in *.
  - exists M. split; auto. split; auto. rewrite E, app_nil_r in *. split; [auto|]. change (2 ^ 0) with 1 in Hl. lia.
  - set (k := 1 + Z.of_nat (length pre)) in *. assert (Lp : (length pre < length ps)%nat) by (rewrite E, app_length; cbn [length]; lia).
    assert (Ep : p = nth (Z.to_nat (k - 1)) ps 0). { unfold k. replace (Z.to_nat (1 + Z.of_nat (length pre) - 1)) with (length pre) by lia. rewrite E, app_nth2, Nat.sub_diag by lia. reflexivity. }
    assert (Dv : div_z p (dec ps fm) = Ok (Z.testbit fm k)) by (rewrite Ep; apply (div_ok ps Hps fm k); unfold dm, k; lia). rewrite Dv, bind_Ok. assert (E' : ps = (pre ++ [p]) ++ l) by (rewrite <- app_assoc; exact E).
    assert (Lk : Z.of_nat (S (length pre)) = k) by (unfold k; lia). assert (Lk' : length (pre ++ [p]) = S (length pre)) by (rewrite app_length; cbn [length]; lia).
    destruct (Z.testbit fm k) eqn:T.
    + pose proof (cnt_nonneg l (k + 1) fm) as CN. rewrite Z.pow_add_r in Hl by lia. change (2 ^ 1) with 2 in Hl. assert (0 < 2 ^ cnt (k + 1) l fm) by (apply Z.pow_pos_nonneg; lia). rewrite map_length. destruct (Z.ltb_spec n (2 * Z.of_nat (length M))); [nia|]. rewrite bind_Ok.
      assert (Mk : forall m, In m M -> Z.testbit m k = false) by (intros m Hm; apply HM in Hm; apply (rng_high (S (length pre))); [apply Hm|lia]).
      assert (Em : map (Z.mul p) (map (dec ps) M) = map (dec ps) (map (fun m => Z.lxor m (2 ^ k)) M)).
      { rewrite !map_map. apply map_ext_in. intros m Hm. pose proof (sprod_flip (-1 :: ps) 0 m (S (length pre)) ltac:(lia) ltac:(cbn [length]; lia)) as Q. rewrite Lk in Q. change (0 + k) with k in Q. cbn [nth] in Q. unfold dec. rewrite Q by auto. f_equal. rewrite Ep. f_equal. unfold k. lia. }
      rewrite Em, <- map_app. apply (IH (pre ++ [p])); auto.
      * assert (G : forall (a b : list Z), NoDup a -> NoDup b -> (forall x, In x a -> In x b -> False) -> NoDup (a ++ b)).
        { clear. induction a as [|x a IH]; intros b Ha Hb H; cbn [app]; auto. inversion Ha; subst. constructor; [rewrite in_app_iff; intros [|Q]; auto; apply (H x); auto; left; auto|]. apply IH; auto. intros y Hy. apply H. right; auto. }
        apply G; auto.
        -- clear - N. induction N as [|x l0 H _ IH]; cbn [map]; constructor; auto. rewrite in_map_iff. intros (y & E & Hy). apply H. replace x with y; auto. apply (f_equal (fun z => Z.lxor z (2 ^ k))) in E. rewrite !flip_flip in E. exact E.
        -- intros x Hx Hy. apply in_map_iff in Hy. destruct Hy as (y & <- & Hy). apply Mk in Hx. apply Mk in Hy. rewrite flip_bit, Hy, Z.eqb_refl in Hx by lia. discriminate.
      * intros m. rewrite in_app_iff, in_map_iff, Lk'. rewrite HM. assert (Up : forall v, rng (S (length pre)) v -> rng (S (S (length pre))) v) by (intros v (V1 & V2); split; auto; rewrite pow2_succ; lia). split.
        -- intros [(R & F)|(v & <- & Hv)]; [auto|]. apply HM in Hv. destruct Hv as (R & F). split; [apply rng_lxor; auto; apply rng_pow2; lia|]. intros j. rewrite flip_bit by lia. destruct (Z.eqb_spec j k) as [->|n']; [auto|]. rewrite xorb_false_r. apply F.
        -- intros (R & F). destruct (Z.testbit m k) eqn:Tm.
           ++ right. exists (Z.lxor m (2 ^ k)). split; [apply flip_flip|]. apply HM. split.
              ** apply rng_bits. intros j Hj. rewrite flip_bit by lia. destruct (Z.eqb_spec j k) as [->|n']; [rewrite Tm; auto|]. rewrite xorb_false_r. apply (rng_high (S (S (length pre)))); auto. lia.
              ** intros j. rewrite flip_bit by lia. destruct (Z.eqb_spec j k) as [->|n']; [rewrite Tm; discriminate|]. rewrite xorb_false_r. apply F.
           ++ left. split; auto. apply rng_bits. intros j Hj. destruct (Z.eq_dec j k) as [->|n']; auto. apply (rng_high (S (S (length pre)))); auto. lia.
      * rewrite app_length, map_length, Lk'. replace (1 + Z.of_nat (S (length pre))) with (k + 1) by lia. nia.
    + rewrite bind_Ok. apply (IH (pre ++ [p])); auto.
      * intros m. rewrite HM, Lk'. split.
        -- intros ((V1 & V2) & F). split; auto. split; auto. rewrite pow2_succ. lia.
        -- intros (R & F). split; auto. apply rng_bits. intros j Hj. destruct (Z.eq_dec j k) as [->|n'].
           ++ destruct (Z.testbit m k) eqn:Tm; auto. apply F in Tm. destruct Tm as [Q|Q]; [lia|congruence].
           ++ apply (rng_high (S (S (length pre)))); auto. lia.
      * rewrite Lk'. replace (1 + Z.of_nat (S (length pre))) with (k + 1) by lia. exact Hl.
Qed.
Lemma sq_divs_ok ps dd (Hps : primes ps) np0 posd L s gs qs sub fm : np0 <= 29 -> sinv ps dd np0 posd L s gs qs sub fm ->
  exists M, sq_divs ps s = Ok (map (dec ps) M) /\ NoDup M /\ (forall m, In m M <-> rng (dm ps) m /\ free (sq_pos s) fm m) /\ Z.of_nat (length M) = 2 ^ (np0 + 1 - Z.of_nat (length gs)).
Proof.
  intros Hn I. pose proof (si_count _ _ _ _ _ _ _ _ _ _ I) as C. pose proof (si_np _ _ _ _ _ _ _ _ _ _ I) as C'. pose proof (cnt_nonneg ps 1 fm) as C2. destruct (si_fm _ _ _ _ _ _ _ _ _ _ I) as (F1 & F2).
  assert (HN : 0 <= sq_np s <= 30) by (destruct (sq_pos s); lia). unfold sq_divs, shl1. destruct (Z.ltb_spec (sq_np s) 0); [lia|]. destruct (Z.leb_spec 32 (sq_np s)); [lia|]. cbn [orb]. destruct (Z.eqb_spec (sq_np s) 31) as [?|N31]; [lia|]. rewrite bind_Ok.
  assert (0 < 2 ^ sq_np s) by (apply Z.pow_pos_nonneg; lia). destruct (Z.ltb_spec (2 ^ sq_np s) 0); [lia|]. rewrite (si_d _ _ _ _ _ _ _ _ _ _ I).
  set (n := if sq_pos s then 2 ^ sq_np s else 2 ^ sq_np s * 2).
  assert (M0 : exists M, (if sq_pos s then [1] else [1; -1]) = map (dec ps) M /\ NoDup M /\ (forall m, In m M <-> rng 1 m /\ free (sq_pos s) fm m) /\ Z.of_nat (length M) * 2 ^ cnt 1 ps fm = n).
  { assert (R1 : forall m, rng 1 m <-> m = 0 \/ m = 1) by (intros m; unfold rng; change (2 ^ Z.of_nat 1) with 2; lia). assert (T1 : forall j, Z.testbit 1 j = true -> j = 0). { intros j. change (Z.testbit 1) with (Z.testbit (2 ^ 0)). rewrite Z.pow2_bits_eqb by lia. intros Q. apply Z.eqb_eq in Q. auto. }
    destruct (sq_pos s); [exists [0]|exists [0; 1]]; cbn [map]; rewrite ?(dec_0 ps), ?(dec_m1 ps).
    - split; auto. split; [constructor; auto; constructor|]. split; [|cbn [length]; unfold n; rewrite C'; lia]. intros m. rewrite R1. cbn [In]. split.
      + intros [<-|[]]. split; auto. intros j. rewrite Z.bits_0. discriminate.
      + intros ([->| ->] & F); auto. specialize (F 0 eq_refl). destruct F as [(_ & Q)|Q]; congruence.
    - split; auto. split; [constructor; [intros [|[]]; lia|constructor; auto; constructor]|]. split; [|cbn [length]; unfold n; rewrite C'; lia]. intros m. rewrite R1. cbn [In]. split.
      + intros [<-|[<-|[]]]; (split; auto); intros j; [rewrite Z.bits_0; discriminate|]. intros Q. left. split; auto.
      + intros ([->| ->] & _); auto. }
  destruct M0 as (M & -> & N & HM & HL). destruct (divs_fold ps Hps (sq_pos s) fm n ps [] M eq_refl N HM HL) as (M' & E & N' & HM' & HL'). rewrite E, bind_Ok. exists M'. rewrite map_length. replace (Z.to_nat n - length M')%nat with 0%nat by lia. cbn [repeat]. rewrite app_nil_r. split; auto. split; auto. split; auto. rewrite HL'. unfold n. destruct (sq_pos s).
  - f_equal. lia.
  - replace (np0 + 1 - Z.of_nat (length gs)) with (sq_np s + 1) by lia. rewrite Z.pow_add_r by lia. reflexivity.
Qed.

(** ** all together *)
Section All.
Variables (ps : list Z) (dd : Z).
Hypothesis Hps : primes ps.
Notation DEC := (dec ps).
Notation D := (Z.of_nat (dm ps)).
Lemma use_all np0 posd : 0 <= np0 -> forall es ms L s gs qs sub fm, Forall2 (fun e m => e <> 0 /\ sqclass e (DEC m) /\ okm ps dd m) es ms -> sinv ps dd np0 posd L s gs qs sub fm ->
  exists s' gs' qs' sub' fm', mfold (sq_use ps) es s = Ok s' /\ sinv ps dd np0 posd (L ++ ms) s' gs' qs' sub' fm'.
Proof.
  intros Hn. induction es as [|e es IH]; intros ms L s gs qs sub fm F I; inversion F as [|? m ? ms' (H1 & H2 & H3) F']; subst; cbn [mfold].
  - rewrite app_nil_r. exists s, gs, qs, sub, fm. auto.
  - destruct (sq_use_ok ps dd Hps np0 posd L s gs qs sub fm e m Hn I H1 H2 H3) as (s1 & gs1 & qs1 & sub1 & fm1 & -> & I1). rewrite bind_Ok. destruct (IH ms' (L ++ [m]) s1 gs1 qs1 sub1 fm1 F' I1) as (s2 & gs2 & qs2 & sub2 & fm2 & -> & I2). exists s2, gs2, qs2, sub2, fm2. split; auto. rewrite <- app_assoc in I2. exact I2.
Qed.
Lemma cprod_class es ms : Forall2 (fun e m => sqclass e (DEC m)) es ms -> forall bs, sqclass (cprod bs es) (DEC (xsum bs ms)).
Proof.
  induction 1 as [|e m es ms H _ IH]; intros [|b bs]; cbn [cprod xsum]; try (rewrite (dec_0 ps); apply sqclass_refl). destruct b.
  - apply sqclass_trans with (DEC m * DEC (xsum bs ms)); [apply sqclass_mul; auto|apply dec_class_mul; auto].
  - rewrite Z.mul_1_l. apply IH.
Qed.
Lemma dec_class_iff a b : sqclass (DEC a) (DEC b) <-> eqbits D a b.
Proof. split; [apply (dec_class ps Hps)|]. intros E. rewrite (dec_ext ps a b E). apply sqclass_refl. Qed.
Lemma sgen_spans es ms n m : Forall2 (fun e m => sqclass e (DEC m)) es ms -> sqclass n (DEC m) -> (sgen es n <-> spans D ms m).
Proof.
  intros F Hn. assert (Ln : length es = length ms) by (clear - F; induction F; cbn [length]; auto). unfold sgen, spans. rewrite Ln. assert (G : forall bs, sqclass n (cprod bs es) <-> eqbits D (xsum bs ms) m).
  { intros bs. pose proof (cprod_class es ms F bs) as C. rewrite <- dec_class_iff. split; intros Q.
    - apply sqclass_trans with (cprod bs es); [apply sqclass_sym; auto|]. apply sqclass_trans with n; [apply sqclass_sym; auto|auto].
    - apply sqclass_trans with (DEC m); auto. apply sqclass_trans with (DEC (xsum bs ms)); [apply sqclass_sym; auto|apply sqclass_sym; auto]. }
  split; intros (bs & L & Q); exists bs; (split; [auto|]); apply G; auto.
Qed.
Lemma free_okm np0 posd L s gs qs sub fm m : sinv ps dd np0 posd L s gs qs sub fm -> okm ps dd m -> (forall q, In q qs -> Z.testbit m q = false) -> free (sq_pos s) fm m.
Proof.
  intros I (R & Ok1) Hz j T. destruct (Z.lt_ge_cases j 0); [rewrite Z.testbit_neg_r in T by auto; discriminate|]. destruct (Z.lt_ge_cases j D) as [L1|L1]; [|rewrite (rng_high (dm ps)) in T; auto; discriminate].
  destruct (Z.eq_dec j 0) as [->|n0].
  - left. split; auto. destruct (sq_pos s) eqn:P; auto. apply (si_pos _ _ _ _ _ _ _ _ _ _ I) in P. apply Hz in P. congruence.
  - right. unfold dm in L1. assert (Ej : j = Z.of_nat (Z.to_nat (j - 1)) + 1) by lia. rewrite Ej. apply (si_bits _ _ _ _ _ _ _ _ _ _ I); [lia|]. split; [apply Ok1; [lia|rewrite <- Ej; auto]|]. rewrite <- Ej. intros Q. apply Hz in Q. congruence.
Qed.
Lemma free_zero np0 posd L s gs qs sub fm m : sinv ps dd np0 posd L s gs qs sub fm -> free (sq_pos s) fm m -> forall q, In q qs -> Z.testbit m q = false.
Proof.
  intros I F q Hq. pose proof (ech_in _ _ _ (si_ech _ _ _ _ _ _ _ _ _ _ I) q Hq) as Rq. unfold dm in Rq. destruct (Z.testbit m q) eqn:T; auto. exfalso. apply F in T. destruct T as [(-> & P)|T].
  - apply (si_pos _ _ _ _ _ _ _ _ _ _ I) in Hq. congruence.
  - destruct (Z.eq_dec q 0) as [->|n0]; [pose proof (proj2 (si_fm _ _ _ _ _ _ _ _ _ _ I)); congruence|]. assert (Ej : q = Z.of_nat (Z.to_nat (q - 1)) + 1) by lia. rewrite Ej in T. apply (si_bits _ _ _ _ _ _ _ _ _ _ I) in T; [|lia]. rewrite <- Ej in T. tauto.
Qed.
Lemma free_ok np0 posd L s gs qs sub fm m : sinv ps dd np0 posd L s gs qs sub fm -> rng (dm ps) m -> free (sq_pos s) fm m -> okm ps dd m.
Proof.
  intros I R F. split; auto. intros i Hi T. apply F in T. destruct T as [(Q & _)|T]; [lia|]. apply (si_bits _ _ _ _ _ _ _ _ _ _ I) in T; auto. apply T.
Qed.
Lemma map_dec_nodup M : Forall (rng (dm ps)) M -> NoDup M -> NoDup (map DEC M).
Proof.
  intros F N. revert F. induction N as [|x l H _ IH]; intros F; cbn [map]; constructor; inversion F as [|? ? F1 F2]; subst; auto. rewrite in_map_iff. intros (y & E & Hy). apply H. rewrite Forall_forall in F2. replace x with y; auto. apply (dec_inj ps Hps); auto.
Qed.
Theorem sq_main posd es : (length (divprimes ps dd) <= 29)%nat -> Forall (ingroup ps dd) es -> exists s l,
  sq_run dd posd ps es = Ok s /\ sq_divs ps s = Ok l /\ NoDup (sq_subgp s) /\ NoDup l /\
  (forall x, In x (sq_subgp s) \/ In x l -> exists bs, length bs = length (-1 :: divprimes ps dd) /\ x = cprod bs (-1 :: divprimes ps dd)) /\
  (forall n, ingroup ps dd n -> ((exists x, In x (sq_subgp s) /\ sqclass n x) <-> sgen ((if posd then [-1] else []) ++ es) n)) /\
  (forall n, ingroup ps dd n -> exists x y, In x (sq_subgp s) /\ In y l /\ sqclass n (x * y) /\
     forall x' y', In x' (sq_subgp s) -> In y' l -> sqclass n (x' * y') -> x' = x /\ y' = y) /\
  Z.of_nat (length (sq_subgp s)) = 2 ^ (sq_factor s + if posd then 1 else 0) /\ (length (sq_subgp s) * length l = 2 ^ S (length (divprimes ps dd)))%nat.
Proof.
  intros Hn Hes. set (np0 := Z.of_nat (length (divprimes ps dd))). destruct (sq_new_ok ps dd posd Hps Hn) as (s0 & gs0 & qs0 & sub0 & fm0 & E0 & I0). fold np0 in I0.
  assert (Fm : exists ms, Forall2 (fun e m => e <> 0 /\ sqclass e (DEC m) /\ okm ps dd m) es ms). { clear - Hes Hps. induction Hes as [|e es H _ (ms & IH)]; [exists []; constructor|]. destruct (ingroup_okm ps dd Hps e H) as (m & O & C). exists (m :: ms). constructor; auto. split; auto. apply H. }
  destruct Fm as (ms & Fm). destruct (use_all np0 posd ltac:(lia) es ms _ s0 gs0 qs0 sub0 fm0 Fm I0) as (s & gs & qs & sub & fm & E & I). destruct (sq_divs_ok ps dd Hps np0 posd _ s gs qs sub fm ltac:(lia) I) as (M & EM & NM & HM & LM).
  assert (Osub : forall m, In m sub -> okm ps dd m). { intros m Hm. apply (si_sub _ _ _ _ _ _ _ _ _ _ I) in Hm. destruct Hm as (bs & _ & ->). apply okm_xsum, I. }
  assert (OM : forall m, In m M -> okm ps dd m) by (intros m Hm; apply HM in Hm; eapply free_ok; [apply I|apply Hm|apply Hm]).
  pose proof (si_subgp _ _ _ _ _ _ _ _ _ _ I) as Es. exists s, (map DEC M). unfold sq_run. rewrite E0, bind_Ok. rewrite Es. split; auto. split; auto.
  split; [apply map_dec_nodup; [apply Forall_forall; intros m Hm; apply (Osub m Hm)|apply I]|]. split; [apply map_dec_nodup; auto; apply Forall_forall; intros m Hm; apply (OM m Hm)|].
  split. { intros x [Hx|Hx]; apply in_map_iff in Hx; destruct Hx as (m & <- & Hm); apply okm_cprod; auto. }
  assert (Spn : forall m, okm ps dd m -> (In m sub <-> spans D gs m)).
  { intros m Hm. rewrite (si_sub _ _ _ _ _ _ _ _ _ _ I). split; intros (bs & L & Q); exists bs; (split; [auto|]); [rewrite Q; intros i _; reflexivity|]. apply (rng_eq (dm ps)); [apply Hm| |intros i Hi; symmetry; apply Q, Hi]. apply (okm_xsum ps dd gs (si_okm _ _ _ _ _ _ _ _ _ _ I) bs). }
  split.
  - intros n Hg. destruct (ingroup_okm ps dd Hps n Hg) as (m & Om & Cm).
    assert (F : Forall2 (fun e m => sqclass e (DEC m)) ((if posd then [-1] else []) ++ es) ((if posd then [1] else []) ++ ms)).
    { apply Forall2_app; [|clear - Fm; induction Fm as [|? ? ? ? (_ & Q & _) _ IH]; constructor; auto]. destruct posd; constructor; [rewrite (dec_m1 ps); apply sqclass_refl|constructor]. }
    rewrite (sgen_spans _ _ n m F Cm), <- (si_span _ _ _ _ _ _ _ _ _ _ I), <- (Spn m Om). split.
    + intros (x & Hx & C). apply in_map_iff in Hx. destruct Hx as (m' & <- & Hm'). replace m with m'; auto. symmetry. apply (rng_eq (dm ps)); [apply Om|apply (Osub m' Hm')|]. apply (dec_class ps Hps). apply sqclass_trans with n; auto. apply sqclass_sym; auto.
    + intros Hm. exists (DEC m). split; [apply in_map; auto|auto].
  - split.
    + intros n Hg. destruct (ingroup_okm ps dd Hps n Hg) as (m & Om & Cm). destruct (red_span _ _ _ m (si_ech _ _ _ _ _ _ _ _ _ _ I)) as (bs & Lb & Eb). set (e := red gs qs m) in *.
      assert (Hz : forall q, In q qs -> Z.testbit e q = false) by (apply (red_zero D), I). assert (Oe : okm ps dd e) by (rewrite Eb; apply okm_lxor; auto; apply okm_xsum, I).
      assert (Pm : forall u v, sqclass n (DEC u * DEC v) <-> eqbits D m (Z.lxor u v)). { intros u v. rewrite <- dec_class_iff. pose proof (dec_class_mul ps Hps u v) as Q. split; intros K; [apply sqclass_trans with n; [apply sqclass_sym; auto|]; apply sqclass_trans with (DEC u * DEC v); auto|]. apply sqclass_trans with (DEC m); auto. apply sqclass_trans with (DEC (Z.lxor u v)); auto. apply sqclass_sym; auto. }
      exists (DEC (xsum bs gs)), (DEC e). split; [apply in_map; apply (si_sub _ _ _ _ _ _ _ _ _ _ I); exists bs; auto|]. split; [apply in_map, HM; split; [apply Oe|eapply free_okm; eauto]|]. split.
      * apply Pm. intros i _. rewrite Eb, !Z.lxor_spec. destruct (Z.testbit (xsum bs gs) i), (Z.testbit m i); reflexivity.
      * intros x' y' Hx Hy C. apply in_map_iff in Hx. apply in_map_iff in Hy. destruct Hx as (u & <- & Hu), Hy as (v & <- & Hv). apply Pm in C. pose proof Hu as Hu'. apply (si_sub _ _ _ _ _ _ _ _ _ _ I) in Hu'. destruct Hu' as (cs & Lc & ->).
        assert (Rm : m = Z.lxor (xsum cs gs) v) by (apply (rng_eq (dm ps)); auto; [apply Om|apply rng_lxor; [apply (Osub _ Hu)|apply (OM _ Hv)]]).
        assert (Hzv : forall q, In q qs -> Z.testbit v q = false) by (apply HM in Hv; eapply free_zero; [apply I|apply Hv]).
        assert (Ev : v = e).
        { destruct (xsum_lxor gs bs cs Lb Lc) as (ds & Ld & Ed). assert (Sp : spans D gs (Z.lxor v e)). { exists ds. split; auto. intros i _. rewrite Ed, Eb, Rm, !Z.lxor_spec. destruct (Z.testbit (xsum bs gs) i), (Z.testbit (xsum cs gs) i), (Z.testbit v i); reflexivity. }
          apply (nopiv_span _ _ qs _ (si_ech _ _ _ _ _ _ _ _ _ _ I)) in Sp; [|intros q Hq; rewrite Z.lxor_spec, Hz, Hzv by auto; reflexivity].
          apply (rng_eq (dm ps)); [apply (OM _ Hv)|apply Oe|]. intros i Hi. specialize (Sp i Hi). rewrite Z.lxor_spec, Z.bits_0 in Sp. destruct (Z.testbit v i), (Z.testbit e i); auto; discriminate. }
        rewrite Ev. split; auto. f_equal. rewrite Ev, Eb in Rm. apply Z.bits_inj. intros i. apply (f_equal (fun z => Z.testbit z i)) in Rm. rewrite !Z.lxor_spec in Rm. destruct (Z.testbit (xsum bs gs) i), (Z.testbit (xsum cs gs) i), (Z.testbit m i); auto; discriminate.
    + rewrite !map_length. split; [rewrite (si_len _ _ _ _ _ _ _ _ _ _ I), (si_factor _ _ _ _ _ _ _ _ _ _ I); f_equal; destruct posd; lia|].
      pose proof (si_count _ _ _ _ _ _ _ _ _ _ I) as C. pose proof (si_np _ _ _ _ _ _ _ _ _ _ I) as C'. pose proof (cnt_nonneg ps 1 fm) as C2. apply Nat2Z.inj. rewrite Nat2Z.inj_mul, LM, (si_len _ _ _ _ _ _ _ _ _ _ I), <- Z.pow_add_r by (destruct (sq_pos s); lia). rewrite Nat2Z.inj_pow. f_equal. lia.
Qed.
(** getsupp *)
Lemma supp_main posd es s : (length (divprimes ps dd) <= 29)%nat -> Forall (ingroup ps dd) es -> sq_run dd posd ps es = Ok s -> exists l sp,
  sq_divs ps s = Ok l /\ sq_supp ps s false = Ok sp /\ (forall n, In n l <-> exists bs, length bs = length sp /\ n = cprod bs sp) /\
  NoDup sp /\ incl sp (-1 :: divprimes ps dd) /\ sq_supp ps s true = Ok (-1 :: divprimes ps (sq_d s)) /\ sp = (if sq_pos s then [] else [-1]) ++ divprimes ps (sq_d s).
Proof.
  intros Hn Hes ER. destruct (sq_new_ok ps dd posd Hps Hn) as (s0 & gs0 & qs0 & sub0 & fm0 & E0 & I0). set (np0 := Z.of_nat (length (divprimes ps dd))) in *.
  assert (Fm : exists ms, Forall2 (fun e m => e <> 0 /\ sqclass e (DEC m) /\ okm ps dd m) es ms). { clear - Hes Hps. induction Hes as [|e es H _ (ms & IH)]; [exists []; constructor|]. destruct (ingroup_okm ps dd Hps e H) as (m & O & C). exists (m :: ms). constructor; auto. split; auto. apply H. }
  destruct Fm as (ms & Fm). destruct (use_all np0 posd ltac:(lia) es ms _ s0 gs0 qs0 sub0 fm0 Fm I0) as (s' & gs & qs & sub & fm & E & I). unfold sq_run in ER. rewrite E0, bind_Ok, E in ER. injection ER as ->. destruct (sq_divs_ok ps dd Hps np0 posd _ s gs qs sub fm ltac:(lia) I) as (M & EM & NM & HM & LM).
  set (sp := (if sq_pos s then [] else [-1]) ++ divprimes ps (sq_d s)).
  assert (Fo : forall l a, Forall prime l -> mfold (fun l p => t <- div_z p (sq_d s) ;; Ok (if t : bool then l ++ [p] else l)) l a = Ok (a ++ divprimes l (sq_d s))).
  { induction l as [|p l IH]; intros a F; cbn [mfold divprimes filter]; [rewrite app_nil_r; auto|]. inversion F as [|? ? Pp F']; subst. destruct (div_z_ok p (sq_d s)) as (b & -> & Hb). rewrite !bind_Ok. assert (Eq : (sq_d s mod p =? 0) = b). { apply eq_true_iff_eq. rewrite Hb, Z.eqb_eq. apply Z.mod_divide. apply prime_ge in Pp. lia. } rewrite Eq. fold (divprimes l (sq_d s)). destruct b; rewrite IH; auto. rewrite <- app_assoc. reflexivity. }
  exists (map DEC M), sp. split; auto. split. { unfold sq_supp. rewrite Fo by apply Hps. unfold sp. destruct (sq_pos s); reflexivity. }
  pose proof (si_d _ _ _ _ _ _ _ _ _ _ I) as Ed. destruct (si_fm _ _ _ _ _ _ _ _ _ _ I) as (F1 & F2).
  assert (Bd : forall i, (i < length ps)%nat -> ((nth i ps 0 | sq_d s) <-> Z.testbit fm (Z.of_nat i + 1) = true)) by (intros i Hi; rewrite Ed; apply (dec_div ps Hps); auto).
  split; [|split; [|split]].
  - intros n. rewrite in_map_iff. split.
    + intros (m & <- & Hm). apply HM in Hm. destruct Hm as (R & F). destruct (mask_cprod (sq_d s) ps (proj1 Hps) 1 m) as (bs & L & Eb). { intros i Hi T. apply Bd; auto. rewrite Z.add_comm in T. apply F in T. destruct T as [|T]; [lia|auto]. }
      assert (Ex : DEC m = (if Z.testbit m 0 then -1 else 1) * cprod bs (divprimes ps (sq_d s))) by (unfold dec; cbn [sprod]; change (0 + 1) with 1; rewrite Eb; reflexivity). unfold sp. destruct (sq_pos s) eqn:P.
      * exists bs. split; auto. rewrite Ex. destruct (Z.testbit m 0) eqn:T; [|cbn [app]; ring]. apply F in T. destruct T as [(_ & Q)|Q]; congruence.
      * exists (Z.testbit m 0 :: bs). cbn [app length cprod]. auto.
    + intros (bs & L & ->). unfold sp in *. set (bs' := if sq_pos s then bs else tl bs). destruct (cprod_mask (sq_d s) ps (proj1 Hps) 1 bs' ltac:(lia)) as (m & Em & Hm).
      assert (M0 : Z.testbit m 0 = false) by (destruct (Z.testbit m 0) eqn:T; auto; apply Hm in T; lia).
      assert (Fr : rng (dm ps) m /\ free (sq_pos s) fm m). { split; [apply rng_bits; intros j Hj; destruct (Z.testbit m j) eqn:T; auto; apply Hm in T; unfold dm in Hj; lia|]. intros j Hj. right. apply Hm in Hj. destruct Hj as (J1 & J2). apply Bd in J2; [|lia]. rewrite <- J2. f_equal. lia. }
      assert (Ex : DEC m = cprod bs' (divprimes ps (sq_d s))) by (unfold dec; cbn [sprod]; rewrite M0; change (0 + 1) with 1; rewrite Em; ring). destruct (sq_pos s) eqn:P.
      * exists m. split; auto. apply HM. auto.
      * cbn [app length] in L. destruct bs as [|b bs]; [discriminate|]. cbn [tl] in bs'. cbn [app cprod]. destruct b.
        -- exists (Z.lxor m (2 ^ 0)). split.
           ++ pose proof (sprod_flip (-1 :: ps) 0 m 0 ltac:(lia) ltac:(cbn [length]; lia) M0) as Q. change (0 + Z.of_nat 0) with 0 in Q. unfold dec in *. rewrite Q, Ex. reflexivity.
           ++ apply HM. split; [apply rng_lxor; [apply Fr|apply rng_pow2; unfold dm; lia]|]. intros j. rewrite flip_bit by lia. destruct (Z.eqb_spec j 0) as [->|n0]; [auto|]. rewrite xorb_false_r. apply Fr.
        -- exists m. split; [rewrite Ex; unfold bs'; ring|]. apply HM. auto.
  - assert (N1 : NoDup (divprimes ps (sq_d s))) by (apply NoDup_filter, Hps). unfold sp. destruct (sq_pos s); auto. constructor; auto. intros Q. apply filter_In in Q. destruct Q as (Q & _). destruct Hps as (F & _). rewrite Forall_forall in F. apply F, prime_ge in Q. lia.
  - intros x Hx. unfold sp in Hx. apply in_app_iff in Hx. destruct Hx as [Hx|Hx]; [destruct (sq_pos s); [contradiction|destruct Hx as [<-|[]]; left; auto]|]. right. apply filter_In in Hx. apply filter_In. destruct Hx as (Hx & Dx). split; auto. apply Z.eqb_eq in Dx. apply Z.eqb_eq. pose proof Hx as Hx'. apply (In_nth _ _ 0) in Hx'. destruct Hx' as (i & Hi & Ei). assert (x <> 0) by (destruct Hps as (F & _); rewrite Forall_forall in F; apply F, prime_ge in Hx; lia). apply Z.mod_divide in Dx; auto. apply Z.mod_divide; auto. rewrite <- Ei in *. apply Bd in Dx; auto. apply (si_bits _ _ _ _ _ _ _ _ _ _ I) in Dx; auto. apply Dx.
  - split; auto. unfold sq_supp. rewrite Fo by apply Hps. rewrite orb_true_r. reflexivity.
Qed.
End All.
