(** Lifting of sparse matrices from F_p to Q *)
From Coq Require Import ZArith Znumtheory Lia List Bool.
From Verif Require Import Base ArithModel ArithProofs GaussProofs LinModel LinSpec LinProofs LinAlg LinElim LinKer EchModel SvecModel SvecSpec SvecProofs SmatModel SmatProofs SmatOps SmatMat SmatArith SmatModp LiftModel.
Import ListNotations.
Open Scope Z_scope.
Open Scope res_scope.

(** what modrat must give *)
Definition modrat_right (S : scal) (p : Z) : Prop := forall x, Z.abs x < p -> exists ok a b, s_modrat S x p = Ok (ok, a, b) /\
  (a <> 0 \/ b <> 0) /\ (p | a - x * b) /\ (forall u v, (p | u - x * v) -> u <> 0 \/ v <> 0 -> a * a + b * b <= u * u + v * v) /\
  (ok = true <-> 2 * a * a <= p /\ 2 * b * b <= p).
Record liftok (S : scal) (p : Z) : Prop := {
  lo_abs : forall x, Z.abs x <= p -> s_abs S x = Ok (Z.abs x);
  lo_lcm : forall a b, 0 < a < p -> 0 < b < p -> Z.lcm a b < p -> s_lcm S a b = Ok (Z.lcm a b);
  lo_rat : modrat_right S p }.

Lemma lcm_val a b : 0 < a -> 0 < b -> a * (b / Z.gcd a b) = Z.lcm a b.
Proof.
  intros Ha Hb. unfold Z.lcm. rewrite Z.abs_eq; [reflexivity|]. apply Z.mul_nonneg_nonneg; [lia|]. apply Z.div_pos; [lia|]. pose proof (Z.gcd_nonneg a b). assert (Z.gcd a b <> 0) by (intros Q; apply Z.gcd_eq_0_l in Q; lia). lia.
Qed.
Lemma modrat_p_bound p x a b : 0 < p -> (forall u v, (p | u - x * v) -> u <> 0 \/ v <> 0 -> a * a + b * b <= u * u + v * v) -> Z.abs a <= p /\ Z.abs b <= p.
Proof.
  intros Hp H. specialize (H p 0). rewrite Z.mul_0_r, Z.sub_0_r in H. specialize (H (Z.divide_refl p) ltac:(left; lia)). clear - H Hp. split; apply Z.square_le_simpl_nonneg; try lia; rewrite Z.abs_square; nia.
Qed.
Lemma gcd_quot a b : 0 < a -> 0 < b -> 0 < Z.gcd a b /\ Z.gcd a b <= a /\ 0 <= b / Z.gcd a b <= b /\ Z.quot b (Z.gcd a b) = b / Z.gcd a b.
Proof.
  intros Ha Hb. assert (G : 0 < Z.gcd a b) by (pose proof (Z.gcd_nonneg a b); assert (Z.gcd a b <> 0) by (intros Q; apply Z.gcd_eq_0_l in Q; lia); lia).
  split; [auto|]. split; [apply Z.divide_pos_le; [auto|apply Z.gcd_divide_l]|]. split; [split; [apply Z.div_pos; lia|apply Z.div_le_upper_bound; [auto|nia]]|]. apply Z.quot_div_nonneg; lia.
Qed.
Lemma liftok_long p : 1 < p -> p <= 2147483648 -> liftok sc_long p.
Proof.
  intros H1 H2. constructor.
  - intros x Hx. cbn [s_abs sc_long]. unfold abs64. apply c64_ok. unfold in64, min64, max64. lia.
  - intros a b Ha Hb L. unfold s_lcm. cbn [s_gcd s_div s_mul sc_long]. rewrite gcd_long_ok by (unfold sym64, max64; lia). rewrite bind_Ok. destruct (gcd_quot a b ltac:(lia) ltac:(lia)) as (G1 & G2 & G3 & G4).
    destruct (Z.eqb_spec (Z.gcd a b) 0); [lia|]. unfold quot64. destruct (Z.eqb_spec (Z.gcd a b) 0); [lia|]. rewrite G4. unfold mul64. rewrite c64_ok, bind_Ok by (unfold in64, min64, max64; lia). rewrite lcm_val by lia. apply c64_ok. pose proof (Z.lcm_nonneg a b). unfold in64, min64, max64. lia.
  - intros x Hx. cbn [s_modrat sc_long]. apply modrat_long_ok; [unfold sym64, max64; lia|lia].
Qed.
Lemma liftok_int p : 1 < p -> 2 * p <= max32 -> liftok sc_int p.
Proof.
  intros H1 H2. unfold max32 in H2. constructor.
  - intros x Hx. cbn [s_abs sc_int]. apply c32_ok. unfold in32, min32, max32. lia.
  - intros a b Ha Hb L. unfold s_lcm. cbn [s_gcd s_div s_mul sc_int]. rewrite gcd_long_ok by (unfold sym64, max64; lia). rewrite bind_Ok. destruct (gcd_quot a b ltac:(lia) ltac:(lia)) as (G1 & G2 & G3 & G4).
    rewrite c32_ok, bind_Ok by (unfold in32, min32, max32; lia).
    destruct (Z.eqb_spec (Z.gcd a b) 0); [lia|]. unfold quot32. destruct (Z.eqb_spec (Z.gcd a b) 0); [lia|]. rewrite G4. unfold mul32. rewrite c32_ok, bind_Ok by (unfold in32, min32, max32; lia). rewrite lcm_val by lia. apply c32_ok. pose proof (Z.lcm_nonneg a b). unfold in32, min32, max32. lia.
  - intros x Hx. cbn [s_modrat sc_int]. destruct (modrat_long_ok x p) as (ok & a & b & -> & Q); [unfold sym64, max64; lia|lia|]. rewrite bind_Ok. exists ok, a, b. split; [|exact Q].
    destruct Q as (_ & _ & Q & _). destruct (modrat_p_bound p x a b ltac:(lia) Q). rewrite !wrap32_id by (unfold in32, min32, max32; lia). reflexivity.
Qed.

(** a fraction for the residue x *)
Definition frac (p x n d : Z) : Prop := 0 < d /\ 2 * n * n < p /\ 2 * d * d <= p /\ (p | n - x * d).

(** the same with weak inequalities *)
Definition wfrac (p x n d : Z) : Prop := d <> 0 /\ 2 * n * n <= p /\ 2 * d * d <= p /\ (p | n - x * d).

Section L.
Variables (S : scal) (D : Z -> Prop) (p : Z).
Hypothesis M : modok S D p.
Hypothesis LO : liftok S p.
Let lim := Z.sqrt (Z.shiftr p 1).
Lemma pp : 1 < p. Proof. pose proof (prime_ge_2 _ (mo_prime _ _ _ M)). lia. Qed.
Lemma lim_spec x : Z.abs x < lim -> 2 * x * x < p.
Proof.
  intros H. pose proof pp. unfold lim in H. rewrite Z.shiftr_div_pow2 in H by lia. change (2 ^ 1) with 2 in H. assert (0 <= p / 2) by (apply Z.div_pos; lia). pose proof (Z.sqrt_spec (p / 2) H1) as [A _]. assert (2 * (p / 2) <= p) by (apply Z.mul_div_le; lia).
  set (l := Z.sqrt (p / 2)) in *. rewrite <- Z.mul_assoc, <- (Z.abs_square x). clear - A H H2. nia.
Qed.
Lemma primitive x a b : (a <> 0 \/ b <> 0) -> (p | a - x * b) -> (forall u v, (p | u - x * v) -> u <> 0 \/ v <> 0 -> a * a + b * b <= u * u + v * v) -> 2 * a * a <= p -> 2 * b * b <= p -> b <> 0 -> Z.gcd a b = 1.
Proof.
  intros NZ HD MI Ha Hb B0. pose proof pp as P. set (g := Z.gcd a b). assert (G0 : 0 < g) by (pose proof (Z.gcd_nonneg a b); assert (g <> 0) by (intros Q; apply Z.gcd_eq_0_r in Q; auto); unfold g in *; lia).
  destruct (Z.gcd_divide_l a b) as (a' & Ea). destruct (Z.gcd_divide_r a b) as (b' & Eb). fold g in Ea, Eb.
  assert (Gp : g < p). { assert (g <= Z.abs b) by (apply Z.divide_pos_le; [lia|]; apply Z.divide_abs_r, Z.gcd_divide_r). rewrite <- Z.mul_assoc, <- (Z.abs_square b) in Hb. clear - H Hb P. nia. }
  assert (HD' : (p | a' - x * b')).
  { assert (Q : (p | g * (a' - x * b'))) by (replace (g * (a' - x * b')) with (a - x * b) by (rewrite Ea, Eb; ring); exact HD). apply prime_mult in Q; [|apply (mo_prime _ _ _ M)]. destruct Q as [Q|Q]; [|exact Q]. apply Z.divide_pos_le in Q; lia. }
  assert (B1 : b' <> 0) by (intros ->; lia). specialize (MI a' b' HD' (or_intror B1)). rewrite Ea, Eb in MI. assert (0 < b' * b') by (clear - B1; nia). pose proof (Z.square_nonneg a').
  destruct (Z.eq_dec g 1); [auto|]. exfalso. assert (2 <= g) by lia. clear - MI H H0 H1.
  replace (a' * g * (a' * g) + b' * g * (b' * g)) with ((a' * a' + b' * b') * (g * g)) in MI by ring. set (q := a' * a' + b' * b') in *. assert (4 <= g * g) by nia. assert (0 < q) by (unfold q; lia). clearbody q. nia.
Qed.
Lemma lift_dd_ok DD : 0 < DD < p -> forall vs dd, 0 < dd -> (dd | DD) -> (forall v, In v vs -> Z.abs v < p /\ exists n d, frac p v n d /\ (d | DD)) ->
  exists dd', lift_dd S p lim vs dd = Ok (true, dd') /\ 0 < dd' /\ (dd | dd') /\ (dd' | DD) /\ forall v, In v vs -> forall n d, frac p v n d -> (d | n * dd').
Proof.
  intros HDD. induction vs as [|v vs IH]; intros dd D0 D1 H; cbn [lift_dd].
  - exists dd. split; [reflexivity|]. split; [auto|]. split; [apply Z.divide_refl|]. split; [auto|]. intros v [].
  - pose proof pp as P. destruct (H v (or_introl eq_refl)) as (Hv & n0 & d0 & F0 & D2). rewrite (lo_abs _ _ LO) by lia. rewrite bind_Ok. destruct (Z.ltb_spec (Z.abs v) lim) as [Q|Q].
    + destruct (IH dd D0 D1) as (dd' & E & A1 & A2 & A3 & A4); [intros; apply H; now right|]. exists dd'. split; [exact E|]. split; [auto|]. split; [auto|]. split; [auto|]. intros w [<-|Hw]; [|now apply A4].
      intros n d (B1 & B2 & B3 & B4). apply lim_spec in Q. assert (n = v * d); [|subst n; exists (v * dd'); ring]. 
      destruct B4 as (k & Hk). assert (k = 0); [|subst k; lia].
      assert (X1 : 2 * Z.abs v * Z.abs v < p) by (rewrite <- Z.mul_assoc, Z.abs_square; lia). assert (X2 : 2 * Z.abs n * Z.abs n < p) by (rewrite <- Z.mul_assoc, Z.abs_square; lia).
      assert (X3 : 2 * (Z.abs v * d) < p) by (clear - X1 B3 B1; nia). assert (X4 : 2 * Z.abs n < p \/ p <= 2 * Z.abs n /\ Z.abs n <= 1) by (clear - X2; nia).
      assert (X5 : Z.abs (n - v * d) < p). { assert (Z.abs (v * d) = Z.abs v * d) by (rewrite Z.abs_mul; lia). destruct X4 as [X4|[X4 X5]]; [lia|]. assert (Z.abs n = 1) by lia. rewrite H1 in X2. lia. }
      rewrite Hk in X5. rewrite Z.abs_mul in X5. clear - X5 P. nia.
    + destruct (lo_rat _ _ LO v Hv) as (ok & a & b & -> & NZ & HD & MI & OK). rewrite bind_Ok.
      assert (CP : forall n d, frac p v n d -> (2 * a * a <= p /\ 2 * b * b <= p) /\ n * b = a * d).
      { intros n d (B1 & B2 & B3 & B4). assert (NZ' : n <> 0 \/ d <> 0) by lia. destruct (modrat_complete v p a b n d ltac:(lia) NZ HD B4 NZ') as (K1 & K2); auto; try lia. }
      destruct (CP n0 d0 F0) as (K & E0). destruct K as (Ka & Kb). assert (B0 : b <> 0) by (apply (modrat_den_nonzero v p a b); auto; lia).
      pose proof (primitive v a b NZ HD MI Ka Kb B0) as G1. assert (Bd : (Z.abs b | d0)). { apply Z.divide_abs_l. apply (Z.gauss b a d0); [rewrite <- E0; apply Z.divide_factor_r|now rewrite Z.gcd_comm]. }
      assert (Bp : Z.abs b < p) by (rewrite <- Z.mul_assoc, <- (Z.abs_square b) in Kb; clear - Kb P; nia).
      rewrite (lo_abs _ _ LO) by lia. rewrite bind_Ok. assert (LD : (Z.lcm (Z.abs b) dd | DD)) by (apply Z.lcm_least; [eapply Z.divide_trans; eauto|auto]).
      assert (Ldd : dd <= DD) by (apply Z.divide_pos_le; [lia|auto]). assert (Lle : Z.lcm (Z.abs b) dd <= DD) by (apply Z.divide_pos_le; [lia|auto]).
      rewrite (lo_lcm _ _ LO) by lia. rewrite bind_Ok. replace ok with true by (symmetry; apply OK; auto).
      assert (LP : 0 < Z.lcm (Z.abs b) dd). { pose proof (Z.lcm_nonneg (Z.abs b) dd). assert (Z.lcm (Z.abs b) dd <> 0) by (rewrite Z.lcm_eq_0; lia). lia. }
      destruct (IH (Z.lcm (Z.abs b) dd) LP LD) as (dd' & E & A1 & A2 & A3 & A4); [intros; apply H; now right|]. exists dd'. split; [exact E|]. split; [auto|].
      split; [eapply Z.divide_trans; [apply Z.divide_lcm_r|exact A2]|]. split; [auto|]. intros w [<-|Hw]; [|now apply A4].
      intros n d F. destruct (CP n d F) as (_ & En). assert (BB : (b | dd')) by (apply Z.divide_abs_l; eapply Z.divide_trans; [apply Z.divide_lcm_l|exact A2]). destruct BB as (k & ->). exists (a * k). transitivity (n * b * k); [ring|rewrite En; ring].
Qed.

Lemma vals_ok m nr nc e : rep True m nr nc e -> exists vs, sm_vals m = Ok vs /\ forall v, In v vs -> exists i j, (i < nr)%nat /\ (j < nc)%nat /\ v = e i j.
Proof.
  intros (A & B & C). unfold sm_vals.
  assert (G : forall rs, (forall r, In r rs -> exists i l, (i < nr)%nat /\ rowok r l /\ lrow True nc (e i) l) -> exists ls, mmap rread rs = Ok ls /\ forall v, In v (concat (map (map snd) ls)) -> exists i j, (i < nr)%nat /\ (j < nc)%nat /\ v = e i j).
  { induction rs as [|r rs IH]; intros H; cbn [mmap]; [exists []; split; [reflexivity|intros v []]|]. destruct (H r (or_introl eq_refl)) as (i & l & Hi & R1 & R2). rewrite (rread_ok r l R1), bind_Ok.
    destruct IH as (ls & -> & G); [intros; apply H; now right|]. rewrite bind_Ok. eexists. split; [reflexivity|]. intros v Hv. cbn [map concat] in Hv. apply in_app_or in Hv as [Hv|Hv]; [|now apply G].
    apply in_map_iff in Hv as ((k & x) & Ex & Hx). cbn [snd] in Ex. subst x. destruct (lrow_In _ _ _ _ _ _ R2 Hx) as (K & E & _). exists i, (Z.to_nat (k - 1)). split; [auto|]. split; [lia|auto]. }
  destruct (G (srows m)) as (ls & -> & H).
  - intros r Hr. apply (In_nth _ _ row0) in Hr as (i & Hi & <-). destruct (C i ltac:(lia)) as (l & R1 & R2). exists i, l. split; [lia|auto].
  - rewrite bind_Ok. eexists. split; [reflexivity|exact H].
Qed.
Lemma vals_all m nr nc e vs : rep True m nr nc e -> sm_vals m = Ok vs -> forall i j, (i < nr)%nat -> (j < nc)%nat -> e i j <> 0 -> In (e i j) vs.
Proof.
  intros (A & B & C) E i j Hi Hj N. unfold sm_vals in E. destruct (mmap rread (srows m)) as [ls| | |] eqn:Q; try discriminate. cbn [bind] in E. injection E as <-.
  destruct (C i Hi) as (l & R1 & R2). assert (In l ls).
  { assert (Hr : In (nth i (srows m) row0) (srows m)) by (apply nth_In; lia). pose proof (rread_ok _ _ R1) as R3. revert ls Q Hr R3. generalize (nth i (srows m) row0). generalize (srows m). clear. induction l0 as [|r rs IH]; intros s ls Q Hr R3; [destruct Hr|]. cbn [mmap] in Q.
    destruct (rread r) as [l1| | |] eqn:Q1; try discriminate. cbn [bind] in Q. destruct (mmap rread rs) as [ls1| | |] eqn:Q2; try discriminate. cbn [bind] in Q. injection Q as <-. destruct Hr as [->|Hr]; [left; congruence|right; now apply (IH s)]. }
  apply in_concat. exists (map snd l). split; [now apply in_map|]. destruct R2 as (S1 & S2 & S3 & S4). specialize (S4 j Hj). unfold mval in S4. destruct (mget l (Z.of_nat j + 1)) as [x|] eqn:G; [|congruence]. apply mget_In in G. apply in_map_iff. exists (Z.of_nat j + 1, x). auto.
Qed.
Lemma maxabs_ok m nr nc e : rep True m nr nc e -> (forall i j, (i < nr)%nat -> (j < nc)%nat -> Z.abs (e i j) < p) -> exists a, sm_maxabs S m = Ok a /\ forall i j, (i < nr)%nat -> (j < nc)%nat -> Z.abs (e i j) <= a.
Proof.
  intros R H. destruct (vals_ok m nr nc e R) as (vs & E & V). pose proof (vals_all m nr nc e vs R E) as VA. unfold sm_vals in E. destruct (mmap rread (srows m)) as [ls| | |] eqn:Q; try discriminate. cbn [bind] in E. injection E as <-.
  assert (B : forall v, In v (concat (map (map snd) ls)) -> Z.abs v < p) by (intros v Hv; destruct (V v Hv) as (i & j & Hi & Hj & ->); auto). clear V. unfold sm_maxabs.
  assert (G1 : forall l c, (forall v, In v (map snd l) -> Z.abs v < p) -> exists a, mfold (fun c (kx : Z * Z) => let '(_, x) := kx in a <- s_abs S x ;; Ok (Z.max c a)) l c = Ok a /\ c <= a /\ forall v, In v (map snd l) -> Z.abs v <= a).
  { induction l as [|(k & x) l IH]; intros c Hl; cbn [mfold]; [exists c; split; [reflexivity|]; split; [lia|intros v []]|]. rewrite (lo_abs _ _ LO) by (specialize (Hl x (or_introl eq_refl)); lia). rewrite !bind_Ok.
    destruct (IH (Z.max c (Z.abs x))) as (a & -> & A1 & A2); [intros; apply Hl; now right|]. exists a. split; [reflexivity|]. split; [lia|]. intros v [<-|Hv]; [cbn [snd]; lia|auto]. }
  assert (G2 : forall rs ls c, mmap rread rs = Ok ls -> (forall v, In v (concat (map (map snd) ls)) -> Z.abs v < p) -> exists a, mfold (fun c r => l <- rread r ;; mfold (fun c (kx : Z * Z) => let '(_, x) := kx in a <- s_abs S x ;; Ok (Z.max c a)) l c) rs c = Ok a /\ c <= a /\ forall v, In v (concat (map (map snd) ls)) -> Z.abs v <= a).
  { clear - G1. induction rs as [|r rs IH]; intros ls c Q B; cbn [mmap mfold] in *; [injection Q as <-; exists c; split; [reflexivity|]; split; [lia|intros v []]|].
    destruct (rread r) as [l| | |]; try discriminate. cbn [bind] in Q. destruct (mmap rread rs) as [ls1| | |]; try discriminate. cbn [bind] in Q. injection Q as <-. cbn [map concat] in B. rewrite bind_Ok.
    destruct (G1 l c) as (a1 & -> & A1 & A2); [intros; apply B, in_or_app; now left|]. rewrite bind_Ok. destruct (IH ls1 a1 eq_refl) as (a & -> & A3 & A4); [intros; apply B, in_or_app; now right|]. exists a. split; [reflexivity|]. split; [lia|].
    cbn [map concat]. intros v Hv. apply in_app_or in Hv as [Hv|Hv]; [specialize (A2 v Hv); lia|auto]. }
  destruct (G2 (srows m) ls 0 Q B) as (a & -> & A1 & A2). exists a. split; [reflexivity|]. intros i j Hi Hj. destruct (Z.eq_dec (e i j) 0) as [->|N]; [cbn; lia|]. apply A2, VA; auto.
Qed.

Lemma mult_small s : Z.abs (s * p) < p -> s * p = 0.
Proof. intros H. pose proof pp. rewrite Z.abs_mul, (Z.abs_eq p) in H by lia. assert (Z.abs s < 1) by (clear - H H0; nia). assert (s = 0) by lia. subst s. ring. Qed.
(** the whole lift *)
Lemma liftmat_ok (c c0 : Prop) mm m0 nr nc nr0 nc0 e e0 (num den : nat -> nat -> Z) DD :
  rep c mm nr nc e -> rep c0 m0 nr0 nc0 e0 -> (forall i j, (i < nr)%nat -> (j < nc)%nat -> D (e i j)) -> 0 < DD < p ->
  (forall i j, (i < nr)%nat -> (j < nc)%nat -> frac p (e i j) (num i j) (den i j) /\ (den i j | DD) /\ 2 * Z.abs (num i j) * (DD / den i j) < p) ->
  exists m dd e', sm_liftmat S mm p m0 = Ok (true, m, dd) /\ 0 < dd /\ (dd | DD) /\ rep True m nr nc e' /\ forall i j, (i < nr)%nat -> (j < nc)%nat -> e' i j * den i j = num i j * dd.
Proof.
  intros R R0 HD HDD HF. pose proof pp as P. unfold sm_liftmat. fold lim. destruct (sm_assign_ok c c0 false m0 mm nr nc nr0 nc0 e e0 R0 R ltac:(discriminate)) as (m1 & -> & R1). rewrite bind_Ok.
  destruct (sm_reduce_ok S D p M c m1 nr nc e R1 HD) as (m2 & -> & (e2 & R2 & H2)). rewrite bind_Ok.
  assert (HF2 : forall i j, (i < nr)%nat -> (j < nc)%nat -> frac p (e2 i j) (num i j) (den i j)).
  { intros i j Hi Hj. destruct (HF i j Hi Hj) as ((F1 & F2 & F3 & F4) & _). destruct (H2 i j Hi Hj) as (C2 & _). split; [auto|]. split; [auto|]. split; [auto|]. destruct F4 as (k & Hk). destruct C2 as (k2 & Hk2). exists (k - k2 * den i j). rewrite Z.mul_sub_distr_r, <- Hk. replace (k2 * den i j * p) with (k2 * p * den i j) by ring. rewrite <- Hk2. ring. }
  destruct (maxabs_ok m2 nr nc e2 R2) as (ma & -> & MA); [intros; now apply H2|]. rewrite bind_Ok.
  assert (SM : forall i j, (i < nr)%nat -> (j < nc)%nat -> Z.abs (e2 i j) < lim -> e2 i j * den i j = num i j).
  { intros i j Hi Hj Q. destruct (lift_dd_ok 1 ltac:(lia) [e2 i j] 1 ltac:(lia) (Z.divide_refl 1)) as (dd' & _ & A1 & _ & A3 & A4).
    - intros v [<-|[]]. split; [now apply H2|]. exists (e2 i j), 1. apply lim_spec in Q. split; [|apply Z.divide_refl]. split; [lia|]. split; [lia|]. split; [lia|]. exists 0. ring.
    - assert (dd' = 1) by (apply Z.divide_1_r_nonneg; [lia|auto]). subst dd'. destruct (A4 (e2 i j) (or_introl eq_refl) (num i j) (den i j) (HF2 i j Hi Hj)) as (k & Hk). rewrite Z.mul_1_r in Hk.
      destruct (HF2 i j Hi Hj) as (B1 & B2 & B3 & (t & B4)). apply lim_spec in Q. assert (k = e2 i j); [|subst k; lia].
      assert (X : (p | (k - e2 i j) * den i j)) by (exists t; rewrite <- B4, Hk; ring). apply prime_mult in X; [|apply (mo_prime _ _ _ M)].
      assert (DP : den i j < p) by (clear - B1 B3 P; nia). destruct X as [X|X]; [|apply Z.divide_pos_le in X; lia].
      assert (KB : 2 * k * k < p). { rewrite Hk in B2. clear - B1 B2. assert (0 <= k * k) by nia. assert (1 <= den i j * den i j) by nia. nia. }
      destruct X as (s & Hs). destruct (Z.eq_dec s 0) as [->|Ns]; [lia|exfalso]. assert (Y : p <= Z.abs (k - e2 i j)) by (rewrite Hs, Z.abs_mul; clear - Ns P; nia). 
      assert (Y2 : (k - e2 i j) * (k - e2 i j) < 2 * p) by (clear - KB Q; nia). assert (Y3 : Z.abs k * Z.abs k + Z.abs (e2 i j) * Z.abs (e2 i j) < p) by (rewrite !Z.abs_square; lia).
      assert (Y4 : Z.abs (k - e2 i j) <= Z.abs k + Z.abs (e2 i j)) by lia. assert (Y5 : p <= Z.abs k + Z.abs (e2 i j)) by lia. rewrite <- Z.abs_square in Y2. assert (p = 1 \/ p * p < 2 * p) by (right; clear - Y Y2 P; nia). clear - H P. nia. }
  destruct (Z.ltb_spec ma lim) as [Q|Q].
  - exists m2, 1, e2. split; [reflexivity|]. split; [lia|]. split; [apply Z.divide_1_l|]. split; [exact R2|]. intros i j Hi Hj. rewrite Z.mul_1_r. apply SM; auto. specialize (MA i j Hi Hj). lia.
  - destruct (vals_ok m2 nr nc e2 R2) as (vs & EV & V). rewrite EV, bind_Ok. destruct (lift_dd_ok DD HDD vs 1 ltac:(lia) (Z.divide_1_l DD)) as (dd & -> & A1 & _ & A3 & A4).
    { intros v Hv. destruct (V v Hv) as (i & j & Hi & Hj & ->). split; [now apply H2|]. exists (num i j), (den i j). split; [auto|]. now apply HF. }
    rewrite bind_Ok. assert (Ldd : dd <= DD) by (apply Z.divide_pos_le; [lia|auto]). rewrite (lo_abs _ _ LO) by lia. rewrite bind_Ok, (Z.abs_eq dd) by lia.
    pose proof (sm_map_ok True True True (fun x => y <- s_xmm S dd x p ;; s_mod S y p) (fun x y => Z.abs x < p /\ cong p y (dd * x) /\ cent p y) m2 nr nc e2 R2) as Q0.
    destruct (oc_tot True _ _ (Q0 ltac:(split; [lia|split; [rewrite Z.mul_0_r; apply cong_refl|unfold cent; lia]]) ltac:(auto)
      ltac:(intros _ x (Hx & Hc & _); apply cong_sym in Hc; destruct Hc as (k & Hk); rewrite Z.sub_0_r in Hk; assert (X : (p | dd * x)) by (exists k; lia); apply prime_mult in X; [|apply (mo_prime _ _ _ M)]; destruct X as [X|X]; [apply Z.divide_pos_le in X; lia|]; destruct X as (s & ->); now apply mult_small)
      ltac:(intros i l k x Hi Hr Hl Hx; apply oc_of; destruct (lrow_In _ _ _ _ _ _ Hl Hx) as (K & -> & _); assert (B : Z.abs (e2 i (Z.to_nat (k - 1))) < p) by (apply H2; lia); destruct (mo_xmm _ _ _ M dd _ ltac:(lia) B) as (y & -> & Cy & By); rewrite bind_Ok; destruct (mo_mod _ _ _ M y) as (z & -> & Cz & Bz); [apply (mo_D _ _ _ M); lia|]; exists z; split; [reflexivity|]; split; [exact B|]; split; [eapply cong_trans; eauto|exact Bz])) Logic.I) as (m3 & -> & R3 & H3).
    rewrite bind_Ok. exists m3, dd, (dread m3). split; [reflexivity|]. split; [auto|]. split; [auto|]. split; [exact R3|]. intros i j Hi Hj. destruct (H3 i j Hi Hj) as (_ & C3 & B3). destruct (HF i j Hi Hj) as (_ & F2 & F3). pose proof (HF2 i j Hi Hj) as F1.
    assert (DV : (den i j | num i j * dd)).
    { destruct (Z.eq_dec (e2 i j) 0) as [Z0|N0]; [|apply (A4 (e2 i j)); [eapply vals_all; eauto|exact F1]]. destruct F1 as (B1 & B2 & B4 & (t & B5)). rewrite Z0 in B5. assert (t = 0 \/ t <> 0) as [->|Nt] by lia; [exists 0; lia|]. exfalso. assert (p <= Z.abs (num i j)) by (replace (num i j) with (t * p) by lia; rewrite Z.abs_mul; clear - Nt P; nia). rewrite <- Z.mul_assoc, <- (Z.abs_square (num i j)) in B2. clear - B2 H P. nia. }
    destruct DV as (N & HN). rewrite HN. f_equal. destruct F1 as (B1 & B2 & B4 & (t & B5)). apply (cent_unique p); [lia|exact B3| |].
    + destruct F2 as (q & Hq). rewrite Hq, Z_div_mult_full in F3 by lia. destruct A3 as (q2 & Hq2). assert (0 < q2) by (clear - Hq2 HDD A1; nia). assert (Z.abs N <= Z.abs (num i j) * q).
      { apply (Z.mul_le_mono_pos_r _ _ (den i j) B1). replace (Z.abs N * den i j) with (Z.abs (N * den i j)) by (rewrite Z.abs_mul; lia). rewrite <- HN, <- Z.mul_assoc, <- Hq, Z.abs_mul. rewrite (Z.abs_eq dd) by lia. apply Z.mul_le_mono_nonneg_l; lia. }
      unfold cent. lia.
    + eapply cong_trans; [exact C3|]. apply cong_sym. assert (X : (p | (N - dd * e2 i j) * den i j)).
      { exists (t * dd). transitivity (N * den i j - e2 i j * den i j * dd); [ring|]. rewrite <- HN. transitivity ((num i j - e2 i j * den i j) * dd); [ring|rewrite B5; ring]. }
      apply prime_mult in X; [|apply (mo_prime _ _ _ M)]. assert (DP : den i j < p) by (clear - B1 B4 P; nia). destruct X as [X|X]; [exact X|apply Z.divide_pos_le in X; lia].
Qed.
Lemma lift_dd_flag vs : forall dd ok dd', (forall v, In v vs -> Z.abs v < p) -> lift_dd S p lim vs dd = Ok (ok, dd') -> (ok = true <-> forall v, In v vs -> exists n d, wfrac p v n d).
Proof.
  pose proof pp as P. induction vs as [|v vs IH]; intros dd ok dd' H E; cbn [lift_dd] in E.
  - injection E as <- <-. split; [intros _ v []|auto].
  - assert (Hv : Z.abs v < p) by (apply H; now left). rewrite (lo_abs _ _ LO), bind_Ok in E by lia. destruct (Z.ltb_spec (Z.abs v) lim) as [Q|Q].
    + rewrite (IH dd ok dd') by (auto; intros; apply H; now right). apply lim_spec in Q. split; [|intros K w Hw; apply K; now right]. intros K w [<-|Hw]; [|now apply K]. exists v, 1. split; [lia|]. split; [lia|]. split; [lia|]. exists 0. ring.
    + destruct (lo_rat _ _ LO v Hv) as (ok1 & a & b & E1 & NZ & HD & MI & OK). rewrite E1, bind_Ok in E. destruct (s_abs S b) as [ab| | |]; try discriminate. cbn [bind] in E. destruct (s_lcm S ab dd) as [nd| | |]; try discriminate. cbn [bind] in E. destruct ok1.
      * rewrite (IH nd ok dd') by (auto; intros; apply H; now right). split; [|intros K w Hw; apply K; now right]. intros K w [<-|Hw]; [|now apply K]. destruct (proj1 OK eq_refl) as (O1 & O2). exists a, b. split; [apply (modrat_den_nonzero v p a b); auto; lia|]. auto.
      * injection E as <- <-. split; [discriminate|]. intros K. exfalso. destruct (K v (or_introl eq_refl)) as (n & d & F1 & F2 & F3 & F4). assert (false = true); [|discriminate]. apply OK. destruct (modrat_complete v p a b n d ltac:(lia) NZ HD F4 (or_intror F1)) as (X & _); auto; lia.
Qed.
Lemma liftmat_flag (c c0 : Prop) mm m0 nr nc nr0 nc0 e e0 ok m dd :
  rep c mm nr nc e -> rep c0 m0 nr0 nc0 e0 -> (forall i j, (i < nr)%nat -> (j < nc)%nat -> D (e i j)) -> sm_liftmat S mm p m0 = Ok (ok, m, dd) ->
  (ok = true <-> forall i j, (i < nr)%nat -> (j < nc)%nat -> exists n d, wfrac p (e i j) n d).
Proof.
  intros R R0 HD E. pose proof pp as P. unfold sm_liftmat in E. fold lim in E. destruct (sm_assign_ok c c0 false m0 mm nr nc nr0 nc0 e e0 R0 R ltac:(discriminate)) as (m1 & Q1 & R1). rewrite Q1, bind_Ok in E.
  destruct (sm_reduce_ok S D p M c m1 nr nc e R1 HD) as (m2 & Q2 & (e2 & R2 & H2)). rewrite Q2, bind_Ok in E.
  destruct (maxabs_ok m2 nr nc e2 R2) as (ma & Q3 & MA); [intros; now apply H2|]. rewrite Q3, bind_Ok in E.
  assert (TR : forall i j, (i < nr)%nat -> (j < nc)%nat -> forall n d, wfrac p (e i j) n d <-> wfrac p (e2 i j) n d).
  { intros i j Hi Hj n d. destruct (H2 i j Hi Hj) as ((k & Hk) & _). unfold wfrac. assert (X : (p | n - e i j * d) <-> (p | n - e2 i j * d)); [|tauto]. split; intros (t & Ht).
    - exists (t - k * d). rewrite Z.mul_sub_distr_r, <- Ht. replace (k * d * p) with (k * p * d) by ring. rewrite <- Hk. ring.
    - exists (t + k * d). rewrite Z.mul_add_distr_r, <- Ht. replace (k * d * p) with (k * p * d) by ring. rewrite <- Hk. ring. }
  destruct (Z.ltb_spec ma lim) as [Q|Q].
  - injection E as <- _ _. split; [|auto]. intros _ i j Hi Hj. exists (e2 i j), 1. apply TR; auto. specialize (MA i j Hi Hj). assert (Y : Z.abs (e2 i j) < lim) by lia. apply lim_spec in Y. split; [lia|]. split; [lia|]. split; [lia|]. exists 0. ring.
  - destruct (vals_ok m2 nr nc e2 R2) as (vs & EV & V). rewrite EV, bind_Ok in E. destruct (lift_dd S p lim vs 1) as [(ok1 & dd1)| | |] eqn:EL; try discriminate. cbn [bind] in E.
    apply lift_dd_flag in EL; [|intros v Hv; destruct (V v Hv) as (i & j & Hi & Hj & ->); now apply H2].
    assert (EO : ok = ok1). { destruct ok1; [|congruence]. destruct (s_abs S dd1) as [ad| | |]; try discriminate. cbn [bind] in E. destruct (sm_map _ m2); try discriminate. cbn [bind] in E. congruence. }
    rewrite EO, EL. split.
    + intros K i j Hi Hj. destruct (Z.eq_dec (e2 i j) 0) as [Z0|N0].
      * exists 0, 1. apply TR; auto. split; [lia|]. split; [lia|]. split; [lia|]. rewrite Z0. exists 0. ring.
      * destruct (K (e2 i j)) as (n & d & F); [eapply vals_all; eauto|]. exists n, d. now apply TR.
    + intros K v Hv. destruct (V v Hv) as (i & j & Hi & Hj & ->). destruct (K i j Hi Hj) as (n & d & F). exists n, d. now apply TR.
Qed.
End L.
