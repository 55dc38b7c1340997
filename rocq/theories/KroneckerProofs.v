(** The Kronecker symbol algorithms of arith.cc and marith.cc. *)
From Coq Require Import ZArith Lia List Bool Znumtheory.
From Verif Require Import Base ArithModel ArithProofs RatModel MArithModel MArithProofs
  LegendreSpec LegendreMath JacobiMath LegendreProofs.
Import ListNotations.
Open Scope Z_scope.

Definition sg (b : bool) : Z := if b then -1 else 1.

Lemma c8_odd y : Z.odd y = true -> c8 y = sg (Z.abs (y mod 8 - 4) =? 1).
Proof.
  intros H. unfold c8, sg. destruct (odd_mod8 y H) as [-> |[-> |[-> | ->]]]; reflexivity.
Qed.
Lemma h4_sg x y : h4 x y = sg ((x mod 4 =? 3) && (y mod 4 =? 3)).
Proof. reflexivity. Qed.

(** ** The symbol over lists of primes that may contain 2 *)
Definition K2 (a : Z) : Z := if Z.even a then 0 else c8 a.
Definition ksym (a p : Z) : Z := if p =? 2 then K2 a else Lsym a p.
Definition Kl (a : Z) (ps : list Z) : Z := fold_right (fun p t => ksym a p * t) 1 ps.

Lemma prime_odd p : prime p -> p <> 2 -> oprime p.
Proof.
  intros Hp N. split; auto. destruct (Z.odd p) eqn:E; auto. exfalso.
  assert (Ev : Z.even p = true) by (rewrite <- Z.negb_odd, E; reflexivity).
  apply Z.even_spec in Ev as [k ->]. destruct Hp as [H1 Hp].
  assert (R : rel_prime 2 (2 * k)) by (apply Hp; lia).
  assert (D : (2 | 1)) by (apply R; [apply Z.divide_refl|exists k; ring]).
  apply Z.divide_1_r in D. lia.
Qed.

Lemma symbol_at_2_K2 a : symbol_at_2 a (K2 a).
Proof.
  unfold symbol_at_2, K2, c8. destruct (Z.even a) eqn:E.
  - split; [auto|].
    assert (M : a mod 8 mod 2 = 0).
    { rewrite <- Zmod_div_mod; try lia; [|exists 4; reflexivity].
      apply Z.even_spec in E as [k ->]. rewrite Z.mul_comm. apply Z_mod_mult. }
    split; intros [H|H]; rewrite H in M; discriminate.
  - assert (O : Z.odd a = true) by (rewrite <- Z.negb_even, E; reflexivity).
    split; [intros Ev; apply Z.even_spec in Ev; congruence|].
    split; intros [-> | ->]; reflexivity.
Qed.

Lemma Kl_product a ps : Forall prime ps -> symbol_product a ps (Kl a ps).
Proof.
  induction 1 as [|p ps Hp H IH]; [constructor|]. cbn [Kl fold_right]. fold (Kl a ps).
  constructor; auto. unfold ksym. destruct (Z.eqb_spec p 2) as [->|N].
  - split; [intros _; apply symbol_at_2_K2|congruence].
  - split; [congruence|]. intros _. apply Lsym_spec. now apply prime_odd.
Qed.

Lemma Kl_split a ps : Forall prime ps -> exists r qs, 0 <= r /\ Forall oprime qs /\
  prodl ps = prodl qs * 2 ^ r /\ Kl a ps = K2 a ^ r * Jl a qs.
Proof.
  induction 1 as [|p ps Hp H (r & qs & Hr & Hq & E & K)].
  - exists 0, []. cbn. repeat split; auto; lia.
  - cbn [Kl fold_right]. fold (Kl a ps). rewrite prodl_cons, K, E. unfold ksym.
    destruct (Z.eqb_spec p 2) as [->|N].
    + exists (r + 1), qs. rewrite !Z.pow_add_r, !Z.pow_1_r by lia.
      split; [lia|]. split; [auto|]. split; ring.
    + exists r, (p :: qs). split; [auto|]. split; [constructor; auto; now apply prime_odd|].
      rewrite prodl_cons, Jl_cons. split; ring.
Qed.

Lemma two_adic_unique m m' r r' : 0 <= r -> 0 <= r' -> Z.odd m = true -> Z.odd m' = true ->
  m * 2 ^ r = m' * 2 ^ r' -> r = r' /\ m = m'.
Proof.
  assert (G : forall m m' r r', 0 <= r -> r < r' -> Z.odd m = true -> m * 2 ^ r <> m' * 2 ^ r').
  { intros x x' u u' Hu Hlt Ox E. replace u' with (u + (1 + (u' - u - 1))) in E by lia.
    rewrite !Z.pow_add_r, Z.pow_1_r in E by lia.
    assert (P : 0 < 2 ^ u) by (apply Z.pow_pos_nonneg; lia).
    assert (x = 2 * (x' * 2 ^ (u' - u - 1))).
    { apply (Z.mul_reg_r _ _ (2 ^ u)); [lia|]. rewrite E. ring. }
    rewrite H, Z.odd_mul in Ox. discriminate. }
  intros Hr Hr' Om Om' E.
  assert (r = r').
  { destruct (Z.lt_trichotomy r r') as [L|[L|L]]; auto; exfalso.
    - apply (G m m' r r'); auto.
    - apply (G m' m r' r); auto. }
  subst r'. split; auto. apply (Z.mul_reg_r _ _ (2 ^ r)); auto.
  assert (0 < 2 ^ r) by (apply Z.pow_pos_nonneg; lia). lia.
Qed.

(** What has to be computed, from y = y1 * 2^r. *)
Definition K0 (x r : Z) (ps : list Z) : Z := K2 x ^ r * Jl x ps.

Lemma kronecker_intro x y y1 r v : y <> 0 -> Z.abs y = y1 * 2 ^ r -> 0 <= r -> Z.odd y1 = true ->
  (forall ps, Forall oprime ps -> prodl ps = y1 ->
     v = (if (y <? 0) && (x <? 0) then -1 else 1) * K0 x r ps) ->
  kronecker_symbol x y v.
Proof.
  intros Hy E Hr O H. split; [intros; contradiction|]. intros _ ps [Hp Ep].
  exists (Kl x ps). split; [now apply Kl_product|].
  destruct (Kl_split x ps Hp) as (r' & qs & Hr' & Hq & E' & ->).
  rewrite Ep, E in E'. apply two_adic_unique in E' as [<- E']; auto.
  - apply (H qs); auto.
  - now apply prodl_odd.
Qed.

Lemma K2_pow x r : 0 <= r -> negb (r =? 0) && negb (Z.odd x) = false ->
  K2 x ^ r = sg (negb (r =? 0) && (Z.odd r && three_five x)).
Proof.
  intros Hr H. destruct (Z.eqb_spec r 0) as [->|N]; [reflexivity|]. cbn [negb andb] in *.
  apply negb_false_iff in H. unfold K2. rewrite <- Z.negb_odd, H. cbn [negb].
  rewrite c8_pow by auto. rewrite c8_odd by auto. unfold three_five, posmod_zl.
  change (Z.abs 8) with 8. destruct (Z.odd r); reflexivity.
Qed.

Lemma K2_zero x r : 0 <= r -> negb (r =? 0) && negb (Z.odd x) = true -> K2 x ^ r = 0.
Proof.
  intros Hr H. apply andb_true_iff in H as [H1 H2]. apply negb_true_iff in H1, H2.
  apply Z.eqb_neq in H1. unfold K2. rewrite <- Z.negb_odd, H2. cbn [negb].
  apply Z.pow_0_l. lia.
Qed.

(** ** One round of the loop *)
Definition kinv (V : Z) (st : Z * Z * Z) : Prop :=
  let '(x1, y, s) := st in
  0 <= x1 /\ 0 < y /\ Z.odd y = true /\ (s = 1 \/ s = -1) /\
  exists ps, Forall oprime ps /\ prodl ps = y /\ s * Jl x1 ps = V.

Lemma kinv_step V x1 y s x2 r : kinv V (x1, y, s) -> x1 = x2 * 2 ^ r -> 0 <= r -> 0 < x2 ->
  Z.odd x2 = true ->
  kinv V (y mod x2, x2, s * sg (Z.odd r && three_five y) *
                        sg ((y mod 4 =? 3) && (x2 mod 4 =? 3))).
Proof.
  intros (H1 & Hy & Oy & Hs & ps & Hp & Ep & EV) Ex Hr Hx Ox.
  split; [apply Z.mod_pos_bound; auto|]. split; [auto|]. split; [auto|]. split.
  { unfold sg. destruct Hs as [-> | ->], (Z.odd r && three_five y),
      ((y mod 4 =? 3) && (x2 mod 4 =? 3)); auto. }
  destruct (factorisation_ex x2 Hx) as [qs Fq].
  pose proof (factorisation_odd x2 qs Fq Ox) as Hq. destruct Fq as [_ Eq].
  exists qs. split; [auto|]. split; [auto|]. rewrite <- EV.
  assert (E1 : Jl x1 ps = sg (Z.odd r && three_five y) * Jl x2 ps).
  { rewrite Ex, Z.mul_comm, Jl_pow2, Ep by auto. f_equal. rewrite c8_odd by auto.
    unfold three_five, posmod_zl. change (Z.abs 8) with 8. destruct (Z.odd r); reflexivity. }
  assert (E2 : Jl x2 ps = Jl (y mod x2) qs * sg ((y mod 4 =? 3) && (x2 mod 4 =? 3))).
  { rewrite <- h4_sg, <- Eq, Jl_rec, Ep by auto. f_equal. apply Jl_mod; auto.
    rewrite Eq. exists (y / x2). rewrite (Z.div_mod y x2) at 1 by lia. ring. }
  rewrite E1, E2. ring.
Qed.

Definition kpost (V : Z) (r : Z * Z) : Prop := let '(y, s) := r in (if y =? 1 then s else 0) = V.
Lemma kinv_exit V y s : kinv V (0, y, s) -> kpost V (y, s).
Proof.
  intros (_ & _ & _ & _ & ps & Hp & Ep & EV). rewrite Jl_0, Ep in EV by auto.
  unfold kpost. destruct (y =? 1); lia.
Qed.

(** ** bigint version *)
Lemma odd_not_div2 x : ~ (2 | x) -> Z.odd x = true.
Proof.
  intros H. destruct (Z.odd x) eqn:E; auto. exfalso. apply H.
  assert (Ev : Z.even x = true) by (rewrite <- Z.negb_odd, E; reflexivity).
  apply Z.even_spec in Ev as [k ->]. exists k. ring.
Qed.

Lemma divide_out_2 a : 0 < a -> exists a' e, divide_out a 2 = Ok (a', e) /\ 0 <= e /\
  a = a' * 2 ^ e /\ 0 < a' /\ Z.odd a' = true.
Proof.
  intros H. destruct (divide_out_ok a 2) as (a' & e & -> & He & E & ND); try lia.
  exists a', e. split; [reflexivity|]. split; [auto|]. split; [auto|].
  split; [|now apply odd_not_div2].
  assert (0 < 2 ^ e) by (apply Z.pow_pos_nonneg; lia). nia.
Qed.

Lemma neg_sg (b : bool) s : (if b then - s else s) = s * sg b.
Proof. destruct b; cbn [sg]; ring. Qed.

Lemma kronz_loop_ok V x1 y s : kinv V (x1, y, s) -> x1 < y ->
  exists r, while kronz_step (zfuel y) (x1, y, s) = Ok r /\ kpost V r.
Proof.
  intros I L. apply (while_total kronz_step (kinv V) (kpost V) (fun st => fst (fst st))); auto.
  - intros [[u v] t] (H & _). exact H.
  - clear. intros [[x1 y] s] I. unfold kronz_step. destruct (Z.eqb_spec x1 0) as [->|N].
    + left. eexists. split; [reflexivity|]. now apply kinv_exit.
    + right. pose proof I as (H1 & Hy & _).
      destruct (divide_out_2 x1) as (x2 & r & -> & Hr & E & Hx & Ox); [lia|]. rewrite bind_Ok.
      rewrite zz_mod_ok by lia. rewrite bind_Ok. eexists. split; [reflexivity|].
      rewrite !neg_sg. split.
      * exact (kinv_step V x1 y s x2 r I E Hr Hx Ox).
      * cbn [fst]. pose proof (Z.mod_pos_bound y x2 Hx).
        assert (1 <= 2 ^ r) by (apply (Z.pow_le_mono_r 2 0 r); lia). nia.
  - cbn [fst]. pose proof (zfuel_gt y). destruct I as (? & ? & _). lia.
Qed.

Theorem kronecker_z_ok x y : exists v, kronecker_z x y = Ok v /\ kronecker_symbol x y v.
Proof.
  unfold kronecker_z. destruct (Z.eqb_spec y 0) as [->|Ny].
  { eexists. split; [reflexivity|]. split; [|lia]. intros _.
    destruct (Z.eqb_spec (Z.abs x) 1); split; lia. }
  assert (E0 : (if y <? 0 then (- y, if x <? 0 then -1 else 1) else (y, 1)) =
     (Z.abs y, if (y <? 0) && (x <? 0) then -1 else 1)).
  { destruct (Z.ltb_spec y 0); cbn [andb]; f_equal; lia. }
  rewrite E0. set (s0 := if (y <? 0) && (x <? 0) then -1 else 1).
  assert (S0 : s0 = 1 \/ s0 = -1) by (unfold s0; destruct (_ && _); auto).
  destruct (divide_out_2 (Z.abs y)) as (y1 & r & -> & Hr & E & Hy & Oy); [lia|].
  rewrite bind_Ok. destruct (negb (r =? 0) && negb (Z.odd x)) eqn:B.
  { exists 0. split; [reflexivity|]. apply (kronecker_intro x y y1 r); auto.
    intros ps _ _. unfold K0. rewrite K2_zero by auto. lia. }
  rewrite neg_sg. rewrite posmod_z_ok by lia. rewrite bind_Ok.
  rewrite (Z.abs_eq y1) by lia.
  destruct (factorisation_ex y1 Hy) as [qs Fq].
  pose proof (factorisation_odd y1 qs Fq Oy) as Hq. destruct Fq as [_ Eq].
  set (s1 := s0 * sg (negb (r =? 0) && (Z.odd r && three_five x))).
  assert (MOD : forall ps, Forall oprime ps -> prodl ps = y1 -> Jl (x mod y1) ps = Jl x ps).
  { intros ps Hp Ep. apply Jl_mod; auto. rewrite Ep. exists (- (x / y1)).
    pose proof (Z.div_mod x y1 ltac:(lia)) as DM. clear - DM. lia. }
  assert (ANY : forall ps, Forall oprime ps -> prodl ps = y1 -> s1 * Jl (x mod y1) ps = s0 * K0 x r ps).
  { intros ps Hp Ep. rewrite MOD by auto. unfold K0, s1. rewrite K2_pow by auto. ring. }
  assert (B1 := Z.mod_pos_bound x y1 Hy).
  assert (LOOP : forall ps, Forall oprime ps -> prodl ps = y1 ->
    exists w, while kronz_step (zfuel y1) (x mod y1, y1, s1) = Ok w /\ kpost (s0 * K0 x r ps) w).
  { intros ps Hp Ep. apply kronz_loop_ok; [|lia].
    split; [lia|]. split; [auto|]. split; [auto|]. split.
    + unfold s1, sg. destruct (negb (r =? 0) && (Z.odd r && three_five x)); destruct S0 as [-> | ->]; auto.
    + exists ps. split; [auto|]. split; [auto|]. apply ANY; auto. }
  destruct (LOOP qs Hq Eq) as ([yy ss] & R & _). rewrite R.
  rewrite bind_Ok. eexists. split; [reflexivity|].
  apply (kronecker_intro x y y1 r); auto.
  intros ps Hp Ep. fold s0. destruct (LOOP ps Hp Ep) as (w & R' & P).
  rewrite R in R'. inversion R'; subst w. exact P.
Qed.

(** ** long version *)
Lemma val2_ok x : 0 < x <= max64 -> exists r, val2_ulong x = Ok r /\ 0 <= r <= 63 /\
  exists x', x = x' * 2 ^ r /\ 0 < x' /\ Z.odd x' = true /\ Z.shiftr x r = x'.
Proof.
  intros Hx. unfold val2_ulong.
  destruct (while_total val2_step
    (fun s => let '(z, v) := s in 0 < z /\ 0 <= v /\ x = z * 2 ^ v)
    (fun v => 0 <= v /\ exists z, 0 < z /\ Z.odd z = true /\ x = z * 2 ^ v) (fun s => fst s))
    with (n := W) (s := (x, 0)) as (r & -> & Hr & z & Hz & Oz & E).
  - intros [z v] (? & _). cbn [fst]. lia.
  - intros [z v] (Hz & Hv & E). unfold val2_step. destruct (Z.odd z) eqn:O.
    + left. exists v. split; [reflexivity|]. split; [auto|]. exists z. auto.
    + right. assert (Ev : Z.even z = true) by (rewrite <- Z.negb_odd, O; reflexivity).
      apply Z.even_spec in Ev as [k Hk]. eexists. split; [reflexivity|].
      rewrite Z.shiftr_div_pow2 by lia. change (2 ^ 1) with 2.
      assert (Q : z / 2 = k) by (rewrite Hk, Z.mul_comm; apply Z.div_mul; lia).
      rewrite Q. cbn [fst]. split; [|lia]. split; [lia|]. split; [lia|].
      rewrite Z.pow_add_r, Z.pow_1_r by lia. rewrite E, Hk. ring.
  - rewrite Z.pow_0_r. lia.
  - cbn [fst]. change (2 ^ Z.of_nat W) with 1180591620717411303424. unfold max64 in Hx. lia.
  - exists r. split; [reflexivity|].
    assert (P : 0 < 2 ^ r) by (apply Z.pow_pos_nonneg; lia).
    split.
    + split; [auto|]. destruct (Z.le_gt_cases r 63); auto. exfalso.
      assert (2 ^ 64 <= 2 ^ r) by (apply Z.pow_le_mono_r; lia).
      change (2 ^ 64) with 18446744073709551616 in H0. unfold max64 in Hx. nia.
    + exists z. split; [auto|]. split; [auto|]. split; [auto|].
      rewrite Z.shiftr_div_pow2, E by auto. apply Z.div_mul. lia.
Qed.

Lemma land7 x : Z.land x 7 = x mod 8.
Proof. change 7 with (Z.ones 3). rewrite Z.land_ones by lia. reflexivity. Qed.
Lemma land2 x : Z.odd x = true -> negb (Z.land x 2 =? 0) = (x mod 4 =? 3).
Proof.
  intros O.
  assert (E : Z.land x 2 = Z.land (x mod 4) 2).
  { change 4 with (2 ^ 2). rewrite <- Z.land_ones by lia. rewrite <- Z.land_assoc. reflexivity. }
  rewrite E. destruct (odd_mod4 x O) as [-> | ->]; reflexivity.
Qed.
Lemma neg64_sg (b : bool) s : (s = 1 \/ s = -1) -> (if b then neg64 s else Ok s) = Ok (s * sg b).
Proof. intros [-> | ->]; destruct b; reflexivity. Qed.

Definition kinvl (V : Z) (st : Z * Z * Z) : Prop :=
  kinv V st /\ fst (fst st) <= max64 /\ snd (fst st) <= max64.

Lemma kron_step_ok V st : kinvl V st ->
  (exists r, kron_step st = Ok (inr r) /\ kpost V r) \/
  (exists st', kron_step st = Ok (inl st') /\ kinvl V st' /\ fst (fst st') <= fst (fst st) - 1).
Proof.
  destruct st as [[x1 y] s]. intros (I & B1 & B2). cbn [fst snd] in *. unfold kron_step.
  destruct (Z.eqb_spec x1 0) as [->|N].
  { left. eexists. split; [reflexivity|]. now apply kinv_exit. }
  right. pose proof I as (H1 & Hy & Oy & Hs & _).
  destruct (val2_ok x1) as (r & -> & Hr & x2 & E & Hx & Ox & Sh); [lia|]. rewrite bind_Ok.
  assert (P1 : 1 <= 2 ^ r) by (apply (Z.pow_le_mono_r 2 0 r); lia).
  assert (X2 : x2 <= x1) by nia.
  set (t1 := s * sg (Z.odd r && three_five y)).
  assert (T1 : t1 = 1 \/ t1 = -1) by (unfold t1, sg; destruct (Z.odd r && three_five y), Hs as [-> | ->]; auto).
  match goal with |- context [bind ?m _] => assert (M1 : m = Ok (x2, t1)) end.
  { destruct (Z.eqb_spec r 0) as [->|R].
    - unfold t1. cbn [Z.odd andb sg]. rewrite Z.pow_0_r, Z.mul_1_r in E. subst x2.
      now rewrite Z.mul_1_r.
    - rewrite land7. rewrite neg64_sg by auto. rewrite bind_Ok, Sh. reflexivity. }
  rewrite M1, bind_Ok. clear M1.
  rewrite !land2 by auto. rewrite neg64_sg by auto. rewrite bind_Ok.
  rewrite rem64_ok by (try rg; lia). rewrite bind_Ok. rewrite Z.rem_mod_nonneg by lia.
  eexists. split; [reflexivity|]. pose proof (Z.mod_pos_bound y x2 Hx). split; [split|].
  - exact (kinv_step V x1 y s x2 r I E ltac:(lia) Hx Ox).
  - cbn [fst snd]. lia.
  - cbn [fst snd]. lia.
Qed.

Theorem kronecker_long_ok x y : sym64 x -> sym64 y ->
  exists v, kronecker_long x y = Ok v /\ kronecker_symbol x y v.
Proof.
  intros Hx Hy. unfold sym64 in *. unfold kronecker_long. destruct (Z.eqb_spec y 0) as [->|Ny].
  { rewrite abs64_ok by rg. rewrite bind_Ok. eexists. split; [reflexivity|]. split; [|lia]. intros _.
    destruct (Z.eqb_spec (Z.abs x) 1); split; lia. }
  set (s0 := if (y <? 0) && (x <? 0) then -1 else 1).
  assert (S0 : s0 = 1 \/ s0 = -1) by (unfold s0; destruct (_ && _); auto).
  match goal with |- context [bind ?m _] => assert (M0 : m = Ok (Z.abs y, s0)) end.
  { unfold s0. destruct (Z.ltb_spec y 0); cbn [andb].
    - rewrite neg64_ok by rg. rewrite bind_Ok. do 2 f_equal. lia.
    - do 2 f_equal. lia. }
  rewrite M0, bind_Ok. clear M0.
  destruct (val2_ok (Z.abs y)) as (r & -> & Hr & y1 & E & Hy1 & Oy & Sh); [lia|].
  rewrite bind_Ok. destruct (negb (r =? 0) && negb (Z.odd x)) eqn:B.
  { exists 0. split; [reflexivity|]. apply (kronecker_intro x y y1 r); auto; [lia|].
    intros ps _ _. unfold K0. rewrite K2_zero by (auto; lia). lia. }
  set (s1 := s0 * sg (negb (r =? 0) && (Z.odd r && three_five x))).
  assert (S1 : s1 = 1 \/ s1 = -1) by (unfold s1, sg; destruct (negb (r =? 0) && (Z.odd r && three_five x)), S0 as [-> | ->]; auto).
  match goal with |- context [bind ?m _] => assert (M0 : m = Ok (y1, s1)) end.
  { unfold s1. destruct (Z.eqb_spec r 0) as [->|R]; cbn [negb andb].
    - rewrite Z.pow_0_r, Z.mul_1_r in E. rewrite E. cbn [sg]. now rewrite Z.mul_1_r.
    - rewrite land7. rewrite neg64_sg by auto. rewrite bind_Ok, Sh. reflexivity. }
  rewrite M0, bind_Ok. clear M0.
  assert (P1 : 1 <= 2 ^ r) by (apply (Z.pow_le_mono_r 2 0 r); lia).
  assert (Y1 : y1 <= Z.abs y) by nia.
  rewrite rem64_ok by (try rg; lia). rewrite bind_Ok.
  assert (RM : (if Z.rem x y1 <? 0 then add64 (Z.rem x y1) y1 else Ok (Z.rem x y1)) = Ok (x mod y1)).
  { pose proof (Z.quot_rem x y1 ltac:(lia)) as QR.
    pose proof (Z.rem_bound_abs x y1 ltac:(lia)) as RB.
    destruct (Z.ltb_spec (Z.rem x y1) 0).
    - rewrite add64_ok by rg. f_equal. apply Z.mod_unique with (Z.quot x y1 - 1); lia.
    - f_equal. apply Z.mod_unique with (Z.quot x y1); lia. }
  rewrite RM, bind_Ok. clear RM.
  destruct (factorisation_ex y1 Hy1) as [qs Fq].
  pose proof (factorisation_odd y1 qs Fq Oy) as Hq. destruct Fq as [_ Eq].
  assert (MOD : forall ps, Forall oprime ps -> prodl ps = y1 -> Jl (x mod y1) ps = Jl x ps).
  { intros ps Hp Ep. apply Jl_mod; auto. rewrite Ep. exists (- (x / y1)).
    pose proof (Z.div_mod x y1 ltac:(lia)) as DM. clear - DM. lia. }
  assert (ANY : forall ps, Forall oprime ps -> prodl ps = y1 -> s1 * Jl (x mod y1) ps = s0 * K0 x r ps).
  { intros ps Hp Ep. rewrite MOD by auto. unfold K0, s1. rewrite K2_pow by (auto; lia). ring. }
  assert (B1 := Z.mod_pos_bound x y1 Hy1).
  assert (LOOP : forall ps, Forall oprime ps -> prodl ps = y1 ->
    exists w, while kron_step W (x mod y1, y1, s1) = Ok w /\ kpost (s0 * K0 x r ps) w).
  { intros ps Hp Ep. apply (while_total kron_step (kinvl (s0 * K0 x r ps)) _ (fun st => fst (fst st))).
    - intros [[? ?] ?] ((? & _) & _). auto.
    - apply kron_step_ok.
    - split; [|cbn [fst snd]; lia]. split; [lia|]. split; [auto|]. split; [auto|]. split; [auto|].
      exists ps. split; [auto|]. split; [auto|]. apply ANY; auto.
    - cbn [fst]. change (2 ^ Z.of_nat W) with 1180591620717411303424. unfold max64 in *. lia. }
  destruct (LOOP qs Hq Eq) as ([yy ss] & R & _). rewrite R.
  rewrite bind_Ok. eexists. split; [reflexivity|].
  apply (kronecker_intro x y y1 r); auto; [lia|].
  intros ps Hp Ep. fold s0. destruct (LOOP ps Hp Ep) as (w & R' & P).
  rewrite R in R'. inversion R'; subst w. exact P.
Qed.
