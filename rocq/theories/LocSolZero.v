(** With a zero discriminant zpsol need not end: y^2 = 2 (x^2 - 7)^2 over Q_3. *)
From Coq Require Import ZArith Lia List Bool Znumtheory.
From Verif Require Import Base RatModel RatProofs MArithModel MArithProofs
  LocSolModel LocSolSpec LocSolArith LocSolLocal LocSolProofs.
Import ListNotations.
Open Scope Z_scope.
Open Scope res_scope.

Lemma p3 : prime 3.
Proof. exact prime_3. Qed.

Lemma gv x : gval 2 0 (-28) 0 98 x = 2 * (x * x - 7) * (x * x - 7).
Proof. unfold gval. ring. Qed.
Lemma gd x : gder 2 0 (-28) 0 x = 8 * x * (x * x - 7).
Proof. unfold gder. ring. Qed.
Lemma s_nz x : x * x - 7 <> 0.
Proof.
  intros H. assert (x * x = 7) by lia. assert (Z.abs x * Z.abs x = 7) by (rewrite <- Z.abs_mul; lia).
  assert (Z.abs x < 3 \/ 3 <= Z.abs x) as [L|L] by lia.
  - assert (Z.abs x = 0 \/ Z.abs x = 1 \/ Z.abs x = 2) as [E|[E|E]] by lia; rewrite E in H1; lia.
  - assert (3 * 3 <= Z.abs x * Z.abs x) by (apply Z.mul_le_mono_nonneg; lia). lia.
Qed.
Lemma unit_sq t : ~ (3 | t) -> exists q, t * t = 3 * q + 1.
Proof.
  intros N. pose proof (Z.div_mod t 3 ltac:(lia)) as D. pose proof (Z.mod_pos_bound t 3 ltac:(lia)) as B.
  set (q := t / 3) in *. assert (t mod 3 = 0 \/ t mod 3 = 1 \/ t mod 3 = 2) as [E|[E|E]] by lia; rewrite E in D.
  - exfalso. apply N. exists q. lia.
  - exists (3 * q * q + 2 * q). rewrite D. ring.
  - exists (3 * q * q + 4 * q + 1). rewrite D. ring.
Qed.
Lemma not_square k t : 0 <= k -> ~ (3 | t) -> ~ padic_square 3 (3 ^ (2 * k) * (2 * t * t)).
Proof.
  intros K T (y & _ & Y). specialize (Y (Z.to_nat (2 * k + 1))). rewrite Z2Nat.id in Y by lia.
  destruct (unit_sq t T) as (q & Q).
  destruct (square_exact 3 (2 * k) (2 * t * t) (y (Z.to_nat (2 * k + 1))) (2 * k + 1) p3 ltac:(lia)) as (z & _ & Z').
  - intros (r & R). clear - R Q. lia.
  - exact Y.
  - replace (2 * k + 1 - 2 * k) with 1 in Z' by ring. rewrite Z.pow_1_r in Z'. destruct Z' as (r & R).
    destruct (Znumtheory.Zdivide_dec 3 z) as [(h & ->)|NZ].
    + clear - R Q. lia.
    + destruct (unit_sq z NZ) as (h & H). clear - R Q H. lia.
Qed.
Lemma s_split x : exists k t, 0 <= k /\ x * x - 7 = 3 ^ k * t /\ ~ (3 | t).
Proof.
  destruct (val_exact 3 (x * x - 7) ltac:(lia) (s_nz x)) as (k & _ & K & E).
  destruct (exact_split 3 k _ ltac:(lia) K E) as (t & T). exists k, t. auto.
Qed.

Lemma lemma6_z nu x : 0 <= nu -> exists r, lemma6 2 0 (-28) 0 98 3 nu x = Ok r /\ r <> 1 /\
  ((3 ^ nu | x * x - 7) -> r = 0).
Proof.
  intros NU. unfold lemma6. rewrite gv, gd. destruct (s_split x) as (k & t & K & E & T).
  set (s := x * x - 7) in *.
  assert (GX : 2 * s * s = 3 ^ (2 * k) * (2 * t * t)).
  { rewrite E. replace (2 * k) with (k + k) by ring. rewrite pw_split by lia. ring. }
  assert (T2 : ~ (3 | 2 * t * t)).
  { intros D. destruct (unit_sq t T) as (q & Q). destruct D as (r & R). clear - Q R. lia. }
  destruct (psquare_ok (2 * s * s) 3 p3) as (b & -> & B1 & _). rewrite bind_Ok.
  destruct b. { exfalso. apply (not_square k t K T). rewrite <- GX. auto. }
  assert (EX : exact_pow 3 (2 * k) (2 * s * s)) by (rewrite GX; apply exact_of; [lia|lia|exact T2]).
  destruct (val_exact 3 (2 * s * s)) as (la & -> & L0 & LE); [lia|apply (exact_nz _ _ _ EX)|].
  rewrite bind_Ok.
  assert (la = 2 * k) by (apply (exact_uniq 3 la (2 * k) (2 * s * s)); auto; lia). subst la.
  assert (NK : (3 ^ nu | s) -> nu <= k).
  { intros D. apply (exact_le 3 k nu s); auto; [lia|]. rewrite E. apply exact_of; [lia|lia|exact T]. }
  destruct (Z.eqb_spec (8 * x * s) 0) as [Z0|Z0].
  - destruct (Z.leb_spec (2 * nu) (2 * k)).
    + exists 0. split; [reflexivity|]. split; [lia|auto].
    + exists (-1). split; [reflexivity|]. split; [lia|]. intros D. apply NK in D. lia.
  - destruct (val_exact 3 (8 * x * s) ltac:(lia) Z0) as (mu & -> & M0 & ME). rewrite bind_Ok.
    destruct (Znumtheory.Zdivide_dec 3 x) as [(h & X)|X].
    + (* 3 | x, s a unit *)
      assert (k = 0).
      { destruct (Z.eq_dec k 0); auto. exfalso. unfold s in E. rewrite X in E.
        replace k with (1 + (k - 1)) in E by ring. rewrite pw_split, Z.pow_1_r in E by lia. lia. }
      subst k. destruct (Z.leb_spec nu (2 * 0 - mu)); destruct (Z.ltb_spec mu nu); cbn [andb]; try lia.
      * destruct (Z.leb_spec (2 * nu) (2 * 0)); destruct (Z.leb_spec nu mu); cbn [andb]; try lia.
        exists 0. split; [reflexivity|]. split; [lia|auto].
      * destruct (Z.leb_spec (2 * nu) (2 * 0)); destruct (Z.leb_spec nu mu); cbn [andb]; try lia;
          (exists (-1); split; [reflexivity|]; split; [lia|]; intros D; apply NK in D; lia).
      * destruct (Z.leb_spec (2 * nu) (2 * 0)); destruct (Z.leb_spec nu mu); cbn [andb]; try lia;
          try (exists (-1); split; [reflexivity|]; split; [lia|]; intros D; apply NK in D; lia).
        exists 0. split; [reflexivity|]. split; [lia|auto].
    + assert (mu = k).
      { apply (exact_uniq 3 mu k (8 * x * s)); auto; [lia|]. rewrite E.
        replace (8 * x * (3 ^ k * t)) with (3 ^ k * (8 * x * t)) by ring. apply exact_of; [lia|lia|].
        intros D. apply (prime_mult 3 p3) in D as [D|D]; [|exact (T D)].
        apply (prime_mult 3 p3) in D as [D|D]; [|exact (X D)]. destruct D as (r & R). lia. }
      subst mu. destruct (Z.leb_spec nu (2 * k - k)); destruct (Z.ltb_spec k nu); cbn [andb]; try lia;
      destruct (Z.leb_spec (2 * nu) (2 * k)); destruct (Z.leb_spec nu k); cbn [andb]; try lia.
      * exists 0. split; [reflexivity|]. split; [lia|auto].
      * exists (-1). split; [reflexivity|]. split; [lia|]. intros D; apply NK in D; lia.
Qed.

Definition never (r : res bool) : Prop := r = Ok false \/ r = OutOfFuel.
Lemma any_never test step : forall n x, (forall y, never (test y)) -> never (any_from test n x step).
Proof.
  induction n as [|n IH]; intros x H; cbn [any_from]; [left; reflexivity|].
  destruct (H x) as [-> | ->]; [rewrite bind_Ok; auto|right; reflexivity].
Qed.
Lemma any_out test step : forall n x i, (forall y, never (test y)) -> 0 <= i < Z.of_nat n ->
  test (x + i * step) = OutOfFuel -> any_from test n x step = OutOfFuel.
Proof.
  induction n as [|n IH]; intros x i H I E; cbn [any_from]; [lia|].
  destruct (Z.eq_dec i 0) as [->|I0].
  - rewrite Z.mul_0_l, Z.add_0_r in E. rewrite E. reflexivity.
  - destruct (H x) as [-> | ->]; [|reflexivity]. rewrite bind_Ok. apply (IH (x + step) (i - 1) H); [lia|].
    rewrite <- E. f_equal. ring.
Qed.
Lemma residue_never nu x : 0 <= nu -> try_residue 2 0 (-28) 0 98 3 nu x = Ok false.
Proof.
  intros NU. unfold try_residue. cbn [Z.eqb Pos.eqb]. rewrite bind_Ok.
  destruct (lemma6_z (nu + 1) x ltac:(lia)) as (r & -> & R & _). rewrite bind_Ok.
  destruct (Z.eqb_spec r 1); [contradiction|reflexivity].
Qed.
Lemma scan_false : forall n x st nu, 0 <= nu -> any_from (try_residue 2 0 (-28) 0 98 3 nu) n x st = Ok false.
Proof.
  induction n as [|n IH]; intros x st nu NU; cbn [any_from]; [reflexivity|].
  rewrite residue_never, bind_Ok by auto. auto.
Qed.

Lemma zpsol_never : forall f x nu, 0 <= nu -> never (zpsol f 2 0 (-28) 0 98 3 x nu).
Proof.
  induction f as [|f IH]; intros x nu NU; cbn [zpsol]; [right; reflexivity|]. cbn [Z.eqb Pos.eqb].
  destruct (lemma6_z nu x NU) as (r & -> & R & _). rewrite bind_Ok.
  destruct (Z.eqb_spec r 1); [contradiction|]. destruct (r =? -1); [left; reflexivity|]. cbv zeta.
  rewrite scan_false by auto. destruct (nu =? 0); rewrite bind_Ok; apply any_never; intros y; apply IH; lia.
Qed.
Lemma zpsol_out : forall f x nu, 1 <= nu -> ~ (3 | x) -> (3 ^ nu | x * x - 7) ->
  zpsol f 2 0 (-28) 0 98 3 x nu = OutOfFuel.
Proof.
  induction f as [|f IH]; intros x nu NU X D; cbn [zpsol]; [reflexivity|]. cbn [Z.eqb Pos.eqb].
  destruct (lemma6_z nu x ltac:(lia)) as (r & -> & _ & R). rewrite bind_Ok. rewrite (R D). cbn [Z.eqb].
  destruct (Z.eqb_spec nu 0); [lia|]. rewrite bind_Ok. cbv zeta. change (Z.to_nat 3) with 3%nat.
  destruct D as (s & S). pose proof (Z.mod_pos_bound (s * x) 3 ltac:(lia)) as B.
  apply any_out with ((s * x) mod 3); [intros y; apply zpsol_never; lia|lia|].
  pose proof (Z.div_mod (s * x) 3 ltac:(lia)) as DM. set (i := (s * x) mod 3) in *. set (j := (s * x) / 3) in *.
  assert (P3 : 3 ^ nu = 3 * 3 ^ (nu - 1)).
  { replace nu with (1 + (nu - 1)) at 1 by ring. rewrite pw_split, Z.pow_1_r by lia. reflexivity. }
  apply IH; [lia| |].
  - intros (h & H). apply X. exists (h - i * 3 ^ (nu - 1)). rewrite P3 in H. lia.
  - rewrite pw_split, Z.pow_1_r by lia. destruct (unit_sq x X) as (q & Q).
    (* s + 2 x i + i^2 3^nu is divisible by 3 *)
    assert (IE : i = s * x - 3 * j) by lia.
    exists (s + 2 * q * s - 2 * x * j + i * i * 3 ^ (nu - 1)).
    replace ((x + i * 3 ^ nu) * (x + i * 3 ^ nu) - 7) with (x * x - 7 + 2 * x * i * 3 ^ nu + i * i * 3 ^ nu * 3 ^ nu) by ring.
    rewrite S.
    replace (2 * x * i * 3 ^ nu) with ((2 * s * (x * x) - 6 * x * j) * 3 ^ nu) by (rewrite IE; ring).
    rewrite Q. rewrite P3. ring.
Qed.

Theorem zpsol_diverges f : zpsol f 2 0 (-28) 0 98 3 0 0 = OutOfFuel.
Proof.
  destruct f as [|f]; [reflexivity|]. cbn [zpsol]. cbn [Z.eqb Pos.eqb].
  destruct (lemma6_z 0 0 ltac:(lia)) as (r & -> & _ & R). rewrite bind_Ok.
  rewrite R by (rewrite Z.pow_0_r; apply Z.divide_1_l). cbn [Z.eqb]. cbv zeta.
  rewrite scan_false by lia. rewrite bind_Ok. change (Z.to_nat 3) with 3%nat.
  apply any_out with 1; [intros y; apply zpsol_never; lia|lia|].
  apply zpsol_out; [lia| |].
  - intros (h & H). cbn in H. lia.
  - exists 3. reflexivity.
Qed.
