(** zpsol and qpsoluble of mlocsol.cc decide solubility over the p-adic numbers. *)
From Coq Require Import ZArith Lia List Bool Znumtheory Zpow_facts.
From Verif Require Import Base RatModel RatProofs MArithModel MArithProofs
  LocSolModel LocSolSpec LocSolArith LocSolLocal.
Import ListNotations.
Open Scope Z_scope.
Open Scope res_scope.

(** the discriminant as a combination of the values of g and g' *)
Lemma disc_bezout a b c d e x : exists A B, A * gval a b c d e x + B * gder a b c d x = gdisc a b c d e.
Proof.
  exists (((-128) * a * a * a * c * e + 144 * a * a * a * d * d + 48 * a * a * b * b * e + (-112) * a * a * b * c * d +
    32 * a * a * c * c * c + 24 * a * b * b * b * d + (-8) * a * b * b * c * c) * (x * x) + ((-192) * a * a * a *
    d * e + 32 * a * a * b * c * e + 120 * a * a * b * d * d + (-16) * a * a * c * c * d + (-80) * a * b * b * c *
    d + 24 * a * b * c * c * c + 18 * b * b * b * b * d + (-6) * b * b * b * c * c) * x + (256 * a * a * a * e * e
    + (-176) * a * a * b * d * e + (-128) * a * a * c * c * e + 96 * a * a * c * d * d + 144 * a * b * b * c * e +
    1 * a * b * b * d * d + (-68) * a * b * c * c * d + 16 * a * c * c * c * c + (-27) * b * b * b * b * e + 15 *
    b * b * b * c * d + (-4) * b * b * c * c * c)),
    ((32 * a * a * a * c * e + (-36) * a * a * a * d * d + (-12) * a * a * b * b * e + 28 * a * a * b * c * d +
    (-8) * a * a * c * c * c + (-6) * a * b * b * b * d + 2 * a * b * b * c * c) * (x * x * x) + (48 * a * a * a *
    d * e + (-39) * a * a * b * d * d + 4 * a * a * c * c * d + (-3) * a * b * b * b * e + 27 * a * b * b * c * d
    + (-8) * a * b * c * c * c + (-6) * b * b * b * b * d + 2 * b * b * b * c * c) * (x * x) + ((-64) * a * a * a
    * e * e + 56 * a * a * b * d * e + 48 * a * a * c * c * e + (-42) * a * a * c * d * d + (-50) * a * b * b * c
    * e + (-1) * a * b * b * d * d + 32 * a * b * c * c * d + (-8) * a * c * c * c * c + 9 * b * b * b * b * e +
    (-7) * b * b * b * c * d + 2 * b * b * c * c * c) * x + ((-16) * a * a * b * e * e + 48 * a * a * c * d * e +
    (-27) * a * a * d * d * d + (-7) * a * b * b * d * e + (-12) * a * b * c * c * e + 18 * a * b * c * d * d +
    (-4) * a * c * c * c * d + 3 * b * b * b * c * e + (-4) * b * b * b * d * d + 1 * b * b * c * c * d)).
  unfold gval, gder, gdisc. ring.
Qed.
Lemma gdisc_rev a b c d e : gdisc e d c b a = gdisc a b c d e.
Proof. unfold gdisc. ring. Qed.
Lemma gdisc_spec a b c d e : 27 * gdisc a b c d e = discriminant a b c d e.
Proof. unfold gdisc, discriminant. cbv zeta. ring. Qed.

Lemma any_from_ok (P : Prop) (Q : Z -> Prop) test step : forall n x,
  (forall i, 0 <= i < Z.of_nat n -> exists s, test (x + i * step) = Ok s /\
      (s = true -> P) /\ (s = false -> Q (x + i * step))) ->
  exists s, any_from test n x step = Ok s /\ (s = true -> P) /\
    (s = false -> forall i, 0 <= i < Z.of_nat n -> Q (x + i * step)).
Proof.
  induction n as [|n IH]; intros x H; cbn [any_from].
  - exists false. split; [reflexivity|]. split; [discriminate|]. intros _ i I. lia.
  - destruct (H 0 ltac:(lia)) as (s & E & S1 & S0). rewrite Z.mul_0_l, Z.add_0_r in E, S0.
    rewrite E, bind_Ok. destruct s.
    + exists true. split; [reflexivity|]. split; [auto|discriminate].
    + destruct (IH (x + step)) as (s & E' & T1 & T0).
      * intros i I. destruct (H (i + 1) ltac:(lia)) as (s & E' & T).
        replace (x + step + i * step) with (x + (i + 1) * step) by ring. exists s. auto.
      * exists s. split; [exact E'|]. split; [exact T1|]. intros S i I.
        destruct (Z.eq_dec i 0) as [->|I0].
        -- rewrite Z.mul_0_l, Z.add_0_r. auto.
        -- replace (x + i * step) with (x + step + (i - 1) * step) by ring. apply T0; auto. lia.
Qed.

Lemma bounded_max (R : Z -> Z -> Prop) : forall n,
  (forall i, 0 <= i < Z.of_nat n -> exists N, 0 <= N /\ R i N) -> (forall i M N, 0 <= N <= M -> R i N -> R i M) ->
  exists N, 0 <= N /\ forall i, 0 <= i < Z.of_nat n -> R i N.
Proof.
  induction n as [|n IH]; intros H MON.
  - exists 0. split; [lia|]. intros; lia.
  - destruct IH as (N & N0 & HN); [intros i I; apply H; lia|exact MON|].
    destruct (H (Z.of_nat n) ltac:(lia)) as (M & M0 & HM).
    exists (Z.max N M). split; [lia|]. intros i I. destruct (Z.eq_dec i (Z.of_nat n)) as [->|].
    + apply MON with M; [lia|exact HM].
    + apply MON with N; [lia|]. apply HN. lia.
Qed.

Section Zp.
Variables a b c d e p : Z.
Hypothesis Hp : prime p.
Hypothesis HD : gdisc a b c d e <> 0.

Lemma sol_near_weaken nu x0 nu' x1 : 0 <= nu <= nu' -> (p ^ nu | x1 - x0) ->
  sol_near p a b c d e nu' x1 -> sol_near p a b c d e nu x0.
Proof.
  intros L D (X & Y & C1 & C2 & N & S). exists X, Y. split; [exact C1|]. split; [exact C2|]. split; [|exact S].
  intros n. replace (X n - x0) with (X n - x1 + (x1 - x0)) by ring. apply Z.divide_add_r; [|exact D].
  apply pw_dvd with nu'; [lia|apply N].
Qed.

Lemma insol_children nu x0 x1 : 0 <= nu -> (p ^ (nu + 1) | x1 - x0) ->
  (forall i, 0 <= i < p -> insol_near p a b c d e (nu + 1) (x1 + i * p ^ nu)) -> insol_near p a b c d e nu x0.
Proof.
  intros NU D H. pose proof (prime_ge_2 p Hp) as P.
  destruct (bounded_max (fun i N => forall x y, (p ^ (nu + 1) | x - (x1 + i * p ^ nu)) -> ~ (p ^ N | y * y - gval a b c d e x)) (Z.to_nat p))
    as (N & N0 & HN).
  - intros i I. rewrite Z2Nat.id in I by lia. destruct (H i I) as (N & N0 & HN). exists N. auto.
  - intros i M N L HN x y X Y. apply (HN x y X). apply pw_dvd with M; [lia|exact Y].
  - exists N. split; [exact N0|]. intros x y X.
    assert (X1 : (p ^ nu | x - x1)).
    { replace (x - x1) with (x - x0 - (x1 - x0)) by ring. apply Z.divide_sub_r; [exact X|].
      apply pw_dvd with (nu + 1); [lia|exact D]. }
    destruct X1 as (t & T). apply (HN (t mod p)).
    + rewrite Z2Nat.id by lia. apply Z.mod_pos_bound. lia.
    + pose proof (Z.div_mod t p ltac:(lia)) as DM. exists (t / p). rewrite pw_split, Z.pow_1_r by lia.
      replace (x - (x1 + t mod p * p ^ nu)) with (x - x1 - t mod p * p ^ nu) by ring. rewrite T.
      rewrite DM at 1. ring.
Qed.

Let L := Z.log2 (Z.abs (gdisc a b c d e)).

Lemma level_bound nu x : 1 <= nu -> (p ^ (nu - 1) | gval a b c d e x) -> (p ^ (nu - 1) | gder a b c d x) -> nu - 1 <= L.
Proof.
  intros NU D1 D2. pose proof (prime_ge_2 p Hp) as P. destruct (disc_bezout a b c d e x) as (A & B & E).
  assert (D : (p ^ (nu - 1) | gdisc a b c d e)).
  { rewrite <- E. apply Z.divide_add_r; apply Z.divide_mul_r; auto. }
  apply Z.divide_abs_r in D. apply Z.divide_pos_le in D; [|lia].
  apply Z.log2_le_pow2; [lia|]. apply Z.le_trans with (p ^ (nu - 1)); [|exact D].
  apply Z.pow_le_mono_l. lia.
Qed.

Lemma try_residue_ok x : exists s, try_residue a b c d e p 0 x = Ok s /\ (s = true -> sol_near p a b c d e 1 x).
Proof.
  unfold try_residue.
  assert (S6 : exists s, (r <- lemma6 a b c d e p (0 + 1) x ;; Ok (r =? 1)) = Ok s /\ (s = true -> sol_near p a b c d e 1 x)).
  { destruct (lemma6_ok a b c d e p 1 x Hp ltac:(lia)) as (r & E & R). cbn [Z.add]. rewrite E, bind_Ok. exists (r =? 1). split; [reflexivity|].
    intros T. apply Z.eqb_eq in T. destruct R as [(_ & R)|[(R & _)|(R & _)]]; [exact R|lia|lia]. }
  destruct (Z.eqb_spec p 2) as [P2|P2].
  - destruct (lemma7_ok a b c d e p 1 x Hp ltac:(lia) P2) as (r & E & R). cbn [Z.add] in *. rewrite E, !bind_Ok.
    destruct (Z.eqb_spec r 1) as [R1|R1].
    + exists true. split; [reflexivity|]. intros _. destruct R as [(_ & R)|[(R & _)|(R & _)]]; [exact R|lia|lia].
    + exact S6.
  - rewrite bind_Ok. exact S6.
Qed.

Lemma zpsol_ok : forall fuel nu x0, 0 <= nu <= L + 2 -> L + 3 <= nu + Z.of_nat fuel ->
  exists s, zpsol fuel a b c d e p x0 nu = Ok s /\
    (s = true -> sol_near p a b c d e nu x0) /\ (s = false -> insol_near p a b c d e nu x0).
Proof.
  pose proof (prime_ge_2 p Hp) as P. pose proof (Z.log2_nonneg (Z.abs (gdisc a b c d e))) as L0. fold L in L0.
  induction fuel as [|fuel IH]; intros nu x0 NU F; [lia|]. cbn [zpsol].
  assert (RES : exists r, (if p =? 2 then lemma7 a b c d e p nu x0 else lemma6 a b c d e p nu x0) = Ok r /\
    lem_res a b c d e p nu x0 False r).
  { destruct (Z.eqb_spec p 2) as [P2|P2].
    - apply lemma7_ok; auto. lia.
    - destruct (lemma6_ok a b c d e p nu x0 Hp ltac:(lia)) as (r & E & R). exists r. split; [exact E|].
      destruct R as [R|[(R & [R'|R'])|R]]; [left; exact R|contradiction|right; left; auto|right; right; exact R]. }
  destruct RES as (r & -> & R). rewrite bind_Ok.
  destruct R as [(-> & R)|[(-> & [[]|R])|(-> & R)]]; cbn [Z.eqb Pos.eqb].
  { exists true. split; [reflexivity|]. split; [auto|discriminate]. }
  { exists false. split; [reflexivity|]. split; [discriminate|auto]. }
  assert (NL : nu - 1 <= L).
  { destruct (Z_le_gt_dec 1 nu); [|lia]. apply (level_bound nu x0); [lia|apply R; lia|apply R; lia]. }
  cbv zeta.
  set (x1 := if nu =? 0 then x0 + p * p ^ nu else x0).
  assert (X1 : (p ^ (nu + 1) | x1 - x0)).
  { unfold x1. destruct (Z.eqb_spec nu 0) as [->|].
    - cbn [Z.add]. rewrite Z.pow_0_r, Z.pow_1_r. exists 1. ring.
    - rewrite Z.sub_diag. apply Z.divide_0_r. }
  assert (CH : exists s, any_from (fun x => zpsol fuel a b c d e p x (nu + 1)) (Z.to_nat p) x1 (p ^ nu) = Ok s /\
     (s = true -> sol_near p a b c d e nu x0) /\ (s = false -> insol_near p a b c d e nu x0)).
  { destruct (any_from_ok (sol_near p a b c d e nu x0) (fun x => insol_near p a b c d e (nu + 1) x)
      (fun x => zpsol fuel a b c d e p x (nu + 1)) (p ^ nu) (Z.to_nat p) x1) as (s & E & S1 & S0).
    - intros i I. destruct (IH (nu + 1) (x1 + i * p ^ nu)) as (s & E & S1 & S0); [lia|lia|].
      exists s. split; [exact E|]. split; [|exact S0]. intros T.
      apply (sol_near_weaken nu x0 (nu + 1) (x1 + i * p ^ nu)); [lia| |auto].
      replace (x1 + i * p ^ nu - x0) with (x1 - x0 + i * p ^ nu) by ring.
      apply Z.divide_add_r; [|apply Z.divide_factor_r]. apply pw_dvd with (nu + 1); [lia|exact X1].
    - exists s. split; [exact E|]. split; [exact S1|]. intros T.
      apply (insol_children nu x0 x1); [lia|exact X1|]. intros i I. apply S0; auto. rewrite Z2Nat.id by lia. exact I. }
  destruct (Z.eqb_spec nu 0) as [N0|N0].
  - destruct (any_from_ok (sol_near p a b c d e nu x0) (fun _ => True) (try_residue a b c d e p nu) (p ^ nu)
      (Z.to_nat p) x0) as (s & E & S1 & _).
    + intros i _. rewrite N0. destruct (try_residue_ok (x0 + i * p ^ 0)) as (s & E & S). exists s.
      split; [exact E|]. split; [|auto]. intros T. apply (sol_near_weaken 0 x0 1 (x0 + i * p ^ 0)); [lia| |auto].
      rewrite Z.pow_0_r. apply Z.divide_1_l.
    + rewrite E, bind_Ok. destruct s; [|exact CH]. exists true. split; [reflexivity|]. split; [auto|discriminate].
  - rewrite bind_Ok. exact CH.
Qed.
End Zp.

Lemma form_affine a b c d e x : quartic_form a b c d e x 1 = gval a b c d e x.
Proof. unfold quartic_form, gval. ring. Qed.
Lemma form_infinity a b c d e x : quartic_form a b c d e 1 x = gval e d c b a x.
Proof. unfold quartic_form, gval. ring. Qed.
Lemma form_swap a b c d e x z : quartic_form a b c d e x z = quartic_form e d c b a z x.
Proof. unfold quartic_form. ring. Qed.

(** a point with z prime to p gives one with z = 1 *)
Lemma affine_point p a b c d e N x z y : prime p -> 0 <= N -> ~ (p | z) -> (p ^ N | y * y - quartic_form a b c d e x z) ->
  exists x' y', (p ^ N | y' * y' - gval a b c d e x') /\ ((p | x) -> (p | x')).
Proof.
  intros Hp N0 NZ D. pose proof (prime_ge_2 p Hp) as P.
  assert (G : Zis_gcd z (p ^ N) 1).
  { rewrite <- (Z.pow_1_r z). apply rel_prime_Zpower; [lia|lia|].
    apply rel_prime_sym, prime_rel_prime; auto. }
  destruct (Zis_gcd_bezout z (p ^ N) 1 G) as [w v E].
  exists (x * w), (y * w * w). split; [|intros X; apply Z.divide_mul_l, X].
  replace (y * w * w * (y * w * w) - gval a b c d e (x * w)) with
    (w * w * w * w * (y * y - quartic_form a b c d e x z) +
     (quartic_form a b c d e (x * w) (w * z) - quartic_form a b c d e (x * w) 1))
    by (unfold quartic_form, gval; ring).
  apply Z.divide_add_r; [apply Z.divide_mul_r, D|].
  assert (E' : w * z = 1 + p ^ N * (- v)) by lia. rewrite E'. set (q := p ^ N) in *. set (X := x * w).
  exists (- v * (b * X ^ 3 + c * X ^ 2 * (2 + q * - v) + d * X * (3 + 3 * (q * - v) + (q * - v) ^ 2)
     + e * (4 + 6 * (q * - v) + 4 * (q * - v) ^ 2 + (q * - v) ^ 3))).
  unfold quartic_form. ring.
Qed.

Theorem qpsoluble_ok a b c d e p : prime p -> gdisc a b c d e <> 0 ->
  exists s, qpsoluble a b c d e p = Ok s /\
    (s = true -> padic_point p a b c d e) /\ (s = false -> exists N, 0 <= N /\ no_solution_mod p N a b c d e).
Proof.
  intros Hp HD. pose proof (prime_ge_2 p Hp) as P. unfold qpsoluble, loc_fuel.
  pose proof (Z.log2_nonneg (Z.abs (gdisc a b c d e))) as L0.
  set (L := Z.log2 (Z.abs (gdisc a b c d e))) in *. set (f := (Z.to_nat L + 4)%nat).
  destruct (zpsol_ok a b c d e p Hp HD f 0 0) as (s & -> & S1 & S0); [fold L; lia|fold L; unfold f; lia|].
  rewrite bind_Ok. destruct s.
  { exists true. split; [reflexivity|]. split; [|discriminate]. intros _.
    destruct (S1 eq_refl) as (X & Y & C1 & C2 & _ & S). exists X, (fun _ => 1), Y.
    split; [exact C1|]. split; [apply coherent_const|]. split; [exact C2|]. split.
    - intros (_ & H). apply Z.divide_pos_le in H; lia.
    - intros n. rewrite form_affine. apply S. }
  destruct (zpsol_ok e d c b a p Hp) with (fuel := f) (nu := 1) (x0 := 0) as (s & -> & T1 & T0).
  { rewrite gdisc_rev. exact HD. } { rewrite gdisc_rev. fold L. lia. } { rewrite gdisc_rev. fold L. unfold f. lia. }
  exists s. split; [reflexivity|]. split.
  - intros ->. destruct (T1 eq_refl) as (X & Y & C1 & C2 & _ & S). exists (fun _ => 1), X, Y.
    split; [apply coherent_const|]. split; [exact C1|]. split; [exact C2|]. split.
    + intros (H & _). apply Z.divide_pos_le in H; lia.
    + intros n. rewrite form_infinity. apply S.
  - intros ->. destruct (S0 eq_refl) as (N & N0 & HN). destruct (T0 eq_refl) as (M & M0 & HM).
    exists (Z.max N M). split; [lia|]. intros x z y PR D.
    destruct (Znumtheory.Zdivide_dec p z) as [Z0|Z0].
    + destruct (affine_point p e d c b a (Z.max N M) z x y Hp ltac:(lia)) as (x' & y' & D' & Q).
      * intros H. apply PR. auto.
      * rewrite <- form_swap. exact D.
      * apply (HM x' y'); [rewrite Z.pow_1_r, Z.sub_0_r; auto|]. apply pw_dvd with (Z.max N M); [lia|exact D'].
    + destruct (affine_point p a b c d e (Z.max N M) x z y Hp ltac:(lia) Z0 D) as (x' & y' & D' & _).
      apply (HN x' y'); [rewrite Z.pow_0_r; apply Z.divide_1_l|]. apply pw_dvd with (Z.max N M); [lia|exact D'].
Qed.
