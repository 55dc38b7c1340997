(** local_sol and new_qpsoluble of mlocsol.cc decide solubility over the p-adic numbers. *)
From Coq Require Import ZArith Lia List Bool Znumtheory.
From Verif Require Import Base RatModel RatProofs MArithModel MArithProofs LegendreSpec SqrtModProofs ConicLocal
  LocSolModel LocSolSpec LocSolArith LocSolLocal LocSolProofs LocSolSSModel LocSolSSSpec LocSolSSField.
Import ListNotations.
Open Scope Z_scope.
Open Scope res_scope.

Section P.
Variables p : Z.
Hypothesis Hp : prime p.
Hypothesis p7 : 6 < p.
Variable factor : list Z -> list (list Z * Z).
Hypothesis Hf : factors_poly p factor.

Definition sol (c : q5) : Prop :=
  exists X Y, coherent p X /\ coherent p Y /\ forall n, (p ^ Z.of_nat n | Y n * Y n - fval c (X n)).
Definition insol_at (c : q5) (r : Z) : Prop :=
  exists N, 0 <= N /\ forall x y, (p | x - r) -> ~ (p ^ N | y * y - fval c x).
Definition insol (c : q5) : Prop := exists N, 0 <= N /\ forall x y, ~ (p ^ N | y * y - fval c x).

Lemma dvd_sq z : (p | z) -> (p * p | z * z).
Proof. intros (k & ->). exists (k * k). ring. Qed.
Lemma prime_sq y : (p | y * y) -> (p | y).
Proof. intros D. apply prime_mult in D; [destruct D; auto|exact Hp]. Qed.

Lemma good_sol c x : good p c x -> sol c.
Proof.
  destruct c as [[[[c0 c1] c2] c3] c4]. intros [(D & N)|(N & y & Y)]; cbn [fval fder] in *.
  - destruct (hensel p c4 c3 c2 c1 c0 1 0 x Hp) as (f & C & _ & F); [lia| |rewrite Z.pow_1_r; exact D|].
    + split; [rewrite Z.pow_0_r; apply Z.divide_1_l|rewrite Z.pow_1_r; exact N].
    + exists f, (fun _ => 0). split; [exact C|]. split; [apply coherent_const|]. intros n. cbn [fval].
      rewrite Z.mul_0_l. apply Z.divide_sub_r; [apply Z.divide_0_r|apply F].
  - destruct (unit_square_odd p _ y Hp ltac:(lia) N Y) as (f & C & F).
    exists (fun _ => x), f. split; [apply coherent_const|]. split; [exact C|exact F].
Qed.

(** ** one step of the recursion *)
Lemma pull_sol c d r : (forall X, fval c (p * X + r) = p * p * fval d X) -> sol d -> sol c.
Proof.
  intros E (X & Y & CX & CY & H). exists (fun n => p * X n + r), (fun n => p * Y n). split; [|split].
  - intros n. replace (p * X (S n) + r - (p * X n + r)) with (p * (X (S n) - X n)) by ring. apply Z.divide_mul_r, CX.
  - intros n. rewrite <- Z.mul_sub_distr_l. apply Z.divide_mul_r, CY.
  - intros n. rewrite E. replace (p * Y n * (p * Y n) - p * p * fval d (X n)) with (p * p * (Y n * Y n - fval d (X n))) by ring.
    apply Z.divide_mul_r, H.
Qed.
Lemma divide_square N y v : 0 <= N -> (p ^ (N + 2) | y * y - p * p * v) -> exists z, (p ^ N | z * z - v).
Proof.
  intros N0 D. rewrite Z.pow_add_r, Z.pow_2_r in D by lia.
  assert (Y : (p | y)).
  { apply prime_sq. apply (dvd_cong' p (y * y) (p * p * v)).
    - apply Z.divide_trans with (2 := D). exists (p ^ N * p). ring.
    - exists (p * v). ring. }
  destruct Y as (z & ->). exists z.
  replace (z * p * (z * p) - p * p * v) with (p * p * (z * z - v)) in D by ring.
  rewrite (Z.mul_comm (p ^ N)) in D. apply dvd_cancel in D; [exact D|]. apply Z.neq_mul_0; lia.
Qed.
Lemma pull_insol c d r : (forall X, fval c (p * X + r) = p * p * fval d X) -> insol d -> insol_at c r.
Proof.
  intros E (N & N0 & H). exists (N + 2). split; [lia|]. intros x y (t & T) D.
  replace x with (p * t + r) in D by lia. rewrite E in D.
  destruct (divide_square N y _ N0 D) as (z & Z). exact (H _ _ Z).
Qed.
Lemma insol_list c N0 (rs : list Z) : 0 <= N0 ->
  (forall x y, (p ^ N0 | y * y - fval c x) -> exists r, In r rs /\ (p | x - r)) -> (forall r, In r rs -> insol_at c r) -> insol c.
Proof.
  intros H0 COV H.
  assert (M : exists N, 0 <= N /\ forall r, In r rs -> forall x y, (p | x - r) -> ~ (p ^ N | y * y - fval c x)).
  { clear COV. induction rs as [|r rs IH].
    - exists 0. split; [lia|]. intros r [].
    - destruct IH as (N & NN & HN); [intros q Q; apply H; right; exact Q|].
      destruct (H r (or_introl eq_refl)) as (M & MM & HM). exists (Z.max N M). split; [lia|].
      intros q [<-|Q] x y X D.
      + apply (HM x y X). apply pw_dvd with (Z.max N M); [lia|exact D].
      + apply (HN q Q x y X). apply pw_dvd with (Z.max N M); [lia|exact D]. }
  destruct M as (N & NN & HN). exists (Z.max N N0). split; [lia|]. intros x y D.
  destruct (COV x y) as (r & R & X); [apply pw_dvd with (Z.max N N0); [lia|exact D]|].
  apply (HN r R x y X). apply pw_dvd with (Z.max N N0); [lia|exact D].
Qed.

Lemma first_nonzero_ok (A : Type) (f : A -> res Z) (S : Prop) (Q : A -> Prop) : forall l,
  (forall x, In x l -> (f x = Ok 1 /\ S) \/ (f x = Ok 0 /\ Q x)) ->
  (first_nonzero f l = Ok 1 /\ S) \/ (first_nonzero f l = Ok 0 /\ forall x, In x l -> Q x).
Proof.
  induction l as [|x l IH]; intros H; cbn [first_nonzero].
  - right. split; [reflexivity|]. intros x [].
  - destruct (H x (or_introl eq_refl)) as [(-> & K)|(-> & K)]; rewrite bind_Ok; cbn [Z.eqb].
    + left. auto.
    + destruct IH as [IH|(IH & J)]; [intros y Y; apply H; right; exact Y|left; exact IH|].
      right. split; [exact IH|]. intros y [<-|Y]; auto.
Qed.

(** ** divisions *)
Lemma all_div_ok m l : m <> 0 -> exists b, all_div m l = Ok b /\ (b = true -> forall x, In x l -> (m | x)) /\
  (b = false -> exists x, In x l /\ ~ (m | x)).
Proof.
  intros M. induction l as [|c l (b & E & B1 & B0)]; cbn [all_div].
  - exists true. split; [reflexivity|]. split; [intros _ x []|discriminate].
  - rewrite div_z_dvb, bind_Ok by exact M. pose proof (dvb_iff c m M) as I. destruct (dvb c m).
    + exists b. split; [exact E|]. split.
      * intros T x [<-|X]; [apply I; reflexivity|auto].
      * intros T. destruct (B0 T) as (x & X & N). exists x. split; [right; exact X|exact N].
    + exists false. split; [reflexivity|]. split; [discriminate|]. intros _. exists c. split; [left; reflexivity|].
      intros D. apply I in D. discriminate.
Qed.
Definition scale (k : Z) (c : q5) : q5 := let '(c0, c1, c2, c3, c4) := c in (k * c0, k * c1, k * c2, k * c3, k * c4).
Lemma div_all_ok m c : m <> 0 -> (forall x, In x (coeffs c) -> (m | x)) -> exists d, div_all m c = Ok d /\ c = scale m d.
Proof.
  intros M H. destruct c as [[[[c0 c1] c2] c3] c4]. cbn [coeffs] in H.
  assert (Q : forall x, In x [c0; c1; c2; c3; c4] -> x = m * (x / m)).
  { intros x X. destruct (H x X) as (q & ->). rewrite Z.div_mul by exact M. ring. }
  exists (c0 / m, c1 / m, c2 / m, c3 / m, c4 / m). unfold div_all. rewrite !zz_div_ok, !bind_Ok by exact M. cbn [bind].
  split; [reflexivity|]. cbn [scale]. rewrite <- !Q by (cbn; auto 10). reflexivity.
Qed.
Lemma fval_scale m d x : fval (scale m d) x = m * fval d x.
Proof. destruct d as [[[[c0 c1] c2] c3] c4]. cbn [fval scale]. unfold gval. ring. Qed.
Lemma fder_scale m d x : fder (scale m d) x = m * fder d x.
Proof. destruct d as [[[[c0 c1] c2] c3] c4]. cbn [fder scale]. unfold gder. ring. Qed.

Lemma find_unit_ok c0 c1 c2 c3 c4 : nonzero p (c0, c1, c2, c3, c4) ->
  exists u k, find_unit p [c4; c3; c2; c1; c0] 4 = Ok (u, Z.of_nat k - 1) /\ (k < 5)%nat /\ top p (c0, c1, c2, c3, c4) u k.
Proof.
  intros (x & X & N). assert (P0 : p <> 0) by lia. cbn [find_unit].
  rewrite !div_z_dvb, !bind_Ok by exact P0.
  pose proof (dvb_iff c0 p P0) as I0. pose proof (dvb_iff c1 p P0) as I1. pose proof (dvb_iff c2 p P0) as I2.
  pose proof (dvb_iff c3 p P0) as I3. pose proof (dvb_iff c4 p P0) as I4.
  unfold top.
  destruct (dvb c4 p).
  2:{ exists c4, 4%nat. split; [reflexivity|]. split; [lia|]. cbn [coeffs nth]. split; [reflexivity|].
      split; [rewrite <- I4; discriminate|]. intros j J. lia. }
  rewrite ?bind_Ok. destruct (dvb c3 p).
  2:{ exists c3, 3%nat. split; [reflexivity|]. split; [lia|]. cbn [coeffs nth]. split; [reflexivity|].
      split; [rewrite <- I3; discriminate|]. intros j J. assert (j = 4)%nat by lia. subst j. cbn. apply I4. reflexivity. }
  rewrite ?bind_Ok. destruct (dvb c2 p).
  2:{ exists c2, 2%nat. split; [reflexivity|]. split; [lia|]. cbn [coeffs nth]. split; [reflexivity|].
      split; [rewrite <- I2; discriminate|]. intros j J. assert (j = 3 \/ j = 4)%nat as [->| ->] by lia; cbn; [apply I3|apply I4]; reflexivity. }
  rewrite ?bind_Ok. destruct (dvb c1 p).
  2:{ exists c1, 1%nat. split; [reflexivity|]. split; [lia|]. cbn [coeffs nth]. split; [reflexivity|].
      split; [rewrite <- I1; discriminate|]. intros j J. assert (j = 2 \/ j = 3 \/ j = 4)%nat as [->|[->| ->]] by lia; cbn; [apply I2|apply I3|apply I4]; reflexivity. }
  rewrite ?bind_Ok. destruct (dvb c0 p).
  - exfalso. apply N. cbn in X. destruct X as [<-|[<-|[<-|[<-|[<-|[]]]]]]; [apply I0|apply I1|apply I2|apply I3|apply I4]; reflexivity.
  - exists c0, 0%nat. split; [reflexivity|]. split; [lia|]. cbn [coeffs nth]. split; [reflexivity|].
    split; [rewrite <- I0; discriminate|]. intros j J. assert (j = 1 \/ j = 2 \/ j = 3 \/ j = 4)%nat as [->|[->|[->| ->]]] by lia; cbn;
    [apply I1|apply I2|apply I3|apply I4]; reflexivity.
Qed.

(** ** the substitutions *)
Lemma div_exact a b : b <> 0 -> (b | a) -> exists q, zz_div a b = Ok q /\ a = b * q.
Proof.
  intros B (q & ->). exists q. rewrite zz_div_ok by exact B. rewrite Z.div_mul by exact B. split; [reflexivity|ring].
Qed.
Lemma shift2_ok dd rt : (p | fval dd rt) -> exists d, shift2 p dd rt = Ok d /\
  (forall X, fval (scale p dd) (p * X + rt) = p * p * fval d X) /\ (forall X, fder (scale p dd) (p * X + rt) = p * fder d X).
Proof.
  destruct dd as [[[[c0 c1] c2] c3] c4]. cbn [fval fder scale]. intros D.
  destruct (div_exact (gval c4 c3 c2 c1 c0 rt) p ltac:(lia) D) as (q & E & Q). unfold shift2.
  change ((((c4 * rt + c3) * rt + c2) * rt + c1) * rt + c0) with (gval c4 c3 c2 c1 c0 rt). rewrite E, bind_Ok.
  eexists. split; [reflexivity|]. cbn [fval fder]. split; intros X.
  - transitivity (p * (gval c4 c3 c2 c1 c0 rt + (gval c4 c3 c2 c1 c0 (p * X + rt) - gval c4 c3 c2 c1 c0 rt))); [unfold gval; ring|].
    rewrite Q at 1. unfold gval. ring.
  - unfold gder. ring.
Qed.
Lemma shift1_ok c r : (p * p | fval c r) -> (p | fder c r) -> exists d, shift1 p c r = Ok d /\
  (forall X, fval c (p * X + r) = p * p * fval d X) /\ (forall X, fder c (p * X + r) = p * fder d X).
Proof.
  destruct c as [[[[c0 c1] c2] c3] c4]. cbn [fval fder]. intros D1 D2.
  destruct (div_exact (gval c4 c3 c2 c1 c0 r) (p * p)) as (q & E & Q); [apply Z.neq_mul_0; lia|exact D1|].
  destruct (div_exact (2 * c2 * r + 4 * c4 * r * r * r + 3 * c3 * r * r + c1) p ltac:(lia)) as (q' & E' & Q').
  { replace (2 * c2 * r + 4 * c4 * r * r * r + 3 * c3 * r * r + c1) with (gder c4 c3 c2 c1 r) by (unfold gder; ring). exact D2. }
  unfold shift1.
  change ((((c4 * r + c3) * r + c2) * r + c1) * r + c0) with (gval c4 c3 c2 c1 c0 r). rewrite E', bind_Ok, E, bind_Ok.
  assert (Q2 : gder c4 c3 c2 c1 r = p * q') by (rewrite <- Q'; unfold gder; ring).
  eexists. split; [reflexivity|]. cbn [fval fder]. split; intros X.
  - transitivity (gval c4 c3 c2 c1 c0 r + p * X * gder c4 c3 c2 c1 r + p * X * (p * X) * gtay c4 c3 c2 r (p * X)).
    { rewrite <- taylor. f_equal. ring. }
    rewrite Q, Q2. unfold gval, gtay. ring.
  - transitivity (gder c4 c3 c2 c1 r + (gder c4 c3 c2 c1 (p * X + r) - gder c4 c3 c2 c1 r)); [ring|].
    rewrite Q2 at 1. unfold gder. ring.
Qed.

(** ** how deep the recursion can go *)
Variable f0 : q5.
Definition qdisc (c : q5) : Z := let '(c0, c1, c2, c3, c4) := c in gdisc c4 c3 c2 c1 c0.
Hypothesis HD : qdisc f0 <> 0.
Definition reach (c : q5) (m : Z) : Prop :=
  exists k r, 0 <= k <= m /\ forall X, p ^ (2 * m) * fval c X = fval f0 (p ^ k * X + r) /\
    p ^ (2 * m - k) * fder c X = fder f0 (p ^ k * X + r).
Lemma reach_0 : reach f0 0.
Proof.
  exists 0, 0. split; [lia|]. intros X. change (2 * 0) with 0. rewrite Z.sub_0_r, Z.pow_0_r, !Z.mul_1_l, !Z.add_0_r. split; reflexivity.
Qed.
Lemma reach_scale d m : reach (scale (p * p) d) m -> reach d (m + 1).
Proof.
  intros (k & r & K & H). exists k, r. split; [lia|]. intros X. destruct (H X) as (H1 & H2).
  rewrite fval_scale in H1. rewrite fder_scale in H2. split.
  - rewrite <- H1. replace (2 * (m + 1)) with (2 * m + 2) by ring. rewrite Z.pow_add_r, Z.pow_2_r by lia. ring.
  - rewrite <- H2. replace (2 * (m + 1) - k) with (2 * m - k + 2) by ring. rewrite Z.pow_add_r, Z.pow_2_r by lia. ring.
Qed.
Lemma reach_shift c d rt m : (forall X, fval c (p * X + rt) = p * p * fval d X) -> (forall X, fder c (p * X + rt) = p * fder d X) ->
  reach c m -> reach d (m + 1).
Proof.
  intros E1 E2 (k & r & K & H). exists (k + 1), (p ^ k * rt + r). split; [lia|]. intros X. destruct (H (p * X + rt)) as (H1 & H2).
  rewrite E1 in H1. rewrite E2 in H2. rewrite (Z.pow_add_r p k 1), Z.pow_1_r by lia.
  replace (p ^ k * p * X + (p ^ k * rt + r)) with (p ^ k * (p * X + rt) + r) by ring. split.
  - rewrite <- H1. replace (2 * (m + 1)) with (2 * m + 2) by ring. rewrite Z.pow_add_r, Z.pow_2_r by lia. ring.
  - rewrite <- H2. replace (2 * (m + 1) - (k + 1)) with (2 * m - k + 1) by ring. rewrite Z.pow_add_r, Z.pow_1_r by lia. ring.
Qed.
Lemma reach_bound c m : reach c m -> m <= Z.log2 (Z.abs (qdisc f0)).
Proof.
  intros (k & r & K & H). destruct (H 0) as (H1 & H2). rewrite Z.mul_0_r, Z.add_0_l in H1, H2.
  assert (D1 : (p ^ m | fval f0 r)) by (rewrite <- H1; apply Z.divide_mul_l, pw_div; lia).
  assert (D2 : (p ^ m | fder f0 r)) by (rewrite <- H2; apply Z.divide_mul_l, pw_div; lia).
  assert (M : 1 <= m + 1) by lia. clear H H1 H2.
  assert (G : forall a b c d e, gdisc a b c d e <> 0 -> (p ^ m | gval a b c d e r) -> (p ^ m | gder a b c d r) ->
    m <= Z.log2 (Z.abs (gdisc a b c d e))).
  { intros a b c1 d e HD' E1 E2. pose proof (level_bound a b c1 d e p Hp HD' (m + 1) r M) as LB.
    replace (m + 1 - 1) with m in LB by ring. exact (LB E1 E2). }
  revert HD D1 D2. destruct f0 as [[[[c0 c1] c2] c3] c4]. exact (G c4 c3 c2 c1 c0).
Qed.

Definition outcome (c : q5) (r : res Z) : Prop := (r = Ok 1 /\ sol c) \/ (r = Ok 0 /\ insol c).

(** all coefficients divisible by p, not all by p^2 *)
Lemma case_p fuel dd m : nonzero p dd -> reach (scale p dd) m ->
  (forall d, reach d (m + 1) -> outcome d (local_sol factor p fuel d)) ->
  outcome (scale p dd)
    (let fact_f := factor (coeffs dd) in
     if existsb (fun '(F, e) => (pdeg F =? 1) && (e =? 1)) fact_f then Ok 1
     else
       first_nonzero (fun '(F, e) =>
         if (pdeg F =? 1) && negb (e =? 1) then d <- shift2 p dd (- pcoeff F 0) ;; local_sol factor p fuel d else Ok 0) fact_f).
Proof.
  intros NZ R IH. cbv zeta. set (l := factor (coeffs dd)).
  destruct (existsb _ l) eqn:EX.
  - left. split; [reflexivity|]. apply existsb_exists in EX. destruct EX as ((F, e) & I & T).
    apply andb_prop in T. destruct T as (T1 & T2). apply Z.eqb_eq in T1, T2. subst e.
    destruct (simple_root Hp p7 Hf NZ I T1) as (A & B).
    destruct dd as [[[[c0 c1] c2] c3] c4]. cbn [fval fder scale] in *.
    destruct (hensel p c4 c3 c2 c1 c0 1 0 (- pcoeff F 0) Hp) as (f & C & _ & HF); [lia| |rewrite Z.pow_1_r; exact A|].
    + split; [rewrite Z.pow_0_r; apply Z.divide_1_l|rewrite Z.pow_1_r; exact B].
    + exists f, (fun _ => 0). split; [exact C|]. split; [apply coherent_const|]. intros n. cbn [fval].
      replace (0 * 0 - gval (p * c4) (p * c3) (p * c2) (p * c1) (p * c0) (f n)) with (- p * gval c4 c3 c2 c1 c0 (f n)) by (unfold gval; ring).
      apply Z.divide_mul_r, HF.
  - destruct (first_nonzero_ok _ (fun '(F, e) =>
         if (pdeg F =? 1) && negb (e =? 1) then d <- shift2 p dd (- pcoeff F 0) ;; local_sol factor p fuel d else Ok 0)
       (sol (scale p dd)) (fun '(F, e) => pdeg F = 1 -> insol_at (scale p dd) (- pcoeff F 0)) l) as [(E & S1)|(E & S0)].
    + intros (F, e) I. destruct (Z.eqb_spec (pdeg F) 1) as [D|D]; cbn [andb]; [|right; split; [reflexivity|intros D'; contradiction]].
      destruct (Z.eqb_spec e 1) as [->|E1]; cbn [negb].
      { exfalso. assert (T : existsb (fun '(F, e) => (pdeg F =? 1) && (e =? 1)) l = true); [|congruence].
        apply existsb_exists. exists (F, 1). split; [exact I|]. rewrite D. reflexivity. }
      destruct (multiple_root Hp p7 Hf NZ I D E1) as (A & B).
      destruct (shift2_ok dd (- pcoeff F 0) A) as (d & -> & V1 & V2). rewrite bind_Ok.
      destruct (IH d (reach_shift _ _ _ _ V1 V2 R)) as [(E & S1)|(E & S0)].
      * left. split; [exact E|]. apply (pull_sol _ d (- pcoeff F 0)); auto.
      * right. split; [exact E|]. intros _. apply (pull_insol _ d); auto.
    + left. auto.
    + right. split; [exact E|]. 
      apply (insol_list _ 2 (map (fun '(F, _) => - pcoeff F 0) (filter (fun '(F, _) => pdeg F =? 1) l))); [lia| |].
      * intros x y D. rewrite fval_scale, Z.pow_2_r in D.
        assert (PY : (p | y)).
        { apply prime_sq. apply (dvd_cong' p (y * y) (p * fval dd x)); [|apply Z.divide_factor_l].
          apply Z.divide_trans with (2 := D). apply Z.divide_factor_l. }
        assert (PV : (p | fval dd x)).
        { apply (dvd_cancel p); [lia|]. destruct PY as (z & ->). apply (dvd_cong (p * p) (z * p * (z * p)) _ D).
          exists (z * z). ring. }
        destruct (all_roots Hp p7 Hf NZ PV) as (F & e & I & DF & H).
        exists (- pcoeff F 0). split; [|exact H]. apply in_map_iff. exists (F, e). split; [reflexivity|].
        apply filter_In. split; [exact I|]. rewrite DF. reflexivity.
      * intros r I. apply in_map_iff in I. destruct I as ((F, e) & <- & I). apply filter_In in I. destruct I as (I & D).
        apply Z.eqb_eq in D. exact (S0 (F, e) I D).
Qed.

(** some coefficient not divisible by p *)
Lemma case_unit fuel c m : nonzero p c -> reach c m ->
  (forall d, reach d (m + 1) -> outcome d (local_sol factor p fuel d)) ->
  outcome c
    (let '(c0, c1, c2, c3, c4) := c in
      '(unit, i) <- find_unit p [c4; c3; c2; c1; c0] 4 ;;
      l <- legendre_z unit p ;;
      if l =? 1 then Ok 1
      else if i =? -1 then Ok 0
      else
        let fact_f := factor (coeffs c) in
        if existsb (fun '(_, e) => negb (Z.rem e 2 =? 0)) fact_f then Ok 1
        else
          let roots := map (fun '(F, _) => - pcoeff F 0) (filter (fun '(F, _) => pdeg F =? 1) fact_f) in
          if (2 <? length roots)%nat then UB
          else match roots with
          | [] => Ok 0
          | _ =>
            F <- square_root_poly p fact_f ;;
            let g2 := pcoeff F 0 in
            let g1 := pcoeff F 1 in
            let g0 := if pdeg F =? 2 then 1 else 0 in
            h4 <- zz_div (c4 - unit * g0 * g0) p ;;
            h3 <- zz_div (c3 - 2 * unit * g1 * g0) p ;;
            h2 <- zz_div (c2 - 2 * unit * g2 * g0 - unit * g1 * g1) p ;;
            h1 <- zz_div (c1 - 2 * unit * g1 * g2) p ;;
            h0 <- zz_div (c0 - unit * g2 * g2) p ;;
            first_nonzero (fun r =>
              te <- zz_mod (((h4 * r + h3) * r + h2) * r) p ;;
              te <- zz_mod ((te + h1) * r + h0) p ;;
              if te =? 0 then d <- shift1 p c r ;; local_sol factor p fuel d else Ok 0) roots
          end).
Proof.
  intros NZ R IH. destruct c as [[[[c0 c1] c2] c3] c4]. set (c := (c0, c1, c2, c3, c4)) in *.
  destruct (find_unit_ok c0 c1 c2 c3 c4 NZ) as (u & k & -> & K & T). rewrite bind_Ok. fold c in T.
  destruct (legendre_prime u p Hp ltac:(lia)) as (s & -> & _ & L1 & L0). rewrite bind_Ok.
  assert (U : ~ (p | u)) by (destruct T as (_ & U & _); exact U).
  destruct (Z.eqb_spec s 1) as [->|S1].
  { left. split; [reflexivity|].
    assert (SQ : exists y, (p | y * y - u)).
    { destruct (sqroot_dec u p ltac:(lia)) as [Y|Y]; [exact Y|]. discriminate (L0 U Y). }
    destruct SQ as (y & Y). destruct (top_square Hp p7 K T Y) as (x & G). exact (good_sol c x G). }
  assert (NS : forall y z, (p | y * y - u * (z * z)) -> (p | z)).
  { intros y z D. destruct (Znumtheory.Zdivide_dec p z) as [|Z0]; [assumption|exfalso]. apply S1, (L1 U).
    destruct (inverse_sig p z Hp Z0) as (w & W). exists (y * w).
    replace (y * w * (y * w) - u) with (w * w * (y * y - u * (z * z)) + u * (w * z + 1) * (w * z - 1)) by ring.
    apply Z.divide_add_r; apply Z.divide_mul_r; auto. }
  destruct (Z.eqb_spec (Z.of_nat k - 1) (-1)) as [K0|K0].
  { assert (k = 0%nat) by lia. subst k. right. split; [reflexivity|]. exists 1. split; [lia|]. intros x y D.
    rewrite Z.pow_1_r in D. destruct T as (E & _ & T). cbn [nth coeffs c] in E. subst u.
    pose proof (T 1%nat ltac:(lia)) as T1. pose proof (T 2%nat ltac:(lia)) as T2.
    pose proof (T 3%nat ltac:(lia)) as T3. pose proof (T 4%nat ltac:(lia)) as T4. cbn [nth coeffs c] in T1, T2, T3, T4.
    assert (P1 : (p | 1)); [|apply Z.divide_pos_le in P1; lia].
    apply (NS y 1). replace (y * y - c0 * (1 * 1)) with (y * y - fval c x + x * (((c4 * x + c3) * x + c2) * x + c1)) by (cbn [fval c]; unfold gval; ring).
    apply Z.divide_add_r; [exact D|]. apply Z.divide_mul_r.
    repeat (apply Z.divide_add_r; [apply Z.divide_mul_l|assumption]). exact T4. }
  cbv zeta. set (l := factor (coeffs c)).
  destruct (existsb (fun '(_, e) => negb (Z.rem e 2 =? 0)) l) eqn:EX.
  { left. split; [reflexivity|]. apply existsb_exists in EX. destruct EX as ((F, e) & I & O).
    apply negb_true_iff, Z.eqb_neq in O.
    destruct (odd_exponent Hp p7 Hf NZ I O) as (x & G). exact (good_sol c x G). }
  assert (EV : forall F e, In (F, e) l -> Z.rem e 2 = 0).
  { intros F e I. destruct (Z.eq_dec (Z.rem e 2) 0) as [|O]; [assumption|exfalso].
    assert (Tr : existsb (fun '(_, e) => negb (Z.rem e 2 =? 0)) l = true); [|congruence].
    apply existsb_exists. exists (F, e). split; [exact I|]. apply negb_true_iff, Z.eqb_neq, O. }
  assert (KK : (0 < k)%nat /\ (k < 5)%nat) by lia.
  destruct (even_exponents Hp p7 Hf KK T EV) as (LF & G & EG & D4 & D3 & D2 & D1 & D0).
  set (roots := map (fun '(F, _) => - pcoeff F 0) (filter (fun '(F, _) => pdeg F =? 1) l)).
  assert (LR : (2 <? length roots)%nat = false).
  { apply Nat.ltb_ge. unfold roots. rewrite map_length. exact LF. }
  rewrite LR.
  set (g2 := pcoeff G 0) in *. set (g1 := pcoeff G 1) in *. set (g0 := if pdeg G =? 2 then 1 else 0) in *.
  destruct (div_exact _ p ltac:(lia) D4) as (h4 & E4 & H4). destruct (div_exact _ p ltac:(lia) D3) as (h3 & E3 & H3).
  destruct (div_exact _ p ltac:(lia) D2) as (h2 & E2 & H2). destruct (div_exact _ p ltac:(lia) D1) as (h1 & E1 & H1).
  destruct (div_exact _ p ltac:(lia) D0) as (h0 & E0 & H0).
  set (gv := fun x => (g0 * x + g1) * x + g2).
  assert (FV : forall x, fval c x = u * (gv x * gv x) + p * gval h4 h3 h2 h1 h0 x).
  { intros x. cbn [fval c]. unfold gv, gval.
    replace c4 with (u * g0 * g0 + p * h4) by lia. replace c3 with (2 * u * g1 * g0 + p * h3) by lia.
    replace c2 with (2 * u * g2 * g0 + u * g1 * g1 + p * h2) by lia. replace c1 with (2 * u * g1 * g2 + p * h1) by lia.
    replace c0 with (u * g2 * g2 + p * h0) by lia. ring. }
  assert (GV : forall x, (p | fval c x) -> (p | gv x)).
  { intros x D. rewrite FV in D. apply prime_sq. apply (Gauss p u).
    - rewrite Z.add_comm in D. apply Z.divide_add_cancel_r with (2 := D). apply Z.divide_factor_l.
    - apply prime_rel_prime; auto. }
  assert (COV1 : forall x y, (p | y * y - fval c x) -> (p | gv x) /\ (p | fval c x)).
  { intros x y D. assert (A : (p | gv x)).
    { apply (NS y). replace (y * y - u * (gv x * gv x)) with (y * y - fval c x + p * gval h4 h3 h2 h1 h0 x) by (rewrite FV; ring).
      apply Z.divide_add_r; [exact D|apply Z.divide_factor_l]. }
    split; [exact A|]. rewrite FV. apply Z.divide_add_r; [apply Z.divide_mul_r, Z.divide_mul_r, A|apply Z.divide_factor_l]. }
  assert (COV : forall x y, (p ^ 1 | y * y - fval c x) -> exists r, In r roots /\ (p | x - r)).
  { intros x y D. rewrite Z.pow_1_r in D. destruct (COV1 x y D) as (_ & D').
    destruct (all_roots Hp p7 Hf NZ D') as (F & e & I & DF & H).
    exists (- pcoeff F 0). split; [|exact H]. apply in_map_iff. exists (F, e). split; [reflexivity|].
    apply filter_In. split; [exact I|]. rewrite DF. reflexivity. }
  assert (MAIN : outcome c (first_nonzero (fun r =>
              te <- zz_mod (((h4 * r + h3) * r + h2) * r) p ;;
              te <- zz_mod ((te + h1) * r + h0) p ;;
              if te =? 0 then d <- shift1 p c r ;; local_sol factor p fuel d else Ok 0) roots)).
  { destruct (first_nonzero_ok _ (fun r =>
              te <- zz_mod (((h4 * r + h3) * r + h2) * r) p ;;
              te <- zz_mod ((te + h1) * r + h0) p ;;
              if te =? 0 then d <- shift1 p c r ;; local_sol factor p fuel d else Ok 0)
       (sol c) (insol_at c) roots) as [(E & Q1)|(E & Q0)].
    - intros r I. apply in_map_iff in I. destruct I as ((F, e) & ER & I). apply filter_In in I. destruct I as (I & DF).
      apply Z.eqb_eq in DF.
      assert (e <> 1) as NE by (intros ->; specialize (EV F 1 I); discriminate).
      destruct (multiple_root Hp p7 Hf NZ I DF NE) as (A & B). rewrite ER in A, B.
      rewrite !zz_mod_ok, !bind_Ok by lia. rewrite zz_mod_ok, bind_Ok by lia.
      set (te := _ mod p).
      assert (TE : te = gval h4 h3 h2 h1 h0 r mod p).
      { unfold te, gval. rewrite Z.add_mod, Z.mul_mod, (Z.add_mod _ h1), Z.mod_mod, <- (Z.add_mod _ h1), <- Z.mul_mod, <- Z.add_mod by lia. reflexivity. }
      pose proof (GV r A) as GR.
      destruct (Z.eqb_spec te 0) as [T0|T0].
      + assert (HR : (p | gval h4 h3 h2 h1 h0 r)) by (apply Z.mod_divide; [lia|congruence]).
        destruct (shift1_ok c r) as (d & -> & V1 & V2); [|exact B|].
        { rewrite FV. apply Z.divide_add_r.
          - apply Z.divide_mul_r. apply dvd_sq; exact GR.
          - apply Z.mul_divide_mono_l. exact HR. }
        rewrite bind_Ok. destruct (IH d (reach_shift _ _ _ _ V1 V2 R)) as [(E & Q1)|(E & Q0)].
        * left. split; [exact E|]. apply (pull_sol _ d r); auto.
        * right. split; [exact E|]. apply (pull_insol _ d); auto.
      + right. split; [reflexivity|]. exists 2. split; [lia|]. intros x y X D. rewrite Z.pow_2_r in D. apply T0.
        rewrite TE. apply Z.mod_divide; [lia|].
        destruct (COV1 x y) as (GX & FX); [apply Z.divide_trans with (2 := D); apply Z.divide_factor_l|].
        assert (PY : (p | y)).
        { apply prime_sq. apply (dvd_cong' p (y * y) (fval c x)); [|exact FX]. apply Z.divide_trans with (2 := D). apply Z.divide_factor_l. }
        assert (HX : (p | gval h4 h3 h2 h1 h0 x)).
        { apply (dvd_cancel p); [lia|].
          replace (p * gval h4 h3 h2 h1 h0 x) with (y * y - u * (gv x * gv x) - (y * y - fval c x)) by (rewrite FV; ring).
          apply Z.divide_sub_r; [|exact D]. apply Z.divide_sub_r; [apply dvd_sq; exact PY|].
          apply Z.divide_mul_r. apply dvd_sq; exact GX. }
        apply (dvd_cong p (gval h4 h3 h2 h1 h0 x)); [|exact HX].
        rewrite <- (Z.pow_1_r p). apply near_values with (nu := 1); [exact Hp|lia|lia|rewrite Z.pow_1_r; exact X|lia|].
        rewrite Z.pow_1_r. apply Z.divide_factor_l.
    - left. auto.
    - right. split; [exact E|]. apply (insol_list c 1 roots); [lia|exact COV|exact Q0]. }
  fold l in EG. clearbody roots. destruct roots as [|r0 rs]; [exact MAIN|].
  rewrite EG, bind_Ok. fold g2 g1 g0. rewrite E4, bind_Ok, E3, bind_Ok, E2, bind_Ok, E1, bind_Ok, E0, bind_Ok. exact MAIN.
Qed.

Lemma local_sol_ok : forall fuel c m, reach c m -> Z.log2 (Z.abs (qdisc f0)) + 2 <= m + Z.of_nat fuel ->
  outcome c (local_sol factor p fuel c).
Proof.
  induction fuel as [|fuel IH]; intros c m R F.
  { pose proof (reach_bound c m R). lia. }
  assert (IH' : forall d, reach d (m + 1) -> outcome d (local_sol factor p fuel d)).
  { intros d Rd. apply (IH d (m + 1) Rd). lia. }
  pose proof (case_unit fuel c m) as CU.
  cbn [local_sol]. destruct c as [[[[c0 c1] c2] c3] c4]. set (c := (c0, c1, c2, c3, c4)) in *.
  destruct (all_div_ok p (coeffs c) ltac:(lia)) as (b & -> & B1 & B0). rewrite bind_Ok. destruct b.
  - destruct (all_div_ok (p * p) (coeffs c)) as (b & -> & C1 & C0); [apply Z.neq_mul_0; lia|]. rewrite bind_Ok. destruct b.
    + destruct (div_all_ok (p * p) c) as (d & -> & E); [apply Z.neq_mul_0; lia|auto|]. rewrite bind_Ok. rewrite E in R |- *.
      destruct (IH' d (reach_scale _ _ R)) as [(-> & S)|(-> & S)].
      * left. split; [reflexivity|]. destruct S as (X & Y & CX & CY & H). exists X, (fun n => p * Y n).
        split; [exact CX|]. split; [intros n; rewrite <- Z.mul_sub_distr_l; apply Z.divide_mul_r, CY|].
        intros n. rewrite fval_scale. replace (p * Y n * (p * Y n) - p * p * fval d (X n)) with (p * p * (Y n * Y n - fval d (X n))) by ring.
        apply Z.divide_mul_r, H.
      * right. split; [reflexivity|]. destruct S as (N & N0 & H). exists (N + 2). split; [lia|]. intros x y D.
        rewrite fval_scale in D. destruct (divide_square N y _ N0 D) as (z & Z). exact (H _ _ Z).
    + destruct (div_all_ok p c ltac:(lia)) as (d & -> & E); [auto|]. rewrite bind_Ok. 
      assert (NZ : nonzero p d).
      { destruct (C0 eq_refl) as (x & X & N). rewrite E in X. unfold scale in X. destruct d as [[[[d0 d1] d2] d3] d4].
        cbn [coeffs In] in X.
        assert (Q : exists y, In y [d0; d1; d2; d3; d4] /\ x = p * y).
        { destruct X as [X|[X|[X|[X|[X|[]]]]]]; eexists; (split; [|symmetry; exact X]); cbn; auto 10. }
        destruct Q as (y & Y & ->). exists y. split; [exact Y|]. intros D. apply N, Z.mul_divide_mono_l, D. }
      rewrite E in R |- *. apply (case_p fuel d m NZ R IH').
  - apply (CU (B0 eq_refl) R IH').
Qed.
End P.

Theorem new_qpsoluble_ok factor a b c d e p : prime p -> factors_poly p (factor p) -> gdisc a b c d e <> 0 ->
  exists s, new_qpsoluble factor a b c d e p = Ok s /\
    (s = true -> padic_point p a b c d e) /\ (s = false -> exists N, 0 <= N /\ no_solution_mod p N a b c d e).
Proof.
  intros Hp Hf HD. unfold new_qpsoluble. destruct (Z.ltb_spec p 1000) as [P|P]; [apply qpsoluble_ok; auto|].
  assert (p7 : 6 < p) by lia. cbv zeta. unfold new_zpsol.
  assert (HD1 : qdisc (a, b, c, d, e) <> 0) by (cbn [qdisc]; rewrite gdisc_rev; exact HD).
  assert (HD2 : qdisc (e, d, c, b, a) <> 0) by exact HD.
  pose proof (Z.log2_nonneg (Z.abs (gdisc a b c d e))) as L0.
  destruct (local_sol_ok p Hp p7 (factor p) Hf (a, b, c, d, e) HD1 (loc_fuel a b c d e) (a, b, c, d, e) 0) as [(-> & S)|(-> & S)].
  { apply reach_0. } { cbn [qdisc]. rewrite gdisc_rev. unfold loc_fuel. lia. }
  { rewrite bind_Ok. cbn [Z.eqb negb]. exists true. split; [reflexivity|]. split; [intros _|discriminate].
    destruct S as (X & Y & C1 & C2 & S). exists (fun _ => 1), X, Y.
    split; [apply coherent_const|]. split; [exact C1|]. split; [exact C2|]. split.
    - intros (H & _). apply Z.divide_pos_le in H; lia.
    - intros n. rewrite form_infinity. apply S. }
  rewrite bind_Ok. cbn [Z.eqb negb].
  destruct (local_sol_ok p Hp p7 (factor p) Hf (e, d, c, b, a) HD2 (loc_fuel a b c d e) (e, d, c, b, a) 0) as [(-> & T)|(-> & T)].
  { apply reach_0. } { cbn [qdisc]. unfold loc_fuel. lia. }
  - rewrite bind_Ok. cbn [Z.eqb negb]. exists true. split; [reflexivity|]. split; [intros _|discriminate].
    destruct T as (X & Y & C1 & C2 & T). exists X, (fun _ => 1), Y.
    split; [exact C1|]. split; [apply coherent_const|]. split; [exact C2|]. split.
    + intros (_ & H). apply Z.divide_pos_le in H; lia.
    + intros n. rewrite form_affine. apply T.
  - rewrite bind_Ok. cbn [Z.eqb negb]. exists false. split; [reflexivity|]. split; [discriminate|intros _].
    destruct S as (N & N0 & HN). destruct T as (M & M0 & HM).
    exists (Z.max N M). split; [lia|]. intros x z y PR D.
    destruct (Znumtheory.Zdivide_dec p z) as [Z0|Z0].
    + destruct (affine_point p e d c b a (Z.max N M) z x y Hp ltac:(lia)) as (x' & y' & D' & Q).
      * intros H. apply PR. auto.
      * rewrite <- form_swap. exact D.
      * apply (HN x' y'). apply pw_dvd with (Z.max N M); [lia|exact D'].
    + destruct (affine_point p a b c d e (Z.max N M) x z y Hp ltac:(lia) Z0 D) as (x' & y' & D' & _).
      apply (HM x' y'). apply pw_dvd with (Z.max N M); [lia|exact D'].
Qed.
