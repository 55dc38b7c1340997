(** psquare, lemma6 and lemma7 of mlocsol.cc. *)
From Coq Require Import ZArith Lia List Bool Znumtheory.
From Verif Require Import Base RatModel RatProofs MArithModel MArithProofs LegendreSpec SqrtModProofs
  LocSolModel LocSolSpec LocSolArith.
Import ListNotations.
Open Scope Z_scope.
Open Scope res_scope.

Lemma div_times_ok v a p : p <> 0 -> div_times v (p ^ Z.of_nat v * a) p = Ok a.
Proof.
  intros P. induction v as [|v IH]; cbn [div_times].
  - rewrite Z.pow_0_r, Z.mul_1_l. reflexivity.
  - rewrite zz_div_ok by auto. rewrite bind_Ok. rewrite Nat2Z.inj_succ, Z.pow_succ_r by lia.
    replace (p * p ^ Z.of_nat v * a) with (p ^ Z.of_nat v * a * p) by ring. rewrite Z.div_mul by auto. exact IH.
Qed.

Lemma val_exact p n : 2 <= p -> n <> 0 -> exists k, val_z p n = Ok k /\ 0 <= k /\ exact_pow p k n.
Proof.
  intros P N. destruct (val_z_ok p n N) as (k & E & K & D & ND); [lia|].
  exists k. repeat split; auto.
Qed.

Definition nonsq (p k u : Z) : Prop :=
  Z.odd k = true \/ (p <> 2 /\ ~ (exists x, (p | x * x - u))) \/ (p = 2 /\ ~ (8 | u - 1)).

Lemma psquare_ok aa p : prime p ->
  exists s, psquare aa p = Ok s /\ (s = true -> padic_square p aa) /\
    (s = false -> exists k u, aa = p ^ k * u /\ 0 <= k /\ ~ (p | u) /\ nonsq p k u).
Proof.
  intros Hp. pose proof (prime_ge_2 p Hp) as P. unfold psquare.
  destruct (Z.eqb_spec aa 0) as [->|A].
  { exists true. split; [reflexivity|]. split; [intros _; apply square_0|discriminate]. }
  destruct (val_exact p aa P A) as (k & -> & K & EX). rewrite bind_Ok.
  destruct (exact_split p k aa P K EX) as (u & E & U).
  destruct (Z.odd k) eqn:O.
  { exists false. split; [reflexivity|]. split; [discriminate|]. intros _. exists k, u.
    split; [exact E|]. split; [exact K|]. split; [exact U|left; exact O]. }
  assert (DT : div_times (Z.to_nat k) aa p = Ok u).
  { rewrite E. rewrite <- (Z2Nat.id k) at 2 by lia. apply div_times_ok. lia. }
  rewrite DT, bind_Ok.
  assert (SC : padic_square p u -> padic_square p aa).
  { intros S. assert (EV : Z.even k = true) by (rewrite <- Z.negb_odd, O; reflexivity).
    apply Z.even_spec in EV as (h & ->). rewrite E.
    replace (2 * h) with (h + h) by ring. rewrite pw_split by lia. apply square_scale, S. }
  destruct (Z.eqb_spec p 2) as [->|P2].
  - exists (u mod 8 =? 1). split; [reflexivity|].
    assert (M : u mod 8 = 1 <-> (8 | u - 1)).
    { pose proof (Z.div_mod u 8 ltac:(lia)). split.
      - intros M. exists (u / 8). lia.
      - intros (q & Q). replace u with (1 + q * 8) by lia. rewrite Z.mod_add by lia. reflexivity. }
    split; intros H.
    + apply Z.eqb_eq, M in H. apply SC, unit_square_2, H.
    + apply Z.eqb_neq in H. exists k, u. split; [exact E|]. split; [exact K|]. split; [exact U|].
      right. right. split; [reflexivity|]. rewrite <- M. exact H.
  - destruct (legendre_prime u p Hp P2) as (l & -> & L0 & L1 & L2). rewrite bind_Ok.
    exists (l =? 1). split; [reflexivity|].
    assert (DD : (exists x, 0 <= x < p /\ (p | x * x - u)) \/ ~ (exists x, (p | x * x - u))).
    { assert (F : forall n : nat, (exists x, 0 <= x < Z.of_nat n /\ (p | x * x - u)) \/
                    ~ (exists x, 0 <= x < Z.of_nat n /\ (p | x * x - u))).
      { induction n as [|n [IH|IH]].
        - right. intros (x & X & _). lia.
        - left. destruct IH as (x & X & D). exists x. split; [lia|exact D].
        - destruct (Znumtheory.Zdivide_dec p (Z.of_nat n * Z.of_nat n - u)) as [D|D].
          + left. exists (Z.of_nat n). split; [lia|exact D].
          + right. intros (x & X & D'). destruct (Z.eq_dec x (Z.of_nat n)) as [->|]; [auto|].
            apply IH. exists x. split; [lia|exact D']. }
      destruct (F (Z.to_nat p)) as [H|H].
      - left. rewrite Z2Nat.id in H by lia. exact H.
      - right. intros (x & X). apply H. rewrite Z2Nat.id by lia. exists (x mod p).
        split; [apply Z.mod_pos_bound; lia|].
        apply dvd_cong with (x * x - u); [|exact X].
        pose proof (Z.div_mod x p ltac:(lia)) as DM. set (r := x mod p) in *. set (q := x / p) in *.
        exists (q * (x + r)). rewrite DM. ring. }
    split; intros H.
    + apply Z.eqb_eq in H. destruct DD as [(x & _ & X)|DD].
      * apply SC. apply unit_square_odd with x; auto.
      * exfalso. rewrite (L2 U DD) in H. discriminate.
    + apply Z.eqb_neq in H. exists k, u. split; [exact E|]. split; [exact K|]. split; [exact U|].
      right. left. split; [exact P2|]. intros X. apply H. apply L1; auto.
Qed.

(** ** Solubility near an integer *)
Definition sol_near (p a b c d e nu x0 : Z) : Prop :=
  exists X Y, coherent p X /\ coherent p Y /\ (forall n, (p ^ nu | X n - x0)) /\
    forall n, (p ^ Z.of_nat n | Y n * Y n - gval a b c d e (X n)).
Definition insol_near (p a b c d e nu x0 : Z) : Prop :=
  exists N, 0 <= N /\ forall x y, (p ^ nu | x - x0) -> ~ (p ^ N | y * y - gval a b c d e x).

Lemma coherent_const p k : coherent p (fun _ => k).
Proof. intros n. rewrite Z.sub_diag. apply Z.divide_0_r. Qed.

Lemma sol_of_square p a b c d e nu x0 : padic_square p (gval a b c d e x0) -> sol_near p a b c d e nu x0.
Proof.
  intros (y & C & Y). exists (fun _ => x0), y. split; [apply coherent_const|]. split; [exact C|].
  split; [intros n; rewrite Z.sub_diag; apply Z.divide_0_r|exact Y].
Qed.
(** values of g close to the square s^2 *)
Lemma sol_of_hensel p a b c d e nu mu x0 s : prime p -> 0 <= mu < nu -> exact_pow p mu (gder a b c d x0) ->
  (p ^ (nu + mu) | gval a b c d e x0 - s * s) -> sol_near p a b c d e nu x0.
Proof.
  intros Hp M E D. destruct (hensel p a b c d (e - s * s) nu mu x0 Hp M E) as (f & C & N & F).
  - replace (gval a b c d (e - s * s) x0) with (gval a b c d e x0 - s * s) by (unfold gval; ring). exact D.
  - exists f, (fun _ => s). split; [exact C|]. split; [apply coherent_const|]. split; [exact N|].
    intros n. specialize (F n).
    replace (s * s - gval a b c d e (f n)) with (- gval a b c d (e - s * s) (f n)) by (unfold gval; ring).
    apply Z.divide_opp_r. exact F.
Qed.

(** the values near x0 agree with that at x0 modulo p^w *)
Lemma near_values p a b c d e nu x0 x w : prime p -> 0 <= nu -> 0 <= w -> (p ^ nu | x - x0) ->
  w <= 2 * nu -> (p ^ w | p ^ nu * gder a b c d x0) -> (p ^ w | gval a b c d e x - gval a b c d e x0).
Proof.
  intros Hp NU W (t & T) LE D. replace x with (x0 + t * p ^ nu) by lia. rewrite taylor.
  replace (gval a b c d e x0 + t * p ^ nu * gder a b c d x0 + t * p ^ nu * (t * p ^ nu) * gtay a b c x0 (t * p ^ nu)
     - gval a b c d e x0) with
    (t * (p ^ nu * gder a b c d x0) + p ^ nu * p ^ nu * (t * t * gtay a b c x0 (t * p ^ nu))) by ring.
  apply Z.divide_add_r.
  - apply Z.divide_mul_r, D.
  - rewrite <- pw_split by lia. apply Z.divide_mul_l. apply pw_div. lia.
Qed.

Definition obstructed (p w la u : Z) : Prop :=
  Z.odd la = true \/ (p <> 2 /\ ~ (exists x, (p | x * x - u))) \/
  (p = 2 /\ la + 2 <= w /\ ~ (4 | u - 1)) \/ (p = 2 /\ la + 3 <= w /\ ~ (8 | u - 1)).

Lemma insol_of_obstructed p a b c d e nu x0 la u w : prime p -> 0 <= nu -> 0 <= la < w ->
  gval a b c d e x0 = p ^ la * u -> ~ (p | u) ->
  w <= 2 * nu -> (p ^ w | p ^ nu * gder a b c d x0) -> obstructed p w la u -> insol_near p a b c d e nu x0.
Proof.
  intros Hp NU LW G U LE D OB. pose proof (prime_ge_2 p Hp) as P.
  exists (la + 3). split; [lia|]. intros x y X Y.
  pose proof (near_values p a b c d e nu x0 x w Hp NU ltac:(lia) X LE D) as (k & V).
  rewrite G in V.
  assert (G' : gval a b c d e x = p ^ la * (u + p ^ (w - la) * k)).
  { replace (p ^ w) with (p ^ la * p ^ (w - la)) in V by (rewrite <- pw_split by lia; f_equal; lia). lia. }
  assert (U' : ~ (p | u + p ^ (w - la) * k)).
  { intros H. apply U. apply dvd_cong with (u + p ^ (w - la) * k); [|exact H].
    replace (u + p ^ (w - la) * k - u) with (p ^ (w - la) * k) by ring. apply Z.divide_mul_l.
    apply pw_dvd1 with (w - la); [lia|apply Z.divide_refl]. }
  rewrite G' in Y.
  destruct (square_exact p la _ y (la + 3) Hp ltac:(lia) U' Y) as (z & EV & ZZ).
  replace (la + 3 - la) with 3 in ZZ by ring.
  destruct OB as [O|[(P2 & NS)|[(-> & W2 & N4)|(-> & W3 & N8)]]].
  - rewrite EV, Z.odd_mul in O. discriminate.
  - apply NS. exists z. apply pw_dvd1 in ZZ; [|lia].
    apply dvd_cong with (z * z - (u + p ^ (w - la) * k)); [|exact ZZ].
    replace (z * z - (u + p ^ (w - la) * k) - (z * z - u)) with (p ^ (w - la) * (- k)) by ring.
    apply Z.divide_mul_l. apply pw_dvd1 with (w - la); [lia|apply Z.divide_refl].
  - change (2 ^ 3) with 8 in ZZ. apply N4.
    assert (Q : (4 | 2 ^ (w - la))) by (change 4 with (2 ^ 2); apply pw_div; lia).
    destruct Q as (q & Q). rewrite Q in ZZ, U'. destruct ZZ as (r & R).
    destruct (Z.Even_or_Odd z) as [(h & ->)|(h & ->)].
    + exfalso. apply U'. exists (2 * h * h - 4 * r). lia.
    + exists (h * h + h - 2 * r - q * k). lia.
  - change (2 ^ 3) with 8 in ZZ. apply N8.
    assert (Q : (8 | 2 ^ (w - la))) by (change 8 with (2 ^ 3); apply pw_div; lia).
    destruct Q as (q & Q). rewrite Q in ZZ, U'. destruct ZZ as (r & R).
    destruct (Z.Even_or_Odd z) as [(h & ->)|(h & ->)].
    + exfalso. apply U'. exists (2 * h * h - 4 * r). lia.
    + assert (HH : exists j, h * h + h = 2 * j).
      { destruct (Z.Even_or_Odd h) as [(i & ->)|(i & ->)]; [exists (2 * i * i + i)|exists (2 * i * i + 3 * i + 1)]; ring. }
      destruct HH as (j & HH). exists (j - r - q * k). lia.
Qed.

Section Lemmas.
Variables a b c d e p nu x : Z.
Hypothesis Hp : prime p.
Hypothesis NU : 0 <= nu.

Definition lem_res (weak : Prop) (r : Z) : Prop :=
  (r = 1 /\ sol_near p a b c d e nu x) \/
  (r = -1 /\ (weak \/ insol_near p a b c d e nu x)) \/
  (r = 0 /\ (1 <= nu -> (p ^ (nu - 1) | gval a b c d e x) /\ (p ^ (nu - 1) | gder a b c d x))).

Lemma nonsq_obs w la u : nonsq p la u -> la < w -> (p = 2 -> Z.odd la = false -> 
    la + 3 <= w \/ (la + 2 <= w /\ ~ (4 | u - 1))) -> obstructed p w la u.
Proof.
  intros [H|[H|(-> & H)]] L C.
  - left. exact H.
  - right. left. exact H.
  - destruct (Z.odd la) eqn:O; [left; exact O|].
    destruct (C eq_refl eq_refl) as [C1|(C1 & C2)].
    + right. right. right. auto.
    + right. right. left. auto.
Qed.

Lemma lemma6_ok : exists r, lemma6 a b c d e p nu x = Ok r /\ lem_res (p = 2) r.
Proof.
  pose proof (prime_ge_2 p Hp) as P. unfold lemma6. set (gx := gval a b c d e x).
  destruct (psquare_ok gx p Hp) as (s & -> & S1 & S0). rewrite bind_Ok.
  destruct s.
  { exists 1. split; [reflexivity|]. left. split; [reflexivity|]. apply sol_of_square, S1. reflexivity. }
  destruct (S0 eq_refl) as (k & u & G & K & U & NS). clear S0 S1.
  assert (GN : gx <> 0). { rewrite G. apply exact_nz with p k. apply exact_of; auto. }
  destruct (val_exact p gx P GN) as (la & -> & L0 & LE). rewrite bind_Ok.
  assert (la = k). { apply (exact_uniq p la k gx); auto. rewrite G. apply exact_of; auto. }
  subst k.
  assert (FAIL : forall w, la < w -> w <= 2 * nu -> (p ^ w | p ^ nu * gder a b c d x) ->
            p <> 2 -> insol_near p a b c d e nu x).
  { intros w W1 W2 W3 P2. apply (insol_of_obstructed p a b c d e nu x la u w); auto.
    apply nonsq_obs; auto. intros; contradiction. }
  assert (WEAK : forall w, la < w -> w <= 2 * nu -> (p ^ w | p ^ nu * gder a b c d x) ->
            p = 2 \/ insol_near p a b c d e nu x).
  { intros w W1 W2 W3. destruct (Z.eq_dec p 2); [left; auto|right; eauto]. }
  destruct (Z.eqb_spec (gder a b c d x) 0) as [G0|G0].
  - destruct (Z.leb_spec (2 * nu) la) as [H|H].
    + exists 0. split; [reflexivity|]. right. right. split; [reflexivity|]. intros N1. split.
      * apply pw_dvd with la; [lia|apply LE].
      * rewrite G0. apply Z.divide_0_r.
    + exists (-1). split; [reflexivity|]. right. left. split; [reflexivity|].
      apply WEAK with (2 * nu); [lia|lia|]. rewrite G0, Z.mul_0_r. apply Z.divide_0_r.
  - destruct (val_exact p _ P G0) as (mu & -> & M0 & ME). rewrite bind_Ok.
    destruct (Z.leb_spec nu (la - mu)) as [H1|H1]; destruct (Z.ltb_spec mu nu) as [H2|H2]; cbn [andb].
    + exists 1. split; [reflexivity|]. left. split; [reflexivity|].
      apply (sol_of_hensel p a b c d e nu mu x 0 Hp ltac:(lia) ME). rewrite Z.mul_0_l, Z.sub_0_r.
      apply pw_dvd with la; [lia|apply LE].
    + destruct (Z.leb_spec (2 * nu) la) as [H|H]; destruct (Z.leb_spec nu mu) as [H'|H']; try lia; cbn [andb].
      * exists 0. split; [reflexivity|]. right. right. split; [reflexivity|]. intros N1. split.
        -- apply pw_dvd with la; [lia|apply LE].
        -- apply pw_dvd with mu; [lia|apply ME].
    + destruct (Z.leb_spec (2 * nu) la) as [H|H]; destruct (Z.leb_spec nu mu) as [H'|H']; try lia; cbn [andb];
        exists (-1); (split; [reflexivity|]); right; left; (split; [reflexivity|]);
        (apply WEAK with (mu + nu); [lia|lia|]); rewrite Z.add_comm, pw_split by lia;
        apply Z.mul_divide_mono_l, ME.
    + destruct (Z.leb_spec (2 * nu) la) as [H|H]; destruct (Z.leb_spec nu mu) as [H'|H']; try lia; cbn [andb].
      * exists 0. split; [reflexivity|]. right. right. split; [reflexivity|]. intros N1. split.
        -- apply pw_dvd with la; [lia|apply LE].
        -- apply pw_dvd with mu; [lia|apply ME].
      * exists (-1). split; [reflexivity|]. right. left. split; [reflexivity|].
        apply WEAK with (2 * nu); [lia|lia|]. replace (2 * nu) with (nu + nu) by ring. rewrite pw_split by lia.
        apply Z.mul_divide_mono_l. apply pw_dvd with mu; [lia|apply ME].
Qed.

Lemma odd_part_ok n k u : n = 2 ^ k * u -> 0 <= k -> ~ (2 | u) -> odd_part n = Ok u.
Proof.
  intros N K U. unfold odd_part.
  destruct (while_total odd_step (fun m => m <> 0 /\ exists j, 0 <= j /\ m = 2 ^ j * u) (fun r => r = u) Z.abs)
    with (n := zfuel n) (s := n) as (r & E & ->); [..|exact E].
  - intros; lia.
  - intros s (S0 & j & J & E). unfold odd_step. destruct (Z.even s) eqn:EV.
    + right. rewrite zz_div_ok by lia. rewrite bind_Ok. exists (s / 2). split; [reflexivity|].
      destruct (Z.eq_dec j 0) as [->|J0].
      { exfalso. apply U. rewrite Z.pow_0_r, Z.mul_1_l in E. rewrite <- E. apply Z.even_spec in EV as (h & ->).
        exists h. ring. }
      assert (E2 : s / 2 = 2 ^ (j - 1) * u).
      { rewrite E. replace j with (1 + (j - 1)) at 1 by ring. rewrite pw_split, Z.pow_1_r by lia.
        replace (2 * 2 ^ (j - 1) * u) with (2 ^ (j - 1) * u * 2) by ring. apply Z.div_mul. lia. }
      assert (E3 : s = 2 * (s / 2)).
      { rewrite E2, E. replace j with (1 + (j - 1)) at 1 by ring. rewrite pw_split, Z.pow_1_r by lia. ring. }
      clear - S0 J0 J E2 E3. split; [split|].
      * intros Z0. lia.
      * exists (j - 1). split; [lia|exact E2].
      * lia.
    + left. exists s. split; [reflexivity|]. destruct (Z.eq_dec j 0) as [->|J0].
      * rewrite Z.pow_0_r, Z.mul_1_l in E. exact E.
      * exfalso. assert (O : Z.Even s).
        { exists (2 ^ (j - 1) * u). rewrite E. replace j with (1 + (j - 1)) at 1 by ring.
          rewrite pw_split, Z.pow_1_r by lia. ring. }
        apply Z.even_spec in O. congruence.
  - split; [|exists k; auto]. rewrite N. apply exact_nz with 2 k. apply exact_of; auto. lia.
  - pose proof (zfuel_gt n). lia.
Qed.

Lemma mod4_iff u : u mod 4 = 1 <-> (4 | u - 1).
Proof.
  pose proof (Z.div_mod u 4 ltac:(lia)). split.
  - intros M. exists (u / 4). lia.
  - intros (q & Q). replace u with (1 + q * 4) by lia. rewrite Z.mod_add by lia. reflexivity.
Qed.

Lemma lemma7_ok : p = 2 -> exists r, lemma7 a b c d e p nu x = Ok r /\ lem_res False r.
Proof.
  intros P2. pose proof (prime_ge_2 p Hp) as P. unfold lemma7. set (gx := gval a b c d e x).
  destruct (psquare_ok gx p Hp) as (s & -> & S1 & S0). rewrite bind_Ok.
  destruct s.
  { exists 1. split; [reflexivity|]. left. split; [reflexivity|]. apply sol_of_square, S1. reflexivity. }
  destruct (S0 eq_refl) as (k & u & G & K & U & NS). clear S0 S1.
  assert (GN : gx <> 0). { rewrite G. apply exact_nz with p k. apply exact_of; auto. }
  destruct (val_exact p gx P GN) as (la & -> & L0 & LE). rewrite bind_Ok.
  assert (la = k). { apply (exact_uniq p la k gx); auto. rewrite G. apply exact_of; auto. }
  subst k.
  destruct (Z.eqb_spec gx 0); [contradiction|].
  assert (OP : odd_part gx = Ok u). { apply odd_part_ok with la; auto; rewrite <- P2; auto. }
  rewrite OP, bind_Ok. cbv zeta.
  assert (Q4 : (u mod 4 =? 1) = true -> (4 | u - 1)) by (intros Q; apply mod4_iff, Z.eqb_eq, Q).
  assert (N4 : (u mod 4 =? 1) = false -> ~ (4 | u - 1)) by (intros Q; rewrite <- mod4_iff; apply Z.eqb_neq, Q).
  set (odd4 := u mod 4 =? 1) in *.
  (* insoluble when the values near x agree modulo p^w *)
  assert (FAIL : forall w, la < w -> w <= 2 * nu -> (p ^ w | p ^ nu * gder a b c d x) ->
            (Z.odd la = false -> la + 3 <= w \/ (la + 2 <= w /\ odd4 = false)) -> insol_near p a b c d e nu x).
  { intros w W1 W2 W3 W4. apply (insol_of_obstructed p a b c d e nu x la u w); auto.
    apply nonsq_obs; auto. intros _ O. destruct (W4 O) as [W|(W & W')]; [left; exact W|right; auto]. }
  assert (MINUS : insol_near p a b c d e nu x -> exists r, Ok (-1) = Ok r /\ lem_res False r).
  { intros H. exists (-1). split; [reflexivity|]. right. left. split; [reflexivity|right; exact H]. }
  assert (PAR : Z.odd la = false -> la < 2 * nu -> la <> 2 * nu - 2 -> la + 3 <= 2 * nu).
  { intros O L1 L2. assert (la <> 2 * nu - 1); [|lia]. intros L. rewrite L in O.
    replace (2 * nu - 1) with (1 + 2 * (nu - 1)) in O by ring. rewrite Z.odd_add_mul_2 in O. discriminate. }
  destruct (Z.eqb_spec (gder a b c d x) 0) as [G0|G0].
  - destruct (Z.leb_spec (2 * nu) la) as [H|H].
    { exists 0. split; [reflexivity|]. right. right. split; [reflexivity|]. intros N1. split.
      * apply pw_dvd with la; [lia|apply LE].
      * rewrite G0. apply Z.divide_0_r. }
    destruct (Z.eqb_spec la (2 * nu - 2)) as [L2|L2]; destruct odd4 eqn:O4; cbn [andb].
    { exists 0. split; [reflexivity|]. right. right. split; [reflexivity|]. intros N1. split.
      * apply pw_dvd with la; [lia|apply LE].
      * rewrite G0. apply Z.divide_0_r. }
    + apply MINUS, FAIL with (2 * nu); [lia|lia|rewrite G0, Z.mul_0_r; apply Z.divide_0_r|]. intros O. right. split; [lia|reflexivity].
    + apply MINUS, FAIL with (2 * nu); [lia|lia|rewrite G0, Z.mul_0_r; apply Z.divide_0_r|]. intros O. left. auto.
    + apply MINUS, FAIL with (2 * nu); [lia|lia|rewrite G0, Z.mul_0_r; apply Z.divide_0_r|]. intros O. left. auto.
  - destruct (val_exact p _ P G0) as (mu & -> & M0 & ME). rewrite bind_Ok.
    assert (EVEN : Z.even la = negb (Z.odd la)) by (symmetry; apply Z.negb_odd).
    rewrite EVEN. clear EVEN.
    destruct (Z.ltb_spec mu nu) as [H2|H2].
    + (* nu > mu *)
      destruct (Z.leb_spec nu mu) as [H3|_]; [lia|]. rewrite !andb_true_r, !andb_true_l, !andb_false_l.
      assert (WD : (p ^ (mu + nu) | p ^ nu * gder a b c d x)).
      { rewrite Z.add_comm, pw_split by lia. apply Z.mul_divide_mono_l, ME. }
      destruct (Z.leb_spec nu (la - mu)) as [H1|H1].
      { exists 1. split; [reflexivity|]. left. split; [reflexivity|].
        apply (sol_of_hensel p a b c d e nu mu x 0 Hp ltac:(lia) ME). rewrite Z.mul_0_l, Z.sub_0_r.
        apply pw_dvd with la; [lia|apply LE]. }
      (* soluble with value 2^la *)
      assert (SOL : forall w, Z.odd la = false -> (p ^ w | u - 1) -> 0 <= w -> nu + mu <= la + w ->
                sol_near p a b c d e nu x).
      { intros w O D W0 W. assert (EV : Z.even la = true) by (rewrite <- Z.negb_odd, O; reflexivity).
        apply Z.even_spec in EV as (h & LH).
        apply (sol_of_hensel p a b c d e nu mu x (p ^ h) Hp ltac:(lia) ME).
        rewrite <- pw_split by lia. replace (h + h) with la by lia. fold gx. rewrite G.
        replace (p ^ la * u - p ^ la) with (p ^ la * (u - 1)) by ring.
        apply dvd_trans with (p ^ (la + w)); [apply pw_div; lia|]. rewrite pw_split by lia.
        apply Z.mul_divide_mono_l, D. }
      assert (U1 : (p ^ 1 | u - 1)).
      { rewrite Z.pow_1_r, P2. rewrite P2 in U. destruct (Z.Even_or_Odd u) as [(h & ->)|(h & ->)].
        - exfalso. apply U. exists h. ring.
        - exists h. ring. }
      destruct (Z.eqb_spec la (mu + nu - 1)) as [L1|L1].
      * destruct (Z.odd la) eqn:O; cbn [andb negb].
        -- destruct (Z.eqb_spec la (mu + nu - 2)); [lia|]. cbn [andb].
           exists (-1). split; [reflexivity|]. right. left. split; [reflexivity|]. right.
           apply FAIL with (mu + nu); [lia|lia|exact WD|discriminate].
        -- exists 1. split; [reflexivity|]. left. split; [reflexivity|]. apply SOL with 1; auto; lia.
      * cbn [andb]. destruct (Z.eqb_spec la (mu + nu - 2)) as [L2|L2].
        -- destruct (Z.odd la) eqn:O; cbn [andb negb].
           ++ exists (-1). split; [reflexivity|]. right. left. split; [reflexivity|]. right.
              apply FAIL with (mu + nu); [lia|lia|exact WD|discriminate].
           ++ destruct odd4 eqn:O4.
              ** exists 1. split; [reflexivity|]. left. split; [reflexivity|]. apply SOL with 2; auto; [|lia|lia].
                 rewrite P2. change (2 ^ 2) with 4. apply Q4. reflexivity.
              ** exists (-1). split; [reflexivity|]. right. left. split; [reflexivity|]. right.
                 apply FAIL with (mu + nu); [lia|lia|exact WD|]. intros _. right. split; [lia|reflexivity].
        -- cbn [andb]. exists (-1). split; [reflexivity|]. right. left. split; [reflexivity|]. right.
           apply FAIL with (mu + nu); [lia|lia|exact WD|]. intros _. left. lia.
    + (* mu >= nu *)
      destruct (Z.leb_spec nu mu) as [_|H3]; [|lia]. rewrite !andb_false_r, !andb_true_l, !andb_false_l.
      assert (WD : (p ^ (2 * nu) | p ^ nu * gder a b c d x)).
      { replace (2 * nu) with (nu + nu) by ring. rewrite pw_split by lia. apply Z.mul_divide_mono_l.
        apply pw_dvd with mu; [lia|apply ME]. }
      assert (UND : 2 * nu - 2 <= la -> 1 <= nu -> (p ^ (nu - 1) | gx) /\ (p ^ (nu - 1) | gder a b c d x)).
      { intros L N1. split.
        - apply pw_dvd with la; [lia|apply LE].
        - apply pw_dvd with mu; [lia|apply ME]. }
      destruct (Z.leb_spec (2 * nu) la) as [H|H].
      { exists 0. split; [reflexivity|]. right. right. split; [reflexivity|]. apply UND. lia. }
      destruct (Z.eqb_spec la (2 * nu - 2)) as [L2|L2]; destruct odd4 eqn:O4; cbn [andb].
      { exists 0. split; [reflexivity|]. right. right. split; [reflexivity|]. apply UND. lia. }
      * apply MINUS, FAIL with (2 * nu); [lia|lia|exact WD|]. intros O. right. split; [lia|reflexivity].
      * apply MINUS, FAIL with (2 * nu); [lia|lia|exact WD|]. intros O. left. auto.
      * apply MINUS, FAIL with (2 * nu); [lia|lia|exact WD|]. intros O. left. auto.
Qed.
End Lemmas.
