(** Proofs about gauss_reduce and modrat on longs. *)
From Coq Require Import ZArith Lia List Bool Znumtheory.
From Verif Require Import Base ArithModel ArithProofs.
Open Scope Z_scope.
Open Scope res_scope.

(** *** Specification *)
(** (u,v) belongs to the lattice spanned by (a,b) and (c,d). *)
Definition in_lat (a b c d u v : Z) : Prop :=
  exists x y, u = x * a + y * c /\ v = x * b + y * d.

Definition same_lat (a b c d a' b' c' d' : Z) : Prop :=
  forall u v, in_lat a b c d u v <-> in_lat a' b' c' d' u v.

(** (a,b) is a shortest non-zero vector and (c,d) a shortest vector not
    proportional to it. *)
Definition minimal_basis (a b c d : Z) : Prop :=
  (forall u v, in_lat a b c d u v -> u <> 0 \/ v <> 0 -> a * a + b * b <= u * u + v * v) /\
  (forall u v, in_lat a b c d u v -> a * v <> b * u -> c * c + d * d <= u * u + v * v).

(** *** Lattice algebra *)
Lemma same_lat_refl a b c d : same_lat a b c d a b c d.
Proof. intros u v; tauto. Qed.

Lemma same_lat_trans a b c d a' b' c' d' a2 b2 c2 d2 :
  same_lat a b c d a' b' c' d' -> same_lat a' b' c' d' a2 b2 c2 d2 ->
  same_lat a b c d a2 b2 c2 d2.
Proof. intros H1 H2 u v. specialize (H1 u v). specialize (H2 u v). tauto. Qed.

Lemma same_lat_shift a b c d t : same_lat a b c d a b (c - t * a) (d - t * b).
Proof.
  intros u v; split; intros (x & y & -> & ->).
  - exists (x + t * y), y. split; ring.
  - exists (x - t * y), y. split; ring.
Qed.

Lemma same_lat_swap a b c d : same_lat a b c d c d (- a) (- b).
Proof.
  intros u v; split; intros (x & y & -> & ->).
  - exists y, (- x). split; ring.
  - exists (- y), x. split; ring.
Qed.

(** A reduced Gram matrix gives successive minima. *)
Lemma reduced_form_min P Q R x y :
  0 < P -> P <= R -> Z.abs (2 * Q) <= P -> (x <> 0 \/ y <> 0) ->
  P <= x * x * P + 2 * x * y * Q + y * y * R.
Proof.
  intros HP HR HQ Hxy.
  assert (B : - (Z.abs x * Z.abs y * P) <= 2 * x * y * Q).
  { assert (Z.abs (2 * x * y * Q) <= Z.abs x * Z.abs y * P).
    { replace (2 * x * y * Q) with (x * y * (2 * Q)) by ring.
      rewrite !Z.abs_mul in *. apply Z.mul_le_mono_nonneg_l; [|lia].
      apply Z.mul_nonneg_nonneg; lia. }
    lia. }
  assert (Ex : x * x = Z.abs x * Z.abs x) by lia.
  assert (Ey : y * y = Z.abs y * Z.abs y) by lia.
  rewrite Ex, Ey. set (X := Z.abs x) in *. set (Y := Z.abs y) in *.
  assert (HX : 0 <= X) by lia. assert (HY : 0 <= Y) by lia.
  assert (Hn : 1 <= X \/ 1 <= Y) by lia.
  assert (YR : Y * Y * P <= Y * Y * R) by (apply Z.mul_le_mono_nonneg_l; nia).
  set (T := 2 * x * y * Q) in *. clearbody X Y T. clear - HP B YR HX HY Hn.
  assert (1 <= X * X - X * Y + Y * Y) by nia.
  nia.
Qed.

Lemma reduced_form_min2 P Q R x y :
  0 < P -> P <= R -> Z.abs (2 * Q) <= P -> y <> 0 ->
  R <= x * x * P + 2 * x * y * Q + y * y * R.
Proof.
  intros HP HR HQ Hy.
  assert (B : - (Z.abs x * Z.abs y * P) <= 2 * x * y * Q).
  { assert (Z.abs (2 * x * y * Q) <= Z.abs x * Z.abs y * P).
    { replace (2 * x * y * Q) with (x * y * (2 * Q)) by ring.
      rewrite !Z.abs_mul in *. apply Z.mul_le_mono_nonneg_l; [|lia].
      apply Z.mul_nonneg_nonneg; lia. }
    lia. }
  assert (Ex : x * x = Z.abs x * Z.abs x) by lia.
  assert (Ey : y * y = Z.abs y * Z.abs y) by lia.
  rewrite Ex, Ey. set (X := Z.abs x) in *. set (Y := Z.abs y) in *.
  assert (HX : 0 <= X) by lia. assert (HY : 1 <= Y) by lia.
  set (T := 2 * x * y * Q) in *. clearbody X Y T. clear - HP HR B HX HY.
  (* (Y^2-1) R >= (Y^2-1) P, and X^2 - XY + Y^2 - 1 >= 0 *)
  assert ((Y * Y - 1) * P <= (Y * Y - 1) * R) by (apply Z.mul_le_mono_nonneg_l; nia).
  assert (0 <= X * X - X * Y + Y * Y - 1) by nia.
  nia.
Qed.

Lemma minimal_of_reduced a b c d :
  a * d - b * c <> 0 ->
  a * a + b * b <= c * c + d * d ->
  Z.abs (2 * (a * c + b * d)) <= a * a + b * b ->
  minimal_basis a b c d.
Proof.
  intros Hdet HPR HQ.
  assert (HP : 0 < a * a + b * b).
  { destruct (Z.eq_dec a 0) as [->|]; [destruct (Z.eq_dec b 0) as [->|]|]; nia. }
  assert (N : forall x y, (x * a + y * c) * (x * a + y * c) + (x * b + y * d) * (x * b + y * d)
     = x * x * (a * a + b * b) + 2 * x * y * (a * c + b * d) + y * y * (c * c + d * d))
    by (intros; ring).
  split.
  - intros u v (x & y & -> & ->) Hnz. rewrite N.
    apply reduced_form_min; auto.
    destruct (Z.eq_dec x 0) as [->|]; [|auto].
    destruct (Z.eq_dec y 0) as [->|]; [|auto]. exfalso. clear - Hnz. lia.
  - intros u v (x & y & -> & ->) Hnz. rewrite N.
    apply reduced_form_min2; auto.
    intros ->. apply Hnz. ring.
Qed.

(** *** The loop *)
Definition B62 : Z := 4611686018427387904.

Definition gr_inv (a0 b0 c0 d0 : Z) (s : gr_state) : Prop :=
  let '(a, b, c, d, P, Q, R) := s in
  P = a * a + b * b /\ Q = a * c + b * d /\ R = c * c + d * d /\
  P <= B62 /\ R <= B62 /\
  a * d - b * c = a0 * d0 - b0 * c0 /\
  same_lat a0 b0 c0 d0 a b c d.

Definition gr_post (a0 b0 c0 d0 : Z) (r : Z * Z * Z * Z) : Prop :=
  let '(a, b, c, d) := r in
  same_lat a0 b0 c0 d0 a b c d /\ a * d - b * c = a0 * d0 - b0 * c0 /\
  a * a + b * b <= c * c + d * d /\
  - (a * a + b * b) <= 2 * (a * c + b * d) < a * a + b * b.

Definition gr_meas (s : gr_state) : Z :=
  let '(_, _, _, _, P, Q, _) := s in
  2 * P + (if (- P <=? 2 * Q) && (2 * Q <? P) then 0 else 1).

Lemma sq_bound a b n : 0 <= n -> a * a + b * b <= n * n -> Z.abs a <= n /\ Z.abs b <= n.
Proof. intros. split; nia. Qed.

Lemma det_pos_norm a b c d : a * d - b * c <> 0 -> 0 < a * a + b * b.
Proof.
  intros. destruct (Z.eq_dec a 0) as [->|]; [destruct (Z.eq_dec b 0) as [->|]|];
    [lia|pose proof (sq_pos b)|pose proof (sq_pos a) as HH; pose proof (Z.square_nonneg b)]; lia.
Qed.

Lemma cauchy a b c d :
  (a * c + b * d) * (a * c + b * d) <= (a * a + b * b) * (c * c + d * d).
Proof.
  replace ((a * a + b * b) * (c * c + d * d))
    with ((a * c + b * d) * (a * c + b * d) + (a * d - b * c) * (a * d - b * c)) by ring.
  pose proof (Z.square_nonneg (a * d - b * c)). lia.
Qed.

Lemma abs_le_of_sq x n : 0 <= n -> x * x <= n * n -> Z.abs x <= n.
Proof. intros. nia. Qed.

Lemma sq_le_abs x y : Z.abs x <= Z.abs y -> x * x <= y * y.
Proof.
  intros. rewrite <- (Z.abs_square x), <- (Z.abs_square y).
  apply Z.mul_le_mono_nonneg; lia.
Qed.

Lemma gr_inv_step a0 b0 c0 d0 s :
  a0 * d0 - b0 * c0 <> 0 ->
  gr_inv a0 b0 c0 d0 s ->
  (exists r, gr_step s = Ok (inr r) /\ gr_post a0 b0 c0 d0 r) \/
  (exists s', gr_step s = Ok (inl s') /\ gr_inv a0 b0 c0 d0 s' /\ gr_meas s' <= gr_meas s - 1).
Proof.
  intros Hdet. destruct s as [[[[[[a b] c] d] P] Q] R].
  intros (HP & HQ & HR & BP & BR & Hd & HL).
  assert (Hd' : a * d - b * c <> 0) by (rewrite Hd; auto).
  pose proof (det_pos_norm a b c d Hd') as PP.
  assert (Pd : - b * c - (- d) * a <> 0) by lia.
  assert (PR : 0 < c * c + d * d).
  { apply (det_pos_norm c d (-a) (-b)). lia. }
  assert (Ca : Z.abs a <= 2147483648 /\ Z.abs b <= 2147483648).
  { apply sq_bound; [lia|]. rewrite <- HP. unfold B62 in BP. lia. }
  assert (Cc : Z.abs c <= 2147483648 /\ Z.abs d <= 2147483648).
  { apply sq_bound; [lia|]. rewrite <- HR. unfold B62 in BR. lia. }
  assert (CQ : Z.abs Q <= B62).
  { apply abs_le_of_sq; [unfold B62; lia|]. rewrite HQ.
    eapply Z.le_trans; [apply cauchy|]. rewrite <- HP, <- HR.
    apply Z.mul_le_mono_nonneg; lia. }
  unfold gr_step.
  destruct (rounded_division_ok Q P) as (t & Ht & Hq).
  { clear - CQ. unfold B62 in CQ. u64. lia. }
  { unfold B62 in BP. change (2 ^ 62) with 4611686018427387904. lia. }
  rewrite Ht, bind_Ok.
  destruct (Z.eqb_spec t 0) as [T0|T0].
  - (* no shift *)
    subst t. rewrite bind_Ok.
    assert (M : gr_meas (a, b, c, d, P, Q, R) = 2 * P).
    { cbn [gr_meas]. destruct (Z.leb_spec (-P) (2 * Q)); [|clear - Hq H; lia].
      destruct (Z.ltb_spec (2 * Q) P); [|clear - Hq H0; lia].
      cbn [andb]. lia. }
    destruct (Z.ltb_spec R P) as [L|L].
    + right.
      rewrite neg64_ok by (clear - Ca; rg). rewrite bind_Ok.
      rewrite neg64_ok by (clear - Ca; rg). rewrite bind_Ok.
      rewrite neg64_ok by (clear - CQ; unfold B62 in *; rg). rewrite bind_Ok.
      eexists; split; [reflexivity|]. split.
      * unfold gr_inv.
        split; [exact HR|]. split; [rewrite HQ; clear; ring|]. split; [rewrite HP; clear; ring|].
        split; [exact BR|]. split; [exact BP|].
        split; [rewrite <- Hd; clear; ring|]. intros u v; split; intros HH.
        -- revert HH; apply (proj1 (same_lat_trans _ _ _ _ _ _ _ _ _ _ _ _ HL (same_lat_swap a b c d) u v)).
        -- revert HH; apply (proj2 (same_lat_trans _ _ _ _ _ _ _ _ _ _ _ _ HL (same_lat_swap a b c d) u v)).
      * rewrite M. cbn [gr_meas]. destruct (_ && _); clear - L; lia.
    + left. eexists; split; [reflexivity|].
      unfold gr_post. subst P Q R. clear - HL Hd L Hq. repeat split; auto; try lia.
      all: apply HL; auto.
  - (* shift by t *)
    set (c1 := c - t * a). set (d1 := d - t * b).
    assert (EQ1 : Q - t * P = a * c1 + b * d1) by (subst; unfold c1, d1; ring).
    assert (ER1 : P * (c1 * c1 + d1 * d1)
                  = (Q - t * P) * (Q - t * P) + (a * d - b * c) * (a * d - b * c)).
    { rewrite EQ1, HP. unfold c1, d1. ring. }
    assert (ER0 : P * R = Q * Q + (a * d - b * c) * (a * d - b * c)).
    { subst. ring. }
    assert (HQ1 : (Q - t * P) * (Q - t * P) <= Q * Q).
    { assert (HH : P <= Z.abs (2 * Q)) by (clear - Hq T0 PP HP; nia).
      assert (H2 : Z.abs (2 * (Q - t * P)) <= P) by (clear - Hq; lia).
      apply sq_le_abs. clear - HH H2. lia. }
    assert (BR1 : c1 * c1 + d1 * d1 <= R).
    { apply Z.mul_le_mono_pos_l with (p := P); [rewrite HP; exact PP|]. rewrite ER1, ER0. clear - HQ1. lia. }
    assert (Cc1 : Z.abs c1 <= 2147483648 /\ Z.abs d1 <= 2147483648).
    { apply sq_bound; [lia|]. unfold B62 in BR. clear - BR BR1. lia. }
    assert (Sc : 0 <= c1 * c1 /\ 0 <= d1 * d1) by (split; apply Z.square_nonneg).
    assert (BQ1 : Z.abs (2 * (Q - t * P)) <= B62) by (clear - Hq BP; lia).
    assert (M : gr_meas (a, b, c, d, P, Q, R) = 2 * P + 1).
    { cbn [gr_meas]. destruct (Z.leb_spec (-P) (2 * Q)); cbn [andb]; auto.
      destruct (Z.ltb_spec (2 * Q) P); auto.
      exfalso. clear - H H0 Hq T0 PP HP. nia. }
    assert (M1 : forall c d R, gr_meas (a, b, c, d, P, Q - t * P, R) = 2 * P).
    { intros. cbn [gr_meas]. destruct (Z.leb_spec (-P) (2 * (Q - t * P))); [|clear - Hq H; lia].
      destruct (Z.ltb_spec (2 * (Q - t * P)) P); [|clear - Hq H0; lia].
      cbn [andb]. lia. }
    rewrite mul64_ok by (replace (t * a) with (c - c1) by (unfold c1; ring); clear - Cc Cc1; rg).
    rewrite bind_Ok.
    rewrite sub64_ok by (fold c1; clear - Cc1; rg). rewrite bind_Ok. fold c1.
    rewrite mul64_ok by (replace (t * b) with (d - d1) by (unfold d1; ring); clear - Cc Cc1; rg).
    rewrite bind_Ok.
    rewrite sub64_ok by (fold d1; clear - Cc1; rg). rewrite bind_Ok. fold d1.
    rewrite mul64_ok by (clear - BQ1 CQ; unfold B62 in *; rg). rewrite bind_Ok.
    rewrite sub64_ok by (clear - BQ1; unfold B62 in *; rg). rewrite bind_Ok.
    rewrite mul64_ok by (clear - Sc BR1 BR; unfold B62 in *; rg). rewrite bind_Ok.
    rewrite mul64_ok by (clear - Sc BR1 BR; unfold B62 in *; rg). rewrite bind_Ok.
    rewrite add64_ok by (clear - Sc BR1 BR; unfold B62 in *; rg). rewrite bind_Ok.
    rewrite bind_Ok.
    pose proof (same_lat_trans _ _ _ _ _ _ _ _ _ _ _ _ HL (same_lat_shift a b c d t)) as HL1.
    fold c1 d1 in HL1.
    assert (Hd1 : a * d1 - b * c1 = a0 * d0 - b0 * c0) by (rewrite <- Hd; unfold c1, d1; ring).
    clearbody c1 d1.
    destruct (Z.ltb_spec (c1 * c1 + d1 * d1) P) as [L|L].
    + right.
      rewrite neg64_ok by (clear - Ca; rg). rewrite bind_Ok.
      rewrite neg64_ok by (clear - Ca; rg). rewrite bind_Ok.
      rewrite neg64_ok by (clear - BQ1; unfold B62 in *; rg). rewrite bind_Ok.
      eexists; split; [reflexivity|]. split.
      * unfold gr_inv. rewrite EQ1.
        split; [reflexivity|]. split; [clear; ring|]. split; [clear - HP; lia|].
        split; [clear - L BP; lia|]. split; [exact BP|].
        split; [rewrite <- Hd1; clear; ring|]. intros u v; split; intros HH.
        -- revert HH; apply (proj1 (same_lat_trans _ _ _ _ _ _ _ _ _ _ _ _ HL1 (same_lat_swap a b c1 d1) u v)).
        -- revert HH; apply (proj2 (same_lat_trans _ _ _ _ _ _ _ _ _ _ _ _ HL1 (same_lat_swap a b c1 d1) u v)).
      * rewrite M. cbn [gr_meas]. destruct (_ && _); clear - L; lia.
    + right. eexists; split; [reflexivity|]. split.
      * unfold gr_inv. rewrite EQ1.
        split; [exact HP|]. split; [reflexivity|]. split; [reflexivity|].
        split; [exact BP|]. split; [clear - BR1 BR; lia|]. split; [exact Hd1|exact HL1].
      * rewrite M, M1. clear; lia.
Qed.

Lemma gauss_reduce_ok a b c d :
  a * d - b * c <> 0 -> a * a + b * b <= B62 -> c * c + d * d <= B62 ->
  exists a' b' c' d', gauss_reduce a b c d = Ok (a', b', c', d') /\
    gr_post a b c d (a', b', c', d').
Proof.
  intros Hdet HP HR. unfold gauss_reduce.
  assert (Ca : Z.abs a <= 2147483648 /\ Z.abs b <= 2147483648).
  { apply sq_bound; [lia|]. unfold B62 in HP. lia. }
  assert (Cc : Z.abs c <= 2147483648 /\ Z.abs d <= 2147483648).
  { apply sq_bound; [lia|]. unfold B62 in HR. lia. }
  assert (Pm : forall x y, Z.abs x <= 2147483648 -> Z.abs y <= 2147483648 ->
             - B62 <= x * y <= B62).
  { intros. apply Z.abs_le. rewrite Z.abs_mul. unfold B62.
    change 4611686018427387904 with (2147483648 * 2147483648).
    apply Z.mul_le_mono_nonneg; lia. }
  destruct Ca as [Ca Cb]. destruct Cc as [Cc Cd].
  pose proof (Pm a a Ca Ca). pose proof (Pm b b Cb Cb). pose proof (Pm a c Ca Cc).
  pose proof (Pm b d Cb Cd). pose proof (Pm c c Cc Cc). pose proof (Pm d d Cd Cd).
  pose proof (Z.square_nonneg a). pose proof (Z.square_nonneg b).
  pose proof (Z.square_nonneg c). pose proof (Z.square_nonneg d).
  assert (CQ : - B62 <= a * c + b * d <= B62).
  { apply Z.abs_le. apply abs_le_of_sq; [unfold B62; lia|].
    eapply Z.le_trans; [apply cauchy|].
    apply Z.mul_le_mono_nonneg; auto; apply Z.add_nonneg_nonneg; auto. }
  clear Pm. revert Hdet Ca Cb Cc Cd. unfold B62 in *.
  rewrite mul64_ok by rg. rewrite bind_Ok. rewrite mul64_ok by rg. rewrite bind_Ok.
  rewrite add64_ok by rg. rewrite bind_Ok.
  rewrite mul64_ok by rg. rewrite bind_Ok. rewrite mul64_ok by rg. rewrite bind_Ok.
  rewrite add64_ok by rg. rewrite bind_Ok.
  rewrite mul64_ok by rg. rewrite bind_Ok. rewrite mul64_ok by rg. rewrite bind_Ok.
  rewrite add64_ok by rg. rewrite bind_Ok.
  intros Hdet _ _ _ _.
  destruct (while_total gr_step (gr_inv a b c d) (gr_post a b c d) gr_meas)
    with (n := W) (s := (a, b, c, d, a * a + b * b, a * c + b * d, c * c + d * d))
    as ([[[a' b'] c'] d'] & Hr & Hp).
  - intros [[[[[[a1 b1] c1] d1] P1] Q1] R1] (E & _). cbn [gr_meas].
    pose proof (Z.square_nonneg a1). pose proof (Z.square_nonneg b1).
    destruct (_ && _); lia.
  - intros s Hs. now apply gr_inv_step.
  - unfold gr_inv, B62. repeat split; auto.
  - cbn [gr_meas]. change (2 ^ Z.of_nat W) with 1180591620717411303424.
    destruct (_ && _); clear - HP; lia.
  - exists a', b', c', d'. auto.
Qed.

(** *** modrat *)
Lemma modrat_lattice n m n1 u v :
  m <> 0 -> (m | n - n1) -> (in_lat n1 1 m 0 u v <-> (m | u - n * v)).
Proof.
  intros Hm [k Hk]. split.
  - intros (x & y & -> & ->). exists (y - k * x). assert (n = n1 + k * m) by lia. subst n. ring.
  - intros [j Hj]. exists v, (j + k * v). split; [|ring].
    assert (n = n1 + k * m) by lia. subst n.
    replace u with (j * m + (n1 + k * m) * v) by lia. ring.
Qed.

Lemma modrat_long_ok n m :
  sym64 n -> 0 < m <= 2147483648 ->
  exists ok a b, modrat_long n m = Ok (ok, a, b) /\
    (a <> 0 \/ b <> 0) /\ (m | a - n * b) /\
    (forall u v, (m | u - n * v) -> u <> 0 \/ v <> 0 -> a * a + b * b <= u * u + v * v) /\
    (ok = true <-> 2 * a * a <= m /\ 2 * b * b <= m).
Proof.
  intros Hn Hm. unfold modrat_long.
  apply sym64_in64 in Hn as [Hn1 Hn2].
  destruct (mod_long_ok n m) as (n1 & -> & Hd & Hb); auto; try rg.
  rewrite bind_Ok.
  assert (Hn1' : Z.abs n1 <= 1073741824) by lia.
  destruct (gauss_reduce_ok n1 1 m 0) as (a & b & c & d & -> & HL & Hdet & HPR & HQ).
  - lia.
  - unfold B62. assert (n1 * n1 <= 1073741824 * 1073741824) by nia. lia.
  - unfold B62. assert (m * m <= 2147483648 * 2147483648) by nia. lia.
  - rewrite bind_Ok. eexists _, a, b. split; [reflexivity|].
    assert (Hdet' : a * d - b * c <> 0) by lia.
    destruct (minimal_of_reduced a b c d) as [M1 M2]; auto; [lia|].
    split; [|split; [|split]].
    + clear - Hdet'. destruct (Z.eq_dec a 0) as [->|]; [|auto]. right. intros ->. lia.
    + apply (modrat_lattice n m n1); auto; [lia|]. apply HL. exists 1, 0. split; ring.
    + intros u v Hl Hnz. apply M1; auto. apply HL. now apply (modrat_lattice n m n1); [lia| |].
    + rewrite andb_true_iff, !Z.leb_le. tauto.
Qed.

(** Completeness: if some fraction meets the bound, modrat succeeds; and if
    the fraction is strictly within the bound, it is the one found. *)
Lemma modrat_complete n m a b u v :
  0 < m -> (a <> 0 \/ b <> 0) ->
  (m | a - n * b) -> (m | u - n * v) -> (u <> 0 \/ v <> 0) ->
  a * a + b * b <= u * u + v * v ->
  2 * u * u <= m -> 2 * v * v <= m ->
  (2 * a * a <= m /\ 2 * b * b <= m) /\
  (2 * u * u < m -> u * b = a * v).
Proof.
  intros Hm Hab [k Hk] [j Hj] Huv Hmin Hu Hv.
  assert (HD : u * b - a * v = (j * b - k * v) * m).
  { assert (a = k * m + n * b) by lia. assert (u = j * m + n * v) by lia.
    rewrite H, H0. ring. }
  assert (HI : (u * b - a * v) * (u * b - a * v) + (u * a + v * b) * (u * a + v * b)
               = (u * u + v * v) * (a * a + b * b)) by ring.
  assert (Sum : u * u + v * v <= m) by lia.
  pose proof (Z.square_nonneg (u * a + v * b)) as S0.
  pose proof (Z.square_nonneg a) as Sa. pose proof (Z.square_nonneg b) as Sb.
  pose proof (Z.square_nonneg u) as Su. pose proof (Z.square_nonneg v) as Sv.
  set (z := j * b - k * v) in *. clearbody z.
  set (NA := a * a + b * b) in *. set (NU := u * u + v * v) in *.
  assert (HB : NU * NA <= m * m) by (apply Z.mul_le_mono_nonneg; lia).
  destruct (Z.eq_dec z 0) as [Z0|Z0].
  - (* proportional *)
    rewrite Z0, Z.mul_0_l in HD.
    assert (E : u * b = a * v) by lia.
    split; [|auto].
    (* a^2 NU = u^2 NA *)
    assert (E1 : a * a * NU = u * u * NA).
    { unfold NU, NA. replace (a * a * (u * u + v * v)) with (a * a * (u * u) + (a * v) * (a * v)) by ring.
      rewrite <- E. ring. }
    assert (E2 : b * b * NU = v * v * NA).
    { unfold NU, NA. replace (b * b * (u * u + v * v)) with ((u * b) * (u * b) + b * b * (v * v)) by ring.
      rewrite E. ring. }
    assert (PNU : 0 < NU).
    { unfold NU. destruct Huv as [H|H]; [pose proof (sq_pos u H)|pose proof (sq_pos v H)]; lia. }
    assert (a * a <= u * u).
    { apply Z.mul_le_mono_pos_r with (p := NU); auto. rewrite E1. apply Z.mul_le_mono_nonneg_l; lia. }
    assert (b * b <= v * v).
    { apply Z.mul_le_mono_pos_r with (p := NU); auto. rewrite E2. apply Z.mul_le_mono_nonneg_l; lia. }
    split; lia.
  - (* extremal: everything is an equality *)
    assert (Hz : m * m <= (u * b - a * v) * (u * b - a * v)).
    { rewrite HD. pose proof (sq_pos z Z0). replace (z * m * (z * m)) with ((z * z) * (m * m)) by ring.
      pose proof (sq_pos m ltac:(lia)). clear - H H0. nia. }
    assert (EE : NU * NA = m * m) by lia.
    assert (ENU : NU = m).
    { destruct (Z.eq_dec NU m); auto. exfalso.
      assert (NU * NA <= (m - 1) * m) by (apply Z.mul_le_mono_nonneg; lia). lia. }
    assert (ENA : NA = m) by (rewrite ENU in EE; apply (Z.mul_reg_l _ _ m); [clear - Hm; lia|exact EE]).
    assert (Eu : 2 * (u * u) = m) by lia. assert (Ev : 2 * (v * v) = m) by lia.
    assert (O : (u * a + v * b) * (u * a + v * b) = 0) by lia.
    assert (O' : u * a = - (v * b)) by (apply Z.mul_eq_0 in O; lia).
    assert (EA : u * u * (a * a) = v * v * (b * b)).
    { replace (u * u * (a * a)) with ((u * a) * (u * a)) by ring. rewrite O'. ring. }
    assert (a * a = b * b).
    { assert (u * u = v * v) by lia. rewrite H in EA.
      apply (Z.mul_reg_l _ _ (v * v)); [clear - Ev Hm; lia|exact EA]. }
    split; [unfold NA in ENA; split; lia|]. intros. lia.
Qed.

(** If modrat reports success the denominator is not zero. *)
Lemma modrat_den_nonzero n m a b :
  0 < m -> (a <> 0 \/ b <> 0) -> (m | a - n * b) -> 2 * a * a <= m -> b <> 0.
Proof.
  intros Hm Hab [k Hk] Ha ->.
  assert (E : a = k * m) by lia. assert (a <> 0) by lia.
  assert (k <> 0) by (intros ->; lia).
  assert (m <= Z.abs a).
  { rewrite E, Z.abs_mul. assert (1 <= Z.abs k) by lia. rewrite (Z.abs_eq m) by lia.
    clear - H1 Hm. nia. }
  rewrite <- Z.mul_assoc, <- (Z.abs_square a) in Ha. clear - Ha H1 Hm. nia.
Qed.
