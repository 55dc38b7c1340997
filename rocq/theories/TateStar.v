(** Tate's algorithm: the cubic and the loop for the types I*m *)
From Coq Require Import ZArith Znumtheory Lia List Bool.
From Verif Require Import Base RatModel MArithModel MArithProofs CurveModel CurveProofs TateModel TateSpec TateArith TateShift.
Import ListNotations.
Open Scope Z_scope.

Definition reach (C C' : curvedata) : Prop := consistent C' /\ exists r s t, cv C' = tr_rst r s t (cv C).
Lemma tr_comp r s t r' s' t' c :
  tr_rst r' s' t' (tr_rst r s t c) = tr_rst (r + r') (s + s') (t + t' + s * r') c.
Proof. unfold tr_rst. cbn [a1 a2 a3 a4 a6]. apply curve_eq; ring. Qed.
Lemma tr_id c : tr_rst 0 0 0 c = c.
Proof. destruct c as [A1 A2 A3 A4 A6]. unfold tr_rst. cbn [a1 a2 a3 a4 a6]. apply curve_eq; ring. Qed.
Lemma reach_refl C : consistent C -> reach C C.
Proof. intros H. split; [exact H|]. exists 0, 0, 0. symmetry. apply tr_id. Qed.
Lemma reach_step C C' r s t : reach C C' -> reach C (cd_transform r s t C').
Proof.
  intros [H (r0 & s0 & t0 & E)]. split; [apply cd_transform_ok; exact H|].
  rewrite cd_transform_cv, E, tr_comp. eexists _, _, _. reflexivity.
Qed.
Lemma reach_trans A B C : reach A B -> reach B C -> reach A C.
Proof.
  intros [_ (r & s & t & E)] [H (r' & s' & t' & E')]. split; [exact H|]. rewrite E', E, tr_comp. eexists _, _, _. reflexivity.
Qed.
Lemma reach_disc C C' : reach C C' -> sdisc (cv C') = sdisc (cv C).
Proof. intros [_ (r & s & t & ->)]. apply sdisc_tr. Qed.

Section P.
Variable p : Z.
Hypothesis P : prime p.

Lemma yshift a e u : (p | a * a + 4 * e) -> (p = 2 /\ (2 | u - e) \/ p <> 2 /\ (p | 2 * u + a)) ->
  (p | a + 2 * u) /\ (p | e - u * a - u ^ 2).
Proof.
  intros H [[E U]|[N U]].
  - subst p. assert (HA : (2 | a)) by (apply psq; [exact prime_2|apply (dc2 2 _ 2 1 (-2 * e) _ H (dself 2)); ring]).
    split; [apply (dc2 2 _ 2 1 u _ HA (dself 2)); ring|].
    assert (V : (2 | u - u ^ 2)) by (rewrite even_div; par; destruct (Z.even u); reflexivity).
    apply (dc3 2 _ _ _ (-1) 1 (- u) _ U V HA). ring.
  - destruct (odd_prime p P N) as (_ & _ & D4). split; [apply (dc1 p _ 1 _ U); ring|].
    apply pcancel with 4; [exact P|exact D4|]. apply (dc2 p _ _ 1 (- (2 * u + a)) _ H U). ring.
Qed.
Lemma xshift a b c u : ~ (p | a) -> (p | b * b - 4 * c * a) ->
  (p = 2 /\ (2 | u - c) \/ p <> 2 /\ (p | 2 * a * u + b)) ->
  (p | b + 2 * a * u) /\ (p | a * u ^ 2 + b * u + c).
Proof.
  intros NA H [[E U]|[N U]].
  - subst p. assert (HB : (2 | b)) by (apply psq; [exact prime_2|apply (dc2 2 _ 2 1 (2 * c * a) _ H (dself 2)); ring]).
    split; [apply (dc2 2 _ 2 1 (a * u) _ HB (dself 2)); ring|].
    rewrite ?even_div in *. revert NA U HB. par. destruct (Z.even a), (Z.even b), (Z.even c), (Z.even u); cbn; intuition congruence.
  - destruct (odd_prime p P N) as (_ & _ & D4). split; [apply (dc1 p _ 1 _ U); ring|].
    apply pcancel with (4 * a); [exact P|intros X; apply prime_mult in X as [X|X]; auto|].
    apply (dc2 p _ _ (-1) (2 * a * u + b) _ H U). ring.
Qed.

Definition cub_w (b c d : Z) := 27 * d * d - b * b * (c * c) + 4 * b * (b * b) * d - 18 * (b * c) * d + 4 * c * (c * c).
Definition cub_x (b c : Z) := 3 * c - b * b.
Lemma cub_w_tr b c d r : cub_w (b + 3 * r) (c + 2 * b * r + 3 * r ^ 2) (d + c * r + b * r ^ 2 + r ^ 3) = cub_w b c d.
Proof. unfold cub_w. ring. Qed.
Lemma cub_x_tr b c r : cub_x (b + 3 * r) (c + 2 * b * r + 3 * r ^ 2) = cub_x b c.
Proof. unfold cub_x. ring. Qed.

Lemma fermat3 r : (3 | r ^ 3 - r).
Proof.
  pose proof (Z.mod_pos_bound r 3 ltac:(lia)) as R0. pose proof (Z_div_mod_eq_full r 3) as R1.
  set (q := r / 3) in *. set (e := r mod 3) in *.
  assert (e = 0 \/ e = 1 \/ e = 2) as [E|[E|E]] by lia; rewrite E in R1; rewrite R1.
  - exists (9 * q ^ 3 - q). ring.
  - exists (9 * q ^ 3 + 9 * q ^ 2 + 2 * q). ring.
  - exists (9 * q ^ 3 + 18 * q ^ 2 + 11 * q + 2). ring.
Qed.

Lemma cub_double b c d r : (p | cub_w b c d) -> ~ (p | cub_x b c) ->
  (p = 2 /\ (2 | r - c) \/ p = 3 /\ (3 | b * r - c) \/ p <> 2 /\ p <> 3 /\ (p | 2 * cub_x b c * r - (b * c - 9 * d))) ->
  (p | c + 2 * b * r + 3 * r ^ 2) /\ (p | d + c * r + b * r ^ 2 + r ^ 3) /\ ~ (p | b + 3 * r).
Proof.
  intros W NX [[E R]|[[E R]|(N2 & N3 & R)]].
  - rewrite E in *. rewrite ?even_div in *. revert W NX R. unfold cub_w, cub_x. par.
    change (Z.even 2) with true. change (Z.even 4) with true. change (Z.even 27) with false. change (Z.even 18) with true. change (Z.even 3) with false.
    destruct (Z.even b), (Z.even c), (Z.even d), (Z.even r); cbn; intuition congruence.
  - rewrite E in *. set (c' := c + 2 * b * r + 3 * r ^ 2). set (d' := d + c * r + b * r ^ 2 + r ^ 3).
    assert (Nb : ~ (3 | b)).
    { intros X. apply NX. apply (dc2 3 _ 3 (- b) c _ X (dself 3)). unfold cub_x. ring. }
    assert (Nb' : ~ (3 | b + 3 * r)).
    { intros X. apply Nb. apply (dc2 3 _ 3 1 (- r) _ X (dself 3)). ring. }
    assert (C' : (3 | c')) by (apply (dc2 3 _ 3 2 (c + r ^ 2) _ R (dself 3)); unfold c'; ring).
    split; [exact C'|]. split; [|exact Nb'].
    rewrite <- (cub_w_tr b c d r) in W. fold c' d' in W. set (b' := b + 3 * r) in *.
    apply pcancel with (b' * (b' * b')); [exact prime_3| |].
    + intros X. apply prime_mult in X as [X|X]; [auto| |exact prime_3]. apply psq in X; auto using prime_3.
    + apply (dc3 3 _ _ 3 1 (b' ^ 2 * c' + 18 * b' * d' - 4 * c' ^ 2) (-9 * d' ^ 2 - b' ^ 3 * d') _ W C' (dself 3)). unfold cub_w. ring.
  - destruct (odd_prime p P N2) as (_ & D2 & D4). pose proof (not_div_3 p P N2 N3) as D3.
    set (c' := c + 2 * b * r + 3 * r ^ 2). set (d' := d + c * r + b * r ^ 2 + r ^ 3).
    assert (C' : (p | c')).
    { apply pcancel with (4 * (cub_x b c * cub_x b c)); [exact P| |].
      - intros X. apply prime_mult in X as [X|X]; [auto| |exact P]. apply psq in X; auto.
      - apply (dc2 p _ _ (4 * cub_x b c * b + 3 * (2 * cub_x b c * r + (b * c - 9 * d))) 9 _ R W). unfold c', cub_x, cub_w. ring. }
    split; [exact C'|].
    assert (T : (b + 3 * r) * c' - 9 * d' = b * c - 9 * d - 2 * cub_x b c * r) by (unfold c', d', cub_x; ring).
    split.
    + apply pcancel with (3 * 3); [exact P|intros X; apply psq in X; auto|].
      apply (dc2 p _ _ 1 (b + 3 * r) _ R C'). replace ((b + 3 * r) * c') with ((b * c - 9 * d - 2 * cub_x b c * r) + 9 * d') by lia. ring.
    + intros X. apply NX. rewrite <- (cub_x_tr b c r). fold c'. apply (dc2 p _ _ 3 (- (b + 3 * r)) _ C' X). unfold cub_x. ring.
Qed.

Lemma cub_triple b c d r : (p | cub_w b c d) -> (p | cub_x b c) ->
  (p = 2 /\ (2 | r - b) \/ p = 3 /\ (3 | r + d) \/ p <> 2 /\ p <> 3 /\ (p | 3 * r + b)) ->
  (p | b + 3 * r) /\ (p | c + 2 * b * r + 3 * r ^ 2) /\ (p | d + c * r + b * r ^ 2 + r ^ 3).
Proof.
  intros W HX [[E R]|[[E R]|(N2 & N3 & R)]].
  - rewrite E in *. rewrite ?even_div in *. revert W HX R. unfold cub_w, cub_x. par.
    change (Z.even 2) with true. change (Z.even 4) with true. change (Z.even 27) with false. change (Z.even 18) with true. change (Z.even 3) with false.
    destruct (Z.even b), (Z.even c), (Z.even d), (Z.even r); cbn; intuition congruence.
  - rewrite E in *.
    assert (B : (3 | b)) by (apply psq; [exact prime_3|apply (dc2 3 _ 3 (-1) c _ HX (dself 3)); unfold cub_x; ring]).
    assert (C : (3 | c)).
    { assert (C3 : (3 | c * (c * c))).
      { apply (dc3 3 _ _ 3 1 (b * c * c - 4 * b * b * d + 18 * c * d) (-9 * d * d - c * c * c) _ W B (dself 3)). unfold cub_w. ring. }
      apply prime_mult in C3 as [C3|C3]; [exact C3|apply psq; [exact prime_3|exact C3]|exact prime_3]. }
    split; [apply (dc2 3 _ 3 1 r _ B (dself 3)); ring|].
    split; [apply (dc3 3 _ _ 3 1 (2 * r) (r ^ 2) _ C B (dself 3)); ring|].
    apply (dc4 3 _ _ _ _ 1 r (r ^ 2) 1 _ R C B (fermat3 r)). ring.
  - pose proof (not_div_3 p P N2 N3) as D3.
    set (b' := b + 3 * r). set (c' := c + 2 * b * r + 3 * r ^ 2). set (d' := d + c * r + b * r ^ 2 + r ^ 3).
    assert (B : (p | b')) by (apply (dc1 p _ 1 _ R); unfold b'; ring). split; [exact B|].
    rewrite <- (cub_x_tr b c r) in HX. rewrite <- (cub_w_tr b c d r) in W. fold b' c' in HX. fold b' c' d' in W.
    assert (C : (p | c')).
    { apply pcancel with 3; [exact P|exact D3|]. apply (dc2 p _ _ 1 b' _ HX B). unfold cub_x. ring. }
    split; [exact C|]. apply psq; [exact P|]. apply pcancel with (3 * (3 * 3)); [exact P| |].
    + intros X. apply prime_mult in X as [X|X]; [auto| |exact P]. apply psq in X; auto.
    + apply (dc3 p _ _ _ 1 (b' * c' * c' - 4 * b' * b' * d' + 18 * c' * d') (-4 * c' * c') _ W B C). unfold cub_w. ring.
Qed.
End P.
