(** Divisibility of the coefficients of a quartic whose invariants are divisible by powers of p. *)
From Coq Require Import ZArith Lia Znumtheory.
Open Scope Z_scope.

Definition fI (a b c d e : Z) : Z := 12 * a * e - 3 * b * d + c * c.
Definition fJ (a b c d e : Z) : Z := (72 * a * e + 9 * b * d - 2 * (c * c)) * c - 27 * (a * (d * d) + (b * b) * e).

Lemma lin1 k A B L R : A = B -> L - R = k * (A - B) -> L = R.
Proof. intros -> H. rewrite Z.sub_diag, Z.mul_0_r in H. lia. Qed.
Lemma lin2 k l A B C D L R : A = B -> C = D -> L - R = k * (A - B) + l * (C - D) -> L = R.
Proof. intros -> -> H. rewrite !Z.sub_diag, !Z.mul_0_r in H. lia. Qed.

Section P.
Variable p : Z.
Hypothesis P : prime p.
Hypothesis U2 : ~ (p | 2).
Hypothesis U3 : ~ (p | 3).

Lemma p0 : p <> 0. Proof. destruct P; lia. Qed.
Lemma nzm x y : x <> 0 -> y <> 0 -> x * y <> 0. Proof. intros X Y E. apply Z.mul_eq_0 in E. tauto. Qed.
Lemma unit_mul u v : ~ (p | u) -> ~ (p | v) -> ~ (p | u * v).
Proof. intros U V H. destruct (prime_mult p P _ _ H); auto. Qed.
Lemma u1 : ~ (p | 1). Proof. intros H. apply Z.divide_pos_le in H; destruct P; lia. Qed.
Lemma u4 : ~ (p | 4). Proof. change 4 with (2*2). auto using unit_mul. Qed.
Lemma u8 : ~ (p | 8). Proof. change 8 with (2*4). auto using unit_mul, u4. Qed.
Lemma u12 : ~ (p | 12). Proof. change 12 with (3*4). auto using unit_mul, u4. Qed.
Lemma u24 : ~ (p | 24). Proof. change 24 with (3*8). auto using unit_mul, u8. Qed.
Lemma u27 : ~ (p | 27). Proof. change 27 with (3*3*3). auto using unit_mul. Qed.
Lemma canc u x : ~ (p | u) -> (p | u * x) -> (p | x).
Proof. intros U H. destruct (prime_mult p P _ _ H); tauto. Qed.
Lemma sqdv x : (p | x * x) -> (p | x).
Proof. intros H. destruct (prime_mult p P _ _ H); auto. Qed.
Lemma cudv x : (p | x * x * x) -> (p | x).
Proof. intros H. destruct (prime_mult p P _ _ H); auto using sqdv. Qed.
(** p^k u x = p^(k+1) w *)
Lemma pull k u x w : k <> 0 -> ~ (p | u) -> k * (u * x) = k * p * w -> exists y, x = p * y.
Proof.
  intros K U E. rewrite <- Z.mul_assoc in E. apply Z.mul_reg_l in E; [|exact K].
  destruct (canc u x U) as (y & Y); [exists w; lia|]. exists y. lia.
Qed.
Lemma pull2 k u x w : k <> 0 -> ~ (p | u) -> k * (u * (x * x)) = k * p * w -> exists y, x = p * y.
Proof.
  intros K U E. destruct (pull k u (x * x) w K U E) as (y & Y).
  destruct (sqdv x) as (z & Z'); [exists y; lia|]. exists z. lia.
Qed.
Lemma pull3 k u x w : k <> 0 -> ~ (p | u) -> k * (u * (x * x * x)) = k * p * w -> exists y, x = p * y.
Proof.
  intros K U E. destruct (pull k u (x * x * x) w K U E) as (y & Y).
  destruct (cudv x) as (z & Z'); [exists y; lia|]. exists z. lia.
Qed.
Lemma pk k : 0 <= k -> p ^ k <> 0. Proof. intros K. apply Z.pow_nonzero; [exact p0|exact K]. Qed.

Ltac nz := repeat (apply nzm; [|exact p0]); try exact p0; try discriminate.
Ltac un := repeat apply unit_mul; auto using u4, u8, u12, u24, u27.

(** quadruple root *)
Lemma quad_root a b1 c1 d1 e1 qI qJ : ~ (p | a) ->
  fI a (p * b1) (p * c1) (p * d1) (p * e1) = qI * p ^ 4 -> fJ a (p * b1) (p * c1) (p * d1) (p * e1) = qJ * p ^ 6 ->
  exists c2 d3 e4, c1 = p * c2 /\ d1 = p * p * d3 /\ e1 = p * p * p * e4.
Proof.
  unfold fI, fJ. intros U HI HJ.
  destruct (pull p (12 * a) e1 (3 * b1 * d1 - c1 * c1 + qI * p * p)) as (e2 & ->); [nz|un| |].
  { apply (lin1 1 _ _ _ _ HI). ring. }
  destruct (pull2 (p * p) (27 * a) d1 (72 * a * c1 * e2 + 9 * b1 * c1 * d1 - 27 * p * e2 * b1 * b1 - 2 * c1 * c1 * c1 - qJ * p * p * p)) as (d2 & ->); [nz|un| |].
  { apply (lin1 (-1) _ _ _ _ HJ). ring. }
  destruct (pull3 (p * p * p) 8 c1 (27 * b1 * c1 * d2 - 27 * a * d2 * d2 - 27 * e2 * b1 * b1 - qJ * p * p + 6 * c1 * qI * p)) as (c2 & ->); [nz|un| |].
  { apply (lin2 (-1) (6 * p * c1) _ _ _ _ _ _ HJ HI). ring. }
  destruct (pull (p * p) (12 * a) e2 (3 * b1 * d2 - p * c2 * c2 + qI * p)) as (e3 & ->); [nz|un| |].
  { apply (lin1 1 _ _ _ _ HI). ring. }
  destruct (pull2 (p * p * p * p) (27 * a) d2 (72 * a * c2 * e3 + 9 * b1 * c2 * d2 - 27 * e3 * b1 * b1 - 2 * p * c2 * c2 * c2 - qJ * p)) as (d3 & ->); [nz|un| |].
  { apply (lin1 (-1) _ _ _ _ HJ). ring. }
  destruct (pull (p * p * p) (12 * a) e3 (3 * b1 * d3 - c2 * c2 + qI)) as (e4 & ->); [nz|un| |].
  { apply (lin1 1 _ _ _ _ HI). ring. }
  exists c2, d3, e4. repeat split; ring.
Qed.

(** triple root *)
Lemma triple_root a1 b c2 d1 e1 qI qJ : ~ (p | b) ->
  fI (p * a1) b (p * p * c2) (p * d1) (p * e1) = qI * p ^ 4 -> fJ (p * a1) b (p * p * c2) (p * d1) (p * e1) = qJ * p ^ 6 ->
  exists d4 e6, d1 = p * p * p * d4 /\ e1 = p * p * p * p * p * e6.
Proof.
  unfold fI, fJ. intros U HI HJ.
  destruct (pull p (3 * b) d1 (12 * a1 * e1 + p * p * c2 * c2 - qI * p * p)) as (d2 & ->); [nz|un| |].
  { apply (lin1 (-1) _ _ _ _ HI). ring. }
  set (W := 72 * a1 * c2 * e1 + 9 * b * c2 * d2 - 27 * p * a1 * d2 * d2 - 2 * p * p * c2 * c2 * c2 - qJ * p * p).
  assert (EW : 27 * b * b * e1 * p = p * p * p * p * W).
  { unfold W. apply (lin1 (-1) _ _ _ _ HJ). ring. }
  clearbody W.
  destruct (pull p (27 * b * b) e1 (p * p * W)) as (e2 & ->); [nz|un| |].
  { apply (lin1 1 _ _ _ _ EW). ring. }
  destruct (pull (p * p) (27 * b * b) e2 (p * W)) as (e3 & ->); [nz|un| |].
  { apply (lin1 1 _ _ _ _ EW). ring. }
  destruct (pull (p * p * p) (27 * b * b) e3 W) as (e4 & ->); [nz|un| |].
  { apply (lin1 1 _ _ _ _ EW). ring. }
  destruct (pull (p * p) (3 * b) d2 (12 * a1 * e4 * p * p + p * c2 * c2 - qI * p)) as (d3 & ->); [nz|un| |].
  { apply (lin1 (-1) _ _ _ _ HI). ring. }
  destruct (pull (p * p * p) (3 * b) d3 (12 * a1 * e4 * p + c2 * c2 - qI)) as (d4 & ->); [nz|un| |].
  { apply (lin1 (-1) _ _ _ _ HI). ring. }
  destruct (pull (p * p * p * p) (27 * b * b) e4 (72 * a1 * c2 * e4 * p * p + 9 * b * c2 * d4 * p - 27 * p * p * p * p * a1 * d4 * d4 - 2 * p * c2 * c2 * c2 - qJ * p)) as (e5 & ->); [nz|un| |].
  { apply (lin1 (-1) _ _ _ _ HJ). ring. }
  destruct (pull (p * p * p * p * p) (27 * b * b) e5 (72 * a1 * c2 * e5 * p * p + 9 * b * c2 * d4 - 27 * p * p * p * a1 * d4 * d4 - 2 * c2 * c2 * c2 - qJ)) as (e6 & ->); [nz|un| |].
  { apply (lin1 (-1) _ _ _ _ HJ). ring. }
  exists d4, e6. split; ring.
Qed.

(** p divides all coefficients; the quotients are a, b, c, d, e *)
Lemma all_triple a b c1 d1 e1 qI qJ : ~ (p | b) ->
  fI a b (p * c1) (p * d1) (p * e1) = qI * p ^ 2 -> fJ a b (p * c1) (p * d1) (p * e1) = qJ * p ^ 3 ->
  exists d2 e3, d1 = p * d2 /\ e1 = p * p * e3.
Proof.
  unfold fI, fJ. intros U HI HJ.
  destruct (pull p (27 * b * b) e1 (72 * a * c1 * e1 + 9 * b * c1 * d1 - 27 * a * d1 * d1 - 2 * p * c1 * c1 * c1 - qJ * p)) as (e2 & ->); [nz|un| |].
  { apply (lin1 (-1) _ _ _ _ HJ). ring. }
  destruct (pull p (3 * b) d1 (12 * a * e2 + c1 * c1 - qI)) as (d2 & ->); [nz|un| |].
  { apply (lin1 (-1) _ _ _ _ HI). ring. }
  destruct (pull (p * p) (27 * b * b) e2 (72 * a * c1 * e2 + 9 * b * c1 * d2 - 27 * a * p * d2 * d2 - 2 * c1 * c1 * c1 - qJ)) as (e3 & ->); [nz|un| |].
  { apply (lin1 (-1) _ _ _ _ HJ). ring. }
  exists d2, e3. split; ring.
Qed.
Lemma all_quad a b1 c1 d1 e1 qI qJ : ~ (p | a) ->
  fI a (p * b1) (p * c1) (p * d1) (p * e1) = qI * p ^ 2 -> fJ a (p * b1) (p * c1) (p * d1) (p * e1) = qJ * p ^ 3 ->
  exists d2 e2, d1 = p * d2 /\ e1 = p * e2.
Proof.
  unfold fI, fJ. intros U HI HJ.
  destruct (pull p (12 * a) e1 (3 * b1 * d1 - c1 * c1 + qI)) as (e2 & ->); [nz|un| |].
  { apply (lin1 1 _ _ _ _ HI). ring. }
  destruct (pull2 (p * p) (27 * a) d1 (72 * a * c1 * e2 + 9 * b1 * c1 * d1 - 27 * p * e2 * b1 * b1 - 2 * c1 * c1 * c1 - qJ)) as (d2 & ->); [nz|un| |].
  { apply (lin1 (-1) _ _ _ _ HJ). ring. }
  exists d2, e2. split; ring.
Qed.
(** one more factor p in both invariants *)
Lemma all_quad_more a b1 c1 d2 e2 qI qJ : ~ (p | a) ->
  fI a (p * b1) (p * c1) (p * p * d2) (p * p * e2) = qI * p ^ 3 -> fJ a (p * b1) (p * c1) (p * p * d2) (p * p * e2) = qJ * p ^ 4 ->
  exists e3, e2 = p * e3.
Proof.
  unfold fI, fJ. intros U HI HJ.
  destruct (pull3 (p * p * p) 8 c1 (27 * b1 * c1 * d2 - 27 * a * d2 * d2 - 27 * e2 * b1 * b1 - qJ + 6 * c1 * qI)) as (c2 & ->); [nz|un| |].
  { apply (lin2 (-1) (6 * p * c1) _ _ _ _ _ _ HJ HI). ring. }
  apply (pull (p * p) (12 * a) e2 (3 * b1 * d2 - p * c2 * c2 + qI)); [nz|un|].
  { apply (lin1 1 _ _ _ _ HI). ring. }
Qed.
(** or a solution modulo p^4 *)
Lemma all_quad_sol a b1 c1 d2 e2 x z y : ~ (p | a) -> ~ ((p | x) /\ (p | z)) ->
  (p ^ 4 | y * y - p * (a * x ^ 4 + p * b1 * x ^ 3 * z + p * c1 * x ^ 2 * z ^ 2 + p * p * d2 * x * z ^ 3 + p * p * e2 * z ^ 4)) ->
  exists e3, e2 = p * e3.
Proof.
  intros U N (q & Q).
  destruct (pull2 1 1 y (q * p ^ 3 + (a * x ^ 4 + p * b1 * x ^ 3 * z + p * c1 * x ^ 2 * z ^ 2 + p * p * d2 * x * z ^ 3 + p * p * e2 * z ^ 4))) as (y1 & ->); [nz|exact u1| |].
  { apply (lin1 1 _ _ _ _ Q). ring. }
  assert (X : (p | x)).
  { destruct (pull p a (x * x * (x * x)) (y1 * y1 - (b1 * x ^ 3 * z + c1 * x ^ 2 * z ^ 2 + p * d2 * x * z ^ 3 + p * e2 * z ^ 4) - q * p ^ 2)) as (t & T); [nz|un| |].
    { apply (lin1 (-1) _ _ _ _ Q). ring. }
    apply sqdv, sqdv. exists t. rewrite T. ring. }
  destruct X as (x1 & X1). assert (EX : x = p * x1) by (rewrite X1; ring). clear X1. subst x.
  assert (NZ : ~ (p | z)). { intros Z'. apply N. split; [exists x1; ring|exact Z']. }
  destruct (pull2 (p * p) 1 y1 (q * p + (p * p * a * x1 ^ 4 + p * p * b1 * x1 ^ 3 * z + p * c1 * x1 ^ 2 * z ^ 2 + p * d2 * x1 * z ^ 3 + e2 * z ^ 4))) as (y2 & ->); [nz|exact u1| |].
  { apply (lin1 1 _ _ _ _ Q). ring. }
  apply (pull (p * p * p) (z * z * z * z) e2 (y2 * y2 - q - (a * p * x1 ^ 4 + p * b1 * x1 ^ 3 * z + c1 * x1 ^ 2 * z ^ 2 + d2 * x1 * z ^ 3))); [nz|un|].
  { apply (lin1 (-1) _ _ _ _ Q). ring. }
Qed.

End P.

(** p = 2: [quad_root] and [all_quad], given that 16 divides the last coefficient *)
Lemma sq_even x y : x * x = 2 * y -> exists z, x = 2 * z.
Proof. intros E. destruct (sqdv 2 prime_2 x) as (z & ->); [exists y; lia|]. exists z. ring. Qed.
Lemma odd_even a x y : ~ (2 | a) -> a * x = 2 * y -> exists z, x = 2 * z.
Proof. intros A E. destruct (canc 2 prime_2 a x A) as (z & ->); [exists y; lia|]. exists z. ring. Qed.

Lemma quad_root2 a b1 c1 d1 e4 qI qJ : ~ (2 | a) ->
  fI a (2 * b1) (2 * c1) (2 * d1) (16 * e4) = qI * 2 ^ 4 -> fJ a (2 * b1) (2 * c1) (2 * d1) (16 * e4) = qJ * 2 ^ 6 ->
  exists c2 d3, c1 = 2 * c2 /\ d1 = 2 * 2 * d3.
Proof.
  unfold fI, fJ. change (2 ^ 4) with 16. change (2 ^ 6) with 64. intros A HI HJ.
  assert (A27 : ~ (2 | 27 * a)). { intros (t & T). apply A. exists (t - 13 * a). lia. }
  destruct (odd_even (27 * a) (d1 * d1) (288 * a * c1 * e4 + 9 * b1 * c1 * d1 - 2 * c1 * c1 * c1 - 216 * e4 * b1 * b1 - 8 * qJ) A27) as (t & T).
  { apply Z.mul_reg_l with 4; [discriminate|]. apply (lin1 (-1) _ _ _ _ HJ). ring. }
  destruct (sq_even _ _ T) as (d2 & ->). clear t T.
  destruct (sq_even c1 (2 * qI - 24 * a * e4 + 3 * b1 * d2)) as (c2 & ->).
  { apply Z.mul_reg_l with 4; [discriminate|]. apply (lin1 1 _ _ _ _ HI). ring. }
  destruct (odd_even (27 * a) (d2 * d2) (144 * a * c2 * e4 + 9 * b1 * c2 * d2 - 54 * e4 * b1 * b1 - 4 * c2 * c2 * c2 - 2 * qJ) A27) as (t & T).
  { apply Z.mul_reg_l with 16; [discriminate|]. apply (lin1 (-1) _ _ _ _ HJ). ring. }
  destruct (sq_even _ _ T) as (d3 & ->). clear t T.
  exists c2, d3. split; ring.
Qed.
Lemma all_quad2 a b1 c1 d1 e3 qI qJ : ~ (2 | a) ->
  fI a (2 * b1) (2 * c1) (2 * d1) (8 * e3) = qI * 2 ^ 2 -> fJ a (2 * b1) (2 * c1) (2 * d1) (8 * e3) = qJ * 2 ^ 3 ->
  exists d2, d1 = 2 * d2.
Proof.
  unfold fI, fJ. change (2 ^ 2) with 4. change (2 ^ 3) with 8. intros A HI HJ.
  assert (A27 : ~ (2 | 27 * a)). { intros (t & T). apply A. exists (t - 13 * a). lia. }
  destruct (odd_even (27 * a) (d1 * d1) (144 * a * c1 * e3 + 9 * b1 * c1 * d1 - 2 * c1 * c1 * c1 - 108 * e3 * b1 * b1 - qJ) A27) as (t & T).
  { apply Z.mul_reg_l with 4; [discriminate|]. apply (lin1 (-1) _ _ _ _ HJ). ring. }
  apply (sq_even _ _ T).
Qed.
