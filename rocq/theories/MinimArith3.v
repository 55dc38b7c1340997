(** Divisibility by powers of 3 of the coefficients of a quartic (the case p = 3 of MinimArith). *)
From Coq Require Import ZArith Lia Znumtheory.
From Verif Require Import MinimArith.
Open Scope Z_scope.

Lemma ferm3 x : (3 | x * x * x - x).
Proof.
  assert (C : exists q r, x = 3 * q + r /\ (r = 0 \/ r = 1 \/ r = 2)).
  { exists (x / 3), (x mod 3). pose proof (Z.mod_pos_bound x 3 ltac:(lia)). pose proof (Z.div_mod x 3 ltac:(lia)). lia. }
  destruct C as (q & r & -> & [->|[->| ->]]).
  - exists (9 * q * q * q - q). ring.
  - exists (9 * q * q * q + 9 * q * q + 2 * q). ring.
  - exists (9 * q * q * q + 18 * q * q + 11 * q + 2). ring.
Qed.
Lemma unit3 x : ~ (3 | x) -> (3 | x * x - 1).
Proof.
  intros N. apply (canc 3 prime_3 x); [exact N|]. replace (x * (x * x - 1)) with (x * x * x - x) by ring. apply ferm3.
Qed.
Lemma u4_3 : ~ (3 | 4). Proof. intros (k & K). lia. Qed.
Lemma u2_3 : ~ (3 | 2). Proof. intros (k & K). lia. Qed.
Lemma mul3 u v : ~ (3 | u) -> ~ (3 | v) -> ~ (3 | u * v). Proof. apply (unit_mul 3 prime_3). Qed.
Ltac un3 := repeat apply mul3; auto using u4_3, u2_3.

(** the condition on I = 81 i and J = 729 j *)
Definition hyp3 (i j : Z) : Prop :=
  ((3 | i) /\ (27 | j)) \/ (~ (3 | i) /\ ~ (3 | j) /\ (27 | 4 * (i * i * i) - j * j)).

(** the second alternative, for i = c^2 + s and j = 3 v - 2 c^3 *)
Lemma coreB c s v i j : i = c * c + s -> j = - 2 * (c * c * c) + 3 * v -> ~ (3 | j) -> (27 | 4 * (i * i * i) - j * j) ->
  ~ (3 | c) /\ exists t v1, s = 3 * t /\ v = 3 * v1 /\ (3 | c * t + v1).
Proof.
  intros -> -> NJ (q & Q).
  assert (C : ~ (3 | c)). { intros (k & ->). apply NJ. exists (v - 18 * k * k * k). ring. }
  split; [exact C|].
  assert (S : (3 | s)).
  { pose proof (ferm3 (c * c + s)) as (f & F). pose proof (unit3 c C) as (k & K). pose proof (unit3 _ NJ) as (l & L).
    exists (q * 9 + l - 4 * f - k - (c * c + s)). lia. }
  destruct S as (t & ->). replace (t * 3) with (3 * t) in * by ring. exists t.
  destruct (pull 3 prime_3 3 (4 * (c * c * c)) v (3 * q - 4 * c * c * c * c * t - 12 * c * c * t * t - 12 * t * t * t + v * v)) as (v1 & ->); [lia|un3| |].
  { apply (lin1 1 _ _ _ _ Q). ring. }
  exists v1. split; [reflexivity|]. split; [reflexivity|].
  destruct (pull 3 prime_3 9 (4 * (c * c * c)) (c * t + v1) (q - 4 * c * c * t * t - 4 * t * t * t + 3 * v1 * v1)) as (w & W); [lia|un3| |].
  { apply (lin1 1 _ _ _ _ Q). ring. }
  exists w. lia.
Qed.

(** p divides all coefficients, simple fourth root *)
Lemma all_triple3 a b c1 d1 e1 i j : ~ (3 | b) -> i = 4 * a * e1 - b * d1 + c1 * c1 ->
  j = 24 * a * c1 * e1 + 3 * b * c1 * d1 - 9 * a * d1 * d1 - 3 * e1 * b * b - 2 * c1 * c1 * c1 -> hyp3 i j ->
  exists d2 e3, d1 = 3 * d2 /\ e1 = 3 * 3 * e3.
Proof.
  intros B Ei Ej [((qi & HI) & (qj & HJ))|(NI & NJ & D)].
  - subst i j.
    destruct (pull3 3 prime_3 1 2 c1 (8 * a * c1 * e1 + b * c1 * d1 - 3 * a * d1 * d1 - e1 * b * b - 9 * qj)) as (c2 & ->); [lia|un3| |].
    { apply (lin1 (-1) _ _ _ _ HJ). ring. }
    destruct (pull 3 prime_3 3 (b * b) e1 (8 * a * c2 * e1 + b * c2 * d1 - a * d1 * d1 - 6 * c2 * c2 * c2 - 3 * qj)) as (e2 & ->); [lia|un3| |].
    { apply (lin1 (-1) _ _ _ _ HJ). ring. }
    destruct (pull 3 prime_3 1 b d1 (4 * a * e2 + 3 * c2 * c2 - qi)) as (d2 & ->); [lia|un3| |].
    { apply (lin1 (-1) _ _ _ _ HI). ring. }
    destruct (pull 3 prime_3 9 (b * b) e2 (8 * a * c2 * e2 + b * c2 * d2 - 3 * a * d2 * d2 - 2 * c2 * c2 * c2 - qj)) as (e3 & ->); [lia|un3| |].
    { apply (lin1 (-1) _ _ _ _ HJ). ring. }
    exists d2, e3. split; ring.
  - destruct (coreB c1 (4 * a * e1 - b * d1) (8 * a * c1 * e1 + b * c1 * d1 - 3 * a * d1 * d1 - e1 * b * b) i j) as (C & t & v1 & S & V & W);
      [rewrite Ei; ring|rewrite Ej; ring|exact NJ|exact D|].
    destruct (pull 3 prime_3 1 (b * b) e1 (4 * a * c1 * e1 - a * d1 * d1 - v1 - c1 * t)) as (e2 & ->); [lia|un3| |].
    { apply (lin2 (-1) (- c1) _ _ _ _ _ _ V S). ring. }
    destruct (pull 3 prime_3 1 b d1 (4 * a * e2 - t)) as (d2 & ->); [lia|un3| |].
    { apply (lin1 (-1) _ _ _ _ S). ring. }
    destruct W as (w & W).
    destruct (pull 3 prime_3 3 (b * b) e2 (4 * a * c1 * e2 - 3 * a * d2 * d2 - w)) as (e3 & ->); [lia|un3| |].
    { transitivity (3 * 3 * (4 * a * c1 * e2 - 3 * a * d2 * d2) - 3 * (w * 3)); [|ring]. rewrite <- W.
      apply (lin2 (-1) (- c1) _ _ _ _ _ _ V S). ring. }
    exists d2, e3. split; ring.
Qed.
Lemma all_quad3 a b1 c1 d1 e1 i j : ~ (3 | a) -> i = 4 * a * e1 - 3 * b1 * d1 + c1 * c1 ->
  j = 24 * a * c1 * e1 + 9 * b1 * c1 * d1 - 9 * a * d1 * d1 - 27 * e1 * b1 * b1 - 2 * c1 * c1 * c1 -> hyp3 i j ->
  exists d2 e2, d1 = 3 * d2 /\ e1 = 3 * e2.
Proof.
  intros A Ei Ej [((qi & HI) & (qj & HJ))|(NI & NJ & D)].
  - subst i j.
    destruct (pull3 3 prime_3 1 2 c1 (8 * a * c1 * e1 + 3 * b1 * c1 * d1 - 3 * a * d1 * d1 - 9 * e1 * b1 * b1 - 9 * qj)) as (c2 & ->); [lia|un3| |].
    { apply (lin1 (-1) _ _ _ _ HJ). ring. }
    destruct (pull 3 prime_3 1 (4 * a) e1 (b1 * d1 - 3 * c2 * c2 + qi)) as (e2 & ->); [lia|un3| |].
    { apply (lin1 1 _ _ _ _ HI). ring. }
    destruct (pull2 3 prime_3 9 a d1 (8 * a * c2 * e2 + b1 * c2 * d1 - 3 * e2 * b1 * b1 - 2 * c2 * c2 * c2 - qj)) as (d2 & ->); [lia|un3| |].
    { apply (lin1 (-1) _ _ _ _ HJ). ring. }
    exists d2, e2. split; ring.
  - destruct (coreB c1 (4 * a * e1 - 3 * b1 * d1) (8 * a * c1 * e1 + 3 * b1 * c1 * d1 - 3 * a * d1 * d1 - 9 * e1 * b1 * b1) i j) as (C & t & v1 & S & V & (w & W));
      [rewrite Ei; ring|rewrite Ej; ring|exact NJ|exact D|].
    destruct (pull 3 prime_3 1 (4 * a) e1 (b1 * d1 + t)) as (e2 & ->); [lia|un3| |].
    { apply (lin1 1 _ _ _ _ S). ring. }
    destruct (pull2 3 prime_3 3 a d1 (4 * a * c1 * e2 - 3 * e2 * b1 * b1 - w)) as (d2 & ->); [lia|un3| |].
    { transitivity (3 * 3 * (4 * a * c1 * e2 - 3 * e2 * b1 * b1) - 3 * (w * 3)); [|ring]. rewrite <- W.
      apply (lin2 (-1) (- c1) _ _ _ _ _ _ V S). ring. }
    exists d2, e2. split; ring.
Qed.
Lemma all_quad3_more a b1 c1 d2 e2 : ~ (3 | a) -> (9 | 4 * a * (3 * e2) - 3 * b1 * (3 * d2) + c1 * c1) -> exists e3, e2 = 3 * e3.
Proof.
  intros A (q & Q).
  destruct (pull2 3 prime_3 1 1 c1 (3 * q - 4 * a * e2 + 3 * b1 * d2)) as (c2 & ->); [lia|exact (u1 3 prime_3)| |].
  { apply (lin1 1 _ _ _ _ Q). ring. }
  apply (pull 3 prime_3 3 (4 * a) e2 (q + b1 * d2 - c2 * c2)); [lia|un3|]. apply (lin1 1 _ _ _ _ Q). ring.
Qed.

(** triple root, before the last shift *)
Lemma triple3_pre a1 b c1 d1 e1 i j : ~ (3 | b) ->
  12 * a1 * e1 - b * d1 + c1 * c1 = 9 * i ->
  72 * a1 * c1 * e1 + 3 * b * c1 * d1 - 27 * a1 * d1 * d1 - 3 * e1 * b * b - 2 * c1 * c1 * c1 = 27 * j ->
  exists c2 d3 e3, c1 = 3 * c2 /\ d1 = 3 * 3 * d3 /\ e1 = 3 * 3 * e3.
Proof.
  intros B HI HJ.
  destruct (pull3 3 prime_3 1 2 c1 (24 * a1 * c1 * e1 + b * c1 * d1 - 9 * a1 * d1 * d1 - e1 * b * b - 9 * j)) as (c2 & ->); [lia|un3| |].
  { apply (lin1 (-1) _ _ _ _ HJ). ring. }
  destruct (pull 3 prime_3 1 b d1 (4 * a1 * e1 + 3 * c2 * c2 - 3 * i)) as (d2 & ->); [lia|un3| |].
  { apply (lin1 (-1) _ _ _ _ HI). ring. }
  destruct (pull 3 prime_3 3 (b * b) e1 (24 * a1 * c2 * e1 + 3 * b * c2 * d2 - 27 * a1 * d2 * d2 - 6 * c2 * c2 * c2 - 3 * j)) as (e2 & ->); [lia|un3| |].
  { apply (lin1 (-1) _ _ _ _ HJ). ring. }
  destruct (pull 3 prime_3 9 (b * b) e2 (24 * a1 * c2 * e2 + b * c2 * d2 - 9 * a1 * d2 * d2 - 2 * c2 * c2 * c2 - j)) as (e3 & ->); [lia|un3| |].
  { apply (lin1 (-1) _ _ _ _ HJ). ring. }
  destruct (pull 3 prime_3 3 b d2 (12 * a1 * e3 + c2 * c2 - i)) as (d3 & ->); [lia|un3| |].
  { apply (lin1 (-1) _ _ _ _ HI). ring. }
  exists c2, d3, e3. repeat split; ring.
Qed.
Lemma triple3_A a1 b c3 d3 e3 i j : ~ (3 | b) -> i = 12 * a1 * e3 - b * d3 + (3 * c3) * (3 * c3) ->
  j = 72 * a1 * (3 * c3) * e3 + 3 * b * (3 * c3) * d3 - 81 * a1 * d3 * d3 - e3 * b * b - 2 * (3 * c3) * (3 * c3) * (3 * c3) ->
  (3 | i) -> (27 | j) -> exists d4 e6, d3 = 3 * d4 /\ e3 = 3 * 3 * 3 * e6.
Proof.
  intros B -> -> (qi & HI) (qj & HJ).
  destruct (pull 3 prime_3 1 b d3 (4 * a1 * e3 + 3 * c3 * c3 - qi)) as (d4 & ->); [lia|un3| |].
  { apply (lin1 (-1) _ _ _ _ HI). ring. }
  set (W := 8 * a1 * c3 * e3 + b * c3 * d4 - 27 * a1 * d4 * d4 - 2 * c3 * c3 * c3 - qj).
  assert (EW : e3 * b * b = 27 * W). { unfold W. apply (lin1 (-1) _ _ _ _ HJ). ring. }
  clearbody W.
  destruct (pull 3 prime_3 1 (b * b) e3 (9 * W)) as (e4 & ->); [lia|un3|apply (lin1 1 _ _ _ _ EW); ring|].
  destruct (pull 3 prime_3 3 (b * b) e4 (3 * W)) as (e5 & ->); [lia|un3|apply (lin1 1 _ _ _ _ EW); ring|].
  destruct (pull 3 prime_3 9 (b * b) e5 W) as (e6 & ->); [lia|un3|apply (lin1 1 _ _ _ _ EW); ring|].
  exists d4, e6. split; ring.
Qed.
Lemma triple3_B a1 b c2 d3 e4 i j : ~ (3 | b) -> i = 12 * a1 * (3 * e4) - b * d3 + c2 * c2 ->
  j = 72 * a1 * c2 * (3 * e4) + 3 * b * c2 * d3 - 81 * a1 * d3 * d3 - (3 * e4) * b * b - 2 * c2 * c2 * c2 ->
  ~ (3 | j) -> (27 | 4 * (i * i * i) - j * j) -> exists d4 e6, d3 = 3 * d4 /\ e4 = 3 * 3 * e6.
Proof.
  intros B Ei Ej NJ D.
  destruct (coreB c2 (36 * a1 * e4 - b * d3) (72 * a1 * c2 * e4 + b * c2 * d3 - 27 * a1 * d3 * d3 - e4 * b * b) i j) as (C & t & v1 & S & V & (w & W));
    [rewrite Ei; ring|rewrite Ej; ring|exact NJ|exact D|].
  destruct (pull 3 prime_3 1 b d3 (12 * a1 * e4 - t)) as (d4 & ->); [lia|un3| |].
  { apply (lin1 (-1) _ _ _ _ S). ring. }
  destruct (pull 3 prime_3 1 (b * b) e4 (24 * a1 * c2 * e4 + b * c2 * d4 - 81 * a1 * d4 * d4 - v1)) as (e5 & ->); [lia|un3| |].
  { apply (lin1 (-1) _ _ _ _ V). ring. }
  destruct (pull 3 prime_3 3 (b * b) e5 (36 * a1 * c2 * e5 - 27 * a1 * d4 * d4 - w)) as (e6 & ->); [lia|un3| |].
  { transitivity (3 * 3 * (36 * a1 * c2 * e5 - 27 * a1 * d4 * d4) - 3 * (w * 3)); [|ring]. rewrite <- W.
    apply (lin2 (-1) (- c2) _ _ _ _ _ _ V S). ring. }
  exists d4, e6. split; ring.
Qed.
(** quadruple root, before the last shift *)
Lemma quad3_pre a b1 c1 d1 e1 i j : ~ (3 | a) ->
  4 * a * e1 - 3 * b1 * d1 + c1 * c1 = 9 * i ->
  24 * a * c1 * e1 + 9 * b1 * c1 * d1 - 9 * a * d1 * d1 - 27 * e1 * b1 * b1 - 2 * c1 * c1 * c1 = 27 * j ->
  exists c2 d2 e3, c1 = 3 * c2 /\ d1 = 3 * d2 /\ e1 = 3 * 3 * e3.
Proof.
  intros A HI HJ.
  destruct (pull3 3 prime_3 1 2 c1 (8 * a * c1 * e1 + 3 * b1 * c1 * d1 - 3 * a * d1 * d1 - 9 * e1 * b1 * b1 - 9 * j)) as (c2 & ->); [lia|un3| |].
  { apply (lin1 (-1) _ _ _ _ HJ). ring. }
  destruct (pull 3 prime_3 1 (4 * a) e1 (b1 * d1 - 3 * c2 * c2 + 3 * i)) as (e2 & ->); [lia|un3| |].
  { apply (lin1 1 _ _ _ _ HI). ring. }
  destruct (pull2 3 prime_3 9 a d1 (8 * a * c2 * e2 + b1 * c2 * d1 - 3 * e2 * b1 * b1 - 2 * c2 * c2 * c2 - j)) as (d2 & ->); [lia|un3| |].
  { apply (lin1 (-1) _ _ _ _ HJ). ring. }
  destruct (pull 3 prime_3 3 (4 * a) e2 (b1 * d2 - c2 * c2 + i)) as (e3 & ->); [lia|un3| |].
  { apply (lin1 1 _ _ _ _ HI). ring. }
  exists c2, d2, e3. repeat split; ring.
Qed.
Lemma quad3 a b2 c2 d2 e3 i j : ~ (3 | a) -> i = 4 * a * e3 - 3 * b2 * d2 + c2 * c2 ->
  j = 24 * a * c2 * e3 + 9 * b2 * c2 * d2 - 3 * a * d2 * d2 - 81 * e3 * b2 * b2 - 2 * c2 * c2 * c2 -> hyp3 i j ->
  exists d3 e4, d2 = 3 * d3 /\ e3 = 3 * e4.
Proof.
  intros A Ei Ej [((qi & HI) & (qj & HJ))|(NI & NJ & D)].
  - subst i j.
    destruct (pull3 3 prime_3 1 2 c2 (8 * a * c2 * e3 + 3 * b2 * c2 * d2 - a * d2 * d2 - 27 * e3 * b2 * b2 - 9 * qj)) as (c3 & ->); [lia|un3| |].
    { apply (lin1 (-1) _ _ _ _ HJ). ring. }
    destruct (pull 3 prime_3 1 (4 * a) e3 (b2 * d2 - 3 * c3 * c3 + qi)) as (e4 & ->); [lia|un3| |].
    { apply (lin1 1 _ _ _ _ HI). ring. }
    destruct (pull2 3 prime_3 3 a d2 (24 * a * c3 * e4 + 3 * b2 * c3 * d2 - 27 * e4 * b2 * b2 - 6 * c3 * c3 * c3 - 3 * qj)) as (d3 & ->); [lia|un3| |].
    { apply (lin1 (-1) _ _ _ _ HJ). ring. }
    exists d3, e4. split; reflexivity.
  - destruct (coreB c2 (4 * a * e3 - 3 * b2 * d2) (8 * a * c2 * e3 + 3 * b2 * c2 * d2 - a * d2 * d2 - 27 * e3 * b2 * b2) i j) as (C & t & v1 & S & V & _);
      [rewrite Ei; ring|rewrite Ej; ring|exact NJ|exact D|].
    destruct (pull 3 prime_3 1 (4 * a) e3 (b2 * d2 + t)) as (e4 & ->); [lia|un3| |].
    { apply (lin1 1 _ _ _ _ S). ring. }
    destruct (pull2 3 prime_3 1 a d2 (8 * a * c2 * e4 + b2 * c2 * d2 - 27 * e4 * b2 * b2 - v1)) as (d3 & ->); [lia|un3| |].
    { apply (lin1 (-1) _ _ _ _ V). ring. }
    exists d3, e4. split; reflexivity.
Qed.
