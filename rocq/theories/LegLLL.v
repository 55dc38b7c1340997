(** legendre_via_lll: one of the thirteen vectors is a solution. *)
From Coq Require Import ZArith QArith Lia Lqa List Bool.
From Verif Require Import Base RatModel MArithModel MArithProofs LinSpec LLLSpec LLLModel LLLEnd LegModel LegArith LegLem1 LegReduce LegLLLModel.
Import ListNotations.
Open Scope Z_scope.

(** ** Ternary quadratic forms of discriminant 2 *)
(** f(X,Y,Z) = e1 X^2 + e2 Y^2 + e3 Z^2 + r XY + s XZ + t YZ *)
Definition tf (e1 e2 e3 r s t x y z : Z) : Z := e1 * x * x + e2 * y * y + e3 * z * z + r * x * y + s * x * z + t * y * z.
Definition cand : list tri :=
  [(1,0,0); (1,-1,0); (1,1,0); (0,1,0); (0,0,1); (1,0,1); (-1,0,1); (0,1,1); (0,-1,1); (-1,1,1); (1,-1,1); (-1,-1,1); (1,1,1)].
Definition has_zero e1 e2 e3 r s t : bool := existsb (fun '(x, y, z) => tf e1 e2 e3 r s t x y z =? 0) cand.
Definition disc e1 e2 e3 r s t : Z := 4 * e1 * e2 * e3 + r * s * t - e1 * t * t - e2 * s * s - e3 * r * r.
Definition small3 : list Z := [-3; -2; -1; 0; 1; 2; 3].
Definition check3 : bool :=
  forallb (fun e1 => forallb (fun e2 => forallb (fun e3 => forallb (fun r => forallb (fun s => forallb (fun t =>
    if disc e1 e2 e3 r s t =? 2 then
      has_zero e1 e2 e3 r s t || ((e1 =? 1) && (e2 =? 1) && (e3 =? 1) && (Z.abs r <=? 1) && (Z.abs s <=? 1) && (Z.abs t <=? 1))
    else true) small3) small3) small3) [-1; 0; 1]) [-1; 0; 1]) [-1; 0; 1].
Lemma check3_ok : check3 = true.
Proof. vm_compute. reflexivity. Qed.
Lemma in_small3 r : -3 <= r <= 3 -> In r small3.
Proof. intros H. unfold small3. cbn [In]. lia. Qed.
Lemma small_forms e1 e2 e3 r s t : -1 <= e1 <= 1 -> -1 <= e2 <= 1 -> -1 <= e3 <= 1 ->
  -3 <= r <= 3 -> -3 <= s <= 3 -> -3 <= t <= 3 -> disc e1 e2 e3 r s t = 2 ->
  has_zero e1 e2 e3 r s t = true \/ (forall x y z, 0 <= tf e1 e2 e3 r s t x y z).
Proof.
  intros H1 H2 H3 R S T D.
  pose proof check3_ok as C. unfold check3 in C.
  assert (I : forall e, -1 <= e <= 1 -> In e [-1; 0; 1]) by (intros e He; cbn [In]; lia).
  apply (proj1 (forallb_forall _ _)) with (x := e1) in C; [|now apply I].
  apply (proj1 (forallb_forall _ _)) with (x := e2) in C; [|now apply I].
  apply (proj1 (forallb_forall _ _)) with (x := e3) in C; [|now apply I].
  apply (proj1 (forallb_forall _ _)) with (x := r) in C; [|now apply in_small3].
  apply (proj1 (forallb_forall _ _)) with (x := s) in C; [|now apply in_small3].
  apply (proj1 (forallb_forall _ _)) with (x := t) in C; [|now apply in_small3].
  cbv beta in C. rewrite D, Z.eqb_refl in C. apply orb_true_iff in C as [C|C]; [now left|right].
  rewrite !andb_true_iff, !Z.eqb_eq, !Z.leb_le in C. destruct C as (((((-> & ->) & ->) & R1) & S1) & T1).
  clear - R1 S1 T1. intros x y z. unfold tf.
  assert (K : forall r u v, Z.abs r <= 1 -> - (u * u + v * v) <= 2 * (r * u * v)).
  { clear. intros r u v R. pose proof (Z.square_nonneg (u + v)). pose proof (Z.square_nonneg (u - v)).
    assert (E : r = -1 \/ r = 0 \/ r = 1) by lia. destruct E as [E|[E|E]]; rewrite E; nia. }
  pose proof (K r x y R1). pose proof (K s x z S1). pose proof (K t y z T1). lia.
Qed.

(** ** Norm bounds in a reduced basis of rank 3 *)
Lemma gs_bounds (M B1 B2 B3 m21 m31 m32 : Q) : (0 < M)%Q -> (M <= B1)%Q -> (0 <= B2)%Q -> (0 <= B3)%Q ->
  (-(1#2) <= m21 <= 1#2)%Q -> (-(1#2) <= m31 <= 1#2)%Q -> (-(1#2) <= m32 <= 1#2)%Q ->
  (((3#4) - m21 * m21) * B1 <= B2)%Q -> (((3#4) - m32 * m32) * B2 <= B3)%Q -> (2 * (B1 * B2 * B3) == M * M * M)%Q ->
  (B1 < 2 * M)%Q /\ (B2 + m21 * m21 * B1 < 2 * M)%Q /\ (B3 + m32 * m32 * B2 + m31 * m31 * B1 < 2 * M)%Q.
Proof.
  intros HM H1 H2 H3 K21 K31 K32 L1 L2 P.
  assert (SQ : forall m, (-(1#2) <= m <= 1#2)%Q -> (m * m <= 1#4)%Q) by (intros m Hm; nra).
  pose proof (SQ _ K21) as S21. pose proof (SQ _ K31) as S31. pose proof (SQ _ K32) as S32. clear SQ.
  assert (P1 : (0 < B1)%Q) by lra.
  assert (L1' : (B1 <= 2 * B2)%Q) by nra. assert (L2' : (B2 <= 2 * B3)%Q) by nra.
  assert (B2M : (B2 <= M)%Q).
  { apply Qnot_lt_le. intros X. assert (Y1 : (M * M < B2 * B2)%Q) by nra. assert (Y2 : (B2 * B2 <= 2 * (B2 * B3))%Q) by nra.
    assert (Y3 : (M * (M * M) < B1 * (2 * (B2 * B3)))%Q) by nra. lra. }
  assert (B1M : (B1 < 2 * M)%Q).
  { apply Qnot_le_lt. intros X. assert (Y1 : (M <= B2)%Q) by lra. assert (Y4 : (M <= 2 * B3)%Q) by lra.
    assert (Y2 : (M * M <= B2 * (2 * B3))%Q) by nra. assert (Y3 : ((2 * M) * (M * M) <= B1 * (B2 * (2 * B3)))%Q) by nra.
    assert (0 < M * M)%Q by nra. assert (0 < M * (M * M))%Q by nra. lra. }
  assert (B3M : (B3 <= M)%Q).
  { apply Qnot_lt_le. intros X. assert (Y1 : (B1 * B1 <= B1 * (2 * B2))%Q) by nra. assert (Y2 : (M * M <= B1 * B1)%Q) by nra.
    assert (Y0 : (0 < M * M)%Q) by nra.
    assert (Y4 : (M * M <= B1 * (2 * B2))%Q) by lra.
    assert (Y5 : ((M * M) * M < (M * M) * B3)%Q) by (clear - Y0 X; nra).
    assert (Y6 : ((M * M) * B3 <= (B1 * (2 * B2)) * B3)%Q) by (clear - Y4 H3; nra). clear - Y5 Y6 P. lra. }
  split; [exact B1M|].
  assert (T1 : (m21 * m21 * B1 <= (1#4) * B1)%Q) by nra.
  assert (T2 : (m32 * m32 * B2 <= (1#4) * B2)%Q) by nra.
  assert (T3 : (m31 * m31 * B1 <= (1#4) * B1)%Q) by nra.
  split; lra.
Qed.

Definition det3 (u v w : tri) : Z :=
  let '(x1, y1, z1) := u in let '(x2, y2, z2) := v in let '(x3, y3, z3) := w in
  x1 * (y2 * z3 - y3 * z2) - x2 * (y1 * z3 - y3 * z1) + x3 * (y1 * z2 - y2 * z1).
Definition nrm (a b c : Z) (u : tri) : Z := let '(x, y, z) := u in a * (x * x) + b * (y * y) + c * (z * z).
Definition bil (a b c : Z) (u v : tri) : Z := let '(x, y, z) := u in let '(x', y', z') := v in a * (x * x') + b * (y * y') + c * (z * z').

Lemma reduced_norms A B C u v w M : 0 < A -> 0 < B -> 0 < C -> 0 < M -> lll_reduced 3 [A; B; C] [tlist u; tlist v; tlist w] ->
  2 * (A * B * C * (det3 u v w * det3 u v w)) = M * M * M -> M <= nrm A B C u ->
  nrm A B C u < 2 * M /\ nrm A B C v < 2 * M /\ nrm A B C w < 2 * M.
Proof.
  intros PA PB PC PM (s & mu & (GS & OR) & SR & LV) DT LM.
  destruct u as [[x1 y1] z1], v as [[x2 y2] z2], w as [[x3 y3] z3]. cbn [tlist det3 nrm] in *.
  assert (G1 := fun t => GS 0%nat t). assert (G2 := fun t => GS 1%nat t). assert (G3 := fun t => GS 2%nat t).
  cbn [length] in *.
  pose proof (G1 0%nat ltac:(lia) ltac:(lia)) as X1. pose proof (G1 1%nat ltac:(lia) ltac:(lia)) as Y1. pose proof (G1 2%nat ltac:(lia) ltac:(lia)) as Z1.
  pose proof (G2 0%nat ltac:(lia) ltac:(lia)) as X2. pose proof (G2 1%nat ltac:(lia) ltac:(lia)) as Y2. pose proof (G2 2%nat ltac:(lia) ltac:(lia)) as Z2.
  pose proof (G3 0%nat ltac:(lia) ltac:(lia)) as X3. pose proof (G3 1%nat ltac:(lia) ltac:(lia)) as Y3. pose proof (G3 2%nat ltac:(lia) ltac:(lia)) as Z3.
  pose proof (OR 1%nat 0%nat ltac:(lia) ltac:(lia)) as O21. pose proof (OR 2%nat 0%nat ltac:(lia) ltac:(lia)) as O31. pose proof (OR 2%nat 1%nat ltac:(lia) ltac:(lia)) as O32.
  pose proof (SR 1%nat 0%nat ltac:(lia) ltac:(lia)) as R21. pose proof (SR 2%nat 0%nat ltac:(lia) ltac:(lia)) as R31. pose proof (SR 2%nat 1%nat ltac:(lia) ltac:(lia)) as R32.
  pose proof (LV 0%nat ltac:(lia)) as V1. pose proof (LV 1%nat ltac:(lia)) as V2.
  clear GS OR SR LV G1 G2 G3.
  unfold co, qdot in *. cbn [nth sumq] in *. set (jz := inject_Z) in *.
  revert X1 Y1 Z1 X2 Y2 Z2 X3 Y3 Z3 O21 O31 O32 R21 R31 R32 V1 V2.
  generalize (s 0 0)%nat (s 0 1)%nat (s 0 2)%nat (s 1 0)%nat (s 1 1)%nat (s 1 2)%nat (s 2 0)%nat (s 2 1)%nat (s 2 2)%nat (mu 1 0)%nat (mu 2 0)%nat (mu 2 1)%nat.
  clear s mu. intros p1 q1 r1 p2 q2 r2 p3 q3 r3 m21 m31 m32 X1 Y1 Z1 X2 Y2 Z2 X3 Y3 Z3 O21 O31 O32 R21 R31 R32 V1 V2.
  set (B1 := (0 + jz A * p1 * p1 + jz B * q1 * q1 + jz C * r1 * r1)%Q) in *.
  set (B2 := (0 + jz A * p2 * p2 + jz B * q2 * q2 + jz C * r2 * r2)%Q) in *.
  set (B3 := (0 + jz A * p3 * p3 + jz B * q3 * q3 + jz C * r3 * r3)%Q).
  assert (N1 : (jz (A * (x1 * x1) + B * (y1 * y1) + C * (z1 * z1))%Z == B1)%Q).
  { unfold jz. rewrite !inject_Z_plus, !inject_Z_mult. fold jz. rewrite X1, Y1, Z1. unfold B1. ring. }
  assert (N2 : (jz (A * (x2 * x2) + B * (y2 * y2) + C * (z2 * z2))%Z == B2 + m21 * m21 * B1)%Q).
  { unfold jz. rewrite !inject_Z_plus, !inject_Z_mult. fold jz. rewrite X2, Y2, Z2.
    transitivity (B2 + m21 * m21 * B1 + 2 * m21 * (0 + jz A * p2 * p1 + jz B * q2 * q1 + jz C * r2 * r1))%Q; [unfold B1, B2; ring|]. rewrite O21. ring. }
  assert (N3 : (jz (A * (x3 * x3) + B * (y3 * y3) + C * (z3 * z3))%Z == B3 + m32 * m32 * B2 + m31 * m31 * B1)%Q).
  { unfold jz. rewrite !inject_Z_plus, !inject_Z_mult. fold jz. rewrite X3, Y3, Z3.
    transitivity (B3 + m32 * m32 * B2 + m31 * m31 * B1 + 2 * m31 * m32 * (0 + jz A * p2 * p1 + jz B * q2 * q1 + jz C * r2 * r1)
       + 2 * m31 * (0 + jz A * p3 * p1 + jz B * q3 * q1 + jz C * r3 * r1) + 2 * m32 * (0 + jz A * p3 * p2 + jz B * q3 * q2 + jz C * r3 * r2))%Q;
      [unfold B1, B2, B3; ring|]. rewrite O21, O31, O32. ring. }
  assert (DD : (2 * (B1 * B2 * B3) == jz M * jz M * jz M)%Q).
  { transitivity (jz (M * M * M)%Z); [|unfold jz; now rewrite !inject_Z_mult]. rewrite <- DT.
    unfold jz. unfold Z.sub. repeat rewrite ?inject_Z_plus, ?inject_Z_mult, ?inject_Z_opp. fold jz. rewrite X1, Y1, Z1, X2, Y2, Z2, X3, Y3, Z3.
    change (jz 2%Z) with 2%Q.
    set (g21 := (0 + jz A * p2 * p1 + jz B * q2 * q1 + jz C * r2 * r1)%Q) in *.
    set (g31 := (0 + jz A * p3 * p1 + jz B * q3 * q1 + jz C * r3 * r1)%Q) in *.
    set (g32 := (0 + jz A * p3 * p2 + jz B * q3 * q2 + jz C * r3 * r2)%Q) in *.
    symmetry. transitivity (2 * (B1 * B2 * B3 + 2 * g21 * g31 * g32 - B1 * g32 * g32 - B2 * g31 * g31 - B3 * g21 * g21))%Q;
      [unfold B1, B2, B3, g21, g31, g32; ring|]. rewrite O21, O31, O32. ring. }
  assert (POS : forall p q r, (0 <= 0 + jz A * p * p + jz B * q * q + jz C * r * r)%Q).
  { assert (QA : (0 < jz A)%Q) by (change 0%Q with (inject_Z 0); unfold jz; rewrite <- Zlt_Qlt; exact PA).
    assert (QB : (0 < jz B)%Q) by (change 0%Q with (inject_Z 0); unfold jz; rewrite <- Zlt_Qlt; exact PB).
    assert (QC : (0 < jz C)%Q) by (change 0%Q with (inject_Z 0); unfold jz; rewrite <- Zlt_Qlt; exact PC).
    clear - QA QB QC. intros p q r.
    assert (K : forall n u, (0 < n)%Q -> (0 <= n * u * u)%Q) by (clear; intros n u N; assert (0 <= u * u)%Q by nra; nra).
    pose proof (K _ p QA). pose proof (K _ q QB). pose proof (K _ r QC). lra. }
  destruct (gs_bounds (jz M) B1 B2 B3 m21 m31 m32) as (K1 & K2 & K3); auto.
  - change 0%Q with (inject_Z 0). unfold jz. rewrite <- Zlt_Qlt. exact PM.
  - rewrite <- N1. unfold jz. rewrite <- Zle_Qle. exact LM.
  - apply POS.
  - apply POS.
  - rewrite <- N1 in K1. rewrite <- N2 in K2. rewrite <- N3 in K3.
    change 2%Q with (jz 2%Z) in K1, K2, K3. unfold jz in K1, K2, K3. rewrite <- inject_Z_mult in K1, K2, K3. rewrite <- Zlt_Qlt in K1, K2, K3.
    split; [exact K1|]. split; [exact K2|exact K3].
Qed.

Definition comb (u v w : tri) (k : tri) : tri :=
  let '(x1, y1, z1) := u in let '(x2, y2, z2) := v in let '(x3, y3, z3) := w in let '(i, j, l) := k in
  (i * x1 + j * x2 + l * x3, i * y1 + j * y2 + l * y3, i * z1 + j * z2 + l * z3).
Lemma comb_nrm a b c u v w i j l : nrm a b c (comb u v w (i, j, l)) =
  i * i * nrm a b c u + j * j * nrm a b c v + l * l * nrm a b c w + 2 * (i * j * bil a b c u v + i * l * bil a b c u w + j * l * bil a b c v w).
Proof. destruct u as [[x1 y1] z1], v as [[x2 y2] z2], w as [[x3 y3] z3]. cbn [nrm comb bil]. ring. Qed.
Lemma nrm_abs a b c u : Z.abs (nrm a b c u) <= nrm (Z.abs a) (Z.abs b) (Z.abs c) u.
Proof.
  destruct u as [[x y] z]. cbn [nrm].
  assert (K : forall n t, Z.abs (n * (t * t)) = Z.abs n * (t * t)) by (intros; rewrite Z.abs_mul, (Z.abs_eq (t * t)); [reflexivity|apply Z.square_nonneg]).
  rewrite <- !K. lia.
Qed.
Lemma bil_abs a b c u v : 2 * Z.abs (bil a b c u v) <= nrm (Z.abs a) (Z.abs b) (Z.abs c) u + nrm (Z.abs a) (Z.abs b) (Z.abs c) v.
Proof.
  destruct u as [[x y] z], v as [[x' y'] z']. cbn [nrm bil].
  assert (K : forall n t t', 2 * Z.abs (n * (t * t')) <= Z.abs n * (t * t) + Z.abs n * (t' * t')).
  { clear. intros n t t'. rewrite Z.abs_mul, Z.abs_mul. pose proof (Z.square_nonneg (Z.abs t - Z.abs t')) as H.
    assert (E : forall t, t * t = Z.abs t * Z.abs t) by (intros q; now rewrite <- Z.abs_mul, Z.abs_eq by apply Z.square_nonneg).
    rewrite (E t), (E t'). replace (Z.abs n * (Z.abs t * Z.abs t) + Z.abs n * (Z.abs t' * Z.abs t')) with (Z.abs n * (Z.abs t * Z.abs t + Z.abs t' * Z.abs t')) by ring.
    replace (2 * (Z.abs n * (Z.abs t * Z.abs t'))) with (Z.abs n * (2 * (Z.abs t * Z.abs t'))) by ring.
    apply Z.mul_le_mono_nonneg_l; [apply Z.abs_nonneg|]. lia. }
  pose proof (K a x x'). pose proof (K b y y'). pose proof (K c z z'). lia.
Qed.
Lemma gram_det a b c u v w : a * b * c * (det3 u v w * det3 u v w) =
  nrm a b c u * nrm a b c v * nrm a b c w + 2 * bil a b c u v * bil a b c u w * bil a b c v w
  - nrm a b c u * (bil a b c v w * bil a b c v w) - nrm a b c v * (bil a b c u w * bil a b c u w) - nrm a b c w * (bil a b c u v * bil a b c u v).
Proof. destruct u as [[x1 y1] z1], v as [[x2 y2] z2], w as [[x3 y3] z3]. cbn [nrm bil det3]. ring. Qed.
(** the multiples of the unit vectors by the determinant *)
Lemma adj u v w : let D := det3 u v w in exists k1 k2 k3, comb u v w k1 = (D, 0, 0) /\ comb u v w k2 = (0, D, 0) /\ comb u v w k3 = (0, 0, D).
Proof.
  destruct u as [[x1 y1] z1], v as [[x2 y2] z2], w as [[x3 y3] z3]. cbn [det3 comb].
  exists (y2 * z3 - y3 * z2, - (y1 * z3 - y3 * z1), y1 * z2 - y2 * z1),
    (- (x2 * z3 - x3 * z2), x1 * z3 - x3 * z1, - (x1 * z2 - x2 * z1)), (x2 * y3 - x3 * y2, - (x1 * y3 - x3 * y1), x1 * y2 - x2 * y1).
  split; [|split]; (f_equal; [f_equal|]; ring).
Qed.
Lemma comb_inj u v w k : det3 u v w <> 0 -> comb u v w k = (0, 0, 0) -> k = (0, 0, 0).
Proof.
  destruct u as [[x1 y1] z1], v as [[x2 y2] z2], w as [[x3 y3] z3], k as [[i j] l]. cbn [det3 comb]. intros D E.
  pose proof (f_equal (fun t : tri => fst (fst t)) E) as E1. pose proof (f_equal (fun t : tri => snd (fst t)) E) as E2.
  pose proof (f_equal (fun t : tri => snd t) E) as E3. cbn [fst snd] in E1, E2, E3. clear E.
  set (X := i * x1 + j * x2 + l * x3) in *. set (Y := i * y1 + j * y2 + l * y3) in *. set (Z := i * z1 + j * z2 + l * z3) in *.
  match type of D with ?d <> 0 => set (DD := d) in * end.
  assert (I : DD * i = X * (y2 * z3 - y3 * z2) - Y * (x2 * z3 - x3 * z2) + Z * (x2 * y3 - x3 * y2)) by (unfold DD, X, Y, Z; ring).
  assert (J : DD * j = - X * (y1 * z3 - y3 * z1) + Y * (x1 * z3 - x3 * z1) - Z * (x1 * y3 - x3 * y1)) by (unfold DD, X, Y, Z; ring).
  assert (L : DD * l = X * (y1 * z2 - y2 * z1) - Y * (x1 * z2 - x2 * z1) + Z * (x1 * y2 - x2 * y1)) by (unfold DD, X, Y, Z; ring).
  rewrite E1, E2, E3 in I, J, L.
  assert (K : forall q, DD * q = 0 -> q = 0) by (clear - D; intros q H; apply Z.mul_eq_0 in H; tauto).
  rewrite (K i), (K j), (K l); [reflexivity|rewrite L; ring|rewrite J; ring|rewrite I; ring].
Qed.

Section Core.
Variables a b c : Z.
Hypothesis OK : leg_ok a b c.
Variables u v w : tri.
Variables e1 e2 e3 r s t : Z.
Notation P := (a * b * c).
Hypothesis N1 : nrm a b c u = 2 * P * e1.
Hypothesis N2 : nrm a b c v = 2 * P * e2.
Hypothesis N3 : nrm a b c w = 2 * P * e3.
Hypothesis B1 : bil a b c u v = P * r.
Hypothesis B2 : bil a b c u w = P * s.
Hypothesis B3 : bil a b c v w = P * t.
Hypothesis DT : det3 u v w * det3 u v w = 4 * (P * P).
Hypothesis RD : lll_reduced 3 [Z.abs a; Z.abs b; Z.abs c] [tlist u; tlist v; tlist w].

Lemma P_nz : P <> 0.
Proof. destruct OK as (A & B & C & _). now repeat apply mul_nz. Qed.
Lemma comb_val i j l : nrm a b c (comb u v w (i, j, l)) = 2 * P * tf e1 e2 e3 r s t i j l.
Proof. rewrite comb_nrm, N1, N2, N3, B1, B2, B3. unfold tf. ring. Qed.
Lemma disc2 : disc e1 e2 e3 r s t = 2.
Proof.
  pose proof (gram_det a b c u v w) as G. rewrite N1, N2, N3, B1, B2, B3, DT in G. pose proof P_nz as PZ. set (p := P) in *.
  unfold disc. apply (Z.mul_reg_l _ _ (2 * (p * p * p))).
  - clearbody p. apply mul_nz; [lia|]. apply mul_nz; [apply mul_nz|]; exact PZ.
  - transitivity (p * (4 * (p * p))); [|ring]. rewrite G. ring.
Qed.
Lemma indefinite : ~ (forall x y z, 0 <= tf e1 e2 e3 r s t x y z).
Proof.
  intros H. destruct (adj u v w) as ([[i1 j1] l1] & [[i2 j2] l2] & [[i3 j3] l3] & K1 & K2 & K3).
  pose proof (comb_val i1 j1 l1) as V1. pose proof (comb_val i2 j2 l2) as V2. pose proof (comb_val i3 j3 l3) as V3.
  rewrite K1 in V1. rewrite K2 in V2. rewrite K3 in V3. cbn [nrm] in V1, V2, V3.
  pose proof (H i1 j1 l1) as F1. pose proof (H i2 j2 l2) as F2. pose proof (H i3 j3 l3) as F3. clear H.
  rewrite DT in V1, V2, V3. pose proof P_nz as PZ.
  assert (S : forall n m f, n * (4 * (P * P)) + m = 2 * P * f -> m = 0 -> 0 <= f -> 0 <= n * P).
  { clear - PZ. intros n m f E -> F. set (p := P) in *. assert (0 < p * p) by nia.
    assert (2 * (n * p) = f) by (apply (Z.mul_reg_l _ _ (2 * p)); [lia|rewrite <- E; ring]). lia. }
  assert (T1 : 0 <= a * P) by (apply (S a (b * (0 * 0) + c * (0 * 0)) (tf e1 e2 e3 r s t i1 j1 l1)); [rewrite <- V1; ring|ring|exact F1]).
  assert (T2 : 0 <= b * P) by (apply (S b (a * (0 * 0) + c * (0 * 0)) (tf e1 e2 e3 r s t i2 j2 l2)); [rewrite <- V2; ring|ring|exact F2]).
  assert (T3 : 0 <= c * P) by (apply (S c (a * (0 * 0) + b * (0 * 0)) (tf e1 e2 e3 r s t i3 j3 l3)); [rewrite <- V3; ring|ring|exact F3]).
  destruct OK as (A & B & C & _ & _ & _ & SG1 & SG2). clear - T1 T2 T3 PZ A B C SG1 SG2. set (p := P) in *. clearbody p.
  assert (K1 : forall n, n <> 0 -> 0 <= n * p -> 0 < p -> 0 < n) by (clear; intros; nia).
  assert (K2 : forall n, n <> 0 -> 0 <= n * p -> p < 0 -> n < 0) by (clear; intros; nia).
  destruct (Z.lt_trichotomy p 0) as [H|[H|H]]; [apply SG2|contradiction|apply SG1]; auto.
Qed.
Lemma core_zero : exists k, In k cand /\ nrm a b c (comb u v w k) = 0.
Proof.
  destruct (Z.eq_dec e1 0) as [E1|E1].
  { exists (1, 0, 0). split; [left; reflexivity|]. rewrite comb_val. unfold tf. rewrite E1. ring. }
  pose proof P_nz as PZ. set (M := 2 * Z.abs P).
  assert (PM : 0 < M) by (unfold M; lia).
  pose proof OK as (A & B & C & _).
  assert (M2 : Z.abs (2 * P) = M) by (rewrite (Z.abs_mul 2 P); reflexivity).
  destruct (reduced_norms (Z.abs a) (Z.abs b) (Z.abs c) u v w M) as (K1 & K2 & K3); auto; try (clear - A B C; lia).
  - rewrite DT. unfold M. rewrite <- !Z.abs_mul. rewrite <- (Z.abs_eq (P * P)) by apply Z.square_nonneg. rewrite (Z.abs_mul P P). ring.
  - pose proof (nrm_abs a b c u) as H. rewrite N1, (Z.abs_mul (2 * P) e1), M2 in H.
    assert (M * 1 <= M * Z.abs e1) by (apply Z.mul_le_mono_nonneg_l; lia). lia.
  - assert (AE : forall q e, nrm a b c q = 2 * P * e -> nrm (Z.abs a) (Z.abs b) (Z.abs c) q < 2 * M -> -1 <= e <= 1).
    { intros q e E L. pose proof (nrm_abs a b c q) as H. rewrite E, (Z.abs_mul (2 * P) e), M2 in H.
      assert (M * Z.abs e < M * 2) by lia. apply Z.mul_lt_mono_pos_l in H0; lia. }
    assert (AR : forall q q' e, bil a b c q q' = P * e -> nrm (Z.abs a) (Z.abs b) (Z.abs c) q < 2 * M -> nrm (Z.abs a) (Z.abs b) (Z.abs c) q' < 2 * M -> -3 <= e <= 3).
    { intros q q' e E L L'. pose proof (bil_abs a b c q q') as H. rewrite E, (Z.abs_mul P e) in H.
      assert (M * Z.abs e < M * 4) by (unfold M at 1; lia). apply Z.mul_lt_mono_pos_l in H0; lia. }
    destruct (small_forms e1 e2 e3 r s t) as [H|H]; eauto using disc2.
    + unfold has_zero in H. apply existsb_exists in H as ([[x y] z] & I & H). apply Z.eqb_eq in H.
      exists (x, y, z). split; [exact I|]. rewrite comb_val, H. ring.
    + exfalso. exact (indefinite H).
Qed.
Lemma det_nz : det3 u v w <> 0.
Proof. intros H. rewrite H in DT. pose proof P_nz as PZ. set (p := P) in *. clearbody p. clear - DT PZ. nia. Qed.
Lemma cand_nz k : In k cand -> k <> (0, 0, 0).
Proof. unfold cand. cbn [In]. intros H E. subst k. intuition discriminate. Qed.
Lemma cand_comb : lll_candidates u v w = map (comb u v w) cand.
Proof.
  destruct u as [[x1 y1] z1], v as [[x2 y2] z2], w as [[x3 y3] z3]. unfold lll_candidates, cand. cbn [map tadd tsub comb].
  repeat (apply (f_equal2 (@cons tri)); [f_equal; [f_equal|]; ring|]). reflexivity.
Qed.
Lemma first_zero_ok l : (exists k, In k l /\ nrm a b c k = 0) -> In (first_zero a b c l) l /\ nrm a b c (first_zero a b c l) = 0.
Proof.
  induction l as [|[[x y] z] l IH]; intros (k & I & E); [destruct I|]. cbn [first_zero].
  destruct (Z.eqb_spec (a * (x * x) + b * (y * y) + c * (z * z)) 0) as [H|H].
  - split; [now left|exact H].
  - destruct I as [<-|I]; [contradiction|]. destruct IH as (I1 & I2); [now exists k|]. split; [now right|exact I2].
Qed.
Lemma core : leg_sol a b c (first_zero a b c (lll_candidates u v w)).
Proof.
  rewrite cand_comb. destruct (first_zero_ok (map (comb u v w) cand)) as (I & E).
  - destruct core_zero as (k & I & E). exists (comb u v w k). split; [now apply in_map|exact E].
  - apply in_map_iff in I as (k & EK & I). rewrite <- EK in *. destruct (comb u v w k) as [[x y] z] eqn:EC. split; [exact E|].
    unfold nonzero3. destruct (Z.eq_dec x 0) as [X|X]; [|now left]. destruct (Z.eq_dec y 0) as [Y|Y]; [|now right; left].
    destruct (Z.eq_dec z 0) as [Z0|Z0]; [|now right; right]. exfalso. apply (cand_nz k I). apply (comb_inj u v w k det_nz). now rewrite EC, X, Y, Z0.
Qed.
End Core.

(** ** The lattice *)
Lemma nrm_dbl a b c u : nrm a b c (tdbl u) = 4 * nrm a b c u.
Proof. destruct u as [[x y] z]. cbn [nrm tdbl]. ring. Qed.
Lemma nrm_sub a b c u v : nrm a b c (tsub u v) = nrm a b c u + nrm a b c v - 2 * bil a b c u v.
Proof. destruct u as [[x y] z], v as [[x' y'] z']. cbn [nrm tsub bil]. ring. Qed.
Lemma bil_dbl a b c u v : bil a b c (tdbl u) v = 2 * bil a b c u v.
Proof. destruct u as [[x y] z], v as [[x' y'] z']. cbn [bil tdbl]. ring. Qed.
Lemma bil_sub a b c u v w : bil a b c (tsub u v) w = bil a b c u w - bil a b c v w.
Proof. destruct u as [[x y] z], v as [[x' y'] z'], w as [[x2 y2] z2]. cbn [bil tsub]. ring. Qed.
Lemma bil_sym a b c u v : bil a b c u v = bil a b c v u.
Proof. destruct u as [[x y] z], v as [[x' y'] z']. cbn [bil]. ring. Qed.
Lemma bil_self a b c u : bil a b c u u = nrm a b c u.
Proof. destruct u as [[x y] z]. reflexivity. Qed.

(** values of the form on a basis: even multiples of P, bilinear form multiples of P *)
Definition mult (p x : Z) : Prop := exists e, x = p * e.
Lemma mult_sub p x y : mult p x -> mult p y -> mult p (x - y).
Proof. intros [i ->] [j ->]. exists (i - j). ring. Qed.
Lemma mult_add p x y : mult p x -> mult p y -> mult p (x + y).
Proof. intros [i ->] [j ->]. exists (i + j). ring. Qed.
Lemma mult_mul p k x : mult p x -> mult p (k * x).
Proof. intros [i ->]. exists (k * i). ring. Qed.
Definition even_basis (a b c : Z) (u v w : tri) : Prop :=
  mult (2 * (a * b * c)) (nrm a b c u) /\ mult (2 * (a * b * c)) (nrm a b c v) /\ mult (2 * (a * b * c)) (nrm a b c w) /\
  mult (a * b * c) (bil a b c u v) /\ mult (a * b * c) (bil a b c u w) /\ mult (a * b * c) (bil a b c v w) /\
  det3 u v w * det3 u v w = 4 * (a * b * c * (a * b * c)).

Lemma index2 a b c v1 v2 v3 n1 n2 n3 r s t : a * b * c <> 0 ->
  nrm a b c v1 = a * b * c * n1 -> nrm a b c v2 = a * b * c * n2 -> nrm a b c v3 = a * b * c * n3 ->
  bil a b c v1 v2 = a * b * c * r -> bil a b c v1 v3 = a * b * c * s -> bil a b c v2 v3 = a * b * c * t ->
  det3 v1 v2 v3 = a * b * c ->
  let '(u, v, w) := if Z.odd n1 then (tdbl v1, if Z.odd n2 then tsub v2 v1 else v2, if Z.odd n3 then tsub v3 v1 else v3)
          else if Z.odd n2 then (v1, tdbl v2, if Z.odd n3 then tsub v3 v2 else v3)
          else if Z.odd n3 then (v1, v2, tdbl v3)
          else (v1, v2, v3) in
  even_basis a b c u v w.
Proof.
  intros PZ N1 N2 N3 B1 B2 B3 D.
  pose proof (gram_det a b c v1 v2 v3) as G. rewrite N1, N2, N3, B1, B2, B3, D in G.
  set (p := a * b * c) in *.
  assert (G1 : n1 * n2 * n3 + 2 * r * s * t - n1 * t * t - n2 * s * s - n3 * r * r = 1).
  { clearbody p. apply (Z.mul_reg_l _ _ (p * p * p)); [apply mul_nz; [apply mul_nz|]; exact PZ|].
    transitivity (p * (p * p)); [rewrite G|]; ring. }
  clear G.
  assert (PAR : forall n, exists k, n = 2 * k + (if Z.odd n then 1 else 0)).
  { intros n. destruct (Z.odd n) eqn:E; [apply Z.odd_spec in E as [k E]|]; [exists k; lia|].
    assert (Z.even n = true) by (rewrite <- Z.negb_odd, E; reflexivity). apply Z.even_spec in H as [k H]. exists k. lia. }
  destruct (PAR n1) as (k1 & K1), (PAR n2) as (k2 & K2), (PAR n3) as (k3 & K3). clear PAR.
  assert (DD : forall x y z, det3 (tdbl x) y z = 2 * det3 x y z /\ det3 x (tdbl y) z = 2 * det3 x y z /\ det3 x y (tdbl z) = 2 * det3 x y z /\
      det3 (tdbl x) (tsub y x) z = 2 * det3 x y z /\ det3 (tdbl x) y (tsub z x) = 2 * det3 x y z /\ det3 x (tdbl y) (tsub z y) = 2 * det3 x y z /\
      det3 (tdbl x) (tsub y x) (tsub z x) = 2 * det3 x y z).
  { clear. intros [[x1 y1] z1] [[x2 y2] z2] [[x3 y3] z3]. cbn [det3 tdbl tsub]. repeat split; ring. }
  destruct (DD v1 v2 v3) as (D1 & D2 & D3 & D4 & D5 & D6 & D7). clear DD. rewrite D in *.
  assert (SQ : forall q, q = 2 * p -> q * q = 4 * (p * p)) by (intros q ->; ring).
  assert (M1 : mult p (nrm a b c v1)) by (exists n1; exact N1). assert (M2 : mult p (nrm a b c v2)) by (exists n2; exact N2).
  assert (M3 : mult p (nrm a b c v3)) by (exists n3; exact N3).
  assert (M4 : mult p (bil a b c v1 v2)) by (exists r; exact B1). assert (M5 : mult p (bil a b c v1 v3)) by (exists s; exact B2).
  assert (M6 : mult p (bil a b c v2 v3)) by (exists t; exact B3).
  assert (M7 : mult p (bil a b c v2 v1)) by (rewrite bil_sym; exact M4). assert (M8 : mult p (bil a b c v3 v1)) by (rewrite bil_sym; exact M5).
  assert (M9 : mult p (bil a b c v3 v2)) by (rewrite bil_sym; exact M6).
  assert (E1 : forall x, mult p (nrm a b c x) -> mult (2 * p) (nrm a b c (tdbl x))) by (intros x [e E]; exists (2 * e); rewrite nrm_dbl, E; ring).
  assert (E2 : forall x n k, nrm a b c x = p * n -> n = 2 * k + 0 -> mult (2 * p) (nrm a b c x)) by (intros x n k E ->; exists k; rewrite E; ring).
  assert (E3 : forall x y n k m l, nrm a b c x = p * n -> n = 2 * k + 1 -> nrm a b c y = p * m -> m = 2 * l + 1 -> mult p (bil a b c x y) ->
    mult (2 * p) (nrm a b c (tsub x y))) by (intros x y n k m l E -> F -> [q Q]; exists (k + l + 1 - q); rewrite nrm_sub, E, F, Q; ring).
  destruct (Z.odd n1), (Z.odd n2), (Z.odd n3); unfold even_basis; fold p.
  8:{ exfalso. rewrite K1, K2, K3 in G1. clear - G1. 
      assert (H : 2 * (4 * k1 * k2 * k3 + r * s * t - k1 * t * t - k2 * s * s - k3 * r * r) = 1) by (rewrite <- G1; ring). lia. }
  all: repeat match goal with |- _ /\ _ => split end; eauto 2;
    rewrite ?bil_dbl, ?bil_sub; auto using mult_mul.
  all: try (rewrite (bil_sym a b c _ (tsub _ _)), ?bil_sub); try (rewrite (bil_sym a b c _ (tdbl _)), ?bil_dbl);
    repeat (apply mult_mul || apply mult_sub || assumption || (rewrite bil_self) || rewrite (bil_sym a b c _ (tsub _ _)), bil_sub).
Qed.

Lemma bil_comb a b c u v w k k' : bil a b c (comb u v w k) (comb u v w k') =
  let '(i, j, l) := k in let '(i', j', l') := k' in
  i * i' * nrm a b c u + j * j' * nrm a b c v + l * l' * nrm a b c w
  + (i * j' + i' * j) * bil a b c u v + (i * l' + i' * l) * bil a b c u w + (j * l' + j' * l) * bil a b c v w.
Proof. destruct u as [[x1 y1] z1], v as [[x2 y2] z2], w as [[x3 y3] z3], k as [[i j] l], k' as [[i' j'] l']. cbn [nrm comb bil]. ring. Qed.
Lemma det_comb u v w k1 k2 k3 : det3 (comb u v w k1) (comb u v w k2) (comb u v w k3) = det3 k1 k2 k3 * det3 u v w.
Proof. destruct u as [[x1 y1] z1], v as [[x2 y2] z2], w as [[x3 y3] z3], k1 as [[i j] l], k2 as [[i' j'] l'], k3 as [[i2 j2] l2]. cbn [det3 comb]. ring. Qed.
Lemma mult_half p x : mult (2 * p) x -> mult p x.
Proof. intros [e ->]. exists (2 * e). ring. Qed.
Lemma mult_two p x : mult p x -> mult (2 * p) (2 * x).
Proof. intros [e ->]. exists e. ring. Qed.

(** two bases of the same lattice *)
Lemma tl_inj u v : (forall t, (t < 3)%nat -> nth t (tlist u) 0 = nth t (tlist v) 0) -> u = v.
Proof.
  destruct u as [[x y] z], v as [[x' y'] z']. intros H. pose proof (H 0%nat ltac:(lia)) as H0. pose proof (H 1%nat ltac:(lia)) as H1. pose proof (H 2%nat ltac:(lia)) as H2.
  cbn [tlist nth] in *. now rewrite H0, H1, H2.
Qed.
Lemma lat_comb u v w x : in_lattice 3 [tlist u; tlist v; tlist w] (fun t => nth t (tlist x) 0) -> exists k, x = comb u v w k.
Proof.
  intros (k & H). exists (k 0%nat, k 1%nat, k 2%nat). apply tl_inj. intros t Ht. rewrite H by exact Ht.
  cbn [length sumn]. unfold co. destruct u as [[x1 y1] z1], v as [[x2 y2] z2], w as [[x3 y3] z3]. cbn [nth tlist comb].
  destruct t as [|[|[|t]]]; [| | |lia]; cbn [nth]; ring.
Qed.
Lemma in_basis u v w x : In x [u; v; w] -> in_lattice 3 [tlist u; tlist v; tlist w] (fun t => nth t (tlist x) 0).
Proof.
  cbn [In]. intros [<-|[<-|[<-|[]]]];
    [exists (fun i => match i with O => 1 | _ => 0 end)|exists (fun i => match i with 1%nat => 1 | _ => 0 end)|exists (fun i => match i with 2%nat => 1 | _ => 0 end)];
    intros t _; cbn [length sumn]; unfold co; cbn [nth]; ring.
Qed.
Lemma same_even a b c u v w x y z : a * b * c <> 0 -> even_basis a b c u v w ->
  same_lattice 3 [tlist u; tlist v; tlist w] [tlist x; tlist y; tlist z] -> even_basis a b c x y z.
Proof.
  intros PZ (E1 & E2 & E3 & B1 & B2 & B3 & D) SL.
  assert (K1 : forall q, In q [x; y; z] -> exists k, q = comb u v w k) by (intros q I; apply lat_comb, SL, in_basis, I).
  assert (K2 : forall q, In q [u; v; w] -> exists k, q = comb x y z k) by (intros q I; apply lat_comb, SL, in_basis, I).
  destruct (K1 x) as (k1 & X1); [now left|]. destruct (K1 y) as (k2 & X2); [now right; left|]. destruct (K1 z) as (k3 & X3); [now right; right; left|].
  destruct (K2 u) as (l1 & U1); [now left|]. destruct (K2 v) as (l2 & U2); [now right; left|]. destruct (K2 w) as (l3 & U3); [now right; right; left|].
  clear K1 K2. set (p := a * b * c) in *.
  assert (EV : forall k, mult (2 * p) (nrm a b c (comb u v w k))).
  { intros [[i j] l]. rewrite comb_nrm. apply mult_add; [apply mult_add; [apply mult_add|]; apply mult_mul; assumption|].
    apply mult_two. apply mult_add; [apply mult_add|]; apply mult_mul; assumption. }
  assert (BV : forall k k', mult p (bil a b c (comb u v w k) (comb u v w k'))).
  { intros [[i j] l] [[i' j'] l']. rewrite bil_comb. repeat apply mult_add; apply mult_mul; auto using mult_half. }
  unfold even_basis. fold p.
  assert (DT : det3 x y z * det3 x y z = 4 * (p * p)).
  { pose proof (det_comb u v w k1 k2 k3) as F1. pose proof (det_comb x y z l1 l2 l3) as F2. rewrite <- X1, <- X2, <- X3 in F1. rewrite <- U1, <- U2, <- U3 in F2.
    rewrite F1. rewrite F1 in F2. set (d := det3 u v w) in *. set (m := det3 k1 k2 k3) in *. set (n := det3 l1 l2 l3) in *.
    assert (DZ : d <> 0) by (clear - D PZ; clearbody p d; intros H; rewrite H in D; nia).
    assert (MN : n * m = 1) by (apply (Z.mul_reg_r _ _ d); [exact DZ|]; rewrite <- Z.mul_assoc, <- F2; ring).
    apply Z.mul_eq_1 in MN. transitivity ((m * m) * (d * d)); [ring|]. rewrite D.
    assert (MM : m * m = 1) by (clear - F2 DZ; clearbody n m d; assert (H : n * m = 1) by (apply (Z.mul_reg_r _ _ d); [exact DZ|]; rewrite <- Z.mul_assoc, <- F2; ring);
      rewrite Z.mul_comm in H; apply Z.mul_eq_1 in H; destruct H as [H|H]; rewrite H; reflexivity).
    rewrite MM. ring. }
  rewrite X1, X2, X3 in *. repeat match goal with |- _ /\ _ => split end; auto.
Qed.

Lemma indep3 u v w : det3 u v w <> 0 -> lin_indep 3 [tlist u; tlist v; tlist w].
Proof.
  intros D k H i Hi. cbn [length] in *.
  assert (E : comb u v w (k 0%nat, k 1%nat, k 2%nat) = (0, 0, 0)).
  { apply tl_inj. intros t Ht. transitivity 0; [|destruct t as [|[|[|t]]]; [| | |lia]; reflexivity]. rewrite <- (H t Ht).
    cbn [sumn]. unfold co. destruct u as [[x1 y1] z1], v as [[x2 y2] z2], w as [[x3 y3] z3]. cbn [nth tlist comb].
    destruct t as [|[|[|t]]]; [| | |lia]; cbn [nth]; ring. }
  apply comb_inj in E; [|exact D].
  pose proof (f_equal (fun t : tri => fst (fst t)) E) as E1. pose proof (f_equal (fun t : tri => snd (fst t)) E) as E2.
  pose proof (f_equal (fun t : tri => snd t) E) as E3. cbn [fst snd] in E1, E2, E3.
  destruct i as [|[|[|i]]]; [exact E1|exact E2|exact E3|lia].
Qed.

(** lll_lattice gives a basis on which the form is even *)
Section Lat.
Variable xgcd : Z -> Z -> Z * Z * Z.
Hypothesis X : xgcd_spec xgcd.
Variables a b c k1 k2 k3 : Z.
Hypothesis OK : leg_ok a b c.
Hypothesis CE : leg_cert a b c k1 k2 k3.

Lemma lll_lattice_ok : exists u v w, lll_lattice xgcd a b c k1 k2 k3 = Ok (u, v, w) /\ even_basis a b c u v w.
Proof.
  destruct OK as (A & B & C & G1 & G2 & G3 & _). destruct CE as ([c1 C1] & [c2 C2] & [c3 C3]).
  unfold lll_lattice. cbv zeta.
  destruct (X b c) as (u & v & -> & BZ). rewrite G3 in *. cbn [Z.eqb Pos.eqb negb].
  assert (GA : Z.gcd a (b * c) = 1) by (apply cop_mul; assumption).
  destruct (X a (b * c)) as (ad & bd & -> & AZ). rewrite GA in *. cbn [Z.eqb Pos.eqb negb].
  assert (BC : b * c <> 0) by now apply mul_nz.
  rewrite (zz_mod_ok (c * bd * k1) a) by exact A. rewrite bind_Ok.
  rewrite (zz_mod_ok _ (b * c)) by exact BC. rewrite bind_Ok.
  rewrite (zz_mod_ok _ (b * c)) by exact BC. rewrite bind_Ok.
  pose proof (Z.div_mod (c * bd * k1) a A) as E1. pose proof (Z.div_mod (u * ad * b * k3) (b * c) BC) as E2.
  pose proof (Z.div_mod (v * ad * c * k2) (b * c) BC) as E3.
  set (al := (c * bd * k1) mod a) in *. set (be := (u * ad * b * k3) mod (b * c)) in *. set (ga := (v * ad * c * k2) mod (b * c)) in *.
  set (q1 := c * bd * k1 / a) in *. set (q2 := u * ad * b * k3 / (b * c)) in *. set (q3 := v * ad * c * k2 / (b * c)) in *.
  clearbody al be ga q1 q2 q3.
  assert (DB : (b | be)). { exists (u * ad * k3 - c * q2). clear - E2. lia. }
  assert (DG : (c | ga)). { exists (v * ad * k2 - b * q3). clear - E3. lia. }
  assert (SQ : forall m x k e, (m | x - k) -> (m | k * k + e) -> (m | x * x + e)).
  { clear. intros m x k e [i I] [j J]. exists (i * (x + k) + j). transitivity ((x - k) * (x + k) + (k * k + e)); [ring|]. rewrite I, J. ring. }
  assert (T1 : (c | a * be * be + b)).
  { apply (cop_gauss c a); [now apply cop_sym|]. replace (a * (a * be * be + b)) with ((a * be) * (a * be) + a * b) by ring.
    apply (SQ _ _ k3); [|exists c3; exact C3].
    exists (- (u * b) * (b * bd) * k3 - v * k3 - a * b * q2).
    replace be with (u * ad * b * k3 - b * c * q2) by (clear - E2; lia).
    transitivity ((u * b) * (a * ad) * k3 - a * b * c * q2 - k3); [ring|].
    replace (a * ad) with (1 - b * c * bd) by (clear - AZ; lia).
    transitivity ((u * b) * k3 - (u * b) * (b * bd) * k3 * c - a * b * c * q2 - k3); [ring|].
    replace ((u * b) * k3) with (k3 - c * v * k3); [ring|]. transitivity ((1 - c * v) * k3); [ring|]. f_equal. clear - BZ. lia. }
  assert (T2 : (b * c | a * be * be + b)).
  { apply cop_prod_div; [exact G3| |exact T1]. destruct DB as [d D]. exists (a * d * be + 1). transitivity (a * be * be + b); [reflexivity|]. rewrite D. ring. }
  assert (T3 : (b * c | be * ga)). { destruct DB as [d D], DG as [g G]. exists (d * g). rewrite D, G. ring. }
  assert (T4 : (a | b * (al * al) + c)).
  { apply (cop_gauss a b); [exact G1|]. replace (b * (b * (al * al) + c)) with ((b * al) * (b * al) + b * c) by ring.
    apply (SQ _ _ k1); [|exists c1; exact C1].
    exists (- ad * k1 - b * q1). replace al with (c * bd * k1 - a * q1) by (clear - E1; lia).
    transitivity ((b * c * bd) * k1 - a * b * q1 - k1); [ring|]. replace (b * c * bd) with (1 - a * ad) by (clear - AZ; lia). ring. }
  assert (T5 : (b | a * (ga * ga) + c)).
  { apply (cop_gauss b a); [now apply cop_sym|]. replace (a * (a * (ga * ga) + c)) with ((a * ga) * (a * ga) + a * c) by ring.
    apply (SQ _ _ k2); [|exists c2; exact C2].
    exists (- (v * c) * (c * bd) * k2 - u * k2 - a * c * q3).
    replace ga with (v * ad * c * k2 - b * c * q3) by (clear - E3; lia).
    transitivity ((v * c) * (a * ad) * k2 - a * b * c * q3 - k2); [ring|].
    replace (a * ad) with (1 - b * c * bd) by (clear - AZ; lia).
    transitivity ((v * c) * k2 - (v * c) * (c * bd) * k2 * b - a * b * c * q3 - k2); [ring|].
    replace ((v * c) * k2) with (k2 - b * u * k2); [ring|]. transitivity ((1 - b * u) * k2); [ring|]. f_equal. clear - BZ. lia. }
  set (th := al * be + ga).
  assert (T6 : (a * (b * c) | a * (th * th) + b * (al * al) + c)).
  { apply cop_prod_div; [exact GA| |apply cop_prod_div; [exact G3| |]].
    - destruct T4 as [d D]. exists (th * th + d). transitivity (a * (th * th) + (b * (al * al) + c)); [ring|]. rewrite D. ring.
    - destruct T5 as [d D], DB as [e E]. exists (a * al * al * e * be + 2 * a * al * e * ga + al * al + d). unfold th.
      transitivity (a * al * al * be * be + 2 * a * al * be * ga + b * (al * al) + (a * (ga * ga) + c)); [ring|]. rewrite D, E. ring.
    - destruct T1 as [d D], DG as [e E]. exists (al * al * d + 2 * a * al * be * e + a * e * ga + 1). unfold th.
      transitivity (al * al * (a * be * be + b) + 2 * a * al * be * ga + a * ga * ga + c); [ring|]. rewrite D, E. ring. }
  destruct T2 as [m2 M2], T3 as [m3 M3], T6 as [n3 N3].
  rewrite (zdiv_ex (a * be * (a * be) + a * b) (b * c) (a * m2)) by (exact BC || (transitivity (a * (a * be * be + b)); [ring|rewrite M2; ring])).
  rewrite bind_Ok.
  rewrite (zdiv_ex _ (a * (b * c)) n3) by ((now apply mul_nz) || (rewrite N3; ring)).
  rewrite bind_Ok.
  assert (PZ : a * b * c <> 0) by (apply mul_nz; [apply mul_nz|]; assumption).
  pose proof (index2 a b c (b * c, 0, 0) (a * be, a, 0) (th, al, 1) (b * c) (a * m2) n3 (a * be) th (al * m2 + a * m3) PZ) as I.
  cbn [nrm bil det3] in I.
  match type of I with _ -> _ -> _ -> _ -> _ -> _ -> _ -> match ?t with _ => _ end => destruct t as [[u' v'] w'] eqn:ER end.
  exists u', v', w'. split; [f_equal; exact ER|]. apply I.
  - ring.
  - transitivity (a * (a * (a * be * be + b))); [ring|]. rewrite M2. ring.
  - transitivity (a * (th * th) + b * (al * al) + c); [ring|]. rewrite N3. ring.
  - ring.
  - ring.
  - transitivity (a * (al * (a * be * be + b) + a * (be * ga))); [unfold th; ring|]. rewrite M2, M3. ring.
  - ring.
Qed.

Lemma legendre_via_lll_ok : exists N s, (forall div f, exact_division (@Ok Z) div -> (N <= f)%nat -> legendre_via_lll xgcd div f a b c k1 k2 k3 = Ok s) /\
  leg_sol a b c s.
Proof.
  destruct lll_lattice_ok as (u & v & w & E & EB).
  pose proof OK as (A & B & C & _).
  assert (PZ : a * b * c <> 0) by (apply mul_nz; [apply mul_nz|]; assumption).
  assert (DZ : det3 u v w <> 0).
  { destruct EB as (_ & _ & _ & _ & _ & _ & D). intros H. rewrite H in D. set (p := a * b * c) in *. clearbody p. clear - D PZ. nia. }
  destruct (lll_spec 3 3 [Z.abs a; Z.abs b; Z.abs c] [tlist u; tlist v; tlist w]) as (ws & fl & (N & EL) & Lw & Ll & SL & IN & RD & _); try reflexivity.
  - lia.
  - intros i Hi. destruct i as [|[|[|i]]]; [| | |lia]; cbn [nth]; [destruct u as [[? ?] ?]|destruct v as [[? ?] ?]|destruct w as [[? ?] ?]]; reflexivity.
  - intros t Ht. destruct t as [|[|[|t]]]; [| | |lia]; cbn [nth]; lia.
  - destruct (RD (indep3 u v w DZ)) as (-> & R).
    destruct ws as [|w1 [|w2 [|w3 [|]]]]; try discriminate Lw.
    pose proof (Ll 0%nat ltac:(lia)) as L1. pose proof (Ll 1%nat ltac:(lia)) as L2. pose proof (Ll 2%nat ltac:(lia)) as L3. cbn [nth] in L1, L2, L3.
    destruct w1 as [|x1 [|y1 [|z1 [|]]]]; try discriminate L1.
    destruct w2 as [|x2 [|y2 [|z2 [|]]]]; try discriminate L2.
    destruct w3 as [|x3 [|y3 [|z3 [|]]]]; try discriminate L3.
    pose proof (same_even a b c u v w (x1, y1, z1) (x2, y2, z2) (x3, y3, z3) PZ EB SL) as ([e1 E1] & [e2 E2] & [e3 E3] & [r B1] & [s B2] & [t B3] & DT).
    exists N, (first_zero a b c (lll_candidates (x1, y1, z1) (x2, y2, z2) (x3, y3, z3))). split.
    + intros div f HD HF. unfold legendre_via_lll. rewrite E, bind_Ok. cbv beta iota. rewrite (EL div f HD HF), bind_Ok. reflexivity.
    + exact (core a b c OK (x1, y1, z1) (x2, y2, z2) (x3, y3, z3) e1 e2 e3 r s t E1 E2 E3 B1 B2 B3 DT R).
Qed.
End Lat.
