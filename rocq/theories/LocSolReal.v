(** Real quartics: sign conditions on the invariants. *)
From Coq Require Import Reals Lra Psatz.
Open Scope R_scope.

(** x^4 + p x^2 + q x + r = (x^2 + s x + t) (x^2 - s x + u) *)
Lemma quad_factors p q r : exists s t u, t + u - s * s = p /\ s * (u - t) = q /\ t * u = r.
Proof.
  destruct (Req_dec q 0) as [->|Q].
  - destruct (Rle_lt_dec 0 (p * p - 4 * r)) as [D|D].
    + pose proof (sqrt_sqrt _ D) as S. exists 0, ((p + sqrt (p * p - 4 * r)) / 2), ((p - sqrt (p * p - 4 * r)) / 2).
      split; [lra|]. split; [ring|].
      replace ((p + sqrt (p * p - 4 * r)) / 2 * ((p - sqrt (p * p - 4 * r)) / 2)) with
        ((p * p - sqrt (p * p - 4 * r) * sqrt (p * p - 4 * r)) / 4) by field. rewrite S. field.
    + assert (R0 : 0 <= r) by nra. pose proof (sqrt_sqrt _ R0) as S. pose proof (sqrt_pos r) as SP.
      assert (T : 0 <= 2 * sqrt r - p) by nra.
      pose proof (sqrt_sqrt _ T) as S2. exists (sqrt (2 * sqrt r - p)), (sqrt r), (sqrt r).
      split; [rewrite S2; ring|]. split; [ring|exact S].
  - set (g := fun S => S * S * S + 2 * p * (S * S) + (p * p - 4 * r) * S - q * q).
    set (M := 1 + Rabs (2 * p) + Rabs (p * p - 4 * r) + q * q).
    assert (QQ : 0 < q * q) by nra.
    pose proof (Rabs_pos (2 * p)) as A1. pose proof (Rabs_pos (p * p - 4 * r)) as A2.
    assert (M1 : 1 <= M) by (unfold M; lra).
    assert (G0 : g 0 < 0) by (unfold g; lra).
    assert (GM : 0 < g M).
    { unfold g. pose proof (Rle_abs (- (2 * p))) as B1. pose proof (Rle_abs (- (p * p - 4 * r))) as B2. rewrite Rabs_Ropp in B1, B2.
      assert (MM : M <= M * M) by nra. assert (MM1 : 1 <= M * M) by nra.
      assert (E1 : - Rabs (2 * p) * (M * M) <= 2 * p * (M * M)) by (apply Rmult_le_compat_r; lra).
      assert (E2 : - Rabs (p * p - 4 * r) * (M * M) <= (p * p - 4 * r) * M).
      { apply Rle_trans with (- Rabs (p * p - 4 * r) * M); [|apply Rmult_le_compat_r; lra].
        assert (Rabs (p * p - 4 * r) * M <= Rabs (p * p - 4 * r) * (M * M)) by (apply Rmult_le_compat_l; lra). lra. }
      assert (E3 : - (q * q) * (M * M) <= - (q * q)) by nra.
      assert (E4 : M * M * M = (1 + Rabs (2 * p) + Rabs (p * p - 4 * r) + q * q) * (M * M)) by (unfold M at 1 2 3; unfold M; ring).
      lra. }
    assert (C : continuity g) by (unfold g; reg).
    destruct (IVT g 0 M C ltac:(lra) G0 GM) as (S & (S0 & S1) & GS).
    assert (SP : 0 < S).
    { destruct (Rle_lt_or_eq_dec 0 S S0) as [H|H]; [exact H|]. rewrite <- H in GS. lra. }
    pose proof (sqrt_lt_R0 S SP) as RP. pose proof (sqrt_sqrt S (Rlt_le _ _ SP)) as RS. set (s := sqrt S) in *.
    exists s, ((p + S - q / s) / 2), ((p + S + q / s) / 2). split; [rewrite RS; field; lra|]. split; [field; lra|].
    unfold g in GS.
    assert (E : q / s * (q / s) = (S * S + 2 * p * S + (p * p - 4 * r))).
    { apply (Rmult_eq_reg_r S); [|lra]. replace (q / s * (q / s) * S) with (q / s * (q / s) * (s * s)) by (rewrite RS; ring).
      replace (q / s * (q / s) * (s * s)) with (q * q) by (field; lra). lra. }
    replace ((p + S - q / s) / 2 * ((p + S + q / s) / 2)) with (((p + S) * (p + S) - q / s * (q / s)) / 4) by (field; lra).
    rewrite E. field.
Qed.

Section F.
Variables p q r : R.
Let F (X : R) : R := X * X * X * X + p * (X * X) + q * X + r.
Let I := 12 * r + p * p.
Let J := 72 * p * r - 27 * (q * q) - 2 * (p * p * p).
Let disc := 4 * (I * I * I) - J * J.

Lemma quad_pos s t X : s * s - 4 * t < 0 -> 0 < X * X + s * X + t.
Proof. intros H. pose proof (Rle_0_sqr (X + s / 2)) as N. unfold Rsqr in N. lra. Qed.

Lemma disc_quads s t u : t + u - s * s = p -> s * (u - t) = q -> t * u = r ->
  disc = 27 * ((s * s - 4 * t) * (s * s - 4 * u) * (((u - t) * (u - t) + 2 * s * s * (u + t)) * ((u - t) * (u - t) + 2 * s * s * (u + t)))) /\
  (forall X, F X = (X * X + s * X + t) * (X * X - s * X + u)).
Proof. intros <- <- <-. unfold disc, I, J, F. split; [|intros X]; ring. Qed.

Lemma real_neg2 : p < 0 -> 0 < p * p - 4 * r -> exists X, F X < 0.
Proof.
  intros P D. pose proof (sqrt_sqrt (- p / 2) ltac:(lra)) as S. set (s := sqrt (- p / 2)) in *.
  destruct (Rle_lt_dec (q * s) 0) as [Q|Q].
  - exists s. unfold F. replace (s * s * s * s) with (s * s * (s * s)) by ring. rewrite S. lra.
  - exists (- s). unfold F. replace (- s * - s * - s * - s) with (s * s * (s * s)) by ring. replace (- s * - s) with (s * s) by ring.
    rewrite S. lra.
Qed.

Lemma real_neg3 : disc < 0 -> exists X, F X < 0.
Proof.
  intros D. destruct (quad_factors p q r) as (s & t & u & E1 & E2 & E3).
  destruct (disc_quads s t u E1 E2 E3) as (ED & EF). rewrite ED in D.
  set (D1 := s * s - 4 * t) in *. set (D2 := s * s - 4 * u) in *. set (Re := (u - t) * (u - t) + 2 * s * s * (u + t)) in *.
  pose proof (Rle_0_sqr Re) as N. unfold Rsqr in N.
  assert (DD : D1 * D2 < 0).
  { destruct (Rlt_le_dec (D1 * D2) 0) as [H|H]; [exact H|]. pose proof (Rmult_le_pos _ _ H N). lra. }
  destruct (Rlt_le_dec D1 0) as [N1|N1].
  - assert (P2 : 0 < D2) by (destruct (Rlt_le_dec 0 D2) as [H|H]; [exact H|nra]).
    exists (s / 2). rewrite EF. pose proof (quad_pos s t (s / 2) N1) as Q1.
    assert (Q2 : s / 2 * (s / 2) - s * (s / 2) + u < 0) by (unfold D2 in P2; lra). nra.
  - assert (P1 : 0 < D1) by (destruct (Req_dec D1 0) as [H|H]; [rewrite H in DD; lra|lra]).
    assert (N2 : D2 < 0) by (destruct (Rlt_le_dec D2 0) as [H|H]; [exact H|nra]).
    exists (- s / 2). rewrite EF.
    assert (Q1 : - s / 2 * (- s / 2) + s * (- s / 2) + t < 0) by (unfold D1 in P1; lra).
    assert (Q2 : 0 < - s / 2 * (- s / 2) + - s * (- s / 2) + u) by (apply quad_pos; unfold D2 in N2; lra). nra.
Qed.

Lemma real_pos : 0 < disc -> 0 <= p \/ p * p - 4 * r <= 0 -> forall X, 0 < F X.
Proof.
  intros D C. destruct (quad_factors p q r) as (s & t & u & E1 & E2 & E3).
  destruct (disc_quads s t u E1 E2 E3) as (ED & EF). rewrite ED in D.
  set (D1 := s * s - 4 * t) in *. set (D2 := s * s - 4 * u) in *. set (Re := (u - t) * (u - t) + 2 * s * s * (u + t)) in *.
  pose proof (Rle_0_sqr Re) as N. unfold Rsqr in N. pose proof (Rle_0_sqr s) as NS. unfold Rsqr in NS.
  pose proof (Rle_0_sqr (D1 - D2)) as NV. unfold Rsqr in NV.
  assert (DD : 0 < D1 * D2).
  { destruct (Rlt_le_dec 0 (D1 * D2)) as [H|H]; [exact H|]. assert (D1 * D2 * (Re * Re) <= 0) by nra. lra. }
  destruct (Rlt_le_dec D1 0) as [N1|N1].
  - assert (N2 : D2 < 0) by (destruct (Rlt_le_dec D2 0) as [H|H]; [exact H|nra]).
    intros X. rewrite EF. apply Rmult_lt_0_compat; [apply quad_pos; exact N1|].
    replace (X * X - s * X + u) with (X * X + - s * X + u) by ring. apply quad_pos. unfold D2 in N2. lra.
  - exfalso. assert (P1 : 0 < D1) by (destruct (Req_dec D1 0) as [H|H]; [rewrite H in DD; lra|lra]).
    assert (P2 : 0 < D2) by (destruct (Rlt_le_dec 0 D2) as [H|H]; [exact H|nra]).
    assert (EP : p = - (D1 + D2) / 4 - s * s / 2) by (rewrite <- E1; unfold D1, D2; field).
    destruct C as [C|C]; [lra|].
    assert (EQ : p * p - 4 * r = (D1 - D2) * (D1 - D2) / 16 + s * s * (D1 + D2) / 2) by (rewrite <- E1, <- E3; unfold D1, D2; field).
    assert (Z1 : 0 <= s * s * (D1 + D2)) by (apply Rmult_le_pos; lra).
    assert (Z2 : s * s * (D1 + D2) = 0) by lra.
    assert (Z3 : s * s = 0) by (apply Rmult_integral in Z2; destruct Z2; lra).
    assert (Z4 : (D1 - D2) * (D1 - D2) = 0) by lra.
    assert (Z5 : D1 - D2 = 0) by (apply Rmult_integral in Z4; destruct Z4; lra).
    assert (Z6 : u - t = 0) by (unfold D1, D2 in Z5; lra).
    assert (Z7 : Re = 0) by (unfold Re; rewrite Z6; replace (2 * s * s) with (2 * (s * s)) by ring; rewrite Z3; ring).
    rewrite Z7 in D. lra.
Qed.
End F.

Lemma cube_neg a : a < 0 -> a * a * a < 0.
Proof. intros A. assert (P : 0 < a * a) by nra. pose proof (Rmult_lt_0_compat (a * a) (- a) P ltac:(lra)). lra. Qed.
Lemma cube_sq_pos a : a < 0 -> 0 < 4096 * (a * a * a) * (4096 * (a * a * a)).
Proof. intros A. pose proof (cube_neg a A) as C. generalize dependent (a * a * a). intros k K. nra. Qed.
Lemma pos_mul_neg k D : 0 < k -> D < 0 -> k * D < 0.
Proof. intros. nra. Qed.
Lemma neg_of_pos k D : k < 0 -> 0 < 256 * k * D -> D < 0.
Proof. intros. nra. Qed.
Lemma pos_of_neg k D : k < 0 -> 256 * k * D < 0 -> 0 < D.
Proof. intros. nra. Qed.
Lemma fourth_pos z : z <> 0 -> 0 < z * z * z * z.
Proof. intros. assert (P : 0 < z * z) by nra. pose proof (Rmult_lt_0_compat _ _ P P). lra. Qed.

(** ** a x^4 + b x^3 z + c x^2 z^2 + d x z^3 + e z^4 *)
Section G.
Variables a b c d e : R.
Definition formR (x z : R) : R := a * (x * x * x * x) + b * (x * x * x) * z + c * (x * x) * (z * z) + d * x * (z * z * z) + e * (z * z * z * z).
Let ii := 12 * a * e - 3 * b * d + c * c.
Let jj := (72 * a * e + 9 * b * d - 2 * (c * c)) * c - 27 * (a * (d * d) + b * b * e).
Let disc := 4 * (ii * ii * ii) - jj * jj.
Let H := 8 * a * c - 3 * (b * b).
Let Q := H * H - 16 * a * a * ii.

Let p := 2 * H.
Let q := 8 * (b * b * b + 8 * d * (a * a) - 4 * a * b * c).
Let r := 256 * (a * a * a) * e - 64 * (a * a) * b * d + 16 * a * (b * b) * c - 3 * (b * b * b * b).
Lemma depress x z : 256 * (a * a * a) * formR x z = (let X := 4 * a * x + b * z in
   X * X * X * X + p * (X * X) * (z * z) + q * X * (z * z * z) + r * (z * z * z * z)).
Proof. unfold formR, p, q, r, H. cbv zeta. ring. Qed.
Lemma depress_disc : 4 * ((12 * r + p * p) * (12 * r + p * p) * (12 * r + p * p)) -
    (72 * p * r - 27 * (q * q) - 2 * (p * p * p)) * (72 * p * r - 27 * (q * q) - 2 * (p * p * p)) =
  (4096 * (a * a * a)) * (4096 * (a * a * a)) * disc.
Proof. unfold p, q, r, H, disc, ii, jj. ring. Qed.
Lemma depress_Q : 3 * (p * p - 4 * r) = 16 * Q.
Proof. unfold p, r, Q, H, ii. ring. Qed.

Lemma quartic_point : a < 0 -> disc < 0 \/ (H < 0 /\ 0 < Q) -> exists x, 0 < formR x 1.
Proof.
  intros A C. pose proof (cube_neg a A) as A3.
  assert (N : exists X, X * X * X * X + p * (X * X) + q * X + r < 0).
  { destruct C as [C|(C1 & C2)].
    - apply real_neg3. rewrite depress_disc. 
      apply pos_mul_neg; [now apply cube_sq_pos|exact C].
    - apply real_neg2; [unfold p; lra|]. pose proof depress_Q. lra. }
  destruct N as (X & N). exists ((X - b) / (4 * a)).
  pose proof (depress ((X - b) / (4 * a)) 1) as E. cbv zeta in E.
  replace (4 * a * ((X - b) / (4 * a)) + b * 1) with X in E by (field; lra).
  replace (X * X * X * X + p * (X * X) * (1 * 1) + q * X * (1 * 1 * 1) + r * (1 * 1 * 1 * 1)) with
    (X * X * X * X + p * (X * X) + q * X + r) in E by ring.
  rewrite <- E in N. exact (pos_of_neg _ _ A3 N).
Qed.

Lemma quartic_no_point x z : a < 0 -> 0 < disc -> ~ (H < 0 /\ 0 < Q) -> ~ (x = 0 /\ z = 0) -> formR x z < 0.
Proof.
  intros A D C NZ. pose proof (cube_neg a A) as A3.
  destruct (Req_dec z 0) as [->|Z].
  - assert (X : x <> 0) by tauto. unfold formR. replace (a * (x * x * x * x) + b * (x * x * x) * 0 + c * (x * x) * (0 * 0) + d * x * (0 * 0 * 0) + e * (0 * 0 * 0 * 0))
      with (a * ((x * x) * (x * x))) by ring. rewrite (Rmult_comm a). apply pos_mul_neg; [|exact A]. replace (x * x * (x * x)) with (x * x * x * x) by ring. now apply fourth_pos.
  - pose proof (real_pos p q r) as RP. cbv zeta in RP. rewrite depress_disc in RP.
    assert (P : forall X, 0 < X * X * X * X + p * (X * X) + q * X + r).
    { apply RP.
      - apply Rmult_lt_0_compat; [now apply cube_sq_pos|exact D].
      - pose proof depress_Q as DQ. unfold p in *. destruct (Rlt_le_dec H 0) as [H1|H1]; [|left; lra].
        right. destruct (Rlt_le_dec 0 Q) as [H2|H2]; [exfalso; tauto|lra]. }
    pose proof (depress x z) as E. cbv zeta in E. set (X := 4 * a * x + b * z) in *.
    specialize (P (X / z)).
    pose proof (fourth_pos z Z) as Z4.
    assert (E2 : 256 * (a * a * a) * formR x z = (z * z * z * z) * (X / z * (X / z) * (X / z) * (X / z) + p * (X / z * (X / z)) + q * (X / z) + r)).
    { rewrite E. field. exact Z. }
    assert (0 < 256 * (a * a * a) * formR x z) by (rewrite E2; apply Rmult_lt_0_compat; [exact Z4|exact P]). now apply (neg_of_pos (a * a * a)).
Qed.
End G.
