(** Number theory for the descent of legendre.cc: coprimality, squares dividing, and the
    functions minv and lem3. *)
From Coq Require Import ZArith Lia List Bool Znumtheory.
From Verif Require Import Base RatModel MArithModel MArithProofs LegModel.
Import ListNotations.
Open Scope Z_scope.
Open Scope res_scope.

(** ** Coprimality *)
Definition cop (a b : Z) : Prop := Z.gcd a b = 1.
Lemma cop_sym a b : cop a b -> cop b a.
Proof. unfold cop. rewrite Z.gcd_comm. auto. Qed.
Lemma cop_intro a b : (forall d, 0 <= d -> (d | a) -> (d | b) -> (d | 1)) -> cop a b.
Proof.
  intros H. unfold cop. pose proof (Z.gcd_nonneg a b).
  specialize (H (Z.gcd a b) ltac:(lia) (Z.gcd_divide_l a b) (Z.gcd_divide_r a b)).
  apply Z.divide_1_r in H. lia.
Qed.
Lemma cop_one a b d : cop a b -> (d | a) -> (d | b) -> (d | 1).
Proof. intros C A B. rewrite <- C. apply Z.gcd_greatest; auto. Qed.
Lemma cop_div a b d e : cop a b -> (d | a) -> (e | b) -> cop d e.
Proof.
  intros C A B. apply cop_intro. intros f _ F1 F2. apply (cop_one a b f C).
  - apply Z.divide_trans with d; auto.
  - apply Z.divide_trans with e; auto.
Qed.
Lemma cop_gauss n m p : cop n m -> (n | m * p) -> (n | p).
Proof. intros C D. apply Z.gauss with m; auto. Qed.
Lemma cop_mul a b c : cop a b -> cop a c -> cop a (b * c).
Proof.
  intros B C. apply cop_intro. intros d _ A D. apply (cop_one a c d C A).
  apply cop_gauss with b; auto. apply (cop_div a b); auto. exists 1. ring.
Qed.
Lemma cop_mul_l a b c : cop a c -> cop b c -> cop (a * b) c.
Proof. intros A B. apply cop_sym, cop_mul; apply cop_sym; auto. Qed.
Lemma cop_inv a b x y : a * x + b * y = 1 -> cop a b.
Proof.
  intros E. apply cop_intro. intros d _ [u ->] [v ->]. exists (u * x + v * y). lia.
Qed.
Lemma cop_bezout a b : cop a b -> exists x y, a * x + b * y = 1.
Proof.
  intros C. destruct (Z.gcd_bezout a b 1 C) as (x & y & E). exists x, y. lia.
Qed.
Lemma cop_prod_div a b n : cop a b -> (a | n) -> (b | n) -> (a * b | n).
Proof.
  intros C [u ->] B. destruct (cop_gauss b a u) as [v ->].
  - apply cop_sym, C.
  - replace (a * u) with (u * a) by ring. exact B.
  - exists v. ring.
Qed.
Lemma cop_self n : cop n n -> Z.abs n = 1.
Proof. unfold cop. rewrite Z.gcd_diag. auto. Qed.
Lemma cop_1_l n : cop 1 n.
Proof. apply Z.gcd_1_l. Qed.
Lemma cop_1_r n : cop n 1.
Proof. apply Z.gcd_1_r. Qed.
Lemma cop_opp_l a b : cop a b -> cop (- a) b.
Proof. unfold cop. rewrite Z.gcd_opp_l. auto. Qed.
Lemma cop_opp_r a b : cop a b -> cop a (- b).
Proof. unfold cop. rewrite Z.gcd_opp_r. auto. Qed.
Lemma cop_sq_div d m n : cop d m -> (d * d | m * n) -> (d * d | n).
Proof. intros C D. apply cop_gauss with m; auto. apply cop_mul_l; auto. Qed.
Lemma ngcd_cop a b : ~ 1 < Z.gcd a b -> a <> 0 \/ b <> 0 -> cop a b.
Proof.
  intros N Z0. unfold cop. pose proof (Z.gcd_nonneg a b).
  assert (Z.gcd a b <> 0) by (rewrite Z.gcd_eq_0; lia). lia.
Qed.

(** splitting off the gcd *)
Lemma gcd_split a b : a <> 0 \/ b <> 0 -> exists a' b', a = Z.gcd a b * a' /\ b = Z.gcd a b * b' /\ cop a' b' /\ 0 < Z.gcd a b.
Proof.
  intros Z0. pose proof (Z.gcd_nonneg a b). assert (G : Z.gcd a b <> 0) by (rewrite Z.gcd_eq_0; lia).
  destruct (Z.gcd_divide_l a b) as [a' Ea]. destruct (Z.gcd_divide_r a b) as [b' Eb].
  exists a', b'. split; [lia|]. split; [lia|]. split; [|lia].
  destruct (Z.gcd_bezout a b (Z.gcd a b) eq_refl) as (x & y & E).
  apply (cop_inv a' b' x y). apply Z.mul_reg_l with (Z.gcd a b); auto.
  transitivity (x * a + y * b); [rewrite Ea at 2; rewrite Eb at 3|]; lia.
Qed.

(** d | w^2 makes the square of d / gcd(d,w) divide d *)
Lemma sq_quot d w : d <> 0 -> (d | w * w) -> (Z.abs (d / Z.gcd d w) * Z.abs (d / Z.gcd d w) | d) /\
  (Z.abs (d / Z.gcd d w) = 1 -> (d | w)) /\ 0 < Z.abs (d / Z.gcd d w).
Proof.
  intros D0 D. destruct (gcd_split d w) as (u & v & Ed & Ew & C & G); [auto|]. set (e := Z.gcd d w) in *. clearbody e.
  assert (Q : d / e = u) by (rewrite Ed; rewrite Z.mul_comm; apply Z.div_mul; lia).
  rewrite Q. assert (U0 : u <> 0) by nia. split; [|split].
  - rewrite Z.abs_square.
    assert (DE : (u | e)).
    { apply cop_gauss with (v * v); [apply cop_mul; auto|].
      destruct D as [k Dk]. exists k. rewrite Ew, Ed in Dk.
      apply Z.mul_reg_l with e; [lia|]. lia. }
    destruct DE as [k ->]. exists k. rewrite Ed. ring.
  - intros U1. rewrite Ed, Ew. assert (u = 1 \/ u = -1) as [-> | ->] by lia; [exists v|exists (- v)]; ring.
  - lia.
Qed.
(** g^2 | w^2 makes g divide w *)
Lemma sq_div g w : (g * g | w * w) -> (g | w).
Proof.
  intros D. destruct (Z.eq_dec g 0) as [->|G0].
  { destruct D as [k E]. exists 0. nia. }
  destruct (gcd_split g w) as (u & v & Eg & Ew & C & G); [auto|]. set (e := Z.gcd g w) in *. clearbody e.
  assert (D2 : (u * u | v * v)).
  { destruct D as [k E]. exists k. rewrite Eg, Ew in E. apply Z.mul_reg_l with (e * e); [nia|]. lia. }
  assert (U : (u | 1)).
  { apply cop_gauss with (v * v); [apply cop_mul; auto|].
    apply Z.divide_trans with (u * u); [exists u; ring|]. replace (v * v * 1) with (v * v) by ring. exact D2. }
  apply Z.divide_1_r in U. rewrite Eg, Ew. destruct U as [-> | ->]; [exists v|exists (- v)]; ring.
Qed.

(** ** Bounds for loops *)
Lemma zfuel_big n k : Z.abs n * 2 ^ Z.of_nat k < 2 ^ Z.of_nat (zfuel n + k).
Proof.
  rewrite Nat2Z.inj_add, Z.pow_add_r by lia. apply Z.mul_lt_mono_pos_r; [apply Z.pow_pos_nonneg; lia|].
  unfold zfuel. pose proof (Z.log2_nonneg (Z.abs n)). rewrite Z2Nat.id by lia.
  destruct (Z.eq_dec (Z.abs n) 0) as [->|N0]; [reflexivity|].
  pose proof (Z.log2_spec (Z.abs n) ltac:(lia)) as [_ L].
  apply Z.lt_le_trans with (1 := L). apply Z.pow_le_mono_r; lia.
Qed.
Lemma zfuel_lt n : Z.abs n < 2 ^ Z.of_nat (zfuel n).
Proof. pose proof (zfuel_big n 0). rewrite Nat.add_0_r in H. lia. Qed.

(** ** minv *)
Section Minv.
Variables (c1 c2 w a : Z).
Hypothesis C1 : 0 < c1.
Hypothesis C2 : 0 < c2.
Hypothesis A0 : a <> 0.

Let nrm (x y : Z) : Z := c1 * (x * x) + c2 * (y * y).
Let dot (x y xx yy : Z) : Z := c1 * x * xx + c2 * y * yy.

Lemma nrm_pos x y : x <> 0 \/ y <> 0 -> 0 < nrm x y.
Proof. intros H. unfold nrm. assert (0 <= x * x) by nia. assert (0 <= y * y) by nia. destruct H; nia. Qed.

Definition minv_inv (s : Z * Z * Z * Z * Z * Z) : Prop :=
  let '(x, y, xx, yy, n1, n2) := s in
  (a | y - w * x) /\ (a | yy - w * xx) /\ (x * yy - y * xx = a \/ x * yy - y * xx = - a) /\
  n1 = nrm x y /\ n2 = nrm xx yy /\ 2 * Z.abs (dot x y xx yy) <= n1.
Definition minv_post (r : Z * Z) : Prop :=
  let '(x, y) := r in
  (a | y - w * x) /\ (exists xx yy, x * yy - y * xx = a \/ x * yy - y * xx = - a) /\
  3 * (nrm x y * nrm x y) <= 4 * (c1 * c2 * (a * a)).

Lemma minv_done x y xx yy : (x * yy - y * xx = a \/ x * yy - y * xx = - a) ->
  2 * Z.abs (dot x y xx yy) <= nrm x y -> nrm x y <= nrm xx yy ->
  3 * (nrm x y * nrm x y) <= 4 * (c1 * c2 * (a * a)).
Proof.
  intros D R L.
  assert (I : nrm x y * nrm xx yy - dot x y xx yy * dot x y xx yy = c1 * c2 * (a * a)).
  { replace (a * a) with ((x * yy - y * xx) * (x * yy - y * xx)) by (destruct D as [-> | ->]; ring).
    unfold nrm, dot. ring. }
  assert (N : 0 <= nrm x y) by (unfold nrm; nia).
  assert (4 * (dot x y xx yy * dot x y xx yy) <= nrm x y * nrm x y).
  { replace (dot x y xx yy * dot x y xx yy) with (Z.abs (dot x y xx yy) * Z.abs (dot x y xx yy)) by (apply Z.abs_square).
    set (q := Z.abs _) in *. assert (0 <= q) by (unfold q; lia). clearbody q. nia. }
  nia.
Qed.
(** one size reduction *)
Lemma minv_red x y xx yy : (x * yy - y * xx = a \/ x * yy - y * xx = - a) -> (a | y - w * x) -> (a | yy - w * xx) ->
  exists alpha, roundover (dot x y xx yy) (nrm x y) = Ok alpha /\
    (a | (yy - alpha * y) - w * (xx - alpha * x)) /\
    (x * (yy - alpha * y) - y * (xx - alpha * x) = a \/ x * (yy - alpha * y) - y * (xx - alpha * x) = - a) /\
    2 * Z.abs (dot x y (xx - alpha * x) (yy - alpha * y)) <= nrm x y.
Proof.
  intros D L1 L2. destruct (roundover_ok (dot x y xx yy) (nrm x y)) as (q & E & B).
  { apply nrm_pos. destruct (Z.eq_dec x 0); [right|left; auto]. intros ->. subst x. lia. }
  exists q. split; [exact E|]. split; [|split].
  - destruct L1 as [k1 L1], L2 as [k2 L2]. exists (k2 - q * k1). lia.
  - replace (x * (yy - q * y) - y * (xx - q * x)) with (x * yy - y * xx) by ring. exact D.
  - replace (dot x y (xx - q * x) (yy - q * y)) with (dot x y xx yy - q * nrm x y) by (unfold dot, nrm; ring). lia.
Qed.
Lemma minv_step_ok s : minv_inv s ->
  (exists r, minv_step c1 c2 s = Ok (inr r) /\ minv_post r) \/
  (exists s', minv_step c1 c2 s = Ok (inl s') /\ minv_inv s' /\
     (let '(_, _, _, _, n1, _) := s' in n1) <= (let '(_, _, _, _, n1, _) := s in n1) - 1).
Proof.
  destruct s as [[[[[x y] xx] yy] n1] n2]. intros (L1 & L2 & D & -> & -> & R). unfold minv_step.
  destruct (Z.leb_spec (nrm x y) (nrm xx yy)) as [LE|GT].
  - left. eexists. split; [reflexivity|]. split; [exact L1|]. split; [exists xx, yy; exact D|].
    apply minv_done with xx yy; auto.
  - right. cbv beta iota zeta.
    destruct (minv_red xx yy x y) as (al & E & L' & D' & R'); auto; [lia|].
    unfold dot in E. rewrite E, bind_Ok.
    destruct (Z.eqb_spec al 0) as [->|AL].
    + eexists. split; [reflexivity|]. split; [|lia].
      replace (y - 0 * yy) with y in * by ring. replace (x - 0 * xx) with x in * by ring.
      split; [exact L2|]. split; [exact L1|]. split; [exact D'|]. auto.
    + eexists. split; [reflexivity|]. split; [|lia].
      split; [exact L2|]. split; [exact L'|]. split; [exact D'|]. auto.
Qed.
Lemma minv_ok : exists w1 w2, minv 1 w 0 a c1 c2 = Ok (w1, w2) /\ (a | w2 - w * w1) /\
  (exists xx yy, w1 * yy - w2 * xx = a \/ w1 * yy - w2 * xx = - a) /\
  3 * ((c1 * (w1 * w1) + c2 * (w2 * w2)) * (c1 * (w1 * w1) + c2 * (w2 * w2))) <= 4 * (c1 * c2 * (a * a)).
Proof.
  unfold minv.
  destruct (minv_red 1 w 0 a) as (al & E & L' & D' & R').
  { left. ring. } { exists 0. ring. } { exists 1. ring. }
  unfold dot, nrm in E. rewrite E, bind_Ok.
  set (xx := 0 - al * 1) in *. set (yy := a - al * w) in *.
  replace (if al =? 0 then (0, a) else (xx, yy)) with (xx, yy)
    by (destruct (Z.eqb_spec al 0) as [->|]; [unfold xx, yy; f_equal; ring|reflexivity]).
  cbv beta iota.
  destruct (while_total (minv_step c1 c2) minv_inv minv_post (fun s => let '(_, _, _, _, n1, _) := s in n1)) with
    (n := zfuel (c1 * (1 * 1) + c2 * (w * w))) (s := (1, w, xx, yy, c1 * (1 * 1) + c2 * (w * w), c1 * (xx * xx) + c2 * (yy * yy)))
    as ([w1 w2] & EW & P).
  - intros [[[[[x y] x'] y'] n1] n2] (_ & _ & _ & -> & _). unfold nrm. nia.
  - intros s I. destruct (minv_step_ok s I) as [H|H]; [left|right]; exact H.
  - split; [exists 0; ring|]. split; [exact L'|]. split; [exact D'|]. split; [reflexivity|]. split; [reflexivity|]. exact R'.
  - pose proof (zfuel_lt (c1 * (1 * 1) + c2 * (w * w))). lia.
  - exists w1, w2. split; [exact EW|]. destruct P as (P1 & P2 & P3). auto.
Qed.
End Minv.

(** ** lem3 *)
Lemma mul_nz a b : a <> 0 -> b <> 0 -> a * b <> 0.
Proof. intros A B E. apply Z.mul_eq_0 in E. tauto. Qed.
Lemma fac_nz d u m : m <> 0 -> m = d * u -> u <> 0.
Proof. intros M E Z0. apply M. rewrite E, Z0. ring. Qed.
Lemma shrink d u : 1 < d -> u <> 0 -> Z.abs u < Z.abs (d * u).
Proof. intros D U. rewrite Z.abs_mul, (Z.abs_eq d) by lia. assert (0 < Z.abs u) by lia. nia. Qed.
Lemma sq_loop_ok p m c a : 1 < p -> m <> 0 -> 0 < c -> a = m * (c * c) ->
  exists m' c', while (sq_step p) (zfuel m) (m, c) = Ok (m', c') /\ m' <> 0 /\ 0 < c' /\ a = m' * (c' * c').
Proof.
  intros P M0 C E.
  destruct (while_total (sq_step p)
    (fun s => let '(m, c) := s in m <> 0 /\ 0 < c /\ a = m * (c * c))
    (fun r => let '(m, c) := r in m <> 0 /\ 0 < c /\ a = m * (c * c))
    (fun s => Z.abs (fst s))) with (n := zfuel m) (s := (m, c)) as ([m' c'] & EW & Q).
  - intros. lia.
  - intros [m1 c1] (M1 & C1 & E1). unfold sq_step. rewrite zz_mod_ok by nia. rewrite bind_Ok.
    destruct (Z.eqb_spec (m1 mod (p * p)) 0) as [R|R].
    + right. rewrite zz_div_ok by nia. rewrite bind_Ok. eexists. split; [reflexivity|].
      pose proof (Z.div_mod m1 (p * p) ltac:(nia)) as DM. rewrite R, Z.add_0_r in DM.
      set (q := m1 / (p * p)) in *. clearbody q. cbn [fst].
      split; [split; [|split]|]; [nia|nia| |].
      * rewrite E1, DM. ring.
      * assert (4 <= p * p) by nia. assert (Z.abs m1 = p * p * Z.abs q) by (rewrite DM, Z.abs_mul, (Z.abs_eq (p * p)) by nia; ring). nia.
    + left. eexists. split; [reflexivity|]. split; [exact M1|]. auto.
  - auto.
  - cbn [fst]. apply zfuel_lt.
  - exists m', c'. auto.
Qed.
Lemma smallp_loop_ok ps : Forall (fun p => 1 < p) ps -> forall m1 m2 c1 c2 a b,
  m1 <> 0 -> m2 <> 0 -> 0 < c1 -> 0 < c2 -> a = m1 * (c1 * c1) -> b = m2 * (c2 * c2) ->
  exists m1' m2' c1' c2', smallp_loop ps m1 m2 c1 c2 = Ok (m1', m2', c1', c2') /\
    m1' <> 0 /\ m2' <> 0 /\ 0 < c1' /\ 0 < c2' /\ a = m1' * (c1' * c1') /\ b = m2' * (c2' * c2').
Proof.
  induction 1 as [|p ps P _ IH]; intros m1 m2 c1 c2 a b M1 M2 C1 C2 Ea Eb.
  - exists m1, m2, c1, c2. auto 9.
  - cbn [smallp_loop].
    destruct (sq_loop_ok p m1 c1 a) as (m1' & c1' & -> & ? & ? & ?); auto. rewrite bind_Ok. cbv beta iota.
    destruct (sq_loop_ok p m2 c2 b) as (m2' & c2' & -> & ? & ? & ?); auto. rewrite bind_Ok. cbv beta iota.
    apply IH; auto.
Qed.

Section Lem3.
Variables (a b : Z).
Definition lem3_inv (s : Z * Z * Z * Z * Z * bool * bool * bool) : Prop :=
  let '(m1, m2, m3, c1, c2, f12, f13, f23) := s in
  m1 <> 0 /\ m2 <> 0 /\ 0 < m3 /\ 0 < c1 /\ 0 < c2 /\ a = m1 * m3 * (c1 * c1) /\ b = m2 * m3 * (c2 * c2) /\
  (f12 = false -> cop m1 m2) /\ (f13 = false -> cop m1 m3) /\ (f23 = false -> cop m2 m3).
Definition lem3_post (s : Z * Z * Z * Z * Z) : Prop :=
  let '(m1, m2, m3, c1, c2) := s in
  m1 <> 0 /\ m2 <> 0 /\ 0 < m3 /\ 0 < c1 /\ 0 < c2 /\ a = m1 * m3 * (c1 * c1) /\ b = m2 * m3 * (c2 * c2) /\
  cop m1 m2 /\ cop m1 m3 /\ cop m2 m3.
Definition lem3_m (s : Z * Z * Z * Z * Z * bool * bool * bool) : Z :=
  let '(m1, m2, m3, c1, c2, f12, f13, f23) := s in 2 * Z.abs (m1 * m2 * m3) + (if f12 || f13 || f23 then 1 else 0).

Lemma lem3_step_ok s : lem3_inv s ->
  (exists r, lem3_step s = Ok (inr r) /\ lem3_post r) \/
  (exists s', lem3_step s = Ok (inl s') /\ lem3_inv s' /\ lem3_m s' <= lem3_m s - 1).
Proof.
  destruct s as [[[[[[[m1 m2] m3] c1] c2] f12] f13] f23].
  intros (M1 & M2 & M3 & C1 & C2 & Ea & Eb & F12 & F13 & F23). unfold lem3_step.
  destruct (f12 || f13 || f23) eqn:F; cycle 1.
  { left. apply orb_false_iff in F. destruct F as [F ->]. apply orb_false_iff in F. destruct F as [-> ->].
    eexists. split; [reflexivity|]. unfold lem3_post. auto 12. }
  right.
  (* the three stages: result with the invariant, and either a decrease or flags unchanged *)
  set (M0 := Z.abs (m1 * m2 * m3)).
  assert (S1 : exists n1 n2 n3 g12 g13 g23,
    (if f12 then
       let d := Z.abs (Z.gcd m1 m2) in
       if 1 <? d then m1 <- zz_div m1 d ;; m2 <- zz_div m2 d ;; Ok (m1, m2, m3 * d, false, true, true)
       else Ok (m1, m2, m3, false, f13, f23)
     else Ok (m1, m2, m3, f12, f13, f23)) = Ok (n1, n2, n3, g12, g13, g23) /\
    lem3_inv (n1, n2, n3, c1, c2, g12, g13, g23) /\
    (Z.abs (n1 * n2 * n3) < M0 \/ Z.abs (n1 * n2 * n3) = M0 /\ g12 = false /\ g13 = f13 /\ g23 = f23)).
  { destruct f12; cycle 1.
    { exists m1, m2, m3, false, f13, f23. split; [reflexivity|]. split; [unfold lem3_inv; auto 12|]. right. auto. }
    destruct (gcd_split m1 m2) as (u & v & Eu & Ev & C & G); [auto|].
    cbv zeta. rewrite (Z.abs_eq (Z.gcd m1 m2)) by lia. set (d := Z.gcd m1 m2) in *. clearbody d.
    destruct (Z.ltb_spec 1 d).
    - rewrite !zz_div_ok by lia. rewrite !bind_Ok.
      assert (m1 / d = u) as -> by (rewrite Eu, Z.mul_comm; apply Z.div_mul; lia).
      assert (m2 / d = v) as -> by (rewrite Ev, Z.mul_comm; apply Z.div_mul; lia).
      exists u, v, (m3 * d), false, true, true. split; [reflexivity|]. split.
      + split; [apply (fac_nz d u m1); auto|]. split; [apply (fac_nz d v m2); auto|]. split; [apply Z.mul_pos_pos; lia|]. split; [auto|]. split; [auto|].
        split; [rewrite Ea, Eu; ring|]. split; [rewrite Eb, Ev; ring|]. split; [auto|]. split; discriminate.
      + left. unfold M0. rewrite Eu, Ev. replace (d * u * (d * v) * m3) with (d * (u * v * (m3 * d))) by ring.
        apply shrink; [exact H|]. repeat apply mul_nz; first [lia | apply (fac_nz d u m1); [lia|assumption] | apply (fac_nz d v m2); [lia|assumption]].
    - exists m1, m2, m3, false, f13, f23. split; [reflexivity|].
      assert (d = 1) by lia. subst d.
      assert (cop m1 m2) by (rewrite Eu, Ev; replace (1 * u) with u by ring; replace (1 * v) with v by ring; exact C).
      split; [unfold lem3_inv; auto 12|]. right. auto. }
  destruct S1 as (n1 & n2 & n3 & g12 & g13 & g23 & E1 & I1 & D1). cbv zeta in E1. rewrite E1, bind_Ok. clear E1. cbv beta iota.
  clear Ea Eb F12 F13 F23 C1 C2.
  destruct I1 as (N1 & N2 & N3 & C1 & C2 & Ea & Eb & F12 & F13 & F23).
  assert (S2 : exists l1 l2 l3 e1 h12 h13 h23,
    (if (g13 : bool) then
       let d := Z.abs (Z.gcd n1 n3) in
       if 1 <? d then m1 <- zz_div n1 d ;; m3 <- zz_div n3 d ;; Ok (m1, n2 * d, m3, c1 * d, true, false, true)
       else Ok (n1, n2, n3, c1, g12, false, g23)
     else Ok (n1, n2, n3, c1, g12, g13, g23)) = Ok (l1, l2, l3, e1, h12, h13, h23) /\
    lem3_inv (l1, l2, l3, e1, c2, h12, h13, h23) /\
    (Z.abs (l1 * l2 * l3) < M0 \/ Z.abs (l1 * l2 * l3) = M0 /\ h12 = false /\ h13 = false /\ h23 = f23)).
  { destruct g13; cycle 1.
    { exists n1, n2, n3, c1, g12, false, g23. split; [reflexivity|]. split; [unfold lem3_inv; auto 12|]. tauto. }
    destruct (gcd_split n1 n3) as (u & v & Eu & Ev & C & G); [auto|].
    cbv zeta. rewrite (Z.abs_eq (Z.gcd n1 n3)) by lia. set (d := Z.gcd n1 n3) in *. clearbody d.
    destruct (Z.ltb_spec 1 d).
    - rewrite !zz_div_ok by lia. rewrite !bind_Ok.
      assert (n1 / d = u) as -> by (rewrite Eu, Z.mul_comm; apply Z.div_mul; lia).
      assert (n3 / d = v) as -> by (rewrite Ev, Z.mul_comm; apply Z.div_mul; lia).
      exists u, (n2 * d), v, (c1 * d), true, false, true. split; [reflexivity|]. split.
      + split; [apply (fac_nz d u n1); auto|]. split; [apply mul_nz; lia|]. split; [clear - Ev N3 G; nia|]. split; [apply Z.mul_pos_pos; lia|]. split; [auto|].
        split; [rewrite Ea, Eu, Ev; ring|]. split; [rewrite Eb, Ev; ring|]. split; [discriminate|]. split; [auto|discriminate].
      + left. assert (Z.abs (n1 * n2 * n3) <= M0) by (clear - D1; lia).
        apply Z.lt_le_trans with (2 := H0).
        rewrite Eu, Ev. replace (d * u * n2 * (d * v)) with (d * (u * (n2 * d) * v)) by ring.
        apply shrink; [exact H|]. repeat apply mul_nz; first [lia | apply (fac_nz d u n1); [lia|assumption] | apply (fac_nz d v n3); [lia|assumption]].
    - exists n1, n2, n3, c1, g12, false, g23. split; [reflexivity|].
      assert (d = 1) by lia. subst d.
      assert (cop n1 n3) by (rewrite Eu, Ev; replace (1 * u) with u by ring; replace (1 * v) with v by ring; exact C).
      split; [unfold lem3_inv; auto 12|]. tauto. }
  destruct S2 as (l1 & l2 & l3 & e1 & h12 & h13 & h23 & E2 & I2 & D2). cbv zeta in E2. rewrite E2, bind_Ok. clear E2. cbv beta iota.
  clear Ea Eb F12 F13 F23 C1 C2.
  destruct I2 as (L1 & L2 & L3 & C1 & C2 & Ea & Eb & F12 & F13 & F23).
  assert (S3 : exists k1 k2 k3 e2 i12 i13 i23,
    (if (h23 : bool) then
       let d := Z.abs (Z.gcd l2 l3) in
       if 1 <? d then m2 <- zz_div l2 d ;; m3 <- zz_div l3 d ;; Ok (l1 * d, m2, m3, c2 * d, true, true, false)
       else Ok (l1, l2, l3, c2, h12, h13, false)
     else Ok (l1, l2, l3, c2, h12, h13, h23)) = Ok (k1, k2, k3, e2, i12, i13, i23) /\
    lem3_inv (k1, k2, k3, e1, e2, i12, i13, i23) /\
    (Z.abs (k1 * k2 * k3) < M0 \/ Z.abs (k1 * k2 * k3) = M0 /\ i12 = false /\ i13 = false /\ i23 = false)).
  { destruct h23; cycle 1.
    { exists l1, l2, l3, c2, h12, h13, false. split; [reflexivity|]. split; [unfold lem3_inv; auto 12|]. tauto. }
    destruct (gcd_split l2 l3) as (u & v & Eu & Ev & C & G); [auto|].
    cbv zeta. rewrite (Z.abs_eq (Z.gcd l2 l3)) by lia. set (d := Z.gcd l2 l3) in *. clearbody d.
    destruct (Z.ltb_spec 1 d).
    - rewrite !zz_div_ok by lia. rewrite !bind_Ok.
      assert (l2 / d = u) as -> by (rewrite Eu, Z.mul_comm; apply Z.div_mul; lia).
      assert (l3 / d = v) as -> by (rewrite Ev, Z.mul_comm; apply Z.div_mul; lia).
      exists (l1 * d), u, v, (c2 * d), true, true, false. split; [reflexivity|]. split.
      + split; [apply mul_nz; lia|]. split; [apply (fac_nz d u l2); auto|]. split; [clear - Ev L3 G; nia|]. split; [auto|]. split; [apply Z.mul_pos_pos; lia|].
        split; [rewrite Ea, Ev; ring|]. split; [rewrite Eb, Eu, Ev; ring|]. split; [discriminate|]. split; [discriminate|auto].
      + left. assert (Z.abs (l1 * l2 * l3) <= M0) by (clear - D2; lia).
        apply Z.lt_le_trans with (2 := H0).
        rewrite Eu, Ev. replace (l1 * (d * u) * (d * v)) with (d * (l1 * d * u * v)) by ring.
        apply shrink; [exact H|]. repeat apply mul_nz; first [lia | apply (fac_nz d u l2); [lia|assumption] | apply (fac_nz d v l3); [lia|assumption]].
    - exists l1, l2, l3, c2, h12, h13, false. split; [reflexivity|].
      assert (d = 1) by lia. subst d.
      assert (cop l2 l3) by (rewrite Eu, Ev; replace (1 * u) with u by ring; replace (1 * v) with v by ring; exact C).
      split; [unfold lem3_inv; auto 12|]. tauto. }
  destruct S3 as (k1 & k2 & k3 & e2 & i12 & i13 & i23 & E3 & I3 & D3). cbv zeta in E3. rewrite E3, bind_Ok. clear E3. cbv beta iota.
  eexists. split; [reflexivity|]. split; [exact I3|]. unfold lem3_m. rewrite F. fold M0.
  destruct D3 as [D3|(D3 & -> & -> & ->)].
  - clear - D3. destruct (i12 || i13 || i23); lia.
  - cbn [orb]. lia.
Qed.
End Lem3.

Lemma lem3_ok a b : a <> 0 -> b <> 0 -> exists m1 m2 m3 c1 c2, lem3 a b = Ok (m1, m2, m3, c1, c2) /\
  m1 <> 0 /\ m2 <> 0 /\ 0 < m3 /\ 0 < c1 /\ 0 < c2 /\ a = m1 * m3 * (c1 * c1) /\ b = m2 * m3 * (c2 * c2) /\
  cop m1 m2 /\ cop m1 m3 /\ cop m2 m3.
Proof.
  intros A0 B0. unfold lem3. destruct (Z.eqb_spec a 0); [contradiction|]. destruct (Z.eqb_spec b 0); [contradiction|].
  cbn [orb]. destruct (smallp_loop_ok smallp) with (m1 := a) (m2 := b) (c1 := 1) (c2 := 1) (a := a) (b := b)
    as (m1 & m2 & c1 & c2 & -> & M1 & M2 & C1 & C2 & Ea & Eb); auto; try lia.
  { unfold smallp. repeat constructor. }
  rewrite bind_Ok. cbv beta iota.
  destruct (while_total lem3_step (lem3_inv a b) (lem3_post a b) lem3_m) with
    (n := (zfuel (m1 * m2) + 2)%nat) (s := (m1, m2, 1, c1, c2, true, true, true)) as ([[[[l1 l2] l3] e1] e2] & -> & P).
  - intros [[[[[[[x1 x2] x3] e1] e2] f12] f13] f23] _. unfold lem3_m. destruct (f12 || f13 || f23); lia.
  - apply lem3_step_ok.
  - split; [auto|]. split; [auto|]. split; [lia|]. split; [auto|]. split; [auto|].
    split; [rewrite Ea; ring|]. split; [rewrite Eb; ring|]. split; [discriminate|]. split; discriminate.
  - unfold lem3_m. cbn [orb]. pose proof (zfuel_big (m1 * m2) 2). change (2 ^ Z.of_nat 2) with 4 in H.
    replace (m1 * m2 * 1) with (m1 * m2) by ring. assert (m1 * m2 <> 0) by nia. lia.
  - exists l1, l2, l3, e1, e2. split; [reflexivity|]. exact P.
Qed.
