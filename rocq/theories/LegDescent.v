(** The descent legendre_solve_cert_1 / lem4_1 of legendre.cc: it terminates, and its result is a
    solution in the lattice of the certificate or a square factor of a coefficient. *)
From Coq Require Import ZArith Lia List Bool.
From Verif Require Import Base RatModel MArithModel MArithProofs LegModel LegArith LegLem1 LegBody.
Import ListNotations.
Open Scope Z_scope.
Open Scope res_scope.

(** ** The measure *)
Definition has_unit (a b c : Z) : bool := (Z.abs a =? 1) || (Z.abs b =? 1) || (Z.abs c =? 1).
Definition mu (a b c : Z) : Z := (if has_unit a b c then 1 else 2) * Z.abs (a * b * c).
Lemma mu_rot a b c : mu b c a = mu a b c.
Proof.
  unfold mu. replace (b * c * a) with (a * b * c) by ring. f_equal. unfold has_unit.
  destruct (Z.abs a =? 1), (Z.abs b =? 1), (Z.abs c =? 1); reflexivity.
Qed.
Lemma mu_swap a b c : mu a c b = mu a b c.
Proof.
  unfold mu. replace (a * c * b) with (a * b * c) by ring. f_equal. unfold has_unit.
  destruct (Z.abs a =? 1), (Z.abs b =? 1), (Z.abs c =? 1); reflexivity.
Qed.
Lemma mu_le a b c : mu a b c <= 2 * Z.abs (a * b * c).
Proof. unfold mu. destruct (has_unit a b c); lia. Qed.
Lemma mu_new aa bb cc T : aa <> 0 -> bb <> 0 -> cc <> 0 -> Z.abs (aa * cc) <= T -> mu aa bb cc <= T * Z.abs (bb * cc).
Proof.
  intros A B C L. unfold mu. replace (aa * bb * cc) with ((aa * cc) * bb) by ring.
  rewrite (Z.abs_mul (aa * cc) bb), (Z.abs_mul bb cc).
  assert (L1 : 1 <= Z.abs (aa * cc)) by (pose proof (mul_nz aa cc A C); lia).
  assert (B1 : 1 <= Z.abs bb) by lia. assert (C1 : 1 <= Z.abs cc) by lia.
  assert (M : Z.abs (aa * cc) * Z.abs bb <= T * Z.abs bb) by (apply Z.mul_le_mono_nonneg_r; lia).
  assert (T1 : 1 <= T) by lia.
  assert (P : 1 <= T * Z.abs bb) by nia.
  set (x := Z.abs (aa * cc) * Z.abs bb) in *. replace (T * (Z.abs bb * Z.abs cc)) with (T * Z.abs bb * Z.abs cc) by ring.
  set (y := T * Z.abs bb) in *. unfold has_unit.
  destruct (Z.eqb_spec (Z.abs cc) 1) as [->|N].
  - rewrite orb_true_r. lia.
  - assert (2 <= Z.abs cc) by lia. destruct (_ || _); clear - M P H; nia.
Qed.

(** ** Permutations *)
Lemma ok_rot a b c : leg_ok a b c -> leg_ok b c a.
Proof.
  intros (A0 & B0 & C0 & G1 & G2 & G3 & S1 & S2).
  split; [auto|]. split; [auto|]. split; [auto|]. split; [auto|]. split; [apply cop_sym; auto|]. split; [apply cop_sym; auto|].
  split; [intros H; apply S1|intros H; apply S2]; tauto.
Qed.
Lemma ok_swap a b c : leg_ok a b c -> leg_ok a c b.
Proof.
  intros (A0 & B0 & C0 & G1 & G2 & G3 & S1 & S2).
  split; [auto|]. split; [auto|]. split; [auto|]. split; [auto|]. split; [auto|]. split; [apply cop_sym; auto|].
  split; [intros H; apply S1|intros H; apply S2]; tauto.
Qed.
Lemma cert_rot a b c n p q : leg_cert a b c n p q -> leg_cert b c a p q n.
Proof.
  intros (K1 & K2 & K3). split; [|split].
  - replace (c * a) with (a * c) by ring. exact K2.
  - replace (b * a) with (a * b) by ring. exact K3.
  - exact K1.
Qed.
Lemma cert_swap a b c n p q : leg_cert a b c n p q -> leg_cert a c b (- n) (- q) (- p).
Proof.
  intros (K1 & K2 & K3). split; [|split].
  - replace (- n * - n + c * b) with (n * n + b * c) by ring. exact K1.
  - replace (- q * - q + a * b) with (q * q + a * b) by ring. exact K3.
  - replace (- p * - p + a * c) with (p * p + a * c) by ring. exact K2.
Qed.
Lemma sol_rot a b c x y z : leg_sol b c a (y, z, x) -> leg_sol a b c (x, y, z).
Proof. intros [E N]. split; [lia|]. unfold nonzero3 in *. tauto. Qed.
Lemma sol_swap a b c x y z : leg_sol a c b (x, z, y) -> leg_sol a b c (x, y, z).
Proof. intros [E N]. split; [lia|]. unfold nonzero3 in *. tauto. Qed.
Lemma lat_rot a b c n p q x y z : leg_lat b c a p q n (y, z, x) -> leg_lat a b c n p q (x, y, z).
Proof. intros (L1 & L2 & L3). split; [|split]; assumption. Qed.
Lemma lat_swap a b c n p q x y z : leg_ok a b c -> leg_cert a b c n p q ->
  leg_lat a c b (- n) (- q) (- p) (x, z, y) -> leg_lat a b c n p q (x, y, z).
Proof.
  intros (A0 & B0 & C0 & G1 & G2 & G3 & _) (K1 & K2 & K3) (L1 & L2 & L3). split; [|split].
  - apply cop_gauss with (- c); [apply cop_opp_r; exact G2|].
    apply (dlin2 a (c * z - - n * y) (n * n + b * c) n (- y)); [exact L1|exact K1|ring].
  - apply cop_gauss with (- a); [apply cop_opp_r, cop_sym; exact G1|].
    apply (dlin2 b (a * x - - p * z) (p * p + a * c) p (- z)); [exact L3|exact K2|ring].
  - apply cop_gauss with (- b); [apply cop_opp_r, cop_sym; exact G3|].
    apply (dlin2 c (b * y - - q * x) (q * q + a * b) q (- x)); [exact L2|exact K3|ring].
Qed.

(** ** lem4_1 *)
Definition nosq (a : Z) : Prop := forall s, Z.abs a = s * s -> Z.abs a = 1.

Lemma form_nonzero b c w1 w2 : b <> 0 -> c <> 0 -> cop b c -> w1 <> 0 \/ w2 <> 0 -> nosq b -> Z.abs b <> 1 ->
  b * (w1 * w1) + c * (w2 * w2) <> 0.
Proof.
  intros B0 C0 G W NS B1 E.
  destruct (gcd_split w1 w2 W) as (p & q & E1 & E2 & CP & GP). set (g := Z.gcd w1 w2) in *. clearbody g.
  assert (F : b * (p * p) = - (c * (q * q))).
  { apply Z.mul_reg_l with (g * g); [nia|]. rewrite E1, E2 in E. lia. }
  assert (D1 : (b | q * q)).
  { apply cop_gauss with c; [exact G|]. exists (- (p * p)). lia. }
  assert (D2 : (q * q | b)).
  { apply cop_gauss with (p * p).
    - apply cop_mul; apply cop_mul_l; apply cop_sym; exact CP.
    - exists (- c). lia. }
  apply Z.divide_abs_l in D1. apply Z.divide_abs_r in D2.
  assert (Z.abs b = q * q).
  { destruct D1 as [u D1], D2 as [v D2]. assert (0 < Z.abs b) by lia. pose proof (Z.square_nonneg q).
    set (r := q * q) in *. clearbody r. clear - D1 D2 H H0. subst r.
    assert (v * u = 1) by (apply Z.mul_reg_r with (Z.abs b); lia).
    assert (0 <= u) by nia. assert (u = 1 \/ u = -1) by (apply Z.mul_eq_1 with v; lia). destruct H3; [subst u|]; lia. }
  apply B1, (NS q H).
Qed.

(** lia without disequalities and disjunctions *)
Ltac lx := repeat match goal with H : ?x <> ?y |- _ => clear H | H : _ \/ _ |- _ => clear H end; lia.

Section Lem4.
Variable xgcd : Z -> Z -> Z * Z * Z.
Hypothesis X : xgcd_spec xgcd.
Variables (a b c k1 k2 k3 : Z) (rec : solver).
Hypothesis OK : leg_ok a b c.
Hypothesis CE : leg_cert a b c k1 k2 k3.
Hypothesis AB : Z.abs b <= Z.abs a.
Hypothesis BC : Z.abs c <= Z.abs b.
Hypothesis NB : nosq b.
Hypothesis REC : forall a' b' c' l1 l2 l3, leg_ok a' b' c' -> leg_cert a' b' c' l1 l2 l3 -> mu a' b' c' < mu a b c ->
  exists r, rec a' b' c' l1 l2 l3 = Ok r /\ leg_res a' b' c' l1 l2 l3 r.

Lemma mu_big T : Z.abs b <> 1 -> 0 < T -> 3 * (T * T) <= 4 * Z.abs (b * c) -> T * Z.abs (b * c) < mu a b c.
Proof.
  intros B1 T0 T3. destruct OK as (A0 & B0 & C0 & G1 & _).
  assert (S : Z.abs b < Z.abs a).
  { destruct (Z.eq_dec (Z.abs a) (Z.abs b)) as [E|]; [|lia]. exfalso. apply B1.
    unfold cop in G1. rewrite <- Z.gcd_abs_l, E, Z.gcd_abs_l, Z.gcd_diag in G1. exact G1. }
  unfold mu, has_unit. replace (a * b * c) with (a * (b * c)) by ring. rewrite (Z.abs_mul a).
  rewrite (Z.abs_mul b c) in *.
  destruct (Z.eqb_spec (Z.abs a) 1) as [E|_]; [lia|]. destruct (Z.eqb_spec (Z.abs b) 1) as [E|_]; [lia|].
  set (A := Z.abs a) in *. set (B := Z.abs b) in *. set (C := Z.abs c) in *.
  assert (0 < B) by (unfold B; lia). assert (0 < C) by (unfold C; lia). clearbody A B C. clear - S BC B1 T0 T3 H H0.
  destruct (Z.eqb_spec C 1) as [->|C1]; cbn [orb].
  - rewrite Z.mul_1_r in *. assert (T < A) by nia. nia.
  - assert (3 * (T * T) <= 4 * (A * A)) by nia. assert (T < 2 * A) by nia. nia.
Qed.

Lemma lem4_ok : exists r, lem4_1 xgcd rec a b c k1 k2 k3 = Ok r /\ leg_res a b c k1 k2 k3 r.
Proof.
  pose proof OK as (A0 & B0 & C0 & Gab & Gac & Gbc & _). pose proof CE as (K1 & K2 & K3).
  unfold lem4_1. destruct (Z.eqb_spec (Z.abs b) 1) as [B1|B1].
  { destruct (lem1_ok a b c k1 k2 k3) as (s & -> & S1 & S2); auto; [lia|]. rewrite bind_Ok.
    eexists. split; [reflexivity|]. left. auto. }
  (* w *)
  assert (IW : (a | c * invmod_z xgcd c a - 1)) by (apply (proj1 (invmod_z_ok xgcd X c a)); apply cop_sym; exact Gac).
  rewrite zz_mod_ok by auto. rewrite bind_Ok. set (w := (k1 * invmod_z xgcd c a) mod a).
  assert (CWK : (a | c * w - k1)).
  { pose proof (Z.div_mod (k1 * invmod_z xgcd c a) a A0) as DM. fold w in DM.
    destruct IW as [i IW]. exists (k1 * i - c * (k1 * invmod_z xgcd c a / a)).
    replace w with (k1 * invmod_z xgcd c a - a * (k1 * invmod_z xgcd c a / a)) by lia.
    transitivity (k1 * (c * invmod_z xgcd c a - 1) - c * (a * (k1 * invmod_z xgcd c a / a))); [ring|rewrite IW; ring]. }
  clearbody w.
  destruct (minv_ok (Z.abs b) (Z.abs c) w a ltac:(lia) ltac:(lia) A0) as (w1 & w2 & -> & LW & (xx & yy & DET) & BD).
  rewrite bind_Ok. cbv beta iota.
  assert (LA1 : (a | c * w2 - k1 * w1)) by (apply (dlin2 a (w2 - w * w1) (c * w - k1) c w1); auto; ring).
  assert (LA2 : (a | b * w1 + k1 * w2)).
  { apply cop_gauss with c; [exact Gac|].
    apply (dlin2 a (c * w2 - k1 * w1) (k1 * k1 + b * c) k1 w1); auto; ring. }
  assert (CW : forall d, (d | w1) -> (d | w2) -> (d | a)).
  { intros d [u U] [v V]. destruct DET as [DET|DET]; [exists (u * yy - v * xx)|exists (- (u * yy - v * xx))]; rewrite U, V in DET; lia. }
  assert (WNZ : w1 <> 0 \/ w2 <> 0).
  { destruct (Z.eq_dec w1 0) as [E|]; [|auto]. right. intros E2. subst. apply A0. lia. }
  assert (WT : b * (w1 * w1) + c * (w2 * w2) <> 0) by (apply form_nonzero; auto).
  assert (DT : (a | b * (w1 * w1) + c * (w2 * w2))).
  { apply cop_gauss with c; [exact Gac|].
    apply (dlin2 a (c * w2 - k1 * w1) (k1 * k1 + b * c) (c * w2 + k1 * w1) (w1 * w1)); auto; ring. }
  destruct DT as [t ET]. rewrite (Z.mul_comm t a) in ET.
  rewrite (zdiv_fac a t _ A0 ET), bind_Ok.
  assert (T0 : t <> 0) by (intros E; apply WT; rewrite ET, E; ring).
  assert (HT : Z.abs (b * (w1 * w1) + c * (w2 * w2)) = Z.abs a * Z.abs t) by (rewrite ET; apply Z.abs_mul).
  assert (TB : 3 * (Z.abs t * Z.abs t) <= 4 * Z.abs (b * c)).
  { assert (N1 : Z.abs a * Z.abs t <= Z.abs b * (w1 * w1) + Z.abs c * (w2 * w2)).
    { rewrite <- HT. pose proof (Z.square_nonneg w1). pose proof (Z.square_nonneg w2).
      rewrite (Z.abs_triangle (b * (w1 * w1)) (c * (w2 * w2))). rewrite !(Z.abs_mul _ (_ * _)).
      rewrite (Z.abs_eq (w1 * w1)), (Z.abs_eq (w2 * w2)) by auto. lia. }
    assert (0 < Z.abs a) by lia. rewrite Z.abs_mul. rewrite <- (Z.abs_square a) in BD.
    set (N := Z.abs b * (w1 * w1) + Z.abs c * (w2 * w2)) in *. set (A := Z.abs a) in *. set (tt := Z.abs t) in *.
    assert (0 <= tt) by (unfold tt; lia). set (P := Z.abs b * Z.abs c) in *.
    clearbody N A tt P. clear - N1 H BD H0.
    assert ((A * tt) * (A * tt) <= N * N) by (apply Z.square_le_mono_nonneg; nia).
    assert ((A * A) * (3 * (tt * tt)) <= (A * A) * (4 * P)) by lia.
    apply Z.mul_le_mono_pos_l in H2; [exact H2|nia]. }
  clear BD DET xx yy LW CWK w IW.
  cbv zeta.
  assert (BC0 : b * c <> 0) by (apply mul_nz; auto).
  destruct (lem3_ok t (b * c) T0 BC0) as (aa' & bb' & cc' & ga & al & -> & A'0 & B'0 & C'p & Gp & Alp & Et & Ebc & Cab' & Cac' & Cbc').
  rewrite bind_Ok. cbv beta iota.
  replace (if 0 <? cc' then (- aa', - bb', - cc') else (aa', bb', cc')) with (- aa', - bb', - cc')
    by (destruct (Z.ltb_spec 0 cc'); [reflexivity|lx]).
  set (aa := - aa') in *. set (bb := - bb') in *. set (cc := - cc') in *.
  assert (Et' : t = aa * cc * (ga * ga)) by (rewrite Et; unfold aa, cc; ring).
  assert (Ebc' : b * c = bb * cc * (al * al)) by (rewrite Ebc; unfold bb, cc; ring).
  assert (CCn : cc < 0) by (unfold cc; lx).
  assert (Aaa0 : aa <> 0) by (intros E; apply A'0; unfold aa in E; lx). assert (Abb0 : bb <> 0) by (intros E; apply B'0; unfold bb in E; lx).
  assert (Caabb : cop aa bb) by (unfold aa, bb; apply cop_opp_l, cop_opp_r; exact Cab').
  assert (Caacc : cop aa cc) by (unfold aa, cc; apply cop_opp_l, cop_opp_r; exact Cac').
  assert (Cbbcc : cop bb cc) by (unfold bb, cc; apply cop_opp_l, cop_opp_r; exact Cbc').
  clearbody aa bb cc. clear aa' bb' cc' A'0 B'0 C'p Et Ebc Cab' Cac' Cbc'. cbv beta iota.
  (* codes 4, 5 *)
  assert (ALbc : (al * al | b * c)) by (exists (bb * cc); rewrite Ebc'; ring).
  destruct (Z.ltb_spec 1 (Z.gcd al b)) as [L4|L4].
  { eexists. split; [reflexivity|]. right. split; [exact L4|]. right. left. split; [reflexivity|].
    pose proof (Z.gcd_divide_l al b) as DA. pose proof (Z.gcd_divide_r al b) as DB. set (u := Z.gcd al b) in *. clearbody u.
    apply cop_sq_div with c; [apply (cop_div b c); [exact Gbc|exact DB|exists 1; ring]|].
    rewrite (Z.mul_comm c). apply Z.divide_trans with (al * al); [|exact ALbc]. destruct DA as [k ->]. exists (k * k). ring. }
  assert (Calb : cop al b) by (apply ngcd_cop; [lx|left; lx]). clear L4.
  destruct (Z.ltb_spec 1 (Z.gcd al c)) as [L4|L4].
  { eexists. split; [reflexivity|]. right. split; [exact L4|]. right. right. split; [reflexivity|].
    pose proof (Z.gcd_divide_l al c) as DA. pose proof (Z.gcd_divide_r al c) as DB. set (u := Z.gcd al c) in *. clearbody u.
    apply cop_sq_div with b; [apply cop_sym, (cop_div b c); [exact Gbc|exists 1; ring|exact DB]|].
    apply Z.divide_trans with (al * al); [|exact ALbc]. destruct DA as [k ->]. exists (k * k). ring. }
  assert (Calc : cop al c) by (apply ngcd_cop; [lx|left; lx]). clear L4.
  assert (AL1 : al = 1).
  { apply (div_cop_1 al (b * c)); [apply cop_mul; auto| |lx]. apply Z.divide_trans with (al * al); [exists al; ring|exact ALbc]. }
  subst al. assert (Ebc : b * c = bb * cc) by lx. clear Ebc' Alp ALbc Calb Calc.
  assert (CCt : (cc | t)) by (exists (aa * (ga * ga)); rewrite Et'; ring).
  assert (GGt : (ga * ga | t)) by (exists (aa * cc); rewrite Et'; ring).
  (* code 6 *)
  destruct (gcd_split cc c) as (d2 & m1 & Ed2 & Em1 & Cd2m1 & D1p); [auto|].
  set (d1 := Z.gcd cc c) in *. assert (D1cc : (d1 | cc)) by apply Z.gcd_divide_l. assert (D1c : (d1 | c)) by apply Z.gcd_divide_r. clearbody d1.
  assert (D1n : d1 <> 0) by lx.
  assert (DW1 : (d1 | w1 * w1)).
  { apply cop_gauss with b; [apply cop_sym, (cop_div b c); [exact Gbc|exists 1; ring|exact D1c]|].
    apply (dlin2 d1 t c a (- (w2 * w2))); [apply Z.divide_trans with cc; auto|exact D1c|]. lx. }
  destruct (sq_quot d1 w1 D1n DW1) as (U1 & U2 & U3).
  assert (G0 : Z.gcd d1 w1 <> 0) by (rewrite Z.gcd_eq_0; tauto).
  rewrite (zz_div_ok d1) by exact G0. rewrite bind_Ok. clear G0.
  set (u := Z.abs (d1 / Z.gcd d1 w1)) in *. clearbody u.
  destruct (Z.ltb_spec 1 u) as [L|L].
  { eexists. split; [reflexivity|]. right. split; [exact L|]. right. right. split; [reflexivity|]. apply Z.divide_trans with d1; auto. }
  assert (D1W : (d1 | w1)) by (apply U2; lx). clear u U1 U2 U3 L DW1.
  (* code 7 *)
  rewrite (zdiv_fac d1 d2 cc D1n Ed2), bind_Ok.
  assert (D2n : d2 <> 0) by (intros E; rewrite E in Ed2; lx).
  assert (D2b : (d2 | b)).
  { apply cop_gauss with m1; [exact Cd2m1|]. exists bb. apply Z.mul_reg_l with d1; [exact D1n|].
    transitivity (b * c); [rewrite Em1; ring|]. rewrite Ebc, Ed2. ring. }
  assert (DW2 : (d2 | w2 * w2)).
  { apply cop_gauss with c; [apply (cop_div b c); [exact Gbc|exact D2b|exists 1; ring]|].
    apply (dlin2 d2 t b a (- (w1 * w1))); [apply Z.divide_trans with cc; [exists d1; lx|auto]|exact D2b|]. lx. }
  destruct (sq_quot d2 w2 D2n DW2) as (U1 & U2 & U3).
  assert (G0 : Z.gcd d2 w2 <> 0) by (rewrite Z.gcd_eq_0; tauto).
  rewrite (zz_div_ok d2) by exact G0. rewrite bind_Ok. clear G0.
  set (u := Z.abs (d2 / Z.gcd d2 w2)) in *. clearbody u.
  destruct (Z.ltb_spec 1 u) as [L|L].
  { eexists. split; [reflexivity|]. right. split; [exact L|]. right. left. split; [reflexivity|]. apply Z.divide_trans with d2; auto. }
  assert (D2W : (d2 | w2)) by (apply U2; lx). clear u U1 U2 U3 L DW2.
  (* codes 8, 9 *)
  pose proof (Z.gcd_divide_l b ga) as DB. pose proof (Z.gcd_divide_r b ga) as DG.
  assert (DP : 0 < Z.gcd b ga) by (pose proof (Z.gcd_nonneg b ga); assert (G0 : Z.gcd b ga <> 0) by (rewrite Z.gcd_eq_0; tauto); clear - G0 H; lia).
  destruct (Z.ltb_spec 1 (Z.gcd b ga)) as [L9|L9]; cycle 1.
  { (* (b,gamma) = 1 *)
    assert (Cgb : cop ga b) by (apply cop_sym; unfold cop; lx).
    replace (Z.gcd b ga) with 1 by lx. rewrite Z.gcd_1_l. rewrite (zz_div_ok 1 1) by lx. rewrite bind_Ok.
    change (Z.abs (1 / 1)) with 1. change (1 <? 1) with false. cbv iota.
    clear DB DG DP L9.
    (* codes 10, 11 *)
    pose proof (Z.gcd_divide_l c ga) as DB. pose proof (Z.gcd_divide_r c ga) as DG.
    assert (DP : 0 < Z.gcd c ga) by (pose proof (Z.gcd_nonneg c ga); assert (G0 : Z.gcd c ga <> 0) by (rewrite Z.gcd_eq_0; tauto); clear - G0 H; lia).
    destruct (Z.ltb_spec 1 (Z.gcd c ga)) as [L11|L11]; cycle 1.
    { assert (Cgc : cop ga c) by (apply cop_sym; unfold cop; lx).
      replace (Z.gcd c ga) with 1 by lx. rewrite Z.gcd_1_l. rewrite (zz_div_ok 1 1) by lx. rewrite bind_Ok.
      change (Z.abs (1 / 1)) with 1. change (1 <? 1) with false. cbv iota.
      clear DB DG DP L11.
      destruct D2b as [m2 Em2].
      rewrite (zdiv_fac d1 m1 c D1n Em1), (zdiv_fac d2 m2 b D2n ltac:(lx)). rewrite !bind_Ok.
      assert (Ebb : bb = m1 * m2).
      { apply Z.mul_reg_r with cc; [lx|]. rewrite <- Ebc. rewrite Em2 at 1. rewrite Em1, Ed2. ring. }
      (* lem3 a aa *)
      destruct (lem3_ok a aa A0 Aaa0) as (n1 & n2 & n3 & c1 & c2 & -> & N1 & N2 & N3p & C1p & C2p & Ea & Eaa & C12 & C13 & C23).
      rewrite bind_Ok. cbv beta iota.
      destruct (Z.ltb_spec 1 c1) as [L12|L12].
      { eexists. split; [reflexivity|]. right. split; [exact L12|]. left. split; [reflexivity|]. exists (n1 * n3). exact Ea. }
      assert (c1 = 1) by lx. subst c1. assert (Ea' : a = n1 * n3) by lx.
      assert (NA : (if 1 <? c2 then aa1 <- zz_div aa (c2 * c2) ;; Ok (aa1, ga * c2) else Ok (aa, ga)) = Ok (n2 * n3, ga * c2)).
      { destruct (Z.ltb_spec 1 c2) as [L|L].
        - rewrite (zdiv_fac (c2 * c2) (n2 * n3) aa); [reflexivity|apply mul_nz; lx|]. rewrite Eaa. ring.
        - assert (c2 = 1) by lx. subst c2. replace (ga * 1) with ga by ring. replace (n2 * n3) with aa by (rewrite Eaa; ring). reflexivity. }
      rewrite NA, bind_Ok. cbv beta iota. rewrite Ebb, Ed2.
      assert (DAA : (n2 * n3 | aa)) by (exists (c2 * c2); rewrite Eaa; ring).
      assert (DC2 : (c2 | aa)) by (exists (n2 * n3 * c2); rewrite Eaa; ring).
      assert (Cc2 : cop c2 (b * c)).
      { rewrite Ebc. apply (cop_div aa (bb * cc)); [apply cop_mul; auto|exact DC2|exists 1; ring]. }
      assert (BI : binv a b c w1 w2 d1 d2 m1 m2 n1 n3 (n2, n2 * n3, ga * c2)).
      { split; [exact N2|]. split; [reflexivity|]. split; [apply Z.mul_pos_pos; lx|].
        split; [rewrite ET, Et', Eaa, Ed2; ring|].
        split; [apply cop_mul_l; [exact Cgb|apply (cop_div c2 (b * c)); [exact Cc2|exists 1; ring|exists c; ring]]|].
        split; [apply cop_mul_l; [exact Cgc|apply (cop_div c2 (b * c)); [exact Cc2|exists 1; ring|exists b; ring]]|].
        split; [exact C12|]. split; [exact C23|].
        split; [rewrite <- Ebb; apply (cop_div aa bb); [exact Caabb|exact DAA|exists 1; ring]|].
        rewrite <- Ed2. apply (cop_div aa cc); [exact Caacc|exact DAA|exists 1; ring]. }
      assert (RC : forall aa0 l1 l2 l3, leg_ok aa0 (m1 * m2) (d1 * d2) -> leg_cert aa0 (m1 * m2) (d1 * d2) l1 l2 l3 ->
        Z.abs (aa0 * (d1 * d2)) <= Z.abs t -> exists r, rec aa0 (m1 * m2) (d1 * d2) l1 l2 l3 = Ok r /\ leg_res aa0 (m1 * m2) (d1 * d2) l1 l2 l3 r).
      { intros aa0 l1 l2 l3 OK0 CE0 SM. apply REC; auto.
        apply Z.le_lt_trans with (Z.abs t * Z.abs (b * c)).
        - destruct OK0 as (Z1 & Z2 & Z3 & _). pose proof (mu_new aa0 (m1 * m2) (d1 * d2) (Z.abs t) Z1 Z2 Z3 SM) as M.
          rewrite Ebc, Ebb, Ed2. exact M.
        - apply mu_big; auto. clear - T0; lia. }
      assert (BCO : cop (m1 * m2) (d1 * d2)) by (rewrite <- Ebb, <- Ed2; exact Cbbcc).
      assert (CN : d1 * d2 < 0) by (rewrite <- Ed2; exact CCn).
      assert (Em1' : c = m1 * d1) by lx.
      destruct (loop_ok xgcd X a b c k1 k2 k3 w1 w2 d1 d2 m1 m2 n1 n3 (Z.abs t) rec OK CE CW Em2 Em1' BCO D1W D2W Ea' CN WT HT RC
        n2 (n2 * n3) (ga * c2) BI) as (r & -> & P).
      rewrite bind_Ok. destruct r as [[code u]|[[[n2' aa2] ga2] s1]].
      - eexists. split; [reflexivity|]. right. exact P.
      - destruct (final_ok a b c k1 k2 k3 w1 w2 d1 d2 m1 m2 n1 n3 OK CE LA1 LA2 CW Em2 Em1' BCO D1W D2W Ea' CN WT n2' aa2 ga2 s1 P)
          as (s & ES & SS & SL).
        destruct s1 as [[x1 y1] z1]. cbv zeta in ES. rewrite ES. eexists. split; [reflexivity|]. left. auto. }
    { (* codes 10, 11 *)
      set (d := Z.gcd c ga) in *. clearbody d.
      assert (Dn : d <> 0) by lx.
      assert (DDt : (d * d | t)) by (apply Z.divide_trans with (ga * ga); [destruct DG as [k ->]; exists (k * k); ring|exact GGt]).
      assert (Cdb : cop d b) by (apply cop_sym, (cop_div b c); [exact Gbc|exists 1; ring|exact DB]).
      assert (DW : (d | w1 * w1)).
      { apply cop_gauss with b; [exact Cdb|].
        apply (dlin2 d t c a (- (w2 * w2))); [apply Z.divide_trans with (d * d); [exists d; ring|exact DDt]|exact DB|]. lx. }
      destruct (sq_quot d w1 Dn DW) as (U1 & U2 & U3).
      assert (G0 : Z.gcd d w1 <> 0) by (rewrite Z.gcd_eq_0; tauto).
      rewrite (zz_div_ok d) by exact G0. rewrite bind_Ok. clear G0.
      set (u := Z.abs (d / Z.gcd d w1)) in *. clearbody u.
      destruct (Z.ltb_spec 1 u) as [L|L].
      { eexists. split; [reflexivity|]. right. split; [exact L|]. right. right. split; [reflexivity|]. apply Z.divide_trans with d; auto. }
      eexists. split; [reflexivity|]. right. split; [exact L11|]. right. right. split; [reflexivity|].
      assert (DW' : (d | w1)) by (apply U2; lx).
      apply cop_sq_div with (w2 * w2).
      - assert (CD : cop d w2).
        { apply cop_intro. intros e _ E1 E2. apply (cop_one a c e Gac).
          - apply CW; [apply Z.divide_trans with d; auto|exact E2].
          - apply Z.divide_trans with d; auto. }
        apply cop_mul; auto.
      - destruct DW' as [k W'], DDt as [l DDt]. exists (a * l - b * (k * k)).
        transitivity (a * t - b * (w1 * w1)); [lx|]. rewrite W', DDt. ring. } }
  { set (d := Z.gcd b ga) in *. clearbody d.
    assert (Dn : d <> 0) by lx.
    assert (DDt : (d * d | t)) by (apply Z.divide_trans with (ga * ga); [destruct DG as [k ->]; exists (k * k); ring|exact GGt]).
    assert (Cdb : cop d c) by (apply (cop_div b c); [exact Gbc|exact DB|exists 1; ring]).
    assert (DW : (d | w2 * w2)).
    { apply cop_gauss with c; [exact Cdb|].
      apply (dlin2 d t b a (- (w1 * w1))); [apply Z.divide_trans with (d * d); [exists d; ring|exact DDt]|exact DB|]. lx. }
    destruct (sq_quot d w2 Dn DW) as (U1 & U2 & U3).
    assert (G0 : Z.gcd d w2 <> 0) by (rewrite Z.gcd_eq_0; tauto).
    rewrite (zz_div_ok d) by exact G0. rewrite bind_Ok. clear G0.
    set (u := Z.abs (d / Z.gcd d w2)) in *. clearbody u.
    destruct (Z.ltb_spec 1 u) as [L|L].
    { eexists. split; [reflexivity|]. right. split; [exact L|]. right. left. split; [reflexivity|]. apply Z.divide_trans with d; auto. }
    eexists. split; [reflexivity|]. right. split; [exact L9|]. right. left. split; [reflexivity|].
    assert (DW' : (d | w2)) by (apply U2; lx).
    apply cop_sq_div with (w1 * w1).
    - assert (CD : cop d w1).
      { apply cop_intro. intros e _ E1 E2. apply (cop_one a b e Gab).
        - apply CW; [exact E2|apply Z.divide_trans with d; auto].
        - apply Z.divide_trans with d; auto. }
      apply cop_mul; auto.
    - destruct DW' as [k W'], DDt as [l DDt]. exists (a * l - c * (k * k)).
      transitivity (a * t - c * (w2 * w2)); [lx|]. rewrite W', DDt. ring. }
Qed.
End Lem4.

(** ** legendre_solve_cert_1 *)
Section Solve.
Variable xgcd : Z -> Z -> Z * Z * Z.
Hypothesis X : xgcd_spec xgcd.

Lemma isqrt_case b : b <> 0 -> exists ok u, isqrt (Z.abs b) = Ok (ok, u) /\
  (if ok && (1 <? u) then 1 < u /\ (u * u | b) else nosq b).
Proof.
  intros B. destruct (isqrt_ok (Z.abs b)) as (ok & u & E & H1 & H2). exists ok, u. split; [exact E|].
  destruct ok; cbn [andb].
  - destruct (H1 eq_refl) as [U0 U]. destruct (Z.ltb_spec 1 u) as [L|L].
    + split; [exact L|]. apply Z.divide_abs_r. exists 1. lia.
    + intros s Hs. assert (u = 0 \/ u = 1) as [-> | ->] by lia; lia.
  - intros s Hs. specialize (H2 (ex_intro _ s Hs)). discriminate.
Qed.

Lemma solve_cert_ok f : forall a b c n p q, leg_ok a b c -> leg_cert a b c n p q -> mu a b c < Z.of_nat f ->
  exists r, legendre_solve_cert_1 xgcd f a b c n p q = Ok r /\ leg_res a b c n p q r.
Proof.
  induction f as [|f IH]; intros a b c n p q OK CE M.
  { unfold mu in M. destruct (has_unit a b c); lia. }
  cbn [legendre_solve_cert_1].
  pose proof OK as (A0 & B0 & C0 & _).
  destruct (isqrt_case b B0) as (okb & ub & -> & Hb). rewrite bind_Ok. cbv beta iota.
  destruct (okb && (1 <? ub)).
  { eexists. split; [reflexivity|]. right. split; [tauto|]. right. left. tauto. }
  destruct (isqrt_case c C0) as (okc & uc & -> & Hc). rewrite bind_Ok. cbv beta iota.
  destruct (okc && (1 <? uc)).
  { eexists. split; [reflexivity|]. right. split; [tauto|]. right. right. tauto. }
  destruct (isqrt_case a A0) as (oka & ua & -> & Ha). rewrite bind_Ok. cbv beta iota.
  destruct (oka && (1 <? ua)).
  { eexists. split; [reflexivity|]. right. split; [tauto|]. left. tauto. }
  assert (RC : forall a' b' c' l1 l2 l3, leg_ok a' b' c' -> leg_cert a' b' c' l1 l2 l3 -> mu a' b' c' < mu a b c ->
    exists r, legendre_solve_cert_1 xgcd f a' b' c' l1 l2 l3 = Ok r /\ leg_res a' b' c' l1 l2 l3 r).
  { intros. apply IH; auto. lia. }
  unfold perm_of.
  destruct (Z.ltb_spec (Z.abs b) (Z.abs a)).
  - destruct (Z.ltb_spec (Z.abs a) (Z.abs c)).
    + (* 4 *) cbn [Z.eqb Pos.eqb].
      destruct (lem4_ok xgcd X c a b q n p (legendre_solve_cert_1 xgcd f)) as ([[r u] [[z x] y]] & -> & R); auto; try lia.
      { apply ok_rot, ok_rot, OK. } { apply cert_rot, cert_rot, CE. }
      { intros. apply RC; auto. rewrite <- (mu_rot a b c), <- (mu_rot b c a). auto. }
      repeat (rewrite bind_Ok; cbv beta iota). eexists. split; [reflexivity|].
      destruct R as [(-> & R1 & R2)|(U & R)].
      * left. split; [reflexivity|]. split; [apply sol_rot, sol_rot, R1|apply lat_rot, lat_rot, R2].
      * right. split; [exact U|]. destruct R as [(-> & R)|[(-> & R)|(-> & R)]]; cbn; tauto.
    + destruct (Z.ltb_spec (Z.abs c) (Z.abs b)).
      * cbn [Z.eqb Pos.eqb].
        destruct (lem4_ok xgcd X a b c n p q (legendre_solve_cert_1 xgcd f)) as ([[r u] [[x y] z]] & -> & R); auto; try lia.
        repeat (rewrite bind_Ok; cbv beta iota). eexists. split; [reflexivity|].
        destruct R as [(-> & R1 & R2)|(U & R)].
        -- left. auto.
        -- right. split; [exact U|]. destruct R as [(-> & R)|[(-> & R)|(-> & R)]]; cbn; tauto.
      * cbn [Z.eqb Pos.eqb].
        destruct (lem4_ok xgcd X a c b (- n) (- q) (- p) (legendre_solve_cert_1 xgcd f)) as ([[r u] [[x z] y]] & -> & R); auto; try lia.
        { apply ok_swap, OK. } { apply cert_swap, CE. }
        { intros. apply RC; auto. rewrite <- (mu_swap a b c). auto. }
        repeat (rewrite bind_Ok; cbv beta iota). eexists. split; [reflexivity|].
        destruct R as [(-> & R1 & R2)|(U & R)].
        -- left. split; [reflexivity|]. split; [apply sol_swap, R1|apply lat_swap; auto].
        -- right. split; [exact U|]. destruct R as [(-> & R)|[(-> & R)|(-> & R)]]; cbn; tauto.
  - destruct (Z.ltb_spec (Z.abs c) (Z.abs a)).
    + cbn [Z.eqb Pos.eqb].
      destruct (lem4_ok xgcd X b a c (- p) (- n) (- q) (legendre_solve_cert_1 xgcd f)) as ([[r u] [[y x] z]] & -> & R); auto; try lia.
      { apply ok_rot, ok_rot, ok_swap, OK. } { apply cert_rot, cert_rot, cert_swap, CE. }
      { intros. apply RC; auto. rewrite <- (mu_swap a b c), <- (mu_rot a c b), <- (mu_rot c b a). auto. }
      repeat (rewrite bind_Ok; cbv beta iota). eexists. split; [reflexivity|].
      destruct R as [(-> & R1 & R2)|(U & R)].
      * left. split; [reflexivity|]. split; [apply sol_swap, sol_rot, sol_rot, R1|apply lat_swap; auto; apply lat_rot, lat_rot, R2].
      * right. split; [exact U|]. destruct R as [(-> & R)|[(-> & R)|(-> & R)]]; cbn; tauto.
    + destruct (Z.ltb_spec (Z.abs b) (Z.abs c)).
      * cbn [Z.eqb Pos.eqb].
        destruct (lem4_ok xgcd X c b a (- q) (- p) (- n) (legendre_solve_cert_1 xgcd f)) as ([[r u] [[z y] x]] & -> & R); auto; try lia.
        { apply ok_rot, ok_swap, OK. } { apply cert_rot, cert_swap, CE. }
        { intros. apply RC; auto. rewrite <- (mu_swap a b c), <- (mu_rot a c b). auto. }
        repeat (rewrite bind_Ok; cbv beta iota). eexists. split; [reflexivity|].
        destruct R as [(-> & R1 & R2)|(U & R)].
        -- left. split; [reflexivity|]. split; [apply sol_swap, sol_rot, R1|apply lat_swap; auto; apply lat_rot, R2].
        -- right. split; [exact U|]. destruct R as [(-> & R)|[(-> & R)|(-> & R)]]; cbn; tauto.
      * cbn [Z.eqb Pos.eqb].
        destruct (lem4_ok xgcd X b c a p q n (legendre_solve_cert_1 xgcd f)) as ([[r u] [[y z] x]] & -> & R); auto; try lia.
        { apply ok_rot, OK. } { apply cert_rot, CE. }
        { intros. apply RC; auto. rewrite <- (mu_rot a b c). auto. }
        repeat (rewrite bind_Ok; cbv beta iota). eexists. split; [reflexivity|].
        destruct R as [(-> & R1 & R2)|(U & R)].
        -- left. split; [reflexivity|]. split; [apply sol_rot, R1|apply lat_rot, R2].
        -- right. split; [exact U|]. destruct R as [(-> & R)|[(-> & R)|(-> & R)]]; cbn; tauto.
Qed.
End Solve.
