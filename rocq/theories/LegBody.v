(** The loop of lem4_1 (legendre.cc lines 1130-1228): the new equation, its certificate, and the
    map of its solutions back. *)
From Coq Require Import ZArith Lia List Bool.
From Verif Require Import Base RatModel MArithModel MArithProofs LegModel LegArith LegLem1.
Import ListNotations.
Open Scope Z_scope.
Open Scope res_scope.

Lemma dlin1 m x k e : (m | x) -> e = k * x -> (m | e).
Proof. intros [u ->] ->. exists (k * u). ring. Qed.
Lemma dlin2 m x y k l e : (m | x) -> (m | y) -> e = k * x + l * y -> (m | e).
Proof. intros [u ->] [v ->] ->. exists (k * u + l * v). ring. Qed.
Lemma dlin3 m x y z k l j e : (m | x) -> (m | y) -> (m | z) -> e = k * x + l * y + j * z -> (m | e).
Proof. intros [u ->] [v ->] [w ->] ->. exists (k * u + l * v + j * w). ring. Qed.
Lemma zdiv_fac d q a : d <> 0 -> a = d * q -> zz_div a d = Ok q.
Proof. intros D ->. rewrite zz_div_ok by auto. f_equal. rewrite Z.mul_comm. apply Z.div_mul; auto. Qed.
Lemma chrem_cop xgcd (X : xgcd_spec xgcd) a1 a2 m1 m2 : m1 <> 0 -> m2 <> 0 -> cop m1 m2 ->
  exists b x, chrem xgcd a1 a2 m1 m2 = Ok (b, x) /\ (m1 | x - a1) /\ (m2 | x - a2).
Proof.
  intros M1 M2 C. destruct (chrem_ok xgcd X a1 a2 m1 m2 M1 M2) as (ok & ans & E & (S & _) & R & _).
  exists ok, ans. split; [exact E|]. apply R, S. destruct (cop_bezout m1 m2 C) as (u & v & B).
  exists (a1 + m1 * u * (a2 - a1)). split; [exists (u * (a2 - a1)); ring|].
  exists (- v * (a2 - a1)). replace (m1 * u) with (1 - m2 * v) by lia. ring.
Qed.
Lemma div_cop_1 g x : cop g x -> (g | x) -> 0 <= g -> g = 1.
Proof. intros C D P. pose proof (cop_one g x g C (Z.divide_refl g) D) as U. apply Z.divide_1_r in U. lia. Qed.

(** what a result (code, u, (x,y,z)) means *)
Definition leg_code (a b c : Z) (r u : Z) : Prop :=
  1 < u /\ ((r = 1 /\ (u * u | a)) \/ (r = 2 /\ (u * u | b)) \/ (r = 3 /\ (u * u | c))).
Definition leg_res (a b c n p q : Z) (res : Z * Z * tri) : Prop :=
  let '(r, u, s) := res in
  (r = 0 /\ leg_sol a b c s /\ leg_lat a b c n p q s) \/ leg_code a b c r u.

Section Body.
Variable xgcd : Z -> Z -> Z * Z * Z.
Hypothesis X : xgcd_spec xgcd.
Variables (a b c k1 k2 k3 w1 w2 d1 d2 m1 m2 n1 n3 T : Z) (rec : solver).
Hypothesis OK : leg_ok a b c.
Hypothesis CE : leg_cert a b c k1 k2 k3.
Hypothesis LA1 : (a | c * w2 - k1 * w1).
Hypothesis LA2 : (a | b * w1 + k1 * w2).
Hypothesis CW : forall d, (d | w1) -> (d | w2) -> (d | a).
Hypothesis Eb : b = m2 * d2.
Hypothesis Ec : c = m1 * d1.
Hypothesis BC : cop (m1 * m2) (d1 * d2).
Hypothesis D1W : (d1 | w1).
Hypothesis D2W : (d2 | w2).
Hypothesis Ea : a = n1 * n3.
Hypothesis CCn : d1 * d2 < 0.
Hypothesis WT : b * (w1 * w1) + c * (w2 * w2) <> 0.
Hypothesis HT : Z.abs (b * (w1 * w1) + c * (w2 * w2)) = Z.abs a * T.
Hypothesis REC : forall aa l1 l2 l3, leg_ok aa (m1 * m2) (d1 * d2) -> leg_cert aa (m1 * m2) (d1 * d2) l1 l2 l3 ->
  Z.abs (aa * (d1 * d2)) <= T -> exists r, rec aa (m1 * m2) (d1 * d2) l1 l2 l3 = Ok r /\ leg_res aa (m1 * m2) (d1 * d2) l1 l2 l3 r.

Definition binv (s : Z * Z * Z) : Prop :=
  let '(n2, aa, ga) := s in
  n2 <> 0 /\ aa = n2 * n3 /\ 0 < ga /\ a * aa * (d1 * d2) * (ga * ga) = b * (w1 * w1) + c * (w2 * w2) /\
  cop ga b /\ cop ga c /\ cop n1 n2 /\ cop n2 n3 /\ cop aa (m1 * m2) /\ cop aa (d1 * d2).
(** the star values and the new certificate *)
Definition bstar (n2 aa ga : Z) (g v1 v2 gs l1 l2 l3 : Z) : Prop :=
  w1 = g * v1 /\ w2 = g * v2 /\ ga = g * gs /\ 0 < g /\ (d1 | v1) /\ (d2 | v2) /\
  (n2 | l1 * v2 + b * v1) /\ (m1 | l2 * (a * gs) - k3 * v1) /\ (m2 | l2 * (a * gs) - k2 * v2) /\
  (d2 | l3 * v1 - k2 * aa * gs) /\ (d1 | l3 * v2 + k3 * aa * gs).
Definition bpost (r : Z * Z + Z * Z * Z * tri) : Prop :=
  match r with
  | inl (code, u) => leg_code a b c code u
  | inr (n2, aa, ga, s1) => binv (n2, aa, ga) /\ exists g v1 v2 gs l1 l2 l3,
      bstar n2 aa ga g v1 v2 gs l1 l2 l3 /\
      leg_sol aa (m1 * m2) (d1 * d2) s1 /\ leg_lat aa (m1 * m2) (d1 * d2) l1 l2 l3 s1
  end.

Lemma D1n0 : d1 <> 0. Proof. intros E. rewrite E in CCn. lia. Qed.
Lemma D2n0 : d2 <> 0. Proof. intros E. rewrite E in CCn. lia. Qed.
Lemma An0 : a <> 0. Proof. destruct OK; auto. Qed.
Lemma Bn0 : b <> 0. Proof. destruct OK as (_ & ? & _); auto. Qed.
Lemma Cn0 : c <> 0. Proof. destruct OK as (_ & _ & ? & _); auto. Qed.
Lemma M1n0 : m1 <> 0. Proof. intros E. apply Cn0. rewrite Ec, E. ring. Qed.
Lemma M2n0 : m2 <> 0. Proof. intros E. apply Bn0. rewrite Eb, E. ring. Qed.
Lemma N3n0 : n3 <> 0. Proof. intros E. apply An0. rewrite Ea, E. ring. Qed.
Lemma Cab : cop a b. Proof. destruct OK as (_ & _ & _ & ? & _); auto. Qed.
Lemma Cac : cop a c. Proof. destruct OK as (_ & _ & _ & _ & ? & _); auto. Qed.
Lemma Cbc : cop b c. Proof. destruct OK as (_ & _ & _ & _ & _ & ? & _); auto. Qed.
Lemma m1_c : (m1 | c). Proof. exists d1. rewrite Ec. ring. Qed.
Lemma d1_c : (d1 | c). Proof. exists m1. rewrite Ec. ring. Qed.
Lemma m2_b : (m2 | b). Proof. exists d2. rewrite Eb. ring. Qed.
Lemma d2_b : (d2 | b). Proof. exists m2. rewrite Eb. ring. Qed.
Lemma Cm12 : cop m1 m2. Proof. apply cop_sym, (cop_div b c); [apply Cbc|apply m2_b|apply m1_c]. Qed.
Lemma Cd12 : cop d1 d2. Proof. apply cop_sym, (cop_div b c); [apply Cbc|apply d2_b|apply d1_c]. Qed.
Lemma Cm1d1 : cop m1 d1. Proof. apply (cop_div _ _ _ _ BC); [exists m2; ring|exists d2; ring]. Qed.
Lemma Cm2d2 : cop m2 d2. Proof. apply (cop_div _ _ _ _ BC); [exists m1; ring|exists d1; ring]. Qed.
Lemma Cd1w2 : cop d1 w2.
Proof.
  apply cop_intro. intros d _ A B. apply (cop_one a c d Cac).
  - apply CW; auto. apply Z.divide_trans with d1; auto.
  - apply Z.divide_trans with d1; auto. apply d1_c.
Qed.
Lemma Cd2w1 : cop d2 w1.
Proof.
  apply cop_intro. intros d _ A B. apply (cop_one a b d Cab).
  - apply CW; auto. apply Z.divide_trans with d2; auto.
  - apply Z.divide_trans with d2; auto. apply d2_b.
Qed.

Section Inv.
Variables (n2 aa ga : Z).
Hypothesis I : binv (n2, aa, ga).
Let N0 : n2 <> 0. Proof. destruct I as (? & _); auto. Qed.
Let Eaa : aa = n2 * n3. Proof. destruct I as (_ & ? & _); auto. Qed.
Let Gp : 0 < ga. Proof. destruct I as (_ & _ & ? & _); auto. Qed.
Let EQ : a * aa * (d1 * d2) * (ga * ga) = b * (w1 * w1) + c * (w2 * w2). Proof. destruct I as (_ & _ & _ & ? & _); auto. Qed.
Let Cgb : cop ga b. Proof. destruct I as (_ & _ & _ & _ & ? & _); auto. Qed.
Let Cgc : cop ga c. Proof. destruct I as (_ & _ & _ & _ & _ & ? & _); auto. Qed.
Let Cn12 : cop n1 n2. Proof. destruct I as (_ & _ & _ & _ & _ & _ & ? & _); auto. Qed.
Let Cn23 : cop n2 n3. Proof. destruct I as (_ & _ & _ & _ & _ & _ & _ & ? & _); auto. Qed.
Let Caabb : cop aa (m1 * m2). Proof. destruct I as (_ & _ & _ & _ & _ & _ & _ & _ & ? & _); auto. Qed.
Let Caacc : cop aa (d1 * d2). Proof. destruct I as (_ & _ & _ & _ & _ & _ & _ & _ & _ & ?); auto. Qed.

Lemma n2_aa : (n2 | aa). Proof. exists n3. rewrite Eaa. ring. Qed.
Lemma aa0 : aa <> 0.
Proof. intros E. apply WT. rewrite <- EQ, E. ring. Qed.
Lemma Caab : cop aa b.
Proof. apply (cop_div aa (m1 * m2 * (d1 * d2))); [apply cop_mul; auto|exists 1; ring|exists c; rewrite Eb, Ec; ring]. Qed.
Lemma Caac : cop aa c.
Proof. apply (cop_div aa (m1 * m2 * (d1 * d2))); [apply cop_mul; auto|exists 1; ring|exists b; rewrite Eb, Ec; ring]. Qed.
Lemma Cn2b : cop n2 b. Proof. apply (cop_div aa b); [apply Caab|apply n2_aa|exists 1; ring]. Qed.
Lemma Cn2c : cop n2 c. Proof. apply (cop_div aa c); [apply Caac|apply n2_aa|exists 1; ring]. Qed.
Lemma Cn2a : cop n2 a. Proof. rewrite Ea. apply cop_mul; [apply cop_sym; exact Cn12|exact Cn23]. Qed.
Lemma Cw2n2 : cop w2 n2.
Proof.
  apply cop_intro. intros d _ A B.
  assert (C1 : cop d w1).
  { apply cop_intro. intros e _ E1 E2. apply (cop_one n2 a e Cn2a).
    - apply Z.divide_trans with d; auto.
    - apply CW; auto. apply Z.divide_trans with d; auto. }
  apply cop_gauss with (w1 * w1); [apply cop_mul; auto|]. rewrite Z.mul_1_r.
  apply cop_gauss with b; [apply (cop_div n2 b); [apply Cn2b|auto|exists 1; ring]|].
  apply (dlin2 d n2 w2 (a * n3 * (d1 * d2) * (ga * ga)) (- c * w2)); auto.
  transitivity (a * aa * (d1 * d2) * (ga * ga) - c * (w2 * w2)); [rewrite EQ|rewrite Eaa]; ring.
Qed.

(** signs of the new equation *)
Lemma new_ok : leg_ok aa (m1 * m2) (d1 * d2).
Proof.
  assert (M : m1 * m2 <> 0) by (apply mul_nz; [apply M1n0|apply M2n0]).
  split; [apply aa0|]. split; [exact M|]. split; [lia|]. split; [auto|]. split; [auto|]. split; [auto|].
  split; [intros (_ & _ & ?); lia|]. intros (A & B & _).
  destruct OK as (A0 & B0 & C0 & _ & _ & _ & S1 & S2).
  assert (PB : 0 < b * c)
    by (replace (b * c) with ((m1 * m2) * (d1 * d2)) by (rewrite Eb, Ec; ring); apply Z.mul_neg_neg; [exact B|exact CCn]).
  assert (GG : 0 < ga * ga) by (apply Z.mul_pos_pos; exact Gp).
  assert (PW : 0 < aa * (d1 * d2) * (ga * ga)) by (apply Z.mul_pos_pos; [apply Z.mul_neg_neg; [exact A|exact CCn]|exact GG]).
  pose proof (Z.square_nonneg w1) as Q1. pose proof (Z.square_nonneg w2) as Q2.
  assert (EQ' : a * (aa * (d1 * d2) * (ga * ga)) = b * (w1 * w1) + c * (w2 * w2)) by (rewrite <- EQ; ring).
  set (P := aa * (d1 * d2) * (ga * ga)) in *. set (u := w1 * w1) in *. set (v := w2 * w2) in *. clearbody P u v.
  clear - A0 B0 C0 S1 S2 PB PW Q1 Q2 EQ'.
  destruct (Z.lt_trichotomy b 0) as [Hb|[Hb|Hb]]; [|contradiction|].
  - assert (c < 0) by (clear - PB Hb C0; nia). assert (0 < a) by (clear - A0 S2 Hb H; lia).
    assert (b * u <= 0) by (clear - Hb Q1; nia). assert (c * v <= 0) by (clear - H Q2; nia).
    assert (0 < a * P) by (apply Z.mul_pos_pos; auto). lia.
  - assert (0 < c) by (clear - PB Hb C0; nia). assert (a < 0) by (clear - A0 S1 Hb H; lia).
    assert (0 <= b * u) by (clear - Hb Q1; nia). assert (0 <= c * v) by (clear - H Q2; nia).
    assert (a * P < 0) by (apply Z.mul_neg_pos; auto). lia.
Qed.
Lemma new_small : Z.abs (aa * (d1 * d2)) <= T.
Proof.
  assert (A : 0 < Z.abs a) by (pose proof An0; lia).
  apply Z.mul_le_mono_pos_l with (Z.abs a); [exact A|]. rewrite <- HT, <- EQ.
  replace (a * aa * (d1 * d2) * (ga * ga)) with (a * (aa * (d1 * d2)) * (ga * ga)) by ring.
  rewrite (Z.abs_mul _ (ga * ga)), Z.abs_mul. rewrite (Z.abs_eq (ga * ga)) by (apply Z.square_nonneg).
  assert (0 <= Z.abs a * Z.abs (aa * (d1 * d2))) by (apply Z.mul_nonneg_nonneg; lia).
  assert (1 <= ga * ga) by (clear - Gp; nia). clear - H H0. nia.
Qed.

(** star values *)
Lemma g_w2 g : (g | w1) -> (g | ga) -> (g | w2).
Proof.
  intros A B. apply sq_div. apply cop_sq_div with c.
  - apply (cop_div ga c); [exact Cgc|exact B|exists 1; ring].
  - destruct A as [u A], B as [v B]. exists (a * aa * (d1 * d2) * (v * v) - b * (u * u)).
    transitivity (a * aa * (d1 * d2) * (ga * ga) - b * (w1 * w1)); [rewrite EQ; ring|]. rewrite B, A. ring.
Qed.
Definition stars (g v1 v2 gs : Z) : Prop :=
  w1 = g * v1 /\ w2 = g * v2 /\ ga = g * gs /\ 0 < g /\ (d1 | v1) /\ (d2 | v2).

Section Star.
Variables (g v1 v2 gs : Z).
Hypothesis S : stars g v1 v2 gs.
Let E1 : w1 = g * v1. Proof. destruct S as (? & _); auto. Qed.
Let E2 : w2 = g * v2. Proof. destruct S as (_ & ? & _); auto. Qed.
Let E3 : ga = g * gs. Proof. destruct S as (_ & _ & ? & _); auto. Qed.
Let g0' : 0 < g. Proof. destruct S as (_ & _ & _ & ? & _); auto. Qed.
Let d1v : (d1 | v1). Proof. destruct S as (_ & _ & _ & _ & ? & _); auto. Qed.
Let d2v : (d2 | v2). Proof. destruct S as (_ & _ & _ & _ & _ & ?); auto. Qed.

Lemma EQs : a * aa * (d1 * d2) * (gs * gs) = b * (v1 * v1) + c * (v2 * v2).
Proof.
  apply Z.mul_reg_l with (g * g); [clear - g0'; nia|].
  transitivity (a * aa * (d1 * d2) * (ga * ga)); [rewrite E3; ring|]. rewrite EQ, E1, E2. ring.
Qed.
Lemma Cv2n2 : cop n2 v2.
Proof. apply cop_sym, (cop_div w2 n2); [apply Cw2n2|exists g; rewrite E2; ring|exists 1; ring]. Qed.
Lemma Cv1d2 : cop d2 v1.
Proof. apply (cop_div d2 w1); [apply Cd2w1|exists 1; ring|exists g; rewrite E1; ring]. Qed.
Lemma Cv2d1 : cop d1 v2.
Proof. apply (cop_div d1 w2); [apply Cd1w2|exists 1; ring|exists g; rewrite E2; ring]. Qed.
Lemma Cags : cop (a * gs) (b * c).
Proof.
  assert (G1 : cop gs b) by (apply (cop_div ga b); [exact Cgb|exists g; rewrite E3; ring|exists 1; ring]).
  assert (G2 : cop gs c) by (apply (cop_div ga c); [exact Cgc|exists g; rewrite E3; ring|exists 1; ring]).
  apply cop_mul_l; apply cop_mul; auto; [apply Cab|apply Cac].
Qed.
(** d2 | -a c aa gs^2 + bb v1^2,  d1 | -a b aa gs^2 + bb v2^2 *)
Lemma key2 : (d2 | - (a * c * aa * (gs * gs)) + m1 * m2 * (v1 * v1)).
Proof.
  destruct d2v as [u U]. apply cop_gauss with d1; [apply cop_sym, Cd12|].
  exists (- (c * c) * (u * u)). apply Z.mul_reg_l with d2; [apply D2n0|].
  transitivity (- c * (a * aa * (d1 * d2) * (gs * gs)) + m1 * m2 * (d1 * d2) * (v1 * v1)); [ring|].
  rewrite EQs, U, Eb, Ec. ring.
Qed.
Lemma key1 : (d1 | - (a * b * aa * (gs * gs)) + m1 * m2 * (v2 * v2)).
Proof.
  destruct d1v as [u U]. apply cop_gauss with d2; [apply Cd12|].
  exists (- (b * b) * (u * u)). apply Z.mul_reg_l with d1; [apply D1n0|].
  transitivity (- b * (a * aa * (d1 * d2) * (gs * gs)) + m1 * m2 * (d1 * d2) * (v2 * v2)); [ring|].
  rewrite EQs, U, Eb, Ec. ring.
Qed.

Section Cert.
Variables (l1 l2 l3 : Z).
Hypothesis L1a : (n2 | l1 * v2 + b * v1).
Hypothesis L1b : (n3 | l1 + k1).
Hypothesis L2a : (m1 | l2 * (a * gs) - k3 * v1).
Hypothesis L2b : (m2 | l2 * (a * gs) - k2 * v2).
Hypothesis L3a : (d2 | l3 * v1 - k2 * aa * gs).
Hypothesis L3b : (d1 | l3 * v2 + k3 * aa * gs).

Let K1 : (a | k1 * k1 + b * c). Proof. destruct CE as (? & _); auto. Qed.
Let K2 : (b | k2 * k2 + a * c). Proof. destruct CE as (_ & ? & _); auto. Qed.
Let K3 : (c | k3 * k3 + a * b). Proof. destruct CE as (_ & _ & ?); auto. Qed.

Lemma new_cert : leg_cert aa (m1 * m2) (d1 * d2) l1 l2 l3.
Proof.
  assert (BCE : m1 * m2 * (d1 * d2) = b * c) by (rewrite Eb, Ec; ring).
  split; [|split].
  - rewrite BCE, Eaa. apply cop_prod_div; [exact Cn23| |].
    + apply cop_gauss with (v2 * v2); [apply cop_mul; apply Cv2n2|].
      apply (dlin2 n2 (l1 * v2 + b * v1) aa (l1 * v2 - b * v1) (b * a * (d1 * d2) * (gs * gs))); [exact L1a|apply n2_aa|].
      transitivity ((l1 * v2 - b * v1) * (l1 * v2 + b * v1) + b * (b * (v1 * v1) + c * (v2 * v2))); [ring|].
      rewrite <- EQs. ring.
    + apply (dlin2 n3 (l1 + k1) (k1 * k1 + b * c) (l1 - k1) 1); [exact L1b| |ring].
      apply Z.divide_trans with a; [exists n1; exact Ea|exact K1].
  - pose proof Cags as CA. apply cop_prod_div; [apply Cm12| |].
    + assert (CM : cop m1 (a * gs)) by (apply cop_sym, (cop_div _ _ _ _ CA); [exists 1; ring|exists (b * d1); rewrite Ec; ring]).
      apply cop_gauss with (a * gs * (a * gs)); [apply cop_mul; auto|].
      apply (dlin3 m1 (l2 * (a * gs) - k3 * v1) (k3 * k3 + a * b) c (l2 * (a * gs) + k3 * v1) (v1 * v1) (a * (v2 * v2))).
      * exact L2a.
      * apply Z.divide_trans with c; [apply m1_c|exact K3].
      * apply m1_c.
      * transitivity (a * gs * (a * gs) * (l2 * l2) + a * (a * aa * (d1 * d2) * (gs * gs))); [ring|]. rewrite EQs. ring.
    + assert (CM : cop m2 (a * gs)) by (apply cop_sym, (cop_div _ _ _ _ CA); [exists 1; ring|exists (c * d2); rewrite Eb; ring]).
      apply cop_gauss with (a * gs * (a * gs)); [apply cop_mul; auto|].
      apply (dlin3 m2 (l2 * (a * gs) - k2 * v2) (k2 * k2 + a * c) b (l2 * (a * gs) + k2 * v2) (v2 * v2) (a * (v1 * v1))).
      * exact L2b.
      * apply Z.divide_trans with b; [apply m2_b|exact K2].
      * apply m2_b.
      * transitivity (a * gs * (a * gs) * (l2 * l2) + a * (a * aa * (d1 * d2) * (gs * gs))); [ring|]. rewrite EQs. ring.
  - apply cop_prod_div; [apply Cd12| |].
    + apply cop_gauss with (v2 * v2); [apply cop_mul; apply Cv2d1|].
      apply (dlin3 d1 (l3 * v2 + k3 * aa * gs) (k3 * k3 + a * b) (- (a * b * aa * (gs * gs)) + m1 * m2 * (v2 * v2))
        (l3 * v2 - k3 * aa * gs) (aa * aa * (gs * gs)) aa); [exact L3b| |apply key1|ring].
      apply Z.divide_trans with c; [apply d1_c|exact K3].
    + apply cop_gauss with (v1 * v1); [apply cop_mul; apply Cv1d2|].
      apply (dlin3 d2 (l3 * v1 - k2 * aa * gs) (k2 * k2 + a * c) (- (a * c * aa * (gs * gs)) + m1 * m2 * (v1 * v1))
        (l3 * v1 + k2 * aa * gs) (aa * aa * (gs * gs)) aa); [exact L3a| |apply key2|ring].
      apply Z.divide_trans with b; [apply d2_b|exact K2].
Qed.

(** ** Back to the old equation *)
Section Back.
Variables (x1 y1 z1 e1 e2 : Z).
Hypothesis W1 : w1 = d1 * e1.
Hypothesis W2 : w2 = d2 * e2.
Hypothesis SOL : aa * (x1 * x1) + m1 * m2 * (y1 * y1) + d1 * d2 * (z1 * z1) = 0.
Hypothesis NZ : nonzero3 x1 y1 z1.
Hypothesis LL : leg_lat aa (m1 * m2) (d1 * d2) l1 l2 l3 (x1, y1, z1).
Let XX : Z := - ga * aa * x1.
Let YY : Z := m1 * e2 * y1 + w1 * z1.
Let ZZ : Z := m2 * e1 * y1 - w2 * z1.
Let Q1 : (aa | m1 * m2 * y1 - l1 * z1). Proof. destruct LL as (? & _); auto. Qed.
Let Q2 : (m1 * m2 | d1 * d2 * z1 - l2 * x1). Proof. destruct LL as (_ & ? & _); auto. Qed.
Let Q3 : (d1 * d2 | aa * x1 - l3 * y1). Proof. destruct LL as (_ & _ & ?); auto. Qed.

Lemma back_T : m2 * d1 * (e1 * e1) + m1 * d2 * (e2 * e2) = a * aa * (ga * ga).
Proof.
  apply Z.mul_reg_l with (d1 * d2); [lia|]. transitivity (b * (w1 * w1) + c * (w2 * w2)); [rewrite W1, W2, Eb, Ec; ring|].
  rewrite <- EQ. ring.
Qed.
Lemma back_eq : a * (XX * XX) + b * (YY * YY) + c * (ZZ * ZZ) = 0.
Proof.
  transitivity (a * (XX * XX) + (m2 * d1 * (e1 * e1) + m1 * d2 * (e2 * e2)) * (m1 * m2 * (y1 * y1) + d1 * d2 * (z1 * z1))).
  - unfold YY, ZZ. rewrite Eb, Ec, W1, W2. ring.
  - rewrite back_T. replace (m1 * m2 * (y1 * y1) + d1 * d2 * (z1 * z1)) with (- (aa * (x1 * x1))) by lia. unfold XX. ring.
Qed.
Lemma back_nz : nonzero3 XX YY ZZ.
Proof.
  unfold nonzero3. destruct (Z.eq_dec XX 0) as [EX|]; [|auto]. destruct (Z.eq_dec YY 0) as [EY|]; [|auto].
  destruct (Z.eq_dec ZZ 0) as [EZ|]; [|auto]. exfalso.
  assert (T0 : a * aa * (ga * ga) <> 0) by (apply mul_nz; [apply mul_nz; [apply An0|apply aa0]|apply mul_nz; lia]).
  assert (x1 = 0).
  { unfold XX in EX. apply Z.mul_eq_0 in EX. destruct EX as [EX|EX]; [|auto]. exfalso.
    apply Z.mul_eq_0 in EX. destruct EX as [EX|EX]; [lia|apply aa0; auto]. }
  assert (y1 = 0).
  { assert (H1 : d2 * e2 * YY + d1 * e1 * ZZ = (a * aa * (ga * ga)) * y1).
    { rewrite <- back_T. unfold YY, ZZ. rewrite W1, W2. ring. }
    rewrite EY, EZ in H1. symmetry in H1. assert (H2 : (a * aa * (ga * ga)) * y1 = 0) by (rewrite H1; ring).
    apply Z.mul_eq_0 in H2. tauto. }
  assert (z1 = 0).
  { assert (H1 : m2 * e1 * YY - m1 * e2 * ZZ = (a * aa * (ga * ga)) * z1).
    { rewrite <- back_T. unfold YY, ZZ. rewrite W1, W2. ring. }
    rewrite EY, EZ in H1. symmetry in H1. assert (H2 : (a * aa * (ga * ga)) * z1 = 0) by (rewrite H1; ring).
    apply Z.mul_eq_0 in H2. tauto. }
  destruct NZ as [?|[?|?]]; contradiction.
Qed.
Lemma bY : b * YY = m1 * m2 * w2 * y1 + b * w1 * z1.
Proof. unfold YY. rewrite W2, Eb. ring. Qed.
Lemma cZ : c * ZZ = m1 * m2 * w1 * y1 - c * w2 * z1.
Proof. unfold ZZ. rewrite W1, Ec. ring. Qed.
Lemma n2_L1 : (n2 | l1 * w2 + b * w1).
Proof. apply (dlin1 n2 (l1 * v2 + b * v1) g); [exact L1a|]. rewrite E1, E2. ring. Qed.
Lemma n2_Q1 : (n2 | m1 * m2 * y1 - l1 * z1).
Proof. apply Z.divide_trans with aa; [apply n2_aa|exact Q1]. Qed.
Lemma back_nX : (n2 | XX).
Proof. apply (dlin1 n2 aa (- ga * x1)); [apply n2_aa|unfold XX; ring]. Qed.
Lemma back_nY : (n2 | YY).
Proof.
  apply cop_gauss with b; [apply Cn2b|]. rewrite bY.
  apply (dlin2 n2 (m1 * m2 * y1 - l1 * z1) (l1 * w2 + b * w1) w2 z1); [apply n2_Q1|apply n2_L1|ring].
Qed.
Lemma back_nZ : (n2 | ZZ).
Proof.
  apply cop_gauss with (w2 * c); [apply cop_mul; [apply cop_sym, Cw2n2|apply Cn2c]|].
  replace (w2 * c * ZZ) with (w2 * (c * ZZ)) by ring. rewrite cZ.
  apply (dlin3 n2 (m1 * m2 * y1 - l1 * z1) (l1 * w2 + b * w1) aa (w1 * w2) (w1 * z1) (- a * (d1 * d2) * (ga * ga) * z1));
    [apply n2_Q1|apply n2_L1|apply n2_aa|].
  transitivity (w1 * w2 * (m1 * m2 * y1 - l1 * z1) + w1 * z1 * (l1 * w2 + b * w1) - z1 * (b * (w1 * w1) + c * (w2 * w2))); [ring|].
  rewrite <- EQ. ring.
Qed.
Lemma back_La : (a | b * YY - k1 * ZZ).
Proof.
  apply cop_gauss with c; [apply Cac|].
  apply (dlin2 a (c * w2 - k1 * w1) (b * w1 + k1 * w2) (m1 * m2 * y1) (c * z1)); [exact LA1|exact LA2|].
  transitivity (c * (b * YY) - k1 * (c * ZZ)); [ring|]. rewrite bY, cZ. ring.
Qed.
Lemma back_Lb : (b | c * ZZ - k2 * XX).
Proof.
  rewrite Eb at 1. apply cop_prod_div; [apply Cm2d2| |].
  - assert (CM : cop m2 (a * gs)) by (apply cop_sym, (cop_div _ _ _ _ Cags); [exists 1; ring|exists (c * d2); rewrite Eb; ring]).
    assert (CC : cop m2 (d1 * d2)) by (apply (cop_div _ _ _ _ BC); [exists m1; ring|exists 1; ring]).
    apply cop_gauss with (a * gs * (d1 * d2)); [apply cop_mul; auto|].
    rewrite cZ.
    assert (Q2m : (m2 | d1 * d2 * z1 - l2 * x1)) by (apply Z.divide_trans with (m1 * m2); [exists m1; ring|exact Q2]).
    (* modulo m2 *)
    apply (dlin3 m2 (d1 * d2 * z1 - l2 * x1) (l2 * (a * gs) - k2 * v2) m2
      (- (c * w2 * (a * gs))) (- (c * w2 * x1))
      (a * gs * (d1 * d2) * (m1 * w1 * y1) + x1 * k2 * g * d2 * (v1 * v1))); [exact Q2m|exact L2b|exists 1; ring|].
    transitivity (a * gs * (d1 * d2) * (m1 * m2 * w1 * y1 - c * w2 * z1) + k2 * x1 * g * (a * aa * (d1 * d2) * (gs * gs))).
    + unfold XX. rewrite E3. ring.
    + rewrite EQs. rewrite E1, E2. rewrite Eb. ring.
  - apply cop_gauss with v1; [apply Cv1d2|]. rewrite cZ.
    assert (Q3m : (d2 | aa * x1 - l3 * y1)) by (apply Z.divide_trans with (d1 * d2); [exists d1; ring|exact Q3]).
    destruct d2v as [u U].
    assert (K2m : (d2 | k2 * k2 + a * c)) by (apply Z.divide_trans with b; [apply d2_b|exact K2]).
    destruct Q3m as [q3 Q3m], L3a as [q4 L3']. destruct key2 as [q5 K5]. destruct K2m as [q6 K6].
    exists (v1 * k2 * ga * q3 + k2 * ga * y1 * q4 + g * y1 * q5 + g * y1 * aa * (gs * gs) * q6 - c * v1 * g * u * z1).
    transitivity (v1 * k2 * ga * (aa * x1 - l3 * y1) + k2 * ga * y1 * (l3 * v1 - k2 * aa * gs) +
       g * y1 * (- (a * c * aa * (gs * gs)) + m1 * m2 * (v1 * v1)) + g * y1 * aa * (gs * gs) * (k2 * k2 + a * c) - c * v1 * w2 * z1).
    + unfold XX. rewrite E1, E3. ring.
    + rewrite Q3m, L3', K5, K6, E2, U. ring.
Qed.
Lemma back_Lc : (c | a * XX - k3 * YY).
Proof.
  rewrite Ec at 1. apply cop_prod_div; [apply Cm1d1| |].
  - assert (CM : cop m1 (a * gs)) by (apply cop_sym, (cop_div _ _ _ _ Cags); [exists 1; ring|exists (b * d1); rewrite Ec; ring]).
    assert (CC : cop m1 (d1 * d2)) by (apply (cop_div _ _ _ _ BC); [exists m2; ring|exists 1; ring]).
    apply cop_gauss with (a * gs * (d1 * d2)); [apply cop_mul; auto|].
    assert (Q2m : (m1 | d1 * d2 * z1 - l2 * x1)) by (apply Z.divide_trans with (m1 * m2); [exists m2; ring|exact Q2]).
    assert (K3m : (m1 | k3 * k3 + a * b)) by (apply Z.divide_trans with c; [apply m1_c|exact K3]).
    destruct Q2m as [q2 Q2m], L2a as [q4 L2']. destruct K3m as [q6 K6].
    exists (- k3 * w1 * (a * gs) * q2 - k3 * w1 * x1 * q4 - x1 * g * (v1 * v1) * q6 - x1 * g * a * d1 * (v2 * v2)
      - a * gs * (d1 * d2) * k3 * e2 * y1).
    transitivity (- k3 * w1 * (a * gs) * (d1 * d2 * z1 - l2 * x1) - k3 * w1 * x1 * (l2 * (a * gs) - k3 * v1)
      - x1 * g * (v1 * v1) * (k3 * k3 + a * b) - x1 * g * a * c * (v2 * v2) - a * gs * (d1 * d2) * k3 * (m1 * e2 * y1)).
    + transitivity (- (x1 * g * a * (a * aa * (d1 * d2) * (gs * gs))) - a * gs * (d1 * d2) * k3 * (m1 * e2 * y1 + w1 * z1)).
      * unfold XX, YY. rewrite E3. ring.
      * rewrite EQs. rewrite E1. ring.
    + rewrite Q2m, L2', K6. rewrite Ec. ring.
  - apply cop_gauss with (d2 * v2); [apply cop_mul; [apply Cd12|apply Cv2d1]|].
    assert (Q3m : (d1 | aa * x1 - l3 * y1)) by (apply Z.divide_trans with (d1 * d2); [exists d2; ring|exact Q3]).
    destruct Q3m as [q3 Q3m], L3b as [q4 L3']. destruct d1v as [u U].
    assert (KK : - (a * aa * (gs * gs) * d2) + m1 * (v2 * v2) = - b * d1 * (u * u)).
    { apply Z.mul_reg_l with d1; [apply D1n0|]. transitivity (- (a * aa * (d1 * d2) * (gs * gs)) + c * (v2 * v2)); [rewrite Ec; ring|].
      rewrite EQs, U. ring. }
    exists (- a * ga * d2 * v2 * q3 - a * ga * d2 * y1 * q4 + k3 * g * y1 * b * (u * u) - d2 * v2 * k3 * g * u * z1).
    transitivity (- a * ga * d2 * v2 * (aa * x1 - l3 * y1) - a * ga * d2 * y1 * (l3 * v2 + k3 * aa * gs)
       - k3 * g * y1 * (- (a * aa * (gs * gs) * d2) + m1 * (v2 * v2)) - d2 * v2 * k3 * w1 * z1).
    + unfold XX, YY. assert (W2' : m1 * v2 * y1 * (d2 * e2) = m1 * v2 * y1 * (g * v2)) by (rewrite <- W2, E2; ring).
      transitivity (d2 * v2 * (a * (- ga * aa * x1)) - k3 * (m1 * v2 * y1 * (d2 * e2)) - d2 * v2 * k3 * w1 * z1); [ring|].
      rewrite W2'. rewrite E3. ring.
    + rewrite Q3m, L3', KK, E1, U. ring.
Qed.
End Back.
End Cert.
End Star.
End Inv.

(** ** The loop *)
(** choice of the star values; codes 13 and 14 *)
Lemma star_ok n2 aa ga : binv (n2, aa, ga) ->
  exists v1 v2 gs ret,
  (let gammafactor := Z.gcd w1 ga in
    if 1 <? gammafactor then
       w1star <- zz_div w1 gammafactor ;; w2star <- zz_div w2 gammafactor ;;
       gammastar <- zz_div ga gammafactor ;;
       let e := Z.gcd d1 w1star in u <- zz_div d1 e ;; let u := Z.abs u in
       if 1 <? u then Ok (w1star, w2star, gammastar, Some (3, u))
       else
         let e := Z.gcd d2 w2star in u <- zz_div d2 e ;; let u := Z.abs u in
         if 1 <? u then Ok (w1star, w2star, gammastar, Some (2, u))
         else Ok (w1star, w2star, gammastar, None)
     else Ok (w1, w2, ga, None)) = Ok (v1, v2, gs, ret) /\
  match ret with
  | Some (code, u) => leg_code a b c code u
  | None => exists g, stars ga g v1 v2 gs
  end.
Proof.
  intros I. pose proof I as (N0 & Eaa & Gp & EQ & Cgb & Cgc & _). cbv zeta.
  destruct (Z.ltb_spec 1 (Z.gcd w1 ga)) as [L|L].
  - destruct (Z.gcd_divide_l w1 ga) as [v1 E1]. destruct (Z.gcd_divide_r w1 ga) as [gs E3].
    destruct (g_w2 n2 aa ga I (Z.gcd w1 ga) (Z.gcd_divide_l _ _) (Z.gcd_divide_r _ _)) as [v2 E2].
    set (g := Z.gcd w1 ga) in *. clearbody g. rewrite Z.mul_comm in E1, E2, E3.
    rewrite (zdiv_fac g v1 w1), (zdiv_fac g v2 w2), (zdiv_fac g gs ga) by (auto; lia). rewrite !bind_Ok.
    assert (EQs : a * aa * (d1 * d2) * (gs * gs) = b * (v1 * v1) + c * (v2 * v2)).
    { apply Z.mul_reg_l with (g * g); [clear - L; nia|].
      transitivity (a * aa * (d1 * d2) * (ga * ga)); [rewrite E3; ring|]. rewrite EQ, E1, E2. ring. }
    assert (DV1 : (d1 | v1 * v1)).
    { apply cop_gauss with b; [apply cop_sym, (cop_div b c); [apply Cbc|exists 1; ring|apply d1_c]|].
      apply (dlin2 d1 d1 c (a * aa * d2 * (gs * gs)) (- (v2 * v2))); [exists 1; ring|apply d1_c|].
      transitivity (a * aa * (d1 * d2) * (gs * gs) - c * (v2 * v2)); [rewrite EQs|]; ring. }
    assert (DV2 : (d2 | v2 * v2)).
    { apply cop_gauss with c; [apply (cop_div b c); [apply Cbc|apply d2_b|exists 1; ring]|].
      apply (dlin2 d2 d2 b (a * aa * d1 * (gs * gs)) (- (v1 * v1))); [exists 1; ring|apply d2_b|].
      transitivity (a * aa * (d1 * d2) * (gs * gs) - b * (v1 * v1)); [rewrite EQs|]; ring. }
    destruct (sq_quot d1 v1 D1n0 DV1) as (U1 & U2 & U3). destruct (sq_quot d2 v2 D2n0 DV2) as (V1 & V2 & V3).
    assert (G1 : Z.gcd d1 v1 <> 0) by (rewrite Z.gcd_eq_0; pose proof D1n0; tauto).
    assert (G2 : Z.gcd d2 v2 <> 0) by (rewrite Z.gcd_eq_0; pose proof D2n0; tauto).
    rewrite !zz_div_ok by auto. rewrite !bind_Ok.
    set (u := Z.abs (d1 / Z.gcd d1 v1)) in *. set (v := Z.abs (d2 / Z.gcd d2 v2)) in *.
    destruct (Z.ltb_spec 1 u) as [LU|LU].
    { eexists _, _, _, _. split; [reflexivity|]. split; [exact LU|]. right. right. split; [reflexivity|].
      apply Z.divide_trans with d1; [exact U1|apply d1_c]. }
    destruct (Z.ltb_spec 1 v) as [LV|LV].
    { eexists _, _, _, _. split; [reflexivity|]. split; [exact LV|]. right. left. split; [reflexivity|].
      apply Z.divide_trans with d2; [exact V1|apply d2_b]. }
    eexists _, _, _, _. split; [reflexivity|]. exists g. split; [exact E1|]. split; [exact E2|]. split; [exact E3|].
    split; [lia|]. split; [apply U2; lia|apply V2; lia].
  - eexists _, _, _, _. split; [reflexivity|]. exists 1. split; [ring|]. split; [ring|]. split; [ring|]. split; [lia|].
    split; [exact D1W|exact D2W].
Qed.

Lemma body_ok s : binv s ->
  (exists r, lem4_body xgcd rec a b c k1 k2 k3 (m1 * m2) (d1 * d2) w1 w2 d1 d2 m1 m2 n3 s = Ok (inr r) /\ bpost r) \/
  (exists s', lem4_body xgcd rec a b c k1 k2 k3 (m1 * m2) (d1 * d2) w1 w2 d1 d2 m1 m2 n3 s = Ok (inl s') /\ binv s' /\
     Z.abs (fst (fst s')) <= Z.abs (fst (fst s)) - 1).
Proof.
  destruct s as [[n2 aa] ga]. intros I. pose proof I as (N0 & Eaa & Gp & EQ & Cgb & Cgc & Cn12 & Cn23 & Caabb & Caacc).
  unfold lem4_body. destruct (star_ok n2 aa ga I) as (v1 & v2 & gs & ret & ES & P). cbv zeta in ES |- *. rewrite ES, bind_Ok.
  clear ES. cbv beta iota. destruct ret as [[code u]|].
  { left. eexists. split; [reflexivity|]. exact P. }
  destruct P as [g S].
  (* inverses *)
  assert (I1 : (n2 | v2 * invmod_z xgcd v2 n2 - 1)).
  { apply (proj1 (invmod_z_ok xgcd X v2 n2)). apply cop_sym. apply (Cv2n2 n2 aa ga I g v1 v2 gs S). }
  assert (I2 : (d2 | v1 * invmod_z xgcd v1 d2 - 1)).
  { apply (proj1 (invmod_z_ok xgcd X v1 d2)). apply cop_sym. apply (Cv1d2 ga g v1 v2 gs S). }
  assert (I3 : (d1 | v2 * invmod_z xgcd v2 d1 - 1)).
  { apply (proj1 (invmod_z_ok xgcd X v2 d1)). apply cop_sym. apply (Cv2d1 ga g v1 v2 gs S). }
  assert (I4 : (b * c | a * gs * invmod_z xgcd (a * gs) (b * c) - 1)).
  { apply (proj1 (invmod_z_ok xgcd X (a * gs) (b * c))). apply (Cags n2 aa ga I g v1 v2 gs S). }
  set (i1 := invmod_z xgcd v2 n2) in *. set (i2 := invmod_z xgcd v1 d2) in *. set (i3 := invmod_z xgcd v2 d1) in *.
  set (i4 := invmod_z xgcd (a * gs) (b * c)) in *. clearbody i1 i2 i3 i4.
  destruct (chrem_cop xgcd X (- b * v1 * i1) (- k1) n2 n3 N0 N3n0 Cn23) as (t1 & l1 & -> & H1a & H1b).
  rewrite bind_Ok. cbv beta iota.
  destruct (chrem_cop xgcd X (k3 * v1 * i4) (k2 * v2 * i4) m1 m2 M1n0 M2n0 Cm12) as (t2 & l2 & -> & H2a & H2b).
  rewrite bind_Ok. cbv beta iota.
  destruct (chrem_cop xgcd X (k2 * aa * gs * i2) (- k3 * aa * gs * i3) d2 d1 D2n0 D1n0 (cop_sym _ _ Cd12)) as (t3 & l3 & -> & H3a & H3b).
  rewrite bind_Ok. cbv beta iota.
  assert (L1a : (n2 | l1 * v2 + b * v1))
    by (apply (dlin2 n2 (l1 - - b * v1 * i1) (v2 * i1 - 1) v2 (- (b * v1))); [exact H1a|exact I1|ring]).
  assert (L1b : (n3 | l1 + k1)) by (apply (dlin1 n3 (l1 - - k1) 1); [exact H1b|ring]).
  assert (L2a : (m1 | l2 * (a * gs) - k3 * v1)).
  { apply (dlin2 m1 (l2 - k3 * v1 * i4) (a * gs * i4 - 1) (a * gs) (k3 * v1)); [exact H2a| |ring].
    apply Z.divide_trans with (b * c); [exists (b * d1); rewrite Ec; ring|exact I4]. }
  assert (L2b : (m2 | l2 * (a * gs) - k2 * v2)).
  { apply (dlin2 m2 (l2 - k2 * v2 * i4) (a * gs * i4 - 1) (a * gs) (k2 * v2)); [exact H2b| |ring].
    apply Z.divide_trans with (b * c); [exists (c * d2); rewrite Eb; ring|exact I4]. }
  assert (L3a : (d2 | l3 * v1 - k2 * aa * gs))
    by (apply (dlin2 d2 (l3 - k2 * aa * gs * i2) (v1 * i2 - 1) v1 (k2 * aa * gs)); [exact H3a|exact I2|ring]).
  assert (L3b : (d1 | l3 * v2 + k3 * aa * gs))
    by (apply (dlin2 d1 (l3 - - k3 * aa * gs * i3) (v2 * i3 - 1) v2 (- k3 * aa * gs)); [exact H3b|exact I3|ring]).
  destruct (REC aa l1 l2 l3) as ([[r u] s1] & -> & R).
  { apply (new_ok n2 aa ga I). }
  { apply (new_cert n2 aa ga I g v1 v2 gs S l1 l2 l3 L1a L1b L2a L2b L3a L3b). }
  { apply (new_small n2 aa ga I). }
  rewrite bind_Ok. cbv beta iota.
  destruct R as [(-> & SOL & LAT)|(U1 & [(-> & UU)|UU])].
  - cbn [Z.eqb]. left. eexists. split; [reflexivity|]. split; [exact I|].
    exists g, v1, v2, gs, l1, l2, l3. split; [|auto].
    destruct S as (S1 & S2 & S3 & S4 & S5 & S6). unfold bstar. auto 14.
  - cbn [Z.eqb Pos.eqb].
    destruct (Z.ltb_spec 1 (Z.gcd u n3)) as [L|L].
    + left. eexists. split; [reflexivity|]. split; [exact L|]. left. split; [reflexivity|].
      set (d := Z.gcd u n3) in *.
      assert (DU : (d | u)) by apply Z.gcd_divide_l. assert (DN : (d | n3)) by apply Z.gcd_divide_r. clearbody d.
      apply Z.divide_trans with n3; [|exists n1; exact Ea].
      apply cop_sq_div with n2.
      * apply cop_sym, (cop_div n2 n3); [exact Cn23|exists 1; ring|exact DN].
      * rewrite <- Eaa. apply Z.divide_trans with (u * u); [|exact UU]. destruct DU as [k ->]. exists (k * k). ring.
    + assert (CU : cop u n3) by (apply ngcd_cop; [lia|left; lia]).
      assert (U2 : (u * u | n2)).
      { apply cop_sq_div with n3; [exact CU|]. replace (n3 * n2) with aa by (rewrite Eaa; ring). exact UU. }
      destruct U2 as [n2' N2']. rewrite Z.mul_comm in N2'.
      assert (UU0 : u * u <> 0) by (apply mul_nz; lia).
      rewrite (zdiv_fac (u * u) n2' n2), (zdiv_fac (u * u) (n2' * n3) aa) by (auto; rewrite Eaa, N2'; ring).
      rewrite !bind_Ok. right. eexists. split; [reflexivity|].
      assert (N20 : n2' <> 0) by (intros E; apply N0; rewrite N2', E; ring).
      assert (DA : (n2' * n3 | aa)) by (exists (u * u); rewrite Eaa, N2'; ring).
      assert (DU : (u | aa)) by (apply Z.divide_trans with (u * u); [exists u; ring|exact UU]).
      assert (DN : (n2' | n2)) by (exists (u * u); rewrite N2'; ring).
      split.
      * split; [exact N20|]. split; [reflexivity|]. split; [apply Z.mul_pos_pos; lia|].
        split; [rewrite <- EQ, Eaa, N2'; ring|].
        split; [apply cop_mul_l; [exact Cgb|apply (cop_div aa b); [apply (Caab n2 aa ga I)|exact DU|exists 1; ring]]|].
        split; [apply cop_mul_l; [exact Cgc|apply (cop_div aa c); [apply (Caac n2 aa ga I)|exact DU|exists 1; ring]]|].
        split; [apply (cop_div n1 n2); [exact Cn12|exists 1; ring|exact DN]|].
        split; [apply (cop_div n2 n3); [exact Cn23|exact DN|exists 1; ring]|].
        split; [apply (cop_div aa (m1 * m2)); [exact Caabb|exact DA|exists 1; ring]|].
        apply (cop_div aa (d1 * d2)); [exact Caacc|exact DA|exists 1; ring].
      * cbn [fst]. rewrite N2'. pose proof (shrink (u * u) n2' ltac:(clear - U1; nia) N20). lia.
  - assert (R0 : r = 2 \/ r = 3) by tauto.
    assert (UD : (u * u | m1 * m2) \/ (u * u | d1 * d2)) by tauto.
    replace (r =? 0) with false by (destruct R0 as [-> | ->]; reflexivity).
    replace (r =? 1) with false by (destruct R0 as [-> | ->]; reflexivity).
    replace ((r =? 2) || (r =? 3)) with true by (destruct R0 as [-> | ->]; reflexivity).
    destruct (Z.ltb_spec 1 (Z.gcd u b)) as [L|L].
    + left. eexists. split; [reflexivity|]. split; [exact L|]. right. left. split; [reflexivity|].
      set (d := Z.gcd u b) in *.
      assert (DU : (d | u)) by apply Z.gcd_divide_l. assert (DB : (d | b)) by apply Z.gcd_divide_r. clearbody d.
      assert (D2U : (d * d | u * u)) by (destruct DU as [k ->]; exists (k * k); ring).
      destruct UD as [UD|UD].
      * apply Z.divide_trans with m2; [|apply m2_b]. apply cop_sq_div with m1; [|apply Z.divide_trans with (u * u); auto].
        apply (cop_div b c); [apply Cbc|exact DB|apply m1_c].
      * apply Z.divide_trans with d2; [|apply d2_b]. apply cop_sq_div with d1; [|apply Z.divide_trans with (u * u); auto].
        apply (cop_div b c); [apply Cbc|exact DB|apply d1_c].
    + assert (CB : cop u b) by (apply ngcd_cop; [lia|left; lia]).
      destruct (Z.ltb_spec 1 (Z.gcd u c)) as [L'|L'].
      * left. eexists. split; [reflexivity|]. split; [exact L'|]. right. right. split; [reflexivity|].
        set (d := Z.gcd u c) in *.
        assert (DU : (d | u)) by apply Z.gcd_divide_l. assert (DB : (d | c)) by apply Z.gcd_divide_r. clearbody d.
        assert (D2U : (d * d | u * u)) by (destruct DU as [k ->]; exists (k * k); ring).
        destruct UD as [UD|UD].
        -- apply Z.divide_trans with m1; [|apply m1_c]. apply cop_sq_div with m2.
           ++ apply cop_sym, (cop_div b c); [apply Cbc|apply m2_b|exact DB].
           ++ rewrite (Z.mul_comm m2). apply Z.divide_trans with (u * u); auto.
        -- apply Z.divide_trans with d1; [|apply d1_c]. apply cop_sq_div with d2.
           ++ apply cop_sym, (cop_div b c); [apply Cbc|apply d2_b|exact DB].
           ++ rewrite (Z.mul_comm d2). apply Z.divide_trans with (u * u); auto.
      * exfalso. assert (CC : cop u c) by (apply ngcd_cop; [lia|left; lia]).
        assert (DBC : (u | b * c)).
        { apply Z.divide_trans with (u * u); [exists u; ring|].
          destruct UD as [UD|UD]; (eapply Z.divide_trans; [exact UD|]); [exists (d1 * d2)|exists (m1 * m2)]; rewrite Eb, Ec; ring. }
        pose proof (div_cop_1 u (b * c) (cop_mul u b c CB CC) DBC ltac:(lia)). lia.
Qed.

Lemma loop_ok n2 aa ga : binv (n2, aa, ga) ->
  exists r, while (lem4_body xgcd rec a b c k1 k2 k3 (m1 * m2) (d1 * d2) w1 w2 d1 d2 m1 m2 n3) (zfuel n2) (n2, aa, ga) = Ok r /\ bpost r.
Proof.
  intros I. apply (while_total _ binv bpost (fun s => Z.abs (fst (fst s)))).
  - intros. lia.
  - apply body_ok.
  - exact I.
  - cbn [fst]. apply zfuel_lt.
Qed.

(** the end of lem4_1 *)
Lemma final_ok n2 aa ga s1 : bpost (inr (n2, aa, ga, s1)) ->
  exists s, (let '(x1, y1, z1) := s1 in
     let x := - ga * aa * x1 in
     t2 <- zz_div w2 d2 ;;
     let y := m1 * t2 * y1 + w1 * z1 in
     t1 <- zz_div w1 d1 ;;
     let z := m2 * t1 * y1 - w2 * z1 in
     if 1 <? Z.abs n2 then
       x <- zz_div x n2 ;; y <- zz_div y n2 ;; z <- zz_div z n2 ;; Ok (0, 0, (x, y, z))
     else Ok (0, 0, (x, y, z))) = Ok (0, 0, s) /\ leg_sol a b c s /\ leg_lat a b c k1 k2 k3 s.
Proof.
  intros (I & g & v1 & v2 & gs & l1 & l2 & l3 & (S1 & S2 & S3 & S4 & S5 & S6 & L1a & L2a & L2b & L3a & L3b) & SOL & LAT).
  pose proof I as (N0 & _). destruct s1 as [[x1 y1] z1]. destruct SOL as [SOL NZ].
  destruct D1W as [e1 W1]. destruct D2W as [e2 W2]. rewrite Z.mul_comm in W1, W2. cbv zeta.
  rewrite (zdiv_fac d2 e2 w2 D2n0 W2), (zdiv_fac d1 e1 w1 D1n0 W1). rewrite !bind_Ok.
  assert (ST : stars ga g v1 v2 gs) by (unfold stars; auto 8).
  pose proof (back_eq n2 aa ga I x1 y1 z1 e1 e2 W1 W2 SOL) as BE.
  pose proof (back_nz n2 aa ga I x1 y1 z1 e1 e2 W1 W2 NZ) as BN.
  pose proof (back_nX n2 aa ga I x1) as NX.
  pose proof (back_nY n2 aa ga I g v1 v2 gs ST l1 l2 l3 L1a x1 y1 z1 e2 W2 LAT) as NY.
  pose proof (back_nZ n2 aa ga I g v1 v2 gs ST l1 l2 l3 L1a x1 y1 z1 e1 W1 LAT) as NZZ.
  pose proof (back_La y1 z1 e1 e2 W1 W2) as BA.
  pose proof (back_Lb n2 aa ga I g v1 v2 gs ST l1 l2 l3 L2b L3a x1 y1 z1 e1 W1 LAT) as BB.
  pose proof (back_Lc n2 aa ga I g v1 v2 gs ST l1 l2 l3 L2a L3b x1 y1 z1 e2 W2 LAT) as BCC.
  cbv zeta in BE, BN, NX, NY, NZZ, BA, BB, BCC.
  set (x := - ga * aa * x1) in *. set (y := m1 * e2 * y1 + w1 * z1) in *. set (z := m2 * e1 * y1 - w2 * z1) in *.
  clearbody x y z.
  destruct (Z.ltb_spec 1 (Z.abs n2)) as [L|L].
  - destruct NX as [x' Ex], NY as [y' Ey], NZZ as [z' Ez]. rewrite Z.mul_comm in Ex, Ey, Ez.
    rewrite (zdiv_fac n2 x' x N0 Ex), (zdiv_fac n2 y' y N0 Ey), (zdiv_fac n2 z' z N0 Ez). rewrite !bind_Ok.
    eexists. split; [reflexivity|]. split; [split|split; [|split]].
    + apply Z.mul_reg_l with (n2 * n2); [apply mul_nz; auto|].
      transitivity (a * (x * x) + b * (y * y) + c * (z * z)); [rewrite Ex, Ey, Ez; ring|rewrite BE; ring].
    + destruct BN as [H|[H|H]]; [left|right; left|right; right]; intros E; apply H; [rewrite Ex|rewrite Ey|rewrite Ez]; rewrite E; ring.
    + apply cop_gauss with n2; [apply cop_sym, (Cn2a n2 aa ga I)|].
      replace (n2 * (b * y' - k1 * z')) with (b * y - k1 * z) by (rewrite Ey, Ez; ring). exact BA.
    + apply cop_gauss with n2; [apply cop_sym, (Cn2b n2 aa ga I)|].
      replace (n2 * (c * z' - k2 * x')) with (c * z - k2 * x) by (rewrite Ex, Ez; ring). exact BB.
    + apply cop_gauss with n2; [apply cop_sym, (Cn2c n2 aa ga I)|].
      replace (n2 * (a * x' - k3 * y')) with (a * x - k3 * y) by (rewrite Ex, Ey; ring). exact BCC.
  - eexists. split; [reflexivity|]. split; [split; auto|split; auto].
Qed.
End Body.
