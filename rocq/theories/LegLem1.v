(** The base cases of the descent of legendre.cc: lem1 and the Gaussian gcd. *)
From Coq Require Import ZArith Lia List Bool Ring.
From Verif Require Import Base RatModel MArithModel MArithProofs LegModel LegArith.
Import ListNotations.
Open Scope Z_scope.
Open Scope res_scope.

(** (x,y,z) solves the equation and lies in the lattice of the certificate (n,p,q) *)
Definition nonzero3 (x y z : Z) : Prop := x <> 0 \/ y <> 0 \/ z <> 0.
Definition leg_sol (a b c : Z) (s : tri) : Prop :=
  let '(x, y, z) := s in a * (x * x) + b * (y * y) + c * (z * z) = 0 /\ nonzero3 x y z.
Definition leg_lat (a b c n p q : Z) (s : tri) : Prop :=
  let '(x, y, z) := s in (a | b * y - n * z) /\ (b | c * z - p * x) /\ (c | a * x - q * y).
(** an indefinite equation with pairwise coprime coefficients, and its certificate *)
Definition leg_ok (a b c : Z) : Prop :=
  a <> 0 /\ b <> 0 /\ c <> 0 /\ cop a b /\ cop a c /\ cop b c /\
  ~ (0 < a /\ 0 < b /\ 0 < c) /\ ~ (a < 0 /\ b < 0 /\ c < 0).
Definition leg_cert (a b c n p q : Z) : Prop :=
  (a | n * n + b * c) /\ (b | p * p + a * c) /\ (c | q * q + a * b).

(** ** Gaussian integers *)
Local Notation G := (prod Z Z).
Definition g0 : G := (0, 0).
Definition g1 : G := (1, 0).
Definition gadd (u v : G) : G := (fst u + fst v, snd u + snd v).
Definition gmul (u v : G) : G := (fst u * fst v - snd u * snd v, fst u * snd v + snd u * fst v).
Definition gopp (u : G) : G := (- fst u, - snd u).
Definition gsub (u v : G) : G := gadd u (gopp v).
Definition gconj (u : G) : G := (fst u, - snd u).
Definition gn (u : G) : Z := fst u * fst u + snd u * snd u.
Definition gz (n : Z) : G := (n, 0).

Lemma g_ring : ring_theory g0 g1 gadd gmul gsub gopp (@eq G).
Proof.
  constructor; intros; repeat match goal with x : (Z * Z)%type |- _ => destruct x end;
    unfold gsub, gadd, gmul, gopp, g0, g1; cbn [fst snd]; f_equal; ring.
Qed.
Add Ring GR : g_ring.

Definition gdiv (u v : G) : Prop := exists k, v = gmul u k.

Lemma gn_nonneg u : 0 <= gn u.
Proof. unfold gn. nia. Qed.
Lemma gn_0 u : gn u = 0 -> u = g0.
Proof. destruct u as [x y]. unfold gn, g0. cbn [fst snd]. intros H. f_equal; nia. Qed.
Lemma gn_mul u v : gn (gmul u v) = gn u * gn v.
Proof. destruct u, v. unfold gn, gmul. cbn [fst snd]. ring. Qed.
Lemma gn_conj u : gn (gconj u) = gn u.
Proof. destruct u. unfold gn, gconj. cbn [fst snd]. ring. Qed.
Lemma g_norm u : gmul u (gconj u) = gz (gn u).
Proof. destruct u. unfold gn, gmul, gconj, gz. cbn [fst snd]. f_equal; ring. Qed.
Lemma gconj_mul u v : gconj (gmul u v) = gmul (gconj u) (gconj v).
Proof. destruct u, v. unfold gmul, gconj. cbn [fst snd]. f_equal; ring. Qed.
Lemma gconj_add u v : gconj (gadd u v) = gadd (gconj u) (gconj v).
Proof. destruct u, v. unfold gadd, gconj. cbn [fst snd]. f_equal; ring. Qed.
Lemma gconj_inv u : gconj (gconj u) = u.
Proof. destruct u. unfold gconj. cbn [fst snd]. f_equal; ring. Qed.
Lemma gmul_z n u : gmul (gz n) u = (n * fst u, n * snd u).
Proof. destruct u. unfold gmul, gz. cbn [fst snd]. f_equal; ring. Qed.
Lemma gmul_0 u v : gmul u v = g0 -> u = g0 \/ v = g0.
Proof.
  intros E. assert (H : gn u * gn v = 0) by (rewrite <- gn_mul, E; reflexivity).
  apply Z.mul_eq_0 in H. destruct H as [H|H]; [left|right]; apply gn_0, H.
Qed.
Lemma gmul_cancel u v w : u <> g0 -> gmul u v = gmul u w -> v = w.
Proof.
  intros U E. destruct (gmul_0 u (gsub v w)) as [H|H]; [|contradiction|].
  - transitivity (gsub (gmul u v) (gmul u w)); [ring|]. rewrite E. ring.
  - transitivity (gadd (gsub v w) w); [ring|]. rewrite H. ring.
Qed.

Definition ggcd (u v g : G) : Prop := gdiv g u /\ gdiv g v /\ exists s t, g = gadd (gmul u s) (gmul v t).

Lemma ggcd_unit u v g e e' : ggcd u v g -> gmul e e' = g1 -> ggcd u v (gmul g e).
Proof.
  intros ((k & U) & (l & V) & s & t & E) I. split; [|split].
  - exists (gmul e' k). rewrite U. transitivity (gmul (gmul g k) (gmul e e')); [rewrite I|]; ring.
  - exists (gmul e' l). rewrite V. transitivity (gmul (gmul g l) (gmul e e')); [rewrite I|]; ring.
  - exists (gmul s e), (gmul t e). rewrite E. ring.
Qed.

Lemma GIreduce_ok u v : v <> g0 -> exists k r, GIreduce (fst u) (snd u) (fst v) (snd v) = Ok r /\
  u = gadd (gmul v k) r /\ 2 * gn r <= gn v.
Proof.
  intros V. destruct u as [a b], v as [c d]. unfold GIreduce. cbn [fst snd].
  assert (N : 0 < c * c + d * d).
  { pose proof (gn_nonneg (c, d)). unfold gn in H. cbn [fst snd] in H.
    destruct (Z.eq_dec (c * c + d * d) 0); [|lia]. exfalso. apply V, gn_0. assumption. }
  destruct (roundover_ok (a * c + b * d) (c * c + d * d) N) as (q1 & -> & B1). rewrite bind_Ok.
  destruct (roundover_ok (b * c - a * d) (c * c + d * d) N) as (q2 & -> & B2). rewrite bind_Ok.
  exists (q1, q2). eexists. split; [reflexivity|]. split.
  - unfold gadd, gmul. cbn [fst snd]. f_equal; ring.
  - unfold gn. cbn [fst snd]. set (n := c * c + d * d) in *.
    set (r1 := a * c + b * d - q1 * n) in *. set (r2 := b * c - a * d - q2 * n) in *.
    set (M := (a - c * q1 + d * q2) * (a - c * q1 + d * q2) + (b - c * q2 - d * q1) * (b - c * q2 - d * q1)).
    assert (I : n * M = r1 * r1 + r2 * r2) by (unfold M, r1, r2, n; ring).
    clearbody M r1 r2. clearbody n. nia.
Qed.
Lemma GIgcd_ok a b c d : (c, d) <> g0 -> exists g, GIgcd a b c d = Ok g /\ ggcd (a, b) (c, d) g.
Proof.
  intros V. unfold GIgcd.
  replace ((c =? 0) && (d =? 0)) with false
    by (destruct (Z.eqb_spec c 0) as [->|]; [destruct (Z.eqb_spec d 0) as [->|]; [contradiction V|]|]; reflexivity).
  destruct (while_total GIgcd_step
    (fun s => let '(x1, y1, x2, y2) := s in (x2, y2) <> g0 /\
       (exists s t, (x1, y1) = gadd (gmul (a, b) s) (gmul (c, d) t)) /\
       (exists s t, (x2, y2) = gadd (gmul (a, b) s) (gmul (c, d) t)) /\
       (exists s t, (a, b) = gadd (gmul (x1, y1) s) (gmul (x2, y2) t)) /\
       (exists s t, (c, d) = gadd (gmul (x1, y1) s) (gmul (x2, y2) t)))
    (ggcd (a, b) (c, d))
    (fun s => let '(x1, y1, x2, y2) := s in gn (x2, y2))) with
    (n := zfuel (c * c + d * d)) (s := (a, b, c, d)) as ([e f] & -> & P).
  - intros [[[x1 y1] x2] y2] _. apply gn_nonneg.
  - intros [[[x1 y1] x2] y2] (N & (s1 & t1 & E1) & (s2 & t2 & E2) & (s3 & t3 & E3) & (s4 & t4 & E4)).
    unfold GIgcd_step. destruct (GIreduce_ok (x1, y1) (x2, y2) N) as (k & [x3 y3] & R & Q & L).
    cbn [fst snd] in R. rewrite R, bind_Ok. cbv beta iota.
    destruct ((x3 =? 0) && (y3 =? 0)) eqn:Z3.
    + left. exists (x2, y2). split; [reflexivity|].
      assert (Z0 : (x3, y3) = g0).
      { apply andb_true_iff in Z3. destruct Z3 as [Z3 Z4]. apply Z.eqb_eq in Z3, Z4. subst. reflexivity. }
      rewrite Z0 in Q. split; [|split].
      * exists (gadd (gmul k s3) t3). rewrite E3, Q. ring.
      * exists (gadd (gmul k s4) t4). rewrite E4, Q. ring.
      * exists s2, t2. exact E2.
    + right. eexists. split; [reflexivity|]. split; [|].
      * assert (N3 : (x3, y3) <> g0).
        { intros E. injection E as -> ->. discriminate Z3. }
        assert (Q3 : (x3, y3) = gsub (x1, y1) (gmul (x2, y2) k)) by (rewrite Q; ring).
        split; [exact N3|]. split; [exists s2, t2; exact E2|]. split; [|split].
        -- exists (gsub s1 (gmul s2 k)), (gsub t1 (gmul t2 k)). rewrite Q3, E1, E2. ring.
        -- exists (gadd (gmul k s3) t3), s3. rewrite E3, Q. ring.
        -- exists (gadd (gmul k s4) t4), s4. rewrite E4, Q. ring.
      * pose proof (gn_nonneg (x3, y3)).
        assert (0 < gn (x2, y2)). { pose proof (gn_nonneg (x2, y2)). destruct (Z.eq_dec (gn (x2, y2)) 0); [|lia]. exfalso. apply N, gn_0. auto. }
        lia.
  - split; [exact V|]. split; [exists g1, g0; ring|]. split; [exists g0, g1; ring|].
    split; [exists g1, g0; ring|exists g0, g1; ring].
  - unfold gn. cbn [fst snd]. pose proof (zfuel_lt (c * c + d * d)). nia.
  - rewrite bind_Ok. cbv beta iota.
    destruct ((e <=? 0) && (0 <? f)); [|destruct ((e <? 0) && (f <=? 0)); [|destruct ((0 <=? e) && (f <? 0))]].
    + exists (f, - e). split; [reflexivity|]. replace (f, - e) with (gmul (e, f) (0, -1))
        by (unfold gmul; cbn [fst snd]; f_equal; ring).
      apply ggcd_unit with (0, 1); auto.
    + exists (- e, - f). split; [reflexivity|]. replace (- e, - f) with (gmul (e, f) (-1, 0))
        by (unfold gmul; cbn [fst snd]; f_equal; ring).
      apply ggcd_unit with (-1, 0); auto.
    + exists (- f, e). split; [reflexivity|]. replace (- f, e) with (gmul (e, f) (0, 1))
        by (unfold gmul; cbn [fst snd]; f_equal; ring).
      apply ggcd_unit with (0, -1); auto.
    + exists (e, f). auto.
Qed.

(** the gcd of q+i and c has norm |c| when c divides q^2+1 *)
Lemma ggcd_norm q c g : c <> 0 -> (c | q * q + 1) -> ggcd (q, 1) (gz c) g ->
  gn g = Z.abs c /\ (c | fst g - q * snd g).
Proof.
  intros C0 Q ((h & H) & (k & K) & s & t & E).
  assert (GN : gz c <> g0) by (intros X; injection X; auto).
  assert (G0 : g <> g0) by (intros ->; apply GN; rewrite K; ring).
  assert (K0 : k <> g0) by (intros ->; apply GN; rewrite K; ring).
  (* c divides the norm *)
  assert (D1 : (c | gn g)).
  { destruct Q as [r Q].
    assert (X : gmul g (gconj g) = gmul (gz c) (gadd (gmul (gz r) (gmul s (gconj s)))
       (gadd (gmul t (gconj g)) (gmul (gmul (q, 1) s) (gconj t))))).
    { assert (N1 : gmul (q, 1) (gconj (q, 1)) = gmul (gz c) (gz r)).
      { rewrite g_norm. unfold gn, gmul, gz. cbn [fst snd]. f_equal; [|ring]. lia. }
      assert (EC : gconj g = gadd (gmul (gconj (q, 1)) (gconj s)) (gmul (gz c) (gconj t))).
      { rewrite E at 1. rewrite gconj_add, !gconj_mul. f_equal. }
      transitivity (gadd (gmul (gmul (q, 1) (gconj (q, 1))) (gmul s (gconj s)))
        (gmul (gz c) (gadd (gmul t (gconj g)) (gmul (gmul (q, 1) s) (gconj t))))).
      - rewrite E at 1. transitivity (gadd (gmul (gmul (q, 1) s) (gconj g)) (gmul (gmul (gz c) t) (gconj g))); [ring|].
        rewrite EC at 1. ring.
      - rewrite N1. ring. }
    rewrite g_norm in X. rewrite gmul_z in X. injection X as X _. eexists. rewrite X, Z.mul_comm. reflexivity. }
  (* g = conj(k) m with m an integer *)
  destruct D1 as [r D1].
  assert (GK : gconj g = gmul k (gz r)).
  { apply gmul_cancel with g; [exact G0|]. rewrite g_norm, D1.
    transitivity (gmul (gmul g k) (gz r)); [|ring]. rewrite <- K. unfold gz, gmul. cbn [fst snd]. f_equal; ring. }
  assert (GK' : g = gmul (gconj k) (gz r)).
  { rewrite <- (gconj_inv g), GK, gconj_mul. f_equal. }
  assert (R1 : r = 1 \/ r = -1).
  { apply Z.divide_1_r. 
    assert (HH : (q, 1) = gmul (gz r) (gmul (gconj k) h)) by (rewrite H, GK'; ring).
    rewrite gmul_z in HH. injection HH as _ HH. eexists. rewrite HH at 1. rewrite Z.mul_comm. reflexivity. }
  assert (NG : gn g = Z.abs c).
  { pose proof (gn_nonneg g). destruct R1 as [-> | ->]; lia. }
  split; [exact NG|].
  assert (X : gmul (q, 1) (gconj g) = gmul (gz (gn g)) h).
  { rewrite H. transitivity (gmul (gmul g (gconj g)) h); [ring|]. rewrite g_norm. reflexivity. }
  rewrite gmul_z in X. destruct g as [x y]. unfold gmul, gconj in X. cbn [fst snd] in *.
  apply (f_equal (@snd Z Z)) in X. cbn [fst snd] in X. rewrite NG in X.
  assert (D2 : (Z.abs c | x - q * y)) by (exists (snd h); lia).
  apply Z.divide_abs_l, D2.
Qed.

(** ** lem1plus *)
Lemma lem1plus_ok a b c n p q : a * b = 1 -> leg_ok a b c -> (c | q * q + a * b) ->
  exists s, lem1plus a b c n p q = Ok s /\ leg_sol a b c s /\ (let '(x, y, z) := s in (c | a * x - q * y)).
Proof.
  intros AB (A0 & B0 & C0 & _ & _ & _ & S1 & S2) Q. unfold lem1plus.
  assert (U : (a = 1 /\ b = 1) \/ (a = -1 /\ b = -1)) by nia.
  destruct (GIgcd_ok q 1 c 0) as ([x y] & -> & GG); [intros E; injection E; auto|]. rewrite bind_Ok. cbv beta iota.
  destruct (ggcd_norm q c (x, y) C0 ltac:(rewrite <- AB; exact Q) GG) as [N D].
  unfold gn in N. cbn [fst snd] in N, D. eexists. split; [reflexivity|].
  destruct U as [[-> ->]|[-> ->]]; cbn [Z.eqb Pos.eqb].
  - split; [split; [|right; right; lia]|].
    + assert (c < 0) by lia. lia.
    + destruct D as [k D]. exists k. lia.
  - split; [split; [|right; right; lia]|].
    + assert (0 < c) by lia. lia.
    + destruct D as [k D]. exists (- k). lia.
Qed.

(** ** lem1minus *)
Lemma lem1minus_gcd q c : c <> 0 -> (c | q * q - 1) ->
  let cp := Z.gcd (q - 1) c in let cm := Z.gcd (q + 1) c in
  0 < cp /\ 0 < cm /\ exists s t, q - 1 = cp * s /\ q + 1 = cm * t /\
  ((cp * cm = Z.abs c /\ exists x, cm - cp = 2 * x /\ (Z.odd c = true \/ Z.even (s + t) = true)) \/
   (cp * cm = 2 * Z.abs c /\ exists h, cm = 2 * h)).
Proof.
  intros C0 D cp cm.
  destruct (gcd_split (q - 1) c) as (s & c1 & Es & Ec1 & G1 & P1); [auto|].
  destruct (gcd_split (q + 1) c) as (t & c2 & Et & Ec2 & G2 & P2); [auto|].
  fold cp in Es, Ec1, P1. fold cm in Et, Ec2, P2.
  split; [exact P1|]. split; [exact P2|]. exists s, t. split; [exact Es|]. split; [exact Et|].
  (* c divides cp*cm *)
  assert (DC : (c | cp * cm)).
  { destruct D as [k D].
    assert (E1 : (c1 | s * cm * t)).
    { exists k. apply Z.mul_reg_l with cp; [lia|]. transitivity ((q - 1) * (q + 1)); [rewrite Es, Et; ring|].
      transitivity (k * c); [lia|]. rewrite Ec1. ring. }
    assert (E2 : (c1 | cm * t)).
    { apply cop_gauss with s; [apply cop_sym; exact G1|]. replace (s * (cm * t)) with (s * cm * t) by ring. exact E1. }
    (* c1 divides c, and cm t = q+1: so c1 | gcd(q+1,c) = cm *)
    assert (E3 : (c1 | cm)).
    { unfold cm. apply Z.gcd_greatest; [rewrite Et; exact E2|exists cp; lia]. }
    destruct E3 as [j E3]. exists j. rewrite E3. rewrite Ec1. ring. }
  (* cp * cm / gcd divides c *)
  set (g := Z.gcd cp cm).
  assert (G12 : g = 1 \/ g = 2).
  { assert (GD : (g | 2)).
    { destruct (Z.gcd_divide_l cp cm) as [u U]. destruct (Z.gcd_divide_r cp cm) as [v V]. fold g in U, V.
      exists (v * t - u * s). transitivity ((q + 1) - (q - 1)); [ring|]. rewrite Es, Et, U, V. ring. }
    pose proof (Z.gcd_nonneg cp cm). fold g in H. apply Z.divide_pos_le in GD as L; [|lia].
    destruct (Z.eq_dec g 0) as [E|]; [rewrite E in GD; destruct GD; lia|lia]. }
  assert (LC : (cp * cm | g * c)).
  { destruct (gcd_split cp cm) as (u & v & U & V & CUV & GP); [lia|]. fold g in U, V, GP.
    assert (X : (u * v | c1 * u)).
    { apply cop_prod_div; [exact CUV|exists c1; ring|].
      exists c2. apply Z.mul_reg_l with g; [lia|].
      transitivity c; [rewrite Ec1, U; ring|rewrite Ec2, V; ring]. }
    destruct X as [k X]. exists k. rewrite Ec1 at 1. rewrite U, V. 
    transitivity (g * g * (c1 * u)); [ring|rewrite X; ring]. }
  assert (CM : 0 < cp * cm) by nia.
  assert (PAR : Z.even c = true -> Z.even cp = true /\ Z.even cm = true).
  { intros EC. apply Z.even_spec in EC. destruct EC as [c' EC].
    assert (OQ : Z.odd q = true).
    { destruct D as [k D]. rewrite <- Z.negb_even. apply negb_true_iff. destruct (Z.even q) eqn:EQ; [|reflexivity].
      apply Z.even_spec in EQ. destruct EQ as [q' EQ]. rewrite EC, EQ in D. clear - D. lia. }
    apply Z.odd_spec in OQ. destruct OQ as [q' OQ].
    assert (T1 : (2 | cp)) by (apply Z.gcd_greatest; [exists q'; lia|exists c'; lia]).
    assert (T2 : (2 | cm)) by (apply Z.gcd_greatest; [exists (q' + 1); lia|exists c'; lia]).
    destruct T1 as [x1 T1], T2 as [x2 T2]. rewrite T1, T2, !Z.even_mul, !orb_true_r. auto. }
  assert (PARO : Z.even c = false -> exists x, cm - cp = 2 * x).
  { intros OC. assert (O1 : Z.odd cp = true /\ Z.odd cm = true).
    { rewrite Ec1, Z.even_mul in OC. apply orb_false_iff in OC. destruct OC as [OC _].
      rewrite <- !Z.negb_even, OC. split; [reflexivity|].
      destruct (Z.even cm) eqn:X; [|reflexivity]. exfalso.
      apply Z.even_spec in X. destruct X as [x X].
      assert (Z.even (cp * c1) = true) by (rewrite <- Ec1; rewrite Ec2, X, !Z.even_mul; reflexivity).
      rewrite Z.even_mul in H. destruct DC as [j DC].
      assert (Z.even c = true) by (rewrite Ec2, X, !Z.even_mul; reflexivity).
      destruct LC as [l LC].
      (* c even but cp odd: then q-1 ... use the parity of q *)
      destruct (Z.even cp) eqn:Y; [discriminate|].
      destruct (PAR H0) as [W _]. congruence. }
    destruct O1 as [O1 O2]. apply Z.odd_spec in O1, O2. destruct O1 as [x1 O1], O2 as [x2 O2].
    exists (x2 - x1). lia. }
  destruct DC as [j DC].
  assert (DJ : cp * cm = Z.abs c \/ (cp * cm = 2 * Z.abs c /\ g = 2)).
  { destruct LC as [l LC].
    assert (JJ : 0 < Z.abs j /\ cp * cm = Z.abs j * Z.abs c) 
      by (assert (j <> 0) by (intros ->; clear - DC CM; lia); rewrite <- Z.abs_mul, <- DC, (Z.abs_eq (cp * cm)) by lia; split; [lia|reflexivity]).
    assert (LL : g * Z.abs c = Z.abs l * (cp * cm)).
    { rewrite <- (Z.abs_eq (cp * cm)), <- Z.abs_mul, <- LC, Z.abs_mul by lia. rewrite (Z.abs_eq g) by lia. reflexivity. }
    destruct JJ as [J1 J2]. rewrite J2 in LL. assert (0 < Z.abs c) by lia.
    assert (GL : g = Z.abs l * Z.abs j) by (apply Z.mul_reg_r with (Z.abs c); lia).
    assert (DJ : (Z.abs j | g)) by (exists (Z.abs l); exact GL).
    assert (JL : Z.abs j <= g) by (apply Z.divide_pos_le; [lia|exact DJ]).
    destruct (Z.eq_dec (Z.abs j) 1) as [E|E]; rewrite J2; [left; rewrite E; lia|right].
    assert (Z.abs j = 2) as -> by lia. lia. }
  destruct DJ as [DJ|[DJ GE]].
  - left. split; [exact DJ|]. destruct (Z.even c) eqn:EC.
    + destruct (PAR eq_refl) as [V1 V2]. apply Z.even_spec in V1, V2. destruct V1 as [cp' V1], V2 as [cm' V2].
      exists (cm' - cp'). split; [lia|]. right.
      (* s and t are odd *)
      assert (C4 : Z.abs c = 4 * (cp' * cm')) by (rewrite <- DJ, V1, V2; ring).
      assert (SO : Z.odd s = true).
      { rewrite <- Z.negb_even. apply negb_true_iff. destruct (Z.even s) eqn:X; [|reflexivity].
        apply Z.even_spec in X. destruct X as [s' X]. exfalso.
        assert (2 | 1)%Z as H1.
        { apply (cop_one s c1 2 G1); [exists s'; lia|].
          (* c1 = +-c/cp = +-2 cm' *)
          assert (Z.abs c1 = 2 * cm'). { apply Z.mul_reg_l with cp; [lia|]. transitivity (Z.abs c); [rewrite Ec1, Z.abs_mul, (Z.abs_eq cp) by lia; reflexivity|]. rewrite C4, V1. ring. }
          apply Z.divide_abs_r. exists cm'. lia. }
        destruct H1. lia. }
      assert (TO : Z.odd t = true).
      { rewrite <- Z.negb_even. apply negb_true_iff. destruct (Z.even t) eqn:X; [|reflexivity].
        apply Z.even_spec in X. destruct X as [s' X]. exfalso.
        assert (2 | 1)%Z as H1.
        { apply (cop_one t c2 2 G2); [exists s'; lia|].
          assert (Z.abs c2 = 2 * cp'). { apply Z.mul_reg_l with cm; [lia|]. transitivity (Z.abs c); [rewrite Ec2, Z.abs_mul, (Z.abs_eq cm) by lia; reflexivity|]. rewrite C4, V2. ring. }
          apply Z.divide_abs_r. exists cp'. lia. }
        destruct H1. lia. }
      rewrite Z.even_add, <- !Z.negb_odd, SO, TO. reflexivity.
    + destruct (PARO eq_refl) as [x X]. exists x. split; [exact X|]. left. rewrite <- Z.negb_even, EC. reflexivity.
  - right. split; [exact DJ|]. destruct (Z.gcd_divide_r cp cm) as [v V]. fold g in V. exists v. rewrite GE in V. lia.
Qed.
Lemma lem1minus_ok a b c n p q : a * b = -1 -> leg_ok a b c -> (c | q * q + a * b) ->
  exists s, lem1minus a b c n p q = Ok s /\ leg_sol a b c s /\ (let '(x, y, z) := s in (c | a * x - q * y)).
Proof.
  intros AB (A0 & B0 & C0 & _ & _ & _ & _) Q. rewrite AB in Q. change (q * q + -1) with (q * q - 1) in Q. unfold lem1minus.
  assert (U : (a = 1 /\ b = -1) \/ (a = -1 /\ b = 1)) by nia. clear AB.
  destruct (Z.eqb_spec q 1) as [->|Q1].
  { eexists. split; [reflexivity|]. split; [split; [|left; lia]|].
    - destruct U as [[-> ->]|[-> ->]]; ring.
    - exists 0. ring. }
  destruct ((q =? -1) || (q =? Z.abs c - 1)) eqn:Q2.
  { eexists. split; [reflexivity|]. split; [split; [|left; lia]|].
    - destruct U as [[-> ->]|[-> ->]]; ring.
    - apply orb_true_iff in Q2. destruct Q2 as [Q2|Q2]; apply Z.eqb_eq in Q2.
      + exists 0. subst q. ring.
      + apply Z.divide_abs_l. exists a. subst q. ring. }
  destruct (lem1minus_gcd q c C0 ltac:(replace (q * q - 1) with (q * q - 1) by ring; exact Q)) as (P1 & P2 & s & t & Es & Et & H).
  cbv zeta. set (cp := Z.gcd (q - 1) c) in *. set (cm := Z.gcd (q + 1) c) in *. clearbody cp cm. clear Q2.
  rewrite zz_div_ok by lia. rewrite bind_Ok.
  destruct H as [(E & x & X & PR)|(E & h & X)].
  - rewrite E. rewrite Z.eqb_refl. rewrite zz_div_ok by lia. rewrite X, Z.mul_comm, Z.div_mul by lia. rewrite bind_Ok.
    rewrite Z.div_same by lia.
    assert (Ecm : cm = cp + 2 * x) by lia. set (y := cm - x).
    assert (Y : y = cp + x) by (unfold y; lia). clearbody y.
    assert (EQ : y * y - x * x = Z.abs c) by (rewrite <- E, Ecm, Y; ring).
    (* congruences *)
    assert (L1 : 2 * (x - q * y) = - (Z.abs c * (s + t))).
    { transitivity (cm * (1 - q) - cp * (1 + q)); [rewrite Ecm, Y; ring|].
      rewrite <- E. replace (1 - q) with (- (q - 1)) by ring. replace (1 + q) with (q + 1) by ring. rewrite Es, Et. ring. }
    assert (L2 : 2 * (y - q * x) = Z.abs c * (t - s)).
    { transitivity (cm * (1 - q) + cp * (1 + q)); [rewrite Ecm, Y; ring|].
      rewrite <- E. replace (1 - q) with (- (q - 1)) by ring. replace (1 + q) with (q + 1) by ring. rewrite Es, Et. ring. }
    assert (D12 : (c | x - q * y) /\ (c | y - q * x)).
    { destruct PR as [OC|EV].
      - assert (C2 : cop c 2).
        { apply Z.odd_spec in OC. destruct OC as [r OC]. apply cop_inv with 1 (- r). lia. }
        split; apply cop_gauss with 2; auto; rewrite ?L1, ?L2; [apply Z.divide_opp_r|]; apply Z.divide_mul_l, Z.divide_abs_r; exists 1; ring.
      - apply Z.even_spec in EV. destruct EV as [r EV].
        split; apply Z.divide_abs_l.
        + exists (- r). assert (s = 2 * r - t) by lia. subst s. lia.
        + exists (t - r). assert (s = 2 * r - t) by lia. subst s. lia. }
    destruct D12 as [D1 D2]. clear L1 L2 PR Es Et s t.
    destruct (Z.ltb_spec 0 (b * c)) as [BC|BC]; cbv beta iota;
      (eexists; split; [reflexivity|]); (split; [split; [|right; right; lia]|]);
      destruct U as [[-> ->]|[-> ->]]; cbn [Z.ltb Z.compare]; try lia;
      destruct D1 as [k1 D1], D2 as [k2 D2]; first [exists k1; lia|exists k2; lia|exists (- k1); lia|exists (- k2); lia].
  - rewrite E. destruct (Z.eqb_spec (2 * Z.abs c) (Z.abs c)); [lia|]. rewrite Z.eqb_refl.
    rewrite zz_div_ok by lia. rewrite X. rewrite (Z.mul_comm 2 h), Z.div_mul by lia. rewrite !bind_Ok. rewrite Z.div_mul by lia.
    set (x := h - cp). assert (Y : h * 2 - x = h + cp) by (unfold x; lia). rewrite Y. set (y := h + cp).
    assert (EQ : y * y - x * x = 4 * Z.abs c) by (transitivity (2 * (cp * cm)); [rewrite X; unfold x, y; ring|rewrite E; ring]).
    assert (L1 : x - q * y = - (Z.abs c * (s + 2 * t))).
    { transitivity (- (h * (q - 1)) - cp * (q + 1)); [unfold x, y; ring|].
      rewrite Es, Et. assert (cp * h = Z.abs c) by (rewrite X in E; lia). rewrite X. replace (cp * (2 * h * t)) with (2 * t * (cp * h)) by ring.
      replace (h * (cp * s)) with (s * (cp * h)) by ring. rewrite H. ring. }
    assert (L2 : y - q * x = Z.abs c * (2 * t - s)).
    { transitivity (- (h * (q - 1)) + cp * (q + 1)); [unfold x, y; ring|].
      rewrite Es, Et. assert (cp * h = Z.abs c) by (rewrite X in E; lia). rewrite X. replace (cp * (2 * h * t)) with (2 * t * (cp * h)) by ring.
      replace (h * (cp * s)) with (s * (cp * h)) by ring. rewrite H. ring. }
    assert (D1 : (c | x - q * y)) by (apply Z.divide_abs_l; rewrite L1; eexists (- (s + 2 * t)); ring).
    assert (D2 : (c | y - q * x)) by (apply Z.divide_abs_l; rewrite L2; eexists (2 * t - s); ring).
    clearbody x y. clear L1 L2 Es Et s t E.
    destruct (Z.ltb_spec 0 (b * c)) as [BC|BC]; cbv beta iota;
      (eexists; split; [reflexivity|]); (split; [split; [|right; right; lia]|]);
      destruct U as [[-> ->]|[-> ->]]; cbn [Z.ltb Z.compare]; try lia;
      destruct D1 as [k1 D1], D2 as [k2 D2]; first [exists k1; lia|exists k2; lia|exists (- k1); lia|exists (- k2); lia].
Qed.

(** ** lem1, as it is called *)
Lemma unit_div u n : u = 1 \/ u = -1 -> (u | n).
Proof. intros [-> | ->]; [exists n|exists (- n)]; ring. Qed.
Lemma lem1_ok a b c n p q : Z.abs b = 1 -> Z.abs c = 1 -> leg_ok a b c -> leg_cert a b c n p q ->
  exists s, lem1 a b c n p q = Ok s /\ leg_sol a b c s /\ leg_lat a b c n p q s.
Proof.
  intros B1 C1 (A0 & B0 & C0 & G1 & G2 & G3 & S1 & S2) (K1 & K2 & K3). unfold lem1.
  assert (OK' : leg_ok b c a).
  { split; [auto|]. split; [auto|]. split; [auto|]. split; [auto|]. split; [apply cop_sym; auto|]. split; [apply cop_sym; auto|].
    split; [intros H; apply S1|intros H; apply S2]; tauto. }
  assert (K1' : (a | n * n + b * c)) by exact K1.
  destruct (Z.eqb_spec (b * c) (-1)) as [E|NE].
  - destruct (lem1minus_ok b c a p q n E OK' K1') as ([[y z] x] & -> & (S & NZ) & L). rewrite bind_Ok. cbv beta iota.
    eexists. split; [reflexivity|]. split; [split; [lia|unfold nonzero3 in *; tauto]|].
    split; [exact L|]. split; apply unit_div; lia.
  - assert (E : b * c = 1) by nia. rewrite E. cbn [Z.eqb Pos.eqb].
    destruct (lem1plus_ok b c a p q n E OK' K1') as ([[y z] x] & -> & (S & NZ) & L). rewrite bind_Ok. cbv beta iota.
    eexists. split; [reflexivity|]. split; [split; [lia|unfold nonzero3 in *; tauto]|].
    split; [exact L|]. split; apply unit_div; lia.
Qed.
