(** Velu's isogenies of curves over Z, over any field of characteristic 0 *)
From Coq Require Import ZArith Ring Field Lia.
From Verif Require Import CurveModel CurveProofs MinimalProofs GroupLaw VeluGen.

Section VI.
Variable K : Type.
Variables k0 k1 : K.
Variables kadd kmul ksub : K -> K -> K.
Variable kopp : K -> K.
Variable kdiv : K -> K -> K.
Variable kinv : K -> K.
Hypothesis Kft : field_theory k0 k1 kadd kmul ksub kopp kdiv kinv eq.
Hypothesis keq_dec : forall x y : K, {x = y} + {x <> y}.
Add Field Kfield : Kft.
Declare Scope V_scope.
Delimit Scope V_scope with K.
Bind Scope V_scope with K.
Local Notation "x + y" := (kadd x y) : V_scope.
Local Notation "x * y" := (kmul x y) : V_scope.
Local Notation "x - y" := (ksub x y) : V_scope.
Local Notation "- x" := (kopp x) : V_scope.
Local Notation "x / y" := (kdiv x y) : V_scope.
Local Notation "0" := k0 : V_scope.
Local Notation "1" := k1 : V_scope.
Local Notation "2" := (1 + 1)%K : V_scope.
Local Notation "3" := (1 + 1 + 1)%K : V_scope.
Local Notation "4" := ((1 + 1) * (1 + 1))%K : V_scope.
Variable iz : Z -> K.
Hypothesis iz1 : iz 1 = k1.
Hypothesis iz_add : forall a b, iz (a + b) = kadd (iz a) (iz b).
Hypothesis iz_mul : forall a b, iz (a * b) = kmul (iz a) (iz b).
Hypothesis iz_inj : forall a, iz a = k0 -> a = 0%Z.
Local Open Scope V_scope.
Let k_0 := kmul_0 _ _ _ _ _ _ _ _ _ Kft.
Let s_0 := ksub_0 _ _ _ _ _ _ _ _ _ Kft.
Let m_ne := kmul_ne _ _ _ _ _ _ _ _ _ Kft.
Lemma iz_0 : iz 0 = 0.
Proof. assert (H := iz_add 0 0). cbn in H. transitivity (iz 0 + iz 0 - iz 0); [ring|]. rewrite <- H. ring. Qed.
Lemma iz_opp a : iz (- a) = - iz a.
Proof. transitivity (iz (- a + a) - iz a); [rewrite iz_add; ring|]. replace (- a + a)%Z with 0%Z by lia. rewrite iz_0. ring. Qed.
Lemma iz_sub a b : iz (a - b) = iz a - iz b.
Proof. unfold Z.sub. rewrite iz_add, iz_opp. ring. Qed.
Lemma iz_xO p : iz (Zpos (xO p)) = 2 * iz (Zpos p).
Proof. rewrite Pos2Z.inj_xO, iz_mul. f_equal. change 2%Z with (1 + 1)%Z. rewrite iz_add, iz1. reflexivity. Qed.
Lemma iz_xI p : iz (Zpos (xI p)) = 2 * iz (Zpos p) + 1.
Proof. rewrite Pos2Z.inj_xI, iz_add, iz_mul, iz1. f_equal. f_equal. change 2%Z with (1 + 1)%Z. rewrite iz_add, iz1. reflexivity. Qed.
Lemma iz_2 a : iz (a ^ 2) = iz a * iz a. Proof. rewrite <- iz_mul. f_equal. ring. Qed.
Lemma iz_3 a : iz (a ^ 3) = iz a * iz a * iz a. Proof. rewrite <- !iz_mul. f_equal. ring. Qed.
Lemma iz_4 a : iz (a ^ 4) = iz a * iz a * iz a * iz a. Proof. rewrite <- !iz_mul. f_equal. ring. Qed.
Lemma iz_6 a : iz (a ^ 6) = iz a * iz a * iz a * iz a * iz a * iz a. Proof. rewrite <- !iz_mul. f_equal. ring. Qed.
Ltac izs := repeat first [rewrite iz_add | rewrite iz_mul | rewrite iz_sub | rewrite iz_opp | rewrite iz_2 | rewrite iz_3 | rewrite iz_4 | rewrite iz_6 | rewrite iz_xO | rewrite iz_xI | rewrite iz1 | rewrite iz_0].
Ltac izs_in H := repeat first [rewrite iz_add in H | rewrite iz_mul in H | rewrite iz_sub in H | rewrite iz_opp in H | rewrite iz_2 in H | rewrite iz_3 in H | rewrite iz_4 in H | rewrite iz_6 in H | rewrite iz_xO in H | rewrite iz_xI in H | rewrite iz1 in H | rewrite iz_0 in H].
Lemma two : 2 <> 0.
Proof. intros H. assert (Q : iz 2 = 0) by (izs; rewrite <- H; ring). apply iz_inj in Q. discriminate. Qed.
Lemma three : 3 <> 0.
Proof. intros H. assert (Q : iz 3 = 0) by (izs; rewrite <- H; ring). apply iz_inj in Q. discriminate. Qed.

Section OnE.
Variable E : curve.
Local Notation A1 := (iz (a1 E)).
Local Notation A2 := (iz (a2 E)).
Local Notation A3 := (iz (a3 E)).
Local Notation A4 := (iz (a4 E)).
Local Notation A6 := (iz (a6 E)).
Hypothesis HD : sdisc E <> 0%Z.
Lemma disc_iz : disc K 1 kadd kmul ksub kopp A1 A2 A3 A4 A6 <> 0.
Proof.
  intros H. apply HD, iz_inj. rewrite <- H. unfold sdisc, sb2, sb4, sb6, sb8, disc. izs. ring.
Qed.
Hypothesis assoc : forall P Q R, on_pt kadd kmul A1 A2 A3 A4 A6 P -> on_pt kadd kmul A1 A2 A3 A4 A6 Q -> on_pt kadd kmul A1 A2 A3 A4 A6 R ->
  add 1 kadd kmul ksub kopp kdiv keq_dec A1 A2 A3 A4 (add 1 kadd kmul ksub kopp kdiv keq_dec A1 A2 A3 A4 P Q) R =
  add 1 kadd kmul ksub kopp kdiv keq_dec A1 A2 A3 A4 P (add 1 kadd kmul ksub kopp kdiv keq_dec A1 A2 A3 A4 Q R).
Definition velu_map (E : curve) (x0 t u r s v : K) (P : pt K) : pt K :=
  change K kmul ksub kdiv u r s v (phi K 1 kadd kmul ksub kdiv keq_dec (iz (a1 E)) (iz (a2 E)) (iz (a3 E)) (iz (a4 E)) (iz (a6 E)) x0 t P).
Definition hom_ker (E E' : curve) (f : pt K -> pt K) (x0 : K) : Prop :=
  (forall P, on_pt kadd kmul (iz (a1 E)) (iz (a2 E)) (iz (a3 E)) (iz (a4 E)) (iz (a6 E)) P ->
     on_pt kadd kmul (iz (a1 E')) (iz (a2 E')) (iz (a3 E')) (iz (a4 E')) (iz (a6 E')) (f P)) /\
  (forall P Q, on_pt kadd kmul (iz (a1 E)) (iz (a2 E)) (iz (a3 E)) (iz (a4 E)) (iz (a6 E)) P ->
     on_pt kadd kmul (iz (a1 E)) (iz (a2 E)) (iz (a3 E)) (iz (a4 E)) (iz (a6 E)) Q ->
     f (add 1 kadd kmul ksub kopp kdiv keq_dec (iz (a1 E)) (iz (a2 E)) (iz (a3 E)) (iz (a4 E)) P Q) =
     add 1 kadd kmul ksub kopp kdiv keq_dec (iz (a1 E')) (iz (a2 E')) (iz (a3 E')) (iz (a4 E')) (f P) (f Q)) /\
  (forall P, f P = Inf <-> P = Inf \/ exists y, P = Aff x0 y).
Local Notation ker2 := (ker2 K 0 1 kadd kmul A1 A2 A3 A4 A6).
Local Notation ker3 := (ker3 K 0 1 kadd kmul A1 A2 A3 A4 A6).
Lemma velu_hom (R E' : curve) x0 t c U r s v : c <> 0 -> (0 < U)%Z -> ker2 x0 t \/ ker3 x0 t ->
  iz (a1 R) = c * A1 -> iz (a2 R) = c * c * A2 -> iz (a3 R) = c * c * c * A3 ->
  iz (a4 R) = c * c * c * c * a4' K 1 kadd kmul ksub A4 t ->
  iz (a6 R) = c * c * c * c * c * c * a6' K 1 kadd kmul ksub A1 A2 A3 A4 A6 x0 t ->
  carries U r s v R E' ->
  hom_ker E E' (velu_map E x0 t (iz U / c) (iz r / (c * c)) (iz s / c) (iz v / (c * c * c))) x0.
Proof.
  intros C0 HU KR R1 R2 R3 R4 R6 CA.
  assert (U0 : iz U <> 0) by (intros H; apply iz_inj in H; lia).
  assert (W0 : iz U / c <> 0) by (apply (div_ne _ _ _ _ _ _ _ _ _ Kft); auto).
  unfold carries, tr_rst, scale_up in CA. pose proof (f_equal a1 CA) as Q1. pose proof (f_equal a2 CA) as Q2. pose proof (f_equal a3 CA) as Q3. pose proof (f_equal a4 CA) as Q4. pose proof (f_equal a6 CA) as Q6. clear CA. cbn [a1 a2 a3 a4 a6] in Q1, Q2, Q3, Q4, Q6.
  apply (f_equal iz) in Q1, Q2, Q3, Q4, Q6. izs_in Q1. izs_in Q2. izs_in Q3. izs_in Q4. izs_in Q6.
  rewrite ?R1, ?R2, ?R3, ?R4, ?R6 in *.
  pose proof (disc_velu _ _ _ _ _ _ _ _ _ Kft two A1 A2 A3 A4 A6 x0 t KR disc_iz) as D'.
  assert (ON : forall P, on_pt kadd kmul A1 A2 A3 A4 A6 P -> on_pt kadd kmul A1 A2 A3 (a4' K 1 kadd kmul ksub A4 t) (a6' K 1 kadd kmul ksub A1 A2 A3 A4 A6 x0 t) (phi K 1 kadd kmul ksub kdiv keq_dec A1 A2 A3 A4 A6 x0 t P)).
  { intros P HP. eapply phi_on; eauto using two. }
  set (a4v := a4' K 1 kadd kmul ksub A4 t) in *. set (a6v := a6' K 1 kadd kmul ksub A1 A2 A3 A4 A6 x0 t) in *.
  assert (E1 : A1 + 2 * (iz s / c) = iz U / c * iz (a1 E')). { match type of Q1 with ?L = _ => transitivity (L / c); [field; auto|rewrite Q1; field; auto] end. }
  assert (E2 : A2 - iz s / c * A1 + 3 * (iz r / (c * c)) - iz s / c * (iz s / c) = iz U / c * (iz U / c) * iz (a2 E')).
  { match type of Q2 with ?L = _ => transitivity (L / (c * c)); [field; auto|rewrite Q2; field; auto] end. }
  assert (E3 : A3 + iz r / (c * c) * A1 + 2 * (iz v / (c * c * c)) = iz U / c * (iz U / c) * (iz U / c) * iz (a3 E')).
  { match type of Q3 with ?L = _ => transitivity (L / (c * c * c)); [field; auto|rewrite Q3; field; auto] end. }
  assert (E4 : a4v - iz s / c * A3 + 2 * (iz r / (c * c)) * A2 - (iz v / (c * c * c) + iz r / (c * c) * (iz s / c)) * A1 + 3 * (iz r / (c * c)) * (iz r / (c * c)) - 2 * (iz s / c) * (iz v / (c * c * c)) = iz U / c * (iz U / c) * (iz U / c) * (iz U / c) * iz (a4 E')).
  { match type of Q4 with ?L = _ => transitivity (L / (c * c * c * c)); [field; auto|rewrite Q4; field; auto] end. }
  assert (E6 : a6v + iz r / (c * c) * a4v + iz r / (c * c) * (iz r / (c * c)) * A2 + iz r / (c * c) * (iz r / (c * c)) * (iz r / (c * c)) - iz v / (c * c * c) * A3 - iz v / (c * c * c) * (iz v / (c * c * c)) - iz r / (c * c) * (iz v / (c * c * c)) * A1
     = iz U / c * (iz U / c) * (iz U / c) * (iz U / c) * (iz U / c) * (iz U / c) * iz (a6 E')).
  { match type of Q6 with ?L = _ => transitivity (L / (c * c * c * c * c * c)); [field; auto|rewrite Q6; field; auto] end. }
  split; [|split].
  - intros P HP. unfold velu_map. eapply change_on; eauto.
  - intros P Q HP HQ. unfold velu_map.
    rewrite (phi_add _ _ _ _ _ _ _ _ _ Kft keq_dec two A1 A2 A3 A4 A6 x0 t KR D' disc_iz assoc P Q HP HQ).
    eapply change_add; eauto.
  - intros P. unfold velu_map. rewrite change_inf. apply phi_inf.
Qed.

(** the discriminants of the equations written down by the code *)
Lemma raw_disc (R : curve) x0 t c : c <> 0 -> ker2 x0 t \/ ker3 x0 t ->
  iz (a1 R) = c * A1 -> iz (a2 R) = c * c * A2 -> iz (a3 R) = c * c * c * A3 ->
  iz (a4 R) = c * c * c * c * a4' K 1 kadd kmul ksub A4 t ->
  iz (a6 R) = c * c * c * c * c * c * a6' K 1 kadd kmul ksub A1 A2 A3 A4 A6 x0 t -> sdisc R <> 0%Z.
Proof.
  intros C0 KR R1 R2 R3 R4 R6 H.
  apply (disc_velu _ _ _ _ _ _ _ _ _ Kft two A1 A2 A3 A4 A6 x0 t KR disc_iz).
  set (a4v := a4' K 1 kadd kmul ksub A4 t) in *. set (a6v := a6' K 1 kadd kmul ksub A1 A2 A3 A4 A6 x0 t) in *.
  apply (k_0 (c * c * c * c * c * c * (c * c * c * c * c * c))); [|auto 20].
  transitivity (iz (sdisc R)); [|rewrite H; apply iz_0]. unfold sdisc, sb2, sb4, sb6, sb8, disc. izs. rewrite R1, R2, R3, R4, R6. ring.
Qed.
(** 2-isogeny: xi = 4 x0 *)
Definition raw_eqs (R : curve) x0 t c : Prop :=
  iz (a1 R) = c * A1 /\ iz (a2 R) = c * c * A2 /\ iz (a3 R) = c * c * c * A3 /\
  iz (a4 R) = c * c * c * c * a4' K 1 kadd kmul ksub A4 t /\
  iz (a6 R) = c * c * c * c * c * c * a6' K 1 kadd kmul ksub A1 A2 A3 A4 A6 x0 t.
Lemma two_eqs xi : (xi ^ 3 + sb2 E * xi ^ 2 + 8 * sb4 E * xi + 16 * sb6 E = 0)%Z ->
  let tau := (3 * xi * xi + 2 * sb2 E * xi + 8 * sb4 E)%Z in
  ker2 (iz xi / iz 4) (iz tau / iz 16) /\
  raw_eqs (Cv (2 * a1 E) (4 * a2 E) (8 * a3 E) (16 * a4 E - 5 * tau) (64 * a6 E - 4 * sb2 E * tau - 7 * (xi * tau))) (iz xi / iz 4) (iz tau / iz 16) (iz 2).
Proof.
  intros RT tau. pose proof two as T2.
  assert (KR : ker2 (iz xi / iz 4) (iz tau / iz 16)).
  { apply (f_equal iz) in RT. unfold sb2, sb4, sb6 in RT. izs_in RT. split.
    - match type of RT with ?L = _ => transitivity (L / iz 16); [|rewrite RT; izs; field; auto] end.
      unfold B6, b6, b4, b2. izs. field. auto.
    - unfold tau, B4, b4, b2, sb2, sb4. izs. field. auto. }
  split; [exact KR|]. unfold raw_eqs. cbn [a1 a2 a3 a4 a6]. repeat split.
  - izs. ring. - izs. ring. - izs. ring.
  - unfold a4'. izs. field. auto.
  - destruct KR as (K6 & _). unfold a6'. rewrite K6. unfold b2, sb2. izs. field. auto.
Qed.
Lemma velu_two xi E' U r s v : (0 < U)%Z -> (xi ^ 3 + sb2 E * xi ^ 2 + 8 * sb4 E * xi + 16 * sb6 E = 0)%Z ->
  let tau := (3 * xi * xi + 2 * sb2 E * xi + 8 * sb4 E)%Z in
  carries U r s v (Cv (2 * a1 E) (4 * a2 E) (8 * a3 E) (16 * a4 E - 5 * tau) (64 * a6 E - 4 * sb2 E * tau - 7 * (xi * tau))) E' ->
  hom_ker E E' (velu_map E (iz xi / iz 4) (iz tau / iz 16) (iz U / iz 2) (iz r / iz 4) (iz s / iz 2) (iz v / iz 8)) (iz xi / iz 4).
Proof.
  intros HU RT tau CA. destruct (two_eqs xi RT) as (KR & R1 & R2 & R3 & R4 & R6). fold tau in KR, R1, R2, R3, R4, R6.
  assert (E4 : iz 4 = iz 2 * iz 2) by (rewrite <- iz_mul; reflexivity). assert (E8 : iz 8 = iz 2 * iz 2 * iz 2) by (rewrite <- !iz_mul; reflexivity).
  assert (N2 : iz 2 <> 0) by (intros H; apply iz_inj in H; discriminate).
  replace (iz r / iz 4) with (iz r / (iz 2 * iz 2)) by (rewrite E4; reflexivity). rewrite E8.
  exact (velu_hom _ E' (iz xi / iz 4) (iz tau / iz 16) (iz 2) U r s v N2 HU (or_introl KR) R1 R2 R3 R4 R6 CA).
Qed.
Lemma two_disc xi : (xi ^ 3 + sb2 E * xi ^ 2 + 8 * sb4 E * xi + 16 * sb6 E = 0)%Z ->
  let tau := (3 * xi * xi + 2 * sb2 E * xi + 8 * sb4 E)%Z in
  sdisc (Cv (2 * a1 E) (4 * a2 E) (8 * a3 E) (16 * a4 E - 5 * tau) (64 * a6 E - 4 * sb2 E * tau - 7 * (xi * tau))) <> 0%Z.
Proof.
  intros RT tau. destruct (two_eqs xi RT) as (KR & R1 & R2 & R3 & R4 & R6). fold tau in KR, R1, R2, R3, R4, R6.
  assert (N2 : iz 2 <> 0) by (intros H; apply iz_inj in H; discriminate).
  exact (raw_disc _ _ _ (iz 2) N2 (or_introl KR) R1 R2 R3 R4 R6).
Qed.
(** 3-isogeny: xi = 3 x0 *)
Lemma three_eqs xi : (xi ^ 4 + sb2 E * xi ^ 3 + 9 * sb4 E * xi ^ 2 + 27 * sb6 E * xi + 27 * sb8 E = 0)%Z ->
  let tau := ((2 * xi + sb2 E) * xi + 3 * sb4 E)%Z in
  let w := (((10 * xi + 6 * sb2 E) * xi + 27 * sb4 E) * xi + 27 * sb6 E)%Z in
  ker3 (iz xi / iz 3) (iz tau / iz 3) /\
  raw_eqs (Cv (3 * a1 E) (9 * a2 E) (27 * a3 E) (81 * a4 E - 135 * tau) (729 * a6 E - 243 * sb2 E * tau - 189 * w)) (iz xi / iz 3) (iz tau / iz 3) (iz 3).
Proof.
  intros RT tau w. pose proof two as T2. pose proof three as T3. assert (T3' : 1 + 2 <> 0) by (intros H; apply T3; rewrite <- H; ring).
  assert (T27 : 1 + 2 * (1 + 2 * (2 * (1 + 2))) <> 0) by (intros H; assert (Q : iz 27 = 0) by (izs; rewrite <- H; ring); apply iz_inj in Q; discriminate).
  assert (E3 : iz 3 = 3) by (izs; ring).
  assert (KR : ker3 (iz xi / iz 3) (iz tau / iz 3)).
  { assert (K4 : B4 K 1 kadd kmul A1 A2 A3 A4 (iz xi / iz 3) = iz tau / iz 3). { rewrite E3. unfold tau, B4, b4, b2, sb2, sb4. izs. field. auto. }
    assert (K2 : B2 K 1 kadd kmul A1 A2 (iz xi / iz 3) * B6 K 1 kadd kmul A1 A2 A3 A4 A6 (iz xi / iz 3) = iz tau / iz 3 * (iz tau / iz 3)).
    { rewrite <- K4. apply (f_equal iz) in RT. unfold sb2, sb4, sb6, sb8 in RT. izs_in RT. apply s_0.
      match type of RT with ?L = _ => transitivity (4 * L / (3 * 3 * 3)); [|rewrite RT; field; auto] end. rewrite E3. unfold B6, B4, B2, b6, b4, b2. field. auto. }
    split; [exact K4|]. split; [exact K2|]. intros K6. rewrite K6 in K2.
    assert (T0 : iz tau / iz 3 = 0). { destruct (keq_dec (iz tau / iz 3) 0) as [|N]; [auto|]. exfalso. apply (m_ne _ _ N N). rewrite <- K2. ring. }
    apply disc_iz. apply (k_0 4); [|now apply m_ne].
    rewrite (disc4 _ _ _ _ _ _ _ _ _ Kft A1 A2 A3 A4 A6 (iz xi / iz 3)). rewrite K6, K4, T0. unfold D4. ring. }
  split; [exact KR|]. unfold raw_eqs. cbn [a1 a2 a3 a4 a6]. rewrite ?E3. repeat split.
  - izs. ring. - izs. ring. - izs. ring.
  - unfold a4'. rewrite ?E3. izs. field. auto.
  - unfold a6', B6, b6, b4, b2, w, sb2, sb4, sb6. rewrite ?E3. izs. rewrite ?E3. unfold tau, sb2, sb4. izs. field. auto.
Qed.
Lemma velu_three xi E' U r s v : (0 < U)%Z -> (xi ^ 4 + sb2 E * xi ^ 3 + 9 * sb4 E * xi ^ 2 + 27 * sb6 E * xi + 27 * sb8 E = 0)%Z ->
  let tau := ((2 * xi + sb2 E) * xi + 3 * sb4 E)%Z in
  let w := (((10 * xi + 6 * sb2 E) * xi + 27 * sb4 E) * xi + 27 * sb6 E)%Z in
  carries U r s v (Cv (3 * a1 E) (9 * a2 E) (27 * a3 E) (81 * a4 E - 135 * tau) (729 * a6 E - 243 * sb2 E * tau - 189 * w)) E' ->
  hom_ker E E' (velu_map E (iz xi / iz 3) (iz tau / iz 3) (iz U / iz 3) (iz r / iz 9) (iz s / iz 3) (iz v / iz 27)) (iz xi / iz 3).
Proof.
  intros HU RT tau w CA. destruct (three_eqs xi RT) as (KR & R1 & R2 & R3 & R4 & R6). fold tau w in KR, R1, R2, R3, R4, R6.
  assert (E9 : iz 9 = iz 3 * iz 3) by (rewrite <- iz_mul; reflexivity). assert (E27 : iz 27 = iz 3 * iz 3 * iz 3) by (rewrite <- !iz_mul; reflexivity).
  assert (N3 : iz 3 <> 0) by (intros H; apply iz_inj in H; discriminate).
  rewrite E9, E27. exact (velu_hom _ E' (iz xi / iz 3) (iz tau / iz 3) (iz 3) U r s v N3 HU (or_intror KR) R1 R2 R3 R4 R6 CA).
Qed.
Lemma three_disc xi : (xi ^ 4 + sb2 E * xi ^ 3 + 9 * sb4 E * xi ^ 2 + 27 * sb6 E * xi + 27 * sb8 E = 0)%Z ->
  let tau := ((2 * xi + sb2 E) * xi + 3 * sb4 E)%Z in
  let w := (((10 * xi + 6 * sb2 E) * xi + 27 * sb4 E) * xi + 27 * sb6 E)%Z in
  sdisc (Cv (3 * a1 E) (9 * a2 E) (27 * a3 E) (81 * a4 E - 135 * tau) (729 * a6 E - 243 * sb2 E * tau - 189 * w)) <> 0%Z.
Proof.
  intros RT tau w. destruct (three_eqs xi RT) as (KR & R1 & R2 & R3 & R4 & R6). fold tau w in KR, R1, R2, R3, R4, R6.
  assert (N3 : iz 3 <> 0) by (intros H; apply iz_inj in H; discriminate).
  exact (raw_disc _ _ _ (iz 3) N3 (or_intror KR) R1 R2 R3 R4 R6).
Qed.
Lemma ker_points x0 t y0 : on kadd kmul A1 A2 A3 A4 A6 x0 y0 ->
  (ker2 x0 t -> forall y, on kadd kmul A1 A2 A3 A4 A6 x0 y -> y = y0) /\
  (ker3 x0 t -> add 1 kadd kmul ksub kopp kdiv keq_dec A1 A2 A3 A4 (Aff x0 y0) (Aff x0 y0) = neg kmul ksub kopp A1 A3 (Aff x0 y0) /\
     neg kmul ksub kopp A1 A3 (Aff x0 y0) <> Aff x0 y0 /\
     forall y, on kadd kmul A1 A2 A3 A4 A6 x0 y -> Aff x0 y = Aff x0 y0 \/ Aff x0 y = neg kmul ksub kopp A1 A3 (Aff x0 y0)).
Proof.
  intros O0. split; intros KR.
  - apply (ker_two _ _ _ _ _ _ _ _ _ Kft keq_dec two A1 A2 A3 A4 A6 x0 t y0 KR O0).
  - apply (ker_three _ _ _ _ _ _ _ _ _ Kft keq_dec two A1 A2 A3 A4 A6 x0 t y0 KR O0).
Qed.
(** the abscissa of a point of order 3 *)
Lemma three_x n d y : d <> 0%Z -> on kadd kmul A1 A2 A3 A4 A6 (iz n / iz d) y ->
  add 1 kadd kmul ksub kopp kdiv keq_dec A1 A2 A3 A4 (Aff (iz n / iz d) y) (Aff (iz n / iz d) y) = neg kmul ksub kopp A1 A3 (Aff (iz n / iz d) y) ->
  (3 * n ^ 4 + sb2 E * n ^ 3 * d + 3 * sb4 E * n ^ 2 * d ^ 2 + 3 * sb6 E * n * d ^ 3 + sb8 E * d ^ 4 = 0)%Z.
Proof.
  intros Hd O0 HT. pose proof two as T2. assert (D0 : iz d <> 0) by (intros H; apply iz_inj in H; auto).
  set (x0 := iz n / iz d) in *. assert (EN : iz n = x0 * iz d) by (unfold x0; field; auto). clearbody x0.
  pose proof (on_eta _ _ _ _ _ _ _ _ _ Kft A1 A2 A3 A4 A6 x0 x0 y O0) as E0.
  set (f := fy kadd kmul A1 A3 x0 y) in *.
  assert (E0' : f * f = B6 K 1 kadd kmul A1 A2 A3 A4 A6 x0) by (rewrite E0; ring). clear E0.
  cbn [add neg] in HT. destruct (keq_dec x0 x0); [|contradiction]. destruct (keq_dec y _) as [C|C]; [discriminate|].
  assert (NF : f <> 0). { intros Q. apply C. transitivity (y - f); [rewrite Q; ring|unfold f, fy; ring]. }
  unfold chord in HT. cbv zeta in HT. injection HT as HX _. fold f in HX. set (l := fx 1 kadd kmul ksub A1 A2 A4 x0 y / f) in *.
  assert (EL : (2 * l + A1) * f = B4 K 1 kadd kmul A1 A2 A3 A4 x0).
  { transitivity (2 * fx 1 kadd kmul ksub A1 A2 A4 x0 y + A1 * f); [unfold l; field; auto|]. unfold f, fx, fy, B4, b4, b2. ring. }
  assert (EB : (2 * l + A1) * (2 * l + A1) = B2 K 1 kadd kmul A1 A2 x0).
  { transitivity (4 * (l * l + A1 * l - A2 - x0 - x0) + A1 * A1 + 4 * A2 + 4 * 2 * x0); [ring|]. rewrite HX. unfold B2, b2. ring. }
  assert (Q : B2 K 1 kadd kmul A1 A2 x0 * B6 K 1 kadd kmul A1 A2 A3 A4 A6 x0 - B4 K 1 kadd kmul A1 A2 A3 A4 x0 * B4 K 1 kadd kmul A1 A2 A3 A4 x0 = 0).
  { rewrite <- EB, <- EL, <- E0'. ring. }
  apply iz_inj, (k_0 4); [|now apply m_ne]. 
  transitivity (iz d * iz d * iz d * iz d * (B2 K 1 kadd kmul A1 A2 x0 * B6 K 1 kadd kmul A1 A2 A3 A4 A6 x0 - B4 K 1 kadd kmul A1 A2 A3 A4 x0 * B4 K 1 kadd kmul A1 A2 A3 A4 x0)); [|rewrite Q; ring].
  unfold B2, B4, B6, b2, b4, b6, sb2, sb4, sb6, sb8. izs. rewrite EN. ring.
Qed.
End OnE.
End VI.
