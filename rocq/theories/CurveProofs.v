(** Proofs about Weierstrass equations: invariants and Kraus' conditions. *)
From Coq Require Import ZArith Znumtheory Lia List Bool.
From Verif Require Import Base RatModel MArithModel MArithProofs CurveModel.
Import ListNotations.
Open Scope Z_scope.

(** ** Specification: the textbook invariants *)
Definition sb2 (c : curve) := a1 c ^ 2 + 4 * a2 c.
Definition sb4 (c : curve) := 2 * a4 c + a1 c * a3 c.
Definition sb6 (c : curve) := a3 c ^ 2 + 4 * a6 c.
Definition sb8 (c : curve) :=
  a1 c ^ 2 * a6 c + 4 * a2 c * a6 c - a1 c * a3 c * a4 c + a2 c * a3 c ^ 2 - a4 c ^ 2.
Definition sc4 (c : curve) := sb2 c ^ 2 - 24 * sb4 c.
Definition sc6 (c : curve) := - sb2 c ^ 3 + 36 * sb2 c * sb4 c - 216 * sb6 c.
Definition sdisc (c : curve) :=
  - sb2 c ^ 2 * sb8 c - 8 * sb4 c ^ 3 - 27 * sb6 c ^ 2 + 9 * sb2 c * sb4 c * sb6 c.

Lemma s_b8 c : 4 * sb8 c = sb2 c * sb6 c - sb4 c ^ 2.
Proof. unfold sb8, sb2, sb6, sb4. ring. Qed.
Lemma s_disc c : 1728 * sdisc c = sc4 c ^ 3 - sc6 c ^ 2.
Proof.
  assert (4 * (1728 * sdisc c) = 4 * (sc4 c ^ 3 - sc6 c ^ 2)); [|lia].
  unfold sdisc. replace (4 * (1728 * (- sb2 c ^ 2 * sb8 c - 8 * sb4 c ^ 3 - 27 * sb6 c ^ 2 + 9 * sb2 c * sb4 c * sb6 c)))
   with (1728 * (- sb2 c ^ 2 * (4 * sb8 c) - 32 * sb4 c ^ 3 - 108 * sb6 c ^ 2 + 36 * sb2 c * sb4 c * sb6 c)) by ring.
  rewrite s_b8. unfold sc4, sc6. ring.
Qed.

(** Data that is consistent with its own coefficients. *)
Definition consistent (E : curvedata) : Prop :=
  b2 E = sb2 (cv E) /\ b4 E = sb4 (cv E) /\ b6 E = sb6 (cv E) /\ b8 E = sb8 (cv E) /\
  c4 E = sc4 (cv E) /\ c6 E = sc6 (cv E) /\ discr E = sdisc (cv E).

Lemma div_exact_eq a b q : b <> 0 -> a = b * q -> a / b = q.
Proof. intros H ->. rewrite Z.mul_comm. now apply Z.div_mul. Qed.

Lemma curvedata_of_ok pdivs c :
  (sdisc c = 0 -> curvedata_of pdivs c false = Ok null_data) /\
  (sdisc c <> 0 -> exists E, curvedata_of pdivs c false = Ok E /\ cv E = c /\ consistent E /\
     conncomp E = (if 0 <? sdisc c then 2 else 1) /\ minimal_flag E = false).
Proof.
  unfold curvedata_of. cbv zeta.
  set (B2 := a1 c * a1 c + 4 * a2 c). set (B4 := 2 * a4 c + a1 c * a3 c). set (B6 := a3 c * a3 c + 4 * a6 c).
  assert (E2 : B2 = sb2 c) by (unfold B2, sb2; ring). assert (E4 : B4 = sb4 c) by (unfold B4, sb4; ring).
  assert (E6 : B6 = sb6 c) by (unfold B6, sb6; ring). clearbody B2 B4 B6.
  assert (C4 : B2 * B2 - 24 * B4 = sc4 c) by (rewrite E2, E4; unfold sc4; ring).
  assert (C6 : - B2 * B2 * B2 + 36 * B2 * B4 - 216 * B6 = sc6 c) by (rewrite E2, E4, E6; unfold sc6; ring).
  rewrite C4, C6.
  assert (D : (sc4 c * sc4 c * sc4 c - sc6 c * sc6 c) / 1728 = sdisc c).
  { apply div_exact_eq; [lia|]. rewrite s_disc. ring. }
  rewrite D. split; intros H.
  - rewrite H. reflexivity.
  - destruct (Z.eqb_spec (sdisc c) 0); [contradiction|]. eexists. split; [reflexivity|].
    cbn [cv conncomp minimal_flag]. split; [reflexivity|]. split; [|auto]. unfold consistent.
    cbn [cv b2 b4 b6 b8 c4 c6 discr]. do 3 (split; [assumption|]). split; [|auto].
    apply div_exact_eq; [lia|]. rewrite s_b8, E2, E4, E6. ring.
Qed.

(** ** transform(r,s,t) *)
Definition tr_rst (r s t : Z) (c : curve) : curve :=
  Cv (a1 c + 2 * s) (a2 c - s * a1 c + 3 * r - s ^ 2) (a3 c + r * a1 c + 2 * t)
     (a4 c - s * a3 c + 2 * r * a2 c - (t + r * s) * a1 c + 3 * r ^ 2 - 2 * s * t)
     (a6 c + r * a4 c + r ^ 2 * a2 c + r ^ 3 - t * a3 c - t ^ 2 - r * t * a1 c).
Lemma curve_eq x1 x2 x3 x4 x6 y1 y2 y3 y4 y6 : x1 = y1 -> x2 = y2 -> x3 = y3 -> x4 = y4 -> x6 = y6 ->
  Cv x1 x2 x3 x4 x6 = Cv y1 y2 y3 y4 y6.
Proof. congruence. Qed.
Lemma cd_transform_cv r s t E : cv (cd_transform r s t E) = tr_rst r s t (cv E).
Proof. unfold cd_transform, tr_rst. cbn [cv]. apply curve_eq; ring. Qed.
Ltac inv_tr := unfold sc4, sc6, sdisc, sb2, sb4, sb6, sb8, tr_rst; cbn [a1 a2 a3 a4 a6]; ring.
Lemma sc4_tr r s t c : sc4 (tr_rst r s t c) = sc4 c.
Proof. inv_tr. Qed.
Lemma sb2_tr r s t c : sb2 (tr_rst r s t c) = sb2 c + 12 * r.
Proof. inv_tr. Qed.
Lemma sb4_tr r s t c : sb4 (tr_rst r s t c) = sb4 c + r * sb2 c + 6 * r ^ 2.
Proof. inv_tr. Qed.
Lemma sb6_tr r s t c : sb6 (tr_rst r s t c) = sb6 c + 2 * r * sb4 c + r ^ 2 * sb2 c + 4 * r ^ 3.
Proof. inv_tr. Qed.
Lemma sc6_tr r s t c : sc6 (tr_rst r s t c) = sc6 c.
Proof. unfold sc6. rewrite sb2_tr, sb4_tr, sb6_tr. ring. Qed.
Lemma sdisc_tr r s t c : sdisc (tr_rst r s t c) = sdisc c.
Proof.
  assert (1728 * sdisc (tr_rst r s t c) = 1728 * sdisc c); [|lia].
  now rewrite !s_disc, sc4_tr, sc6_tr.
Qed.
Lemma cd_transform_ok r s t E : consistent E -> consistent (cd_transform r s t E).
Proof.
  intros (H2 & H4 & H6 & H8 & HC4 & HC6 & HD). unfold consistent.
  pose proof (cd_transform_cv r s t E) as Ecv.
  assert (HH : c4 (cd_transform r s t E) = c4 E /\ c6 (cd_transform r s t E) = c6 E /\
    discr (cd_transform r s t E) = discr E) by (unfold cd_transform; cbn [c4 c6 discr]; auto).
  destruct HH as (-> & -> & ->). rewrite Ecv. rewrite sc4_tr, sc6_tr, sdisc_tr.
  rewrite <- Ecv. unfold cd_transform. cbn [cv b2 b4 b6 b8].
  set (A1 := a1 (cv E) + (s + s)). set (A2 := a2 (cv E) + _). set (A3 := a3 (cv E) + _).
  set (A4 := a4 (cv E) + _). set (A6 := a6 (cv E) + _). clearbody A1 A2 A3 A4 A6.
  unfold sb2, sb4, sb6. cbn [a1 a2 a3 a4 a6].
  split; [ring|]. split; [ring|]. split; [ring|]. split; [|auto].
  apply div_exact_eq; [lia|]. unfold sb8. cbn [a1 a2 a3 a4 a6]. ring.
Qed.

(** ** Kraus' conditions *)
Definition kraus (x4 x6 : Z) : Prop :=
  x4 ^ 3 - x6 ^ 2 <> 0 /\ (1728 | x4 ^ 3 - x6 ^ 2) /\ x6 mod 27 <> 9 /\ x6 mod 27 <> 18 /\
  (x6 mod 4 = 3 \/ (16 | x4) /\ (x6 mod 32 = 0 \/ x6 mod 32 = 8)).

Lemma mod_zl_ok a b : 0 < b <= 2 ^ 60 ->
  exists c, mod_zl a b = Ok c /\ (b | a - c) /\ - b < 2 * c <= b /\
    c = (if b <? 2 * (a mod b) then a mod b - b else a mod b).
Proof.
  intros H. unfold mod_zl. rewrite abs64_ok by (unfold in64, min64, max64; lia). rewrite bind_Ok.
  rewrite Z.abs_eq by lia. rewrite zz_mod_ok by lia. rewrite bind_Ok.
  pose proof (Z.mod_pos_bound a b ltac:(lia)). pose proof (Z.div_mod a b ltac:(lia)).
  rewrite mul64_ok by (unfold in64, min64, max64; lia). rewrite bind_Ok.
  eexists. split; [reflexivity|].
  destruct (Z.ltb_spec b (2 * (a mod b))).
  - split; [exists (a / b + 1); lia|]. split; [lia|reflexivity].
  - destruct (Z.leb_spec (2 * (a mod b)) (- b)); [lia|].
    split; [exists (a / b); lia|]. split; [lia|reflexivity].
Qed.

Lemma ndiv_spec f n : 0 < f -> ndiv f n = false <-> (f | n).
Proof.
  intros H. unfold ndiv. rewrite negb_false_iff, Z.eqb_eq. apply Z.mod_divide. lia.
Qed.

Lemma valid_invariants_ok x4 x6 :
  exists b, valid_invariants x4 x6 = Ok b /\ (b = true <-> kraus x4 x6).
Proof.
  unfold valid_invariants. cbv zeta. unfold kraus.
  replace (x4 ^ 3 - x6 ^ 2) with (x4 * x4 * x4 - x6 * x6) by ring.
  set (D := x4 * x4 * x4 - x6 * x6).
  destruct (Z.eqb_spec D 0) as [E|N]; [exists false; split; [reflexivity|]; split; [discriminate|intros (H & _); contradiction]|].
  destruct (ndiv 1728 D) eqn:EN.
  { exists false. split; [reflexivity|]. split; [discriminate|]. intros (_ & H & _).
    apply ndiv_spec in H; [congruence|lia]. }
  apply ndiv_spec in EN; [|lia].
  destruct (mod_zl_ok x6 27) as (m27 & -> & _ & B27 & E27); [lia|]. rewrite bind_Ok.
  pose proof (Z.mod_pos_bound x6 27 ltac:(lia)).
  destruct ((m27 =? 9) || (m27 =? -9)) eqn:E9.
  { exists false. split; [reflexivity|]. split; [discriminate|]. intros (_ & _ & H9 & H18 & _).
    apply orb_true_iff in E9. rewrite !Z.eqb_eq in E9. destruct (Z.ltb_spec 27 (2 * (x6 mod 27))); lia. }
  apply orb_false_iff in E9. rewrite !Z.eqb_neq in E9.
  assert (N9 : x6 mod 27 <> 9 /\ x6 mod 27 <> 18) by (destruct (Z.ltb_spec 27 (2 * (x6 mod 27))); lia).
  clear E27 E9 B27.
  destruct (mod_zl_ok x6 4) as (m4 & -> & _ & B4 & E4); [lia|]. rewrite bind_Ok.
  pose proof (Z.mod_pos_bound x6 4 ltac:(lia)).
  destruct (Z.eqb_spec m4 (-1)) as [M|M].
  { exists true. split; [reflexivity|]. split; [|reflexivity]. intros _.
    do 2 (split; [assumption|]). do 2 (split; [apply N9|]). left. destruct (Z.ltb_spec 4 (2 * (x6 mod 4))); lia. }
  assert (M' : x6 mod 4 <> 3) by (destruct (Z.ltb_spec 4 (2 * (x6 mod 4))); lia).
  destruct (ndiv 16 x4) eqn:E16.
  { exists false. split; [reflexivity|]. split; [discriminate|]. intros (_ & _ & _ & _ & [H3|[H3 _]]); [contradiction|].
    apply ndiv_spec in H3; [congruence|lia]. }
  apply ndiv_spec in E16; [|lia].
  destruct (mod_zl_ok x6 32) as (m32 & -> & _ & B32 & E32); [lia|]. rewrite bind_Ok.
  pose proof (Z.mod_pos_bound x6 32 ltac:(lia)).
  eexists. split; [reflexivity|]. rewrite orb_true_iff, !Z.eqb_eq. split.
  - intros H3. do 2 (split; [assumption|]). do 2 (split; [apply N9|]). right. split; [assumption|].
    destruct (Z.ltb_spec 32 (2 * (x6 mod 32))); lia.
  - intros (_ & _ & _ & _ & [H3|[_ H3]]); [contradiction|].
    destruct (Z.ltb_spec 32 (2 * (x6 mod 32))); lia.
Qed.

(** Necessity *)
Lemma kraus_necessary c : sdisc c <> 0 -> kraus (sc4 c) (sc6 c).
Proof.
  intros H. unfold kraus. rewrite <- s_disc. split; [lia|]. split; [exists (sdisc c); ring|].
  assert (N9 : sc6 c mod 27 <> 9 /\ sc6 c mod 27 <> 18).
  { assert (M3 : exists k, sc6 c = - sb2 c ^ 3 + 9 * (sb2 c * sb4 c) + 27 * k).
    { exists (sb2 c * sb4 c - 8 * sb6 c). unfold sc6. ring. }
    destruct M3 as [k Ek].
    pose proof (Z.div_mod (sb2 c) 3 ltac:(lia)) as Eb. pose proof (Z.mod_pos_bound (sb2 c) 3 ltac:(lia)) as Bb.
    set (j := sb2 c / 3) in *. set (r := sb2 c mod 3) in *.
    pose proof (Z.div_mod (sc6 c) 27 ltac:(lia)) as Ec.
    assert (r = 0 \/ r = 1 \/ r = 2) as [R|[R|R]] by lia; rewrite R in Eb.
    - assert (sc6 c = 27 * (- j ^ 3 + j * sb4 c + k)) by (rewrite Ek, Eb; ring).
      rewrite H0, Z.mul_comm, Z.mod_mul by lia. lia.
    - assert (sc6 c = 3 * (- 9 * j ^ 3 - 9 * j ^ 2 - 3 * j + 3 * ((3 * j + 1) * sb4 c) + 9 * k) - 1) by (rewrite Ek, Eb; ring).
      clear - Ec H0. remember (- 9 * j ^ 3 - 9 * j ^ 2 - 3 * j + 3 * ((3 * j + 1) * sb4 c) + 9 * k) as w. lia.
    - assert (sc6 c = 3 * (- 9 * j ^ 3 - 18 * j ^ 2 - 12 * j + 3 * ((3 * j + 2) * sb4 c) + 9 * k) - 8) by (rewrite Ek, Eb; ring).
      clear - Ec H0. remember (- 9 * j ^ 3 - 18 * j ^ 2 - 12 * j + 3 * ((3 * j + 2) * sb4 c) + 9 * k) as w. lia. }
  do 2 (split; [apply N9|]). clear N9.
  destruct (Z.Even_or_Odd (a1 c)) as [[k Ek]|[k Ek]].
  - right. assert (E2 : sb2 c = 4 * (k ^ 2 + a2 c)) by (unfold sb2; rewrite Ek; ring).
    assert (E4 : sb4 c = 2 * (a4 c + k * a3 c)) by (unfold sb4; rewrite Ek; ring).
    split.
    { unfold sc4. rewrite E2, E4. exists ((k ^ 2 + a2 c) ^ 2 - 3 * (a4 c + k * a3 c)). ring. }
    destruct (Z.Even_or_Odd (a3 c)) as [[l El]|[l El]].
    + left. apply Z.mod_divide; [lia|]. unfold sc6, sb6. rewrite E2, E4, El.
      exists (- 2 * (k ^ 2 + a2 c) ^ 3 + 9 * (k ^ 2 + a2 c) * (a4 c + k * (2 * l)) - 27 * (l ^ 2 + a6 c)). ring.
    + right. assert (E : sc6 c = 8 + (- 2 * (k ^ 2 + a2 c) ^ 3 + 9 * (k ^ 2 + a2 c) * (a4 c + k * (2 * l + 1)) - 27 * (l ^ 2 + l + a6 c) - 7) * 32).
      { unfold sc6, sb6. rewrite E2, E4, El. ring. }
      rewrite E, Z.mod_add by lia. reflexivity.
  - left. assert (E2 : sb2 c = 4 * (k ^ 2 + k + a2 c) + 1) by (unfold sb2; rewrite Ek; ring).
    set (w := k ^ 2 + k + a2 c) in *. clearbody w.
    assert (E : sc6 c = 3 + (- 16 * w ^ 3 - 12 * w ^ 2 - 3 * w + 9 * sb2 c * sb4 c - 54 * sb6 c - 1) * 4).
    { unfold sc6. rewrite E2. ring. }
    rewrite E, Z.mod_add by lia. reflexivity.
Qed.

(** *** Congruences by enumeration of residues *)
Definition cong (n a b : Z) : Prop := (n | a - b).
Lemma cong_refl n a : cong n a a.
Proof. exists 0. ring. Qed.
Lemma cong_add n a b c d : cong n a b -> cong n c d -> cong n (a + c) (b + d).
Proof. intros [k H] [l L]. exists (k + l). lia. Qed.
Lemma cong_sub n a b c d : cong n a b -> cong n c d -> cong n (a - c) (b - d).
Proof. intros [k H] [l L]. exists (k - l). lia. Qed.
Lemma cong_mul n a b c d : cong n a b -> cong n c d -> cong n (a * c) (b * d).
Proof. intros [k H] [l L]. exists (k * c + b * l). replace a with (b + k * n) by lia. replace c with (d + l * n) by lia. ring. Qed.
Lemma cong_mod n a : n <> 0 -> cong n a (a mod n).
Proof. intros H. exists (a / n). pose proof (Z.div_mod a n H). lia. Qed.
Lemma cong_div n a b : cong n a b -> (n | b) -> (n | a).
Proof. intros [k H] [l L]. exists (k + l). lia. Qed.
Lemma cong_div' n a b : cong n a b -> (n | a) -> (n | b).
Proof. intros [k H] [l L]. exists (l - k). lia. Qed.
Ltac congs := repeat lazymatch goal with
  | |- cong _ (_ - _) (_ - _) => apply cong_sub
  | |- cong _ (_ + _) (_ + _) => apply cong_add
  | |- cong _ (_ * _) (_ * _) => apply cong_mul
  | |- cong _ ?a (?a mod _) => apply cong_mod; lia
  | |- cong _ ?a ?a => apply cong_refl
  end.

Definition zrange (n : nat) : list Z := map Z.of_nat (seq 0 n).
Lemma in_zrange n x : 0 <= x < Z.of_nat n -> In x (zrange n).
Proof.
  intros H. unfold zrange. apply in_map_iff. exists (Z.to_nat x). split; [lia|]. apply in_seq. lia.
Qed.
Definition divb (n a : Z) : bool := a mod n =? 0.
Lemma divb_ok n a : n <> 0 -> divb n a = true <-> (n | a).
Proof. intros H. unfold divb. rewrite Z.eqb_eq. now apply Z.mod_divide. Qed.

Definition chk3 (x y z : Z) : bool :=
  implb (divb 27 (x * x * x - y * y) && divb 3 (z + y) && negb (y =? 9) && negb (y =? 18))
    (divb 3 (z * z - x) && divb 27 (z * z * z - 3 * z * x - 2 * y)).
Lemma chk3_all : forallb (fun x => forallb (fun y => forallb (chk3 x y) (zrange 27)) (zrange 27)) (zrange 27) = true.
Proof. vm_compute. reflexivity. Qed.
Definition chk2 (x y z : Z) : bool :=
  if divb 4 (z + y) then if divb 4 (y - 3) then if divb 64 (x * x * x - y * y) then
    divb 8 (z * z - x) && divb 16 (z * z * z - 3 * z * x - 2 * y) else true else true else true.
Lemma chk2_all : forallb (fun x => forallb (fun y => forallb (chk2 x y) (zrange 64)) (zrange 64)) (zrange 64) = true.
Proof. vm_compute. reflexivity. Qed.

Lemma all3 (P : Z -> Z -> Z -> bool) n x y z :
  forallb (fun x => forallb (fun y => forallb (P x y) (zrange n)) (zrange n)) (zrange n) = true ->
  0 <= x < Z.of_nat n -> 0 <= y < Z.of_nat n -> 0 <= z < Z.of_nat n -> P x y z = true.
Proof.
  intros H Hx Hy Hz. rewrite forallb_forall in H. specialize (H x (in_zrange n x Hx)).
  rewrite forallb_forall in H. specialize (H y (in_zrange n y Hy)).
  rewrite forallb_forall in H. exact (H z (in_zrange n z Hz)).
Qed.

Lemma weaken_div m n a : (m | n) -> (n | a) -> (m | a).
Proof. intros. now apply Z.divide_trans with n. Qed.

Lemma three_adic x y z : (27 | x * x * x - y * y) -> (3 | z + y) -> y mod 27 <> 9 -> y mod 27 <> 18 ->
  (3 | z * z - x) /\ (27 | z * z * z - 3 * z * x - 2 * y).
Proof.
  intros H1 H2 H3 H4.
  pose proof (all3 chk3 27 (x mod 27) (y mod 27) (z mod 27) chk3_all (Z.mod_pos_bound x 27 ltac:(lia))
    (Z.mod_pos_bound y 27 ltac:(lia)) (Z.mod_pos_bound z 27 ltac:(lia))) as C.
  unfold chk3 in C.
  assert (C1 : divb 27 (x mod 27 * (x mod 27) * (x mod 27) - y mod 27 * (y mod 27)) = true).
  { apply divb_ok; [lia|]. eapply cong_div'; [|exact H1]. congs. }
  assert (C2 : divb 3 (z mod 27 + y mod 27) = true).
  { apply divb_ok; [lia|]. apply (cong_div' 3 (z + y)); auto.
    assert (cong 27 (z + y) (z mod 27 + y mod 27)) by congs. apply (weaken_div 3 27); [now exists 9|exact H]. }
  rewrite C1, C2 in C. destruct (Z.eqb_spec (y mod 27) 9); [contradiction|].
  destruct (Z.eqb_spec (y mod 27) 18); [contradiction|]. cbn [andb negb implb] in C.
  apply andb_true_iff in C as [C3 C4]. apply divb_ok in C3; [|lia]. apply divb_ok in C4; [|lia]. split.
  - apply (cong_div 3 _ (z mod 27 * (z mod 27) - x mod 27)); auto.
    assert (cong 27 (z * z - x) (z mod 27 * (z mod 27) - x mod 27)) by congs.
    apply (weaken_div 3 27); [now exists 9|exact H].
  - apply (cong_div 27 _ (z mod 27 * (z mod 27) * (z mod 27) - 3 * (z mod 27) * (x mod 27) - 2 * (y mod 27))); auto.
    congs.
Qed.
Lemma two_adic x y z : (64 | x * x * x - y * y) -> (4 | z + y) -> y mod 4 = 3 ->
  (8 | z * z - x) /\ (16 | z * z * z - 3 * z * x - 2 * y).
Proof.
  intros H1 H2 H3.
  pose proof (all3 chk2 64 (x mod 64) (y mod 64) (z mod 64) chk2_all (Z.mod_pos_bound x 64 ltac:(lia))
    (Z.mod_pos_bound y 64 ltac:(lia)) (Z.mod_pos_bound z 64 ltac:(lia))) as C.
  unfold chk2 in C.
  assert (C1 : divb 64 (x mod 64 * (x mod 64) * (x mod 64) - y mod 64 * (y mod 64)) = true).
  { apply divb_ok; [lia|]. eapply cong_div'; [|exact H1]. congs. }
  assert (C2 : divb 4 (z mod 64 + y mod 64) = true).
  { apply divb_ok; [lia|]. apply (cong_div' 4 (z + y)); auto.
    assert (cong 64 (z + y) (z mod 64 + y mod 64)) by congs. apply (weaken_div 4 64); [now exists 16|exact H]. }
  assert (C3 : divb 4 (y mod 64 - 3) = true).
  { apply divb_ok; [lia|]. apply (cong_div' 4 (y - 3)).
    - assert (cong 64 (y - 3) (y mod 64 - 3)) by congs. apply (weaken_div 4 64); [now exists 16|exact H].
    - exists (y / 4). pose proof (Z.div_mod y 4 ltac:(lia)). lia. }
  rewrite C1, C2, C3 in C.
  apply andb_true_iff in C as [C4 C5]. apply divb_ok in C4; [|lia]. apply divb_ok in C5; [|lia]. split.
  - apply (cong_div 8 _ (z mod 64 * (z mod 64) - x mod 64)); auto.
    assert (cong 64 (z * z - x) (z mod 64 * (z mod 64) - x mod 64)) by congs.
    apply (weaken_div 8 64); [now exists 8|exact H].
  - apply (cong_div 16 _ (z mod 64 * (z mod 64) * (z mod 64) - 3 * (z mod 64) * (x mod 64) - 2 * (y mod 64))); auto.
    assert (cong 64 (z * z * z - 3 * z * x - 2 * y)
       (z mod 64 * (z mod 64) * (z mod 64) - 3 * (z mod 64) * (x mod 64) - 2 * (y mod 64))) by congs.
    apply (weaken_div 16 64); [now exists 4|exact H].
Qed.

(** Sufficiency: the constructed equation has the given invariants. *)
Lemma c4c6_to_ai_ok x4 x6 : kraus x4 x6 ->
  exists c, c4c6_to_ai x4 x6 = Ok (c, (sb2 c, sb4 c, sb6 c, sb8 c)) /\ sc4 c = x4 /\ sc6 c = x6 /\
    (a1 c = 0 \/ a1 c = 1) /\ (a3 c = 0 \/ a3 c = 1) /\ -1 <= a2 c <= 1.
Proof.
  intros (ND & D1728 & N9 & N18 & K2).
  replace (x4 ^ 3 - x6 ^ 2) with (x4 * x4 * x4 - x6 * x6) in D1728 by ring.
  unfold c4c6_to_ai. destruct (mod_z_ok (- x6) 12) as (z & -> & [k Hk] & Bz); [lia|]. rewrite bind_Ok.
  cbn [Z.abs] in Bz. cbv zeta.
  destruct (three_adic x4 x6 z) as [T1 T2]; auto.
  { apply (weaken_div 27 1728); [now exists 64|exact D1728]. }
  { exists (- 4 * k). lia. }
  assert (Q : (z mod 4 = 1 /\ x6 mod 4 = 3 /\ (8 | z * z - x4) /\ (16 | z * z * z - 3 * z * x4 - 2 * x6)) \/
     (exists j i l, z = 4 * j /\ x4 = 16 * i /\ x6 = 8 * l /\ (l mod 4 = 0 \/ l mod 4 = 1))).
  { destruct K2 as [K2|[[i Ei] K2]].
    - left. assert (x6 mod 4 = 3 -> z mod 4 = 1).
      { intros. pose proof (Z.div_mod x6 4 ltac:(lia)).
        assert (E : z = 1 + (- (x6 / 4) - 1 - 3 * k) * 4) by lia. rewrite E, Z.mod_add by lia. reflexivity. }
      split; [auto|]. split; [auto|]. apply two_adic; auto.
      + apply (weaken_div 64 1728); [now exists 27|exact D1728].
      + exists (- 3 * k). lia.
    - right. pose proof (Z.div_mod x6 32 ltac:(lia)) as E32.
      destruct K2 as [K2|K2]; rewrite K2 in E32.
      + exists (- 8 * (x6 / 32) - 3 * k), i, (4 * (x6 / 32)). split; [lia|]. split; [lia|]. split; [lia|].
        left. rewrite Z.mul_comm. apply Z.mod_mul. lia.
      + exists (- 8 * (x6 / 32) - 2 - 3 * k), i, (1 + (x6 / 32) * 4). split; [lia|]. split; [lia|]. split; [lia|].
        right. rewrite Z.mod_add by lia. reflexivity. }
  assert (T3 : (8 | z * z - x4) /\ (16 | z * z * z - 3 * z * x4 - 2 * x6)).
  { destruct Q as [(_ & _ & Q)|(j & i & l & -> & -> & -> & _)]; [exact Q|]. split.
    - exists (2 * j * j - 2 * i). ring.
    - exists (4 * j * j * j - 12 * j * i - l). ring. }
  destruct T3 as [[u3 T3] [v3 T4]]. destruct T1 as [u1 T1], T2 as [v1 T2].
  set (B4 := (z * z - x4) / 24).
  assert (E4 : z * z - x4 = 24 * B4).
  { unfold B4. rewrite (div_exact_eq (z * z - x4) 24 (3 * u3 - u1)); clear - T1 T3; lia. }
  clearbody B4.
  set (B6 := (- z * (z * z) + 36 * z * B4 - x6) / 216).
  assert (E6 : - z * (z * z) + 36 * z * B4 - x6 = 216 * B6).
  { assert (2 * (- z * (z * z) + 36 * z * B4 - x6) = z * z * z - 3 * z * x4 - 2 * x6).
    { replace (2 * (- z * (z * z) + 36 * z * B4 - x6)) with (-2 * z * (z * z) + 3 * z * (24 * B4) - 2 * x6) by ring.
      rewrite <- E4. ring. }
    set (N6 := - z * (z * z) + 36 * z * B4 - x6) in *.
    unfold B6. rewrite (div_exact_eq N6 216 (3 * v3 - 5 * v1)); clear - T2 T4 H; lia. }
  clearbody B6.
  assert (X4 : x4 = z * z - 24 * B4) by lia.
  assert (X6 : x6 = - z * (z * z) + 36 * z * B4 - 216 * B6) by lia.
  (* parity facts *)
  assert (PAR : exists e1 e3 A2 A4 A6 B8, (e1 = 0 \/ e1 = 1) /\ (e3 = 0 \/ e3 = 1) /\
      (if Z.odd z then 1 else 0) = e1 /\ (if Z.odd B6 then 1 else 0) = e3 /\
      z = e1 + 4 * A2 /\ B4 = e1 * e3 + 2 * A4 /\ B6 = e3 + 4 * A6 /\ z * B6 - B4 * B4 = 4 * B8).
  { destruct Q as [(Q1 & Q2 & _)|(j & i & l & Ej & Ei & El & Hl)].
    - destruct D1728 as [dd D1728].
      assert (F : 4 * dd = z * z * (B4 * B4 - z * B6) + 4 * (- 8 * B4 * B4 * B4 - 27 * B6 * B6 + 9 * z * B4 * B6)).
      { apply (Z.mul_reg_l _ _ 1728); [discriminate|].
        replace (1728 * (4 * dd)) with (4 * (dd * 1728)) by ring. rewrite <- D1728, X4, X6. ring. }
      pose proof (Z.div_mod z 4 ltac:(lia)) as Ez. rewrite Q1 in Ez. set (w := z / 4) in *. clearbody w.
      assert (G : exists g, B4 * B4 - B6 = 4 * g).
      { exists (dd - (- 8 * B4 * B4 * B4 - 27 * B6 * B6 + 9 * z * B4 * B6) - (4 * w * w + 2 * w) * (B4 * B4 - z * B6) + w * B6).
        transitivity (4 * dd - 4 * (- 8 * B4 * B4 * B4 - 27 * B6 * B6 + 9 * z * B4 * B6)
           - 4 * ((4 * w * w + 2 * w) * (B4 * B4 - z * B6)) + 4 * w * B6); [|ring].
        rewrite F, Ez. ring. }
      destruct G as [g G]. clear F D1728 X4 X6 E4 E6 T1 T2 T3 T4 Hk ND K2.
      assert (Oz : Z.odd z = true) by (apply Z.odd_spec; exists (2 * w); lia).
      rewrite Oz. destruct (Z.Even_or_Odd B4) as [[h Eh]|[h Eh]].
      + assert (EB6 : B6 = 4 * (h * h - g)) by (rewrite Eh in G; lia).
        assert (O6 : Z.odd B6 = false) by (rewrite EB6, Z.odd_mul; reflexivity).
        rewrite O6. exists 1, 0, w, h, (h * h - g), (z * (h * h - g) - h * h).
        do 4 (split; [auto|]). split; [lia|]. split; [lia|]. split; [lia|]. rewrite EB6, Eh. ring.
      + assert (EB6 : B6 = 4 * (h * h + h - g) + 1) by (rewrite Eh in G; lia).
        assert (O6 : Z.odd B6 = true) by (apply Z.odd_spec; exists (2 * (h * h + h - g)); lia).
        rewrite O6. exists 1, 1, w, h, (h * h + h - g), ((4 * w + 1) * (h * h + h - g) + w - h * h - h).
        do 4 (split; [auto|]). split; [lia|]. split; [lia|]. split; [lia|]. rewrite EB6, Eh, Ez. ring.
    - clear X4 X6 T1 T2 T3 T4 D1728 ND K2. assert (Oz : Z.odd z = false) by (rewrite Ej, Z.odd_mul; reflexivity). rewrite Oz.
      assert (H4 : exists h, B4 = 2 * h).
      { exists (2 * B4 - (j * j - i)). assert (F : 24 * B4 = 16 * (j * j - i)) by (rewrite <- E4, Ej, Ei; ring). clear - F; lia. }
      destruct H4 as [h Eh].
      assert (L : 27 * B6 + l = 4 * (- 2 * j * j * j + 9 * j * h)).
      { assert (8 * (27 * B6 + l) = 8 * (4 * (- 2 * j * j * j + 9 * j * h))) as F; [|clear - F; lia].
        rewrite El in E6. transitivity (216 * B6 + 8 * l); [ring|]. rewrite <- E6, Ej, Eh. ring. }
      set (w := - 2 * j * j * j + 9 * j * h) in *. clearbody w. clear E4 E6 Hk.
      pose proof (Z.div_mod l 4 ltac:(lia)) as Ell. destruct Hl as [Hl|Hl]; rewrite Hl in Ell.
      + assert (EB6 : B6 = 0 + 4 * (7 * B6 + l / 4 - w)) by lia.
        set (q := 7 * B6 + l / 4 - w) in *. clearbody q.
        assert (O6 : Z.odd B6 = false) by (rewrite EB6, Z.add_0_l, Z.odd_mul; reflexivity).
        rewrite O6. exists 0, 0, j, h, q, (j * B6 - h * h).
        do 4 (split; [auto|]). split; [lia|]. split; [lia|]. split; [lia|]. rewrite Ej, Eh. ring.
      + assert (EB6 : B6 = 1 + 4 * (7 * B6 + l / 4 - w)) by lia.
        set (q := 7 * B6 + l / 4 - w) in *. clearbody q.
        assert (O6 : Z.odd B6 = true) by (apply Z.odd_spec; exists (2 * q); lia).
        rewrite O6. exists 0, 1, j, h, q, (j * B6 - h * h).
        do 4 (split; [auto|]). split; [lia|]. split; [lia|]. split; [lia|]. rewrite Ej, Eh. ring. }
  destruct PAR as (e1 & e3 & A2 & A4 & A6 & B8 & He1 & He3 & -> & -> & P2 & P4 & P6 & P8).
  clear D1728 ND E4 E6 T1 T2 T3 T4 Q.
  rewrite (div_exact_eq (z - e1) 4 A2), (div_exact_eq (B4 - e1 * e3) 2 A4), (div_exact_eq (B6 - e3) 4 A6),
    (div_exact_eq (z * B6 - B4 * B4) 4 B8) by lia.
  exists (Cv e1 A2 e3 A4 A6).
  assert (S2 : z = sb2 (Cv e1 A2 e3 A4 A6)).
  { unfold sb2. cbn [a1 a2 a3 a4 a6]. rewrite P2 at 1. destruct He1 as [-> | ->]; ring. }
  assert (S4 : B4 = sb4 (Cv e1 A2 e3 A4 A6)).
  { unfold sb4. cbn [a1 a2 a3 a4 a6]. rewrite P4 at 1. ring. }
  assert (S6 : B6 = sb6 (Cv e1 A2 e3 A4 A6)).
  { unfold sb6. cbn [a1 a2 a3 a4 a6]. rewrite P6 at 1. destruct He3 as [-> | ->]; ring. }
  assert (S8 : B8 = sb8 (Cv e1 A2 e3 A4 A6)).
  { assert (4 * B8 = 4 * sb8 (Cv e1 A2 e3 A4 A6)); [|lia]. rewrite s_b8, <- S2, <- S4, <- S6, <- P8. ring. }
  split; [now rewrite <- S2, <- S4, <- S6, <- S8|]. split.
  { unfold sc4. rewrite <- S2, <- S4, X4. ring. }
  split. { unfold sc6. rewrite <- S2, <- S4, <- S6, X6. ring. }
  cbn [a1 a2 a3]. split; [auto|]. split; [auto|]. lia.
Qed.

Lemma kraus_disc c x4 x6 : kraus x4 x6 -> sc4 c = x4 -> sc6 c = x6 -> sdisc c <> 0.
Proof. intros (H & _) <- <- E. pose proof (s_disc c). rewrite E in H0. lia. Qed.

Lemma kraus_iff x4 x6 : kraus x4 x6 <-> exists c, sdisc c <> 0 /\ sc4 c = x4 /\ sc6 c = x6.
Proof.
  split.
  - intros K. destruct (c4c6_to_ai_ok x4 x6 K) as (c & _ & E4 & E6 & _). exists c.
    split; [eapply kraus_disc; eauto|auto].
  - intros (c & D & <- & <-). now apply kraus_necessary.
Qed.

(** The normalised equation is the only one with these invariants. *)
Lemma normal_unique c d : sc4 c = sc4 d -> sc6 c = sc6 d ->
  (a1 c = 0 \/ a1 c = 1) -> (a3 c = 0 \/ a3 c = 1) -> -1 <= a2 c <= 1 ->
  (a1 d = 0 \/ a1 d = 1) -> (a3 d = 0 \/ a3 d = 1) -> -1 <= a2 d <= 1 -> c = d.
Proof.
  intros E4 E6 H1 H3 H2 K1 K3 K2.
  assert (B : forall e, (a1 e = 0 \/ a1 e = 1) -> -1 <= a2 e <= 1 ->
    sb2 e = a1 e + 4 * a2 e /\ exists k, sb2 e + sc6 e = 12 * k).
  { intros e He1 He2. split; [unfold sb2; destruct He1 as [-> | ->]; ring|].
    assert (C : exists k, sb2 e - sb2 e ^ 3 = 12 * k).
    { assert (sb2 e = -4 \/ sb2 e = -3 \/ sb2 e = 0 \/ sb2 e = 1 \/ sb2 e = 4 \/ sb2 e = 5) as R.
      { unfold sb2. assert (a2 e = -1 \/ a2 e = 0 \/ a2 e = 1) as [-> |[-> | ->]] by lia;
          destruct He1 as [-> | ->]; cbn; auto 10. }
      destruct R as [->|[->|[->|[->|[->| ->]]]]]; [exists 5|exists 2|exists 0|exists 0|exists (-5)|exists (-10)]; reflexivity. }
    destruct C as [k C]. exists (k + 3 * sb2 e * sb4 e - 18 * sb6 e). unfold sc6. lia. }
  destruct (B c H1 H2) as (Bc & kc & Kc). destruct (B d K1 K2) as (Bd & kd & Kd).
  rewrite E6 in Kc. assert (E2 : sb2 c = sb2 d) by lia.
  assert (E4' : sb4 c = sb4 d) by (unfold sc4 in E4; rewrite E2 in E4; lia).
  assert (E6' : sb6 c = sb6 d) by (unfold sc6 in E6; rewrite E2, E4' in E6; lia).
  assert (F1 : a1 c = a1 d) by lia. assert (F2 : a2 c = a2 d) by lia.
  assert (F3 : a3 c = a3 d).
  { unfold sb6 in E6'. destruct H3 as [G|G], K3 as [L|L]; rewrite G, L in E6'; lia. }
  assert (F6 : a6 c = a6 d) by (unfold sb6 in E6'; rewrite F3 in E6'; lia).
  assert (F4 : a4 c = a4 d) by (unfold sb4 in E4'; rewrite F1, F3 in E4'; lia).
  destruct c as [x1 x2 x3 x4 x6], d as [y1 y2 y3 y4 y6]; cbn [a1 a2 a3 a4 a6] in *. congruence.
Qed.
