(** Proofs about MinimModel. *)
From Coq Require Import ZArith List Bool Lia Znumtheory.
From Verif Require Import Base FormsModel FormsProofs MArithModel MArithProofs MinimModel MinimSpec MinimArith.
Import ListNotations.
Open Scope Z_scope.
Open Scope res_scope.

Lemma dv_ok p n : p <> 0 -> dv p n = true <-> (p | n).
Proof. intros P. unfold dv. rewrite Z.eqb_eq. apply Z.mod_divide. exact P. Qed.
Lemma dv_no p n : p <> 0 -> dv p n = false <-> ~ (p | n).
Proof. intros P. rewrite <- (dv_ok p n P). destruct (dv p n); split; congruence. Qed.

Definition all_dv (p : Z) (g : quartic) : Prop := (p | ra g) /\ (p | rb g) /\ (p | rc g) /\ (p | rd g) /\ (p | re g).
Lemma dv_all_ok p g : p <> 0 -> dv_all p g = true <-> all_dv p g.
Proof. intros P. unfold dv_all, all_dv. rewrite !andb_true_iff, !dv_ok by exact P. tauto. Qed.
Lemma dv_all_no p g : p <> 0 -> dv_all p g = false <-> ~ all_dv p g.
Proof. intros P. rewrite <- (dv_all_ok p g P). destruct (dv_all p g); split; congruence. Qed.

Lemma dvc1 p k A X : (p | A) -> X = k * A -> (p | X).
Proof. intros H ->. apply Z.divide_mul_r, H. Qed.
Lemma dvc2 p k l A B X : (p | A) -> (p | B) -> X = k * A + l * B -> (p | X).
Proof. intros H H' ->. apply Z.divide_add_r; apply Z.divide_mul_r; auto. Qed.
Lemma dvc3 p k l m A B C X : (p | A) -> (p | B) -> (p | C) -> X = k * A + l * B + m * C -> (p | X).
Proof. intros H H' H'' ->. repeat apply Z.divide_add_r; apply Z.divide_mul_r; auto. Qed.
Lemma dvc4 p k l m n A B C D X : (p | A) -> (p | B) -> (p | C) -> (p | D) -> X = k * A + l * B + m * C + n * D -> (p | X).
Proof. intros H H' H'' H3 ->. repeat apply Z.divide_add_r; apply Z.divide_mul_r; auto. Qed.

(** ** the elementary moves *)
Definition nice (f : st -> st) : Prop :=
  f = m_invert \/ (exists al, f = m_xshift al) \/ (exists ga, f = m_zshift ga) \/ f = (fun s => s).
Ltac nic := intros [ -> | [ (al & ->) | [ (ga & ->) | -> ]]].

Lemma nice_takes f s G : nice f -> takes (snd s) G (fst s) -> takes (snd (f s)) G (fst (f s)).
Proof.
  destruct s as ([a b c d e] & [u [p q r t]]). unfold takes. cbn [fst snd m00 sm m11 m12 m21 m22].
  nic; intros H x z; cbn [m_invert m_xshift m_zshift fst snd m00 sm um_invert um_xshift um_yshift m11 m12 m21 m22].
  - transitivity (u * u * r_eval (Qt a b c d e) (- z) x); [|unfold r_eval, r_invert; cbn [ra rb rc rd re]; ring].
    rewrite <- H. f_equal; ring.
  - transitivity (u * u * r_eval (Qt a b c d e) (x + al * z) z); [|unfold r_eval, r_xshift; cbn [ra rb rc rd re]; ring].
    rewrite <- H. f_equal; ring.
  - transitivity (u * u * r_eval (Qt a b c d e) x (z + ga * x)); [|unfold r_eval, r_zshift; cbn [ra rb rc rd re]; ring].
    rewrite <- H. f_equal; ring.
  - apply H.
Qed.
Lemma nice_ns f s : nice f -> nonsingular (snd s) -> nonsingular (snd (f s)).
Proof.
  destruct s as (g & [u [p q r t]]). unfold nonsingular, um_det. cbn [fst snd m00 sm m11 m12 m21 m22].
  nic; intros (A & B); cbn [m_invert m_xshift m_zshift fst snd m00 sm um_invert um_xshift um_yshift m11 m12 m21 m22];
    (split; [exact A|]); intros E; apply B; rewrite <- E; ring.
Qed.
Lemma nice_II f s : nice f -> II (fst (f s)) = II (fst s).
Proof.
  destruct s as ([a b c d e] & m). nic; unfold II, m_invert, m_xshift, m_zshift, r_invert, r_xshift, r_zshift; cbn [fst snd ra rb rc rd re]; ring.
Qed.
Lemma nice_JJ f s : nice f -> JJ (fst (f s)) = JJ (fst s).
Proof.
  destruct s as ([a b c d e] & m). nic; unfold JJ, m_invert, m_xshift, m_zshift, r_invert, r_xshift, r_zshift; cbn [fst snd ra rb rc rd re]; ring.
Qed.
Lemma nice_II' f g m : nice f -> II (fst (f (g, m))) = II g. Proof. apply (nice_II f (g, m)). Qed.
Lemma nice_JJ' f g m : nice f -> JJ (fst (f (g, m))) = JJ g. Proof. apply (nice_JJ f (g, m)). Qed.
Definition rsc (k : Z) (g : quartic) : quartic := Qt (k * ra g) (k * rb g) (k * rc g) (k * rd g) (k * re g).
Lemma nice_rsc f k g m m' : nice f -> fst (f (rsc k g, m)) = rsc k (fst (f (g, m'))).
Proof.
  destruct g as [a b c d e]. nic; unfold m_invert, m_xshift, m_zshift, r_invert, r_xshift, r_zshift, rsc; cbn [fst snd ra rb rc rd re];
    try reflexivity; f_equal; ring.
Qed.
Lemma nice_sol f p s : nice f -> soluble4 p (fst s) -> soluble4 p (fst (f s)).
Proof.
  destruct s as ([a b c d e] & m). unfold soluble4. nic; intros (x & z & y & N & S); cbn [m_invert m_xshift m_zshift fst snd] in *.
  - exists z, (- x), y. split.
    + intros (A & B). apply N. split; [apply Z.divide_opp_r; exact B|exact A].
    + replace (r_eval (r_invert (Qt a b c d e)) z (- x)) with (r_eval (Qt a b c d e) x z); [exact S|].
      unfold r_eval, r_invert; cbn [ra rb rc rd re]; ring.
  - exists (x - al * z), z, y. split.
    + intros (A & B). apply N. split; [|exact B]. apply (dvc2 p 1 al _ _ x A B). ring.
    + replace (r_eval (r_xshift al (Qt a b c d e)) (x - al * z) z) with (r_eval (Qt a b c d e) x z); [exact S|].
      unfold r_eval, r_xshift; cbn [ra rb rc rd re]; ring.
  - exists x, (z - ga * x), y. split.
    + intros (A & B). apply N. split; [exact A|]. apply (dvc2 p ga 1 _ _ z A B). ring.
    + replace (r_eval (r_zshift ga (Qt a b c d e)) x (z - ga * x)) with (r_eval (Qt a b c d e) x z); [exact S|].
      unfold r_eval, r_zshift; cbn [ra rb rc rd re]; ring.
  - exists x, z, y. auto.
Qed.
Lemma nice_all f p s : nice f -> all_dv p (fst (f s)) -> all_dv p (fst s).
Proof.
  destruct s as ([a b c d e] & m). unfold all_dv. nic; unfold m_invert, m_xshift, m_zshift, r_invert, r_xshift, r_zshift; cbn [fst snd ra rb rc rd re];
    intros (A & B & C & D & E).
  - apply (proj1 (Z.divide_opp_r _ _)) in B. apply (proj1 (Z.divide_opp_r _ _)) in D. tauto.
  - assert (B' : (p | b)) by (apply (dvc2 p 1 (- 4 * al) _ _ _ B A); ring).
    assert (C' : (p | c)) by (apply (dvc3 p 1 (- 3 * al) (- 6 * al * al) _ _ _ _ C B' A); ring).
    assert (D' : (p | d)) by (apply (dvc4 p 1 (- 2 * al) (- 3 * al * al) (- 4 * al * al * al) _ _ _ _ _ D C' B' A); ring).
    assert (E' : (p | e)).
    { destruct A as (a' & ->), B' as (b' & ->), C' as (c' & ->), D' as (d' & ->), E as (e' & E).
      exists (e' - (al * (d' + al * (c' + al * (b' + al * a'))))). rewrite Z.mul_sub_distr_r, <- E. ring. }
    tauto.
  - assert (D' : (p | d)) by (apply (dvc2 p 1 (- 4 * ga) _ _ _ D E); ring).
    assert (C' : (p | c)) by (apply (dvc3 p 1 (- 3 * ga) (- 6 * ga * ga) _ _ _ _ C D' E); ring).
    assert (B' : (p | b)) by (apply (dvc4 p 1 (- 2 * ga) (- 3 * ga * ga) (- 4 * ga * ga * ga) _ _ _ _ _ B C' D' E); ring).
    assert (A' : (p | a)).
    { destruct E as (e' & ->), B' as (b' & ->), C' as (c' & ->), D' as (d' & ->), A as (a' & A).
      exists (a' - (ga * (b' + ga * (c' + ga * (d' + ga * e'))))). rewrite Z.mul_sub_distr_r, <- A. ring. }
    tauto.
  - tauto.
Qed.

(** ** the root *)
Section R.
Variable xgcd : Z -> Z -> Z * Z * Z.
Hypothesis X : xgcd_spec xgcd.
Variable p : Z.
Hypothesis P : prime p.
Hypothesis PN3 : p <> 3.
Let p0' : p <> 0. Proof. clear - P. destruct P; lia. Qed.
Let U3 : ~ (p | 3).
Proof. intros H. destruct (prime_divisors 3 prime_3 p H) as [E|[E|[E|E]]]; destruct P; lia. Qed.
Lemma U2' : p <> 2 -> ~ (p | 2).
Proof. intros N H. destruct (prime_divisors 2 prime_2 p H) as [E|[E|[E|E]]]; destruct P; lia. Qed.

Lemma even_dv x : (2 | x) <-> Z.even x = true.
Proof. rewrite Z.even_spec. split; intros (y & ->); exists y; ring. Qed.
Lemma root2 a b c d e : (2 | II (Qt a b c d e)) -> (2 | JJ (Qt a b c d e)) -> ~ ((2 | a) /\ (2 | b)) -> ~ ((2 | e) /\ (2 | d)) ->
  let g' := r_xshift 1 (Qt a b c d e) in (2 | rc g') /\ (2 | rd g') /\ (2 | re g').
Proof.
  unfold II, JJ, r_xshift. cbn [ra rb rc rd re]. rewrite !even_dv.
  repeat rewrite ?Z.even_add, ?Z.even_sub, ?Z.even_mul. cbn [Z.even].
  destruct (Z.even a), (Z.even b), (Z.even c), (Z.even d), (Z.even e); cbn [andb orb eqb xorb negb Bool.eqb]; intuition (try discriminate).
Qed.

Lemma unit_gcd u : ~ (p | u) -> Z.gcd u p = 1.
Proof. intros U. rewrite Z.gcd_comm. apply Zgcd_1_rel_prime. apply prime_rel_prime; assumption. Qed.
Lemma inv_ok u : ~ (p | u) -> (p | u * invmod_z xgcd u p - 1).
Proof. intros U. apply (invmod_z_ok xgcd X u p). apply unit_gcd, U. Qed.
(** al = w / u modulo p *)
Lemma quot_ok w u : ~ (p | u) -> exists al, mod_z (w * invmod_z xgcd u p) p = Ok al /\ (p | u * al - w).
Proof.
  intros U. destruct (mod_z_ok (w * invmod_z xgcd u p) p p0') as (al & -> & D & _). exists al. split; [reflexivity|].
  apply (dvc2 p (- u) w _ _ _ D (inv_ok u U)). ring.
Qed.

Lemma root_p_ok g m : (p | II g) -> (p | JJ g) -> ~ ((p | ra g) /\ (p | rb g)) ->
  exists al, root_p xgcd g p = Ok al /\
    let g' := fst (m_xshift al (g, m)) in (p | rc g') /\ (p | rd g') /\ (p | re g').
Proof.
  destruct g as [a b c d e]. unfold root_p. cbn [ra rb rc rd re m_xshift fst]. intros HI HJ NI.
  replace (dv p a && dv p b) with false.
  2: { symmetry. apply not_true_iff_false. rewrite andb_true_iff, !dv_ok by exact p0'. exact NI. }
  destruct (dv p e && dv p d) eqn:ED.
  { apply andb_true_iff in ED. rewrite !dv_ok in ED by exact p0'. destruct ED as (E & D).
    exists 0. split; [reflexivity|]. unfold r_xshift. cbn [ra rb rc rd re]. split; [|split].
    - rewrite Z.mul_0_l, Z.add_0_r. apply (sqdv p P).
      apply (dvc3 p 1 (- 12 * a) (3 * b) _ _ _ _ HI E D). unfold II. cbn [ra rb rc rd re]. ring.
    - rewrite Z.mul_0_l, Z.add_0_r. exact D.
    - rewrite Z.mul_0_l, Z.add_0_r. exact E. }
  assert (NE : ~ ((p | e) /\ (p | d))).
  { intros (E & D). rewrite (proj2 (dv_ok p _ p0') E), (proj2 (dv_ok p _ p0') D) in ED. discriminate. }
  clear ED.
  destruct (Z.eqb_spec p 2) as [E2|N2].
  { exists 1. split; [reflexivity|]. rewrite E2 in HI, HJ, NI, NE |- *. exact (root2 a b c d e HI HJ NI NE). }
  pose proof (U2' N2) as U2. clear NE.
  destruct (Z.eqb_spec p 3); [contradiction|].
  destruct (mod_z_ok (3 * (b * b) - 8 * (a * c)) p p0') as (h & -> & HH & HB). rewrite bind_Ok.
  assert (II' : forall al, II (r_xshift al (Qt a b c d e)) = II (Qt a b c d e)) by (intros al; unfold II, r_xshift; cbn [ra rb rc rd re]; ring).
  assert (JJ' : forall al, JJ (r_xshift al (Qt a b c d e)) = JJ (Qt a b c d e)) by (intros al; unfold JJ, r_xshift; cbn [ra rb rc rd re]; ring).
  assert (KH : forall al, let g' := r_xshift al (Qt a b c d e) in 3 * (rb g' * rb g') - 8 * (a * rc g') = 3 * (b * b) - 8 * (a * c))
    by (intros al; unfold r_xshift; cbn [ra rb rc rd re]; ring).
  assert (KR : forall al, R_inv (r_xshift al (Qt a b c d e)) = R_inv (Qt a b c d e)) by (intros al; unfold R_inv, r_xshift; cbn [ra rb rc rd re]; ring).
  destruct (Z.eqb_spec h 0) as [->|NH].
  { rewrite Z.sub_0_r in HH.
    assert (A : ~ (p | a)).
    { intros A. apply NI. split; [exact A|]. apply (sqdv p P). apply (canc p P 3); [exact U3|].
      apply (dvc2 p 1 (8 * c) _ _ _ HH A). ring. }
    destruct (quot_ok (- b) (4 * a)) as (al & -> & Q). { apply (unit_mul p P); [exact (u4 p P U2)|exact A]. }
    exists al. split; [reflexivity|]. specialize (II' al). specialize (JJ' al). specialize (KH al).
    assert (B' : (p | rb (r_xshift al (Qt a b c d e)))). { apply (dvc1 p 1 _ _ Q). cbn [r_xshift rb ra]. ring. }
    assert (A' : ra (r_xshift al (Qt a b c d e)) = a) by reflexivity.
    set (g' := r_xshift al (Qt a b c d e)) in *. clearbody g'. destruct g' as [a' b' c' d' e']. cbn [ra rb rc rd re] in *. subst a'.
    rewrite <- II' in HI. rewrite <- JJ' in HJ. unfold II, JJ in HI, HJ. cbn [ra rb rc rd re] in *. cbv zeta in KH.
    assert (C : (p | c')).
    { apply (canc p P (8 * a)); [apply (unit_mul p P); [exact (u8 p P U2)|exact A]|].
      apply (dvc2 p (-1) (3 * b') _ _ _ HH B'). rewrite <- KH. ring. }
    assert (E : (p | e')).
    { apply (canc p P (12 * a)); [apply (unit_mul p P); [exact (u12 p P U2 U3)|exact A]|].
      apply (dvc3 p 1 (3 * d') (- c') _ _ _ _ HI B' C). ring. }
    split; [exact C|]. split; [|exact E].
    apply (sqdv p P). apply (canc p P (27 * a)); [apply (unit_mul p P); [exact (u27 p P U3)|exact A]|].
    apply (dvc3 p (-1) (72 * a * e' + 9 * b' * d' - 2 * (c' * c')) (- 27 * b' * b') _ _ _ _ HJ C E). ring. }
  assert (UH : ~ (p | 3 * (b * b) - 8 * (a * c))).
  { intros D. apply NH. assert (Dh : (p | h)) by (apply (dvc2 p 1 (-1) _ _ _ D HH); ring).
    destruct Dh as (k & K). assert (Z.abs p = p /\ 0 < p) by (destruct P; lia). assert (k = 0) by (clear - K HB H; nia). subst k. exact K. }
  destruct (dv p a) eqn:DA.
  { apply dv_ok in DA; [|exact p0'].
    assert (B : ~ (p | b)) by tauto.
    destruct (quot_ok (- c) (3 * b)) as (al & -> & Q). { apply (unit_mul p P); [exact U3|exact B]. }
    exists al. split; [reflexivity|]. specialize (II' al). specialize (JJ' al).
    assert (B' : ~ (p | rb (r_xshift al (Qt a b c d e)))).
    { intros D. apply B. apply (dvc2 p 1 (- 4 * al) _ _ _ D DA). cbn [r_xshift rb ra]. ring. }
    assert (C : (p | rc (r_xshift al (Qt a b c d e)))).
    { apply (dvc2 p 1 (6 * al * al) _ _ _ Q DA). cbn [r_xshift rb rc ra]. ring. }
    assert (A' : ra (r_xshift al (Qt a b c d e)) = a) by reflexivity.
    set (g' := r_xshift al (Qt a b c d e)) in *. clearbody g'. destruct g' as [a' b' c' d' e']. cbn [ra rb rc rd re] in *. subst a'.
    rewrite <- II' in HI. rewrite <- JJ' in HJ. unfold II, JJ in HI, HJ. cbn [ra rb rc rd re] in *.
    assert (D : (p | d')).
    { apply (canc p P (3 * b')); [apply (unit_mul p P); [exact U3|exact B']|].
      apply (dvc3 p (-1) (12 * e') c' _ _ _ _ HI DA C). ring. }
    split; [exact C|]. split; [exact D|].
    apply (canc p P (27 * b' * b')); [repeat apply (unit_mul p P); [exact (u27 p P U3)|exact B'|exact B']|].
    apply (dvc3 p (-1) (72 * a * e' + 9 * b' * d' - 2 * (c' * c')) (- 27 * d' * d') _ _ _ _ HJ C DA). ring. }
  apply dv_no in DA; [|exact p0'].
  assert (Uh : ~ (p | h)). { intros D. apply UH. apply (dvc2 p 1 1 _ _ _ HH D). ring. }
  destruct (quot_ok (3 * (b * (b * b) + 8 * (a * a) * d - 4 * (a * c) * b) - b * h) (4 * a * h)) as (al & -> & Q).
  { repeat apply (unit_mul p P); [exact (u4 p P U2)|exact DA|exact Uh]. }
  exists al. split; [reflexivity|]. specialize (II' al). specialize (JJ' al). specialize (KH al). specialize (KR al).
  pose proof (r_syzygy (Qt a b c d e)) as SY.
  set (H := 3 * (b * b) - 8 * (a * c)) in *.
  set (R := R_inv (Qt a b c d e)) in *.
  assert (EH : H_inv (Qt a b c d e) = - H) by (unfold H, H_inv; cbn [ra rb rc rd re]; ring).
  assert (ER : b * (b * b) + 8 * (a * a) * d - 4 * (a * c) * b = R) by (unfold R, R_inv; cbn [ra rb rc rd re]; ring).
  rewrite ER in Q. rewrite EH in SY.
  assert (QB : (p | H * rb (r_xshift al (Qt a b c d e)) - 3 * R)).
  { apply (dvc2 p 1 (4 * a * al + b) _ _ _ Q HH). cbn [r_xshift rb ra]. ring. }
  assert (A' : ra (r_xshift al (Qt a b c d e)) = a) by reflexivity.
  set (I0 := II (Qt a b c d e)) in *. set (J0 := JJ (Qt a b c d e)) in *.
  set (g' := r_xshift al (Qt a b c d e)) in *. clearbody g'. destruct g' as [a' b' c' d' e']. cbn [ra rb rc rd re] in *. subst a'.
  clearbody H R. cbv zeta in KH.
  assert (C : (p | c')).
  { apply (canc p P (8 * a * (H * H))).
    { repeat apply (unit_mul p P); auto using (u8 p P U2). }
    apply (dvc3 p (3 * (H * b' + 3 * R)) (- 48 * a ^ 2 * H) (- 64 * a ^ 3) _ _ _ _ QB HI HJ).
    assert (E27 : 27 * R ^ 2 = H ^ 3 - 48 * a ^ 2 * I0 * H - 64 * a ^ 3 * J0) by (clear - SY; lia).
    clear - KH E27. apply (lin2 (- (H * H)) 1 _ _ _ _ _ _ KH E27). ring. }
  assert (D : (p | d')).
  { apply (canc p P (24 * a * a)).
    { repeat apply (unit_mul p P); auto using (u24 p P U2 U3). }
    unfold R_inv in KR. cbn [ra rb rc rd re] in KR.
    apply (dvc2 p (-1) (4 * a * b') _ _ _ QB C). clear - KR KH. apply (lin2 (- b') 3 _ _ _ _ _ _ KH KR). ring. }
  split; [exact C|]. split; [exact D|].
  apply (canc p P (12 * a)); [apply (unit_mul p P); [exact (u12 p P U2 U3)|exact DA]|].
  rewrite <- II' in HI. unfold II in HI. cbn [ra rb rc rd re] in HI.
  apply (dvc3 p 1 (3 * b') (- c') _ _ _ _ HI D C). ring.
Qed.

Lemma to_zero_ok g0 s : (p | II g0) -> (p | JJ g0) -> ~ all_dv p g0 ->
  exists f, to_zero xgcd p g0 s = Ok (f s) /\ nice f /\
    forall m, let g' := fst (f (g0, m)) in (p | rc g') /\ (p | rd g') /\ (p | re g') /\ ~ ((p | ra g') /\ (p | rb g')).
Proof.
  intros HI HJ NA.
  assert (FIN : forall f, nice f -> (forall m, let g' := fst (f (g0, m)) in (p | rc g') /\ (p | rd g') /\ (p | re g')) ->
    forall m, let g' := fst (f (g0, m)) in (p | rc g') /\ (p | rd g') /\ (p | re g') /\ ~ ((p | ra g') /\ (p | rb g'))).
  { intros f Nf H m. specialize (H m). cbv zeta in *. destruct H as (C & D & E). split; [exact C|]. split; [exact D|]. split; [exact E|].
    intros (A & B). apply NA. apply (nice_all f p (g0, m) Nf). unfold all_dv. tauto. }
  unfold to_zero. destruct (dv p (ra g0) && dv p (rb g0)) eqn:AB.
  { apply andb_true_iff in AB. rewrite !dv_ok in AB by exact p0'. destruct AB as (A & B).
    exists m_invert. split; [reflexivity|]. split; [left; reflexivity|]. apply FIN; [left; reflexivity|].
    intros m. destruct g0 as [a b c d e]. cbn [m_invert fst r_invert ra rb rc rd re] in *. split; [|split].
    - apply (sqdv p P). apply (dvc3 p 1 (- 12 * e) (3 * d) _ _ _ _ HI A B). unfold II. cbn [ra rb rc rd re]. ring.
    - apply Z.divide_opp_r, B.
    - exact A. }
  destruct (negb (dv p (re g0)) || negb (dv p (rd g0))) eqn:ED.
  - assert (NI : ~ ((p | ra g0) /\ (p | rb g0))).
    { intros (A & B). rewrite (proj2 (dv_ok p _ p0') A), (proj2 (dv_ok p _ p0') B) in AB. discriminate. }
    destruct (root_p_ok g0 (snd s) HI HJ NI) as (al & -> & C). rewrite bind_Ok.
    exists (m_xshift al). split; [reflexivity|]. assert (NN : nice (m_xshift al)) by (right; left; exists al; reflexivity).
    split; [exact NN|]. apply FIN; [exact NN|]. intros m. exact C.
  - apply orb_false_iff in ED. rewrite !negb_false_iff, !dv_ok in ED by exact p0'. destruct ED as (E & D).
    exists (fun s => s). split; [reflexivity|]. assert (NN : nice (fun s => s)) by (right; right; right; reflexivity).
    split; [exact NN|]. apply (FIN (fun s => s) NN). intros m. cbn [fst]. split; [|split; [exact D|exact E]].
    apply (sqdv p P). apply (dvc3 p 1 (- 12 * ra g0) (3 * rb g0) _ _ _ _ HI E D). unfold II. ring.
Qed.

(** ** the scaling *)
Definition good (s s' : st) : Prop :=
  p ^ 4 * II (fst s') = II (fst s) /\ p ^ 6 * JJ (fst s') = JJ (fst s) /\
  (forall G, takes (snd s) G (fst s) -> takes (snd s') G (fst s')) /\ (nonsingular (snd s) -> nonsingular (snd s')).

Lemma good_nice f s s' : nice f -> good (f s) s' -> good s s'.
Proof.
  intros N (A & B & C & D). split; [|split; [|split]].
  - rewrite A. apply nice_II, N.
  - rewrite B. apply nice_JJ, N.
  - intros G T. apply C. apply nice_takes; assumption.
  - intros T. apply D. apply nice_ns; assumption.
Qed.

Lemma quot_l x y k : k <> 0 -> x = k * y -> x / k = y.
Proof. intros K ->. rewrite Z.mul_comm. apply Z.div_mul. exact K. Qed.
Ltac nzp := repeat (apply nzm; [|exact p0']); exact p0'.

Lemma good_p2 g m : all_dv (p * p) g -> good (g, m) (case_p2 p (g, m)).
Proof.
  destruct g as [a b c d e], m as [u [k l r t]]. unfold all_dv, case_p2, good, takes, nonsingular, um_det. cbn [fst snd ra rb rc rd re].
  intros ((a' & ->) & (b' & ->) & (c' & ->) & (d' & ->) & (e' & ->)).
  assert (p * p <> 0) by nzp. rewrite !Z.div_mul by assumption. unfold II, JJ. cbn [ra rb rc rd re].
  split; [ring|]. split; [ring|]. split; [intros G H0 x z|].
  2: { unfold sum_uscale, sum_xscale. cbn [m00 sm m11 m12 m21 m22]. intros (n1 & n2). split; intros E0; [apply n1|apply n2].
       - apply Z.mul_eq_0 in E0. destruct E0 as [E0|E0]; [exact E0|]. exfalso. revert E0. nzp.
       - exact E0. }
  unfold sum_uscale. cbn [m00 sm m11 m12 m21 m22] in *. rewrite H0. unfold r_eval. cbn [ra rb rc rd re]. ring.
Qed.
Lemma good_quad a b c d e m : 
  good (Qt a (p * b) (p * p * c) (p * p * p * d) (p * p * p * p * e), m)
       (scale_quad p (Qt a (p * b) (p * p * c) (p * p * p * d) (p * p * p * p * e), m)).
Proof.
  destruct m as [u [k l r t]]. unfold scale_quad, good, takes, nonsingular, um_det. cbn [fst snd ra rb rc rd re].
  rewrite (quot_l (p * b) b p), (quot_l (p * p * c) c (p * p)), (quot_l (p * p * p * d) d (p * (p * p))),
    (quot_l (p * p * p * p * e) e (p * p * (p * p))); try ring; try nzp; try (rewrite !Z.mul_assoc; nzp).
  unfold II, JJ. cbn [ra rb rc rd re].
  split; [ring|]. split; [ring|]. split; [intros G H0 x z|].
  2: { unfold sum_uscale, sum_xscale. cbn [m00 sm m11 m12 m21 m22]. intros (n1 & n2). split; intros E0; [apply n1|apply n2].
       - apply Z.mul_eq_0 in E0. destruct E0 as [E0|E0]; [exact E0|]. exfalso. revert E0. nzp.
       - clear - p0' E0; apply Z.mul_reg_l with (p); [nzp|]. rewrite Z.mul_0_r, <- E0. ring. }
  unfold sum_uscale, sum_xscale. cbn [m00 sm m11 m12 m21 m22] in *.
  specialize (H0 (p * x) z). rewrite !Z.mul_assoc in *. rewrite H0. unfold r_eval. cbn [ra rb rc rd re]. ring.
Qed.
Lemma good_triple a b c d e m : 
  good (Qt a b (p * p * c) (p * p * p * p * d) (p * p * p * p * p * p * e), m)
       (scale_triple p (Qt a b (p * p * c) (p * p * p * p * d) (p * p * p * p * p * p * e), m)).
Proof.
  destruct m as [u [k l r t]]. unfold scale_triple, good, takes, nonsingular, um_det. cbn [fst snd ra rb rc rd re].
  rewrite (quot_l (p * p * c) c (p * p)), (quot_l (p * p * p * p * d) d (p * p * (p * p))),
    (quot_l (p * p * p * p * p * p * e) e (p * p * (p * p) * (p * p))); try ring; try nzp; try (rewrite !Z.mul_assoc; nzp).
  unfold II, JJ. cbn [ra rb rc rd re].
  split; [ring|]. split; [ring|]. split; [intros G H0 x z|].
  2: { unfold sum_uscale, sum_xscale. cbn [m00 sm m11 m12 m21 m22]. intros (n1 & n2). split; intros E0; [apply n1|apply n2].
       - apply Z.mul_eq_0 in E0. destruct E0 as [E0|E0]; [exact E0|]. exfalso. revert E0. rewrite !Z.mul_assoc; nzp.
       - clear - p0' E0; apply Z.mul_reg_l with (p * p); [nzp|]. rewrite Z.mul_0_r, <- E0. ring. }
  unfold sum_uscale, sum_xscale. cbn [m00 sm m11 m12 m21 m22] in *.
  specialize (H0 (p * p * x) z). rewrite !Z.mul_assoc in *. rewrite H0. unfold r_eval. cbn [ra rb rc rd re]. ring.
Qed.

Lemma ex_mul x : (p | x) -> exists y, x = p * y.
Proof. intros (y & ->). exists y. ring. Qed.
Lemma ex_mul4 x : (p ^ 4 | x) -> exists q, x = q * p ^ 4. Proof. intros (q & ->). exists q. reflexivity. Qed.

(** nothing but a change of variables of determinant 1 *)
Definition same (s s' : st) : Prop :=
  II (fst s') = II (fst s) /\ JJ (fst s') = JJ (fst s) /\
  (forall G, takes (snd s) G (fst s) -> takes (snd s') G (fst s')) /\ (nonsingular (snd s) -> nonsingular (snd s')).
Definition done (b : bool) (s s' : st) : Prop := if b then good s s' else p = 2 /\ same s s'.
Lemma same_nice f s : nice f -> same s (f s).
Proof.
  intros N. split; [apply nice_II, N|]. split; [apply nice_JJ, N|]. split; [intros G; apply nice_takes, N|apply nice_ns, N].
Qed.
Lemma done_nice f b s s' : nice f -> done b (f s) s' -> done b s s'.
Proof.
  intros N. destruct b; cbn [done]; [apply good_nice, N|]. intros (E & A & B & C & D). split; [exact E|].
  split; [rewrite A; apply nice_II, N|]. split; [rewrite B; apply nice_JJ, N|]. split.
  - intros G T. apply C. apply nice_takes; assumption.
  - intros T. apply D. apply nice_ns; assumption.
Qed.
Lemma same_refl s : same s s. Proof. repeat (split; [reflexivity|]). split; auto. Qed.

(** ** not all coefficients divisible by p *)
Lemma case_1_ok s : (p ^ 4 | II (fst s)) -> (p ^ 6 | JJ (fst s)) -> ~ all_dv p (fst s) ->
  exists b s', case_1 xgcd p s = Ok (b, s') /\ done b s s'.
Proof.
  intros HI HJ NA. destruct s as (g & m). cbn [fst] in *. unfold case_1. cbn [fst].
  destruct (to_zero_ok g (g, m)) as (f & -> & Nf & F).
  { apply Z.divide_trans with (p ^ 4); [exists (p ^ 3); ring|exact HI]. }
  { apply Z.divide_trans with (p ^ 6); [exists (p ^ 5); ring|exact HJ]. }
  { exact NA. }
  rewrite bind_Ok. specialize (F m). cbv zeta in F.
  rewrite <- (nice_II' f g m Nf) in HI. rewrite <- (nice_JJ' f g m Nf) in HJ.
  match goal with |- exists b s', ?T = _ /\ _ => cut (exists b s', T = Ok (b, s') /\ done b (f (g, m)) s') end.
  { intros (b & s' & E & H). exists b, s'. split; [exact E|]. apply done_nice with f; assumption. }
  destruct (f (g, m)) as (g1 & m1). clear f Nf NA g m. cbn [fst] in *. destruct F as (C & D & E & AB).
  (* fourth root to infinity *)
  cbv zeta.
  match goal with |- exists b s', bind ?T _ = _ /\ _ => cut (exists f, T = Ok (f (g1, m1)) /\ nice f /\
        let g' := fst (f (g1, m1)) in (p | rc g') /\ (p | rd g') /\ (p | re g') /\
          (((p | ra g') /\ ~ (p | rb g')) \/ (~ (p | ra g') /\ (p | rb g')))) end.
  { intros (f & -> & Nf & F). rewrite bind_Ok.
    rewrite <- (nice_II' f g1 m1 Nf) in HI. rewrite <- (nice_JJ' f g1 m1 Nf) in HJ.
    cbv zeta in *. destruct (f (g1, m1)) as (g2 & m2) eqn:EF. cbn [fst] in *.
    match goal with |- exists b s', ?T = _ /\ _ => cut (exists b s', T = Ok (b, s') /\ done b (g2, m2) s') end.
    { intros (b & s' & T & H). exists b, s'. split; [exact T|]. rewrite <- EF in H. apply done_nice with f; assumption. }
    clear f Nf EF g1 m1 C D E AB. destruct F as (C & D & E & [(A & B)|(A & B)]).
    - rewrite (proj2 (dv_ok p _ p0') A). destruct (Z.eqb_spec p 3); [contradiction|].
      destruct g2 as [a b c d e]. cbn [ra rb rc rd re] in *.
      destruct (ex_mul _ C) as (c1 & ->).
      replace (- (p * c1) / p) with (- c1) by (symmetry; apply quot_l; [exact p0'|ring]).
      assert (BE : exists m, (if negb (dv p (- c1)) then m <- mod_z (- c1 * invmod_z xgcd (3 * b) p) p ;; Ok (p * m) else Ok 0) = Ok (p * m)
                   /\ (p | 3 * b * m + c1)).
      { destruct (dv p (- c1)) eqn:DC; cbn [negb].
        - exists 0. rewrite Z.mul_0_r. split; [reflexivity|]. rewrite Z.mul_0_r, Z.add_0_l. apply dv_ok in DC; [|exact p0'].
          apply (proj1 (Z.divide_opp_r _ _)) in DC. exact DC.
        - destruct (quot_ok (- c1) (3 * b)) as (mm & -> & Q). { apply (unit_mul p P); [exact U3|exact B]. }
          exists mm. rewrite bind_Ok. split; [reflexivity|]. apply (dvc1 p 1 _ _ Q). ring. }
      destruct BE as (be & -> & Q). rewrite bind_Ok. eexists true, _. split; [reflexivity|]. cbn [done].
      assert (Nx : nice (m_xshift (p * be))) by (right; left; eexists; reflexivity).
      apply (good_nice (m_xshift (p * be)) _ _ Nx).
      pose proof (nice_II (m_xshift (p * be)) (Qt a b (p * c1) d e, m2) Nx) as EI.
      pose proof (nice_JJ (m_xshift (p * be)) (Qt a b (p * c1) d e, m2) Nx) as EJ.
      cbn [fst] in EI, EJ. rewrite <- EI in HI. rewrite <- EJ in HJ. clear EI EJ Nx.
      destruct (ex_mul _ A) as (a1 & ->), (ex_mul _ D) as (d1 & ->), (ex_mul _ E) as (e1 & ->), (ex_mul _ Q) as (q & EQ).
      assert (B' : ~ (p | b + 4 * (p * be) * (p * a1))).
      { intros H. apply B. apply (dvc2 p 1 (- 4 * (p * be) * a1) _ _ _ H (Z.divide_refl p)). ring. }
      cut (exists c2 d1' e1', m_xshift (p * be) (Qt (p * a1) b (p * c1) (p * d1) (p * e1), m2) =
        (Qt (p * a1) (b + 4 * (p * be) * (p * a1)) (p * p * c2) (p * d1') (p * e1'), Sum (m00 m2) (um_xshift (p * be) (sm m2)))).
      { intros (c2 & d1' & e1' & EX). rewrite EX in *. cbn [fst] in HI, HJ. clear EX Q EQ B. destruct HI as (qI & HI), HJ as (qJ & HJ).
        destruct (triple_root p P U3 a1 (b + 4 * (p * be) * (p * a1)) c2 d1' e1' qI qJ B' HI HJ) as (d4 & e6 & -> & ->).
        pose proof (good_triple (p * a1) (b + 4 * (p * be) * (p * a1)) c2 d4 e6 (Sum (m00 m2) (um_xshift (p * be) (sm m2)))) as GT.
        rewrite !Z.mul_assoc in *. exact GT. }
      unfold m_xshift, r_xshift. cbn [fst snd ra rb rc rd re].
      exists (q + 6 * p * be * be * a1), (d1 + be * (2 * (p * c1) + p * be * (3 * b + 4 * (p * be) * (p * a1)))),
        (e1 + be * (p * d1 + p * be * (p * c1 + p * be * (b + p * be * (p * a1))))).
      f_equal. f_equal; [|ring|ring].
      apply (lin1 p _ _ _ _ EQ). ring.
    - rewrite (proj2 (dv_no p _ p0') A). destruct (Z.eqb_spec p 3); [contradiction|]. rewrite bind_Ok. cbn [fst].
      destruct ((p =? 2) && negb (dv 16 (re g2))) eqn:FA.
      { apply andb_true_iff in FA. destruct FA as (FA & _). apply Z.eqb_eq in FA. exists false, (g2, m2). split; [reflexivity|].
        split; [exact FA|apply same_refl]. }
      eexists true, _. split; [reflexivity|]. cbn [done]. destruct g2 as [a b c d e]. cbn [ra rb rc rd re] in *.
      destruct (ex_mul _ B) as (b1 & ->), (ex_mul _ C) as (c1 & ->), (ex_mul _ D) as (d1 & ->), (ex_mul _ E) as (e1 & ->).
      destruct HI as (qI & HI), HJ as (qJ & HJ).
      cut (exists c2 d3 e4, c1 = p * c2 /\ d1 = p * p * d3 /\ e1 = p * p * p * e4).
      { intros (c2 & d3 & e4 & -> & -> & ->). pose proof (good_quad a b1 c2 d3 e4 m2) as GT. rewrite !Z.mul_assoc in *. exact GT. }
      destruct (Z.eqb_spec p 2) as [E2|N2].
      + cbn [andb] in FA. apply negb_false_iff, dv_ok in FA; [|discriminate]. destruct FA as (e4 & E4).
        rewrite E2 in HI, HJ, A, E4 |- *. assert (EE : e1 = 2 * 2 * 2 * e4) by (clear - E4; lia). subst e1.
        replace (2 * (2 * 2 * 2 * e4)) with (16 * e4) in HI, HJ by ring.
        destruct (quad_root2 a b1 c1 d1 e4 qI qJ A HI HJ) as (c2 & d3 & -> & ->). exists c2, d3, e4. repeat split.
      + exact (quad_root p P (U2' N2) U3 a b1 c1 d1 e1 qI qJ A HI HJ). }
  clear HI HJ. cbv zeta. destruct (dv p (ra g1)) eqn:DA; cbn [negb andb].
  { exists (fun s => s). split; [reflexivity|]. split; [right; right; right; reflexivity|]. cbn [fst].
    apply dv_ok in DA; [|exact p0']. tauto. }
  destruct (dv p (rb g1)) eqn:DB; cbn [negb].
  { exists (fun s => s). split; [reflexivity|]. split; [right; right; right; reflexivity|]. cbn [fst].
    apply dv_no in DA; [|exact p0']. apply dv_ok in DB; [|exact p0']. tauto. }
  apply dv_no in DB; [|exact p0'].
  destruct (quot_ok (- ra g1) (rb g1) DB) as (ga & -> & Q). rewrite bind_Ok. exists (m_zshift ga). split; [reflexivity|].
  split; [right; right; left; exists ga; reflexivity|]. destruct g1 as [a b c d e]. cbn [m_zshift fst r_zshift ra rb rc rd re] in *.
  split; [|split; [|split; [|left; split]]].
  - apply (dvc3 p 1 (3 * ga) (6 * ga * ga) _ _ _ _ C D E). ring.
  - apply (dvc2 p 1 (4 * ga) _ _ _ D E). ring.
  - exact E.
  - apply (dvc4 p 1 (ga * ga) (ga * ga * ga) (ga * ga * ga * ga) _ _ _ _ _ Q C D E). ring.
  - intros H. apply DB. apply (dvc4 p 1 (- 2 * ga) (- 3 * ga * ga) (- 4 * ga * ga * ga) _ _ _ _ _ H C D E). ring.
Qed.

(** ** all coefficients divisible by p *)
Lemma case_p_ok s : (p ^ 4 | II (fst s)) -> (p ^ 6 | JJ (fst s)) -> all_dv p (fst s) -> ~ all_dv (p * p) (fst s) ->
  p = 2 \/ soluble4 p (fst s) \/ ((p ^ 5 | II (fst s)) /\ (p ^ 7 | JJ (fst s))) ->
  exists b s', case_p xgcd p s = Ok (b, s') /\ done b s s'.
Proof.
  destruct s as (g & m). cbn [fst]. intros HI HJ AD NA SOL.
  assert (EG : exists g0, g = rsc p g0).
  { destruct g as [a b c d e]. destruct AD as (A & B & C & D & E). cbn [ra rb rc rd re] in *.
    destruct (ex_mul _ A) as (a1 & ->), (ex_mul _ B) as (b1 & ->), (ex_mul _ C) as (c1 & ->), (ex_mul _ D) as (d1 & ->), (ex_mul _ E) as (e1 & ->).
    exists (Qt a1 b1 c1 d1 e1). reflexivity. }
  destruct EG as (g0 & ->). clear AD.
  assert (NA0 : ~ all_dv p g0).
  { intros (A & B & C & D & E). apply NA. unfold all_dv, rsc. cbn [ra rb rc rd re]. repeat split; apply Z.mul_divide_mono_l; assumption. }
  assert (SI : forall h, II (rsc p h) = p * p * II h) by (intros h; unfold II, rsc; cbn [ra rb rc rd re]; ring).
  assert (SJ : forall h, JJ (rsc p h) = p * p * p * JJ h) by (intros h; unfold JJ, rsc; cbn [ra rb rc rd re]; ring).
  assert (CD : forall k j x, k <> 0 -> (k * j | k * x) -> (j | x)).
  { intros k j x K H. apply Z.mul_divide_cancel_l in H; assumption. }
  assert (n2 : p * p <> 0) by nzp. assert (n3 : p * p * p <> 0) by nzp.
  assert (HI0 : (p ^ 2 | II g0)). { apply (CD (p * p)); [exact n2|]. rewrite <- SI. replace (p * p * p ^ 2) with (p ^ 4) by ring. exact HI. }
  assert (HJ0 : (p ^ 3 | JJ g0)). { apply (CD (p * p * p)); [exact n3|]. rewrite <- SJ. replace (p * p * p * p ^ 3) with (p ^ 6) by ring. exact HJ. }
  assert (SOL0 : p = 2 \/ soluble4 p (rsc p g0) \/ ((p ^ 3 | II g0) /\ (p ^ 4 | JJ g0))).
  { destruct SOL as [S|[S|(A & B)]]; [left; exact S|right; left; exact S|right; right]. split.
    - apply (CD (p * p)); [exact n2|]. rewrite <- SI. replace (p * p * p ^ 3) with (p ^ 5) by ring. exact A.
    - apply (CD (p * p * p)); [exact n3|]. rewrite <- SJ. replace (p * p * p * p ^ 4) with (p ^ 7) by ring. exact B. }
  clear HI HJ NA SOL SI SJ CD.
  unfold case_p. cbn [fst]. cbv zeta.
  assert (EQ0 : Qt (ra (rsc p g0) / p) (rb (rsc p g0) / p) (rc (rsc p g0) / p) (rd (rsc p g0) / p) (re (rsc p g0) / p) = g0).
  { destruct g0 as [a b c d e]. unfold rsc. cbn [ra rb rc rd re]. f_equal; apply quot_l; auto. }
  rewrite EQ0. generalize (ra (rsc p g0) / p). intros a0. clear EQ0.
  destruct (to_zero_ok g0 (rsc p g0, m)) as (f & -> & Nf & F).
  { apply Z.divide_trans with (p ^ 2); [exists p; ring|exact HI0]. }
  { apply Z.divide_trans with (p ^ 3); [exists (p * p); ring|exact HJ0]. }
  { exact NA0. }
  rewrite bind_Ok. specialize (F m). cbv zeta in F.
  match goal with |- exists b s', ?T = _ /\ _ => cut (exists b s', T = Ok (b, s') /\ done b (f (rsc p g0, m)) s') end.
  { intros (b & s' & E & H). exists b, s'. split; [exact E|]. apply done_nice with f; assumption. }
  rewrite <- (nice_II' f g0 m Nf) in HI0, SOL0. rewrite <- (nice_JJ' f g0 m Nf) in HJ0, SOL0.
  assert (SOL1 : p = 2 \/ soluble4 p (fst (f (rsc p g0, m))) \/ ((p ^ 3 | II (fst (f (g0, m)))) /\ (p ^ 4 | JJ (fst (f (g0, m)))))).
  { destruct SOL0 as [S|[S|S]]; [left; exact S|right; left; apply nice_sol; [exact Nf|exact S]|right; right; exact S]. }
  clear SOL0. rewrite (nice_rsc f p g0 m m Nf) in SOL1.
  assert (EF : f (rsc p g0, m) = (rsc p (fst (f (g0, m))), snd (f (rsc p g0, m)))).
  { rewrite <- (nice_rsc f p g0 m m Nf). apply surjective_pairing. }
  rewrite EF. generalize (snd (f (rsc p g0, m))). intros m1. clear EF NA0. revert HI0 HJ0 F SOL1. generalize (fst (f (g0, m))). clear f Nf g0 m.
  intros g0 HI HJ (C & D & E & AB) SOL. cbn [fst].
  assert (EB : rb (rsc p g0) / p = rb g0) by (apply quot_l; [exact p0'|reflexivity]). rewrite EB. clear EB.
  match goal with |- exists b s', bind ?T _ = _ /\ _ => assert (ET : exists f, T = Ok (f (rsc p g0, m1)) /\ nice f /\
        let g' := fst (f (g0, m1)) in (p | rc g') /\ (p | rd g') /\ (p | re g') /\ ((~ (p | rb g')) \/ (~ (p | ra g') /\ (p | rb g')))) end.
  { destruct (negb (dv (p * p) (ra (rsc p g0))) && negb (dv p (rb g0))) eqn:C0.
    - apply andb_true_iff in C0. destruct C0 as (_ & C0). apply negb_true_iff in C0. apply dv_no in C0; [|exact p0'].
      destruct (mod_z_ok (- a0 * invmod_z xgcd (rb g0) p) p p0') as (ga & -> & _). rewrite bind_Ok.
      exists (m_zshift ga). split; [reflexivity|]. split; [right; right; left; exists ga; reflexivity|].
      destruct g0 as [a b c d e]. cbn [m_zshift fst r_zshift ra rb rc rd re] in *.
      split; [|split; [|split; [|left]]].
      + apply (dvc3 p 1 (3 * ga) (6 * ga * ga) _ _ _ _ C D E). ring.
      + apply (dvc2 p 1 (4 * ga) _ _ _ D E). ring.
      + exact E.
      + intros H. apply C0. apply (dvc4 p 1 (- 2 * ga) (- 3 * ga * ga) (- 4 * ga * ga * ga) _ _ _ _ _ H C D E). ring.
    - exists (fun s => s). split; [reflexivity|]. split; [right; right; right; reflexivity|]. cbn [fst].
      split; [exact C|]. split; [exact D|]. split; [exact E|].
      destruct (Znumtheory.Zdivide_dec p (rb g0)) as [B|B]; [right; tauto|left; exact B]. }
  destruct ET as (f & -> & Nf & F). rewrite bind_Ok. cbv zeta in F. clear C D E AB.
  destruct ((p =? 2) && negb (dv 16 (re (fst (f (rsc p g0, m1)))))) eqn:FA.
  { apply andb_true_iff in FA. destruct FA as (FA & _). apply Z.eqb_eq in FA. eexists false, _. split; [reflexivity|].
    split; [exact FA|]. apply same_nice, Nf. }
  eexists true, _. split; [reflexivity|]. cbn [done].
  apply (good_nice f _ _ Nf).
  rewrite <- (nice_II' f g0 m1 Nf) in HI, SOL. rewrite <- (nice_JJ' f g0 m1 Nf) in HJ, SOL.
  assert (SOL1 : p = 2 \/ soluble4 p (fst (f (rsc p g0, m1))) \/ ((p ^ 3 | II (fst (f (g0, m1)))) /\ (p ^ 4 | JJ (fst (f (g0, m1)))))).
  { destruct SOL as [S|[S|S]]; [left; exact S|right; left; apply nice_sol; [exact Nf|exact S]|right; right; exact S]. }
  clear SOL. rewrite (nice_rsc f p g0 m1 m1 Nf) in SOL1.
  assert (EF : f (rsc p g0, m1) = (rsc p (fst (f (g0, m1))), snd (f (rsc p g0, m1)))).
  { rewrite <- (nice_rsc f p g0 m1 m1 Nf). apply surjective_pairing. }
  rewrite EF. generalize (snd (f (rsc p g0, m1))). intros m2. clear EF. rewrite (nice_rsc f p g0 m1 m1 Nf) in FA. revert HI HJ F SOL1 FA. generalize (fst (f (g0, m1))). clear f Nf g0 m1.
  intros [a b c d e] HI HJ (C & D & E & AB) SOL FA. unfold rsc in *. cbn [ra rb rc rd re] in *.
  destruct (ex_mul _ C) as (c1 & ->), (ex_mul _ D) as (d1 & ->), (ex_mul _ E) as (e1 & ->). clear C D E.
  cut (exists d2 e3, d1 = p * d2 /\ e1 = p * p * e3).
  { intros (d2 & e3 & -> & ->). pose proof (good_quad (p * a) b c1 d2 e3 m2) as GT. rewrite !Z.mul_assoc in *. exact GT. }
  destruct HI as (qI & HI), HJ as (qJ & HJ). destruct AB as [B|(A & B)].
  { exact (all_triple p P U3 a b c1 d1 e1 qI qJ B HI HJ). }
  destruct (ex_mul _ B) as (b1 & ->). clear B.
  destruct (Z.eqb_spec p 2) as [E2|N2].
  { cbn [andb] in FA. apply negb_false_iff, dv_ok in FA; [|discriminate]. destruct FA as (e3 & E3).
    rewrite E2 in HI, HJ, A, E3 |- *. assert (EE : e1 = 2 * 2 * e3) by (clear - E3; lia). subst e1.
    replace (2 * (2 * 2 * e3)) with (8 * e3) in HI, HJ by ring.
    destruct (all_quad2 a b1 c1 d1 e3 qI qJ A HI HJ) as (d2 & ->). exists d2, e3. split; reflexivity. }
  destruct SOL as [S|SOL]; [contradiction|]. pose proof (U2' N2) as U2.
  destruct (all_quad p P U2 U3 a b1 c1 d1 e1 qI qJ A HI HJ) as (d2 & e2 & -> & ->).
  assert (exists e3, e2 = p * e3) as (e3 & ->).
  { destruct SOL as [(x & z & y & N & S)|((q1 & H1) & (q2 & H2))].
    - apply (all_quad_sol p P a b1 c1 d2 e2 x z y A N).
      match goal with H : (_ | ?U) |- (_ | ?V) => replace V with U; [exact H|] end. unfold r_eval. cbn [ra rb rc rd re]. ring.
    - apply (all_quad_more p P U2 U3 a b1 c1 d2 e2 q1 q2 A); rewrite <- !Z.mul_assoc in *; assumption. }
  exists d2, e3. split; ring.
Qed.

Theorem minim_p_ok s : (p ^ 4 | II (fst s)) -> (p ^ 6 | JJ (fst s)) ->
  p = 2 \/ soluble4 p (fst s) \/ ((p ^ 5 | II (fst s)) /\ (p ^ 7 | JJ (fst s))) ->
  exists b s', minim_p xgcd p s = Ok (b, s') /\ done b s s'.
Proof.
  intros HI HJ S. unfold minim_p. assert (n2 : p * p <> 0) by nzp.
  destruct (dv_all (p * p) (fst s)) eqn:D2.
  { apply dv_all_ok in D2; [|exact n2]. eexists true, _. split; [reflexivity|]. destruct s as (g & m). apply good_p2, D2. }
  apply dv_all_no in D2; [|exact n2].
  destruct (dv_all p (fst s)) eqn:D1.
  - apply dv_all_ok in D1; [|exact p0']. apply case_p_ok; assumption.
  - apply dv_all_no in D1; [|exact p0']. apply case_1_ok; assumption.
Qed.

End R.
