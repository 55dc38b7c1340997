(** Proofs about minim_all of MinimModel. *)
From Coq Require Import ZArith List Bool Lia Znumtheory Zpow_facts.
From Verif Require Import Base FormsModel MArithModel MArithProofs LocSolSpec MinimModel MinimSpec MinimArith MinimProofs.
Import ListNotations.
Open Scope Z_scope.
Open Scope res_scope.

Lemma pow_dvd p m n x : 0 <= m <= n -> (p ^ n | x) -> (p ^ m | x).
Proof.
  intros L H. apply Z.divide_trans with (p ^ n); [|exact H]. exists (p ^ (n - m)). rewrite <- Z.pow_add_r by lia. f_equal. lia.
Qed.

(** ** solubility *)
Lemma padic_soluble p g : padic_point p (ra g) (rb g) (rc g) (rd g) (re g) -> soluble p g.
Proof.
  intros (x & z & y & C1 & C2 & C3 & PR & SS). exists 1. split; [lia|]. intros N N0.
  assert (G : forall s, coherent p s -> forall n, (p | s (S n) - s 1%nat)).
  { intros s C. induction n as [|n IH]; [rewrite Z.sub_diag; apply Z.divide_0_r|].
    replace (s (S (S n)) - s 1%nat) with (s (S (S n)) - s (S n) + (s (S n) - s 1%nat)) by ring.
    apply Z.divide_add_r; [|exact IH]. specialize (C (S n)). rewrite <- (Z.pow_1_r p). eapply pow_dvd; [|exact C]. lia. }
  set (n := S (Z.to_nat N)). exists (x n), (z n), (y n). rewrite Z.pow_1_r. split.
  - intros (A & B). apply PR. split.
    + apply (dvc2 p 1 (-1) _ _ _ A (G x C1 (Z.to_nat N))). fold n. ring.
    + apply (dvc2 p 1 (-1) _ _ _ B (G z C2 (Z.to_nat N))). fold n. ring.
  - apply pow_dvd with (Z.of_nat n); [unfold n; lia|]. apply SS.
Qed.

Section P.
Variable p : Z.
Hypothesis P : prime p.
Let p2 : 2 <= p. Proof. apply prime_ge_2, P. Qed.

Lemma sol_down g : forall (K : nat) N x z y, 4 * Z.of_nat K + 4 <= N ->
  ~ ((p ^ Z.of_nat K | x) /\ (p ^ Z.of_nat K | z)) -> (p ^ N | y * y - r_eval g x z) -> soluble4 p g.
Proof.
  induction K as [|K IH]; intros N x z y HN NP S.
  { exfalso. apply NP. split; apply Z.divide_1_l. }
  destruct (Zdivide_dec p x) as [(x1 & ->)|NX].
  2: { exists x, z, y. split; [tauto|]. apply pow_dvd with N; [lia|exact S]. }
  destruct (Zdivide_dec p z) as [(z1 & ->)|NZ].
  2: { exists (x1 * p), z, y. split; [tauto|]. apply pow_dvd with N; [lia|exact S]. }
  destruct S as (q & S).
  assert (EV : r_eval g (x1 * p) (z1 * p) = p ^ 4 * r_eval g x1 z1) by (unfold r_eval; ring). rewrite EV in S.
  assert (EN : p ^ N = p ^ 4 * p ^ (N - 4)) by (rewrite <- Z.pow_add_r by lia; f_equal; lia). rewrite EN in S.
  assert (Y : (p | y)).
  { apply (sqdv p P). exists (p ^ 3 * (q * p ^ (N - 4) + r_eval g x1 z1)). apply (lin1 1 _ _ _ _ S). ring. }
  destruct Y as (y1 & ->).
  assert (Y : (p | y1)).
  { apply (sqdv p P). exists (p * (q * p ^ (N - 4) + r_eval g x1 z1)).
    apply Z.mul_reg_l with (p * p); [lia|]. apply (lin1 1 _ _ _ _ S). ring. }
  destruct Y as (y2 & ->).
  apply (IH (N - 4) x1 z1 y2); [lia| |].
  - intros (A & B). apply NP. rewrite Nat2Z.inj_succ, Z.pow_succ_r by lia. rewrite (Z.mul_comm p). split; apply Z.mul_divide_mono_r; assumption.
  - exists q. apply Z.mul_reg_l with (p ^ 4); [apply Z.pow_nonzero; lia|]. apply (lin1 1 _ _ _ _ S). ring.
Qed.
Lemma soluble_4 g : soluble p g -> soluble4 p g.
Proof.
  intros (K & K0 & H). destruct (H (4 * K + 4) ltac:(lia)) as (x & z & y & N & S).
  apply (sol_down g (Z.to_nat K) (4 * K + 4) x z y); rewrite ?Z2Nat.id by exact K0; [lia|exact N|exact S].
Qed.

Lemma pow_gauss k w x : 0 <= k -> ~ (p | w) -> (p ^ k | w * x) -> (p ^ k | x).
Proof.
  intros K W H. apply Gauss with w; [exact H|]. apply rel_prime_sym, rel_prime_Zpower_r; [exact K|].
  apply rel_prime_sym, prime_rel_prime; assumption.
Qed.

(** a non-singular substitution and scaling keeps solubility *)
Lemma takes_soluble M G g : nonsingular M -> takes M G g -> soluble p G -> soluble p g.
Proof.
  intros (U & D) T (K & K0 & S). destruct M as [u [a b c d]]. unfold takes, um_det in *. cbn [m00 sm m11 m12 m21 m22] in *.
  set (dt := a * d - b * c) in *.
  destruct (val_z_ok p (u * dt)) as (v & _ & V0 & (w & V1) & V2). { apply nzm; assumption. } { lia. }
  assert (W : ~ (p | w)).
  { intros (w' & ->). apply V2. exists w'. rewrite Z.pow_add_r, Z.pow_1_r, V1 by lia. ring. }
  exists (K + v). split; [lia|]. intros N N0. destruct (S N N0) as (X & Z' & Y & NP & E).
  exists (u * (d * X - b * Z')), (u * (- c * X + a * Z')), (u * dt * dt * Y). split.
  - intros (A & B). apply NP.
    assert (F : forall x, (p ^ (K + v) | u * dt * x) -> (p ^ K | x)).
    { intros x H. apply (pow_gauss K w x K0 W). rewrite V1 in H. rewrite Z.pow_add_r in H by lia.
      replace (w * p ^ v * x) with ((w * x) * p ^ v) in H by ring.
      apply Z.mul_divide_cancel_r in H; [exact H|]. apply Z.pow_nonzero; lia. }
    split; apply F.
    + apply (dvc2 _ a b _ _ _ A B). unfold dt. ring.
    + apply (dvc2 _ c d _ _ _ A B). unfold dt. ring.
  - specialize (T (u * (d * X - b * Z')) (u * (- c * X + a * Z'))).
    apply (dvc1 _ (u * dt * dt * (u * dt * dt)) _ _ E).
    apply Z.mul_reg_l with (u * u); [apply nzm; assumption|].
    transitivity (u * u * (u * dt * dt * Y * (u * dt * dt * Y)) - u * u * r_eval g (u * (d * X - b * Z')) (u * (- c * X + a * Z'))); [ring|].
    rewrite <- T. unfold r_eval, dt. ring.
Qed.
End P.

(** ** the loop *)
Definition rep (p v n : Z) : Prop := 0 <= v /\ (p ^ v | n) /\ (n <> 0 -> ~ (p ^ (v + 1) | n)).
Lemma rep_step p v n k : p <> 0 -> 0 <= k <= v -> rep p v (p ^ k * n) -> rep p (v - k) n.
Proof.
  intros P0 K (V & A & B). assert (PK : p ^ k <> 0) by (apply Z.pow_nonzero; lia). split; [lia|].
  assert (E : forall w, k <= w -> p ^ w = p ^ k * p ^ (w - k)) by (intros w W; rewrite <- Z.pow_add_r by lia; f_equal; lia).
  split.
  - rewrite (E v) in A by lia. apply Z.mul_divide_cancel_l in A; assumption.
  - intros NN H. apply B. { intros E0. apply Z.mul_eq_0 in E0. tauto. }
    rewrite (E (v + 1)) by lia. apply Z.mul_divide_mono_l. replace (v + 1 - k) with (v - k + 1) by lia. exact H.
Qed.

Lemma div4 p n : p <> 0 -> p ^ 4 * n / p / p / p / p = n.
Proof.
  intros P0. replace (p ^ 4 * n) with (n * p * p * p * p) by ring. rewrite !Z.div_mul by exact P0. reflexivity.
Qed.
Lemma div6 p n : p <> 0 -> p ^ 6 * n / p / p / p / p / p / p = n.
Proof.
  intros P0. replace (p ^ 6 * n) with (n * p * p * p * p * p * p) by ring. rewrite !Z.div_mul by exact P0. reflexivity.
Qed.

Section L.
Variable xgcd : Z -> Z -> Z * Z * Z.
Hypothesis X : xgcd_spec xgcd.
Variable G : quartic.

Lemma min_loop_false fuel p sp locsol s I J vpi vpj vpd : min_loop xgcd fuel p sp locsol false s I J vpi vpj vpd = Ok (s, I, J).
Proof. destruct fuel; reflexivity. Qed.
Lemma is_nonmin_sp sp vpi vpj vpd locsol : sp <> 3 -> is_nonmin sp vpi vpj vpd locsol = is_nonmin 1 vpi vpj vpd locsol.
Proof. intros S. unfold is_nonmin. destruct (Z.eqb_spec sp 3); [contradiction|]. reflexivity. Qed.

Lemma min_loop_ok p sp locsol : prime p -> p <> 3 -> sp <> 3 -> (p <> 2 -> locsol = true -> soluble p G) ->
  forall fuel s vpi vpj vpd, takes (snd s) G (fst s) -> nonsingular (snd s) ->
  rep p vpi (II (fst s)) -> rep p vpj (JJ (fst s)) -> (Z.to_nat vpi < fuel)%nat ->
  exists s' k, min_loop xgcd fuel p sp locsol (is_nonmin sp vpi vpj vpd locsol) s (II (fst s)) (JJ (fst s)) vpi vpj vpd
      = Ok (s', II (fst s'), JJ (fst s')) /\
    takes (snd s') G (fst s') /\ nonsingular (snd s') /\ 0 <= k /\
    II (fst s) = p ^ (4 * k) * II (fst s') /\ JJ (fst s) = p ^ (6 * k) * JJ (fst s') /\
    rep p (vpi - 4 * k) (II (fst s')) /\ rep p (vpj - 6 * k) (JJ (fst s')) /\
    (p <> 2 -> is_nonmin 1 (vpi - 4 * k) (vpj - 6 * k) vpd locsol = false).
Proof.
  intros P P3 SP LS. induction fuel as [|fuel IH]; intros s vpi vpj vpd T NS RI RJ FU; [lia|].
  destruct (is_nonmin sp vpi vpj vpd locsol) eqn:NM.
  2: { exists s, 0. cbn [min_loop]. rewrite !Z.mul_0_r, !Z.sub_0_r, !Z.pow_0_r, !Z.mul_1_l. repeat (split; [assumption || reflexivity || lia|]).
       intros _. rewrite <- (is_nonmin_sp sp) by exact SP. assumption. }
  cbn [min_loop]. rewrite is_nonmin_sp in NM by exact SP.
  assert (B : 4 <= vpi /\ 6 <= vpj /\ (locsol = false -> 8 <= vpi /\ 12 <= vpj)).
  { clear - NM. unfold is_nonmin in NM. destruct locsol; cbn [negb Z.eqb Pos.eqb] in NM; apply andb_true_iff in NM; destruct NM as (A & B);
      apply Z.ltb_lt in A, B; split; [lia| |lia|]; (split; [lia|]); [discriminate|lia]. }
  destruct B as (B1 & B2 & B3).
  destruct RI as (RI0 & RI1 & RI2), RJ as (RJ0 & RJ1 & RJ2).
  assert (p0 : p <> 0) by (destruct P; lia).
  destruct (minim_p_ok xgcd X p P P3 s) as (b & s1 & -> & DN).
  { apply pow_dvd with vpi; [lia|exact RI1]. }
  { apply pow_dvd with vpj; [lia|exact RJ1]. }
  { destruct (Z.eq_dec p 2) as [E2|N2]; [left; exact E2|right]. destruct locsol.
    - left. apply (soluble_4 p P). apply (takes_soluble p P (snd s) G); auto.
    - right. destruct (B3 eq_refl). split; [apply pow_dvd with vpi|apply pow_dvd with vpj]; (lia || assumption). }
  rewrite bind_Ok. cbv zeta. destruct b; cbn [done] in DN.
  2: { destruct DN as (E2 & EI & EJ & ET & EN). exists s1, 0. rewrite min_loop_false, EI, EJ.
       rewrite !Z.mul_0_r, !Z.sub_0_r, !Z.pow_0_r, !Z.mul_1_l. split; [reflexivity|]. split; [auto|]. split; [auto|]. split; [lia|].
       split; [reflexivity|]. split; [reflexivity|]. split; [split; [exact RI0|split; assumption]|]. split; [split; [exact RJ0|split; assumption]|].
       intros N2. contradiction. }
  destruct DN as (EI & EJ & ET & EN).
  replace (sp =? 3) with false by (symmetry; apply Z.eqb_neq; exact SP).
  rewrite <- EI, <- EJ, div4, div6 by exact p0.
  destruct (IH s1 (vpi - 4) (vpj - 6) vpd) as (s' & k & E & T' & N' & K0 & HI & HJ & R1 & R2 & NM').
  - apply ET, T.
  - apply EN, NS.
  - apply rep_step; [exact p0|lia|]. rewrite EI. split; [exact RI0|]. split; assumption.
  - apply rep_step; [exact p0|lia|]. rewrite EJ. split; [exact RJ0|]. split; assumption.
  - clear - FU B1. lia.
  - exists s', (k + 1). split; [exact E|]. split; [exact T'|]. split; [exact N'|]. split; [lia|].
    replace (vpi - 4 * (k + 1)) with (vpi - 4 - 4 * k) by ring. replace (vpj - 6 * (k + 1)) with (vpj - 6 - 6 * k) by ring.
    replace (4 * (k + 1)) with (4 + 4 * k) by ring. replace (6 * (k + 1)) with (6 + 6 * k) by ring.
    rewrite (Z.pow_add_r p 4 (4 * k)), (Z.pow_add_r p 6 (6 * k)) by (clear - K0; lia). rewrite HI, HJ, !Z.mul_assoc.
    split; [reflexivity|]. split; [reflexivity|]. split; [exact R1|]. split; [exact R2|exact NM'].
Qed.

Lemma rep_lt p v n k : p <> 0 -> rep p v n -> n <> 0 -> ~ (p ^ k | n) -> 0 <= k -> v < k.
Proof. intros P0 (V & A & B) NN NK K. destruct (Z_lt_le_dec v k); [assumption|]. exfalso. apply NK. apply pow_dvd with v; [lia|exact A]. Qed.
Lemma rep_le p v n k : p <> 0 -> rep p v n -> n <> 0 -> (p ^ k | n) -> k <= v.
Proof. intros P0 (V & A & B) NN NK. destruct (Z_le_gt_dec k v); [assumption|]. exfalso. apply (B NN). apply pow_dvd with k; [lia|exact NK]. Qed.

Lemma minim_one_ok p locsol s : prime p -> p <> 3 -> (p <> 2 -> locsol = true -> soluble p G) ->
  takes (snd s) G (fst s) -> nonsingular (snd s) ->
  exists s' k, minim_one xgcd p locsol s (II (fst s)) (JJ (fst s)) = Ok (s', II (fst s'), JJ (fst s')) /\
    takes (snd s') G (fst s') /\ nonsingular (snd s') /\ 0 <= k /\
    II (fst s) = p ^ (4 * k) * II (fst s') /\ JJ (fst s) = p ^ (6 * k) * JJ (fst s') /\ (II (fst s) = 0 -> 4 * k <= 1000) /\
    (p <> 2 -> val_fits p (II (fst s)) (JJ (fst s)) -> minimal_at p locsol (II (fst s')) (JJ (fst s'))).
Proof.
  intros P P3 LS T NS. unfold minim_one.
  assert (p0 : p <> 0) by (destruct P; lia).
  set (sp := if p =? 2 then 2 else if p =? 3 then 3 else 1).
  assert (SP : sp <> 3). { unfold sp. destruct (Z.eqb_spec p 2); [discriminate|]. destruct (Z.eqb_spec p 3); [contradiction|discriminate]. }
  clearbody sp. cbv zeta. replace (sp =? 3) with false by (symmetry; apply Z.eqb_neq; exact SP).
  assert (V : forall n, exists v, (if n =? 0 then Ok 1000 else val_z p n) = Ok v /\ rep p v n /\ (n = 0 -> v = 1000)).
  { intros n'. destruct (Z.eqb_spec n' 0) as [->|NN].
    - exists 1000. split; [reflexivity|]. split; [|reflexivity]. split; [lia|]. split; [apply Z.divide_0_r|]. intros H. exfalso. apply H. reflexivity.
    - destruct (val_z_ok p n' NN) as (v & -> & V0 & V1 & V2); [destruct P; lia|]. exists v. split; [reflexivity|]. split; [|contradiction].
      split; [exact V0|]. split; [exact V1|]. intros _. exact V2. }
  destruct (V (II (fst s))) as (vpi & -> & RI & ZI). rewrite bind_Ok.
  destruct (V (JJ (fst s))) as (vpj & -> & RJ & ZJ). rewrite bind_Ok, bind_Ok.
  destruct (min_loop_ok p sp locsol P P3 SP LS (S (Z.to_nat vpi)) s vpi vpj 0 T NS RI RJ) as (s' & k & E & T' & N' & K0 & HI & HJ & R1 & R2 & NM); [lia|].
  exists s', k. split; [exact E|]. split; [exact T'|]. split; [exact N'|]. split; [exact K0|]. split; [exact HI|]. split; [exact HJ|].
  split; [intros I0; specialize (ZI I0); destruct R1 as (R1 & _); clear - R1 ZI; lia|].
  intros N2 (F1 & F2) (M1 & M2). specialize (NM N2).
  assert (PP : forall j, 0 <= j -> p ^ j <> 0) by (intros j J; apply Z.pow_nonzero; [exact p0|exact J]).
  set (ki := if locsol then 4 else 8) in *. set (kj := if locsol then 6 else 12) in *.
  assert (NM' : ~ (ki <= vpi - 4 * k /\ kj <= vpj - 6 * k)).
  { clear - NM. unfold is_nonmin in NM. subst ki kj. destruct locsol; cbn [negb Z.eqb Pos.eqb] in NM; apply andb_false_iff in NM;
      rewrite !Z.ltb_ge in NM; lia. }
  assert (BK : 4 <= ki <= 8 /\ 6 <= kj <= 12) by (subst ki kj; destruct locsol; lia).
  assert (ZI' : II (fst s') = 0 -> II (fst s) = 0) by (intros Z0; rewrite HI, Z0; apply Z.mul_0_r).
  assert (ZJ' : JJ (fst s') = 0 -> JJ (fst s) = 0) by (intros Z0; rewrite HJ, Z0; apply Z.mul_0_r).
  apply NM'. clear NM NM' E.
  destruct (Z.eq_dec (II (fst s')) 0) as [I0|I0], (Z.eq_dec (JJ (fst s')) 0) as [J0|J0].
  - exfalso. apply (F1 (ZI' I0)). rewrite (ZJ' J0). apply Z.divide_0_r.
  - assert (NJ : JJ (fst s) <> 0). { rewrite HJ. apply nzm; [apply PP; clear - K0; lia|exact J0]. }
    pose proof (rep_lt p vpj _ 1000 p0 RJ NJ (F1 (ZI' I0)) ltac:(discriminate)) as L. specialize (ZI (ZI' I0)).
    pose proof (rep_le p _ _ _ p0 R2 J0 M2) as L2. clear - L L2 ZI BK K0. lia.
  - assert (NI : II (fst s) <> 0). { rewrite HI. apply nzm; [apply PP; clear - K0; lia|exact I0]. }
    pose proof (rep_lt p vpi _ 600 p0 RI NI (F2 (ZJ' J0)) ltac:(discriminate)) as L. specialize (ZJ (ZJ' J0)).
    pose proof (rep_le p _ _ _ p0 R1 I0 M1) as L2. clear - L L2 ZJ BK K0. lia.
  - split; [exact (rep_le p _ _ _ p0 R1 I0 M1)|exact (rep_le p _ _ _ p0 R2 J0 M2)].
Qed.

End L.
