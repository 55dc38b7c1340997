(** minim_all for lists of primes that may contain 3. *)
From Coq Require Import ZArith List Bool Lia Znumtheory Zpow_facts.
From Verif Require Import Base FormsModel MArithModel MArithProofs MinimModel MinimSpec MinimArith MinimArith3 MinimProofs MinimAllProofs MinimThree.
Import ListNotations.
Open Scope Z_scope.

Lemma hyp3_of i j : (i <> 0 -> ~ (3 | i)) -> (j <> 0 -> ~ (3 | j)) -> (27 | 4 * (i * i * i) - j * j) -> hyp3 i j.
Proof.
  intros A B D. assert (D3 : (3 | 4 * (i * i * i) - j * j)) by (apply Z.divide_trans with 27; [exists 9; reflexivity|exact D]).
  destruct (Z.eq_dec i 0) as [->|I0], (Z.eq_dec j 0) as [->|J0].
  - left. split; apply Z.divide_0_r.
  - exfalso. apply (B J0). apply (proj1 (Z.divide_opp_r _ _)) in D3. replace (- (4 * (0 * 0 * 0) - j * j)) with (j * j) in D3 by ring.
    apply prime_mult in D3; [tauto|exact prime_3].
  - exfalso. apply (A I0). replace (4 * (i * i * i) - 0 * 0) with (4 * (i * i * i)) in D3 by ring.
    apply prime_mult in D3; [|exact prime_3]. destruct D3 as [(q & D3)|D3].
    + exfalso. clear - D3. lia.
    + apply prime_mult in D3; [|exact prime_3]. destruct D3 as [D3|D3]; [|exact D3]. apply prime_mult in D3; [tauto|exact prime_3].
  - right. tauto.
Qed.

Section L.
Variable xgcd : Z -> Z -> Z * Z * Z.
Hypothesis X : xgcd_spec xgcd.
Variable G : quartic.

Lemma pow3 k : 0 <= k -> 3 ^ k <> 0. Proof. intros K. apply Z.pow_nonzero; [discriminate|exact K]. Qed.
Lemma rep3_cof v n k m : rep 3 v n -> v = k -> n = 3 ^ k * m -> m <> 0 -> ~ (3 | m).
Proof.
  intros (V0 & V1 & V2) -> -> M0 (q & ->). apply V2.
  - apply nzm; [apply pow3, V0|exact M0].
  - exists q. rewrite Z.pow_add_r by lia. ring.
Qed.

Lemma step_hyp locsol I J vpi vpj vpd : rep 3 vpi I -> rep 3 vpj J -> (disc_IJ I J = 0 \/ rep 3 vpd (disc_IJ I J)) ->
  is_nonmin 3 vpi vpj vpd locsol = true ->
  4 <= vpi /\ 6 <= vpj /\ exists i j, I = 81 * i /\ J = 729 * j /\ hyp3 i j /\ (locsol = false -> (9 | i)).
Proof.
  intros RI RJ RD NM. unfold is_nonmin in NM. destruct locsol; cbn [negb Z.eqb Pos.eqb] in NM.
  - assert (C : (5 <= vpi /\ 9 <= vpj) \/ (vpi = 4 /\ vpj = 6 /\ 15 <= vpd)).
    { apply orb_true_iff in NM. rewrite !andb_true_iff, !Z.ltb_lt, !Z.eqb_eq in NM. lia. }
    split; [lia|]. split; [lia|]. destruct C as [(C1 & C2)|(C1 & C2 & C3)].
    + destruct RI as (_ & D1 & _), RJ as (_ & D2 & _). apply (pow_dvd 3 5) in D1; [|lia]. apply (pow_dvd 3 9) in D2; [|lia].
      destruct D1 as (i & ->), D2 as (j & ->). exists (3 * i), (27 * j). split; [change (3 ^ 5) with 243; ring|]. split; [change (3 ^ 9) with 19683; ring|].
      split; [|discriminate]. left. split; [exists i; ring|exists j; ring].
    + pose proof RI as (_ & D1 & _). pose proof RJ as (_ & D2 & _). rewrite C1 in D1. rewrite C2 in D2. destruct D1 as (i & EI), D2 as (j & EJ).
      exists i, j. change (3 ^ 4) with 81 in EI. change (3 ^ 6) with 729 in EJ.
      split; [rewrite EI; ring|]. split; [rewrite EJ; ring|]. split; [|discriminate].
      apply hyp3_of.
      * intros N. apply (rep3_cof vpi I 4 i RI C1); [rewrite EI; change (3 ^ 4) with 81; ring|exact N].
      * intros N. apply (rep3_cof vpj J 6 j RJ C2); [rewrite EJ; change (3 ^ 6) with 729; ring|exact N].
      * assert (ED : disc_IJ I J = 3 ^ 12 * (4 * (i * i * i) - j * j)) by (unfold disc_IJ; rewrite EI, EJ; change (3 ^ 12) with 531441; ring).
        apply Z.mul_divide_cancel_l with (3 ^ 12); [discriminate|]. rewrite <- ED. destruct RD as [->|(_ & RD & _)]; [apply Z.divide_0_r|].
        apply (pow_dvd 3 15) in RD; [|lia]. exact RD.
  - apply andb_true_iff in NM. rewrite !Z.ltb_lt in NM. destruct NM as (C1 & C2). split; [lia|]. split; [lia|].
    destruct RI as (_ & D1 & _), RJ as (_ & D2 & _). apply (pow_dvd 3 8) in D1; [|lia]. apply (pow_dvd 3 12) in D2; [|lia].
    destruct D1 as (i & ->), D2 as (j & ->). exists (81 * i), (729 * j). split; [change (3 ^ 8) with 6561; ring|]. split; [change (3 ^ 12) with 531441; ring|].
    split; [|intros _; exists (9 * i); ring]. left. split; [exists (27 * i); ring|exists (27 * j); ring].
Qed.

Lemma disc_scale c I J : disc_IJ (c ^ 4 * I) (c ^ 6 * J) = c ^ 12 * disc_IJ I J.
Proof. unfold disc_IJ. ring. Qed.

Lemma min_loop_3 locsol : (locsol = true -> soluble 3 G) ->
  forall fuel s vpi vpj vpd, takes (snd s) G (fst s) -> nonsingular (snd s) ->
  rep 3 vpi (II (fst s)) -> rep 3 vpj (JJ (fst s)) ->
  (disc_IJ (II (fst s)) (JJ (fst s)) = 0 \/ rep 3 vpd (disc_IJ (II (fst s)) (JJ (fst s)))) -> (Z.to_nat vpi < fuel)%nat ->
  exists s' k, min_loop xgcd fuel 3 3 locsol (is_nonmin 3 vpi vpj vpd locsol) s (II (fst s)) (JJ (fst s)) vpi vpj vpd
      = Ok (s', II (fst s'), JJ (fst s')) /\
    takes (snd s') G (fst s') /\ nonsingular (snd s') /\ 0 <= k /\
    II (fst s) = 3 ^ (4 * k) * II (fst s') /\ JJ (fst s) = 3 ^ (6 * k) * JJ (fst s') /\
    rep 3 (vpi - 4 * k) (II (fst s')) /\ rep 3 (vpj - 6 * k) (JJ (fst s')) /\
    (disc_IJ (II (fst s')) (JJ (fst s')) = 0 \/ rep 3 (vpd - 12 * k) (disc_IJ (II (fst s')) (JJ (fst s')))) /\
    is_nonmin 3 (vpi - 4 * k) (vpj - 6 * k) (vpd - 12 * k) locsol = false.
Proof.
  intros LS. induction fuel as [|fuel IH]; intros s vpi vpj vpd T NS RI RJ RD FU; [lia|].
  destruct (is_nonmin 3 vpi vpj vpd locsol) eqn:NM.
  2: { exists s, 0. cbn [min_loop]. rewrite !Z.mul_0_r, !Z.sub_0_r, !Z.pow_0_r, !Z.mul_1_l. repeat (split; [assumption || reflexivity || lia|]). exact NM. }
  cbn [min_loop].
  destruct (step_hyp locsol _ _ _ _ _ RI RJ RD NM) as (B1 & B2 & i & j & HI & HJ & H3 & L9).
  destruct (minim_p_3 xgcd X s i j HI HJ H3) as (s1 & -> & EI & EJ & ET & EN).
  { destruct locsol; [left|right; apply L9; reflexivity]. apply (soluble_4 3 prime_3). apply (takes_soluble 3 prime_3 (snd s) G); auto. }
  clear HI HJ H3 L9 NM. rewrite bind_Ok. cbn [Z.eqb Pos.eqb]. cbv zeta.
  rewrite <- EI, <- EJ, div4, div6 by discriminate.
  destruct (IH s1 (vpi - 4) (vpj - 6) (vpd - 12)) as (s' & k & E & T' & N' & K0 & HI & HJ & R1 & R2 & R3 & NM').
  - apply ET, T.
  - apply EN, NS.
  - apply rep_step; [discriminate|lia|]. rewrite EI. exact RI.
  - apply rep_step; [discriminate|lia|]. rewrite EJ. exact RJ.
  - rewrite <- EI, <- EJ, disc_scale in RD. destruct RD as [RD|RD].
    + left. apply Z.mul_eq_0 in RD. destruct RD as [RD|RD]; [discriminate|exact RD].
    + destruct (Z.eq_dec (disc_IJ (II (fst s1)) (JJ (fst s1))) 0) as [D0|D0]; [left; exact D0|right].
      apply rep_step; [discriminate| |exact RD]. split; [discriminate|]. apply (rep_le 3 _ _ 12 ltac:(discriminate) RD).
      * apply nzm; [discriminate|exact D0].
      * exists (disc_IJ (II (fst s1)) (JJ (fst s1))). apply Z.mul_comm.
  - clear - FU B1. lia.
  - exists s', (k + 1). split; [exact E|]. split; [exact T'|]. split; [exact N'|]. split; [lia|].
    replace (vpi - 4 * (k + 1)) with (vpi - 4 - 4 * k) by ring. replace (vpj - 6 * (k + 1)) with (vpj - 6 - 6 * k) by ring.
    replace (vpd - 12 * (k + 1)) with (vpd - 12 - 12 * k) by ring.
    replace (4 * (k + 1)) with (4 + 4 * k) by ring. replace (6 * (k + 1)) with (6 + 6 * k) by ring.
    rewrite (Z.pow_add_r 3 4 (4 * k)), (Z.pow_add_r 3 6 (6 * k)) by (clear - K0; lia). rewrite HI, HJ, !Z.mul_assoc.
    split; [reflexivity|]. split; [reflexivity|]. split; [exact R1|]. split; [exact R2|]. split; [exact R3|exact NM'].
Qed.

Lemma minim_one_3 locsol s : (locsol = true -> soluble 3 G) -> takes (snd s) G (fst s) -> nonsingular (snd s) ->
  exists s' k, minim_one xgcd 3 locsol s (II (fst s)) (JJ (fst s)) = Ok (s', II (fst s'), JJ (fst s')) /\
    takes (snd s') G (fst s') /\ nonsingular (snd s') /\ 0 <= k /\
    II (fst s) = 3 ^ (4 * k) * II (fst s') /\ JJ (fst s) = 3 ^ (6 * k) * JJ (fst s') /\
    (disc_IJ (II (fst s)) (JJ (fst s)) <> 0 -> val_fits 3 (II (fst s)) (JJ (fst s)) -> minimal_at_3 locsol (II (fst s')) (JJ (fst s'))).
Proof.
  intros LS T NS. unfold minim_one. cbn [Z.eqb Pos.eqb]. cbv zeta.
  assert (V : forall n, exists v, (if n =? 0 then Ok 1000 else val_z 3 n) = Ok v /\ rep 3 v n /\ (n = 0 -> v = 1000)).
  { intros n'. destruct (Z.eqb_spec n' 0) as [->|NN].
    - exists 1000. split; [reflexivity|]. split; [|reflexivity]. split; [lia|]. split; [apply Z.divide_0_r|]. intros H. exfalso. apply H. reflexivity.
    - destruct (val_z_ok 3 n' NN) as (v & -> & V0 & V1 & V2); [cbn; lia|]. exists v. split; [reflexivity|]. split; [|contradiction].
      split; [exact V0|]. split; [exact V1|]. intros _. exact V2. }
  destruct (V (II (fst s))) as (vpi & -> & RI & ZI). rewrite bind_Ok.
  destruct (V (JJ (fst s))) as (vpj & -> & RJ & ZJ). rewrite bind_Ok. clear V.
  assert (VD : exists v, val_z 3 (4 * II (fst s) * (II (fst s) * II (fst s)) - JJ (fst s) * JJ (fst s)) = Ok v /\
     (disc_IJ (II (fst s)) (JJ (fst s)) = 0 \/ rep 3 v (disc_IJ (II (fst s)) (JJ (fst s))))).
  { replace (4 * II (fst s) * (II (fst s) * II (fst s)) - JJ (fst s) * JJ (fst s)) with (disc_IJ (II (fst s)) (JJ (fst s))) by (unfold disc_IJ; ring).
    destruct (Z.eq_dec (disc_IJ (II (fst s)) (JJ (fst s))) 0) as [->|D0].
    - exists 99999. split; [reflexivity|left; reflexivity].
    - destruct (val_z_ok 3 _ D0) as (v & -> & V0 & V1 & V2); [cbn; lia|]. exists v. split; [reflexivity|right]. split; [exact V0|]. split; [exact V1|]. intros _. exact V2. }
  destruct VD as (vpd & -> & RD). rewrite bind_Ok.
  destruct (min_loop_3 locsol LS (S (Z.to_nat vpi)) s vpi vpj vpd T NS RI RJ RD) as (s' & k & E & T' & N' & K0 & HI & HJ & R1 & R2 & R3 & NM); [lia|].
  exists s', k. split; [exact E|]. split; [exact T'|]. split; [exact N'|]. split; [exact K0|]. split; [exact HI|]. split; [exact HJ|].
  intros D0 (F1 & F2). clear E T NS T' N' LS.
  assert (N30 : 3 <> 0) by discriminate.
  assert (ZI' : II (fst s') = 0 -> II (fst s) = 0) by (intros Z0; rewrite HI, Z0; apply Z.mul_0_r).
  assert (ZJ' : JJ (fst s') = 0 -> JJ (fst s) = 0) by (intros Z0; rewrite HJ, Z0; apply Z.mul_0_r).
  assert (D1 : disc_IJ (II (fst s')) (JJ (fst s')) <> 0).
  { intros D1. apply D0. rewrite HI, HJ. rewrite (Z.mul_comm 4 k), (Z.mul_comm 6 k), !(Z.pow_mul_r 3 k) by lia. rewrite disc_scale, D1. apply Z.mul_0_r. }
  destruct R3 as [R3|R3]; [contradiction|].
  assert (BIG : forall ki kj, 4 <= ki <= 8 -> 6 <= kj <= 12 -> (3 ^ ki | II (fst s')) -> (3 ^ kj | JJ (fst s')) -> ki <= vpi - 4 * k /\ kj <= vpj - 6 * k).
  { intros ki kj BK1 BK2 M1 M2.
    destruct (Z.eq_dec (II (fst s')) 0) as [I0|I0], (Z.eq_dec (JJ (fst s')) 0) as [J0|J0].
    - exfalso. apply D1. rewrite I0, J0. reflexivity.
    - assert (NJ : JJ (fst s) <> 0). { rewrite HJ. apply nzm; [apply pow3; clear - K0; lia|exact J0]. }
      pose proof (rep_lt 3 vpj _ 1000 N30 RJ NJ (F1 (ZI' I0)) ltac:(discriminate)) as L. specialize (ZI (ZI' I0)).
      pose proof (rep_le 3 _ _ _ N30 R2 J0 M2) as L2. clear - L L2 ZI BK1 BK2 K0. lia.
    - assert (NI : II (fst s) <> 0). { rewrite HI. apply nzm; [apply pow3; clear - K0; lia|exact I0]. }
      pose proof (rep_lt 3 vpi _ 600 N30 RI NI (F2 (ZJ' J0)) ltac:(discriminate)) as L. specialize (ZJ (ZJ' J0)).
      pose proof (rep_le 3 _ _ _ N30 R1 I0 M1) as L2. clear - L L2 ZJ BK1 BK2 K0. lia.
    - split; [exact (rep_le 3 _ _ _ N30 R1 I0 M1)|exact (rep_le 3 _ _ _ N30 R2 J0 M2)]. }
  unfold minimal_at_3. unfold is_nonmin in NM. destruct locsol; cbn [negb Z.eqb Pos.eqb] in NM.
  - rewrite orb_false_iff, !andb_false_iff, !Z.ltb_ge, !Z.eqb_neq in NM. destruct NM as (NA & NB).
    intros [(A & B)|(A & A' & B & B' & D)].
    + destruct (BIG 5 9 ltac:(lia) ltac:(lia) A B). clear - NA H H0. lia.
    + assert (I0 : II (fst s') <> 0) by (intros Z0; apply A'; rewrite Z0; apply Z.divide_0_r).
      assert (J0 : JJ (fst s') <> 0) by (intros Z0; apply B'; rewrite Z0; apply Z.divide_0_r).
      pose proof (rep_le 3 _ _ _ N30 R1 I0 A) as L1. pose proof (rep_lt 3 _ _ _ N30 R1 I0 A' ltac:(discriminate)) as L2.
      pose proof (rep_le 3 _ _ _ N30 R2 J0 B) as L3. pose proof (rep_lt 3 _ _ _ N30 R2 J0 B' ltac:(discriminate)) as L4.
      pose proof (rep_le 3 _ _ _ N30 R3 D1 D) as L5. clear - NB L1 L2 L3 L4 L5. lia.
  - rewrite andb_false_iff, !Z.ltb_ge in NM. intros (A & B). destruct (BIG 8 12 ltac:(lia) ltac:(lia) A B). clear - NM H H0. lia.
Qed.

Lemma prime_pow_3 p k : prime p -> p <> 3 -> 0 <= k -> ~ (3 | p ^ k).
Proof.
  intros P N K D. assert (RP : rel_prime 3 (p ^ k)).
  { apply rel_prime_Zpower_r; [exact K|]. apply prime_rel_prime; [exact prime_3|]. intros H.
    destruct (prime_divisors p P 3 H) as [E|[E|[E|E]]]; destruct P; lia. }
  destruct RP as [_ _ RP]. specialize (RP 3 (Z.divide_refl 3) D). apply Z.divide_1_r_nonneg in RP; lia.
Qed.

Lemma minimal_3_up locsol n I J : ~ (3 | n) -> minimal_at_3 locsol (n ^ 4 * I) (n ^ 6 * J) -> minimal_at_3 locsol I J.
Proof.
  intros N M. assert (C : forall a b x, 0 <= a -> 0 <= b -> (3 ^ a | n ^ b * x) -> (3 ^ a | x)).
  { intros a b x A B D. apply (Gauss _ (n ^ b) _ D). apply rel_prime_Zpower; [exact A|exact B|]. apply prime_rel_prime; [exact prime_3|exact N]. }
  unfold minimal_at_3 in *. destruct locsol.
  - intros [(A & B)|(A & A' & B & B' & D)]; apply M.
    + left. split; apply Z.divide_mul_r; assumption.
    + right. rewrite disc_scale. split; [apply Z.divide_mul_r, A|]. split; [intros H; apply A'; revert H; apply C; lia|].
      split; [apply Z.divide_mul_r, B|]. split; [intros H; apply B'; revert H; apply C; lia|]. apply Z.divide_mul_r, D.
  - intros (A & B). apply M. split; apply Z.divide_mul_r; assumption.
Qed.

Lemma minim_all_3 locsol : forall plist s, (forall p, In p plist -> prime p /\ (p <> 2 -> locsol = true -> soluble p G)) ->
  takes (snd s) G (fst s) -> nonsingular (snd s) ->
  exists s' n, minim_all xgcd plist locsol s (II (fst s)) (JJ (fst s)) = Ok (s', II (fst s'), JJ (fst s')) /\
    takes (snd s') G (fst s') /\ nonsingular (snd s') /\ 0 < n /\
    II (fst s) = n ^ 4 * II (fst s') /\ JJ (fst s) = n ^ 6 * JJ (fst s') /\ (~ In 3 plist -> ~ (3 | n)) /\
    (forall p, In p plist -> p <> 2 -> p <> 3 -> val_fits p (II (fst s)) (JJ (fst s)) -> minimal_at p locsol (II (fst s')) (JJ (fst s'))) /\
    (In 3 plist -> disc_IJ (II (fst s)) (JJ (fst s)) <> 0 -> val_fits 3 (II (fst s)) (JJ (fst s)) -> minimal_at_3 locsol (II (fst s')) (JJ (fst s'))).
Proof.
  induction plist as [|p ps IH]; intros s HP T NS.
  { exists s, 1. cbn [minim_all]. split; [reflexivity|]. split; [exact T|]. split; [exact NS|]. split; [lia|]. rewrite !Z.pow_1_l, !Z.mul_1_l by lia.
    split; [reflexivity|]. split; [reflexivity|]. split; [intros _ D; apply Z.divide_1_r_nonneg in D; lia|]. split; [intros p []|intros []]. }
  cbn [minim_all]. destruct (HP p (or_introl eq_refl)) as (P & LS).
  assert (ONE : exists s1 k, minim_one xgcd p locsol s (II (fst s)) (JJ (fst s)) = Ok (s1, II (fst s1), JJ (fst s1)) /\
    takes (snd s1) G (fst s1) /\ nonsingular (snd s1) /\ 0 <= k /\
    II (fst s) = p ^ (4 * k) * II (fst s1) /\ JJ (fst s) = p ^ (6 * k) * JJ (fst s1) /\
    (p <> 2 -> p <> 3 -> val_fits p (II (fst s)) (JJ (fst s)) -> minimal_at p locsol (II (fst s1)) (JJ (fst s1))) /\
    (p = 3 -> disc_IJ (II (fst s)) (JJ (fst s)) <> 0 -> val_fits 3 (II (fst s)) (JJ (fst s)) -> minimal_at_3 locsol (II (fst s1)) (JJ (fst s1)))).
  { destruct (Z.eq_dec p 3) as [->|P3].
    - destruct (minim_one_3 locsol s (LS ltac:(discriminate)) T NS) as (s1 & k & E & T1 & N1 & K0 & I1 & J1 & M1). exists s1, k.
      repeat (split; [assumption|]). split; [contradiction|]. intros _. exact M1.
    - destruct (minim_one_ok xgcd X G p locsol s P P3 LS T NS) as (s1 & k & E & T1 & N1 & K0 & I1 & J1 & _ & M1). exists s1, k.
      repeat (split; [assumption|]). split; [intros N2 _; exact (M1 N2)|]. intros H. contradiction. }
  destruct ONE as (s1 & k & -> & T1 & N1 & K0 & I1 & J1 & M1 & M1'). rewrite bind_Ok. cbv beta iota.
  destruct (IH s1) as (s' & n & E & T' & N' & N0 & I2 & J2 & NT & M2 & M2'); [intros q Q; apply HP; right; exact Q|exact T1|exact N1|].
  exists s', (p ^ k * n). split; [exact E|]. split; [exact T'|]. split; [exact N'|].
  assert (PK : 0 < p ^ k) by (apply Z.pow_pos_nonneg; destruct P; lia).
  split; [apply Z.mul_pos_pos; assumption|].
  split; [rewrite I1, I2, Z.pow_mul_l, <- Z.pow_mul_r, (Z.mul_comm k) by lia; ring|].
  split; [rewrite J1, J2, Z.pow_mul_l, <- Z.pow_mul_r, (Z.mul_comm k) by lia; ring|].
  assert (VF' : forall q, val_fits q (II (fst s)) (JJ (fst s)) -> val_fits q (II (fst s1)) (JJ (fst s1))).
  { intros q (F1 & F2). split; intros Z0 D.
    - apply F1; [rewrite I1, Z0; apply Z.mul_0_r|]. rewrite J1. apply Z.divide_mul_r, D.
    - apply F2; [rewrite J1, Z0; apply Z.mul_0_r|]. rewrite I1. apply Z.divide_mul_r, D. }
  split; [|split].
  - intros NI D. apply prime_mult in D; [|exact prime_3]. destruct D as [D|D].
    + apply (prime_pow_3 p k P); [|exact K0|exact D]. intros ->. apply NI. left. reflexivity.
    + apply NT; [|exact D]. intros H. apply NI. right. exact H.
  - intros q [->|Q] N2 N3 VF.
    + specialize (M1 N2 N3 VF). intros (A & B). apply M1. split.
      * rewrite I2. apply Z.divide_mul_r, A.
      * rewrite J2. apply Z.divide_mul_r, B.
    + apply (M2 q Q N2 N3), VF', VF.
  - intros IN D0 VF. destruct (in_dec Z.eq_dec 3 ps) as [Q|Q].
    + apply (M2' Q); [|apply VF', VF]. intros D1. apply D0. rewrite I1, J1, (Z.mul_comm 4 k), (Z.mul_comm 6 k), !(Z.pow_mul_r p k) by lia.
      rewrite disc_scale, D1. apply Z.mul_0_r.
    + destruct IN as [IN|IN]; [|contradiction]. apply (minimal_3_up locsol n); [apply NT, Q|]. rewrite <- I2, <- J2. apply M1'; assumption.
Qed.

(** the valuation 1000 of I = 0 stops the loop after 250 rounds *)
Lemma stops_early p locsol s : prime p -> p <> 3 -> (p <> 2 -> locsol = true -> soluble p G) ->
  takes (snd s) G (fst s) -> nonsingular (snd s) -> II (fst s) = 0 -> (p ^ 1600 | JJ (fst s)) ->
  exists s', minim_all xgcd [p] locsol s (II (fst s)) (JJ (fst s)) = Ok (s', II (fst s'), JJ (fst s')) /\
    II (fst s') = 0 /\ (p ^ 100 | JJ (fst s')).
Proof.
  intros P P3 LS T NS I0 DJ. destruct (minim_one_ok xgcd X G p locsol s P P3 LS T NS) as (s1 & k & E & _ & _ & K0 & I1 & J1 & K1 & _).
  exists s1. split; [cbn [minim_all]; rewrite E; reflexivity|]. specialize (K1 I0).
  assert (PK : forall j, 0 <= j -> p ^ j <> 0) by (clear - P; intros j J; apply Z.pow_nonzero; destruct P; lia). split.
  - rewrite I0 in I1. symmetry in I1. apply Z.mul_eq_0 in I1. destruct I1 as [I1|I1]; [|exact I1]. exfalso. revert I1. apply PK. clear - K0. lia.
  - rewrite J1 in DJ. apply (pow_dvd p (6 * k + 100)) in DJ; [|clear - K0 K1; lia]. rewrite Z.pow_add_r in DJ by (clear - K0; lia).
    apply Z.mul_divide_cancel_l in DJ; [exact DJ|apply PK; clear - K0; lia].
Qed.

Lemma nonminimal_hyp I J : nonminimal_3 I J -> exists i j, I = 81 * i /\ J = 729 * j /\ hyp3 i j.
Proof.
  intros [((i & ->) & (j & ->))|((i & ->) & A & (j & ->) & B & D)].
  - exists (3 * i), (27 * j). split; [change (3 ^ 5) with 243; ring|]. split; [change (3 ^ 9) with 19683; ring|].
    left. split; [exists i; ring|exists j; ring].
  - exists i, j. split; [change (3 ^ 4) with 81; ring|]. split; [change (3 ^ 6) with 729; ring|]. right.
    split; [intros (q & ->); apply A; exists q; change (3 ^ 5) with (3 * 3 ^ 4); ring|].
    split; [intros (q & ->); apply B; exists q; change (3 ^ 7) with (3 * 3 ^ 6); ring|].
    apply Z.mul_divide_cancel_l with (3 ^ 12); [discriminate|].
    replace (3 ^ 12 * (4 * (i * i * i) - j * j)) with (disc_IJ (i * 3 ^ 4) (j * 3 ^ 6)); [exact D|]. unfold disc_IJ. ring.
Qed.
End L.
