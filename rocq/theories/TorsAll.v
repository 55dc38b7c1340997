(** torsion_points finds the whole torsion subgroup when that subgroup is one of those in
    Mazur's theorem. *)
From Coq Require Import ZArith Znumtheory Lia List Bool QArith Qcanon Arith Permutation Sorted.
From Verif Require Import Base RatModel CurveModel CurveProofs DivPolModel PointsModel GroupLaw QcGroup PointsProofs PointsGroup PointsMore NagLutz OrderTot RootsModel RootsProofs TorsModel TorsProofs.
Import ListNotations.
Open Scope Z_scope.

(** ** specification: the groups of Mazur's theorem *)
Definition mazur_cyclic (E : curve) (n : nat) (T : pt Qc) : Prop :=
  In n [1; 2; 3; 4; 5; 6; 7; 8; 9; 10; 12]%nat /\ eon_pt E T /\ pt_order E (Z.of_nat n) T /\
  forall Q, eon_pt E Q -> tors E Q -> exists k, Q = emul E k T.
Definition mazur_product (E : curve) (n : nat) (T S : pt Qc) : Prop :=
  In n [2; 4; 6; 8]%nat /\ eon_pt E T /\ pt_order E (Z.of_nat n) T /\
  eon_pt E S /\ emul E 2 S = Inf /\ (forall k, S <> emul E k T) /\
  forall Q, eon_pt E Q -> tors E Q -> exists k, Q = emul E k T \/ Q = eadd E S (emul E k T).
Definition mazur (E : curve) : Prop := (exists n T, mazur_cyclic E n T) \/ (exists n T S, mazur_product E n T S).

Section OnE.
Variable E : curve.
Hypothesis HD : sdisc E <> 0.
Local Notation on := (eon_pt E).
Local Notation "P ++ Q" := (eadd E P Q).
Local Notation mul := (emul E).

(** ** group facts *)
Lemma emul_sum n P Q : on P -> on Q -> mul n (P ++ Q) = mul n P ++ mul n Q.
Proof.
  intros HP HQ. induction n as [|n IH]; cbn [emul]; [reflexivity|]. rewrite IH.
  pose proof (emul_on E n P HP) as A. pose proof (emul_on E n Q HQ) as B. set (a := mul n P) in *. set (b := mul n Q) in *.
  rewrite <- !(eadd_assoc E HD) by auto using eadd_on. f_equal. rewrite !(eadd_assoc E HD) by auto using eadd_on. f_equal. now apply eadd_comm.
Qed.
Lemma tors_sum P Q : on P -> on Q -> tors E P -> tors E Q -> tors E (P ++ Q).
Proof.
  intros HP HQ (m & Hm & EP) (n & Hn & EQ). exists (m * n)%nat. split; [clear - Hm Hn; nia|]. rewrite emul_sum by auto.
  rewrite (emul_mul E HD Q) by auto. rewrite Nat.mul_comm, (emul_mul E HD P), EP, EQ, !emul_inf by auto. reflexivity.
Qed.
Lemma tors_mul k P : on P -> tors E P -> tors E (mul k P).
Proof. intros HP (n & Hn & EP). exists n. split; [auto|]. rewrite <- (emul_mul E HD), Nat.mul_comm, (emul_mul E HD), EP, emul_inf by auto. reflexivity. Qed.
Section Order.
Variable n : nat.
Variable T : pt Qc.
Hypothesis HT : on T.
Hypothesis HO : pt_order E (Z.of_nat n) T.
Lemma n_pos : (1 <= n)%nat. Proof. destruct HO as (A & _). lia. Qed.
Lemma ord_div k : mul k T = Inf <-> Nat.divide n k.
Proof. rewrite (order_div E HD (Z.of_nat n)) by auto. now rewrite Nat2Z.id. Qed.
Lemma n_kills : mul n T = Inf. Proof. apply ord_div. exists 1%nat. lia. Qed.
Lemma mul_mod k : mul k T = mul (k mod n) T.
Proof.
  pose proof n_pos. rewrite (Nat.div_mod k n) at 1 by lia. rewrite (emul_add E HD), Nat.mul_comm, (emul_mul E HD), n_kills, emul_inf by auto. reflexivity.
Qed.
Lemma mul_inj i j : (i < n)%nat -> (j < n)%nat -> mul i T = mul j T -> i = j.
Proof.
  assert (W : forall a b, (a <= b < n)%nat -> mul a T = mul b T -> a = b).
  { intros a b Hab Q. assert (Z : mul (b - a) T = Inf).
    { apply (eadd_cancel E HD (mul a T) (mul (b - a) T) Inf); [now apply emul_on|now apply emul_on|exact I|]. rewrite <- (emul_add E HD a (b - a) T HT). rewrite eadd_inf_r. replace (a + (b - a))%nat with b by (clear - Hab; lia). now symmetry. }
    apply ord_div in Z. destruct Z as [c Hc]. destruct c as [|c]; [lia|]. exfalso. clear - Hab Hc. nia. }
  intros Hi Hj Q. destruct (le_lt_dec i j); [now apply W|symmetry; apply W; [lia|auto]].
Qed.
Definition cyc : list (pt Qc) := map (fun i => mul i T) (seq 0 n).
Lemma cyc_len : length cyc = n. Proof. unfold cyc. now rewrite map_length, seq_length. Qed.
Lemma cyc_in k : In (mul k T) cyc.
Proof. rewrite mul_mod. apply in_map_iff. exists (k mod n)%nat. split; [auto|]. apply in_seq. pose proof (Nat.mod_upper_bound k n). pose proof n_pos. lia. Qed.
Lemma cyc_nodup : NoDup cyc.
Proof.
  unfold cyc. assert (G : forall l, (forall i, In i l -> (i < n)%nat) -> NoDup l -> NoDup (map (fun i => mul i T) l)).
  { induction l as [|a l IH]; intros B N; cbn [map]; [constructor|]. inversion N as [|? ? NA N']; subst. constructor; [|apply IH; auto; intros; apply B; now right].
    intros J. apply in_map_iff in J as (i & Q & Ii). apply mul_inj in Q; [|apply B; now right|apply B; now left]. subst. contradiction. }
  apply G; [|apply seq_NoDup]. intros i Ii. apply in_seq in Ii. lia.
Qed.
Lemma T_tors : tors E T. Proof. exists n. split; [apply n_pos|apply n_kills]. Qed.
(** the elements of order dividing 2 *)
Lemma two_odd k : Nat.even n = false -> mul (2 * k) T = Inf -> mul k T = Inf.
Proof.
  intros O Z. apply ord_div in Z. apply ord_div. apply Nat.gauss in Z; [exact Z|]. 
  assert (Hn : exists q, n = (2 * q + 1)%nat). { exists (n / 2)%nat. pose proof (Nat.div_mod n 2 ltac:(lia)). pose proof (Nat.mod_upper_bound n 2 ltac:(lia)). destruct (Nat.eq_dec (n mod 2) 0) as [M|M]; [|lia]. exfalso.
    assert (Nat.Even n) by (exists (n / 2)%nat; lia). apply Nat.even_spec in H1. congruence. }
  destruct Hn as (q & ->). apply Nat.bezout_1_gcd. exists 1%nat, q. lia.
Qed.
Lemma two_even h k : n = (2 * h)%nat -> mul (2 * k) T = Inf -> mul k T = Inf \/ mul k T = mul h T.
Proof.
  intros En Z. apply ord_div in Z. destruct Z as [c Hc]. assert (Ek : k = (c * h)%nat) by (rewrite En in Hc; lia). pose proof n_pos.
  pose proof (Nat.div_mod c 2 ltac:(lia)) as DM. pose proof (Nat.mod_upper_bound c 2 ltac:(lia)). destruct (Nat.eq_dec (c mod 2) 0) as [M|M]; [left|right].
  - apply ord_div. exists (c / 2)%nat. rewrite M in DM. revert DM. generalize (c / 2)%nat. intros q DM. rewrite Ek, En, DM. clear. nia.
  - replace k with (c / 2 * n + h)%nat by (replace (c mod 2)%nat with 1%nat in DM by lia; revert DM; generalize (c / 2)%nat; intros q DM; rewrite Ek, En, DM; clear; nia).
    rewrite (emul_add E HD), (emul_mul E HD), n_kills, emul_inf by auto. reflexivity.
Qed.
Lemma half_ne h : n = (2 * h)%nat -> mul h T <> Inf.
Proof. intros En Z. apply ord_div in Z. destruct Z as [c Hc]. pose proof n_pos. destruct c; [lia|]. clear - En Hc H. nia. Qed.
Lemma half_two h : n = (2 * h)%nat -> mul 2 (mul h T) = Inf.
Proof. intros En. rewrite <- (emul_mul E HD), <- En by auto. apply n_kills. Qed.
(** the multiples of T and the coset of an element S of order 2 outside *)
Variable S : pt Qc.
Hypothesis HS : on S.
Hypothesis NS : forall k, S <> mul k T.
Definition both : list (pt Qc) := (cyc ++ map (eadd E S) cyc)%list.
Lemma both_len : length both = (2 * n)%nat. Proof. unfold both. rewrite app_length, map_length, cyc_len. lia. Qed.
Lemma both_nodup : NoDup both.
Proof.
  unfold both. assert (G : forall l, (forall A, In A l -> exists i, (i < n)%nat /\ A = mul i T) -> NoDup l -> NoDup (l ++ map (eadd E S) cyc)%list).
  { induction l as [|A l IH]; intros B N; cbn [app].
    - assert (G' : forall l, (forall A, In A l -> on A) -> NoDup l -> NoDup (map (eadd E S) l)).
      { induction l as [|A l IHl]; intros B' N'; cbn [map]; [constructor|]. inversion N' as [|? ? NA N'']; subst. constructor; [|apply IHl; auto; intros; apply B'; now right].
        intros J. apply in_map_iff in J as (A' & Q & IA). apply (eadd_cancel E HD S) in Q; auto; [|apply B'; now right|apply B'; now left]. subst. contradiction. }
      apply G'; [|apply cyc_nodup]. intros A IA. apply in_map_iff in IA as (i & <- & _). now apply emul_on.
    - inversion N as [|? ? NA N']; subst. constructor; [|apply IH; auto; intros; apply B; now right]. intros J. apply in_app_or in J as [J|J]; [contradiction|].
      destruct (B A (or_introl eq_refl)) as (i & Hi & ->). apply in_map_iff in J as (A' & Q & IA). apply in_map_iff in IA as (j & <- & Ij). apply in_seq in Ij.
      apply (NS (i + (n - j))). transitivity (S ++ mul n T); [now rewrite n_kills, eadd_inf_r|]. rewrite (emul_add E HD), <- Q, <- (eadd_assoc E HD), <- (emul_add E HD) by auto using emul_on. repeat f_equal. lia. }
  apply G; [|apply cyc_nodup]. intros A IA. apply in_map_iff in IA as (i & <- & Ii). apply in_seq in Ii. exists i. split; [lia|auto].
Qed.
Lemma both_in k : In (mul k T) both /\ In (S ++ mul k T) both.
Proof. unfold both. split; apply in_or_app; [left; apply cyc_in|right; apply in_map, cyc_in]. Qed.
End Order.

(** ** sums of points, multiples *)
Lemma add_tok P Q : tok E P -> tok E Q -> tok E (p_add E P Q) /\ aff (p_add E P Q) = aff P ++ aff Q.
Proof.
  intros KP KQ. pose proof KP as (VP & RP & TP & OP). pose proof KQ as (VQ & RQ & TQ & OQ). destruct (add_spec E P Q VP VQ) as [A V]. split; [|exact A].
  assert (TT : tors E (aff (p_add E P Q))) by (rewrite A; apply tors_sum; auto; now apply aff_on_all).
  assert (M : forall X Y W, p_add E P Q = mkpoint X Y W -> tok E (p_add E P Q)).
  { intros X Y W EM. rewrite EM in V, TT |- *. assert (NZ : ~ (X = 0 /\ Y = 0 /\ W = 0)). { intros (-> & -> & ->). destruct V as [V _]. apply V. cbn. auto. }
    destruct (mkpoint_ok X Y W NZ) as (_ & R & O). split; [auto|]. split; [auto|]. split; auto. }
  revert M TT V. unfold p_add, p_twice. destruct (pZ P =? 0); [auto|]. destruct (p_iszero Q); [auto|]. destruct (p_eq P Q).
  - destruct (pZ Q =? 0); [intros; apply inf_tok|]. destruct (p_eq Q (p_neg E Q)); [intros; apply inf_tok|]. cbv zeta. intros M _ _. eapply M. reflexivity.
  - destruct (p_eq P (p_neg E Q)); [intros; apply inf_tok|]. cbv zeta. intros M _ _. eapply M. reflexivity.
Qed.
Lemma addeq_tok P Q : tok E P -> tok E Q -> tok E (p_addeq E P Q).
Proof.
  intros KP KQ. destruct (add_tok P Q KP KQ) as [(V & R & T & _) _]. unfold p_addeq. cbv zeta. set (s := p_add E P Q) in *.
  destruct (mkpoint_ok (pX s) (pY s) (pZ s)) as (S1 & R1 & O1); [apply V|]. assert (SS : same (mkpoint (pX s) (pY s) (pZ s)) s) by exact S1.
  split; [apply (proj_on_same E _ _ (same_sym _ _ SS) V)|]. split; [exact R1|]. split; [|auto]. now rewrite (aff_same _ _ SS).
Qed.
Lemma multiples_ok P n : tok E P -> pt_order E (Z.of_nat n) (aff P) -> (n <= 12)%nat -> exists o ms, p_multiples E P = Ok (o, ms) /\ Forall (tok E) ms /\ map aff ms = cyc n (aff P).
Proof.
  intros KP HO Hn. pose proof KP as (V & R & _). pose proof (aff_on_all E P V) as OP. destruct (p_multiples_spec E HD P V) as (o & ms & Em & M & L & PO & NO).
  exists o, ms. split; [exact Em|].
  assert (K : Forall (tok E) ms).
  { unfold p_multiples in Em. destruct (p_iszero P). { injection Em as _ <-. constructor; [apply inf_tok|constructor]. }
    destruct (while (p_multiples_step E P) 4 (P, [infpt; P])) as [[q ms']| | |] eqn:EW; cbn [bind] in Em; try discriminate. injection Em as _ <-.
    apply (while_partial (p_multiples_step E P) (fun s => tok E (fst s) /\ Forall (tok E) (snd s)) (fun s => tok E (fst s) /\ Forall (tok E) (snd s))) in EW; [apply EW| | |].
    - intros [q1 m1] s' (K1 & K2) ES. unfold p_multiples_step in ES. cbn [fst snd] in *. destruct (_ && _ && _); [|discriminate]. injection ES as <-. cbn [fst snd].
      pose proof (addeq_tok q1 P K1 KP) as KA. split; [exact KA|]. destruct (p_iszero _); [exact K2|]. apply Forall_app. auto.
    - intros [q1 m1] r (K1 & K2) ES. unfold p_multiples_step in ES. destruct (_ && _ && _); [discriminate|]. injection ES as <-. auto.
    - cbn [fst snd]. split; [exact KP|]. constructor; [apply inf_tok|auto]. }
  split; [exact K|].
  assert (EL : length ms = n).
  { destruct (Z_lt_le_dec 0 o) as [O|O].
    - destruct (PO O) as [-> O']. apply pt_order_is in O'; auto. pose proof (pt_order_unique _ _ _ _ O' HO). lia.
    - exfalso. destruct (NO O) as (_ & [B|B]).
      + assert (IL : In (last ms infpt) ms). { destruct (exists_last (l := ms)) as (l' & z & ->); [intros ->; cbn in L; lia|]. rewrite last_last. apply in_or_app. right. now left. }
        rewrite Forall_forall in K. destruct (K _ IL) as (V' & R' & (k & Hk & Tk) & _). pose proof (tors_Z E HD (last ms infpt) k V' R' Hk Tk). lia.
      + destruct (M n ltac:(lia)) as (_ & _ & C). destruct HO as (A & B' & _). rewrite Nat2Z.id in B'. apply C; [lia|auto]. }
  unfold cyc. rewrite <- EL. clear - M. apply (nth_ext _ _ (@Inf Qc) (@Inf Qc)); [now rewrite !map_length, seq_length|]. intros i Hi. rewrite map_length in Hi.
  rewrite (nth_indep _ Inf (aff infpt)), map_nth by now rewrite map_length. destruct (M i Hi) as (_ & A & _). rewrite A.
  rewrite (nth_indep _ Inf (mul 0 (aff P))) by now rewrite map_length, seq_length. rewrite (map_nth (fun i => mul i (aff P))), seq_nth by auto. reflexivity.
Qed.

(** ** the search for a point of the largest order *)
Variable introots : poly -> res (list Z).
Hypothesis IR : introots_right introots.
Local Notation FIND := (find_exponent introots E (sb2 E) (sb4 E) (sb6 E)).
Local Notation TPS := (torsion_points introots E (sb2 E) (sb4 E) (sb6 E)).
Definition none_of (l : list nat) : Prop := forall e T, In e l -> on T -> ~ pt_order E (Z.of_nat e) T.
Lemma find_ok l : (forall e, In e l -> (3 <= e <= 12)%nat) -> exists f0, forall fuel, (f0 <= fuel)%nat ->
  (FIND fuel (map Z.of_nat l) = Ok None /\ none_of l) \/
  (exists l1 e l2 P cycle, l = (l1 ++ e :: l2)%list /\ none_of l1 /\ FIND fuel (map Z.of_nat l) = Ok (Some (Z.of_nat e, cycle)) /\
     tok E P /\ pt_order E (Z.of_nat e) (aff P) /\ Forall (tok E) cycle /\ map aff cycle = cyc e (aff P)).
Proof.
  induction l as [|e l IH]; intros B. { exists 0%nat. intros fuel _. left. split; [reflexivity|]. intros e T []. }
  destruct (IH ltac:(intros; apply B; now right)) as (f1 & IH1). clear IH. pose proof (B e (or_introl eq_refl)) as Be.
  destruct (m_torsion_ge3 E HD introots IR (Z.of_nat e) true ltac:(lia)) as (f2 & M). exists (f1 + f2)%nat. intros fuel Hf.
  destruct (M fuel ltac:(lia)) as (lt & El & (_ & _ & _ & TL) & K). specialize (IH1 fuel ltac:(lia)). cbn [map find_exponent]. rewrite El, bind_Ok.
  rewrite Z.abs_eq in TL by lia. unfold got in TL. 
  destruct lt as [|P lt'].
  - assert (NO : forall T, on T -> ~ pt_order E (Z.of_nat e) T). { intros T HT HO. apply (TL T). auto. }
    destruct IH1 as [[F N]|(l1 & e1 & l2 & P & cycle & -> & N & F & R)].
    + left. split; [exact F|]. intros e' T [<-|I]; auto.
    + right. exists (e :: l1), e1, l2, P, cycle. split; [reflexivity|]. split; [intros e' T [<-|I]; auto|]. split; [exact F|exact R].
  - right. inversion K as [|? ? KP _]; subst. assert (HO : pt_order E (Z.of_nat e) (aff P)). { apply (proj1 (TL (aff P))). now left. }
    destruct (multiples_ok P e KP HO ltac:(lia)) as (o & ms & Em & KM & AM). exists [], e, l, P, ms. rewrite Em, bind_Ok.
    split; [reflexivity|]. split; [intros ? ? []|]. auto.
Qed.

(** ** counting *)
Lemma same_len (l1 l2 : list (pt Qc)) : NoDup l1 -> NoDup l2 -> (forall T, In T l1 <-> In T l2) -> length l1 = length l2.
Proof. intros A B C. apply Nat.le_antisymm; apply NoDup_incl_length; auto; intros T; apply C. Qed.
Lemma fill (l1 l2 : list (pt Qc)) : NoDup l1 -> NoDup l2 -> length l1 = length l2 -> (forall T, In T l1 -> In T l2) -> forall T, In T l2 -> In T l1.
Proof. intros A B C D. apply NoDup_length_incl; auto. lia. Qed.
Lemma pick n l1 e l2 : In n [2; 4; 6; 8; 10; 12]%nat -> [12; 6; 8; 4; 10]%nat = (l1 ++ e :: l2)%list -> Nat.divide e n -> ~ In n l1 -> e = n.
Proof.
  intros Hn Q [c D] N. do 5 (destruct l1 as [|x l1]; [cbn [app] in Q; injection Q as <- _; clear - D Hn N; cbn [In] in *; lia|cbn [app] in Q; injection Q as <- Q]).
  destruct l1; discriminate.
Qed.
Lemma pick_odd n l1 e l2 : In n [1; 3; 5; 7; 9]%nat -> [5; 7; 9; 3]%nat = (l1 ++ e :: l2)%list -> Nat.divide e n -> ~ In n l1 -> e = n.
Proof.
  intros Hn Q [c D] N. do 4 (destruct l1 as [|x l1]; [cbn [app] in Q; injection Q as <- _; clear - D Hn N; cbn [In] in *; lia|cbn [app] in Q; injection Q as <- Q]).
  destruct l1; discriminate.
Qed.
Lemma pick_prod n l1 e l2 : In n [2; 4; 6; 8]%nat -> [8; 6; 4]%nat = (l1 ++ e :: l2)%list -> Nat.divide e n -> ~ In n l1 -> e = n.
Proof.
  intros Hn Q [c D] N. do 3 (destruct l1 as [|x l1]; [cbn [app] in Q; injection Q as <- _; clear - D Hn N; cbn [In] in *; lia|cbn [app] in Q; injection Q as <- Q]).
  destruct l1; discriminate.
Qed.
Lemma inf_order : pt_order E 1 Inf.
Proof. split; [lia|]. split; [reflexivity|]. intros j Hj. change (Z.to_nat 1) with 1%nat in Hj. lia. Qed.
Lemma head_inf S l : tors_list E S l -> S Inf -> exists P l', l = P :: l' /\ aff P = Inf.
Proof.
  intros (_ & _ & SS & TL) H. destruct l as [|P l]. { exfalso. apply (TL Inf). split; [exact I|auto]. }
  exists P, l. split; [reflexivity|]. assert (J : In Inf (map aff (P :: l))) by (apply TL; split; [exact I|auto]). destruct J as [J|J]; [exact J|].
  apply in_map_iff in J as (Q & AQ & IQ). inversion SS as [|? ? _ FA]; subst. rewrite Forall_forall in FA. destruct (FA Q IQ) as (o & o' & Ho & Ho' & D).
  rewrite AQ in Ho'. pose proof (pt_order_unique _ _ _ _ Ho' inf_order). subst o'. destruct Ho as (Pos & A & _). destruct D as [D|[-> _]]; [lia|].
  change (Z.to_nat 1) with 1%nat in A. cbn [emul] in A. rewrite eadd_inf_r in A. exact A.
Qed.
Lemma weaken S S' l : (forall T, on T -> (S T <-> S' T)) -> tors_list E S l -> tors_list E S' l.
Proof. intros H (A & B & C & D). split; [exact A|]. split; [exact B|]. split; [exact C|]. intros T. rewrite D. split; intros [X Y]; split; auto; now apply (H T X). Qed.
Lemma emul_S2 T : mul 2 T = T ++ T.
Proof. cbn [emul]. now rewrite eadd_inf_r. Qed.

Hypothesis HA : Z.odd (a1 E) = true \/ Z.odd (a3 E) = true \/ a1 E = 0 /\ a3 E = 0.
Definition whole (fuel : nat) : Prop := exists l, TPS fuel = Ok l /\ tors_list E (tors E) l /\ Forall (tok E) l.

Lemma exps_map (b1 b2 : bool) : (if b1 then [12; 6; 8; 4; 10] else if b2 then [8; 6; 4] else [5; 7; 9; 3]) =
  map Z.of_nat (if b1 then [12; 6; 8; 4; 10] else if b2 then [8; 6; 4] else [5; 7; 9; 3])%nat.
Proof. destruct b1, b2; reflexivity. Qed.

(** sorting a complete list of torsion points *)
Lemma sort_all n fuel l full : (1 <= n <= fuel)%nat -> (forall Q, on Q -> tors E Q -> mul n Q = Inf) -> (forall Q, on Q -> tors E Q -> In Q full) -> NoDup full ->
  Forall (tok E) l -> NoDup (map aff l) -> length (map aff l) = length full -> exists l', sortM (pt_lt E fuel) l = Ok l' /\ tors_list E (tors E) l' /\ Forall (tok E) l'.
Proof.
  intros Hn Kill Full NF K N L. rewrite Forall_forall in K.
  assert (TO : forall T, In T (map aff l) -> on T /\ tors E T). { intros T J. apply in_map_iff in J as (P & <- & IP). destruct (K P IP) as (V & _ & TT & _). split; [now apply aff_on_all|auto]. }
  apply finish_known; auto; [|now apply Forall_forall|].
  - apply Forall_forall. intros P IP. destruct (tok_order_at E HD P n fuel (K P IP) Hn) as (o & Ho & Eo); [|exists o; auto].
    destruct (TO (aff P)) as [A B]; [now apply in_map|]. now apply Kill.
  - intros T. split; [apply TO|]. intros [A B]. apply (fill (map aff l) full N NF L); [|auto]. intros T' J. destruct (TO T' J). auto.
Qed.
Lemma even_half n : Nat.even n = true -> exists h, n = (2 * h)%nat.
Proof. intros H. apply Nat.even_spec in H. destruct H as [h ->]. now exists h. Qed.

(** the cyclic case *)
Lemma cyclic_case n T : mazur_cyclic E n T -> exists f0, forall fuel, (f0 <= fuel)%nat -> whole fuel.
Proof.
  intros (Hn & HT & HO & All). destruct (two_torsion_ok E HD introots IR false HA) as (f1 & W2).
  assert (N12 : (1 <= n <= 12)%nat) by (clear - Hn; cbn [In] in Hn; lia).
  assert (Kill : forall Q, on Q -> tors E Q -> mul n Q = Inf).
  { intros Q OQ TQ. destruct (All Q OQ TQ) as (k & ->). rewrite <- (emul_mul E HD), Nat.mul_comm, (emul_mul E HD), (n_kills n T HT HO), emul_inf by auto. reflexivity. }
  assert (InC : forall Q, on Q -> tors E Q -> In Q (cyc n T)). { intros Q OQ TQ. destruct (All Q OQ TQ) as (k & ->). now apply cyc_in. }
  set (exps := (if Nat.even n then [12; 6; 8; 4; 10] else [5; 7; 9; 3])%nat).
  assert (EB : forall e, In e exps -> (3 <= e <= 12)%nat) by (unfold exps; destruct (Nat.even n); cbn [In]; intros; lia).
  destruct (find_ok exps EB) as (f2 & F). exists (f1 + f2 + 12)%nat. intros fuel Hf. destruct (W2 fuel ltac:(lia)) as (l2 & E2 & TL2 & K2). specialize (F fuel ltac:(lia)).
  pose proof TL2 as (_ & ND2 & _ & I2). unfold wanted in I2. change (Z.to_nat 2) with 2%nat in I2.
  assert (L2 : Z.of_nat (length l2) = if Nat.even n then 2 else 1).
  { rewrite <- (map_length aff l2). destruct (Nat.even n) eqn:EV.
    - destruct (even_half n EV) as (h & Eh). rewrite (same_len (map aff l2) [Inf; mul h T] ND2); [reflexivity| |].
      + constructor; [|constructor; [intros []|constructor]]. intros [J|[]]. now apply (half_ne n T HT HO h Eh).
      + intros Q. rewrite I2. cbn [In]. split.
        * intros [OQ Q2]. destruct (All Q OQ) as (k & ->); [exists 2%nat; split; [lia|auto]|]. rewrite <- (emul_mul E HD) in Q2 by auto. destruct (two_even n T HT HO h k Eh Q2); auto.
        * intros [<-|[<-|[]]]; [split; [exact I|now rewrite emul_inf]|]. split; [now apply emul_on|now apply (half_two n T HT HO)].
    - rewrite (same_len (map aff l2) [Inf] ND2); [reflexivity| |].
      + constructor; [intros []|constructor].
      + intros Q. rewrite I2. cbn [In]. split.
        * intros [OQ Q2]. destruct (All Q OQ) as (k & ->); [exists 2%nat; split; [lia|auto]|]. rewrite <- (emul_mul E HD) in Q2 by auto. left. symmetry. now apply (two_odd n T HT HO).
        * intros [<-|[]]. split; [exact I|now rewrite emul_inf]. }
  unfold whole, torsion_points. rewrite E2, bind_Ok. cbv zeta.
  assert (EX : (if Z.of_nat (length l2) =? 2 then [12; 6; 8; 4; 10] else if Z.of_nat (length l2) =? 4 then [8; 6; 4] else [5; 7; 9; 3]) = map Z.of_nat exps).
  { rewrite L2. unfold exps. destruct (Nat.even n); reflexivity. }
  rewrite EX. assert (LT4 : Z.of_nat (length l2) <? 4 = true) by (rewrite L2; destruct (Nat.even n); reflexivity).
  destruct F as [[F NO]|(e1 & e & e2 & P & cycle & EE & NO & F & KP & OP & KC & AC)]; rewrite F, bind_Ok.
  - (* nothing found: the group has at most two elements *)
    exists l2. split; [reflexivity|]. split; [|exact K2]. apply (weaken (wanted E 2 false)); [|exact TL2]. intros Q OQ. unfold wanted. change (Z.to_nat 2) with 2%nat.
    split; [intros Z; exists 2%nat; split; [lia|auto]|]. intros TQ. specialize (Kill Q OQ TQ).
    assert (n = 1%nat \/ n = 2%nat) as [->| ->].
    { assert (NI : ~ In n exps) by (intros J; now apply (NO n T J HT)). clear - Hn NI. unfold exps in NI. cbn [In] in Hn. decompose [or] Hn; subst; cbn in NI; tauto. }
    + change 2%nat with (2 * 1)%nat. now rewrite (emul_mul E HD), Kill, emul_inf.
    + exact Kill.
  - rewrite LT4. pose proof KP as (VP & _ & TP & _). pose proof (aff_on_all E P VP) as OnP.
    assert (e = n).
    { assert (D : Nat.divide e n) by (apply (ord_div e (aff P) OnP OP), Kill; auto). assert (NI : ~ In n e1) by (intros J; now apply (NO n T J HT)).
      unfold exps in EE. destruct (Nat.even n) eqn:EV.
      - apply (pick n e1 e e2); auto. clear - Hn EV. cbn [In] in Hn. decompose [or] Hn; subst; cbn in EV |- *; try discriminate EV; try tauto.
      - apply (pick_odd n e1 e e2); auto. clear - Hn EV. cbn [In] in Hn. decompose [or] Hn; subst; cbn in EV |- *; try discriminate EV; try tauto. }
    subst e. apply (sort_all n fuel cycle (cyc n T)); auto; [lia|now apply cyc_nodup| |]; rewrite AC; [now apply cyc_nodup|now rewrite !cyc_len].
Qed.

(** the product case *)
Lemma product_case n T S : mazur_product E n T S -> exists f0, forall fuel, (f0 <= fuel)%nat -> whole fuel.
Proof.
  intros (Hn & HT & HO & HS & S2 & NS & All). destruct (two_torsion_ok E HD introots IR false HA) as (f1 & W2).
  assert (N12 : (1 <= n <= 12)%nat) by (clear - Hn; cbn [In] in Hn; lia).
  destruct (even_half n) as (h & Eh). { clear - Hn. cbn [In] in Hn. decompose [or] Hn; subst; reflexivity || tauto. }
  assert (Kill : forall Q, on Q -> tors E Q -> mul n Q = Inf).
  { intros Q OQ TQ. assert (W : forall k, mul n (mul k T) = Inf) by (intros k; rewrite <- (emul_mul E HD), Nat.mul_comm, (emul_mul E HD), (n_kills n T HT HO), emul_inf by auto; reflexivity).
    destruct (All Q OQ TQ) as (k & [->| ->]); [apply W|]. rewrite emul_sum, W by auto using emul_on. rewrite Eh, Nat.mul_comm, (emul_mul E HD), S2, emul_inf by auto. reflexivity. }
  assert (InC : forall Q, on Q -> tors E Q -> In Q (both n T S)). { intros Q OQ TQ. destruct (All Q OQ TQ) as (k & [->| ->]); now apply both_in. }
  destruct (find_ok [8; 6; 4]%nat) as (f2 & F). { cbn [In]. intros; lia. } exists (f1 + f2 + 12)%nat. intros fuel Hf. destruct (W2 fuel ltac:(lia)) as (l2 & E2 & TL2 & K2). specialize (F fuel ltac:(lia)).
  pose proof TL2 as (_ & ND2 & _ & I2). unfold wanted in I2. change (Z.to_nat 2) with 2%nat in I2.
  assert (L2 : length l2 = 4%nat).
  { rewrite <- (map_length aff l2). pose proof (half_ne n T HT HO h Eh) as HN. pose proof (half_two n T HT HO h Eh) as H2. pose proof (emul_on E h T HT) as OH.
    assert (SI : S <> Inf) by exact (NS 0%nat). pose proof (NS h) as SH.
    rewrite (same_len (map aff l2) [Inf; mul h T; S; S ++ mul h T] ND2); [reflexivity| |].
    - assert (C1 : S ++ mul h T <> S). { intros Q. apply HN. apply (eadd_cancel E HD S); auto; [exact I|]. now rewrite eadd_inf_r. }
      assert (C2 : S ++ mul h T <> mul h T). { intros Q. apply SI. apply (eadd_cancel E HD (mul h T)); auto; [exact I|]. rewrite eadd_inf_r, eadd_comm; auto. }
      assert (C3 : S ++ mul h T <> Inf). { intros Q. apply SH. apply (eadd_cancel E HD (mul h T)); auto. rewrite <- emul_S2, H2, eadd_comm; auto. }
      repeat constructor; cbn [In]; intuition congruence.
    - intros Q. rewrite I2. cbn [In]. split.
      + intros [OQ Q2]. destruct (All Q OQ) as (k & [->| ->]); [exists 2%nat; split; [lia|auto]| |].
        * rewrite <- (emul_mul E HD) in Q2 by auto. destruct (two_even n T HT HO h k Eh Q2); auto.
        * rewrite emul_sum, S2, eadd_inf_l in Q2 by auto using emul_on. rewrite <- (emul_mul E HD) in Q2 by auto. destruct (two_even n T HT HO h k Eh Q2) as [W|W]; rewrite W; auto. rewrite eadd_inf_r. auto.
      + intros [<-|[<-|[<-|[<-|[]]]]]; (split; [auto using eadd_on; try exact I|]); auto. rewrite emul_sum, S2, H2 by auto. reflexivity. }
  unfold whole, torsion_points. rewrite E2, bind_Ok. cbv zeta. rewrite L2. change (Z.of_nat 4) with 4. cbn [Z.eqb Pos.eqb]. cbv iota. change [8; 6; 4] with (map Z.of_nat [8; 6; 4]%nat).
  destruct F as [[F NO]|(e1 & e & e2 & P & cycle & EE & NO & F & KP & OP & KC & AC)]; rewrite F, bind_Ok.
  - exists l2. split; [reflexivity|]. split; [|exact K2]. apply (weaken (wanted E 2 false)); [|exact TL2]. intros Q OQ. unfold wanted. change (Z.to_nat 2) with 2%nat.
    split; [intros Z; exists 2%nat; split; [lia|auto]|]. intros TQ. specialize (Kill Q OQ TQ).
    assert (n = 2%nat) as ->; [|exact Kill].
    assert (NI : ~ In n [8; 6; 4]%nat) by (intros J; now apply (NO n T J HT)). clear - Hn NI. cbn [In] in Hn. decompose [or] Hn; subst; cbn in NI; tauto.
  - pose proof KP as (VP & _ & TP & _). pose proof (aff_on_all E P VP) as OnP.
    assert (e = n).
    { assert (D : Nat.divide e n) by (apply (ord_div e (aff P) OnP OP), Kill; auto). assert (NI : ~ In n e1) by (intros J; now apply (NO n T J HT)). now apply (pick_prod n e1 e e2). }
    subst e. change (4 <? 4) with false. cbv iota.
    assert (LC : length cycle = n) by (rewrite <- (map_length aff), AC; apply cyc_len).
    replace (Z.to_nat (Z.quot (Z.of_nat n) 2)) with h by (rewrite Z.quot_div_nonneg by lia; rewrite Eh, Nat2Z.inj_mul; change (Z.of_nat 2) with 2; rewrite Z.mul_comm, Z.div_mul by lia; lia).
    destruct (nth_error cycle h) as [T1|] eqn:ET1; [|apply nth_error_None in ET1; lia].
    assert (AT1 : aff T1 = mul h (aff P)).
    { apply (map_nth_error aff) in ET1. rewrite AC in ET1. unfold cyc in ET1. rewrite (map_nth_error (fun i => mul i (aff P)) h (seq 0 n) (d := h)) in ET1; [now injection ET1|].
      rewrite (nth_error_nth' (seq 0 n) 0%nat) by (rewrite seq_length; lia). rewrite seq_nth by lia. reflexivity. }
    assert (KT1 : tok E T1) by (rewrite Forall_forall in KC; apply KC; now apply nth_error_In in ET1).
    destruct (head_inf _ _ TL2) as (P0 & lt & -> & A0); [unfold wanted; now rewrite emul_inf|]. cbn [tl].
    cbn [map] in ND2. apply NoDup_cons_iff in ND2 as [NA0 NDt]. rewrite A0 in NA0.
    pose proof (Forall_inv_tail K2) as Kt. rewrite Forall_forall in Kt.
    destruct (find _ lt) as [T2|] eqn:EF.
    2:{ exfalso. assert (W : forall Q, In Q lt -> aff Q = aff T1).
        { intros Q IQ. pose proof (find_none _ _ EF Q IQ) as N0. cbn beta in N0. apply negb_false_iff in N0. apply (p_eq_aff E) in N0; auto; [apply (Kt Q IQ)|apply KT1]. }
        cbn [length] in L2. destruct lt as [|q1 [|q2 lt']]; try discriminate L2. cbn [map] in NDt. inversion NDt as [|? ? NN _]; subst. apply NN. left. transitivity (aff T1); [|symmetry]; apply W; cbn [In]; auto. }
    apply find_some in EF as [IT2 EF]. apply negb_true_iff in EF. pose proof (Kt T2 IT2) as KT2. pose proof KT2 as (V2 & _). pose proof (aff_on_all E T2 V2) as On2.
    assert (N21 : aff T2 <> aff T1). { intros Q. apply (p_eq_aff E) in Q; [congruence|exact V2|apply KT1]. }
    assert (N20 : aff T2 <> Inf). { intros Q. apply NA0. rewrite <- Q. now apply in_map. }
    assert (T22 : mul 2 (aff T2) = Inf). { apply (I2 (aff T2)). right. now apply in_map. }
    assert (NS2 : forall k, aff T2 <> mul k (aff P)).
    { intros k Q. rewrite Q in T22. rewrite <- (emul_mul E HD) in T22 by auto. destruct (two_even n (aff P) OnP OP h k Eh T22) as [W|W]; congruence. }
    assert (AB : map aff (cycle ++ map (p_add E T2) cycle)%list = both n (aff P) (aff T2)).
    { unfold both. rewrite map_app, AC, <- AC. f_equal. rewrite !map_map. apply map_ext_in. intros Q IQ. rewrite Forall_forall in KC. now apply add_tok; auto. }
    apply (sort_all n fuel _ (both n T S)); auto; [lia|now apply both_nodup| | |].
    + apply Forall_app. split; [exact KC|]. apply Forall_forall. intros Q IQ. apply in_map_iff in IQ as (Q' & <- & IQ). rewrite Forall_forall in KC. apply add_tok; auto.
    + rewrite AB. now apply both_nodup.
    + rewrite AB, !both_len. reflexivity.
Qed.
Theorem torsion_points_ok : mazur E -> exists f0, forall fuel, (f0 <= fuel)%nat -> whole fuel.
Proof. intros [(n & T & H)|(n & T & S & H)]; [exact (cyclic_case n T H)|exact (product_case n T S H)]. Qed.
End OnE.
