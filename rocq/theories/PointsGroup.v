(** Associativity, multiples and orders for the model of points *)
From Coq Require Import ZArith Znumtheory Lia List Bool QArith Qcanon Field.
From Verif Require Import Base RatModel MArithModel CurveModel CurveProofs PointsModel GroupLaw QcGroup PointsProofs.
Import ListNotations.
Open Scope Z_scope.

Section OnE.
Variable E : curve.
Local Notation valid := (proj_on E).
Local Notation A1 := (zq (a1 E)).
Local Notation A2 := (zq (a2 E)).
Local Notation A3 := (zq (a3 E)).
Local Notation A4 := (zq (a4 E)).
Local Notation A6 := (zq (a6 E)).
Local Notation on := (eon_pt E).
Local Notation "P ++ Q" := (eadd E P Q).

Lemma nonsing : sdisc E <> 0 -> qnonsing A1 A2 A3 A4 A6.
Proof.
  intros D x y H. destruct (Qc_eq_dec (qfy A1 A3 x y) 0%Qc) as [EY|]; [|auto].
  destruct (Qc_eq_dec (qfx A1 A2 A4 x y) 0%Qc) as [EX|]; [|auto]. exfalso.
  apply D, zq_inj. unfold sdisc, sb2, sb4, sb6, sb8. zqall.
  unfold qfy, fy in EY. unfold qfx, fx in EX. unfold qon, GroupLaw.on in H.
  assert (H3 : A3 = (- y - y - A1 * x)%Qc). { transitivity ((y + y + A1 * x + A3) - y - y - A1 * x)%Qc; [ring|]. rewrite EY. ring. }
  assert (H4 : A4 = (A1 * y - (1 + 1 + 1) * x * x - (1 + 1) * A2 * x)%Qc).
  { transitivity (((1 + 1 + 1) * x * x + (1 + 1) * A2 * x + A4 - A1 * y) + A1 * y - (1 + 1 + 1) * x * x - (1 + 1) * A2 * x)%Qc; [ring|]. rewrite EX. ring. }
  assert (H6 : A6 = (y * y + A1 * x * y + A3 * y - x * x * x - A2 * x * x - A4 * x)%Qc). { rewrite H. ring. }
  rewrite H6, H4, H3. ring.
Qed.

Lemma eadd_inf_l P : eadd E Inf P = P. Proof. reflexivity. Qed.
Lemma eadd_inf_r P : eadd E P Inf = P. Proof. apply add_inf_r. Qed.
Lemma eadd_comm P Q : on P -> on Q -> P ++ Q = Q ++ P.
Proof. exact (@qadd_comm A1 A2 A3 A4 A6 P Q). Qed.
Lemma eneg_on P : on P -> on (eneg E P).
Proof. exact (@qneg_on A1 A2 A3 A4 A6 P). Qed.
Lemma eadd_neg_r P : P ++ eneg E P = Inf.
Proof. exact (@qadd_neg_r A1 A2 A3 A4 P). Qed.
Lemma eneg_neg P : eneg E (eneg E P) = P.
Proof. exact (@qneg_neg A1 A3 P). Qed.
Hypothesis D : sdisc E <> 0.
Lemma eadd_assoc P Q R : on P -> on Q -> on R -> P ++ Q ++ R = (P ++ Q) ++ R.
Proof. intros. symmetry. exact (@qadd_assoc A1 A2 A3 A4 A6 (nonsing D) P Q R H H0 H1). Qed.
Lemma eadd_cancel P Q R : on P -> on Q -> on R -> P ++ Q = P ++ R -> Q = R.
Proof.
  intros HP HQ HR H. rewrite <- (eadd_inf_l Q), <- (eadd_inf_l R), <- (eadd_neg_r P).
  rewrite (eadd_comm P), <- !eadd_assoc, H by auto using eneg_on. reflexivity.
Qed.
Lemma eneg_add P Q : on P -> on Q -> eneg E (P ++ Q) = eneg E P ++ eneg E Q.
Proof.
  intros HP HQ. assert (NP := eneg_on P HP). assert (NQ := eneg_on Q HQ). assert (PQ := eadd_on E P Q HP HQ).
  apply (eadd_cancel (P ++ Q)); auto using eneg_on, eadd_on. rewrite eadd_neg_r.
  rewrite <- eadd_assoc by auto using eadd_on. rewrite (eadd_comm (eneg E P)) by auto.
  rewrite (eadd_assoc Q) by auto. rewrite eadd_neg_r, eadd_inf_l. now rewrite eadd_neg_r.
Qed.

(** multiples *)
Fixpoint emul (n : nat) (P : pt Qc) : pt Qc := match n with O => Inf | S k => P ++ emul k P end.
Lemma emul_on n P : on P -> on (emul n P).
Proof. intros H. induction n; cbn [emul]; [exact I|now apply eadd_on]. Qed.
Lemma emul_add m n P : on P -> emul (m + n) P = emul m P ++ emul n P.
Proof.
  intros H. induction m as [|m IH]; cbn [Nat.add emul]; [now rewrite eadd_inf_l|].
  rewrite IH, eadd_assoc by auto using emul_on. reflexivity.
Qed.
Lemma emul_double m P : on P -> emul (2 * m) P = emul m (P ++ P).
Proof.
  intros H. induction m as [|m IH]; [reflexivity|]. replace (2 * S m)%nat with (2 + 2 * m)%nat by lia.
  rewrite emul_add, IH by auto. cbn [emul]. now rewrite eadd_inf_r.
Qed.
Lemma emul_inf n : emul n Inf = Inf.
Proof. induction n; cbn [emul]; auto. Qed.
Lemma emul_neg n P : on P -> emul n (eneg E P) = eneg E (emul n P).
Proof. intros H. induction n; cbn [emul]; [reflexivity|]. rewrite IHn, eneg_add by auto using emul_on. reflexivity. Qed.
(** n-fold sum with the model's own addition *)
Definition nfold (n : nat) (P : point) : point := Nat.iter n (p_add E P) infpt.
Lemma nfold_spec n P : valid P -> aff (nfold n P) = emul n (aff P) /\ valid (nfold n P).
Proof.
  intros H. unfold nfold. induction n as [|n [IH1 IH2]]; cbn [Nat.iter nat_rect emul]; [split; [reflexivity|apply inf_val]|].
  destruct (add_spec E P _ H IH2) as [A B]. split; [|auto]. unfold Nat.iter in A. rewrite A. unfold Nat.iter in IH1. now rewrite IH1.
Qed.

(** n * P *)
Lemma p_mul_spec n P : valid P -> - max32 <= n <= max32 ->
  exists R, p_mul E n P = Ok R /\ valid R /\
    aff R = (if n <? 0 then eneg E (emul (Z.to_nat (- n)) (aff P)) else emul (Z.to_nat n) (aff P)).
Proof.
  intros HP HR. unfold p_mul. pose proof (aff_on_all E P HP) as OP.
  unfold p_iszero. destruct (Z.eqb_spec (pZ P) 0) as [EP|NP]; cbn [orb].
  { exists infpt. split; [reflexivity|]. split; [apply inf_val|]. apply aff_inf in EP. rewrite EP, !emul_inf. now destruct (n <? 0). }
  destruct (Z.eqb_spec n 0) as [->|NN].
  { exists infpt. split; [reflexivity|]. split; [apply inf_val|]. reflexivity. }
  set (m := Z.abs n). assert (Hm : 1 <= m <= max32) by (unfold m, max32 in *; lia).
  assert (EM : (if n <? 0 then neg32 n else Ok n) = Ok m).
  { destruct (Z.ltb_spec n 0); unfold m.
    - rewrite Z.abs_neq by lia. apply c32_ok. unfold in32, min32, max32 in *. lia.
    - rewrite Z.abs_eq by lia. reflexivity. }
  cbv zeta. rewrite EM, bind_Ok.
  assert (FIN : forall R, valid R -> aff R = emul (Z.to_nat m) (aff P) -> exists R', Ok (if n <? 0 then p_neg E R else R) = Ok R' /\ valid R' /\
     aff R' = (if n <? 0 then eneg E (emul (Z.to_nat (- n)) (aff P)) else emul (Z.to_nat n) (aff P))).
  { intros R HV HA. eexists. split; [reflexivity|]. destruct (Z.ltb_spec n 0).
    - split; [now apply neg_valid|]. rewrite neg_aff, HA. unfold m. now rewrite Z.abs_neq by lia.
    - split; [auto|]. rewrite HA. unfold m. now rewrite Z.abs_eq by lia. }
  destruct (Z.eqb_spec m 1) as [E1|N1].
  { apply FIN; [auto|]. rewrite E1. change (Z.to_nat 1) with 1%nat. cbn [emul]. now rewrite eadd_inf_r. }
  destruct (Z.eqb_spec m 2) as [E2|N2].
  { destruct (twice_spec E P HP) as [A B]. apply FIN; [auto|]. rewrite E2, A. change (Z.to_nat 2) with 2%nat. cbn [emul]. now rewrite eadd_inf_r. }
  set (Inv := fun s : Z * point * point => let '(k, Q, ans) := s in 1 <= k <= max32 /\ valid Q /\ valid ans /\
     emul (Z.to_nat m) (aff P) = aff ans ++ emul (2 * Z.to_nat (k / 2)) (aff Q)).
  set (Post := fun s : Z * point * point => let '(k, Q, ans) := s in valid ans /\ aff ans = emul (Z.to_nat m) (aff P)).
  destruct (while_total (p_mul_step E) Inv Post (fun s => Z.log2 (fst (fst s)))) with (n := 5%nat) (s := (m, P, if Z.odd m then P else infpt)) as (r & Er & HPost).
  - intros s _. apply Z.log2_nonneg.
  - intros [[k Q] ans] (Hk & HQ & HA & EQ). unfold p_mul_step. destruct (Z.leb_spec k 1).
    + left. eexists. split; [reflexivity|]. split; [auto|]. rewrite EQ.
      replace (k / 2) with 0 by (replace k with 1 by lia; reflexivity). change (2 * Z.to_nat 0)%nat with 0%nat. cbn [emul]. now rewrite eadd_inf_r.
    + right. eexists. split; [reflexivity|]. rewrite Z.quot_div_nonneg by lia.
      destruct (twice_spec E Q HQ) as [TA TV].
      assert (K2 : 1 <= k / 2 <= max32). { split; [apply Z.div_le_lower_bound; lia|]. apply Z.div_le_upper_bound; unfold max32 in *; lia. }
      pose proof (aff_on_all E Q HQ) as OQ. pose proof (aff_on_all E ans HA) as OA. pose proof (aff_on_all E _ TV) as OT.
      split.
      * split; [auto|]. split; [auto|].
        assert (EK : k / 2 = 2 * (k / 2 / 2) + (if Z.odd (k / 2) then 1 else 0)).
        { rewrite (Z_div_mod_eq_full (k / 2) 2) at 1. rewrite Zmod_odd. now destruct (Z.odd (k / 2)). }
        rewrite EQ, emul_double by auto. rewrite <- TA.
        set (j := k / 2) in *. assert (J2 : 0 <= j / 2) by (apply Z.div_pos; lia).
        destruct (Z.odd j).
        -- destruct (add_spec E ans (p_twice E Q) HA TV) as [SA SV]. split; [auto|]. rewrite SA.
           rewrite <- eadd_assoc by auto using emul_on. f_equal.
           replace (Z.to_nat j) with (1 + 2 * Z.to_nat (j / 2))%nat by lia. rewrite emul_add by auto. cbn [emul]. now rewrite eadd_inf_r.
        -- split; [auto|]. f_equal. f_equal. lia.
      * cbn [fst]. assert (Z.log2 (k / 2) = Z.log2 k - 1); [|lia].
        rewrite <- Z.div2_div, Z.div2_spec, Z.log2_shiftr by lia.
        assert (1 <= Z.log2 k) by (change 1 with (Z.log2 2); apply Z.log2_le_mono; lia). lia.
  - cbn [Inv]. split; [auto|]. split; [auto|].
    assert (EK : m = 2 * (m / 2) + (if Z.odd m then 1 else 0)).
    { rewrite (Z_div_mod_eq_full m 2) at 1. rewrite Zmod_odd. now destruct (Z.odd m). }
    assert (0 <= m / 2) by (apply Z.div_pos; lia).
    destruct (Z.odd m).
    + split; [auto|]. replace (Z.to_nat m) with (1 + 2 * Z.to_nat (m / 2))%nat by lia. rewrite emul_add by auto. cbn [emul]. now rewrite eadd_inf_r.
    + split; [apply inf_val|]. change (aff infpt) with (@Inf Qc). rewrite eadd_inf_l. f_equal. lia.
  - cbn [fst]. change (2 ^ Z.of_nat 5) with 32. apply Z.log2_lt_pow2; [lia|]. unfold max32 in Hm. lia.
  - rewrite Er, bind_Ok. destruct r as [[k Q] ans]. destruct HPost as [V A]. now apply FIN.
Qed.
Lemma p_mul_UB P : valid P -> pZ P <> 0 -> p_mul E min32 P = UB.
Proof. intros _ N. unfold p_mul, p_iszero. destruct (Z.eqb_spec (pZ P) 0); [contradiction|]. reflexivity. Qed.

(** ** orders *)
Definition is_order (n : Z) (P : point) : Prop :=
  0 < n /\ pZ (nfold (Z.to_nat n) P) = 0 /\ forall j, (0 < j < Z.to_nat n)%nat -> pZ (nfold j P) <> 0.
Definition ord_ok (P : point) : Prop := 0 < ord P -> is_order (ord P) P.
Lemma is_order_aff n P : valid P ->
  (is_order n P <-> 0 < n /\ emul (Z.to_nat n) (aff P) = Inf /\ forall j, (0 < j < Z.to_nat n)%nat -> emul j (aff P) <> Inf).
Proof.
  intros H. unfold is_order.
  assert (R : forall j, pZ (nfold j P) = 0 <-> emul j (aff P) = Inf).
  { intros j. rewrite <- (proj1 (nfold_spec j P H)). symmetry. apply aff_inf. }
  rewrite R. split; intros (A & B & C); (split; [auto|]); (split; [auto|]); intros j Hj Z; apply (C j Hj); now apply R.
Qed.
Lemma ord_ok_inf : ord_ok infpt.
Proof.
  intros _. apply is_order_aff; [apply inf_val|]. cbn [ord infpt]. split; [lia|]. split; [reflexivity|]. intros j Hj. exfalso. change (Z.to_nat 1) with 1%nat in Hj. lia.
Qed.
Lemma ord_ok_neg P : valid P -> ord_ok P -> ord_ok (p_neg E P).
Proof.
  intros HP H HO. specialize (H HO). change (ord (p_neg E P)) with (ord P) in *.
  apply is_order_aff; [now apply neg_valid|]. apply (is_order_aff _ P HP) in H as (A & B & C).
  pose proof (aff_on_all E P HP) as OP. split; [auto|]. rewrite neg_aff. split.
  - rewrite emul_neg, B by auto. reflexivity.
  - intros j Hj Z. apply (C j Hj). rewrite emul_neg in Z by auto. rewrite <- (eneg_neg (emul j (aff P))), Z. reflexivity.
Qed.
Lemma ord_ok_mk X Y W : ord_ok (mkpoint X Y W).
Proof. unfold ord_ok, mkpoint. destruct (reduce3 X Y W) as [[x y] w]. cbn [ord]. lia. Qed.
Lemma ord_ok_twice P : ord_ok (p_twice E P).
Proof. unfold p_twice. destruct (_ =? _); [apply ord_ok_inf|]. destruct (p_eq _ _); [apply ord_ok_inf|]. cbv zeta. apply ord_ok_mk. Qed.
Lemma ord_ok_add P Q : ord_ok P -> ord_ok Q -> ord_ok (p_add E P Q).
Proof.
  intros HP HQ. unfold p_add. destruct (_ =? _); [auto|]. destruct (p_iszero Q); [auto|]. destruct (p_eq _ _); [apply ord_ok_twice|].
  destruct (p_eq _ _); [apply ord_ok_inf|]. cbv zeta. apply ord_ok_mk.
Qed.
Lemma addeq_spec P Q : valid P -> valid Q -> aff (p_addeq E P Q) = aff P ++ aff Q /\ valid (p_addeq E P Q).
Proof.
  intros HP HQ. destruct (add_spec E P Q HP HQ) as [A V]. unfold p_addeq. cbv zeta. set (S := p_add E P Q) in *.
  destruct (mkpoint_ok (pX S) (pY S) (pZ S)) as (SM & _ & _); [apply V|].
  assert (SS : same (mkpoint (pX S) (pY S) (pZ S)) S) by exact SM.
  split; [rewrite (aff_same _ _ SS); exact A|]. destruct SM as (k & l & Hk & Hl & EX & EY & EZ). cbn [pX pY pZ] in *.
  set (R := mkpoint (pX S) (pY S) (pZ S)) in *. destruct V as [VN VE]. split.
  - intros (x0 & y0 & z0). apply VN. rewrite x0 in EX. rewrite y0 in EY. rewrite z0 in EZ.
    assert (C : forall a, k * 0 = l * a -> a = 0). { intros a Ha. rewrite Z.mul_0_r in Ha. symmetry in Ha. apply Z.mul_eq_0 in Ha as [Ha|Ha]; [contradiction|auto]. }
    split; [now apply C|]. split; now apply C.
  - apply (Z.mul_reg_l _ _ (k ^ 3)); [apply Z.pow_nonzero; [auto|lia]|].
    transitivity ((k * pY R) ^ 2 * (k * pZ R) + a1 E * (k * pX R) * (k * pY R) * (k * pZ R) + a3 E * (k * pY R) * (k * pZ R) ^ 2); [ring|].
    transitivity ((k * pX R) ^ 3 + a2 E * (k * pX R) ^ 2 * (k * pZ R) + a4 E * (k * pX R) * (k * pZ R) ^ 2 + a6 E * (k * pZ R) ^ 3); [|ring].
    rewrite EX, EY, EZ. transitivity (l ^ 3 * (pY S ^ 2 * pZ S + a1 E * pX S * pY S * pZ S + a3 E * pY S * pZ S ^ 2)); [ring|]. rewrite VE. ring.
Qed.
Lemma p_order_spec fuel P o P' : valid P -> ord_ok P -> p_order E fuel P = Ok (o, P') ->
  P' = Pt (pX P) (pY P) (pZ P) o /\ (0 < o -> is_order o P).
Proof.
  intros HP HO. unfold p_order. destruct (Z.eqb_spec (ord P) 0) as [E0|N0]; cbn [negb].
  2:{ intros H. inversion H; subst o P'. split; [destruct P; reflexivity|exact HO]. }
  destruct (Z.eqb_spec (pZ P) 0) as [EZ|NZ].
  { intros H. inversion H; subst o P'. split; [now rewrite EZ|]. intros _. apply is_order_aff; [auto|]. split; [lia|].
    apply aff_inf in EZ. rewrite EZ, emul_inf. split; [auto|]. intros j Hj. exfalso. change (Z.to_nat 1) with 1%nat in Hj. lia. }
  destruct (Z.ltb_spec 8 (pZ P)).
  { intros HH. inversion HH; subst o P'. split; [reflexivity|lia]. }
  destruct (while (p_order_step E P) fuel (P, 1)) as [[q k]| | |] eqn:EW; cbn [bind]; try discriminate.
  intros HH. inversion HH; subst o P'. split; [reflexivity|].
  pose proof (aff_on_all E P HP) as OP.
  assert (W := while_partial (p_order_step E P)
    (fun s => let '(q, k) := s in 0 < k /\ valid q /\ aff q = emul (Z.to_nat k) (aff P) /\ forall j, (0 < j < Z.to_nat k)%nat -> emul j (aff P) <> Inf)
    (fun s => let '(q, k) := s in 0 < k /\ valid q /\ aff q = emul (Z.to_nat k) (aff P) /\ forall j, (0 < j < Z.to_nat k)%nat -> emul j (aff P) <> Inf)).
  specialize (W) with (n := fuel) (s := (P, 1)) (r := (q, k)).
  destruct W as (K & V & A & C); [| | |exact EW|].
  - intros [q1 k1] [q2 k2] (K & V & A & C). unfold p_order_step. destruct (Z.eqb_spec (pZ q1) 0) as [|N]; cbn [negb andb]; [discriminate|].
    destruct (_ <=? _); [|discriminate]. intros HS. inversion HS; subst q2 k2. clear HS.
    destruct (addeq_spec q1 P V HP) as [SA SV]. split; [lia|]. split; [auto|].
    replace (Z.to_nat (k1 + 1)) with (Z.to_nat k1 + 1)%nat by lia. split.
    + rewrite SA, A, emul_add by auto. cbn [emul]. now rewrite eadd_inf_r.
    + intros j Hj. destruct (Nat.eq_dec j (Z.to_nat k1)) as [->|]; [rewrite <- A; now rewrite aff_inf|]. apply C. lia.
  - intros [q1 k1] [q2 k2] I1. unfold p_order_step. destruct (negb _ && _); [discriminate|]. intros HS. inversion HS; subst. exact I1.
  - split; [lia|]. split; [auto|]. change (Z.to_nat 1) with 1%nat. cbn [emul]. rewrite eadd_inf_r. split; [auto|]. intros j Hj. lia.
  - intros HK. apply is_order_aff; [auto|]. destruct (Z.eqb_spec (pZ q) 0) as [EQ|NQ]; [|lia].
    apply aff_inf in EQ. rewrite <- A. split; [auto|]. split; [auto|]. exact C.
Qed.

(** the list of multiples *)
Definition mults (ms : list point) (P : point) : Prop :=
  forall i, (i < length ms)%nat -> valid (nth i ms infpt) /\ aff (nth i ms infpt) = emul i (aff P) /\ (i <> 0%nat -> emul i (aff P) <> Inf).
Lemma p_multiples_spec P : valid P -> exists o ms, p_multiples E P = Ok (o, ms) /\ mults ms P /\ (1 <= length ms <= 13)%nat /\
  (0 < o -> o = Z.of_nat (length ms) /\ is_order o P) /\
  (o <= 0 -> o = -1 /\ (8 < pZ (last ms infpt) \/ length ms = 13%nat)).
Proof.
  intros HP. unfold p_multiples, p_iszero. pose proof (aff_on_all E P HP) as OP.
  destruct (Z.eqb_spec (pZ P) 0) as [EZ|NZ].
  { exists 1, [infpt]. split; [reflexivity|]. apply aff_inf in EZ. split.
    - intros i Hi. cbn [length] in Hi. replace i with 0%nat by lia. cbn [nth emul]. split; [apply inf_val|]. split; [reflexivity|lia].
    - cbn [length]. split; [lia|]. split; [|lia]. intros _. split; [reflexivity|]. apply is_order_aff; [auto|]. rewrite EZ, emul_inf.
      split; [lia|]. split; [auto|]. intros j Hj. exfalso. change (Z.to_nat 1) with 1%nat in Hj. lia. }
  set (Good := fun s : point * list point => let '(q, ms) := s in valid q /\ mults ms P /\ (2 <= length ms <= 13)%nat /\
     ((pZ q = 0 /\ aff q = emul (length ms) (aff P)) \/ (pZ q <> 0 /\ q = last ms infpt))).
  set (Post := fun s : point * list point => let '(q, ms) := s in Good s /\ (pZ q = 0 \/ 8 < pZ q \/ length ms = 13%nat)).
  destruct (while_total (p_multiples_step E P) Good Post (fun s => 13 - Z.of_nat (length (snd s)) + (if pZ (fst s) =? 0 then 0 else 1)))
    with (n := 4%nat) (s := (P, [infpt; P])) as (r & Er & HPost).
  - intros [q ms] (_ & _ & L & _). cbn [fst snd]. destruct (_ =? _); lia.
  - intros [q ms] (V & M & L & Q). unfold p_multiples_step, p_iszero. destruct (Z.eqb_spec (pZ q) 0) as [EQ|NQ]; cbn [negb andb].
    { left. eexists. split; [reflexivity|]. split; [split; [auto|]; split; [auto|]; split; auto|auto]. }
    destruct Q as [[Q _]|[_ Q]]; [contradiction|].
    destruct (Z.leb_spec (pZ q) 8) as [L8|G8]; cbn [andb].
    2:{ left. eexists. split; [reflexivity|]. split; [split; [auto|]; split; [auto|]; split; auto|auto]. }
    destruct (Z.ltb_spec (Z.of_nat (length ms)) 13) as [LL|GG].
    2:{ left. eexists. split; [reflexivity|]. split; [split; [auto|]; split; [auto|]; split; auto|]. right. right. lia. }
    right. eexists. split; [reflexivity|]. destruct (addeq_spec q P V HP) as [SA SV].
    assert (AQ : aff q = emul (length ms - 1) (aff P)).
    { rewrite Q. destruct (exists_last (l := ms)) as (l' & z & EL); [intros ->; cbn in L; lia|].
      assert (LE : length ms = (length l' + 1)%nat) by (rewrite EL, app_length; reflexivity).
      replace (last ms infpt) with (nth (length ms - 1) ms infpt).
      - apply M. lia.
      - rewrite LE, EL, last_last, app_nth2 by lia. replace (length l' + 1 - 1 - length l')%nat with 0%nat by lia. reflexivity. }
    assert (SM : aff (p_addeq E q P) = emul (length ms) (aff P)).
    { rewrite SA, AQ. replace (length ms) with (length ms - 1 + 1)%nat at 2 by lia. rewrite emul_add by auto. cbn [emul]. now rewrite eadd_inf_r. }
    destruct (Z.eqb_spec (pZ (p_addeq E q P)) 0) as [EA|NA].
    + split; [|cbn [fst snd]; rewrite EA; destruct (Z.eqb_spec (pZ q) 0); [contradiction|cbn; lia]].
      split; [auto|]. split; [auto|]. split; [auto|]. left. auto.
    + split.
      * split; [auto|]. split; [|split; [rewrite app_length; cbn [length]; lia|]].
        -- intros i Hi. rewrite app_length in Hi. cbn [length] in Hi. destruct (Nat.eq_dec i (length ms)) as [->|].
           ++ rewrite app_nth2, Nat.sub_diag by lia. cbn [nth]. split; [auto|]. split; [auto|]. intros _. rewrite <- SM. now rewrite aff_inf.
           ++ rewrite app_nth1 by lia. apply M. lia.
        -- right. split; [auto|]. now rewrite last_last.
      * cbn [fst snd]. rewrite app_length. cbn [length]. destruct (Z.eqb_spec (pZ q) 0); [contradiction|]. destruct (Z.eqb_spec (pZ (p_addeq E q P)) 0); [contradiction|]. lia.
  - split; [auto|]. split; [|split; [cbn [length]; lia|right; auto]].
    intros i Hi. cbn [length] in Hi. destruct i as [|[|]]; [| |lia]; cbn [nth emul].
    + split; [apply inf_val|]. split; [reflexivity|lia].
    + rewrite eadd_inf_r. split; [auto|]. split; [auto|]. intros _. now rewrite aff_inf.
  - cbn [fst snd length]. destruct (_ =? _); cbn; lia.
  - destruct r as [q ms]. destruct HPost as ((V & M & L & Q) & HX).
    rewrite Er, bind_Ok. exists (if pZ q =? 0 then Z.of_nat (length ms) else -1), ms. split; [reflexivity|]. split; [auto|]. split; [lia|].
    destruct (Z.eqb_spec (pZ q) 0) as [EQ|NQ].
    + destruct Q as [[_ Q]|[Q _]]; [|contradiction]. split; [|lia]. intros _. split; [reflexivity|]. apply is_order_aff; [auto|].
      split; [lia|]. rewrite Nat2Z.id. split; [rewrite <- Q; now apply aff_inf|].
      intros j Hj. apply (M j); lia.
    + destruct Q as [[Q _]|[_ Q]]; [contradiction|]. split; [lia|]. intros _. split; [reflexivity|]. rewrite <- Q. destruct HX as [HX|[HX|HX]]; [contradiction|auto|auto].
Qed.
End OnE.
