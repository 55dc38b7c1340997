(** gr1prime, grprimes and egr_subgroup (egr.cc 252-482): the new list spans the
    subgroup of good reduction and the value returned is the index. *)
From Coq Require Import ZArith Znumtheory List Bool Lia.
From Verif Require Import Base ArithModel ArithProofs MArithModel MArithProofs GrpModel GrpLib EgrModel EgrSpec EgrImage EgrProofs.
Import ListNotations.
Open Scope Z_scope.

(** a loop with a bound that is not in the state *)
Lemma while_ghost {S R} (step : S -> res (S + R)) (Inv : Z -> S -> Prop) (Post : R -> Prop) :
  (forall k s, Inv k s -> 0 <= k /\ ((exists r, step s = Ok (inr r) /\ Post r) \/ (exists s', step s = Ok (inl s') /\ Inv (k - 1) s'))) ->
  forall n k s, Inv k s -> k < 2 ^ Z.of_nat n -> exists r, while step n s = Ok r /\ Post r.
Proof.
  intros ST. assert (RAW : forall n k s, Inv k s -> (exists r, while_raw step n s = Ok (inr r) /\ Post r) \/ (exists s', while_raw step n s = Ok (inl s') /\ Inv (k - 2 ^ Z.of_nat n) s')).
  { induction n as [|n IH]; intros k s I; cbn [while_raw]; [apply ST, I|].
    destruct (IH k s I) as [(r & -> & P)|(s' & -> & I')]; [left; eauto|].
    destruct (IH _ s' I') as [(r & -> & P)|(s2 & -> & I2)]; [left; eauto|]. right. exists s2. split; [reflexivity|].
    rewrite Nat2Z.inj_succ, Z.pow_succ_r by lia. replace (k - 2 * 2 ^ Z.of_nat n) with (k - 2 ^ Z.of_nat n - 2 ^ Z.of_nat n) by ring. exact I2. }
  intros n k s I K. unfold while. destruct (RAW n k s I) as [(r & -> & P)|(s' & -> & I')]; [eauto|]. exfalso. destruct (ST _ _ I') as [H _]. lia.
Qed.

Section S.
Variable g : grp.
Hypothesis GG : is_grp g.
Notation "P +' Q" := (gadd g P Q) (at level 50, left associativity).
Notation "P -' Q" := (gadd g P (gneg g Q)) (at level 50, left associativity).
Notation "0'" := (gz g).
Notation pt := (pt g).
Notation span := (span g).
Notation mul := (mul g).
Notation subgroup := (subgroup g).

Lemma hom_0 n phi : hom g n phi -> (n | phi 0').
Proof.
  intros H. specialize (H 0' 0'). rewrite (g0l g GG) in H. replace (phi 0') with (- (phi 0' - (phi 0' + phi 0'))) by ring. apply Z.divide_opp_r, H.
Qed.
Lemma hom_mul n phi : hom g n phi -> forall k X, (n | phi (mul k X) - k * phi X).
Proof.
  intros H k X. revert k. apply Z.peano_ind.
  - rewrite (mul_0 g). rewrite Z.mul_0_l, Z.sub_0_r. apply hom_0, H.
  - intros k IH. unfold Z.succ. rewrite (mul_succ g GG). replace (phi (mul k X +' X) - (k + 1) * phi X) with ((phi (mul k X +' X) - (phi (mul k X) + phi X)) + (phi (mul k X) - k * phi X)) by ring.
    apply Z.divide_add_r; [apply H|exact IH].
  - intros k IH. assert (E : mul k X = mul (Z.pred k) X +' X) by (rewrite <- (mul_succ g GG); f_equal; lia). rewrite E in IH.
    replace (phi (mul (Z.pred k) X) - Z.pred k * phi X) with ((phi (mul (Z.pred k) X +' X) - k * phi X) - (phi (mul (Z.pred k) X +' X) - (phi (mul (Z.pred k) X) + phi X))) by (unfold Z.pred; ring).
    apply Z.divide_sub_r; [exact IH|apply H].
Qed.
Lemma hom_neg n phi X : hom g n phi -> (n | phi (gneg g X) + phi X).
Proof.
  intros H. pose proof (hom_mul n phi H (-1) X) as M. assert (EM : mul (-1) X = gneg g X) by (change (-1) with (- (1)); rewrite (mul_neg g GG), (mul_1 g GG); reflexivity). rewrite EM in M. replace (phi (gneg g X) + phi X) with (phi (gneg g X) - -1 * phi X) by ring. exact M.
Qed.
Lemma hom_sub n phi X Y : hom g n phi -> (n | phi (X -' Y) - (phi X - phi Y)).
Proof.
  intros H. pose proof (H X (gneg g Y)) as A. pose proof (hom_neg n phi Y H) as B.
  replace (phi (X -' Y) - (phi X - phi Y)) with ((phi (X -' Y) - (phi X + phi (gneg g Y))) + (phi (gneg g Y) + phi Y)) by ring. apply Z.divide_add_r; assumption.
Qed.
Lemma hom_ker n phi : hom g n phi -> subgroup (fun X => (n | phi X)).
Proof.
  intros H. split; [apply hom_0, H|]. split.
  - intros X Y A B. replace (phi (X +' Y)) with ((phi (X +' Y) - (phi X + phi Y)) + (phi X + phi Y)) by ring. apply Z.divide_add_r; [apply H|apply Z.divide_add_r; assumption].
  - intros k X A. replace (phi (mul k X)) with ((phi (mul k X) - k * phi X) + k * phi X) by ring. apply Z.divide_add_r; [apply hom_mul, H|apply Z.divide_mul_r, A].
Qed.
Lemma sub_ext (S T : el g -> Prop) : (forall X, S X <-> T X) -> subgroup S -> subgroup T.
Proof. intros E (A & B & C). split; [apply E, A|]. split; intros; apply E; [apply B|apply C]; apply E; assumption. Qed.
Lemma sub_and (S T : el g -> Prop) : subgroup S -> subgroup T -> subgroup (fun X => S X /\ T X).
Proof. intros (A & B & C) (A' & B' & C'). split; [auto|]. split; intros; intuition auto. Qed.

(** two points replaced by combinations of them *)
Lemma span_two L j A' B' : (1 <= j < length L)%nat ->
  (exists a b, A' = mul a (pt L 0) +' mul b (pt L j)) -> (exists a b, B' = mul a (pt L 0) +' mul b (pt L j)) ->
  (exists a b, pt L 0 = mul a A' +' mul b B') -> (exists a b, pt L j = mul a A' +' mul b B') ->
  forall X, span L X <-> span (lset j B' (lset 0 A' L)) X.
Proof.
  intros J HA HB H0 H1. set (L' := lset j B' (lset 0 A' L)).
  assert (LL : length L' = length L) by (unfold L'; rewrite !lset_len; reflexivity).
  assert (PN : forall i, pt L' i = if Nat.eqb i j then B' else if Nat.eqb i 0 then A' else pt L i).
  { intros i. unfold L'. rewrite (pt_lset g) by (rewrite lset_len; lia). rewrite (pt_lset g) by lia. reflexivity. }
  assert (CB : forall L U V a b, span L U -> span L V -> span L (mul a U +' mul b V)).
  { intros M U V a b SU SV. destruct (span_sub g GG M) as (_ & AD & ML). auto. }
  assert (SA : span L' A') by (replace A' with (pt L' 0); [apply (span_pt g GG); lia|]; rewrite PN; destruct (Nat.eqb_spec 0 j); [lia|reflexivity]).
  assert (SB : span L' B') by (replace B' with (pt L' j); [apply (span_pt g GG); lia|]; rewrite PN, Nat.eqb_refl; reflexivity).
  apply (span_eq g GG).
  - intros i I. destruct (Nat.eq_dec i j) as [->|NJ]; [destruct H1 as (a & b & ->); apply CB; assumption|].
    destruct (Nat.eq_dec i 0) as [->|N0]; [destruct H0 as (a & b & ->); apply CB; assumption|].
    replace (pt L i) with (pt L' i); [apply (span_pt g GG); lia|]. rewrite PN. destruct (Nat.eqb_spec i j); [lia|]. destruct (Nat.eqb_spec i 0); [lia|reflexivity].
  - intros i I. rewrite PN. assert (S0 : span L (pt L 0)) by (apply (span_pt g GG); lia). assert (SJ : span L (pt L j)) by (apply (span_pt g GG); lia).
    destruct (Nat.eqb_spec i j); [destruct HB as (a & b & ->); apply CB; assumption|].
    destruct (Nat.eqb_spec i 0); [destruct HA as (a & b & ->); apply CB; assumption|]. apply (span_pt g GG). lia.
Qed.

Variable good : Z -> el g -> bool.
Variable im_Im : Z -> Z -> el g -> Z.

Section P.
Variable p : Z.
Definition Good (X : el g) : Prop := good p X = true.

Lemma same_comp (SG : subgroup Good) P Q : InSameComponent g good P Q p = true <-> Good (P -' Q).
Proof.
  unfold InSameComponent. destruct (geq g P Q) eqn:E; [|reflexivity]. apply (g_eq g GG) in E. subst Q. rewrite (gnr g GG). split; intros _; [apply SG|reflexivity].
Qed.

(** last step: the first point is multiplied by its order *)
Lemma last_one (SG : subgroup Good) L m : (1 <= length L)%nat -> 1 <= m -> (forall k, Good (mul k (pt L 0)) <-> (m | k)) ->
  (forall i, (1 <= i < length L)%nat -> Good (pt L i)) ->
  (forall X, span (lset 0 (mul m (pt L 0)) L) X <-> span L X /\ Good X) /\ idx g (span L) (fun X => span L X /\ Good X) m.
Proof.
  intros LL M OM GR. destruct L as [|P L]; [cbn in LL; lia|]. cbn [pt nth] in *. change (pt (P :: L) 0) with P in *.
  assert (GL : forall Y, span L Y -> Good Y).
  { apply (span_min g); [exact SG|]. apply (in_pt g). intros i I. apply (GR (S i)). cbn [length]. lia. }
  destruct (SG) as (G0 & GA & GM).
  assert (KEY : forall c Y, span L Y -> (Good (mul c P +' Y) <-> (m | c))).
  { intros c Y SY. rewrite <- OM. split; intros H; [|apply GA; [exact H|apply GL, SY]].
    pose proof (sub_sub g GG Good _ _ SG H (GL Y SY)) as H1. rewrite <- (ga g GG), (gnr g GG), (g0r g GG) in H1. exact H1. }
  split.
  - intros X. cbn [lset]. rewrite !(span_cons g GG). split.
    + intros (c & Y & SY & ->). split.
      * exists (c * m), Y. split; [exact SY|]. rewrite (mul_mul g GG). reflexivity.
      * rewrite <- (mul_mul g GG). apply KEY; [exact SY|]. apply Z.divide_factor_r.
    + intros [(c & Y & SY & ->) H]. apply KEY in H; [|exact SY]. destruct H as [q ->]. exists q, Y. split; [exact SY|]. rewrite (mul_mul g GG). reflexivity.
  - replace m with (m * 1) by ring. apply (idx_two g GG) with (A := P) (B := 0'); try lia.
    + apply sub_and; [apply (span_sub g GG)|exact SG].
    + intros a b. rewrite (mul_g0 g GG). apply (span_cons g GG). exists a, 0'. split; [apply (span_sub g GG)|reflexivity].
    + intros a b. rewrite (mul_g0 g GG). rewrite KEY by apply (span_sub g GG). split; [intros [_ H]; split; [exact H|apply Z.divide_1_l]|intros [H _]; split; [|exact H]].
      apply (span_cons g GG). exists a, 0'. split; [apply (span_sub g GG)|reflexivity].
    + intros X SX. apply (span_cons g GG) in SX. destruct SX as (c & Y & SY & ->). exists c, 0. rewrite (mul_g0 g GG), (g0r g GG).
      replace (mul c P +' Y -' mul c P) with Y.
      * split; [|apply GL, SY]. apply (span_cons g GG). exists 0, Y. split; [exact SY|]. rewrite (mul_0 g), (g0l g GG). reflexivity.
      * rewrite (gc g GG (mul c P) Y), <- (ga g GG), (gnr g GG), (g0r g GG). reflexivity.
Qed.

(** *** The cyclic case *)
Section Cyc.
Variables (n : Z) (phi : el g -> Z).
Hypothesis N1 : 1 <= n.
Hypothesis HH : hom g n phi.
Hypothesis GP : forall X, good p X = true <-> (n | phi X).
Hypothesis IM : 5 <= n -> forall X, (n | im_Im p n X - phi X).

Lemma cyc_sub : subgroup Good.
Proof. apply (sub_ext (fun X => (n | phi X))); [intros X; symmetry; apply GP|apply hom_ker, HH]. Qed.
Lemma gcd_cong x y : (n | x - y) -> Z.gcd n x = Z.gcd n y.
Proof. intros [q Q]. replace x with (y + q * n) by lia. apply Z.gcd_add_mult_diag_r. Qed.
Notation ord X := (OrderInComponentGroup g good im_Im X p [n]).
Lemma gcd_image X : Z.gcd n (ImageInComponentGroup g good im_Im X p [n]) = Z.gcd n (phi X).
Proof.
  cbn [ImageInComponentGroup]. destruct (Z.eqb_spec n 1) as [->|Nn1]; [rewrite !Z.gcd_1_l; reflexivity|].
  destruct ((n =? 2) || (n =? 3)) eqn:N23.
  - assert (PR : prime n) by (apply orb_true_iff in N23; rewrite !Z.eqb_eq in N23; destruct N23 as [->| ->]; [apply prime_2|apply prime_3]).
    destruct (good p X) eqn:GX.
    + apply GP in GX. rewrite Z.gcd_0_r. destruct GX as [q ->]. rewrite Z.mul_comm, Z.gcd_mul_diag_l by lia. lia.
    + rewrite Z.gcd_1_r. symmetry. apply Zgcd_1_rel_prime. apply prime_rel_prime; [exact PR|]. intros D. apply GP in D. congruence.
  - apply orb_false_iff in N23. destruct N23 as [N2 N3]. apply Z.eqb_neq in N2, N3.
    destruct (Z.eqb_spec n 4) as [N4|N4].
    + destruct (good p X) eqn:GX.
      * apply GP in GX. rewrite Z.gcd_0_r. destruct GX as [q ->]. rewrite Z.mul_comm, Z.gcd_mul_diag_l by lia. lia.
      * rewrite (pt_mul_ok g GG). destruct (good p (mul 2 X)) eqn:G2.
        -- apply GP in G2. pose proof (hom_mul n phi HH 2 X) as M. assert (D : (n | 2 * phi X)).
           { replace (2 * phi X) with (phi (mul 2 X) - (phi (mul 2 X) - 2 * phi X)) by ring. apply Z.divide_sub_r; assumption. }
           destruct D as [q D]. rewrite N4 in *. assert (E : phi X = 2 * q) by lia. rewrite E. change 4 with (2 * 2) at 2. rewrite Z.gcd_mul_mono_l_nonneg by lia.
           assert (OQ : ~ (2 | q)). { intros [r R]. assert (F : good p X = true) by (apply GP; exists r; lia). congruence. }
           replace (Z.gcd 2 q) with 1; [reflexivity|]. symmetry. apply Zgcd_1_rel_prime. apply prime_rel_prime; [apply prime_2|exact OQ].
        -- rewrite Z.gcd_1_r. assert (OX : ~ (2 | phi X)).
           { intros [q Q]. assert (F : good p (mul 2 X) = true); [|congruence]. apply GP. pose proof (hom_mul n phi HH 2 X) as M.
             replace (phi (mul 2 X)) with ((phi (mul 2 X) - 2 * phi X) + 2 * phi X) by ring. apply Z.divide_add_r; [exact M|]. rewrite N4, Q. exists q. ring. }
           symmetry. rewrite N4. apply Zgcd_1_rel_prime. change 4 with (2 * 2). apply rel_prime_sym. apply rel_prime_mult; apply rel_prime_sym; apply prime_rel_prime; auto using prime_2.
    + apply gcd_cong. apply IM. lia.
Qed.
Lemma ord_spec X : 1 <= ord X /\ Z.gcd n (phi X) * ord X = n /\ forall k, Good (mul k X) <-> (ord X | k).
Proof.
  unfold OrderInComponentGroup. rewrite gcd_image. pose proof (Z.gcd_nonneg n (phi X)) as G0.
  assert (GN : Z.gcd n (phi X) <> 0) by (intros F; apply Z.gcd_eq_0_l in F; lia). set (d := Z.gcd n (phi X)) in *.
  destruct (Z.gcd_divide_l n (phi X)) as [o O]. destruct (Z.gcd_divide_r n (phi X)) as [f F]. fold d in O, F.
  replace (Z.quot n d) with o by (rewrite O; symmetry; apply Z.quot_mul; exact GN).
  split; [clear - O N1 G0 GN; nia|]. split; [lia|]. intros k. unfold Good. rewrite GP. pose proof (hom_mul n phi HH k X) as M.
  assert (C1 : rel_prime o f).
  { apply Zgcd_1_rel_prime. assert (H : Z.gcd (o * d) (f * d) = Z.gcd o f * d) by (rewrite Z.gcd_mul_mono_r_nonneg by lia; reflexivity).
    rewrite <- O, <- F in H. fold d in H. clear - H G0 GN. nia. }
  transitivity (n | k * phi X).
  - split; intros H.
    + replace (k * phi X) with (phi (mul k X) - (phi (mul k X) - k * phi X)) by ring. apply Z.divide_sub_r; assumption.
    + replace (phi (mul k X)) with ((phi (mul k X) - k * phi X) + k * phi X) by ring. apply Z.divide_add_r; assumption.
  - rewrite F, O. replace (k * (f * d)) with (k * f * d) by ring. split; intros H.
    + apply Z.mul_divide_cancel_r in H; [|exact GN]. rewrite Z.mul_comm in H. apply (Gauss o f k); assumption.
    + apply Z.mul_divide_mono_r. apply Z.divide_mul_l, H.
Qed.
Lemma ord_le X : ord X <= n.
Proof. destruct (ord_spec X) as (A & B & _). apply Z.divide_pos_le; [lia|]. exists (Z.gcd n (phi X)). symmetry. exact B. Qed.
Lemma ord_char X m : 1 <= m -> (forall k, Good (mul k X) <-> (m | k)) -> ord X = m.
Proof.
  intros M H. destruct (ord_spec X) as (A & _ & B). apply Z.divide_antisym_nonneg; try lia.
  - apply B, H, Z.divide_refl.
  - apply H, B, Z.divide_refl.
Qed.
Lemma ord_eq1 X : ord X = 1 <-> Good X.
Proof.
  destruct (ord_spec X) as (A & _ & B). rewrite <- (mul_1 g GG X) at 2. rewrite B. split; [intros ->; apply Z.divide_refl|intros H; apply Z.divide_1_r in H; lia].
Qed.

Lemma sub_loop P0 P1 : (ord P1 | ord P0) -> exists s, while (sub_step g good p P0) (zfuel n) P1 = Ok (P1 -' mul s P0) /\ Good (P1 -' mul s P0).
Proof.
  intros D. destruct (ord_spec P0) as (A0 & B0 & _). destruct (ord_spec P1) as (A1 & B1 & _).
  destruct (solve_mod n (phi P0) (phi P1)) as (t & T & E); [lia| |].
  { destruct D as [q D]. rewrite D in B0. assert (E : Z.gcd n (phi P1) = q * Z.gcd n (phi P0)) by (clear - B0 B1 A1; nia).
    apply Z.divide_trans with (Z.gcd n (phi P1)); [rewrite E; apply Z.divide_factor_r|apply Z.gcd_divide_r]. }
  assert (GT : Good (P1 -' mul t P0)).
  { apply GP. pose proof (hom_sub n phi P1 (mul t P0) HH) as S1. pose proof (hom_mul n phi HH t P0) as S2.
    replace (phi (P1 -' mul t P0)) with ((phi (P1 -' mul t P0) - (phi P1 - phi (mul t P0))) + (phi P1 - t * phi P0) - (phi (mul t P0) - t * phi P0)) by ring.
    apply Z.divide_sub_r; [apply Z.divide_add_r|]; assumption. }
  destruct (while_ghost (sub_step g good p P0) (fun k X => 0 <= k /\ X = P1 -' mul (t - k) P0) (fun X => exists s, X = P1 -' mul s P0 /\ Good X))
    with (n := zfuel n) (k := t) (s := P1) as (X & E1 & s & -> & E2).
  - intros k X [K ->]. split; [exact K|]. unfold sub_step. destruct (good p (P1 -' mul (t - k) P0)) eqn:GX.
    + left. eexists. split; [reflexivity|]. exists (t - k). split; [reflexivity|exact GX].
    + right. eexists. split; [reflexivity|]. split.
      * destruct (Z.eq_dec k 0) as [->|]; [|lia]. rewrite Z.sub_0_r in GX. unfold Good in GT. congruence.
      * replace (t - (k - 1)) with (t - k + 1) by ring. rewrite (mul_succ g GG), (gnadd g GG), (ga g GG). reflexivity.
  - split; [lia|]. rewrite Z.sub_diag, (mul_0 g), (gneg0 g GG), (g0r g GG). reflexivity.
  - pose proof (zfuel_gt n). lia.
  - exists s. auto.
Qed.

Lemma u_loop Q0 Q1 : Z.gcd n (phi Q0) = Z.gcd n (phi Q1) ->
  exists u, while (u_step g good p n Q0 Q1) (zfuel n) (1, Q0) = Ok u /\ 1 <= u <= n /\ Z.gcd u n = 1 /\ Good (mul u Q0 -' Q1).
Proof.
  intros E. destruct (unit_factor n (phi Q0) (phi Q1) ltac:(lia) E) as (t & T & TG & TD).
  assert (GT : Good (mul t Q0 -' Q1)).
  { apply GP. pose proof (hom_sub n phi (mul t Q0) Q1 HH) as S1. pose proof (hom_mul n phi HH t Q0) as S2.
    replace (phi (mul t Q0 -' Q1)) with ((phi (mul t Q0 -' Q1) - (phi (mul t Q0) - phi Q1)) + (t * phi Q0 - phi Q1) + (phi (mul t Q0) - t * phi Q0)) by ring.
    apply Z.divide_add_r; [apply Z.divide_add_r|]; assumption. }
  destruct (while_total (u_step g good p n Q0 Q1) (fun s => 1 <= fst s <= t /\ snd s = mul (fst s) Q0)
    (fun u => 1 <= u <= n /\ Z.gcd u n = 1 /\ Good (mul u Q0 -' Q1)) (fun s => t - fst s)) with (n := zfuel n) (s := (1, Q0)) as (u & E1 & E2).
  - intros s [A _]. lia.
  - intros [u Q] [U EQ]. cbn [fst snd] in U, EQ |- *. subst Q. cbn [u_step].
    destruct (Z.ltb_spec 1 (Z.gcd u n)) as [GU|GU]; cbn [orb].
    { right. eexists. split; [reflexivity|]. cbn [fst snd]. split; [|lia]. split; [|rewrite (mul_succ g GG); reflexivity].
      assert (u <> t) by (intros ->; lia). lia. }
    destruct (InSameComponent g good (mul u Q0) Q1 p) eqn:IC; cbn [negb].
    + left. exists u. split; [reflexivity|]. split; [lia|]. split; [|apply same_comp; [apply cyc_sub|exact IC]].
      pose proof (Z.gcd_nonneg u n). assert (Z.gcd u n <> 0) by (intros F; apply Z.gcd_eq_0_r in F; lia). lia.
    + right. eexists. split; [reflexivity|]. cbn [fst snd]. split; [|lia]. split; [|rewrite (mul_succ g GG); reflexivity].
      assert (u <> t); [|lia]. intros ->. apply (same_comp cyc_sub) in GT. congruence.
  - cbn [fst snd]. split; [lia|]. rewrite (mul_1 g GG). reflexivity.
  - cbn [fst]. pose proof (zfuel_gt n). lia.
  - exists u. auto.
Qed.

(** one turn *)
Definition cinv (L0 : list (el g)) (j : nat) (s : list (el g) * Z) : Prop :=
  length (fst s) = length L0 /\ (forall X, span L0 X <-> span (fst s) X) /\
  (forall i, (1 <= i < j)%nat -> Good (pt (fst s) i)) /\ snd s = ord (pt (fst s) 0).

Lemma pair_turn A B : n * n <= max32 -> 
  exists A' B' m', cy_pair g good p n A B (ord A) (ord B) (ord A)
    = Ok (A', B', m') /\ Good B' /\ m' = ord A' /\
    (exists a b, A' = mul a A +' mul b B) /\ (exists a b, B' = mul a A +' mul b B) /\
    (exists a b, A = mul a A' +' mul b B') /\ (exists a b, B = mul a A' +' mul b B').
Proof.
  intros NM. destruct (ord_spec A) as (A1 & A2 & A3). destruct (ord_spec B) as (B1 & B2 & B3). pose proof (ord_le A) as AL. pose proof (ord_le B) as BL.
  unfold cy_pair. destruct (Z.eqb_spec (Z.rem (ord A) (ord B)) 0) as [R|R].
  - destruct (sub_loop A B) as (s & -> & GS). { apply Z.rem_divide; [lia|exact R]. } rewrite bind_Ok.
    exists A, (B -' mul s A), (ord A). split; [reflexivity|]. split; [exact GS|]. split; [reflexivity|].
    split; [exists 1, 0; rewrite (mul_1 g GG), (mul_0 g), (g0r g GG); reflexivity|].
    split; [exists (- s), 1; rewrite (mul_1 g GG), (mul_neg g GG); apply (gc g GG)|].
    split; [exists 1, 0; rewrite (mul_1 g GG), (mul_0 g), (g0r g GG); reflexivity|].
    exists s, 1. rewrite (mul_1 g GG), (gc g GG), <- (ga g GG), (gnl g GG), (g0r g GG). reflexivity.
  - set (n0 := ord A) in *. set (n1 := ord B) in *. cbv zeta. set (h := Z.gcd n0 n1).
    assert (H0 : 1 <= h). { pose proof (Z.gcd_nonneg n0 n1). assert (h <> 0); [|unfold h in *; lia]. intros F. apply Z.gcd_eq_0_l in F. lia. }
    destruct (Z.gcd_divide_l n0 n1) as [x Hx]. destruct (Z.gcd_divide_r n0 n1) as [y Hy]. fold h in Hx, Hy.
    replace (Z.quot n0 h) with x by (rewrite Hx; symmetry; apply Z.quot_mul; lia).
    replace (Z.quot n1 h) with y by (rewrite Hy; symmetry; apply Z.quot_mul; lia).
    rewrite !(pt_mul_ok g GG).
    assert (X0 : 1 <= x) by (clear - Hx A1 H0; nia). assert (Y0 : 1 <= y) by (clear - Hy B1 H0; nia).
    assert (QO : forall P o z, ord P = o -> o = z * h -> 1 <= z -> Z.gcd n (phi (mul z P)) * h = n).
    { intros P o z EO Eo Ez. destruct (ord_spec (mul z P)) as (C1 & C2 & C3). rewrite <- C2 at 2. f_equal. symmetry. apply ord_char; [lia|].
      intros k. rewrite <- (mul_mul g GG). destruct (ord_spec P) as (_ & _ & D3). rewrite D3, EO, Eo. rewrite (Z.mul_comm z h).
      apply (Z.mul_divide_cancel_r h k z). lia. }
    destruct (u_loop (mul x A) (mul y B)) as (u & -> & U & UG & UD).
    { pose proof (QO A n0 x eq_refl Hx X0) as E1. pose proof (QO B n1 y eq_refl Hy Y0) as E2. clear - E1 E2 H0. nia. }
    rewrite bind_Ok. assert (UN : 0 < u * n0 <= n * n) by (split; [apply Z.mul_pos_pos; lia|apply Z.mul_le_mono_nonneg; lia]). unfold max32 in NM.
    replace (mul64 u n0) with (Ok (u * n0)).
    2: { symmetry. unfold mul64, c64, in64b. destruct (Z.leb_spec min64 (u * n0)) as [_|F]; [destruct (Z.leb_spec (u * n0) max64) as [_|F]; [reflexivity|unfold max64 in F; lia]|unfold min64 in F; lia]. }
    rewrite bind_Ok. assert (NN : n <= n * n) by (clear - N1; nia).
    destruct (bezout_long_ok (u * n0) n1) as (a & b & -> & BZ & _); [unfold sym64, max64; lia|unfold sym64, max64; lia|].
    assert (GH : Z.gcd (u * n0) n1 = h).
    { unfold h. apply Z.gcd_unique; [apply Z.gcd_nonneg| | |].
      - apply Z.divide_mul_r, Z.gcd_divide_l.
      - apply Z.gcd_divide_r.
      - intros q Q1 Q2. apply Z.gcd_greatest; [|exact Q2]. apply Gauss with u; [exact Q1|].
        apply rel_prime_div with n; [apply Zgcd_1_rel_prime; rewrite Z.gcd_comm; exact UG|].
        apply Z.divide_trans with n1; [exact Q2|]. exists (Z.gcd n (phi B)). symmetry. exact B2. }
    rewrite GH in *. rewrite bind_Ok. cbv beta iota.
    replace (mul32 n0 n1) with (Ok (n0 * n1)).
    2: { symmetry. assert (0 < n0 * n1 <= n * n) by (split; [apply Z.mul_pos_pos; lia|apply Z.mul_le_mono_nonneg; lia]). unfold mul32, c32, in32b.
         destruct (Z.leb_spec min32 (n0 * n1)) as [_|F]; [destruct (Z.leb_spec (n0 * n1) max32) as [_|F]; [reflexivity|unfold max32 in F; lia]|unfold min32 in F; lia]. }
    rewrite bind_Ok. rewrite !(pt_mul_ok g GG).
    replace (Z.quot (- (u * n0)) h) with (- (u * x)) by (rewrite Hx; replace (- (u * (x * h))) with (- (u * x) * h) by ring; symmetry; apply Z.quot_mul; lia).
    replace (Z.quot n1 h) with y by (rewrite Hy; symmetry; apply Z.quot_mul; lia).
    replace (Z.quot (n0 * n1) h) with (n0 * y) by (rewrite Hy; replace (n0 * (y * h)) with (n0 * y * h) by ring; symmetry; apply Z.quot_mul; lia).
    set (A' := mul b A +' mul a B). set (B' := mul (- (u * x)) A +' mul y B).
    assert (DET : u * x * a + y * b = 1). { rewrite Hx, Hy in BZ. clear - BZ H0. nia. }
    assert (LIN : forall c d e f k l, mul k (mul c A +' mul d B) +' mul l (mul e A +' mul f B) = mul (k * c + l * e) A +' mul (k * d + l * f) B).
    { intros. rewrite !(mul_gadd g GG), <- !(mul_mul g GG), (gswap g GG), <- !(mul_add g GG). reflexivity. }
    assert (EA : A = mul y A' +' mul (- a) B').
    { unfold A', B'. rewrite LIN. replace (y * b + - a * - (u * x)) with 1 by (rewrite <- DET; ring). replace (y * a + - a * y) with 0 by ring. rewrite (mul_1 g GG), (mul_0 g), (g0r g GG). reflexivity. }
    assert (EB : B = mul (u * x) A' +' mul b B').
    { unfold A', B'. rewrite LIN. replace (u * x * b + b * - (u * x)) with 0 by ring. replace (u * x * a + b * y) with 1 by (rewrite <- DET; ring). rewrite (mul_1 g GG), (mul_0 g), (g0l g GG). reflexivity. }
    assert (GB : Good B').
    { unfold B'. apply (sub_neg g GG Good _ cyc_sub) in UD. rewrite (gnadd g GG), (gnn g GG) in UD. rewrite <- (mul_mul g GG), <- (mul_neg g GG) in UD. exact UD. }
    exists A', B', (n0 * y). split; [reflexivity|]. split; [exact GB|]. split.
    + symmetry. apply ord_char; [clear - A1 Y0; nia|]. destruct cyc_sub as (_ & GA & GM). intros k. split; intros H.
      * assert (D0 : (n0 | k)). { apply A3. rewrite EA, (mul_gadd g GG), <- !(mul_mul g GG). apply GA; [rewrite Z.mul_comm, (mul_mul g GG)|]; apply GM; assumption. }
        assert (D1 : (n1 | k)). { apply B3. rewrite EB, (mul_gadd g GG), <- !(mul_mul g GG). apply GA; [rewrite Z.mul_comm, (mul_mul g GG)|]; apply GM; assumption. }
        destruct D0 as [q Q]. rewrite Q. rewrite (Z.mul_comm q). apply Z.mul_divide_mono_l.
        rewrite Q, Hx, Hy in D1. replace (q * (x * h)) with (x * q * h) in D1 by ring. apply Z.mul_divide_cancel_r in D1; [|lia].
        apply Gauss with x; [exact D1|]. apply rel_prime_sym. apply Zgcd_1_rel_prime.
        assert (E : Z.gcd (x * h) (y * h) = Z.gcd x y * h) by (rewrite Z.gcd_mul_mono_r_nonneg by lia; reflexivity). rewrite <- Hx, <- Hy in E. fold h in E. clear - E H0. nia.
      * unfold A'. rewrite (mul_gadd g GG), <- !(mul_mul g GG). apply GA; [apply A3|apply B3]; apply Z.divide_mul_l; (eapply Z.divide_trans; [|exact H]).
        -- apply Z.divide_factor_l.
        -- rewrite Hx, Hy. exists x. ring.
    + split; [exists b, a; reflexivity|]. split; [exists (- (u * x)), y; reflexivity|]. split; [exists y, (- a); exact EA|exists (u * x), b; exact EB].
Qed.

Lemma cy_turn_ok L0 j s : n * n <= max32 -> (1 <= j < length L0)%nat -> cinv L0 j s ->
  exists s', cy_turn g good im_Im p n j s = Ok s' /\ cinv L0 (S j) s'.
Proof.
  intros NM J. destruct s as [L m]. intros (LL & SP & GD & Em). cbn [fst snd] in *. unfold cy_turn.
  destruct (Z.eqb_spec (ord (pt L j)) 1) as [O1|O1].
  { exists (L, m). split; [reflexivity|]. split; [exact LL|]. split; [exact SP|]. split; [|exact Em]. intros i I. cbn [fst].
    destruct (Nat.eq_dec i j) as [->|]; [apply ord_eq1, O1|apply GD; lia]. }
  assert (FIN : forall A B A' B' m', (A = pt L 0 /\ B = pt L j \/ A = pt L j /\ B = pt L 0) -> Good B' -> m' = ord A' ->
    (exists a b, A' = mul a A +' mul b B) -> (exists a b, B' = mul a A +' mul b B) ->
    (exists a b, A = mul a A' +' mul b B') -> (exists a b, B = mul a A' +' mul b B') ->
    cinv L0 (S j) (lset j B' (lset 0 A' L), m')).
  { intros A B A' B' m' AB GB Em' CA CB CA' CB'.
    assert (PN : forall i, pt (lset j B' (lset 0 A' L)) i = if Nat.eqb i j then B' else if Nat.eqb i 0 then A' else pt L i).
    { intros i. rewrite (pt_lset g) by (rewrite lset_len; lia). rewrite (pt_lset g) by lia. reflexivity. }
    split; [cbn [fst]; rewrite !lset_len; exact LL|]. split.
    - intros X. cbn [fst]. rewrite SP. apply span_two; [lia| | | |]; destruct AB as [[-> ->]|[-> ->]]; auto.
      + destruct CA as (a & b & ->). exists b, a. apply (gc g GG).
      + destruct CB as (a & b & ->). exists b, a. apply (gc g GG).
    - cbn [fst snd]. split.
      + intros i I. rewrite PN. destruct (Nat.eqb_spec i j); [exact GB|]. destruct (Nat.eqb_spec i 0); [lia|]. apply GD. lia.
      + rewrite PN. destruct (Nat.eqb_spec 0 j); [lia|]. exact Em'. }
  rewrite Em. clear m Em. destruct (Z.ltb_spec (ord (pt L 0)) (ord (pt L j))).
  - destruct (pair_turn (pt L j) (pt L 0) NM) as (A' & B' & m' & -> & GB & Em' & CA & CB & CA' & CB'). rewrite bind_Ok.
    eexists. split; [reflexivity|]. apply (FIN (pt L j) (pt L 0)); auto.
  - destruct (pair_turn (pt L 0) (pt L j) NM) as (A' & B' & m' & -> & GB & Em' & CA & CB & CA' & CB'). rewrite bind_Ok.
    eexists. split; [reflexivity|]. apply (FIN (pt L 0) (pt L j)); auto.
Qed.

Lemma cy_loop_ok L0 k : n * n <= max32 -> forall j s, (1 <= j)%nat -> (j + k = length L0)%nat -> cinv L0 j s ->
  exists s', cy_loop g good im_Im p n (seq j k) s = Ok s' /\ cinv L0 (length L0) s'.
Proof.
  intros NM. induction k as [|k IH]; intros j s J JK C; cbn [seq cy_loop].
  - exists s. split; [reflexivity|]. replace (length L0) with j by lia. exact C.
  - destruct (cy_turn_ok L0 j s NM ltac:(lia) C) as (s1 & -> & C1). rewrite bind_Ok. apply IH; [lia|lia|exact C1].
Qed.
End Cyc.

(** *** The non-cyclic case *)
Lemma span_repl L k Y : (k < length L)%nat -> span L Y -> span (lset k (pt L k -' Y) L) Y -> forall X, span L X <-> span (lset k (pt L k -' Y) L) X.
Proof.
  intros K S1 S2. set (L' := lset k (pt L k -' Y) L) in *. assert (LL : length L' = length L) by apply lset_len.
  assert (PN : forall i, pt L' i = if Nat.eqb i k then pt L k -' Y else pt L i) by (intros i; apply (pt_lset g); exact K).
  assert (SK : span L' (pt L k -' Y)) by (replace (pt L k -' Y) with (pt L' k); [apply (span_pt g GG); lia|rewrite PN, Nat.eqb_refl; reflexivity]).
  apply (span_eq g GG).
  - intros i I. destruct (Nat.eq_dec i k) as [->|N].
    + destruct (span_sub g GG L') as (_ & AD & _). replace (pt L k) with (pt L k -' Y +' Y); [apply AD; assumption|]. rewrite <- (ga g GG), (gnl g GG), (g0r g GG). reflexivity.
    + replace (pt L i) with (pt L' i); [apply (span_pt g GG); lia|]. rewrite PN. destruct (Nat.eqb_spec i k); [contradiction|reflexivity].
  - intros i I. rewrite PN. destruct (Nat.eqb_spec i k).
    + apply (sub_sub g GG); [apply (span_sub g GG)|apply (span_pt g GG); exact K|exact S1].
    + apply (span_pt g GG). lia.
Qed.
Lemma span_swap L i k : (i < k < length L)%nat -> forall X, span L X <-> span (lset i (pt L k) (lset k (pt L i) L)) X.
Proof.
  intros I. set (L' := lset i (pt L k) (lset k (pt L i) L)). assert (LL : length L' = length L) by (unfold L'; rewrite !lset_len; reflexivity).
  assert (PN : forall j, pt L' j = if Nat.eqb j i then pt L k else if Nat.eqb j k then pt L i else pt L j).
  { intros j. unfold L'. rewrite (pt_lset g) by (rewrite lset_len; lia). rewrite (pt_lset g) by lia. reflexivity. }
  apply (span_eq g GG).
  - intros j J. destruct (Nat.eq_dec j i) as [->|N].
    + replace (pt L i) with (pt L' k); [apply (span_pt g GG); lia|]. rewrite PN. destruct (Nat.eqb_spec k i); [lia|]. rewrite Nat.eqb_refl. reflexivity.
    + destruct (Nat.eq_dec j k) as [->|N'].
      * replace (pt L k) with (pt L' i); [apply (span_pt g GG); lia|]. rewrite PN, Nat.eqb_refl. reflexivity.
      * replace (pt L j) with (pt L' j); [apply (span_pt g GG); lia|]. rewrite PN. destruct (Nat.eqb_spec j i); [lia|]. destruct (Nat.eqb_spec j k); [lia|reflexivity].
  - intros j J. rewrite PN. destruct (Nat.eqb_spec j i); [apply (span_pt g GG); lia|]. destruct (Nat.eqb_spec j k); apply (span_pt g GG); lia.
Qed.

Section NC.
Variables phi1 phi2 : el g -> Z.
Hypothesis HH1 : hom g 2 phi1.
Hypothesis HH2 : hom g 2 phi2.
Hypothesis GP2 : forall X, good p X = true <-> (2 | phi1 X) /\ (2 | phi2 X).

Lemma nc_sub : subgroup Good.
Proof. apply (sub_ext (fun X => (2 | phi1 X) /\ (2 | phi2 X))); [intros X; symmetry; apply GP2|apply sub_and; apply hom_ker; assumption]. Qed.
Lemma odd_div x : (2 | x) <-> Z.odd x = false.
Proof. split; [intros [q ->]; rewrite Z.mul_comm, Z.odd_mul; reflexivity|]. intros H. pose proof (Zdiv2_odd_eqn x) as E. rewrite H in E. exists (Z.div2 x). lia. Qed.
Lemma odd_cong x y : (2 | x - y) -> Z.odd x = Z.odd y.
Proof. intros D. apply odd_div in D. rewrite Z.odd_sub in D. destruct (Z.odd x), (Z.odd y); cbn in D; congruence. Qed.
Definition par (X : el g) : bool * bool := (Z.odd (phi1 X), Z.odd (phi2 X)).
Definition pxor (a b : bool * bool) : bool * bool := (xorb (fst a) (fst b), xorb (snd a) (snd b)).
Lemma par_add X Y : par (X +' Y) = pxor (par X) (par Y).
Proof. unfold par, pxor. cbn [fst snd]. f_equal; (erewrite odd_cong; [apply Z.odd_add|]); [apply HH1|apply HH2]. Qed.
Lemma par_sub X Y : par (X -' Y) = pxor (par X) (par Y).
Proof. unfold par, pxor. cbn [fst snd]. f_equal; (erewrite odd_cong; [apply Z.odd_sub|]); apply hom_sub; assumption. Qed.
Lemma par_good X : Good X <-> par X = (false, false).
Proof. unfold Good. rewrite GP2, !odd_div. unfold par. split; [intros [-> ->]; reflexivity|intros E; injection E as -> ->; auto]. Qed.
Lemma good_dec X : good p X = false <-> par X <> (false, false).
Proof. destruct (good p X) eqn:E; split; intros H; try discriminate; try (exfalso; apply H; apply par_good; exact E); [|reflexivity]. intros F. apply par_good in F. unfold Good in F. congruence. Qed.
Lemma par_0 : par 0' = (false, false).
Proof. apply par_good. apply nc_sub. Qed.
Lemma par_mul k X : par (mul k X) = if Z.odd k then par X else (false, false).
Proof.
  unfold par. rewrite (odd_cong _ _ (hom_mul 2 phi1 HH1 k X)), (odd_cong _ _ (hom_mul 2 phi2 HH2 k X)), !Z.odd_mul. destruct (Z.odd k); reflexivity.
Qed.
Lemma isc P Q : InSameComponent g good P Q p = true <-> par P = par Q.
Proof.
  rewrite (same_comp nc_sub), par_good, par_sub. destruct (par P) as [[] []], (par Q) as [[] []]; cbn [pxor fst snd xorb]; split; intros H; (reflexivity || discriminate H).
Qed.
Lemma isc_f P Q : InSameComponent g good P Q p = false <-> par P <> par Q.
Proof. rewrite <- isc. destruct (InSameComponent g good P Q p); split; congruence. Qed.

Definition ninv (L0 : list (el g)) (k : nat) (s : list (el g) * nat * el g) : Prop :=
  let '(L, logm, Third) := s in
  length L = length L0 /\ (forall X, span L0 X <-> span L X) /\
  ((logm = 0%nat /\ forall i, (i < k)%nat -> par (pt L i) = (false, false)) \/
   (logm = 1%nat /\ (1 <= k)%nat /\ par (pt L 0) <> (false, false) /\ forall i, (1 <= i < k)%nat -> par (pt L i) = (false, false)) \/
   (logm = 2%nat /\ (2 <= k)%nat /\ par (pt L 0) <> (false, false) /\ par (pt L 1) <> (false, false) /\ par (pt L 0) <> par (pt L 1) /\ Third = pt L 0 +' pt L 1 /\
      forall i, (2 <= i < k)%nat -> par (pt L i) = (false, false))).

Lemma nc_turn_ok L0 k s : (k < length L0)%nat -> ninv L0 k s -> exists s', nc_turn g good im_Im p k s = Some s' /\ ninv L0 (S k) s'.
Proof.
  intros K. destruct s as [[L logm] Third]. intros (LL & SP & ALT). cbn [nc_turn OrderInComponentGroup].
  assert (SK : forall Y, span L Y -> span (lset k (pt L k -' Y) L) Y -> forall X, span L0 X <-> span (lset k (pt L k -' Y) L) X).
  { intros Y S1 S2 X. rewrite SP. apply span_repl; [lia|exact S1|exact S2]. }
  assert (PL : forall Z i, pt (lset k Z L) i = if Nat.eqb i k then Z else pt L i) by (intros Z0 i; apply (pt_lset g); lia).
  assert (SO : forall Z i, (i < length L)%nat -> i <> k -> span (lset k Z L) (pt L i)).
  { intros Z0 i I N. replace (pt L i) with (pt (lset k Z0 L) i); [apply (span_pt g GG); rewrite lset_len; exact I|]. rewrite PL. destruct (Nat.eqb_spec i k); [contradiction|reflexivity]. }
  destruct (good p (pt L k)) eqn:GK; cbn [Z.rem Z.quotrem negb Z.eqb Pos.eqb].
  { change (Z.rem 2 1 =? 0) with true. cbn [negb]. exists (L, logm, Third). split; [reflexivity|]. split; [exact LL|]. split; [exact SP|].
    apply par_good in GK. destruct ALT as [[E A]|[(E & K1 & B & A)|(E & K2 & B & B1 & D & T & A)]]; [left|right; left|right; right]; repeat split; auto; try lia;
      intros i I; destruct (Nat.eq_dec i k) as [->|]; auto; apply A; lia. }
  change (Z.rem 2 2 =? 0) with true. cbn [negb]. apply good_dec in GK.
  destruct ALT as [[-> A]|[(-> & K1 & B & A)|(-> & K2 & B & B1 & D & -> & A)]].
  - (* first generator *)
    eexists. split; [reflexivity|]. destruct (Nat.ltb_spec 0 k) as [K0|K0].
    + assert (PN : forall j, pt (lset 0 (pt L k) (lset k (pt L 0) L)) j = if Nat.eqb j 0 then pt L k else if Nat.eqb j k then pt L 0 else pt L j).
      { intros j. rewrite (pt_lset g) by (rewrite lset_len; lia). rewrite (pt_lset g) by lia. reflexivity. }
      split; [rewrite !lset_len; exact LL|]. split; [intros X; rewrite SP; apply span_swap; lia|]. right; left. split; [reflexivity|]. split; [lia|].
      split; [rewrite PN; exact GK|]. intros i I. rewrite PN. destruct (Nat.eqb_spec i 0); [lia|]. destruct (Nat.eqb_spec i k); apply A; lia.
    + split; [exact LL|]. split; [exact SP|]. right; left. assert (k = 0)%nat by lia. subst k. repeat split; auto. intros i I. lia.
  - destruct (InSameComponent g good (pt L k) (pt L 0) p) eqn:IC.
    + apply isc in IC. eexists. split; [reflexivity|]. split; [rewrite lset_len; exact LL|].
      split; [apply SK; [apply (span_pt g GG); lia|apply SO; lia]|]. right; left. split; [reflexivity|]. split; [lia|].
      split; [rewrite PL; destruct (Nat.eqb_spec 0 k); [lia|exact B]|].
      intros i I. rewrite PL. destruct (Nat.eqb_spec i k); [|apply A; lia]. rewrite par_sub, IC. destruct (par (pt L 0)) as [[] []]; reflexivity.
    + apply isc_f in IC. eexists. split; [reflexivity|]. destruct (Nat.ltb_spec 1 k) as [K0|K0].
      * assert (PN : forall j, pt (lset 1 (pt L k) (lset k (pt L 1) L)) j = if Nat.eqb j 1 then pt L k else if Nat.eqb j k then pt L 1 else pt L j).
        { intros j. rewrite (pt_lset g) by (rewrite lset_len; lia). rewrite (pt_lset g) by lia. reflexivity. }
        split; [rewrite !lset_len; exact LL|]. split; [intros X; rewrite SP; apply span_swap; lia|]. right; right. split; [reflexivity|]. split; [lia|].
        assert (E0 : pt (lset 1 (pt L k) (lset k (pt L 1) L)) 0 = pt L 0) by (rewrite PN; destruct (Nat.eqb_spec 0 k); [lia|reflexivity]).
        assert (E1 : pt (lset 1 (pt L k) (lset k (pt L 1) L)) 1 = pt L k) by (rewrite PN; reflexivity).
        rewrite E0, E1. repeat split; auto. intros i I. rewrite PN. destruct (Nat.eqb_spec i 1); [lia|]. destruct (Nat.eqb_spec i k); apply A; lia.
      * assert (k = 1)%nat by lia. subst k. split; [exact LL|]. split; [exact SP|]. right; right. repeat split; auto. intros i I. lia.
  - destruct (InSameComponent g good (pt L k) (pt L 0) p) eqn:IC0; [|destruct (InSameComponent g good (pt L k) (pt L 1) p) eqn:IC1].
    + apply isc in IC0. eexists. split; [reflexivity|]. split; [rewrite lset_len; exact LL|]. split; [apply SK; [apply (span_pt g GG); lia|apply SO; lia]|]. right; right.
      assert (E0 : pt (lset k (pt L k -' pt L 0) L) 0 = pt L 0) by (rewrite PL; destruct (Nat.eqb_spec 0 k); [lia|reflexivity]).
      assert (E1 : pt (lset k (pt L k -' pt L 0) L) 1 = pt L 1) by (rewrite PL; destruct (Nat.eqb_spec 1 k); [lia|reflexivity]).
      rewrite E0, E1. repeat (split; [solve [auto|lia]|]). intros i I. rewrite PL. destruct (Nat.eqb_spec i k); [|apply A; lia]. rewrite par_sub, IC0. destruct (par (pt L 0)) as [[] []]; reflexivity.
    + apply isc in IC1. eexists. split; [reflexivity|]. split; [rewrite lset_len; exact LL|]. split; [apply SK; [apply (span_pt g GG); lia|apply SO; lia]|]. right; right.
      assert (E0 : pt (lset k (pt L k -' pt L 1) L) 0 = pt L 0) by (rewrite PL; destruct (Nat.eqb_spec 0 k); [lia|reflexivity]).
      assert (E1 : pt (lset k (pt L k -' pt L 1) L) 1 = pt L 1) by (rewrite PL; destruct (Nat.eqb_spec 1 k); [lia|reflexivity]).
      rewrite E0, E1. repeat (split; [solve [auto|lia]|]). intros i I. rewrite PL. destruct (Nat.eqb_spec i k); [|apply A; lia]. rewrite par_sub, IC1. destruct (par (pt L 1)) as [[] []]; reflexivity.
    + apply isc_f in IC0, IC1.
      assert (EQ : par (pt L k) = par (pt L 0 +' pt L 1)).
      { rewrite par_add. destruct (par (pt L k)) as [[] []], (par (pt L 0)) as [[] []], (par (pt L 1)) as [[] []]; cbn; try reflexivity; congruence. }
      rewrite (proj2 (isc (pt L k) (pt L 0 +' pt L 1)) EQ). eexists. split; [reflexivity|]. split; [rewrite lset_len; exact LL|].
      split; [apply SK; [apply (span_sub g GG); apply (span_pt g GG); lia|apply (span_sub g GG); apply SO; lia]|]. right; right.
      assert (E0 : pt (lset k (pt L k -' (pt L 0 +' pt L 1)) L) 0 = pt L 0) by (rewrite PL; destruct (Nat.eqb_spec 0 k); [lia|reflexivity]).
      assert (E1 : pt (lset k (pt L k -' (pt L 0 +' pt L 1)) L) 1 = pt L 1) by (rewrite PL; destruct (Nat.eqb_spec 1 k); [lia|reflexivity]).
      rewrite E0, E1. repeat (split; [solve [auto|lia]|]). intros i I. rewrite PL. destruct (Nat.eqb_spec i k); [|apply A; lia]. rewrite par_sub, EQ. destruct (par (pt L 0 +' pt L 1)) as [[] []]; reflexivity.
Qed.
Lemma nc_loop_ok L0 n : forall k s, (k + n = length L0)%nat -> ninv L0 k s -> exists s', nc_loop g good im_Im p (seq k n) s = Some s' /\ ninv L0 (length L0) s'.
Proof.
  induction n as [|n IH]; intros k s K I; cbn [seq nc_loop].
  - exists s. split; [reflexivity|]. replace (length L0) with k by lia. exact I.
  - destruct (nc_turn_ok L0 k s ltac:(lia) I) as (s1 & -> & I1). apply IH; [lia|exact I1].
Qed.

Lemma gr1_nc_ok L : exists L' m, gr1_noncyclic g good im_Im L p = Some (L', m) /\ length L' = length L /\
  (forall X, span L' X <-> span L X /\ Good X) /\ idx g (span L) (fun X => span L X /\ Good X) m.
Proof.
  unfold gr1_noncyclic. destruct (nc_loop_ok L (length L) 0 (L, 0%nat, 0') eq_refl) as ([[L1 logm] T] & -> & LL & SP & ALT).
  { split; [reflexivity|]. split; [reflexivity|]. left. split; [reflexivity|]. intros i I. lia. }
  assert (RW : forall L' m, (length L' = length L1 /\ (forall X, span L' X <-> span L1 X /\ Good X) /\ idx g (span L1) (fun X => span L1 X /\ Good X) m) ->
     length L' = length L /\ (forall X, span L' X <-> span L X /\ Good X) /\ idx g (span L) (fun X => span L X /\ Good X) m).
  { intros L' m (A & B & C). split; [lia|]. split; [intros X; rewrite SP; apply B|]. revert C. apply (idx_ext g); intros X; rewrite SP; reflexivity. }
  destruct ALT as [[-> A]|[(-> & K1 & B & A)|(-> & K2 & B & B1 & D & -> & A)]]; cbn [Nat.ltb Nat.leb].
  - exists L1, 1. split; [reflexivity|]. apply RW. split; [reflexivity|].
    assert (AG : forall X, span L1 X -> Good X). { apply (span_min g); [apply nc_sub|]. apply (in_pt g). intros i I. apply par_good, A. lia. }
    split; [intros X; split; [auto|tauto]|]. exists [0']. split; [reflexivity|]. split; [repeat constructor; apply (span_sub g GG)|]. split; [repeat constructor|].
    intros X SX. exists 0'. split; [left; reflexivity|]. rewrite (gneg0 g GG), (g0r g GG). auto.
  - exists (lset 0 (pt_mul g 2 (pt L1 0)) L1), 2. split; [reflexivity|]. rewrite (pt_mul_ok g GG). apply RW. split; [apply lset_len|].
    apply last_one; [apply nc_sub|lia|lia| |].
    + intros k. rewrite par_good, par_mul, odd_div. destruct (Z.odd k); split; congruence.
    + intros i I. apply par_good, A. lia.
  - exists (lset 1 (pt_mul g 2 (pt (lset 0 (pt_mul g 2 (pt L1 0)) L1) 1)) (lset 0 (pt_mul g 2 (pt L1 0)) L1)), 4. split; [reflexivity|]. rewrite !(pt_mul_ok g GG). apply RW. split; [rewrite !lset_len; reflexivity|].
    destruct L1 as [|P [|Q R]]; [cbn in LL; lia|cbn in LL; lia|]. cbn [lset pt nth EgrModel.pt] in *. unfold EgrModel.pt in *. cbn [nth] in *.
    assert (GR : forall Y, span R Y -> par Y = (false, false)).
    { intros Y SY. apply par_good. revert Y SY. apply (span_min g); [apply nc_sub|]. apply (in_pt g). intros i I. apply par_good. apply (A (S (S i))). rewrite <- LL. cbn [length]. lia. }
    assert (KEY : forall a b Y, span R Y -> (Good (mul a P +' (mul b Q +' Y)) <-> (2 | a) /\ (2 | b))).
    { intros a b Y SY. rewrite par_good, !par_add, !par_mul, (GR Y SY), !odd_div.
      clear - B B1 D. destruct (par P) as [[] []], (par Q) as [[] []]; try (exfalso; solve [apply B; reflexivity|apply B1; reflexivity|apply D; reflexivity]); destruct (Z.odd a), (Z.odd b); cbn [pxor fst snd xorb];
        (split; [intros E; solve [discriminate E|split; reflexivity]|intros [E F]; solve [discriminate E|discriminate F|reflexivity]]). }
    assert (IN : forall a b Y, span R Y -> span (P :: Q :: R) (mul a P +' (mul b Q +' Y))).
    { intros a b Y SY. apply (span_cons g GG). exists a, (mul b Q +' Y). split; [|reflexivity]. apply (span_cons g GG). exists b, Y. auto. }
    assert (S0 : span R 0') by apply (span_sub g GG).
    split.
    + intros X. split.
      * intros H. apply (span_cons g GG) in H. destruct H as (a & Y & SY & ->). apply (span_cons g GG) in SY. destruct SY as (b & Z0 & SZ & ->).
        rewrite <- !(mul_mul g GG). split; [apply IN, SZ|]. apply KEY; [exact SZ|]. split; apply Z.divide_factor_r.
      * intros [H GX]. apply (span_cons g GG) in H. destruct H as (a & Y & SY & ->). apply (span_cons g GG) in SY. destruct SY as (b & Z0 & SZ & ->).
        apply KEY in GX; [|exact SZ]. destruct GX as [[a' ->] [b' ->]]. apply (span_cons g GG). exists a', (mul (b' * 2) Q +' Z0). split; [|rewrite (mul_mul g GG); reflexivity].
        apply (span_cons g GG). exists b', Z0. split; [exact SZ|]. rewrite (mul_mul g GG). reflexivity.
    + change 4 with (2 * 2). apply (idx_two g GG) with (A := P) (B := Q); try lia.
      * apply sub_and; [apply (span_sub g GG)|apply nc_sub].
      * intros a b. rewrite <- (g0r g GG (mul b Q)). apply IN, S0.
      * intros a b. rewrite <- (g0r g GG (mul b Q)). rewrite KEY by exact S0. split; [tauto|]. intros H. split; [apply IN, S0|exact H].
      * intros X SX. apply (span_cons g GG) in SX. destruct SX as (a & Y & SY & ->). apply (span_cons g GG) in SY. destruct SY as (b & Z0 & SZ & ->).
        exists a, b. replace (mul a P +' (mul b Q +' Z0) -' (mul a P +' mul b Q)) with Z0.
        -- split; [|apply par_good, GR, SZ]. pose proof (IN 0 0 Z0 SZ) as H. rewrite !(mul_0 g), !(g0l g GG) in H. exact H.
        -- rewrite (ga g GG), (gc g GG (mul a P +' mul b Q) Z0), <- (ga g GG), (gnr g GG), (g0r g GG). reflexivity.
Qed.
End NC.
End P.

(** ** All primes *)
Variable cg : Z -> list Z.
Definition comp_ok (p : Z) : Prop := component_map g (good p) (im_Im p) (cg p) /\ (forall n, cg p = [n] -> n * n <= max32).

Lemma comp_sub p : comp_ok p -> subgroup (Good p).
Proof.
  intros [[(n & phi & _ & N & H & GP & _)|(f1 & f2 & _ & H1 & H2 & GP)] _].
  - exact (cyc_sub p n phi H GP).
  - exact (nc_sub p f1 f2 H1 H2 GP).
Qed.

Theorem gr1prime_ok L p : comp_ok p -> exists L' m, gr1prime g good im_Im cg L p = Ok (L', m) /\ length L' = length L /\
  (forall X, span L' X <-> span L X /\ Good p X) /\ idx g (span L) (fun X => span L X /\ Good p X) m.
Proof.
  intros CO. pose proof (comp_sub p CO) as SG. destruct CO as [CM NM].
  assert (TRIV : (forall X, span L X -> Good p X) -> (forall X, span L X <-> span L X /\ Good p X) /\ idx g (span L) (fun X => span L X /\ Good p X) 1).
  { intros AG. split; [intros X; split; [auto|tauto]|]. exists [0']. split; [reflexivity|]. split; [repeat constructor; apply (span_sub g GG)|]. split; [repeat constructor|].
    intros X SX. exists 0'. split; [left; reflexivity|]. rewrite (gneg0 g GG), (g0r g GG). auto. }
  destruct L as [|P0 L1].
  { exists [], 1. split; [reflexivity|]. split; [reflexivity|]. apply TRIV. intros X [cs ->]. destruct cs; apply SG. }
  set (L := P0 :: L1) in *. unfold gr1prime. unfold L at 1. cbv beta iota.
  destruct CM as [(n & phi & EC & N & H & GP & IM)|(f1 & f2 & EC & H1 & H2 & GP)]; rewrite EC.
  - destruct (Z.eqb_spec n 1) as [E1|E1].
    { exists L, 1. split; [reflexivity|]. split; [reflexivity|]. apply TRIV. intros X _. apply GP. rewrite E1. apply Z.divide_1_l. }
    destruct (cy_loop_ok p n phi N H GP IM L (length L - 1) (NM n EC) 1 (L, OrderInComponentGroup g good im_Im P0 p [n])) as ([L2 m] & E & LL & SP & GD & Em).
    { lia. } { unfold L; cbn [length]; lia. } { split; [reflexivity|]. split; [reflexivity|]. split; [intros i I; lia|reflexivity]. }
    cbn [fst snd] in *. rewrite E, bind_Ok. rewrite (pt_mul_ok g GG).
    exists (lset 0 (mul m (pt L2 0)) L2), m. split; [reflexivity|]. split; [rewrite lset_len; exact LL|].
    destruct (ord_spec p n phi N H GP IM (pt L2 0)) as (O1 & _ & O3). rewrite <- Em in O1, O3.
    destruct (last_one p SG L2 m) as [A B]; [rewrite LL; unfold L; cbn; lia|exact O1|exact O3|intros i I; apply GD; lia|].
    split; [intros X; rewrite SP; apply A|]. revert B. apply (idx_ext g); intros X; rewrite SP; reflexivity.
  - destruct (gr1_nc_ok p f1 f2 H1 H2 GP L) as (L' & m & -> & R). exists L', m. split; [reflexivity|exact R].
Qed.

Definition all_good (ps : list Z) (X : el g) : Prop := forall p, In p ps -> good p X = true.
Lemma all_good_sub ps : (forall p, In p ps -> comp_ok p) -> subgroup (all_good ps).
Proof.
  intros H. split; [|split].
  - intros p I. apply (comp_sub p (H p I)).
  - intros X Y A B p I. apply (comp_sub p (H p I)); [apply A|apply B]; exact I.
  - intros n X A p I. apply (comp_sub p (H p I)). apply A, I.
Qed.
Lemma grprimes_from_ok ps : forall L m, (forall p, In p ps -> comp_ok p) -> exists L' N, grprimes_from g good im_Im cg L m ps = Ok (L', m * N) /\ length L' = length L /\
  (forall X, span L' X <-> span L X /\ all_good ps X) /\ idx g (span L) (fun X => span L X /\ all_good ps X) N.
Proof.
  induction ps as [|p ps IH]; intros L m H; cbn [grprimes_from].
  - exists L, 1. rewrite Z.mul_1_r. split; [reflexivity|]. split; [reflexivity|]. assert (AG : forall X, all_good [] X) by (intros X q []).
    split; [intros X; split; [auto|tauto]|]. exists [0']. split; [reflexivity|]. split; [repeat constructor; apply (span_sub g GG)|]. split; [repeat constructor|].
    intros X SX. exists 0'. split; [left; reflexivity|]. rewrite (gneg0 g GG), (g0r g GG). auto.
  - destruct (gr1prime_ok L p (H p (or_introl eq_refl))) as (L1 & m1 & -> & LL & SP & ID). rewrite bind_Ok.
    destruct (IH L1 (m * m1)) as (L2 & N & -> & LL2 & SP2 & ID2); [intros q I; apply H; right; exact I|].
    assert (AG : forall X, all_good (p :: ps) X <-> good p X = true /\ all_good ps X).
    { intros X. split; [intros A; split; [apply A; left; reflexivity|intros q I; apply A; right; exact I]|intros [A B] q [<-|I]; auto]. }
    exists L2, (m1 * N). split; [do 2 f_equal; ring|]. split; [lia|]. split.
    + intros X. rewrite SP2, SP, AG. unfold Good. tauto.
    + apply (idx_mul g GG) with (T := fun X => span L X /\ Good p X).
      * apply (span_sub g GG).
      * apply sub_and; [apply (span_sub g GG)|apply comp_sub, H; left; reflexivity].
      * apply sub_and; [apply (span_sub g GG)|apply all_good_sub, H].
      * tauto.
      * intros X. rewrite AG. unfold Good. tauto.
      * exact ID.
      * revert ID2. apply (idx_ext g); intros X; rewrite SP; [reflexivity|]. rewrite AG. unfold Good. tauto.
Qed.
Theorem grprimes_ok ps L : (forall p, In p ps -> comp_ok p) -> exists L' N, grprimes g good im_Im cg L ps = Ok (L', N) /\ length L' = length L /\
  (forall X, span L' X <-> span L X /\ all_good ps X) /\ idx g (span L) (fun X => span L X /\ all_good ps X) N.
Proof.
  intros H. destruct (grprimes_from_ok ps L 1 H) as (L' & N & E & R). exists L', N. unfold grprimes. rewrite E, Z.mul_1_l. auto.
Qed.
Theorem egr_subgroup_ok bad cc real_too L : (forall p, In p (if real_too && (cc =? 2) then bad ++ [0] else bad) -> comp_ok p) ->
  exists L' N, egr_subgroup g good im_Im cg bad cc L real_too = Ok (L', N) /\ length L' = length L /\
  (forall X, span L' X <-> span L X /\ all_good (if real_too && (cc =? 2) then bad ++ [0] else bad) X) /\
  idx g (span L) (fun X => span L X /\ all_good (if real_too && (cc =? 2) then bad ++ [0] else bad) X) N.
Proof.
  intros H. destruct L as [|P L]; [|apply grprimes_ok, H]. exists [], 1. split; [reflexivity|]. split; [reflexivity|].
  assert (AG : forall X, span [] X -> all_good (if real_too && (cc =? 2) then bad ++ [0] else bad) X) by (intros X [cs ->]; destruct cs; apply all_good_sub, H).
  split; [intros X; split; [auto|tauto]|]. exists [0']. split; [reflexivity|]. split; [repeat constructor; apply (span_sub g GG)|]. split; [repeat constructor|].
  intros X SX. exists 0'. split; [left; reflexivity|]. rewrite (gneg0 g GG), (g0r g GG). auto.
Qed.
End S.
