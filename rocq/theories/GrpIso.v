(** Proofs about linear relations and the structure of the group of points. *)
From Coq Require Import ZArith Znumtheory Zpow_facts Lia List Bool Permutation Sorted FinFun.
From Verif Require Import Base RatModel MArithModel MArithProofs GrpModel GrpLib GrpBG GrpProofs.
Import ListNotations.
Open Scope Z_scope.

(** *** Sorting *)
Lemma zins_in x y l : In x (zins y l) <-> x = y \/ In x l.
Proof.
  induction l as [|z l IH]; cbn [zins]; [cbn; intuition|].
  destruct (y <=? z); cbn [In]; [intuition|]. rewrite IH. intuition.
Qed.
Lemma zsort_in x l : In x (zsort l) <-> In x l.
Proof. induction l as [|y l IH]; [reflexivity|]. cbn [zsort fold_right]. rewrite zins_in. change (fold_right zins [] l) with (zsort l). rewrite IH. cbn. intuition. Qed.
Lemma zins_sorted y l : StronglySorted Z.le l -> StronglySorted Z.le (zins y l).
Proof.
  induction 1 as [|z l S IH F]; cbn [zins]; [constructor; [constructor|constructor]|].
  destruct (Z.leb_spec y z).
  - constructor; [constructor; assumption|]. constructor; [assumption|]. eapply Forall_impl; [|exact F]. cbn. intros; lia.
  - constructor; [exact IH|]. apply Forall_forall. intros x X. apply zins_in in X. destruct X as [->|X]; [lia|]. 
    rewrite Forall_forall in F. apply F. exact X.
Qed.
Lemma zsort_sorted l : StronglySorted Z.le (zsort l).
Proof. induction l as [|y l IH]; [constructor|]. cbn [zsort fold_right]. apply zins_sorted. exact IH. Qed.

(** *** Arithmetic *)
Lemma n2list_ok n1 lower upper q : 0 < n1 -> 1 <= lower -> exists ql, n2list n1 lower upper q = Ok ql /\ NoDup ql /\
  forall x, In x ql <-> lower <= n1 * x <= upper /\ (x | Z.gcd n1 (q - 1)).
Proof.
  intros N L. unfold n2list. rewrite !zz_div_ok by lia. rewrite !bind_Ok. cbv zeta.
  set (a := if lower / n1 * n1 <? lower then lower / n1 + 1 else lower / n1).
  assert (A : forall x, a <= x <-> lower <= n1 * x).
  { intros x. unfold a. pose proof (Z.div_mod lower n1 ltac:(lia)) as DM. pose proof (Z.mod_pos_bound lower n1 ltac:(lia)) as MB.
    destruct (Z.ltb_spec (lower / n1 * n1) lower); split; intros H1; nia. }
  assert (B : forall x, x <= upper / n1 <-> n1 * x <= upper).
  { intros x. split; intros H; [|apply Z.div_le_lower_bound; lia]. pose proof (Z.mul_div_le upper n1 N). nia. }
  eexists. split; [reflexivity|]. split.
  - apply NoDup_filter. apply Injective_map_NoDup; [|apply seq_NoDup]. intros i j E. lia.
  - intros x. rewrite filter_In, in_map_iff. split.
    + intros ((k & <- & K) & D). apply in_seq in K. set (x := a + Z.of_nat k) in *.
      assert (X1 : a <= x <= upper / n1) by (unfold x; lia). 
      split; [split; [apply A|apply B]; lia|]. destruct (Z.eqb_spec x 0) as [E|E].
      * apply Z.eqb_eq in D. rewrite D. apply Z.divide_0_r.
      * apply Z.eqb_eq in D. apply Z.mod_divide; assumption.
    + intros ((H1 & H2) & D). apply A in H1. apply B in H2. split.
      * exists (Z.to_nat (x - a)). split; [lia|]. apply in_seq. lia.
      * assert (X0 : x <> 0) by (intros ->; assert (lower <= n1 * 0) by (apply A; exact H1); lia).
        destruct (Z.eqb_spec x 0); [contradiction|]. apply Z.eqb_eq. apply Z.mod_divide; assumption.
Qed.

Section G.
Variable g : grp.
Hypothesis GG : is_grp g.
Notation "P +' Q" := (gadd g P Q) (at level 50, left associativity).
Notation "-' P" := (gneg g P) (at level 35, right associativity).
Notation "0'" := (gz g).
Notation mul := (mul g).
Notation is_order := (is_order g).

(** *** Linear relations *)
Section Rel.
Variables pdivs posdivs : Z -> list Z.
Hypothesis PD : pdivs_spec pdivs.
Hypothesis DV : posdivs_spec posdivs.

Lemma lr_stop P1 Q1 gg dl h a : 0 <= a -> lr_loop g P1 Q1 gg dl h a = Ok (h, a).
Proof. intros H. destruct dl; cbn [lr_loop]; [reflexivity|]. destruct (Z.eqb_spec a (-1)); [lia|reflexivity]. Qed.
Lemma lr_loop_ok P1 Q1 gg : is_order P1 gg -> forall dl h, StronglySorted Z.le dl ->
  (exists d b, In d dl /\ mul d Q1 = mul b P1) ->
  exists d a, lr_loop g P1 Q1 gg dl h (-1) = Ok (d, a) /\ In d dl /\ 0 <= a /\ mul d Q1 = mul a P1 /\
    forall d' b, In d' dl -> mul d' Q1 = mul b P1 -> d <= d'.
Proof.
  intros [G0 O]. induction dl as [|d dl IH]; intros h S (d0 & b0 & I0 & E0); [destruct I0|].
  cbn [lr_loop]. rewrite Z.eqb_refl, (pt_mul_ok g GG). inversion S as [|? ? S' F]; subst.
  destruct (bg_ok g GG P1 (mul d Q1) 0 (gg - 1) ltac:(lia)) as (r & -> & R). rewrite bind_Ok.
  destruct R as [(-> & R)|(R1 & R2 & _)].
  - assert (ND : forall b, mul d Q1 <> mul b P1).
    { intros b E. apply (R (b mod gg)); [pose proof (Z.mod_pos_bound b gg G0); lia|]. rewrite E.
      rewrite Z.mod_eq, (mul_sub g GG) by lia.
      rewrite (proj2 (O (gg * (b / gg)))), (gneg0 g GG), (g0r g GG); [reflexivity|apply Z.divide_factor_l]. }
    destruct (IH d S') as (d1 & a1 & E1 & I1 & A1 & M1 & L1).
    { exists d0, b0. destruct I0 as [<-|I0]; [exfalso; exact (ND b0 E0)|]. split; assumption. }
    exists d1, a1. split; [exact E1|]. split; [right; exact I1|]. split; [exact A1|]. split; [exact M1|].
    intros d' b [<-|I] E; [exfalso; exact (ND b E)|]. exact (L1 d' b I E).
  - exists d, r. split; [apply lr_stop; lia|]. split; [left; reflexivity|]. split; [lia|]. split; [symmetry; exact R2|].
    intros d' b [<-|I] _; [lia|]. rewrite Forall_forall in F. apply F. exact I.
Qed.
Lemma linear_relation_ok q P n Q m : 2 <= q -> hasse_pt g q P -> hasse_pt g q Q -> is_order P n -> is_order Q m ->
  Z.gcd n m <> 1 \/ Q = 0' ->
  exists k a, linear_relation g pdivs posdivs q P Q = Ok (k, a) /\ 0 < k /\ mul k Q = mul a P /\
    forall j b, mul j Q = mul b P -> (k | j).
Proof.
  intros Q2 HP HQ OP OQ CASE. unfold linear_relation.
  destruct (order_point_ok g GG pdivs PD q P Q2 HP) as (n' & -> & OP'). rewrite (order_unique g P n' n OP' OP) in *. clear n' OP'.
  destruct (order_point_ok g GG pdivs PD q Q Q2 HQ) as (m' & -> & OQ'). rewrite (order_unique g Q m' m OQ' OQ) in *. clear m' OQ'.
  rewrite !bind_Ok. cbv zeta. set (gg := Z.gcd n m) in *. pose proof (proj1 OP) as N0. pose proof (proj1 OQ) as M0.
  assert (G0 : 0 < gg).
  { unfold gg. pose proof (Z.gcd_nonneg n m). assert (Z.gcd n m <> 0) by (intros E; apply Z.gcd_eq_0_l in E; lia). lia. }
  destruct (Z.eqb_spec gg 1) as [G1|G1].
  { destruct CASE as [C|C]; [contradiction|]. exists gg, 0. split; [reflexivity|]. rewrite G1, C. split; [lia|].
    split; [rewrite (mul_g0 g GG); reflexivity|]. intros; apply Z.divide_1_l. }
  rewrite !zz_div_ok by lia. rewrite !bind_Ok, !(pt_mul_ok g GG).
  set (n1 := n / gg). set (m1 := m / gg).
  assert (EN : n = n1 * gg) by (symmetry; apply div_mul_cancel; [lia|apply Z.gcd_divide_l]).
  assert (EM : m = m1 * gg) by (symmetry; apply div_mul_cancel; [lia|apply Z.gcd_divide_r]).
  assert (N1 : 0 < n1) by nia. assert (M1 : 0 < m1) by nia.
  assert (O1 : is_order (mul n1 P) gg) by (apply (order_div g GG); [exact N1|]; rewrite <- EN; exact OP).
  assert (O2 : is_order (mul m1 Q) gg) by (apply (order_div g GG); [exact M1|]; rewrite <- EM; exact OQ).
  destruct (lr_loop_ok (mul n1 P) (mul m1 Q) gg O1 (zsort (posdivs gg)) gg (zsort_sorted _)) as (d & a & -> & I & A & E & L).
  { exists gg, 0. split; [apply zsort_in; apply DV; [exact G0|split; [exact G0|apply Z.divide_refl]]|].
    rewrite (mul_0 g). apply O2. apply Z.divide_refl. }
  rewrite bind_Ok. cbv beta iota. apply (proj1 (zsort_in _ _)) in I. apply DV in I; [|exact G0]. destruct I as [D0 DG].
  assert (EQ : mul (d * m1) Q = mul (a * n1) P) by (rewrite !(mul_mul g GG); exact E).
  rewrite !(pt_mul_ok g GG), EQ, (proj2 (g_eq g GG _ _) eq_refl).
  exists (d * m1), (a * n1). split; [reflexivity|]. split; [nia|]. split; [exact EQ|].
  intros j b J.
  assert (K : mul (gg * j) Q = 0').
  { assert (X1 : forall c, Z.gcd n m = c -> mul (c * j) Q = 0'); [|apply X1; reflexivity]. intros c Ec.
    destruct (Z.gcd_bezout n m c Ec) as (u & v & UV). rewrite <- UV, Z.mul_add_distr_r, (mul_add g GG).
    replace (v * m * j) with (v * j * m) by ring. rewrite (proj2 (proj2 OQ (v * j * m))) by apply Z.divide_factor_r.
    replace (u * n * j) with (u * n * j) by ring. rewrite (g0r g GG), (mul_mul g GG), J, <- (mul_mul g GG).
    apply OP. exists (u * b). ring. }
  assert (MJ : (m1 | j)).
  { apply OQ in K. rewrite EM, Z.mul_comm in K. apply Z.mul_divide_cancel_l in K; [exact K|lia]. }
  destruct MJ as [j' ->].
  assert (NB : (n1 | b)).
  { assert (K2 : mul (gg * b) P = 0') by (rewrite (mul_mul g GG), <- J, <- (mul_mul g GG); exact K).
    apply OP in K2. rewrite EN, Z.mul_comm in K2. apply Z.mul_divide_cancel_l in K2; [exact K2|lia]. }
  destruct NB as [b' ->]. rewrite !(mul_mul g GG) in J. apply Z.mul_divide_mono_r.
  (* gcd d j' is also a solution *)
  set (e := Z.gcd d j'). assert (E0 : 0 < e).
  { unfold e. pose proof (Z.gcd_nonneg d j'). assert (Z.gcd d j' <> 0) by (intros X; apply Z.gcd_eq_0_l in X; lia). lia. }
  destruct (Z.gcd_bezout d j' e eq_refl) as (u & v & UV).
  assert (LE : d <= e).
  { apply (L e (u * a + v * b')).
    - apply zsort_in. apply DV; [exact G0|]. split; [exact E0|]. apply Z.divide_trans with d; [apply Z.gcd_divide_l|exact DG].
    - rewrite <- UV, !(mul_add g GG), !(mul_mul g GG), E, J. reflexivity. }
  assert (e = d). { apply Z.divide_antisym_nonneg; try lia; [apply Z.gcd_divide_l|]. pose proof (Z.divide_pos_le e d D0 (Z.gcd_divide_l d j')).
    replace d with e by lia. apply Z.divide_refl. }
  rewrite <- H. apply Z.gcd_divide_r.
Qed.
End Rel.

(** *** Finite groups *)
Definition card (N : Z) : Prop := exists L, NoDup L /\ (forall X : el g, In X L) /\ N = Z.of_nat (length L).
Definition gsum (L : list (el g)) : el g := fold_right (gadd g) 0' L.
Lemma gsum_perm L L' : Permutation L L' -> gsum L = gsum L'.
Proof.
  induction 1 as [|x l l' _ IH|x y l|l1 l2 l3 _ IH1 _ IH2]; cbn [gsum fold_right].
  - reflexivity.
  - unfold gsum in IH. rewrite IH. reflexivity.
  - rewrite !(ga g GG), (gc g GG y x). reflexivity.
  - congruence.
Qed.
Lemma gsum_shift X L : gsum (map (gadd g X) L) = mul (Z.of_nat (length L)) X +' gsum L.
Proof.
  induction L as [|y L IH]; cbn [map gsum fold_right length].
  - change (Z.of_nat 0) with 0. rewrite (mul_0 g), (g0l g GG). reflexivity.
  - unfold gsum in IH. rewrite IH, Nat2Z.inj_succ, <- Z.add_1_r, (mul_succ g GG).
    rewrite (gswap g GG), (gc g GG X). reflexivity.
Qed.
Lemma lagrange N X : card N -> mul N X = 0'.
Proof.
  intros (L & ND & ALL & ->). apply (gcan g GG (gsum L)). rewrite (g0r g GG), (gc g GG), <- gsum_shift.
  apply gsum_perm. apply Permutation_sym, NoDup_Permutation; [exact ND| |].
  - apply Injective_map_NoDup; [|exact ND]. intros x y E. apply (gcan g GG X). exact E.
  - intros x. split; intros _; [|apply ALL]. apply in_map_iff. exists (-' X +' x). split; [|apply ALL].
    rewrite (ga g GG), (gnr g GG), (g0l g GG). reflexivity.
Qed.

(** P1, P2 of orders n1, n2 are a basis *)
Definition is_basis (P1 : el g) (n1 : Z) (P2 : el g) (n2 : Z) : Prop :=
  is_order P1 n1 /\ is_order P2 n2 /\ (n2 | n1) /\
  (forall a b, mul a P1 +' mul b P2 = 0' -> (n1 | a) /\ (n2 | b)) /\
  (forall X, exists a b, X = mul a P1 +' mul b P2).

Lemma span_list P1 n1 P2 n2 : 0 < n1 -> 0 < n2 -> mul n1 P1 = 0' -> mul n2 P2 = 0' ->
  (forall a b, mul a P1 +' mul b P2 = 0' -> (n1 | a) /\ (n2 | b)) ->
  exists M, NoDup M /\ Z.of_nat (length M) = n1 * n2 /\ (forall X, In X M <-> exists a b, X = mul a P1 +' mul b P2).
Proof.
  intros N1 N2 K1 K2 IN.
  set (prs := list_prod (seq 0 (Z.to_nat n1)) (seq 0 (Z.to_nat n2))).
  set (f := fun ij : nat * nat => mul (Z.of_nat (fst ij)) P1 +' mul (Z.of_nat (snd ij)) P2).
  assert (NDP : NoDup prs).
  { unfold prs. assert (GEN : forall (l1 l2 : list nat), NoDup l1 -> NoDup l2 -> NoDup (list_prod l1 l2)).
    { induction l1 as [|x l1 IH]; intros l2 H1 H2; cbn; [constructor|]. inversion H1; subst.
      assert (AUX : forall (A : Type) (u v : list A), NoDup u -> NoDup v -> (forall z, In z u -> ~ In z v) -> NoDup (u ++ v)).
      { intros A u v U V W. induction U as [|z u Z U IHu]; [exact V|]. cbn. constructor.
        - rewrite in_app_iff. intros [X|X]; [contradiction|]. apply (W z); [left; reflexivity|exact X].
        - apply IHu. intros y Y. apply W. right. exact Y. }
      apply AUX.
      - apply Injective_map_NoDup; [|exact H2]. intros i j [= ->]. reflexivity.
      - apply IH; assumption.
      - intros z Z1 Z2. apply in_map_iff in Z1 as (y & <- & _). apply in_prod_iff in Z2 as [Z2 _]. contradiction. }
    apply GEN; apply seq_NoDup. }
  assert (NDF : NoDup (map f prs)).
  { assert (GEN : forall l, NoDup l -> incl l prs -> NoDup (map f l)).
    { induction 1 as [|x l NI NDl IH]; intros I; cbn; [constructor|]. constructor; [|apply IH; intros y Y; apply I; right; exact Y].
      intros X. apply in_map_iff in X as (y & E1 & Y). apply NI. assert (x = y) as ->; [|exact Y].
      assert (X1 : In x prs) by (apply I; left; reflexivity). assert (Y1 : In y prs) by (apply I; right; exact Y).
      destruct x as [i j], y as [i' j']. unfold prs in X1, Y1. apply in_prod_iff in X1 as [A1 A2]. apply in_prod_iff in Y1 as [B1 B2].
      apply in_seq in A1, A2, B1, B2. unfold f in E1. cbn [fst snd] in E1.
      assert (Z0 : mul (Z.of_nat i' - Z.of_nat i) P1 +' mul (Z.of_nat j' - Z.of_nat j) P2 = 0').
      { rewrite !(mul_sub g GG), (gswap g GG), <- (gnadd g GG), E1. apply (gnr g GG). }
      destruct (IN _ _ Z0) as [D1 D2].
      assert (SM : forall n z, 0 < n -> (n | z) -> - n < z < n -> z = 0).
      { intros n z Hn [c ->] Hz. assert (c = 0) by nia. subst c. ring. }
      apply SM in D1; [|lia|lia]. apply SM in D2; [|lia|lia]. f_equal; lia. }
    apply GEN; [exact NDP|intros y Y; exact Y]. }
  exists (map f prs). split; [exact NDF|]. split.
  { unfold prs. rewrite map_length, prod_length, !seq_length, Nat2Z.inj_mul, !Z2Nat.id by lia. reflexivity. }
  intros X. split.
  - intros I. apply in_map_iff in I as ([i j] & <- & _). exists (Z.of_nat i), (Z.of_nat j). reflexivity.
  - intros (a & b & ->). apply in_map_iff. exists (Z.to_nat (a mod n1), Z.to_nat (b mod n2)).
    pose proof (Z.mod_pos_bound a n1 N1). pose proof (Z.mod_pos_bound b n2 N2). split.
    + unfold f. cbn [fst snd]. rewrite !Z2Nat.id by lia. rewrite !Z.mod_eq, !(mul_sub g GG) by lia.
      rewrite (Z.mul_comm n1), (Z.mul_comm n2), !(mul_mul g GG _ n1), !(mul_mul g GG _ n2), K1, K2, !(mul_g0 g GG), (gneg0 g GG), !(g0r g GG). reflexivity.
    + unfold prs. apply in_prod_iff. split; apply in_seq; lia.
Qed.
Lemma basis_of N P1 n1 P2 n2 : card N -> is_order P1 n1 -> 0 < n2 -> mul n2 P2 = 0' -> n1 * n2 = N -> (n2 | n1) ->
  (forall k b, mul k P2 = mul b P1 -> (n2 | k)) -> is_basis P1 n1 P2 n2.
Proof.
  intros C O1 N2 K2 E D IND. pose proof (proj1 O1) as N1.
  assert (O2 : is_order P2 n2).
  { split; [exact N2|]. intros k. split; [intros H; apply (IND k 0); rewrite (mul_0 g); exact H|].
    intros [c ->]. rewrite (mul_mul g GG), K2, (mul_g0 g GG). reflexivity. }
  assert (IN : forall a b, mul a P1 +' mul b P2 = 0' -> (n1 | a) /\ (n2 | b)).
  { intros a b H. assert (B : (n2 | b)).
    { apply (IND b (- a)). rewrite (mul_neg g GG). apply (gneg_u g GG). exact H. }
    split; [|exact B]. apply O1. rewrite (proj2 (proj2 O2 b) B), (g0r g GG) in H. exact H. }
  split; [exact O1|]. split; [exact O2|]. split; [exact D|]. split; [exact IN|].
  destruct C as (L & ND & ALL & EL).
  destruct (span_list P1 n1 P2 n2 N1 N2) as (M & NDM & LM & IM); [apply O1, Z.divide_refl|exact K2|exact IN|].
  assert (INC : incl L M).
  { apply NoDup_length_incl; [exact NDM|lia|intros y _; apply ALL]. }
  intros X. apply IM. apply INC. apply ALL.
Qed.
Lemma basis_card N P1 n1 P2 n2 : card N -> is_basis P1 n1 P2 n2 -> n1 * n2 = N.
Proof.
  intros (L & ND & ALL & ->) (O1 & O2 & _ & IN & SP).
  destruct (span_list P1 n1 P2 n2 (proj1 O1) (proj1 O2)) as (M & NDM & <- & IM); [apply O1, Z.divide_refl|apply O2, Z.divide_refl|exact IN|].
  f_equal. apply Permutation_length. apply NoDup_Permutation; [exact NDM|exact ND|]. intros X. split; intros _; [apply ALL|apply IM, SP].
Qed.
(** *** merge_points_2 *)
(** the order of the Weil pairing of order n of A and B: it is an n-th root of unity, and
    the pairing is bilinear and alternating *)
Definition weil_spec (q : Z) (wpo : Z -> el g -> el g -> Z) : Prop :=
  forall n A B, 0 < n -> (n | q - 1) -> mul n A = 0' -> mul n B = 0' ->
    0 < wpo n A B /\ (wpo n A B | n) /\ forall k b, mul k B = mul b A -> (wpo n A B | k).

Definition inv2 (q N : Z) (P1 : el g) (n1 : Z) (P2 : el g) (n2 quot : Z) : Prop :=
  is_order P1 n1 /\ n1 * quot = N /\ 0 < quot /\ (quot | n1) /\ (quot | q - 1) /\ 0 < n2 /\ mul n2 P2 = 0' /\
  exists t, quot = n2 * t /\ forall k b, mul k P2 = mul b P1 -> exists e, 0 <= e /\ (n2 | k * t ^ e).

Lemma lcm_z_pos a b : 0 < a -> 0 < b -> lcm_z a b = Ok (Z.lcm a b).
Proof.
  intros A B. unfold lcm_z. destruct (Z.eqb_spec a 0); [lia|]. cbn [andb].
  assert (0 < Z.gcd a b).
  { pose proof (Z.gcd_nonneg a b). assert (Z.gcd a b <> 0) by (intros E; apply Z.gcd_eq_0_l in E; lia). lia. }
  rewrite zz_div_ok by lia. rewrite bind_Ok. f_equal. rewrite <- (lcm_prod a b (Z.gcd a b) A B eq_refl).
  symmetry. apply Z.divide_div_mul_exact; [lia|apply Z.gcd_divide_r].
Qed.

Section Iso.
Variables pdivs : Z -> list Z.
Hypothesis PD : pdivs_spec pdivs.
Variable q : Z.
Hypothesis Q2 : 2 <= q.
Variable wpo : Z -> el g -> el g -> Z.
Hypothesis WP : weil_spec q wpo.
Variable N : Z.
Hypothesis CN : card N.
Hypothesis HN : (q + 1 - N) ^ 2 <= 4 * q.

Lemma N_pos : 0 < N.
Proof. destruct CN as (L & _ & ALL & ->). specialize (ALL 0'). destruct L; [destruct ALL|]. cbn [length]. lia. Qed.
Lemma all_hasse X : hasse_pt g q X. Proof. exists N. split; [exact HN|]. apply lagrange. exact CN. Qed.
Lemma order_N X n : is_order X n -> (n | N). Proof. intros O. apply O. apply lagrange. exact CN. Qed.

Lemma merge2_ok P1 n1 P2 n2 quot Q : inv2 q N P1 n1 P2 n2 quot ->
  exists P1' n1' P2' n2' quot', merge2 g pdivs wpo q P1 n1 P2 n2 quot Q = Ok (P1', n1', P2', n2', quot') /\ inv2 q N P1' n1' P2' n2' quot'.
Proof.
  intros I. pose proof I as (O1 & EN & T0 & TD & TQ & N2 & K2 & t & ET & IND). pose proof (proj1 O1) as N1.
  assert (NOP : exists P1' n1' P2' n2' quot', Ok (P1, n1, P2, n2, quot) = Ok (P1', n1', P2', n2', quot') /\ inv2 q N P1' n1' P2' n2' quot').
  { exists P1, n1, P2, n2, quot. split; [reflexivity|exact I]. }
  assert (D2 : (n2 | n1)) by (apply Z.divide_trans with quot; [exists t; rewrite ET; ring|exact TD]).
  unfold merge2. cbv zeta. rewrite !(pt_mul_ok g GG). destruct (is0 g (mul n2 Q)) eqn:Z1; [exact NOP|].
  rewrite zz_div_ok by lia. rewrite bind_Ok, (pt_mul_ok g GG), <- (mul_mul g GG), (div_mul_cancel n1 n2 N2 D2).
  destruct (is0 g (mul n1 Q)) eqn:Z2; cbn [negb].
  - (* the second generator *)
    clear Z1 Z2. rewrite zz_div_ok by lia. rewrite bind_Ok.
    assert (X0 : 0 <= n1 / quot) by (apply Z.div_pos; lia).
    destruct (bg_ok g GG (mul quot P1) (mul quot Q) 0 (n1 / quot) ltac:(lia)) as (a & -> & A). rewrite bind_Ok.
    destruct (Z.eqb_spec a (-1)) as [|NA]; [exact NOP|].
    destruct A as [(-> & _)|(A1 & A2 & _)]; [contradiction|]. rewrite !(pt_mul_ok g GG).
    set (R := Q +' -' mul a P1).
    assert (KR : mul quot R = 0').
    { unfold R. rewrite (mul_gadd g GG), (mul_gneg g GG), <- (mul_mul g GG), (Z.mul_comm quot a), (mul_mul g GG), A2. apply (gnr g GG). }
    destruct (is0 g R); [exact NOP|].
    set (A := mul (n1 / quot) P1).
    assert (KA : mul quot A = 0').
    { unfold A. rewrite <- (mul_mul g GG), Z.mul_comm, div_mul_cancel by assumption. apply O1. apply Z.divide_refl. }
    destruct (WP quot A R T0 TQ KA KR) as (M0 & MD & MI). set (m := wpo quot A R) in *.
    rewrite lcm_z_pos by assumption. rewrite bind_Ok. destruct (Z.eqb_spec (Z.lcm n2 m) n2) as [|LN]; [exact NOP|].
    destruct (order_mult_ok g GG pdivs PD R quot T0 KR) as (r & -> & OR). rewrite bind_Ok.
    rewrite zz_div_ok by lia. rewrite bind_Ok, !(pt_mul_ok g GG).
    (* kR in <P1> implies m | k *)
    assert (MJ : forall k b, mul k R = mul b P1 -> (m | k)).
    { intros k b E. assert (E2 : mul (quot * b) P1 = 0').
      { rewrite (mul_mul g GG), <- E, <- (mul_mul g GG), Z.mul_comm, (mul_mul g GG), KR. apply (mul_g0 g GG). }
      apply O1 in E2. pose proof (div_mul_cancel n1 quot T0 TD) as X. rewrite <- X, Z.mul_comm in E2.
      apply Z.mul_divide_cancel_l in E2; [|lia]. destruct E2 as [c ->]. apply (MI k c). rewrite E. unfold A.
      apply (mul_mul g GG). }
    assert (MR : (m | r)) by (apply (MJ r 0); rewrite (mul_0 g); apply OR, Z.divide_refl).
    assert (RQ : (r | quot)) by (apply OR; exact KR). pose proof (proj1 OR) as R0.
    set (S := mul (r / m) R). assert (KS : mul m S = 0').
    { unfold S. rewrite <- (mul_mul g GG), Z.mul_comm, div_mul_cancel by assumption. apply OR, Z.divide_refl. }
    assert (IS : forall k b, mul k S = mul b P1 -> (m | k * (quot / m))).
    { intros k b E. unfold S in E. rewrite <- (mul_mul g GG) in E. apply MJ in E.
      destruct RQ as [c ->]. replace (c * r / m) with (c * (r / m)).
      - replace (k * (c * (r / m))) with (c * (k * (r / m))) by ring. apply Z.divide_mul_r. exact E.
      - symmetry. apply Z.divide_div_mul_exact; [lia|exact MR]. }
    destruct (Z.eqb_spec (Z.lcm n2 m) m) as [LM|LM].
    + exists P1, n1, S, m, quot. split; [reflexivity|]. repeat split; try assumption; try apply O1.
      exists (quot / m). split; [rewrite Z.mul_comm, div_mul_cancel by assumption; reflexivity|].
      intros k b E. exists 1. split; [lia|]. rewrite Z.pow_1_r. apply (IS k b E).
    + destruct (tidy_ok n2 m N2 M0) as (n2d & md & -> & A' & B' & DA & DB & RP & EL). rewrite bind_Ok. cbv beta iota.
      rewrite !zz_div_ok by lia. rewrite !bind_Ok, !(pt_mul_ok g GG). rewrite <- EL.
      set (U := mul (n2 / n2d) P2 +' mul (m / md) S).
      exists P1, n1, U, (n2d * md), quot. split; [reflexivity|].
      assert (L0 : 0 < n2d * md) by nia.
      assert (LQ : (n2d * md | quot)) by (rewrite EL; apply Z.lcm_least; [exists t; rewrite ET; ring|exact MD]).
      assert (U1 : mul n2d (mul (n2 / n2d) P2) = 0') by (rewrite <- (mul_mul g GG), Z.mul_comm, div_mul_cancel by assumption; exact K2).
      assert (U2 : mul md (mul (m / md) S) = 0') by (rewrite <- (mul_mul g GG), Z.mul_comm, div_mul_cancel by assumption; exact KS).
      destruct LQ as [T LT].
      split; [exact O1|]. split; [exact EN|]. split; [exact T0|]. split; [exact TD|]. split; [exact TQ|]. split; [exact L0|].
      split.
      { unfold U. rewrite (mul_gadd g GG). rewrite (Z.mul_comm n2d md) at 1. rewrite !(mul_mul g GG), U1, U2, !(mul_g0 g GG). apply (g0l g GG). }
      exists T. split; [rewrite LT; ring|]. intros k b E.
      assert (EU : mul k (mul (n2 / n2d) P2) +' mul k (mul (m / md) S) = mul b P1) by (rewrite <- (mul_gadd g GG); exact E).
      assert (SW : forall a b X, mul a (mul b X) = mul b (mul a X)) by (intros a' b' X; rewrite <- !(mul_mul g GG), Z.mul_comm; reflexivity).
      assert (E1 : mul (k * md * (n2 / n2d)) P2 = mul (md * b) P1).
      { rewrite (mul_mul g GG md b), <- EU, (mul_gadd g GG), (SW md k (mul (m / md) S)), U2, (mul_g0 g GG), (g0r g GG).
        rewrite <- !(mul_mul g GG). f_equal. ring. }
      assert (E2 : mul (k * n2d * (m / md)) S = mul (n2d * b) P1).
      { rewrite (mul_mul g GG n2d b), <- EU, (mul_gadd g GG), (SW n2d k (mul (n2 / n2d) P2)), U1, (mul_g0 g GG), (g0l g GG).
        rewrite <- !(mul_mul g GG). f_equal. ring. }
      destruct (IND _ _ E1) as (e & E0 & DV1). apply IS in E2.
      pose proof (div_mul_cancel n2 n2d A' DA) as W1. pose proof (div_mul_cancel m md B' DB) as W2.
      set (u := n2 / n2d) in *. set (v := m / md) in *.
      (* quot/n2 and quot/m *)
      assert (U0 : 0 < u) by (clear - W1 N2 A'; nia). assert (V0 : 0 < v) by (clear - W2 M0 B'; nia).
      assert (NL : (n2 | n2d * md)) by (rewrite EL; apply Z.divide_lcm_l).
      assert (ML : (m | n2d * md)) by (rewrite EL; apply Z.divide_lcm_r).
      rewrite <- W1, (Z.mul_comm u n2d) in NL. apply Z.mul_divide_cancel_l in NL; [|lia]. destruct NL as [x X].
      rewrite <- W2 in ML. apply Z.mul_divide_cancel_r in ML; [|lia]. destruct ML as [y Y].
      assert (TE : t = T * x).
      { apply (Z.mul_reg_l _ _ n2); [lia|]. rewrite <- ET, LT, X, <- W1. ring. }
      assert (ME : quot / m = T * y).
      { rewrite LT, Y. replace (T * (y * v * md)) with (T * y * m) by (rewrite <- W2; ring). apply Z.div_mul. lia. }
      assert (RX : rel_prime n2d x).
      { apply rel_prime_sym. apply (rel_prime_div md n2d x); [apply rel_prime_sym; exact RP|]. exists u. rewrite X. ring. }
      assert (RY : rel_prime md y).
      { apply rel_prime_sym. apply (rel_prime_div n2d md y); [exact RP|]. exists v. rewrite Y. ring. }
      assert (F1 : (n2d | k * T ^ e)).
      { rewrite <- W1, TE in DV1. replace (k * md * u * (T * x) ^ e) with (u * (md * (x ^ e * (k * T ^ e)))) in DV1 by (rewrite Z.pow_mul_l; ring).
        apply Z.mul_divide_cancel_l in DV1; [|lia]. apply Gauss in DV1; [|exact RP].
        apply Gauss in DV1; [exact DV1|]. apply rel_prime_Zpower_r; [exact E0|exact RX]. }
      assert (F2 : (md | k * T)).
      { rewrite ME in E2. rewrite <- W2 in E2. replace (k * n2d * v * (T * y)) with (v * (n2d * (y * (k * T)))) in E2 by ring.
        apply Z.mul_divide_cancel_l in E2; [|lia]. apply Gauss in E2; [|apply rel_prime_sym; exact RP].
        apply Gauss in E2; [exact E2|exact RY]. }
      exists (e + 1). split; [lia|]. rewrite Z.pow_add_r, Z.pow_1_r by lia.
      assert (G1 : (n2d | k * (T ^ e * T))) by (rewrite Z.mul_assoc; apply Z.divide_mul_l; exact F1).
      assert (G2 : (md | k * (T ^ e * T))) by (replace (k * (T ^ e * T)) with (T ^ e * (k * T)) by ring; apply Z.divide_mul_r; exact F2).
      destruct G1 as [c C]. rewrite C in G2 |- *. rewrite Z.mul_comm in G2. apply Gauss in G2; [|apply rel_prime_sym; exact RP].
      rewrite Z.mul_comm. apply Z.mul_divide_mono_r. exact G2.
  - (* the first generator *)
    assert (OQ : exists b, is_order Q b).
    { destruct (order_exists g GG Q N N_pos (lagrange N Q CN)) as (b & OB & _). exists b. exact OB. }
    destruct OQ as (b & OQ). destruct (merge1_ok g GG pdivs PD q P1 n1 Q b Q2 O1 OQ (all_hasse Q)) as (R & -> & OR).
    rewrite bind_Ok. cbv beta iota. set (l := Z.lcm n1 b) in *. pose proof (proj1 OR) as L0. rewrite zz_div_ok by lia. rewrite bind_Ok.
    assert (LN : (l | N)) by (exact (order_N R l OR)). rewrite (Z.mul_comm quot n1), EN.
    pose proof (div_mul_cancel N l L0 LN) as EQ. set (qt := N / l) in *. pose proof N_pos as NP.
    assert (QT : 0 < qt) by nia. assert (DQ : (qt | quot)).
    { destruct (Z.divide_lcm_l n1 b) as [c C]. fold l in C. exists c. apply (Z.mul_reg_l _ _ n1); [lia|]. rewrite EN, <- EQ, C. ring. }
    eexists _, _, _, _, _. split; [reflexivity|]. split; [exact OR|]. split; [rewrite Z.mul_comm; exact EQ|]. split; [exact QT|].
    split; [apply Z.divide_trans with n1; [apply Z.divide_trans with quot; assumption|apply Z.divide_lcm_l]|].
    split; [apply Z.divide_trans with quot; assumption|].
    assert (ONE : (if 1 <? n2 then 1 else n2) = 1) by (destruct (Z.ltb_spec 1 n2); lia).
    split; [rewrite ONE; lia|]. rewrite ONE. split.
    { destruct (Z.ltb_spec 1 n2); [apply (mul_g0 g GG)|]. replace 1 with n2 by lia. exact K2. }
    exists qt. split; [ring|]. intros k c _. exists 0. split; [lia|]. apply Z.divide_1_l.
Qed.

(** the point found from the 2-division polynomial *)
Definition tt_spec (tt : el g -> option (el g)) : Prop :=
  forall T T', T <> 0' -> mul 2 T = 0' -> tt T = Some T' -> mul 2 T' = 0' /\ T' <> 0' /\ T' <> T.
Variable rnd : nat -> el g.
Variable tt : el g -> option (el g).
Hypothesis TT : tt_spec tt.

Lemma phase2_loop k P1 n1 P2 n2 quot f r : inv2 q N P1 n1 P2 n2 quot ->
  while (iso2_step g pdivs wpo rnd q) f (k, P1, n1, P2, n2, quot) = Ok r ->
  let '(P1', n1', P2', n2') := r in is_basis P1' n1' P2' n2'.
Proof.
  intros I W. revert W.
  apply (while_partial (iso2_step g pdivs wpo rnd q)
    (fun s => let '(k, P1, n1, P2, n2, quot) := s in inv2 q N P1 n1 P2 n2 quot)
    (fun r => let '(P1', n1', P2', n2') := r in is_basis P1' n1' P2' n2')).
  - clear - GG PD Q2 WP CN HN. intros [[[[[k P1] n1] P2] n2] quot] s' I E. unfold iso2_step in E. destruct (n2 =? quot); [discriminate|].
    destruct (merge2_ok P1 n1 P2 n2 quot (rnd k) I) as (P1' & n1' & P2' & n2' & quot' & E2 & I2). rewrite E2, bind_Ok in E.
    injection E as <-. exact I2.
  - clear - GG CN. intros [[[[[k P1] n1] P2] n2] quot] [[[P1' n1'] P2'] n2'] I E. unfold iso2_step in E.
    destruct (Z.eqb_spec n2 quot) as [->|].
    + injection E as <- <- <- <-. destruct I as (O1 & EN & T0 & TD & TQ & N2 & K2 & t & ET & IND).
      apply (basis_of N); try assumption. intros k' b H. destruct (IND k' b H) as (e & E0 & D).
      assert (t = 1) by nia. subst t. rewrite Z.pow_1_l, Z.mul_1_r in D by exact E0. exact D.
    + destruct (merge2 g pdivs wpo q P1 n1 P2 n2 quot (rnd k)) as [[[[[? ?] ?] ?] ?]| | |]; discriminate.
  - exact I.
Qed.

Lemma phase2_ok f k P n1 quot r : is_order P n1 -> n1 * quot = N -> 0 < quot -> (quot | Z.gcd n1 (q - 1)) ->
  iso_phase2 g pdivs wpo rnd tt q f k P n1 quot = Ok r ->
  let '(P1', n1', P2', n2') := r in is_basis P1' n1' P2' n2'.
Proof.
  intros O EN T0 TG. pose proof (proj1 O) as N1.
  assert (TD : (quot | n1)) by (apply Z.divide_trans with (Z.gcd n1 (q - 1)); [exact TG|apply Z.gcd_divide_l]).
  assert (TQ : (quot | q - 1)) by (apply Z.divide_trans with (Z.gcd n1 (q - 1)); [exact TG|apply Z.gcd_divide_r]).
  unfold iso_phase2. destruct (Z.eqb_spec quot 1) as [->|NE].
  - intros [= <-]. apply (basis_of N); [exact CN|exact O|lia|apply (mul_g0 g GG)|exact EN|apply Z.divide_1_l|intros; apply Z.divide_1_l].
  - assert (I0 : inv2 q N P n1 0' 1 quot).
    { split; [exact O|]. split; [exact EN|]. split; [exact T0|]. split; [exact TD|]. split; [exact TQ|]. split; [lia|].
      split; [apply (mul_g0 g GG)|]. exists quot. split; [ring|]. intros k' b _. exists 0. split; [lia|]. apply Z.divide_1_l. }
    destruct (Z.even quot) eqn:EV.
    + rewrite zz_div_ok by lia. rewrite !bind_Ok, (pt_mul_ok g GG). destruct (tt (mul (n1 / 2) P)) as [T'|] eqn:ETT.
      2:{ cbv beta iota. intros W. exact (phase2_loop k P n1 0' 1 quot f r I0 W). }
      cbv beta iota. intros W. apply (phase2_loop k P n1 T' 2 quot f r); [|exact W].
      apply Z.even_spec in EV. destruct EV as [t ET]. assert (D2 : (2 | n1)) by (apply Z.divide_trans with quot; [exists t; lia|exact TD]).
      pose proof (div_mul_cancel n1 2 ltac:(lia) D2) as EH. set (h := n1 / 2) in *.
      destruct (TT (mul h P) T') as (K1 & K2 & K3); [| |exact ETT|].
      { intros Z. apply (proj2 O) in Z. apply Z.divide_pos_le in Z; lia. }
      { rewrite <- (mul_mul g GG). apply O. exists 1. lia. }
      split; [exact O|]. split; [exact EN|]. split; [exact T0|]. split; [exact TD|]. split; [exact TQ|]. split; [lia|]. split; [exact K1|].
      exists t. split; [lia|]. intros k' b H. exists 0. split; [lia|]. rewrite Z.pow_0_r, Z.mul_1_r.
      destruct (Z.Even_or_Odd k') as [[c ->]|[c ->]]; [apply Z.divide_factor_l|]. exfalso.
      rewrite (mul_succ g GG), Z.mul_comm, (mul_mul g GG), K1, (mul_g0 g GG), (g0l g GG) in H.
      (* T' = b P has order 2, hence is h P *)
      assert (HB : (n1 | 2 * b)) by (apply O; rewrite (mul_mul g GG), <- H; exact K1).
      rewrite <- EH, Z.mul_comm in HB. apply Z.mul_divide_cancel_l in HB; [|lia]. destruct HB as [d D].
      destruct (Z.Even_or_Odd d) as [[e E]|[e E]].
      * apply K2. rewrite H. apply O. exists e. rewrite D, E, <- EH. ring.
      * apply K3. rewrite H, D, E. replace ((2 * e + 1) * h) with (e * n1 + h) by (rewrite <- EH; ring).
        rewrite (mul_add g GG), (proj2 (proj2 O (e * n1))), (g0l g GG); [reflexivity|apply Z.divide_factor_r].
    + rewrite bind_Ok. cbv beta iota. intros W. exact (phase2_loop k P n1 0' 1 quot f r I0 W).
Qed.

(** the first generator *)
Lemma phase1_ok lower upper known f k P n1 ql : 1 <= lower <= upper -> lower <= N <= upper -> (known = true -> lower = N) ->
  iso_phase1 g pdivs rnd q lower upper known f = Ok (k, P, n1, ql) ->
  is_order P n1 /\ exists x, ql = [x] /\ lower <= n1 * x <= upper /\ (x | Z.gcd n1 (q - 1)) /\
    forall y, lower <= n1 * y <= upper -> (y | Z.gcd n1 (q - 1)) -> y = x.
Proof.
  intros LU NB KN. unfold iso_phase1. cbv zeta.
  assert (FST : exists n, (if known then order_mult g pdivs (rnd 0%nat) lower else order_bounds g pdivs (rnd 0%nat) lower upper) = Ok n /\ is_order (rnd 0%nat) n).
  { destruct known.
    - rewrite (KN eq_refl). apply (order_mult_ok g GG pdivs PD); [exact N_pos|apply lagrange; exact CN].
    - apply (order_bounds_ok g GG pdivs PD); [lia|]. exists N. split; [exact NB|apply lagrange; exact CN]. }
  destruct FST as (n & -> & O). rewrite bind_Ok.
  destruct (n2list_ok n lower upper q (proj1 O) ltac:(lia)) as (ql0 & EQ & _). rewrite EQ, bind_Ok. intros W.
  set (Inv := fun s : nat * Z * el g * Z * list Z => let '(k, c, P, n1, ql) := s in is_order P n1 /\ n2list n1 lower upper q = Ok ql).
  assert (X : let '(k, P, n1, ql) := (k, P, n1, ql) in is_order P n1 /\ n2list n1 lower upper q = Ok ql /\ length ql = 1%nat).
  { revert W. apply (while_partial (iso1_step g pdivs rnd q lower upper) Inv
      (fun r => let '(k, P, n1, ql) := r in is_order P n1 /\ n2list n1 lower upper q = Ok ql /\ length ql = 1%nat)).
    - clear - GG PD Q2 CN HN LU. intros [[[[k c] P] n1] ql] s' [O _] E. unfold iso1_step in E.
      destruct ((c <=? 10) && (2 * n1 <=? upper) || negb (Z.of_nat (length ql) =? 1)); [|discriminate].
      destruct (order_exists g GG (rnd k) N N_pos (lagrange N (rnd k) CN)) as (b & OB & _).
      destruct (merge1_ok g GG pdivs PD q P n1 (rnd k) b Q2 O OB (all_hasse (rnd k))) as (R & E2 & OR). rewrite E2, bind_Ok in E.
      destruct (n2list_ok (Z.lcm n1 b) lower upper q (proj1 OR) ltac:(lia)) as (ql1 & E3 & _). rewrite E3, bind_Ok in E.
      injection E as <-. split; [exact OR|exact E3].
    - clear. intros [[[[k c] P] n1] ql] [[[k' P'] n1'] ql'] [O E1] E. unfold iso1_step in E.
      destruct ((c <=? 10) && (2 * n1 <=? upper) || negb (Z.of_nat (length ql) =? 1)) eqn:B.
      + destruct (merge1 g pdivs q P n1 (rnd k)) as [[? ?]| | |]; try discriminate. rewrite bind_Ok in E.
        destruct (n2list z lower upper q); discriminate.
      + injection E as <- <- <- <-. apply orb_false_iff in B as [_ B]. apply negb_false_iff, Z.eqb_eq in B.
        split; [exact O|]. split; [exact E1|lia].
    - split; [exact O|exact EQ]. }
  destruct X as (O' & E' & LEN). split; [exact O'|].
  destruct (n2list_ok n1 lower upper q (proj1 O') ltac:(lia)) as (ql1 & E1 & _ & IN). rewrite E' in E1. injection E1 as <-.
  destruct ql as [|x [|? ?]]; try discriminate. exists x. split; [reflexivity|].
  destruct (proj1 (IN x) (or_introl eq_refl)) as [X1 X2]. split; [exact X1|]. split; [exact X2|].
  intros y Y1 Y2. destruct (proj2 (IN y) (conj Y1 Y2)) as [<-|[]]. reflexivity.
Qed.

Theorem iso_known f1 f2 P1 n1 P2 n2 : isomorphism_type g pdivs wpo rnd tt q (Some N) f1 f2 = Ok (P1, n1, P2, n2) -> is_basis P1 n1 P2 n2.
Proof.
  unfold isomorphism_type. destruct (iso_phase1 g pdivs rnd q N N true f1) as [[[[k P] n] ql]| | |] eqn:E; try discriminate.
  rewrite bind_Ok. cbv beta iota. pose proof N_pos.
  destruct (phase1_ok N N true f1 k P n ql ltac:(lia) ltac:(lia) (fun _ => eq_refl) E) as (O & x & -> & X1 & X2 & _). cbn [hd].
  intros W. assert (EN : n * x = N) by lia. pose proof (proj1 O) as N0.
  exact (phase2_ok f2 k P n x (P1, n1, P2, n2) O EN ltac:(nia) X2 W).
Qed.
Theorem iso_unknown f1 f2 P1 n1 P2 n2 k P n ql : (let '(l, u) := hasse_bounds q in iso_phase1 g pdivs rnd q l u false f1 = Ok (k, P, n, ql)) ->
  (N | n * Z.gcd n (q - 1)) \/ (34 <= q /\ hd 0 ql = 1) ->
  isomorphism_type g pdivs wpo rnd tt q None f1 f2 = Ok (P1, n1, P2, n2) -> is_basis P1 n1 P2 n2.
Proof.
  unfold isomorphism_type. pose proof (hasse_ok q Q2) as HB. destruct (hasse_bounds q) as [l u]. destruct HB as [B1 B2].
  intros E CASE. rewrite E, bind_Ok. cbv beta iota. pose proof N_pos as NP. pose proof (proj2 (B2 N) HN) as HM.
  destruct (phase1_ok l u false f1 k P n ql ltac:(lia) HM ltac:(discriminate) E) as (O & x & -> & X1 & X2 & X3). cbn [hd] in *.
  intros W. pose proof (proj1 O) as N0. pose proof (order_N P n O) as ND. pose proof (div_mul_cancel N n N0 ND) as EQ.
  assert (EN : n * x = N).
  { destruct CASE as [D|[Q34 ->]].
    - rewrite <- (X3 (N / n)); [lia| |].
      + rewrite Z.mul_comm, EQ. exact HM.
      + rewrite <- EQ, Z.mul_comm in D. apply Z.mul_divide_cancel_l in D; [exact D|lia].
    - rewrite Z.mul_1_r in *. set (c := N / n) in *. destruct (Z.eq_dec c 1) as [C|C]; [rewrite C in EQ; lia|]. exfalso.
      assert (2 <= c) by (clear - C EQ NP N0; nia). assert (U2 : 2 * l <= u) by (clear - H HM X1 EQ N0; nia).
      pose proof (proj1 (B2 l) ltac:(lia)) as L1. pose proof (proj1 (B2 u) ltac:(lia)) as L2.
      set (x := q + 1 - l) in *. set (y := u - (q + 1)) in *.
      assert (Y : (q + 1 - u) ^ 2 = y ^ 2) by (unfold y; ring). rewrite Y in L2.
      assert (L : q + 1 <= 2 * x + y) by (unfold x, y; lia). clearbody x y. clear - L L1 L2 Q34.
      assert ((q + 1) * (q + 1) <= (2 * x + y) * (2 * x + y)) by (apply Z.mul_le_mono_nonneg; lia).
      assert (0 <= (x - y) * (x - y)) by apply Z.square_nonneg. nia. }
  exact (phase2_ok f2 k P n x (P1, n1, P2, n2) O EN ltac:(clear - EN NP N0; nia) X2 W).
Qed.
End Iso.
End G.
