(** C84: isogeny classes; C85: the primes tried *)
From Coq Require Import ZArith List Bool Arith Lia.
From Verif Require Import Base CurveModel IsogClassModel IsogClassProofs.
Import ListNotations.

(** the curves reached from C by l-isogenies with l in ls *)
Inductive closure (lisog : curve -> Z -> list curve) (ls : list Z) (C : curve) : curve -> Prop :=
| cl_0 : closure lisog ls C C
| cl_step c l d : closure lisog ls C c -> In l ls -> In d (lisog c l) -> closure lisog ls C d.
(** ... where from the second step on only the l with an l-isogeny from C are used *)
Inductive reached (lisog : curve -> Z -> list curve) (ls : list Z) (C : curve) : curve -> Prop :=
| re_0 : reached lisog ls C C
| re_first l d : In l ls -> In d (lisog C l) -> reached lisog ls C d
| re_next c l d : reached lisog ls C c -> In l ls -> lisog C l <> [] -> In d (lisog c l) -> reached lisog ls C d.
(** at most n curves, all isogeny steps stay inside *)
Definition small_class (lisog : curve -> Z -> list curve) (ls : list Z) (C : curve) (n : nat) : Prop := exists S, (length S <= n)%nat /\ In C S /\ forall c l d, In c S -> In l ls -> In d (lisog c l) -> In d S.

Section Facts.
Variable lisog : curve -> Z -> list curve.
Variable C : curve.
Variable ls : list Z.
Lemma nonempty_iff (l : list curve) : nonempty l = true <-> l <> [].
Proof. destruct l; cbn; split; congruence. Qed.
Lemma good_iff l : In l (good lisog C ls) <-> In l ls /\ lisog C l <> [].
Proof. unfold good. rewrite filter_In, nonempty_iff. reflexivity. Qed.
Lemma reached_closure c : reached lisog ls C c -> closure lisog ls C c.
Proof. induction 1; [constructor|econstructor; [constructor|eauto|eauto]|econstructor; eauto]. Qed.
Lemma final_reached s : forall S, Inv lisog C ls S s -> forall k c, nth_error (curves s) k = Some c -> reached lisog ls C c.
Proof.
  intros S I k. induction k as [k IH] using (well_founded_induction lt_wf). intros c Hc. destruct k as [|k].
  - rewrite (i_0 _ _ _ _ _ I) in Hc. injection Hc as <-. constructor.
  - destruct (i_from _ _ _ _ _ I (Datatypes.S k) c ltac:(lia) Hc) as (i & l & d & _ & _ & Hi & Hd & [Tl T] & Hn). pose proof (IH i Hi d Hd) as R. destruct T as [->|T].
    + rewrite (i_0 _ _ _ _ _ I) in Hd. injection Hd as <-. now apply (re_first _ _ _ l).
    + apply good_iff in T. now apply (re_next _ _ _ d l).
Qed.
Lemma final_all S s : Inv lisog C ls S s -> (forall j, (j < ncurves s)%nat -> done lisog C ls j s) -> forall c, reached lisog ls C c -> In c (curves s).
Proof.
  intros I D c H. assert (Z : forall k c' l d, nth_error (curves s) k = Some c' -> tried lisog C ls k l -> In d (lisog c' l) -> In d (curves s)).
  { intros k c' l d Hc T Hd. assert (Hk : (k < ncurves s)%nat) by (rewrite (i_n _ _ _ _ _ I); apply nth_error_Some; congruence). destruct (D k Hk c' l d Hc T Hd) as (j & Hj & _). eapply nth_error_In; eauto. }
  induction H as [|l d Hl Hd|c l d R IH Hl HC Hd].
  - eapply nth_error_In. apply (i_0 _ _ _ _ _ I).
  - apply (Z 0%nat C l d); [apply (i_0 _ _ _ _ _ I)|split; [auto|now left]|auto].
  - apply In_nth_error in IH as (k & Hk). apply (Z k c l d); auto. split; [auto|]. right. apply good_iff. auto.
Qed.
Lemma getmat_nth s i j : (i < ncurves s)%nat -> (j < ncurves s)%nat -> nth (i * ncurves s + j) (getmat s) 0%Z = mat_entry (matij s) i j.
Proof.
  unfold getmat. set (n := ncurves s). intros Hi Hj. assert (G : forall len a i0, (i0 < len)%nat ->
    nth (i0 * n + j) (flat_map (fun i => map (fun j => mat_entry (matij s) i j) (seq 0 n)) (seq a len)) 0%Z = mat_entry (matij s) (a + i0) j).
  { induction len as [|len IH]; intros a i0 H; [lia|]. cbn [seq flat_map]. destruct i0 as [|i0].
    - rewrite Nat.add_0_r. cbn [Nat.mul Nat.add]. rewrite app_nth1 by (rewrite map_length, seq_length; auto).
      rewrite (nth_indep _ 0%Z (mat_entry (matij s) a 0%nat)) by (rewrite map_length, seq_length; auto). rewrite (map_nth (fun j => mat_entry (matij s) a j)), seq_nth by auto. reflexivity.
    - rewrite app_nth2 by (rewrite map_length, seq_length; cbn; lia). rewrite map_length, seq_length. replace (Datatypes.S i0 * n + j - n)%nat with (i0 * n + j)%nat by (cbn; lia). rewrite IH by lia. f_equal. lia. }
  rewrite G by auto. reflexivity.
Qed.
End Facts.

(** grow terminates; the curves found are those reached, each once, with the parent of each *)
Theorem C84_grow lisog C ls fuel : small_class lisog ls C 26 -> ~ In 0%Z ls -> (27 <= fuel)%nat ->
  exists s, grow lisog fuel (iclass_init C ls) = Ok s /\ NoDup (curves s) /\ ncurves s = length (curves s) /\ nth_error (curves s) 0 = Some C /\
    (forall c, In c (curves s) <-> reached lisog ls C c) /\
    ((forall c l, closure lisog ls C c -> In l ls -> lisog c l <> [] -> lisog C l <> []) -> forall c, In c (curves s) <-> closure lisog ls C c) /\
    (length (fromlist s) = ncurves s /\ length (isoglist s) = ncurves s /\
     forall k c, (0 < k)%nat -> nth_error (curves s) k = Some c -> exists i l d, nth_error (fromlist s) k = Some i /\ nth_error (isoglist s) k = Some l /\
       (i < k)%nat /\ nth_error (curves s) i = Some d /\ In l ls /\ In c (lisog d l)).
Proof.
  intros (S & SL & S0 & Scl) L0 Hf. destruct (grow_right lisog C ls S S0 Scl SL L0 fuel Hf) as (s & E & I & D). exists s. split; [exact E|].
  assert (R : forall c, In c (curves s) <-> reached lisog ls C c).
  { intros c. split; [|now apply (final_all lisog C ls S)]. intros H. apply In_nth_error in H as (k & Hk). eapply (final_reached lisog C ls s); eauto. }
  split; [apply I|]. split; [apply I|]. split; [apply I|]. split; [exact R|]. split.
  - intros U c. rewrite R. split; [apply reached_closure|]. induction 1 as [|c l d H IH Hl Hd]; [constructor|]. apply (re_next _ _ _ c l); auto. apply (U c l); auto. intros Z. rewrite Z in Hd. destruct Hd.
  - split; [apply I|]. split; [apply I|]. intros k c Hk Hc. destruct (i_from _ _ _ _ _ I k c Hk Hc) as (i & l & d & A & B & F & G & [T _] & H). exists i, l, d. auto 10.
Qed.
(** the isogeny matrix: symmetric; when the relations are symmetric, of one degree only, and
    the same l occur for all the curves, entry (i,j) is l exactly if curves i, j are l-isogenous *)
Theorem C84_matrix lisog C ls fuel : small_class lisog ls C 26 -> ~ In 0%Z ls -> (27 <= fuel)%nat ->
  exists s, grow lisog fuel (iclass_init C ls) = Ok s /\ 
    (forall i j, (i < ncurves s)%nat -> (j < ncurves s)%nat -> let e := nth (i * ncurves s + j) (getmat s) 0%Z in
       e = nth (j * ncurves s + i) (getmat s) 0%Z /\
       (e <> 0%Z -> exists c d, nth_error (curves s) i = Some c /\ nth_error (curves s) j = Some d /\ In e ls /\ (In d (lisog c e) \/ In c (lisog d e)))) /\
    ((forall c l, closure lisog ls C c -> In l ls -> lisog c l <> [] -> lisog C l <> []) ->
     (forall c d l, closure lisog ls C c -> In l ls -> In d (lisog c l) -> In c (lisog d l)) ->
     (forall c d l l', closure lisog ls C c -> In l ls -> In l' ls -> In d (lisog c l) -> In d (lisog c l') -> l = l') ->
     forall i j c d l, nth_error (curves s) i = Some c -> nth_error (curves s) j = Some d -> In l ls ->
       (nth (i * ncurves s + j) (getmat s) 0%Z = l <-> In d (lisog c l))).
Proof.
  intros (S & SL & S0 & Scl) L0 Hf. destruct (grow_right lisog C ls S S0 Scl SL L0 fuel Hf) as (s & E & I & D). exists s. split; [exact E|].
  pose proof (inv_le lisog C ls S SL s I) as LE.
  assert (A : forall i j, (i < ncurves s)%nat -> (j < ncurves s)%nat -> let e := nth (i * ncurves s + j) (getmat s) 0%Z in
       e = nth (j * ncurves s + i) (getmat s) 0%Z /\
       (e <> 0%Z -> exists c d, nth_error (curves s) i = Some c /\ nth_error (curves s) j = Some d /\ In e ls /\ (In d (lisog c e) \/ In c (lisog d e)))).
  { intros i j Hi Hj. cbv zeta. rewrite !getmat_nth by auto. split; [apply (i_sym _ _ _ _ _ I); lia|]. intros N. 
    destruct (i_ent _ _ _ _ _ I i j ltac:(lia) ltac:(lia) N) as [(c & d & P)|(c & d & P)]; [exists c, d|exists d, c]; intuition. }
  split; [exact A|]. intros U SY UN i j c d l Hi Hj Hl.
  assert (Li : (i < ncurves s)%nat) by (rewrite (i_n _ _ _ _ _ I); apply nth_error_Some; congruence). assert (Lj : (j < ncurves s)%nat) by (rewrite (i_n _ _ _ _ _ I); apply nth_error_Some; congruence).
  assert (Rc : closure lisog ls C c) by (apply reached_closure; eapply (final_reached lisog C ls s); eauto).
  assert (Rd : closure lisog ls C d) by (apply reached_closure; eapply (final_reached lisog C ls s); eauto).
  destruct (A i j Li Lj) as [_ B]. cbv zeta in B. rewrite getmat_nth in * by auto. set (e := mat_entry (matij s) i j) in *.
  assert (X : e <> 0%Z -> In e ls /\ In d (lisog c e)).
  { intros N. destruct (B N) as (c' & d' & P1 & P2 & P3 & P4). rewrite P1 in Hi. rewrite P2 in Hj. injection Hi as ->. injection Hj as ->. split; [auto|]. destruct P4 as [P4|P4]; [auto|]. now apply SY. }
  split.
  - intros Q. rewrite <- Q. apply X. intros N. apply L0. congruence.
  - intros Hd. assert (T : tried lisog C ls i l). { split; [auto|]. right. apply good_iff. split; [auto|]. apply (U c l); auto. intros Z. rewrite Z in Hd. destruct Hd. }
    destruct (D i Li c l d Hi T Hd) as (j' & P1 & P2 & P3). assert (j' = j). { pose proof (proj1 (NoDup_nth_error (curves s)) (i_nd _ _ _ _ _ I)) as ND. apply ND; [apply nth_error_Some; congruence|congruence]. }
    subst j'. fold e in P3. destruct (X P3) as [Q1 Q2]. apply (UN c d); auto.
Qed.

(** with 27 curves the matrix (26 by 26) is overrun *)
Definition cn (k : nat) : curve := Cv 0 0 0 (Z.of_nat k) 1.
Definition star (c : curve) (l : Z) : list curve :=
  if Z.eqb l 2 then (if ceqb c (cn 0) then map cn (seq 1 26) else [cn 0]) else [].
Theorem C84_limit : small_class star [2%Z] (cn 0) 27 /\ forall fuel, (1 <= fuel)%nat -> grow star fuel (iclass_init (cn 0) [2%Z]) = UB.
Proof.
  split.
  - exists (map cn (seq 0 27)). split; [cbn; lia|]. split; [now left|]. intros c l d Hc [<-|[]] Hd. unfold star in Hd. cbn [Z.eqb] in Hd. destruct (Pos.eqb 2 2); [|destruct Hd]. destruct (ceqb c (cn 0)).
    + right. exact Hd.
    + destruct Hd as [<-|[]]. now left.
  - intros [|fuel] H; [lia|]. vm_compute. reflexivity.
Qed.
(** a second call of grow starts with ncurves = 1 and hides the rest of the class *)
Definition pair2 (c : curve) (l : Z) : list curve := if Z.eqb l 2 then (if ceqb c (cn 0) then [cn 1] else [cn 0]) else [].
Theorem C84_second_grow_refuted : exists s s', grow pair2 27 (iclass_init (cn 0) [2%Z]) = Ok s /\ ncurves s = 2%nat /\ grow pair2 27 s = Ok s' /\ curves s' = curves s /\ ncurves s' = 1%nat.
Proof. eexists. eexists. split; [vm_compute; reflexivity|]. split; [reflexivity|]. split; [vm_compute; reflexivity|]. split; reflexivity. Qed.

Open Scope Z_scope.
(** the class 14a: six curves, isogenies of degrees 2 and 3 *)
Definition a14 (k : nat) : curve :=
  match k with 0 => Cv 1 0 1 4 (-6) | 1 => Cv 1 0 1 (-36) (-70) | 2 => Cv 1 0 1 (-171) (-874) | 3 => Cv 1 0 1 (-1) 0 | 4 => Cv 1 0 1 (-2731) (-55146) | _ => Cv 1 0 1 (-11) 12 end%nat.
Definition edges14 : list (Z * nat * nat) := [(2, 0%nat, 1%nat); (2, 2%nat, 4%nat); (2, 3%nat, 5%nat); (3, 0%nat, 2%nat); (3, 0%nat, 3%nat); (3, 1%nat, 4%nat); (3, 1%nat, 5%nat)].
Definition lisog14 (c : curve) (l : Z) : list curve :=
  flat_map (fun e => let '(m, i, j) := e in if Z.eqb m l then (if ceqb c (a14 i) then [a14 j] else if ceqb c (a14 j) then [a14 i] else []) else []) edges14.
Example class14 : small_class lisog14 [2; 3; 5; 7] (a14 0) 26 /\ ~ In 0 [2; 3; 5; 7] /\
  (match grow lisog14 27 (iclass_init (a14 0) [2; 3; 5; 7]) with
   | Ok s => (ncurves s, curves s, fromlist s, isoglist s, getmat s)
   | _ => (0%nat, [], [], [], []) end =
   (6%nat, [a14 0; a14 1; a14 2; a14 3; a14 4; a14 5], [0; 0; 0; 0; 1; 1]%nat, [0; 2; 3; 3; 3; 3],
    [0;2;3;3;0;0; 2;0;0;0;3;3; 3;0;0;0;2;0; 3;0;0;0;0;2; 0;3;2;0;0;0; 0;3;0;2;0;0])).
Proof.
  split; [|split; [cbn; intuition lia|vm_compute; reflexivity]]. exists (map a14 (seq 0 6)). split; [cbn; lia|]. split; [now left|].
  intros c l d Hc Hl Hd. cbn [In] in Hl. cbn [map seq In] in Hc.
  destruct Hc as [<-|[<-|[<-|[<-|[<-|[<-|[]]]]]]]; destruct Hl as [<-|[<-|[<-|[<-|[]]]]]; vm_compute in Hd; cbn; intuition.
Qed.
(** the hypotheses of the matrix theorem hold for 14a *)
Example class14_sym : (forall c l, In c (map a14 (seq 0 6)) -> In l [2; 3; 5; 7] -> lisog14 c l <> [] -> lisog14 (a14 0) l <> []) /\
  (forall c d l, In c (map a14 (seq 0 6)) -> In l [2; 3; 5; 7] -> In d (lisog14 c l) -> In c (lisog14 d l)) /\
  (forall c d l l', In c (map a14 (seq 0 6)) -> In l [2; 3; 5; 7] -> In l' [2; 3; 5; 7] -> In d (lisog14 c l) -> In d (lisog14 c l') -> l = l').
Proof.
  split; [|split]; intros *; cbn [In map seq].
  - intros Hc Hl. destruct Hc as [<-|[<-|[<-|[<-|[<-|[<-|[]]]]]]]; destruct Hl as [<-|[<-|[<-|[<-|[]]]]]; vm_compute; congruence.
  - intros Hc Hl. destruct Hc as [<-|[<-|[<-|[<-|[<-|[<-|[]]]]]]]; destruct Hl as [<-|[<-|[<-|[<-|[]]]]]; intros Hd; vm_compute in Hd; repeat (destruct Hd as [<-|Hd]; [vm_compute; auto|]); destruct Hd.
  - intros Hc Hl Hl'. destruct Hc as [<-|[<-|[<-|[<-|[<-|[<-|[]]]]]]]; destruct Hl as [<-|[<-|[<-|[<-|[]]]]]; destruct Hl' as [<-|[<-|[<-|[<-|[]]]]]; try reflexivity;
      intros Hd Hd'; vm_compute in Hd, Hd'; exfalso; intuition congruence.
Qed.

(** ** C85: getelllist *)
(** j = n/d *)
Definition j_is (c4 disc n d : Z) : Prop := c4 ^ 3 * d = n * disc.
Definition sporadic (c4 disc N l : Z) : Prop :=
  l = 13 \/
  l = 11 /\ (j_is c4 disc (-32768) 1 \/ j_is c4 disc (-121) 1 \/ j_is c4 disc (-24729001) 1) \/
  l = 17 /\ (17 | N) /\ (j_is c4 disc (-297756989) 2 \/ j_is c4 disc (-882216989) 131072) \/
  l = 37 /\ (j_is c4 disc (-9317) 1 \/ j_is c4 disc (-162677523113838677) 1) \/
  l = 19 /\ j_is c4 disc (-884736) 1 \/ l = 43 /\ j_is c4 disc (-884736000) 1 \/
  l = 67 /\ j_is c4 disc (-147197952000) 1 \/ l = 163 /\ j_is c4 disc (-262537412640768000) 1.
Lemma lowest_terms n d : d <> 0 -> exists n' d', 0 < d' /\ n * d' = n' * d /\ Z.gcd n' d' = 1 /\
  (let g := Z.gcd n d in let '(a, b) := if g =? 1 then (n, d) else (n / g, d / g) in (if b <? 0 then (- a, - b) else (a, b))) = (n', d').
Proof.
  intros Hd. set (g := Z.gcd n d). assert (Hg : 0 < g). { assert (g <> 0) by (intros Q; apply Z.gcd_eq_0_r in Q; auto). pose proof (Z.gcd_nonneg n d). fold g in H0. lia. }
  destruct (Z.gcd_divide_l n d) as (a & Ea). destruct (Z.gcd_divide_r n d) as (b & Eb). fold g in Ea, Eb.
  assert (G1 : Z.gcd a b = 1). { apply (proj1 (Z.mul_cancel_l _ _ g ltac:(lia))). rewrite <- Z.gcd_mul_mono_l_nonneg by lia. rewrite (Z.mul_comm g a), (Z.mul_comm g b), <- Ea, <- Eb. fold g. ring. }
  assert (EQ : (if g =? 1 then (n, d) else (n / g, d / g)) = (a, b)).
  { destruct (Z.eqb_spec g 1) as [Q|_]; [f_equal; nia|]. rewrite Ea, Eb, !Z_div_mult_full by lia. reflexivity. }
  assert (Hb : b <> 0) by (intros ->; lia). cbv zeta. rewrite EQ. destruct (Z.ltb_spec b 0).
  - exists (- a), (- b). split; [lia|]. split; [rewrite Ea, Eb; ring|]. split; [now rewrite Z.gcd_opp_l, Z.gcd_opp_r|reflexivity].
  - exists a, b. split; [lia|]. split; [rewrite Ea, Eb; ring|]. auto.
Qed.
Theorem C85_getelllist N (ss : bool) c4 disc : disc <> 0 -> NoDup (getelllist N ss c4 disc) /\
  forall l, In l (getelllist N ss c4 disc) <-> In l [2; 3; 5; 7] \/ ss = false /\ sporadic c4 disc N l.
Proof.
  intros HD. unfold getelllist. destruct ss; cbv zeta.
  { split; [repeat constructor; cbn; intuition lia|]. intros l. split; [auto|]. intros [H|[H _]]; [exact H|discriminate]. }
  destruct (lowest_terms (c4 ^ 3) disc HD) as (n & d & Hd & Q & G & EQ). cbv zeta in EQ.
  destruct (if Z.gcd (c4 ^ 3) disc =? 1 then (c4 ^ 3, disc) else (c4 ^ 3 / Z.gcd (c4 ^ 3) disc, disc / Z.gcd (c4 ^ 3) disc)) as [a b]. rewrite EQ. clear EQ a b.
  assert (J : forall u v, 0 < v -> (j_is c4 disc u v <-> n * v = u * d)).
  { intros u v Hv. unfold j_is. split; intros H.
    - apply (proj1 (Z.mul_cancel_r _ _ disc HD)). transitivity (c4 ^ 3 * v * d); [|rewrite H; ring]. transitivity (n * disc * v); [ring|rewrite <- Q; ring].
    - apply (proj1 (Z.mul_cancel_r _ _ d ltac:(lia))). transitivity (c4 ^ 3 * d * v); [ring|]. rewrite Q. transitivity (n * v * disc); [ring|rewrite H; ring]. }
  unfold sporadic. split.
  { clear. unfold comprat. destruct (d =? 1).
    - repeat match goal with |- context [n =? ?v] => destruct (n =? v) end; cbn [orb app]; repeat constructor; cbn; intuition lia.
    - destruct ((N mod 17 =? 0) && _); cbn [app]; repeat constructor; cbn; intuition lia. }
  intros l. rewrite !J by lia. clear J Q.
  destruct (Z.eqb_spec d 1) as [->|N1].
  - assert (Z17 : (n * 2 = -297756989 * 1 <-> False) /\ (n * 131072 = -882216989 * 1 <-> False)) by (split; split; lia). destruct Z17 as [Z1 Z2]. rewrite Z1, Z2. clear Z1 Z2 G.
    rewrite !Z.mul_1_r.
    repeat match goal with |- context [n =? ?v] => destruct (Z.eqb_spec n v) as [->|] end; cbn [orb]; rewrite ?in_app_iff; cbn [In]; intuition congruence.
  - assert (I1 : forall v, n * 1 = v * d <-> False).
    { intros v. split; [|intros []]. intros H. rewrite Z.mul_1_r in H. apply N1. rewrite H, Z.gcd_comm, (Z.mul_comm v d), Z.gcd_mul_diag_l in G by lia. exact G. }
    rewrite !I1. unfold comprat. clear I1 G.
    assert (M : N mod 17 = 0 <-> (17 | N)) by (apply Z.mod_divide; lia).
    destruct (Z.eqb_spec (N mod 17) 0) as [E1|E1]; cbn [andb].
    + destruct (Z.eqb_spec (n * 2) (-297756989 * d)), (Z.eqb_spec (n * 131072) (-882216989 * d)); cbn [orb]; rewrite ?in_app_iff; cbn [In]; intuition congruence.
    + rewrite ?in_app_iff. cbn [In]. intuition congruence.
Qed.
(** 121b1 (CM by -11), 11a1, 49a1 *)
Example ells_121b : getelllist 121 false 352 (-1331) = [2; 3; 5; 7; 13; 11]. Proof. vm_compute. reflexivity. Qed.
Example ells_ss : getelllist 11 true 496 (-161051) = [2; 3; 5; 7]. Proof. vm_compute. reflexivity. Qed.
Example ells_none : getelllist 49 false 105 (-343) = [2; 3; 5; 7; 13]. Proof. vm_compute. reflexivity. Qed.
(** j = -17^2 101^3/2 *)
Example ells_17 : getelllist 14450 false 29189 (-167042) = [2; 3; 5; 7; 13; 17]. Proof. vm_compute. reflexivity. Qed.
Print Assumptions C84_grow.
Print Assumptions C84_matrix.
Print Assumptions C84_limit.
Print Assumptions C84_second_grow_refuted.
Print Assumptions C85_getelllist.
