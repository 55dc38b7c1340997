(** Proofs for MapPointsToComponentGroup and egr_index. *)
From Coq Require Import ZArith List Bool Lia Znumtheory.
From Verif Require Import Base GrpModel GrpLib EgrModel EgrSpec EgrImage EgrProofs EgrGood.
Import ListNotations.
Open Scope Z_scope.

Section S.
Variable g : grp.
Hypothesis GG : is_grp g.
Variable good : Z -> el g -> bool.
Variable im_Im : Z -> Z -> el g -> Z.
Variable cg : Z -> list Z.
Notation "P +' Q" := (gadd g P Q) (at level 50, left associativity).
Notation "P -' Q" := (gadd g P (gneg g Q)) (at level 50, left associativity).
Notation mul := (mul g).
Notation "0'" := (gz g).
Notation pt := (pt g).
Notation span := (span g).
Notation lc := (lc g).

(** rows are the images of the points under a homomorphism with kernel the points satisfying gd *)
Definition maps (mods : list Z) (gd : el g -> Prop) (Phi : nat -> el g -> Z) (L : list (el g)) (rows : list (list Z)) : Prop :=
  (forall j, (j < length mods)%nat -> 1 <= nth j mods 0 /\ hom g (nth j mods 0) (Phi j)) /\
  (forall X, gd X <-> forall j, (j < length mods)%nat -> (nth j mods 0 | Phi j X)) /\
  Forall2 (fun P r => length r = length mods /\ forall j, (j < length mods)%nat -> (nth j mods 0 | nth j r 0 - Phi j P)) L rows.

Lemma maps_cmb mods gd Phi L rows : maps mods gd Phi L rows -> forall cs j, (j < length mods)%nat -> (nth j mods 0 | Phi j (lc cs L) - cmb cs rows j).
Proof.
  intros (H & _ & F) cs j J. destruct (H j J) as [_ HJ]. pose proof (hom_0 g GG _ _ HJ) as H0. revert cs.
  induction F as [|P r L rows [_ R] F IH]; intros cs.
  - destruct cs; cbn [EgrSpec.lc cmb]; rewrite Z.sub_0_r; exact H0.
  - destruct cs as [|c cs]; cbn [EgrSpec.lc cmb]; [rewrite Z.sub_0_r; exact H0|].
    pose proof (HJ (mul c P) (lc cs L)) as A. pose proof (hom_mul g GG _ _ HJ c P) as B. specialize (IH cs). specialize (R j J).
    replace (Phi j (mul c P +' lc cs L) - (c * nth j r 0 + cmb cs rows j))
      with ((Phi j (mul c P +' lc cs L) - (Phi j (mul c P) + Phi j (lc cs L))) + (Phi j (mul c P) - c * Phi j P) + (Phi j (lc cs L) - cmb cs rows j) - c * (nth j r 0 - Phi j P)) by ring.
    apply Z.divide_sub_r; [|apply Z.divide_mul_r; exact R]. apply Z.divide_add_r; [|exact IH]. apply Z.divide_add_r; assumption.
Qed.
Lemma maps_same mods gd Phi L rows : maps mods gd Phi L rows -> forall cs cs', same_image mods rows cs cs' <-> gd (lc cs L -' lc cs' L).
Proof.
  intros M cs cs'. pose proof (maps_cmb _ _ _ _ _ M) as C. destruct M as (H & GD & _). rewrite GD. unfold same_image. split; intros A j J; specialize (A j J);
    pose proof (C cs j J) as C1; pose proof (C cs' j J) as C2; destruct (H j J) as [_ HJ]; pose proof (hom_sub g GG _ _ (lc cs L) (lc cs' L) HJ) as S.
  - replace (Phi j (lc cs L -' lc cs' L)) with ((Phi j (lc cs L -' lc cs' L) - (Phi j (lc cs L) - Phi j (lc cs' L))) + (Phi j (lc cs L) - cmb cs rows j) - (Phi j (lc cs' L) - cmb cs' rows j) + (cmb cs rows j - cmb cs' rows j)) by ring.
    apply Z.divide_add_r; [|assumption]. apply Z.divide_sub_r; [|assumption]. apply Z.divide_add_r; assumption.
  - replace (cmb cs rows j - cmb cs' rows j) with (Phi j (lc cs L -' lc cs' L) - (Phi j (lc cs L -' lc cs' L) - (Phi j (lc cs L) - Phi j (lc cs' L))) - (Phi j (lc cs L) - cmb cs rows j) + (Phi j (lc cs' L) - cmb cs' rows j)) by ring.
    apply Z.divide_add_r; [|assumption]. apply Z.divide_sub_r; [|assumption]. apply Z.divide_sub_r; assumption.
Qed.
Lemma maps_sub mods gd Phi L rows : maps mods gd Phi L rows -> subgroup g gd.
Proof.
  intros (H & GD & _). apply (sub_ext g (fun X => forall j, (j < length mods)%nat -> (nth j mods 0 | Phi j X))); [intros X; symmetry; apply GD|].
  assert (K : forall j, (j < length mods)%nat -> subgroup g (fun X => (nth j mods 0 | Phi j X))) by (intros j J; apply (hom_ker g GG); apply H, J).
  split; [|split].
  - intros j J. apply (K j J).
  - intros X Y A B j J. apply (K j J); auto.
  - intros n X A j J. apply (K j J); auto.
Qed.
Lemma maps_index mods gd Phi L rows N : maps mods gd Phi L rows -> image_order mods rows N -> index_is g (span L) (fun X => span L X /\ gd X) N.
Proof.
  intros M (R & RL & RP & RC). exists (map (fun c => lc c L) R). rewrite map_length. split; [exact RL|]. split; [|split].
  - apply Forall_forall. intros X I. apply in_map_iff in I. destruct I as (c & <- & _). exists c. reflexivity.
  - revert RP. apply FOP_map. intros c c' N' [_ G]. apply N'. apply (maps_same _ _ _ _ _ M). exact G.
  - intros X [cs ->]. destruct (RC cs) as (c & I & SI). exists (lc c L). split; [apply in_map_iff; exists c; auto|].
    split; [apply (sub_sub g GG); [apply (span_sub g GG)|exists cs; reflexivity|exists c; reflexivity]|]. apply (maps_same _ _ _ _ _ M). exact SI.
Qed.

(** ** The cyclic case *)
(** when the component group is cyclic of order 3 or 4, the points of L whose images generate it are all in one component *)
Definition signs_agree (p : Z) (L : list (el g)) : Prop :=
  forall n, cg p = [n] -> n = 3 \/ n = 4 -> forall P Q, In P L -> In Q L -> good p (mul 2 P) = false -> good p (mul 2 Q) = false -> good p (P -' Q) = true.

Lemma cyc_maps p n phi L : 1 <= n -> hom g n phi -> (forall X, good p X = true <-> (n | phi X)) -> (5 <= n -> forall X, (n | im_Im p n X - phi X)) -> cg p = [n] -> signs_agree p L ->
  exists rows Phi, MapPoints g good im_Im cg L p = Ok rows /\ maps [n] (fun X => good p X = true) Phi L rows.
Proof.
  intros N1 HH GP IM EC SA. unfold MapPoints. rewrite EC. cbn [length Z.of_nat Pos.of_succ_nat].
  change ((1 =? 3) || (1 =? 4)) with false. cbv beta iota zeta.
  assert (MK : forall (f : el g -> Z) Phi, hom g n Phi -> (forall X, (n | Phi X) <-> (n | phi X)) -> (forall P, In P L -> (n | f P - Phi P)) ->
    maps [n] (fun X => good p X = true) (fun _ => Phi) L (map (fun P => [f P]) L)).
  { intros f Phi HP KP FP. split; [|split].
    - intros [|j] J; cbn in J; [|lia]. cbn [nth]. auto.
    - intros X. rewrite GP, <- KP. split; [intros D [|j] J; cbn in J; [exact D|lia]|intros D; apply (D 0%nat); cbn; lia].
    - clear - FP. induction L as [|P L IH]; cbn [map]; constructor.
      + split; [reflexivity|]. intros [|j] J; cbn in J; [|lia]. cbn [nth]. apply FP. left. reflexivity.
      + apply IH. intros Q I. apply FP. right. exact I. }
  destruct (Z.eqb_spec n 1) as [->|N]; [eexists; exists (fun _ => phi); split; [reflexivity|]; apply MK; [exact HH|tauto|intros; apply Z.divide_1_l]|].
  enough (E : exists Phi, hom g n Phi /\ (forall X, (n | Phi X) <-> (n | phi X)) /\ (forall P, In P L -> (n | ImageInComponentGroup g good im_Im P p [n] - Phi P))).
  { destruct E as (Phi & A & B & C). eexists; exists (fun _ => Phi). split; [reflexivity|]. apply MK; assumption. }
  cbn [ImageInComponentGroup]. destruct (Z.eqb_spec n 1) as [|_]; [contradiction|].
  assert (B3 : forall P, good p P = false -> ~ (n | phi P)) by (intros P G D; apply GP in D; congruence).
  assert (G2 : forall P, good p (mul 2 P) = true <-> (n | 2 * phi P)).
  { intros P. rewrite GP. pose proof (hom_mul g GG n phi HH 2 P) as M. split; intros D.
    - replace (2 * phi P) with (phi (mul 2 P) - (phi (mul 2 P) - 2 * phi P)) by ring. apply Z.divide_sub_r; assumption.
    - replace (phi (mul 2 P)) with ((phi (mul 2 P) - 2 * phi P) + 2 * phi P) by ring. apply Z.divide_add_r; assumption. }
  destruct (Z.eqb_spec n 2) as [->|N2]; cbn [orb].
  { exists phi. split; [exact HH|]. split; [tauto|]. intros P _. destruct (good p P) eqn:E.
    - apply GP in E. destruct E as [q E]. exists (- q). lia.
    - apply B3 in E. exists (- (phi P / 2)). pose proof (Z_div_mod_eq_full (phi P) 2). pose proof (Z.mod_pos_bound (phi P) 2 ltac:(lia)). assert (phi P mod 2 <> 0) by (intros F; apply E; apply Z.mod_divide; lia). lia. }
  assert (DEC : (exists P, In P L /\ good p (mul 2 P) = false) \/ forall P, In P L -> good p (mul 2 P) = true).
  { clear. induction L as [|P L IH]; [right; intros P []|]. destruct (good p (mul 2 P)) eqn:E; [|left; exists P; split; [left; reflexivity|exact E]].
    destruct IH as [(Q & I & B)|A]; [left; exists Q; split; [right; exact I|exact B]|right; intros Q [<-|I]; auto]. }
  assert (R : forall x, (n = 3 \/ n = 4) -> exists q r, x = q * n + r /\ (r = 0 \/ r = 1 \/ r = -1 \/ (r = 2 /\ n = 4))).
  { intros x [->| ->].
    - pose proof (Z_div_mod_eq_full x 3). pose proof (Z.mod_pos_bound x 3 ltac:(lia)). destruct (Z.eq_dec (x mod 3) 2); [exists (x / 3 + 1), (-1); lia|exists (x / 3), (x mod 3); lia].
    - pose proof (Z_div_mod_eq_full x 4). pose proof (Z.mod_pos_bound x 4 ltac:(lia)). destruct (Z.eq_dec (x mod 4) 3); [exists (x / 4 + 1), (-1); lia|exists (x / 4), (x mod 4); lia]. }
  assert (D2 : forall x, n = 3 \/ n = 4 -> (n | 2 * x) -> ~ (n | x) -> n = 4 /\ (4 | 2 - x)).
  { intros x N34 D ND. destruct (R x N34) as (q & r & E & [->|[->|[->|[-> F]]]]).
    - exfalso. apply ND. exists q. lia.
    - exfalso. destruct D as [d D]. destruct N34; subst n; lia.
    - exfalso. destruct D as [d D]. destruct N34; subst n; lia.
    - split; [exact F|]. subst n. exists (- q). lia. }
  assert (IMG : n = 3 \/ n = 4 -> forall P, (if n =? 3 then if good p P then 0 else 1 else if n =? 4 then if good p P then 0 else if good p (pt_mul g 2 P) then 2 else 1 else im_Im p n P)
                = if good p P then 0 else if good p (mul 2 P) then 2 else 1).
  { intros N34 P. rewrite (pt_mul_ok g GG). destruct (Z.eqb_spec n 3) as [E3|E3]; [|destruct (Z.eqb_spec n 4); [reflexivity|lia]].
    destruct (good p P) eqn:GB; [reflexivity|]. destruct (good p (mul 2 P)) eqn:GB2; [|reflexivity]. exfalso. apply G2 in GB2. destruct (D2 _ N34 GB2 (B3 P GB)). lia. }
  destruct (Z_le_gt_dec 5 n) as [N5|N5].
  { exists phi. split; [exact HH|]. split; [tauto|]. intros P _. destruct (Z.eqb_spec n 3); [lia|]. destruct (Z.eqb_spec n 4); [lia|]. apply IM, N5. }
  assert (N34 : n = 3 \/ n = 4) by lia. destruct DEC as [(P0 & I0 & B0)|ALL].
  - assert (U : exists e, (e = 1 \/ e = -1) /\ (n | e * phi P0 - 1)).
    { assert (ND : ~ (n | 2 * phi P0)) by (intros D; apply G2 in D; congruence). destruct (R (phi P0) N34) as (q & r & E & [->|[->|[->|[-> F]]]]).
      - exfalso. apply ND. exists (2 * q). lia.
      - exists 1. split; [auto|]. exists q. lia.
      - exists (-1). split; [auto|]. exists (- q). lia.
      - exfalso. apply ND. exists (2 * q + 1). subst n. lia. }
    destruct U as (e & Ee & E1). exists (fun X => e * phi X). split; [|split].
    + intros X Y. destruct (HH X Y) as [q Q]. exists (e * q). rewrite <- Z.mul_assoc, <- Q. ring.
    + intros X. destruct Ee as [->| ->]; split; intros [q Q]; [exists q|exists q|exists (- q)|exists (- q)]; lia.
    + intros P I. rewrite (IMG N34). destruct (good p P) eqn:GB; [|destruct (good p (mul 2 P)) eqn:GB2].
      * apply GP in GB. destruct GB as [q Q]. exists (- e * q). rewrite Q. ring.
      * apply G2 in GB2. destruct (D2 _ N34 GB2 (B3 P GB)) as [-> [q Q]]. destruct Ee as [->| ->]; [exists q|exists (1 - q)]; lia.
      * pose proof (SA n EC N34 P P0 I I0 GB2 B0) as S. apply GP in S. pose proof (hom_sub g GG n phi P P0 HH) as HS.
        destruct S as [a A]. destruct HS as [b B]. destruct E1 as [c C]. exists (- c - e * (a - b)).
        replace (phi P) with (phi P0 + (a - b) * n) by (rewrite Z.mul_sub_distr_r, <- B, <- A; ring). replace (1 - e * (phi P0 + (a - b) * n)) with (- (e * phi P0 - 1) - e * (a - b) * n) by ring. rewrite C. ring.
  - exists phi. split; [exact HH|]. split; [tauto|]. intros P I. rewrite (IMG N34), (ALL P I). destruct (good p P) eqn:GB.
    + apply GP in GB. destruct GB as [q Q]. exists (- q). lia.
    + destruct (D2 _ N34 (proj1 (G2 P) (ALL P I)) (B3 P GB)) as [-> D]. exact D.
Qed.

(** ** The non-cyclic case *)
Definition beq2 (a b : bool * bool) : bool := Bool.eqb (fst a) (fst b) && Bool.eqb (snd a) (snd b).
Lemma beq2_ok a b : beq2 a b = true <-> a = b.
Proof. destruct a as [[] []], b as [[] []]; cbn; split; intros H; (reflexivity || discriminate H). Qed.
Definition enc (A B v : bool * bool) : list Z := if beq2 v (false, false) then [0; 0] else if beq2 v A then [1; 0] else if beq2 v B then [0; 1] else [1; 1].
Definition fine (A B : bool * bool) : Prop := A <> (false, false) /\ B <> (false, false) /\ A <> B.
Definition pre (R : list (bool * bool)) (A B : bool * bool) : Prop := R = firstn (length R) [A; B; pxor A B].

Section NC.
Variable p : Z.
Variables phi1 phi2 : el g -> Z.
Hypothesis HH1 : hom g 2 phi1.
Hypothesis HH2 : hom g 2 phi2.
Hypothesis GP2 : forall X, good p X = true <-> (2 | phi1 X) /\ (2 | phi2 X).
Notation par := (par g phi1 phi2).
Notation ISC := (isc g GG good p phi1 phi2 HH1 HH2 GP2).

Fixpoint find2 (v : bool * bool) (i : nat) (R : list (bool * bool)) : option nat :=
  match R with [] => None | r :: R' => if beq2 v r then Some i else find2 v (S i) R' end.
Lemma find_coset_par P reps : forall i, find_coset g good p P i reps = find2 (par P) i (map par reps).
Proof.
  induction reps as [|r reps IH]; intros i; cbn [find_coset map find2]; [reflexivity|]. rewrite IH.
  destruct (beq2 (par P) (par r)) eqn:E.
  - apply beq2_ok in E. rewrite (proj2 (ISC P r) E). reflexivity.
  - destruct (InSameComponent g good P r p) eqn:F; [|reflexivity]. apply ISC in F. apply beq2_ok in F. congruence.
Qed.
Lemma good_par P : good p P = beq2 (par P) (false, false).
Proof.
  destruct (good p P) eqn:E; symmetry.
  - apply beq2_ok. apply (par_good g good p phi1 phi2 GP2). exact E.
  - destruct (beq2 (par P) (false, false)) eqn:F; [|reflexivity]. apply beq2_ok in F. apply (par_good g good p phi1 phi2 GP2) in F. unfold Good in F. congruence.
Qed.
Lemma map_nc_ok L : forall reps, (exists A B, fine A B /\ pre (map par reps) A B) ->
  exists A B, fine A B /\ pre (map par reps) A B /\ map_nc g good p L reps = Ok (map (fun P => enc A B (par P)) L).
Proof.
  induction L as [|P L IH]; intros reps (A & B & F & PR); cbn [map_nc map]; [exists A, B; auto|].
  rewrite good_par, find_coset_par.
  destruct (beq2 (par P) (false, false)) eqn:GP.
  { destruct (IH reps) as (A' & B' & F' & PR' & ->); [exists A, B; auto|]. exists A', B'. split; [exact F'|]. split; [exact PR'|]. rewrite bind_Ok. unfold enc at 2. rewrite GP. reflexivity. }
  destruct (find2 (par P) 0 (map par reps)) as [c|] eqn:FC.
  - destruct (IH reps) as (A' & B' & F' & PR' & ->); [exists A, B; auto|]. exists A', B'. split; [exact F'|]. split; [exact PR'|].
    assert (E : ims c = Ok (enc A' B' (par P))).
    { unfold enc. rewrite GP. rewrite PR' in FC. clear - FC. destruct (length (map par reps)) as [|[|[|[|k]]]]; cbn [firstn find2] in FC;
        destruct (beq2 (par P) A'); try (injection FC as <-; reflexivity); try discriminate FC;
        destruct (beq2 (par P) B'); try (injection FC as <-; reflexivity); try discriminate FC;
        destruct (beq2 (par P) (pxor A' B')); try (injection FC as <-; reflexivity); discriminate FC. }
    rewrite E, !bind_Ok. reflexivity.
  - assert (EX : exists A1 B1, fine A1 B1 /\ pre (map par (reps ++ [P])) A1 B1 /\ (length reps < 3)%nat).
    { rewrite map_app. cbn [map]. unfold pre in *. rewrite app_length. cbn [length]. destruct F as (FA & FB & FAB).
      rewrite PR in FC |- *. assert (LM : length (map par reps) = length reps) by apply map_length. rewrite LM in *. assert (NZ : par P <> (false, false)) by (intros E; rewrite E in GP; discriminate GP).
      destruct (length reps) as [|[|[|k]]] eqn:LR; cbn [firstn find2 app Nat.add length] in *.
      - destruct (par P) as [[] []]; try (exfalso; apply NZ; reflexivity); [exists (true, true), (true, false)|exists (true, false), (true, true)|exists (false, true), (true, true)];
          repeat split; try discriminate; try reflexivity; lia.
      - exists A, (par P). split; [|split; [reflexivity|lia]]. split; [exact FA|]. split; [exact NZ|]. intros E. rewrite <- E in FC. rewrite (proj2 (beq2_ok A A) eq_refl) in FC. discriminate FC.
      - exists A, B. split; [split; auto|]. split; [|lia]. do 2 f_equal. f_equal.
        destruct (beq2 (par P) A) eqn:E1; [discriminate FC|]. destruct (beq2 (par P) B) eqn:E2; [discriminate FC|]. clear - FA FB FAB E1 E2 NZ.
        destruct (par P) as [[] []], A as [[] []], B as [[] []]; try reflexivity; try discriminate E1; try discriminate E2; exfalso; solve [apply FA; reflexivity|apply FB; reflexivity|apply FAB; reflexivity|apply NZ; reflexivity].
      - exfalso. assert (IN : par P = A \/ par P = B \/ par P = pxor A B).
        { clear - FA FB FAB NZ. destruct (par P) as [[] []], A as [[] []], B as [[] []]; try (left; reflexivity); try (right; left; reflexivity); try (right; right; reflexivity); exfalso; solve [apply FA; reflexivity|apply FB; reflexivity|apply FAB; reflexivity|apply NZ; reflexivity]. }
        destruct (beq2 (par P) A) eqn:E1; [discriminate FC|]. destruct (beq2 (par P) B) eqn:E2; [discriminate FC|]. destruct (beq2 (par P) (pxor A B)) eqn:E3; [discriminate FC|].
        destruct IN as [E|[E|E]]; apply beq2_ok in E; congruence. }
    destruct EX as (A1 & B1 & F1 & PR1 & LR). destruct (IH (reps ++ [P])) as (A' & B' & F' & PR' & ->); [exists A1, B1; auto|]. exists A', B'. split; [exact F'|].
    unfold pre in PR'. rewrite map_app in PR'. cbn [map] in PR'. rewrite app_length in PR'. cbn [length] in PR'. assert (LM : length (map par reps) = length reps) by apply map_length. rewrite LM in PR'.
    unfold pre. rewrite LM. remember (map par reps) as Rs eqn:ERs. destruct F' as (FA & FB & FAB).
    destruct reps as [|r1 [|r2 [|r3 reps]]]; [| | |cbn in LR; lia]; subst Rs; cbn [length map app firstn Nat.add] in *.
    + pose proof (f_equal (fun l => nth 0 l A') PR') as E1; cbn [nth] in E1. split; [reflexivity|]. cbn [ims]. rewrite !bind_Ok. unfold enc at 2. rewrite GP, (proj2 (beq2_ok _ _) E1). reflexivity.
    + pose proof (f_equal (fun l => nth 0 l A') PR') as E1; pose proof (f_equal (fun l => nth 1 l A') PR') as E2; cbn [nth] in E1, E2. split; [rewrite E1; reflexivity|]. cbn [ims]. rewrite !bind_Ok. unfold enc at 2. rewrite GP, (proj2 (beq2_ok _ _) E2).
      destruct (beq2 (par P) A') eqn:E3; [|reflexivity]. apply beq2_ok in E3. congruence.
    + pose proof (f_equal (fun l => nth 0 l A') PR') as E1; pose proof (f_equal (fun l => nth 1 l A') PR') as E2; pose proof (f_equal (fun l => nth 2 l A') PR') as E3; cbn [nth] in E1, E2, E3. split; [rewrite E1, E2; reflexivity|]. cbn [ims]. rewrite !bind_Ok. unfold enc at 2. rewrite GP.
      destruct (beq2 (par P) A') eqn:E4; [apply beq2_ok in E4; exfalso; rewrite E4 in E3; clear - E3 FA FB FAB; destruct A' as [[] []], B' as [[] []]; try discriminate E3; solve [apply FB; reflexivity]|].
      destruct (beq2 (par P) B') eqn:E5; [apply beq2_ok in E5; exfalso; rewrite E5 in E3; clear - E3 FA FB FAB; destruct A' as [[] []], B' as [[] []]; try discriminate E3; solve [apply FA; reflexivity]|].
      reflexivity.
Qed.
Lemma nc_maps L : cg p = [2; 2] -> exists rows Phi, MapPoints g good im_Im cg L p = Ok rows /\ maps [2; 2] (fun X => good p X = true) Phi L rows.
Proof.
  intros EC. unfold MapPoints. rewrite EC. destruct (map_nc_ok L []) as (A & B & F & _ & E).
  { exists (true, false), (false, true). repeat split; discriminate. }
  eexists. exists (fun j X => nth j (enc A B (par X)) 0). split; [exact E|]. split; [|split].
  - assert (HM : forall u v j, (j < 2)%nat -> (2 | nth j (enc A B (pxor u v)) 0 - (nth j (enc A B u) 0 + nth j (enc A B v) 0))).
    { destruct F as (FA & FB & FAB). intros u v j J. destruct j as [|[|j]]; [| |lia]; clear - FA FB FAB; destruct A as [[] []], B as [[] []];
        try (exfalso; solve [apply FA; reflexivity|apply FB; reflexivity|apply FAB; reflexivity]); destruct u as [[] []], v as [[] []]; cbn; solve [apply Z.divide_0_r|exists (-1); reflexivity]. }
    intros j J. cbn [length] in J. split; [destruct j as [|[|j]]; cbn; lia|]. intros X Y. rewrite (par_add g phi1 phi2 HH1 HH2). replace (nth j [2; 2] 0) with 2 by (destruct j as [|[|j]]; [reflexivity|reflexivity|lia]). apply HM, J.
  - intros X. rewrite (good_par X). split.
    + intros Z0 j J. unfold enc. rewrite Z0. destruct j as [|[|j]]; cbn; try apply Z.divide_0_r. cbn in J. lia.
    + intros D. pose proof (D 0%nat ltac:(cbn; lia)) as D0. pose proof (D 1%nat ltac:(cbn; lia)) as D1. revert D0 D1. unfold enc.
      destruct (beq2 (par X) (false, false)); [reflexivity|]. destruct (beq2 (par X) A); [|destruct (beq2 (par X) B)]; cbn; intros [a Ea] [b Eb]; lia.
  - clear. induction L as [|P L IH]; cbn [map]; constructor; [|exact IH]. split.
    + unfold enc. destruct (beq2 (par P) (false, false)); [|destruct (beq2 (par P) A); [|destruct (beq2 (par P) B)]]; reflexivity.
    + intros j J. rewrite Z.sub_diag. apply Z.divide_0_r.
Qed.
End NC.

(** ** All primes *)
Theorem MapPoints_ok L p : component_map g (good p) (im_Im p) (cg p) -> signs_agree p L ->
  exists rows Phi, MapPoints g good im_Im cg L p = Ok rows /\ maps (cg p) (fun X => good p X = true) Phi L rows.
Proof.
  intros [(n & phi & E & N & H & GP & IM)|(f1 & f2 & E & H1 & H2 & GP)] SA.
  - destruct (cyc_maps p n phi L N H GP IM E SA) as (r & Phi & A & B). rewrite E. eauto.
  - destruct (nc_maps p f1 f2 H1 H2 GP L E) as (r & Phi & A & B). rewrite E. eauto.
Qed.
Lemma index_matrix_ok L ps : (forall p, In p ps -> component_map g (good p) (im_Im p) (cg p) /\ signs_agree p L) ->
  exists rows mods Phi, index_matrix g good im_Im cg L ps = Ok (rows, mods) /\ maps mods (all_good g good ps) Phi L rows.
Proof.
  induction ps as [|p ps IH]; intros H; cbn [index_matrix].
  - eexists; eexists; exists (fun _ _ => 0). split; [reflexivity|]. split; [intros j J; cbn in J; lia|]. split.
    + intros X. split; [intros _ j J; cbn in J; lia|intros _ q []].
    + clear. induction L; constructor; [|assumption]. split; [reflexivity|intros j J; cbn in J; lia].
  - destruct (H p (or_introl eq_refl)) as [CM SA]. destruct (MapPoints_ok L p CM SA) as (r1 & Phi1 & -> & H1 & K1 & F1). rewrite bind_Ok.
    destruct IH as (r2 & mods & Phi2 & -> & H2 & K2 & F2); [intros q I; apply H; right; exact I|]. rewrite bind_Ok.
    set (n1 := length (cg p)) in *. set (Phi := fun j X => if Nat.ltb j n1 then Phi1 j X else Phi2 (j - n1)%nat X).
    assert (PA : forall j, (j < n1)%nat -> Phi j = Phi1 j) by (intros j J; unfold Phi; destruct (Nat.ltb_spec j n1); [reflexivity|lia]).
    assert (PB : forall j, (n1 <= j)%nat -> Phi j = Phi2 (j - n1)%nat) by (intros j J; unfold Phi; destruct (Nat.ltb_spec j n1); [lia|reflexivity]).
    assert (NA : forall j, (j < n1)%nat -> nth j (cg p ++ mods) 0 = nth j (cg p) 0) by (intros j J; apply app_nth1, J).
    assert (NB : forall j, (n1 <= j)%nat -> nth j (cg p ++ mods) 0 = nth (j - n1) mods 0) by (intros j J; apply app_nth2, J).
    assert (LA : length (cg p ++ mods) = (n1 + length mods)%nat) by apply app_length.
    eexists; eexists; exists Phi. split; [reflexivity|]. split; [|split].
    + intros j J. rewrite LA in J. destruct (lt_dec j n1) as [A|A].
      * rewrite NA, PA by exact A. apply H1, A.
      * rewrite NB, PB by lia. apply H2. lia.
    + intros X. rewrite LA. split.
      * intros AG j J. destruct (lt_dec j n1) as [A|A].
        -- rewrite NA, PA by exact A. apply K1; [|exact A]. apply AG. left. reflexivity.
        -- rewrite NB, PB by lia. apply K2; [|lia]. intros q I. apply AG. right. exact I.
      * intros D q [<-|I].
        -- apply K1. intros j J. rewrite <- NA, <- PA by exact J. apply D. lia.
        -- revert q I. apply K2. intros j J. specialize (D (n1 + j)%nat ltac:(lia)). rewrite NB, PB in D by lia. replace (n1 + j - n1)%nat with j in D by lia. exact D.
    + clear - F1 F2 PA PB NA NB LA. revert r2 F2. induction F1 as [|P a L r1 [A1 A2] F1 IH]; intros r2 F2; inversion F2 as [|? b ? r2' [B1 B2] F2']; subst; cbn [combine map]; constructor; [|apply IH, F2'].
      cbn [fst snd]. fold n1 in A1, A2. rewrite LA, app_length, A1, B1. split; [reflexivity|]. intros j J. destruct (lt_dec j n1) as [A|A].
      * rewrite NA, PA, app_nth1 by lia. apply A2, A.
      * rewrite NB, PB, app_nth2 by lia. rewrite A1. apply B2. lia.
Qed.
Theorem egr_index_ok L ps : (forall p, In p ps -> component_map g (good p) (im_Im p) (cg p) /\ signs_agree p L) ->
  exists N, egr_index g good im_Im cg L ps = Ok N /\ index_is g (span L) (fun X => span L X /\ all_good g good ps X) N.
Proof.
  intros H. destruct (index_matrix_ok L ps H) as (rows & mods & Phi & E & M).
  destruct L as [|P L].
  - exists 1. split; [reflexivity|]. pose proof (maps_sub _ _ _ _ _ M) as SG. exists [0']. split; [reflexivity|]. split; [repeat constructor; apply (span_sub g GG)|]. split; [repeat constructor|].
    intros X SX. exists 0'. split; [left; reflexivity|]. rewrite (gneg0 g GG), (g0r g GG). split; [exact SX|]. destruct SX as [cs ->]. destruct cs; apply SG.
  - unfold egr_index. rewrite E, bind_Ok. destruct (comp_map_image_ok mods rows) as (N & EN & IO).
    + intros j J. apply M, J.
    + destruct M as (_ & _ & F). intros r I. destruct (Forall2_in_r _ _ _ r F I) as (Q & _ & LR & _). exact LR.
    + exists N. split; [exact EN|]. apply (maps_index _ _ _ _ _ _ M IO).
Qed.
End S.
