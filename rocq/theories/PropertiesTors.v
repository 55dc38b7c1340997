(** C81: points of order 2, 3 and m *)
From Coq Require Import ZArith Lia List Bool QArith Qcanon Sorted.
From Verif Require Import Base RatModel CurveModel CurveProofs DivPolModel DivPolProofs PointsModel GroupLaw QcGroup PointsProofs PointsGroup NagLutz DivPolQ RootsModel RootsProofs TorsModel TorsProofs PropertiesRoots.
Import ListNotations.
Open Scope Z_scope.

(** [tors_list E S l]: l lists the rational points of E with property S, each once, as
    reduced triples, sorted by order, Z, X, Y.  [pt_order E m T]: T has order m.
    [introots_right]: introots returns exactly the integer roots of nonzero polynomials. *)
Local Notation TWO r E f x := (two_torsion r E (sb2 E) (sb4 E) (sb6 E) f x).
Local Notation THREE r E f x := (three_torsion r E (sb2 E) (sb4 E) (sb6 E) (sb8 E) f x).
Local Notation TORS r E f m x := (m_torsion r E (sb2 E) (sb4 E) (sb6 E) f m x).

(** the contract, from that of NTL's factor *)
Theorem C81_contract factor : (forall f, (exists j, coeff f j <> 0) -> factor_ok f (factor f)) -> introots_right (introots factor) /\ roots_right (zroots factor).
Proof. intros H. split; intros f Hf; [apply introots_ok|apply zroots_ok]; now apply H. Qed.

(** two_torsion: if a1 or a3 is odd or both are 0, the points of order 1 and 2 *)
Theorem C81_two_torsion_partial introots E (exact : bool) : introots_right introots -> sdisc E <> 0 ->
  Z.odd (a1 E) = true \/ Z.odd (a3 E) = true \/ a1 E = 0 /\ a3 E = 0 ->
  exists f0, forall fuel, (f0 <= fuel)%nat -> exists l, TWO introots E fuel exact = Ok l /\
    tors_list E (fun T => if exact then pt_order E 2 T else emul E 2 T = Inf) l.
Proof. intros IR HD H. destruct (two_torsion_ok E HD introots IR exact H) as (f0 & HF). exists f0. intros fuel Hf. destruct (HF fuel Hf) as (l & A & B & _). now exists l. Qed.

(** three_torsion: the points of order 1 and 3, for all curves *)
Theorem C81_three_torsion introots E (exact : bool) : introots_right introots -> sdisc E <> 0 ->
  exists f0, forall fuel, (f0 <= fuel)%nat -> exists l, THREE introots E fuel exact = Ok l /\
    tors_list E (fun T => if exact then pt_order E 3 T else emul E 3 T = Inf) l.
Proof. intros IR HD. destruct (three_torsion_ok E HD introots IR exact) as (f0 & HF). exists f0. intros fuel Hf. destruct (HF fuel Hf) as (l & A & B & _). now exists l. Qed.

(** m_torsion with exact = 1: the points of order |m|, for |m| >= 3 *)
Theorem C81_exact_order introots E m : introots_right introots -> sdisc E <> 0 -> 3 <= Z.abs m <= max32 ->
  exists f0, forall fuel, (f0 <= fuel)%nat -> exists l, TORS introots E fuel m true = Ok l /\ tors_list E (pt_order E (Z.abs m)) l.
Proof. intros IR HD H. destruct (m_torsion_ge3 E HD introots IR m true (proj1 H)) as (f0 & HF). exists f0. intros fuel Hf. destruct (HF fuel Hf) as (l & A & B & _). now exists l. Qed.

(** m_torsion with exact = 0: the points killed by m when m is odd; when m is even, those
    of order 2 are missing *)
Theorem C81_m_torsion_partial introots E m : introots_right introots -> sdisc E <> 0 -> 3 <= Z.abs m <= max32 ->
  exists f0, forall fuel, (f0 <= fuel)%nat -> exists l, TORS introots E fuel m false = Ok l /\
    (Z.odd m = true -> tors_list E (fun T => emul E (Z.to_nat (Z.abs m)) T = Inf) l) /\
    (Z.odd m = false -> tors_list E (fun T => emul E (Z.to_nat (Z.abs m)) T = Inf /\ (T = Inf \/ emul E 2 T <> Inf)) l).
Proof.
  intros IR HD H. destruct (m_torsion_ge3 E HD introots IR m false (proj1 H)) as (f0 & HF). exists f0. intros fuel Hf. destruct (HF fuel Hf) as (l & El & (A & B & C & D) & _).
  exists l. split; [exact El|]. assert (O : Z.odd (Z.abs m) = Z.odd m) by (destruct m; reflexivity).
  split; intros Om; (split; [exact A|]); (split; [exact B|]); (split; [exact C|]); intros T; rewrite D; unfold got; rewrite O, Om.
  - split; [tauto|]. intros [X Y]. auto.
  - split; [|tauto]. intros (X & Y & [Z|[Z|Z]]); [auto|discriminate|auto].
Qed.
(** m = 1 and m = 2 *)
Theorem C81_small introots E fuel (exact : bool) : sdisc E <> 0 ->
  TORS introots E fuel 2 exact = TWO introots E fuel exact /\ TORS introots E fuel (-2) exact = TWO introots E fuel exact /\
  TORS introots E fuel 1 false = Ok [infpt] /\ tors_list E (fun T => emul E 1 T = Inf) [infpt].
Proof.
  intros HD. split; [reflexivity|]. split; [reflexivity|]. split; [reflexivity|]. destruct (inf_tok E) as [(V & R & _) _].
  split; [auto|]. split; [repeat constructor; auto|]. split; [repeat constructor|]. intros T. cbn [map In]. change (aff infpt) with (@Inf Qc). split.
  - intros [<-|[]]. split; [exact I|reflexivity].
  - intros [_ Q]. cbn [emul] in Q. rewrite eadd_inf_r in Q. now left.
Qed.

(** ** the integer roots by trial *)
Definition heval (f : poly) (n : Z) : Z := fold_right (fun a r => a + n * r) 0 f.
(** the nonzero coefficient of lowest degree *)
Fixpoint lowest (f : poly) : Z := match f with [] => 0 | a :: g => if a =? 0 then lowest g else Z.abs a end.
Definition bf_introots (f : poly) : res (list Z) :=
  let B := lowest f in
  Ok (filter (fun n => heval f n =? 0) (map (fun i => Z.of_nat i - B) (seq 0 (Z.to_nat (2 * B + 1))))).
Lemma lowest_pos f : 0 <= lowest f.
Proof. induction f as [|a f IH]; cbn [lowest]; [lia|]. destruct (a =? 0); lia. Qed.
Lemma root_bound f n : n <> 0 -> (exists j, coeff f j <> 0) -> heval f n = 0 -> Z.abs n <= lowest f.
Proof.
  intros Hn. induction f as [|a f IH]; intros (j & Hj) H.
  - exfalso. apply Hj. unfold coeff. now destruct j.
  - cbn [heval lowest fold_right] in *. fold (heval f n) in H. destruct (Z.eqb_spec a 0) as [->|Na].
    + assert (HH : heval f n = 0) by nia. destruct j as [|j]; [now destruct Hj|]. exact (IH (ex_intro _ j Hj) HH).
    + assert (D : (n | a)) by (exists (- heval f n); lia). apply Z.divide_abs_l, Z.divide_abs_r in D. apply Z.divide_pos_le in D; [|lia]. lia.
Qed.
Lemma seq_sorted B k : forall s, StronglySorted Z.lt (map (fun i => Z.of_nat i - B) (seq s k)).
Proof.
  induction k as [|k IH]; intros s; cbn [seq map]; constructor; [apply IH|]. apply Forall_forall. intros x I. apply in_map_iff in I as (i & <- & Ii). apply in_seq in Ii. lia.
Qed.
Lemma filter_sorted (p : Z -> bool) l : StronglySorted Z.lt l -> StronglySorted Z.lt (filter p l).
Proof.
  induction 1 as [|x l S IH F]; cbn [filter]; [constructor|]. destruct (p x); [|exact IH]. constructor; [exact IH|].
  rewrite Forall_forall in F |- *. intros y I. apply filter_In in I. now apply F.
Qed.
Lemma bf_introots_ok : introots_right bf_introots.
Proof.
  intros f Hf. eexists. split; [reflexivity|]. split; [|apply filter_sorted, seq_sorted]. intros n. rewrite filter_In, in_map_iff, peval_zq, Z.eqb_eq. fold (heval f n).
  split; [tauto|]. intros H. split; [|exact H]. pose proof (lowest_pos f). assert (B : Z.abs n <= lowest f) by (destruct (Z.eq_dec n 0) as [->|N]; [cbn; lia|now apply root_bound]).
  exists (Z.to_nat (n + lowest f)). split; [lia|]. apply in_seq. lia.
Qed.
(** the list of the integer roots is determined *)
Lemma sorted_eq l : forall l', StronglySorted Z.lt l -> StronglySorted Z.lt l' -> (forall x, In x l <-> In x l') -> l = l'.
Proof.
  induction l as [|x l IH]; intros [|y l'] S S' H; [reflexivity|destruct (proj2 (H y)); now left|destruct (proj1 (H x)); now left|].
  inversion S as [|? ? S1 F1]; subst. inversion S' as [|? ? S2 F2]; subst. rewrite Forall_forall in F1, F2.
  assert (x = y).
  { destruct (proj1 (H x) (or_introl eq_refl)) as [|I]; [auto|]. destruct (proj2 (H y) (or_introl eq_refl)) as [|J]; [auto|]. specialize (F1 _ J). specialize (F2 _ I). lia. }
  subst y. f_equal. apply IH; auto. intros z. split; intros I.
  - destruct (proj1 (H z) (or_intror I)) as [<-|J]; [|exact J]. specialize (F1 _ I). lia.
  - destruct (proj2 (H z) (or_intror I)) as [<-|J]; [|exact J]. specialize (F2 _ I). lia.
Qed.
Lemma introots_det introots f : introots_right introots -> (exists j, coeff f j <> 0) -> introots f = bf_introots f.
Proof.
  intros H Hf. destruct (H f Hf) as (l & -> & I & S). destruct (bf_introots_ok f Hf) as (l' & -> & I' & S'). f_equal. apply sorted_eq; auto. intros x. now rewrite I, I'.
Qed.

(** ** where the functions are wrong *)
(** y^2+2xy = x^3-x: a1 is even but not 0; the function returns (1,0), which is on the
    curve but not of order 2 *)
Definition e2 := Cv 2 0 0 (-1) 0.
Theorem C81_two_torsion_refuted : exists E, sdisc E <> 0 /\ forall introots, introots_right introots ->
  exists fuel l P, TWO introots E fuel true = Ok l /\ In P l /\ proj_on E P /\ emul E 2 (aff P) <> Inf.
Proof.
  exists e2. split; [vm_compute; discriminate|]. intros introots IR.
  assert (Q : TWO introots e2 10 true = TWO bf_introots e2 10 true).
  { unfold two_torsion. cbn [a1 a2 a3 a4 a6 e2 Z.odd orb]. rewrite (introots_det introots); auto. exists 3%nat. cbn. lia. }
  exists 10%nat, [Pt 0 0 1 0; Pt 1 0 1 0; Pt (-1) 0 1 0], (Pt 1 0 1 0). rewrite Q. split; [vm_compute; reflexivity|]. split; [cbn; auto|].
  split; [split; [cbn; lia|reflexivity]|vm_compute; discriminate].
Qed.
(** y^2 = x^3+4x, m = 4, exact = 0: the point (0,0) of order 2 is missing *)
Definition e32 := Cv 0 0 0 4 0.
Lemma div_pol_4_32 : DivPolModel.div_pol 0 0 0 4 0 10 4 = Ok [-128; 0; -160; 0; 40; 0; 2].
Proof. reflexivity. Qed.
Theorem C81_m_torsion_refuted : exists E T, sdisc E <> 0 /\ eon_pt E T /\ emul E 4 T = Inf /\ forall introots, introots_right introots ->
  exists fuel l, TORS introots E fuel 4 false = Ok l /\ ~ In T (map aff l).
Proof.
  exists e32, (Aff (zq 0) (zq 0)). split; [vm_compute; discriminate|]. split; [apply Qc_is_canon; vm_compute; reflexivity|]. split; [vm_compute; reflexivity|]. intros introots IR.
  exists 10%nat. destruct (C81_m_torsion_partial introots e32 4 IR ltac:(vm_compute; discriminate) ltac:(cbn; unfold max32; lia)) as (f0 & H).
  assert (Q : TORS introots e32 10 4 false = TORS bf_introots e32 10 4 false).
  { unfold m_torsion. change (Z.abs 4) with 4. cbn [Z.eqb]. cbv iota. cbn [a1 a2 a3 a4 a6 e32]. change (Pos.eqb 4 2) with false. cbv iota. change (Pos.eqb 4 1) with false. cbv iota.
    rewrite div_pol_4_32, !bind_Ok. rewrite (introots_det introots); auto. exists 6%nat. cbn. lia. }
  exists [infpt; Pt 2 (-4) 1 0; Pt 2 4 1 0]. rewrite Q. split; [vm_compute; reflexivity|]. cbn [map In].
  intros [C|[C|[C|[]]]]; [discriminate C| |]; apply Aff_inj in C as [C _]; apply (f_equal this) in C; vm_compute in C; discriminate C.
Qed.
(** m = 1, exact = 1: the point at infinity, the only one of order 1, is not returned *)
Theorem C81_order_one_refuted : forall E, sdisc E <> 0 -> eon_pt E Inf /\ pt_order E 1 Inf /\ forall introots fuel, TORS introots E fuel 1 true = Ok [].
Proof.
  intros E _. split; [exact I|]. split; [|reflexivity]. split; [lia|]. split; [reflexivity|]. intros j Hj. change (Z.to_nat 1) with 1%nat in Hj. lia.
Qed.

(** y^2+y = x^3-x^2: four points of order 5; y^2+xy = x^3+4x+1: a point of order 2 with
    denominators 4 and 8; y^2+y = x^3: two of order 3 *)
Definition e11 := Cv 0 (-1) 1 0 0.
Example C81_ex : introots_right bf_introots /\ sdisc e11 <> 0 /\
  TORS bf_introots e11 10 5 true = Ok [Pt 0 (-1) 1 5; Pt 0 0 1 5; Pt 1 (-1) 1 5; Pt 1 0 1 5] /\
  TORS bf_introots e11 10 (-5) false = Ok [infpt; Pt 0 (-1) 1 0; Pt 0 0 1 0; Pt 1 (-1) 1 0; Pt 1 0 1 0] /\
  TWO bf_introots (Cv 1 0 0 4 1) 10 false = Ok [infpt; Pt (-2) 1 8 0] /\ sdisc (Cv 1 0 0 4 1) <> 0 /\
  THREE bf_introots (Cv 0 0 1 0 0) 10 false = Ok [infpt; Pt 0 (-1) 1 0; Pt 0 0 1 0] /\ sdisc (Cv 0 0 1 0 0) <> 0.
Proof.
  split; [apply bf_introots_ok|]. split; [vm_compute; discriminate|]. split; [vm_compute; reflexivity|]. split; [vm_compute; reflexivity|].
  split; [vm_compute; reflexivity|]. split; [vm_compute; discriminate|]. split; [vm_compute; reflexivity|vm_compute; discriminate].
Qed.

Print Assumptions C81_contract.
Print Assumptions C81_two_torsion_partial.
Print Assumptions C81_two_torsion_refuted.
Print Assumptions C81_three_torsion.
Print Assumptions C81_exact_order.
Print Assumptions C81_m_torsion_partial.
Print Assumptions C81_m_torsion_refuted.
Print Assumptions C81_small.
Print Assumptions C81_order_one_refuted.
