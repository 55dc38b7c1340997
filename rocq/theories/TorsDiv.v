(** The points Q with m*Q = P: division_points *)
From Coq Require Import ZArith Znumtheory Lia List Bool QArith Qcanon Arith Permutation Sorted.
From Verif Require Import Base RatModel MArithModel CurveModel CurveProofs DivPolModel PointsModel GroupLaw QcGroup PointsProofs PointsGroup PointsMore NagLutz OrderTot DivPolQ PropertiesDivPol RootsModel RootsProofs TorsModel TorsProofs TorsAll.
Import ListNotations.
Open Scope Z_scope.

(** m*T for an integer m *)
Definition zmulE (E : curve) (m : Z) (T : pt Qc) : pt Qc := if m <? 0 then eneg E (emul E (Z.to_nat (- m)) T) else emul E (Z.to_nat m) T.
Definition div_list (E : curve) (m : Z) (P : point) (l : list point) : Prop :=
  Forall (fun Q => proj_on E Q /\ reduced Q) l /\ NoDup (map aff l) /\ forall T, In T (map aff l) <-> eon_pt E T /\ zmulE E m T = aff P.

Section OnE.
Variable E : curve.
Hypothesis HD : sdisc E <> 0.
Local Notation on := (eon_pt E).
Local Notation "P ++ Q" := (eadd E P Q).
Local Notation mul := (emul E).

Lemma eneg_eneg T : eneg E (eneg E T) = T.
Proof. destruct T as [|x y]; [reflexivity|]. unfold eneg, qneg, neg. f_equal. ring. Qed.
Lemma div_test_ok m P Q : proj_on E P -> proj_on E Q -> - max32 <= m <= max32 -> exists b, div_test E m P Q = Ok b /\ (b = true <-> zmulE E m (aff Q) = aff P).
Proof.
  intros VP VQ Hm. destruct (p_mul_spec E HD m Q VQ Hm) as (R & ER & VR & AR). unfold div_test. rewrite ER, bind_Ok. eexists. split; [reflexivity|].
  rewrite (p_eq_aff E) by auto. rewrite AR. reflexivity.
Qed.

(** ** P a torsion point *)
Lemma filter_ok m P l : proj_on E P -> - max32 <= m <= max32 -> Forall (fun Q => proj_on E Q /\ reduced Q) l -> NoDup (map aff l) ->
  exists l', filterM (div_test E m P) l = Ok l' /\ Forall (fun Q => proj_on E Q /\ reduced Q) l' /\ NoDup (map aff l') /\
    forall T, In T (map aff l') <-> In T (map aff l) /\ zmulE E m T = aff P.
Proof.
  intros VP Hm. induction l as [|Q l IH]; intros F N.
  { exists []. split; [reflexivity|]. split; [constructor|]. split; [constructor|]. intros T. cbn [map In]. tauto. }
  pose proof (Forall_inv F) as [VQ RQ]. cbn [map] in N. apply NoDup_cons_iff in N as [NQ N]. destruct (IH (Forall_inv_tail F) N) as (l' & E1 & F' & N' & I').
  destruct (div_test_ok m P Q VP VQ Hm) as (b & Eb & Hb). cbn [filterM]. rewrite Eb, bind_Ok, E1, bind_Ok. eexists. split; [reflexivity|]. destruct b.
  - split; [constructor; auto|]. split; [cbn [map]; constructor; [|exact N']; intros J; apply I' in J; tauto|]. intros T. cbn [map In]. rewrite I'. pose proof (proj1 Hb eq_refl). split; [intros [<-|]; tauto|tauto].
  - split; [exact F'|]. split; [exact N'|]. intros T. rewrite I'. cbn [map In]. split; [tauto|]. intros [[<-|J] Z]; [apply Hb in Z; discriminate|auto].
Qed.
Variable introots : poly -> res (list Z).
Hypothesis IR : introots_right introots.
Variable roots : poly -> res (list rat).
Hypothesis RR : roots_right roots.
Local Notation DIVP := (division_points introots roots E (sb2 E) (sb4 E) (sb6 E)).

Theorem div_torsion m P : (Z.odd (a1 E) = true \/ Z.odd (a3 E) = true \/ a1 E = 0 /\ a3 E = 0) -> mazur E -> tok E P -> m <> 0 -> - max32 <= m <= max32 ->
  exists f0, forall fuel, (f0 <= fuel)%nat -> exists l, DIVP fuel m P = Ok l /\ div_list E m P l.
Proof.
  intros HA MZ KP Hm0 Hm. destruct (torsion_points_ok E HD introots IR HA MZ) as (f1 & W). destruct (tok_order E HD P KP) as (o & f2 & Ho & Eo). pose proof KP as (VP & RP & (k & Hk & Tk) & _).
  exists (f1 + f2)%nat. intros fuel Hf. destruct (W fuel ltac:(lia)) as (l & El & (F & N & _ & TL) & _). unfold division_points. rewrite Eo, bind_Ok by lia. cbv beta iota.
  destruct Ho as (Op & _). destruct (Z.ltb_spec 0 o); [|lia]. rewrite El, bind_Ok.
  assert (VP' : proj_on E (Pt (pX P) (pY P) (pZ P) o)) by exact VP.
  destruct (filter_ok m _ l VP' Hm F N) as (l' & E' & F' & N' & I'). exists l'. split; [exact E'|]. split; [exact F'|]. split; [exact N'|].
  change (aff (Pt (pX P) (pY P) (pZ P) o)) with (aff P) in I'. intros T. rewrite I', TL. split; [tauto|]. intros [OT ZT]. split; [|auto]. split; [auto|].
  (* m*T torsion and m nonzero: T torsion *)
  unfold zmulE in ZT. destruct (Z.ltb_spec m 0).
  - exists (k * Z.to_nat (- m))%nat. split; [nia|]. rewrite (emul_mul E HD) by auto. assert (Z1 : mul (Z.to_nat (- m)) T = eneg E (aff P)) by (rewrite <- ZT; now rewrite eneg_eneg).
    rewrite Z1, (emul_neg E HD), Tk by now apply aff_on_all. reflexivity.
  - exists (k * Z.to_nat m)%nat. split; [nia|]. rewrite (emul_mul E HD) by auto. now rewrite ZT.
Qed.

(** ** P of infinite order *)
Lemma pfx_rat n d : 0 < d -> Z.gcd n d = 1 -> exists L, points_from_x E (sb2 E) (sb4 E) (sb6 E) (n, d) = Ok L /\ Forall (fun P => proj_on E P /\ reduced P) L /\
  forall T, In T (map aff L) <-> on T /\ exists y, T = Aff (zq n / zq d)%Qc y.
Proof.
  intros D G. destruct (pfx_ok E n d D G) as (L & EL & A & B & _). exists L. split; [exact EL|]. split.
  - apply Forall_forall. intros P IP. destruct (A P IP) as (V & R & _). auto.
  - intros T. rewrite in_map_iff. split.
    + intros (P & <- & IP). destruct (A P IP) as (V & R & NZ & HX). split; [now apply aff_on_all|]. unfold aff. destruct (Z.eqb_spec (pZ P) 0); [contradiction|].
      eexists. f_equal. apply frac_eq; [auto|lia|]. lia.
    + intros (HT & y & ->). destruct (lift_pt E _ y HT) as (P & V & R & AP & _). pose proof AP as AP'. unfold aff in AP'. destruct (Z.eqb_spec (pZ P) 0) as [|NZ]; [discriminate|]. apply Aff_inj in AP' as [HX _].
      destruct (B P V) as (Q & IQ & SQ). { split; [auto|]. apply frac_eq in HX; auto; lia. }
      exists Q. split; [|exact IQ]. rewrite <- AP. symmetry. now apply aff_same.
Qed.
Lemma same_abs x y y' : on (Aff x y) -> on (Aff x y') -> Aff x y = Aff x y' \/ Aff x y = eneg E (Aff x y').
Proof.
  intros O O'. destruct (Qc_eq_dec y (- y' - zq (a1 E) * x - zq (a3 E))%Qc) as [Ev|Nv]; [right; rewrite Ev; reflexivity|left].
  f_equal. exact (proj1 (@qsame_x (zq (a1 E)) (zq (a2 E)) (zq (a3 E)) (zq (a4 E)) (zq (a6 E)) x y y' O O' Nv)).
Qed.
Lemma no_coeff r : (exists j, coeff r j <> 0) \/ forall x, peval r x = 0%Qc.
Proof.
  induction r as [|c r [(j & Hj)|IH]]; [right; reflexivity|left; exists (S j); exact Hj|]. destruct (Z.eq_dec c 0) as [->|NC]; [right|left; exists 0%nat; exact NC].
  intros x. cbn [peval]. rewrite IH. change (zq 0) with 0%Qc. ring.
Qed.
Section Inf.
Variable P : point.
Hypothesis VP : proj_on E P.
Hypothesis RP : reduced P.
Hypothesis NT : forall n, (1 <= n)%nat -> mul n (aff P) <> Inf.
Variable m : Z.
Hypothesis Hm : 1 <= m <= max32.
Local Notation M := (Z.to_nat m).
Let OP : on (aff P) := aff_on_all E P VP.
Lemma neg_ne : eneg E (aff P) <> aff P.
Proof. intros Q. apply (NT 2); [lia|]. rewrite emul_S2. rewrite <- Q at 2. apply eadd_neg_r. Qed.
Variable r : poly.
Hypothesis Hr : forall x y, on (Aff x y) -> (peval r x = 0%Qc <-> mul M (Aff x y) = aff P \/ mul M (Aff x y) = eneg E (aff P)).
Lemma r_nz : exists j, coeff r j <> 0.
Proof.
  destruct (no_coeff r) as [H|H]; [exact H|exfalso]. pose proof (emul_on E 2 _ OP) as O2. destruct (mul 2 (aff P)) as [|x y] eqn:E2; [apply (NT 2); auto|].
  destruct (proj1 (Hr x y O2) (H x)) as [Q|Q]; rewrite <- E2, <- (emul_mul E HD) in Q by auto.
  - apply (NT (M * 2 - 1)); [lia|]. apply (eadd_cancel E HD (aff P)); auto using emul_on; [exact I|]. rewrite eadd_inf_r. transitivity (mul (M * 2) (aff P)); [|exact Q].
    change (mul (S (M * 2 - 1)) (aff P) = mul (M * 2) (aff P)). replace (S (M * 2 - 1)) with (M * 2)%nat by lia. reflexivity.
  - apply (NT (S (M * 2))); [lia|]. cbn [emul]. rewrite Q. apply eadd_neg_r.
Qed.
Lemma root_ok n d : 0 < d -> Z.gcd n d = 1 -> peval r (zq n / zq d)%Qc = 0%Qc -> exists L, div_root E (sb2 E) (sb4 E) (sb6 E) m P (n, d) = Ok L /\
  Forall (fun Q => proj_on E Q /\ reduced Q) L /\ NoDup (map aff L) /\ forall T, In T (map aff L) <-> on T /\ mul M T = aff P /\ exists y, T = Aff (zq n / zq d)%Qc y.
Proof.
  intros D G Z0. destruct (pfx_rat n d D G) as (L & EL & F & IL). unfold div_root. rewrite EL, bind_Ok. destruct L as [|Q L'].
  { exists []. split; [reflexivity|]. split; [constructor|]. split; [constructor|]. intros T. split; [intros []|]. intros (OT & _ & HY). apply (IL T). auto. }
  pose proof (Forall_inv F) as [VQ RQ]. destruct (div_test_ok m P Q VP VQ ltac:(unfold max32 in *; lia)) as (b & Eb & Hb). rewrite Eb, bind_Ok. eexists. split; [reflexivity|].
  assert (ZM : zmulE E m (aff Q) = mul M (aff Q)) by (unfold zmulE; destruct (Z.ltb_spec m 0); [lia|reflexivity]). rewrite ZM in Hb.
  destruct (proj1 (IL (aff Q)) (or_introl eq_refl)) as (OQ & y & AQ).
  assert (PM : mul M (aff Q) = aff P \/ mul M (aff Q) = eneg E (aff P)) by (rewrite AQ in OQ |- *; now apply (Hr _ _ OQ)).
  assert (NQ : mul M (eneg E (aff Q)) = eneg E (mul M (aff Q))) by (apply (emul_neg E HD); exact OQ).
  split; [constructor; [|constructor]; destruct b; [auto|split; [now apply neg_valid|now apply neg_red]]|].
  split; [cbn [map]; constructor; [intros []|constructor]|]. intros T. cbn [map In]. destruct b.
  - pose proof (proj1 Hb eq_refl) as MQ. split.
    + intros [<-|[]]. split; [auto|]. split; [auto|]. now exists y.
    + intros (OT & MT & y' & ->). left. rewrite AQ. rewrite AQ in OQ, MQ, NQ. destruct (same_abs _ y y' OQ OT) as [Q1|Q1]; [exact Q1|exfalso].
      assert (Q2 : Aff (zq n / zq d)%Qc y' = eneg E (Aff (zq n / zq d)%Qc y)) by (rewrite Q1; now rewrite eneg_eneg). rewrite Q2, NQ, MQ in MT. now apply neg_ne.
  - assert (MQ : mul M (aff Q) = eneg E (aff P)) by (destruct PM as [PM|PM]; [apply Hb in PM; discriminate|auto]). rewrite neg_aff. split.
    + intros [<-|[]]. split; [now apply eneg_on|]. split; [now rewrite NQ, MQ, eneg_eneg|]. rewrite AQ. unfold eneg, qneg, neg. eexists. reflexivity.
    + intros (OT & MT & y' & ->). left. rewrite AQ in OQ, MQ |- *. destruct (same_abs _ y' y OT OQ) as [Q1|Q1]; [exfalso|now symmetry].
      rewrite Q1, MQ in MT. now apply neg_ne.
Qed.
Lemma concat_ok xs : (forall n d, In (n, d) xs -> 0 < d /\ Z.gcd n d = 1 /\ peval r (zq n / zq d)%Qc = 0%Qc) -> StronglySorted (fun a b => fst a * snd b < fst b * snd a) xs ->
  exists L, concatM (div_root E (sb2 E) (sb4 E) (sb6 E) m P) xs = Ok L /\
  Forall (fun Q => proj_on E Q /\ reduced Q) L /\ NoDup (map aff L) /\ forall T, In T (map aff L) <-> on T /\ mul M T = aff P /\ exists n d y, In (n, d) xs /\ T = Aff (zq n / zq d)%Qc y.
Proof.
  induction xs as [|[n d] xs IH]; intros H SS.
  { exists []. split; [reflexivity|]. split; [constructor|]. split; [constructor|]. intros T. split; [intros []|]. intros (_ & _ & ? & ? & ? & [] & _). }
  inversion SS as [|? ? SS' FA]; subst. destruct (IH ltac:(intros; apply H; now right) SS') as (L & EL & FL & NL & IL). destruct (H n d (or_introl eq_refl)) as (D & G & Z0).
  destruct (root_ok n d D G Z0) as (K & EK & FK & NK & IK). cbn [concatM]. rewrite EK, bind_Ok, EL, bind_Ok. eexists. split; [reflexivity|]. split; [apply Forall_app; auto|].
  assert (DJ : forall T, In T (map aff K) -> In T (map aff L) -> False).
  { intros T I1 I2. apply IK in I1 as (_ & _ & y & ->). apply IL in I2 as (_ & _ & n' & d' & y' & J & Q). apply Aff_inj in Q as [Q _]. rewrite Forall_forall in FA. specialize (FA _ J). cbn [fst snd] in FA.
    destruct (H n' d' (or_intror J)) as (D' & _). apply frac_eq in Q; lia. }
  split.
  - rewrite map_app. clear - NK NL DJ. induction (map aff K) as [|A k IHk]; [exact NL|]. apply NoDup_cons_iff in NK as [NA NK]. cbn [app]. constructor.
    + intros J. apply in_app_or in J as [J|J]; [contradiction|]. apply (DJ A); [now left|auto].
    + apply IHk; auto. intros T I1 I2. apply (DJ T); [now right|auto].
  - intros T. rewrite map_app, in_app_iff, IK, IL. split.
    + intros [(A & B & y & C)|(A & B & n' & d' & y & J & C)]; (split; [auto|]); (split; [auto|]); [exists n, d, y|exists n', d', y]; split; auto; [now left|now right].
    + intros (A & B & n' & d' & y & [J|J] & C); [left|right]; (split; [auto|]); (split; [auto|]).
      * injection J as <- <-. now exists y.
      * now exists n', d', y.
Qed.
End Inf.

Lemma infinite_order P : proj_on E P -> reduced P -> ord P = 0 \/ ord P = -1 -> (forall n, (1 <= n)%nat -> mul n (aff P) <> Inf) ->
  exists f1, forall fuel, (f1 <= fuel)%nat -> p_order E fuel P = Ok (-1, Pt (pX P) (pY P) (pZ P) (-1)).
Proof.
  intros VP RP OP NT. destruct OP as [OP|OP].
  - destruct (order_total E HD P VP RP OP) as (f1 & H). exists f1. intros fuel Hf. destruct (H fuel Hf) as (o & Eo & [[L O]|[-> _]]); [exfalso|exact Eo].
    apply pt_order_is in O; auto. destruct O as (_ & O & _). apply (NT (Z.to_nat o)); [lia|auto].
  - exists 0%nat. intros fuel _. unfold p_order. rewrite OP. cbn [Z.eqb negb]. destruct P as [X Y W o]. cbn in OP. now subst o.
Qed.
Theorem div_infinite m P : proj_on E P -> reduced P -> ord P = 0 \/ ord P = -1 -> (forall n, (1 <= n)%nat -> mul n (aff P) <> Inf) -> 1 <= m <= max32 ->
  exists f0, forall fuel, (f0 <= fuel)%nat -> exists l, DIVP fuel m P = Ok l /\ div_list E m P l.
Proof.
  intros VP RP OP NT Hm.
  pose proof (infinite_order P VP RP OP NT) as PO.
  destruct PO as (f1 & PO). exists (f1 + Z.to_nat m + 2)%nat.
  intros fuel Hf. unfold division_points. rewrite PO, bind_Ok by lia. cbv beta iota. cbn [Z.ltb Z.compare]. cbn [pX pZ].
  pose proof (aff_on_all E P VP) as OnP. destruct (Z.eq_dec (pZ P) 0) as [Z0|NZ]. { exfalso. apply (NT 1%nat); [lia|]. cbn [emul]. rewrite eadd_inf_r. now apply aff_inf. }
  assert (AP : aff P = Aff (zq (pX P) / zq (pZ P))%Qc (zq (pY P) / zq (pZ P))%Qc) by (unfold aff; destruct (Z.eqb_spec (pZ P) 0); [contradiction|reflexivity]).
  destruct (C78_division_points E m fuel (pX P) (pZ P) HD ltac:(lia) ltac:(lia)) as (r & Er & Hr0). rewrite Er, bind_Ok.
  assert (Hr : forall x y, on (Aff x y) -> (peval r x = 0%Qc <-> mul (Z.to_nat m) (Aff x y) = aff P \/ mul (Z.to_nat m) (Aff x y) = eneg E (aff P))).
  { intros x y O. destruct (Hr0 x y O) as [H _]. rewrite AP in OnP |- *. exact (H NZ _ OnP). }
  destruct (RR r (r_nz P VP NT m Hm r Hr)) as (xs & Exs & Rx & SS). rewrite Exs, bind_Ok.
  set (P' := Pt (pX P) (pY P) (pZ P) (-1)). change (aff P) with (aff P') in NT, Hr. assert (VP' : proj_on E P') by exact VP.
  destruct (concat_ok P' VP' NT m Hm r Hr xs) as (L & EL & FL & NL & IL); [intros n d J; now apply Rx|exact SS|]. exists L. split; [exact EL|]. split; [exact FL|]. split; [exact NL|].
  assert (ZM : forall T, zmulE E m T = mul (Z.to_nat m) T) by (intros T; unfold zmulE; destruct (Z.ltb_spec m 0); [lia|reflexivity]).
  intros T. rewrite IL, ZM. change (aff P') with (aff P). split; [tauto|]. intros [OT MT]. split; [auto|]. split; [auto|]. destruct T as [|x y].
  { exfalso. rewrite emul_inf in MT. apply (NT 1%nat); [lia|]. cbn [emul]. rewrite eadd_inf_r. symmetry. exact MT. }
  destruct (qc_frac x) as (u & v & Hv & G & ->). exists u, v, y. split; [|reflexivity]. apply Rx. split; [auto|]. split; [auto|]. apply (Hr _ _ OT). left. exact MT.
Qed.
End OnE.
