(** The torsion functions list exactly the torsion points, each once, sorted. *)
From Coq Require Import ZArith Znumtheory Lia List Bool QArith Qcanon Arith Permutation Sorted.
From Verif Require Import Base RatModel MArithModel MArithProofs CurveModel CurveProofs DivPolModel DivPolProofs PointsModel GroupLaw QcGroup PointsProofs PointsGroup PointsMore DivPolQ NagLutz OrderTot RootsModel RootsProofs TorsModel PropertiesDivPol.
Import ListNotations.
Open Scope Z_scope.

(** ** specification *)
(** the order of a point over Q *)
Definition pt_order (E : curve) (o : Z) (T : pt Qc) : Prop :=
  0 < o /\ emul E (Z.to_nat o) T = Inf /\ forall j, (0 < j < Z.to_nat o)%nat -> emul E j T <> Inf.
(** sorted by order, then Z, X, Y *)
Definition plt (E : curve) (P Q : point) : Prop :=
  exists o o', pt_order E o (aff P) /\ pt_order E o' (aff Q) /\
    (o < o' \/ o = o' /\ (pZ P < pZ Q \/ pZ P = pZ Q /\ (pX P < pX Q \/ pX P = pX Q /\ pY P < pY Q))).
(** the points of E with property S, each once, reduced, sorted *)
Definition tors_list (E : curve) (S : pt Qc -> Prop) (l : list point) : Prop :=
  Forall (fun P => proj_on E P /\ reduced P) l /\ NoDup (map aff l) /\ StronglySorted (plt E) l /\
  forall T, In T (map aff l) <-> eon_pt E T /\ S T.
(** what is assumed of introots and roots; C80 *)
Definition introots_right (introots : poly -> res (list Z)) : Prop :=
  forall f, (exists j, coeff f j <> 0) -> exists l, introots f = Ok l /\ int_roots_of f l.
Definition roots_right (roots : poly -> res (list rat)) : Prop :=
  forall f, (exists j, coeff f j <> 0) -> exists l, roots f = Ok l /\ rat_roots_of f l.

Section OnE.
Variable E : curve.
Hypothesis HD : sdisc E <> 0.
Local Notation on := (eon_pt E).

Definition tors (T : pt Qc) : Prop := exists n, (1 <= n)%nat /\ emul E n T = Inf.
Definition tok (P : point) : Prop := proj_on E P /\ reduced P /\ tors (aff P) /\ (ord P = 0 \/ is_order E (ord P) P).

Lemma pt_order_is o P : proj_on E P -> (is_order E o P <-> pt_order E o (aff P)).
Proof. intros H. apply is_order_aff; auto. Qed.
Lemma pt_order_unique o o' T : pt_order E o T -> pt_order E o' T -> o = o'.
Proof.
  intros (A & B & C) (A' & B' & C'). destruct (Z.lt_trichotomy o o') as [H|[H|H]]; auto; exfalso.
  - apply (C' (Z.to_nat o)); [lia|auto].
  - apply (C (Z.to_nat o')); [lia|auto].
Qed.
Lemma pt_order_tors o T : pt_order E o T -> tors T.
Proof. intros (A & B & _). exists (Z.to_nat o). split; [lia|auto]. Qed.
Lemma pt_order_ho m T : has_order E m T <-> pt_order E (Z.of_nat m) T.
Proof. unfold has_order, pt_order. rewrite Nat2Z.id. split; intros (A & B); (split; [lia|auto]). Qed.
Lemma tors_order T : tors T -> exists o, pt_order E o T.
Proof. intros (n & Hn & H). destruct (least_order E n T Hn H) as (m & Hm). exists (Z.of_nat m). now apply pt_order_ho. Qed.
Lemma order_div o T n : on T -> pt_order E o T -> (emul E n T = Inf <-> Nat.divide (Z.to_nat o) n).
Proof.
  intros HT (A & B & C). split.
  - intros Z. pose proof (Nat.div_mod n (Z.to_nat o) ltac:(lia)) as DM. pose proof (Nat.mod_upper_bound n (Z.to_nat o) ltac:(lia)) as MB.
    destruct (Nat.eq_dec (n mod Z.to_nat o) 0) as [M0|M0]; [exists (n / Z.to_nat o)%nat; lia|]. exfalso.
    apply (C (n mod Z.to_nat o)%nat); [lia|]. rewrite DM, emul_add, Nat.mul_comm, emul_mul, B, emul_inf in Z by auto. now rewrite eadd_inf_l in Z.
  - intros [k ->]. rewrite emul_mul, B, emul_inf; auto.
Qed.
Lemma tok_order P : tok P -> exists o f0, pt_order E o (aff P) /\ forall fuel, (f0 <= fuel)%nat -> p_order E fuel P = Ok (o, Pt (pX P) (pY P) (pZ P) o).
Proof.
  intros (V & R & T & [O|O]).
  - destruct (order_total E HD P V R O) as (f0 & H). destruct (tors_order _ T) as (o & Ho). exists o, f0. split; [auto|]. intros fuel Hf.
    destruct (H fuel Hf) as (o' & Eo & [[L I]|[_ N]]).
    + apply pt_order_is in I; auto. now rewrite (pt_order_unique _ _ _ Ho I).
    + destruct Ho as (A & B & _). exfalso. apply (N (Z.to_nat o)); [lia|auto].
  - exists (ord P), 0%nat. split; [now apply pt_order_is|]. intros fuel _. unfold p_order. destruct O as (L & _). destruct (Z.eqb_spec (ord P) 0); [lia|]. cbn [negb]. now destruct P.
Qed.
(** the fuel needed is bounded by the order *)
Lemma tok_order_at P n fuel : tok P -> (1 <= n <= fuel)%nat -> emul E n (aff P) = Inf -> exists o, pt_order E o (aff P) /\ p_order E fuel P = Ok (o, Pt (pX P) (pY P) (pZ P) o).
Proof.
  intros (V & R & T & [O|O]) Hn Z0.
  - destruct (order_at E HD P V n ltac:(lia)) with (fuel := fuel) as (o & Eo & [[L I]|[_ N]]); auto; [|lia| |].
    + left. destruct (rmul_ok E P V n) as (_ & _ & A). rewrite Z0 in A. now apply aff_inf.
    + exists o. split; [now apply pt_order_is|exact Eo].
    + exfalso. apply (N n); [lia|auto].
  - exists (ord P). split; [now apply pt_order_is|]. unfold p_order. destruct O as (L & _). destruct (Z.eqb_spec (ord P) 0); [lia|]. cbn [negb]. now destruct P.
Qed.
(** one fuel for a list of points *)
Definition known (fuel : nat) (P : point) : Prop := exists o, pt_order E o (aff P) /\ p_order E fuel P = Ok (o, Pt (pX P) (pY P) (pZ P) o).
Lemma tok_known l : Forall tok l -> exists f0, forall fuel, (f0 <= fuel)%nat -> Forall (known fuel) l.
Proof.
  induction 1 as [|P l HP _ (f0 & IH)]; [exists O; intros; constructor|]. destruct (tok_order P HP) as (o & f1 & Ho & Ef). exists (max f0 f1). intros fuel Hf.
  constructor; [exists o; split; [auto|]; apply Ef; lia|apply IH; lia].
Qed.

(** ** sorting *)
Lemma red_coords A B : reduced A -> reduced B -> proj_on E A -> proj_on E B -> pZ A = pZ B -> pX A = pX B -> pY A = pY B -> aff A = aff B.
Proof. intros _ _ _ _ HZ HX HY. unfold aff. now rewrite HZ, HX, HY. Qed.
Lemma pt_lt_ok fuel P Q : known fuel P -> known fuel Q -> exists b, pt_lt E fuel P Q = Ok b /\ (b = true -> plt E P Q) /\ (b = false -> aff P <> aff Q -> plt E Q P).
Proof.
  intros (o & Ho & Eo) (o' & Ho' & Eo'). unfold pt_lt. rewrite Eo, bind_Ok, Eo', bind_Ok.
  destruct (Z.eqb_spec (o - o') 0) as [EO|NO]; cbn [negb].
  2:{ eexists. split; [reflexivity|]. split; intros B; [exists o, o'|intros _; exists o', o]; (split; [auto|]); (split; [auto|]); lia. }
  destruct (Z.eqb_spec (pZ P - pZ Q) 0) as [EZ|NZ]; cbn [negb].
  2:{ eexists. split; [reflexivity|]. split; intros B; [exists o, o'|intros _; exists o', o]; (split; [auto|]); (split; [auto|]); lia. }
  destruct (Z.eqb_spec (pX P - pX Q) 0) as [EX|NX]; cbn [negb].
  2:{ eexists. split; [reflexivity|]. split; intros B; [exists o, o'|intros _; exists o', o]; (split; [auto|]); (split; [auto|]); lia. }
  eexists. split; [reflexivity|]. split; intros B.
  - exists o, o'. split; [auto|]. split; [auto|]. lia.
  - intros NE. exists o', o. split; [auto|]. split; [auto|]. destruct (Z.eq_dec (pY P) (pY Q)) as [EY|NY]; [|lia].
    exfalso. apply NE. unfold aff. now replace (pZ P) with (pZ Q) by lia; replace (pX P) with (pX Q) by lia; rewrite EY.
Qed.
Lemma plt_trans A B C : plt E A B -> plt E B C -> plt E A C.
Proof.
  intros (o & o' & H1 & H2 & H) (p & p' & G1 & G2 & G). pose proof (pt_order_unique _ _ _ H2 G1) as <-. exists o, p'. split; [auto|]. split; [auto|]. lia.
Qed.
Lemma insM_ok fuel x l : known fuel x -> Forall (known fuel) l -> ~ In (aff x) (map aff l) -> StronglySorted (plt E) l ->
  exists l', insM (pt_lt E fuel) x l = Ok l' /\ Permutation l' (x :: l) /\ StronglySorted (plt E) l'.
Proof.
  induction l as [|y l IH]; intros Kx Kl NI S; cbn [insM]; [exists [x]; repeat constructor|].
  inversion Kl as [|? ? Ky Kl']; subst. inversion S as [|? ? S' F]; subst. destruct (pt_lt_ok fuel y x Ky Kx) as (b & Eb & B1 & B2). rewrite Eb, bind_Ok. destruct b.
  - destruct IH as (l' & El & Pl & Sl); auto; [intros I; apply NI; now right|]. rewrite El, bind_Ok. eexists. split; [reflexivity|].
    split; [rewrite Pl; apply perm_swap|]. constructor; [exact Sl|]. apply Forall_forall. intros z Iz. apply (Permutation_in _ Pl) in Iz.
    destruct Iz as [<-|Iz]; [now apply B1|]. rewrite Forall_forall in F. now apply F.
  - eexists. split; [reflexivity|]. split; [reflexivity|]. constructor; [exact S|]. assert (R : plt E x y) by (apply B2; auto; intros Q; apply NI; now left).
    constructor; [exact R|]. rewrite Forall_forall in F. apply Forall_forall. intros z Iz. apply (plt_trans x y z); auto.
Qed.
Lemma sortM_ok fuel l : Forall (known fuel) l -> NoDup (map aff l) -> exists l', sortM (pt_lt E fuel) l = Ok l' /\ Permutation l' l /\ StronglySorted (plt E) l'.
Proof.
  induction l as [|x l IH]; intros K N; cbn [sortM]; [exists []; repeat constructor|].
  inversion K as [|? ? Kx Kl]; subst. cbn [map] in N. inversion N as [|? ? NI N']; subst. destruct (IH Kl N') as (l1 & E1 & P1 & S1). rewrite E1, bind_Ok.
  destruct (insM_ok fuel x l1) as (l' & El & Pl & Sl); auto.
  - apply Forall_forall. intros z Iz. apply (Permutation_in _ P1) in Iz. rewrite Forall_forall in Kl. auto.
  - intros I. apply NI. apply (Permutation_in _ (Permutation_map aff P1)). exact I.
  - exists l'. split; [exact El|]. split; [now rewrite Pl, P1|exact Sl].
Qed.
(** the last step of all the functions *)
Lemma finish_known fuel l S : Forall (known fuel) l -> Forall tok l -> NoDup (map aff l) -> (forall T, In T (map aff l) <-> on T /\ S T) ->
  exists l', sortM (pt_lt E fuel) l = Ok l' /\ tors_list E S l' /\ Forall tok l'.
Proof.
  intros HK K N HS. destruct (sortM_ok fuel l HK N) as (l' & El & Pl & Sl).
  exists l'. split; [exact El|]. split; [|apply Forall_forall; intros z Iz; apply (Permutation_in _ Pl) in Iz; rewrite Forall_forall in K; auto]. split; [|split; [|split; [exact Sl|]]].
  - apply Forall_forall. intros z Iz. apply (Permutation_in _ Pl) in Iz. rewrite Forall_forall in K. destruct (K z Iz) as (A & B & _). auto.
  - apply (Permutation_NoDup (Permutation_map aff (Permutation_sym Pl))). exact N.
  - intros T. rewrite <- HS. split; apply Permutation_in; apply Permutation_map; [|apply Permutation_sym]; exact Pl.
Qed.
Lemma finish l S : Forall tok l -> NoDup (map aff l) -> (forall T, In T (map aff l) <-> on T /\ S T) ->
  exists f0, forall fuel, (f0 <= fuel)%nat -> exists l', sortM (pt_lt E fuel) l = Ok l' /\ tors_list E S l' /\ Forall tok l'.
Proof. intros K N HS. destruct (tok_known l K) as (f0 & HK). exists f0. intros fuel Hf. apply finish_known; auto. Qed.

(** ** the points built by the functions *)
Lemma mk_tok X Y W T : W <> 0 -> T = Aff (zq X / zq W)%Qc (zq Y / zq W)%Qc -> on T -> tors T -> tok (mkpoint X Y W) /\ aff (mkpoint X Y W) = T.
Proof.
  intros HW ET HT TT. assert (A : aff (mkpoint X Y W) = T) by (rewrite ET; now apply mkpoint_aff). split; [|exact A].
  destruct (mkpoint_ok X Y W) as (_ & R & O); [tauto|]. split; [apply mk_valid; [auto|]; now rewrite <- ET|]. split; [auto|]. rewrite A. auto.
Qed.
Lemma inf_tok : tok infpt /\ aff infpt = Inf.
Proof.
  split; [|reflexivity]. split; [apply inf_val|]. split; [split; [reflexivity|cbn; lia]|]. split; [exists 1%nat; split; [lia|reflexivity]|].
  right. split; [cbn; lia|]. split; [reflexivity|]. cbn [ord infpt]. intros j Hj. lia.
Qed.
Lemma neg_red P : reduced P -> reduced (p_neg E P).
Proof.
  intros R.
  destruct R as [R1 R2]. split; [|exact R2]. unfold p_neg. cbn [pX pY pZ]. apply Z.bezout_1_gcd. apply Z.gcd_bezout in R1 as (a & b & R1).
  destruct (Z.gcd_bezout (pX P) (pY P) _ eq_refl) as (c & d & R3). rewrite <- R3 in R1.
  set (Y' := - pY P - a3 E * pZ P - a1 E * pX P). destruct (Z.gcd_divide_l (pX P) Y') as [u Hu]. destruct (Z.gcd_divide_r (pX P) Y') as [v Hv]. set (g := Z.gcd (pX P) Y') in *.
  exists (a * (c * u + d * (- v - a1 E * u))), (b - a * d * a3 E).
  transitivity (a * (c * (u * g) + d * (- (v * g) - a3 E * pZ P - a1 E * (u * g))) + b * pZ P); [ring|]. rewrite <- Hu, <- Hv.
  transitivity (a * (c * pX P + d * pY P) + b * pZ P); [unfold Y'; ring|]. exact R1.
Qed.
Lemma neg_tok P : tok P -> tok (p_neg E P) /\ aff (p_neg E P) = eneg E (aff P).
Proof.
  intros (V & R & (n & Hn & T) & O). pose proof (neg_aff E P) as A. split; [|exact A]. split; [now apply neg_valid|]. split.
  - now apply neg_red.
  - pose proof (aff_on_all E P V) as OP. assert (TN : forall k, emul E k (aff (p_neg E P)) = Inf <-> emul E k (aff P) = Inf).
    { intros k. rewrite A, emul_neg by auto. split; [|intros ->; reflexivity]. intros H. destruct (emul E k (aff P)); [reflexivity|discriminate]. }
    split; [exists n; split; [auto|]; now apply TN|]. destruct O as [O|O]; [left; exact O|right]. change (ord (p_neg E P)) with (ord P).
    apply pt_order_is in O; auto. apply pt_order_is; [now apply neg_valid|]. destruct O as (O1 & O2 & O3). split; [auto|]. split; [now apply TN|]. intros j Hj. rewrite TN. auto.
Qed.
(** the points wanted from a function called with m and exact *)
Definition wanted (m : Z) (exact : bool) (T : pt Qc) : Prop := if exact then pt_order E m T else emul E (Z.to_nat m) T = Inf.
Lemma finish0 m (exact : bool) pts : 2 <= m -> Forall tok pts -> NoDup (map aff pts) -> (forall T, In T (map aff pts) <-> on T /\ T <> Inf /\ wanted m exact T) ->
  exists f0, forall fuel, (f0 <= fuel)%nat -> exists l', sortM (pt_lt E fuel) ((if exact then [] else [infpt]) ++ pts) = Ok l' /\ tors_list E (wanted m exact) l' /\ Forall tok l'.
Proof.
  intros Hm K N HS. apply finish.
  - destruct exact; [exact K|]. constructor; [apply inf_tok|exact K].
  - destruct exact; [exact N|]. cbn [app map]. constructor; [|exact N]. intros I. apply HS in I. destruct I as (_ & I & _). now apply I.
  - intros T. destruct exact; cbn [app map In wanted].
    + rewrite HS. split; [tauto|]. intros [A B]. split; [auto|]. split; [|auto]. intros ->. destruct B as (_ & _ & C). apply (C 1%nat); [lia|reflexivity].
    + change (aff infpt) with (@Inf Qc). rewrite HS. split.
      * intros [<-|H]; [|tauto]. split; [exact I|]. apply emul_inf.
      * intros [A B]. destruct T as [|x y]; [now left|right]. split; [auto|]. split; [discriminate|auto].
Qed.
Lemma order_two T : pt_order E 2 T <-> emul E 2 T = Inf /\ T <> Inf.
Proof.
  split.
  - intros (_ & A & B). split; [exact A|]. intros ->. apply (B 1%nat); [cbn; lia|reflexivity].
  - intros [A B]. split; [lia|]. split; [exact A|]. intros j Hj. replace j with 1%nat by (change (Z.to_nat 2) with 2%nat in Hj; lia). cbn [emul]. now rewrite eadd_inf_r.
Qed.

(** ** two_torsion *)
Local Notation P2 := (div_pol_2 (a1 E) (a2 E) (a3 E) (a4 E) (a6 E)).
Lemma two_char x y : on (Aff x y) /\ emul E 2 (Aff x y) = Inf <-> peval P2 x = 0%Qc /\ (y + y + zq (a1 E) * x + zq (a3 E))%Qc = 0%Qc.
Proof.
  split.
  - intros [H T]. rewrite <- (t2_P2 E x y H). apply (two_t E x y H) in T. rewrite T. split; [ring|exact T].
  - intros [R T]. assert (H : on (Aff x y)); [|split; [exact H|]; now apply (two_t E x y H)].
    unfold eon_pt, qon_pt, on_pt, QcGroup.qon, GroupLaw.on. cbn [div_pol_2 peval] in R. repeat (rewrite zq_add in R || rewrite zq_mul in R). rewrite zq_2 in R.
    assert (E4 : zq 4 = (1 + 1 + 1 + 1)%Qc) by (apply Qc_is_canon; reflexivity). rewrite E4 in R.
    set (A1 := zq (a1 E)) in *. set (A2 := zq (a2 E)) in *. set (A3 := zq (a3 E)) in *. set (A4 := zq (a4 E)) in *. set (A6 := zq (a6 E)) in *.
    assert (F4 : (1 + 1 + 1 + 1 <> 0)%Qc) by (rewrite <- E4; apply zq_ne; lia).
    match goal with |- ?u = ?v => assert (Q : ((1 + 1 + 1 + 1) * (u - v))%Qc = 0%Qc) end.
    { match type of R with ?r = _ => transitivity ((y + y + A1 * x + A3) * (y + y + A1 * x + A3) - r)%Qc; [ring|rewrite T, R; ring] end. }
    destruct (Qcmult_integral _ _ Q) as [Q1|Q1]; [contradiction|]. match goal with |- ?u = ?v => transitivity (u - v + v)%Qc; [ring|rewrite Q1; ring] end.
Qed.

Variable introots : poly -> res (list Z).
Hypothesis IR : introots_right introots.
Ltac qne := repeat split; auto; try (let H := fresh in intros H; apply (f_equal this) in H; discriminate H).
Lemma two_torsion_gen (exact : bool) c6 c4 c2 (f : Z -> point) (g : Z -> pt Qc) :
  (forall e, peval [c6; c4; c2; 1] (zq e) = 0%Qc -> on (g e) /\ g e <> Inf /\ emul E 2 (g e) = Inf /\ (tors (g e) -> tok (f e) /\ aff (f e) = g e)) ->
  (forall e e', g e = g e' -> e = e') ->
  (forall T, on T -> T <> Inf -> emul E 2 T = Inf -> exists e, peval [c6; c4; c2; 1] (zq e) = 0%Qc /\ T = g e) ->
  exists f0, forall fuel, (f0 <= fuel)%nat -> exists l, (xlist <- introots [c6; c4; c2; 1] ;; sortM (pt_lt E fuel) ((if exact then [] else [infpt]) ++ map f xlist)) = Ok l /\
    tors_list E (wanted 2 exact) l /\ Forall tok l.
Proof.
  intros HF HI HC. destruct (IR [c6; c4; c2; 1]) as (xl & Ex & I & S); [exists 3%nat; cbn; lia|].
  assert (K : forall e, In e xl -> tok (f e) /\ aff (f e) = g e).
  { intros e Ie. apply I in Ie. destruct (HF e Ie) as (_ & _ & A & B). apply B. exists 2%nat. split; [lia|exact A]. }
  assert (ME : map aff (map f xl) = map g xl).
  { rewrite map_map. apply map_ext_in. intros e Ie. now apply K. }
  destruct (finish0 2 exact (map f xl)) as (f0 & H).
  - lia.
  - apply Forall_forall. intros P IP. apply in_map_iff in IP as (e & <- & Ie). now apply K.
  - rewrite ME. clear - S HI. induction S as [|e l S IH F]; cbn [map]; constructor; [|exact IH].
    intros J. apply in_map_iff in J as (e' & Q & Ie'). apply HI in Q. subst e'. rewrite Forall_forall in F. specialize (F e Ie'). lia.
  - intros T. rewrite ME, in_map_iff. assert (W : T <> Inf -> (wanted 2 exact T <-> emul E 2 T = Inf)) by (intros NT; unfold wanted; destruct exact; [rewrite order_two; tauto|reflexivity]).
    split.
    + intros (e & <- & Ie). apply I in Ie. destruct (HF e Ie) as (A & B & C & _). split; [auto|]. split; [auto|]. now apply W.
    + intros (A & B & C). apply W in C; auto. destruct (HC T A B C) as (e & R & ->). exists e. split; [auto|]. now apply I.
  - exists f0. intros fuel Hf. destruct (H fuel Hf) as (l & El & TL & TK). exists l. rewrite Ex, bind_Ok. auto.
Qed.
(** the coordinates used when a1 or a3 is odd: right for all curves *)
Lemma two_scaled (exact : bool) : exists f0, forall fuel, (f0 <= fuel)%nat -> exists l,
  (xlist <- introots [sb6 E * 16; sb4 E * 8; sb2 E; 1] ;; sortM (pt_lt E fuel) ((if exact then [] else [infpt]) ++ map (fun ei => mkpoint (2 * ei) (- a1 E * ei - 4 * a3 E) 8) xlist)) = Ok l /\
    tors_list E (wanted 2 exact) l /\ Forall tok l.
Proof.
  assert (N2 : (1 + 1 <> 0)%Qc) by (rewrite <- zq_2; apply zq_ne; lia).
  assert (E8 : zq 8 = ((1 + 1) * (1 + 1) * (1 + 1))%Qc) by (apply Qc_is_canon; reflexivity). assert (E4 : zq 4 = ((1 + 1) * (1 + 1))%Qc) by (apply Qc_is_canon; reflexivity).
  assert (SC : forall e, peval [sb6 E * 16; sb4 E * 8; sb2 E; 1] (zq e) = ((1 + 1) * (1 + 1) * (1 + 1) * (1 + 1) * peval P2 (zq e / ((1 + 1) * (1 + 1))))%Qc).
  { intros e. assert (E16 : zq 16 = ((1 + 1) * (1 + 1) * (1 + 1) * (1 + 1))%Qc) by (apply Qc_is_canon; reflexivity).
    unfold sb6, sb4, sb2. cbn [div_pol_2 peval]. rewrite !Z.pow_2_r. repeat (rewrite zq_add || rewrite zq_mul). rewrite E16, E8, E4, zq_2, zq_1. field; qne. }
  apply (two_torsion_gen exact _ _ _ _ (fun e => Aff (zq e / ((1 + 1) * (1 + 1)))%Qc ((- zq (a1 E) * zq e - (1 + 1) * (1 + 1) * zq (a3 E)) / ((1 + 1) * (1 + 1) * (1 + 1)))%Qc)).
  - intros e R. rewrite SC in R.
    assert (R' : peval P2 (zq e / ((1 + 1) * (1 + 1)))%Qc = 0%Qc).
    { destruct (Qcmult_integral _ _ R) as [Q|Q]; [|exact Q]. exfalso. repeat (apply Qcmult_integral in Q; destruct Q as [Q|Q]; [|now apply N2]). now apply N2. }
    match goal with |- on ?t /\ _ => assert (C : on t /\ emul E 2 t = Inf) end. { apply two_char. split; [exact R'|]. field; qne. }
    destruct C as [C1 C2]. split; [auto|]. split; [discriminate|]. split; [auto|]. intros TT. apply mk_tok; auto; [lia|].
    repeat (rewrite zq_sub || rewrite zq_mul || rewrite zq_opp). rewrite E8, E4, zq_2. f_equal; field; qne.
  - intros e e' Q. apply Aff_inj in Q as [Q _]. apply zq_inj. transitivity (zq e / ((1 + 1) * (1 + 1)) * ((1 + 1) * (1 + 1)))%Qc; [field; qne|]. rewrite Q. field; qne.
  - intros [|x y] HT NT T2; [now destruct NT|]. destruct (proj1 (two_char x y) (conj HT T2)) as [R TT].
    destruct (two_torsion_den E x y HT T2) as (k & u & w & Hk & Ex & _).
    assert (exists e, x = (zq e / ((1 + 1) * (1 + 1)))%Qc) as (e & Ee).
    { destruct Hk as [-> | ->]; [exists (4 * u)|exists u]; rewrite Ex.
      - change (1 * 1) with 1. rewrite zq_mul, E4, zq_1. field; qne.
      - change (2 * 2) with 4. now rewrite E4. }
    exists e. split; [rewrite SC, <- Ee, R; ring|]. rewrite Ee in TT |- *. f_equal.
    set (a := zq (a1 E)) in *. set (b := zq (a3 E)) in *. set (ee := zq e) in *.
    transitivity ((y + y + a * (ee / ((1 + 1) * (1 + 1))) + b + (- a * ee - (1 + 1) * (1 + 1) * b) / ((1 + 1) * (1 + 1))) / (1 + 1))%Qc; [field; qne|]. rewrite TT. field; qne.
Qed.
(** those used otherwise: right for a1 = a3 = 0 *)
Lemma two_unscaled (exact : bool) : a1 E = 0 -> a3 E = 0 -> exists f0, forall fuel, (f0 <= fuel)%nat -> exists l,
  (xlist <- introots [a6 E; a4 E; a2 E; 1] ;; sortM (pt_lt E fuel) ((if exact then [] else [infpt]) ++ map (fun ei => mkpoint ei 0 1) xlist)) = Ok l /\
    tors_list E (wanted 2 exact) l /\ Forall tok l.
Proof.
  intros Z1 Z3. assert (N2 : (1 + 1 <> 0)%Qc) by (rewrite <- zq_2; apply zq_ne; lia). assert (E4 : zq 4 = ((1 + 1) * (1 + 1))%Qc) by (apply Qc_is_canon; reflexivity).
  assert (SC : forall x, peval P2 x = ((1 + 1) * (1 + 1) * peval [a6 E; a4 E; a2 E; 1%Z] x)%Qc).
  { intros x. cbn [div_pol_2 peval]. rewrite Z1, Z3. repeat (rewrite zq_add || rewrite zq_mul). rewrite E4, zq_2, zq_1, zq_0. ring. }
  apply (two_torsion_gen exact _ _ _ _ (fun e => Aff (zq e) 0%Qc)).
  - intros e R. match goal with |- on ?t /\ _ => assert (C : on t /\ emul E 2 t = Inf) end. { apply two_char. rewrite SC, R, Z1, Z3, zq_0. split; ring. }
    destruct C as [C1 C2]. split; [auto|]. split; [discriminate|]. split; [auto|]. intros TT. apply mk_tok; auto; [lia|]. now rewrite !frac_one, zq_0.
  - intros e e' Q. apply Aff_inj in Q as [Q _]. now apply zq_inj.
  - intros [|x y] HT NT T2; [now destruct NT|]. destruct (proj1 (two_char x y) (conj HT T2)) as [R TT]. rewrite SC in R.
    assert (R' : peval [a6 E; a4 E; a2 E; 1] x = 0%Qc).
    { destruct (Qcmult_integral _ _ R) as [Q|Q]; [|exact Q]. exfalso. destruct (Qcmult_integral _ _ Q); now apply N2. }
    destruct (qc_frac x) as (u & v & Hv & G & Ex). pose proof R' as R2. rewrite Ex in R2.
    assert (L : ld [a6 E; a4 E; a2 E; 1] 3 1) by (split; [reflexivity|]; intros [|[|[|[|j]]]] Hj; try lia; unfold co; cbn; now destruct j).
    apply (root_den _ _ _ _ _ Hv G L) in R2. apply Z.divide_1_r_nonneg in R2; [|lia]. subst v. rewrite frac_one in Ex. exists u. rewrite <- Ex. split; [exact R'|]. f_equal.
    rewrite Z1, Z3, zq_0 in TT. destruct (Qcmult_integral (1 + 1)%Qc y) as [Q|Q]; [|now destruct N2|exact Q]. rewrite <- TT. ring.
Qed.
Theorem two_torsion_ok (exact : bool) : Z.odd (a1 E) = true \/ Z.odd (a3 E) = true \/ a1 E = 0 /\ a3 E = 0 ->
  exists f0, forall fuel, (f0 <= fuel)%nat -> exists l, two_torsion introots E (sb2 E) (sb4 E) (sb6 E) fuel exact = Ok l /\ tors_list E (wanted 2 exact) l /\ Forall tok l.
Proof.
  intros H. unfold two_torsion. destruct (Z.odd (a1 E) || Z.odd (a3 E)) eqn:O.
  - apply two_scaled.
  - assert (Z13 : a1 E = 0 /\ a3 E = 0) by (apply orb_false_iff in O; destruct O, H as [H|[H|H]]; auto; congruence). apply two_unscaled; tauto.
Qed.

(** ** lists of points by abscissa *)
Lemma concat_x (h : nat -> Z -> res (list point)) (C : Z -> pt Qc -> Prop) xs :
  (forall x, In x xs -> exists f0 L, (forall fuel, (f0 <= fuel)%nat -> h fuel x = Ok L) /\ Forall tok L /\ NoDup (map aff L) /\ forall T, In T (map aff L) <-> C x T) ->
  NoDup xs -> (forall x x' T, C x T -> C x' T -> x = x') ->
  exists f0 L, (forall fuel, (f0 <= fuel)%nat -> concatM (h fuel) xs = Ok L) /\ Forall tok L /\ NoDup (map aff L) /\ forall T, In T (map aff L) <-> exists x, In x xs /\ C x T.
Proof.
  intros H N U. induction xs as [|x xs IH].
  - exists O, []. split; [reflexivity|]. split; [constructor|]. split; [constructor|]. intros T. split; [intros []|intros (x & [] & _)].
  - inversion N as [|? ? NI N']; subst. destruct IH as (f0 & L & EL & K & ND & I); [intros z Iz; apply H; now right|auto|].
    destruct (H x (or_introl eq_refl)) as (f1 & L1 & E1 & K1 & ND1 & I1). exists (max f0 f1), (L1 ++ L). split.
    { intros fuel Hf. cbn [concatM]. rewrite E1, bind_Ok, EL, bind_Ok by lia. reflexivity. }
    split; [apply Forall_app; auto|]. split.
    + rewrite map_app. clear - ND ND1 I I1 U NI. induction (map aff L1) as [|T l IHl] eqn:EM in I1 |- *; [exact ND|]. clear IHl.
      assert (G : forall l1, (forall T, In T l1 -> C x T) -> NoDup l1 -> NoDup (l1 ++ map aff L)).
      { induction l1 as [|A l1 IHl]; intros HC Nl; [exact ND|]. inversion Nl as [|? ? NA Nl']; subst. cbn [app]. constructor; [|apply IHl; auto; intros; apply HC; now right].
        intros J. apply in_app_or in J. destruct J as [J|J]; [contradiction|]. apply I in J as (x' & Ix' & Cx'). apply NI. rewrite (U x x' A); auto. apply HC. now left. }
      apply G; [intros A IA; now apply I1|]. rewrite <- EM. exact ND1.
    + intros T. rewrite map_app, in_app_iff, I1, I. split.
      * intros [A|(x' & A & B)]; [exists x; split; [now left|auto]|exists x'; split; [now right|auto]].
      * intros (x' & [<-|A] & B); [now left|right; eauto].
Qed.
Lemma sorted_nodup l : StronglySorted Z.lt l -> NoDup l.
Proof.
  induction 1 as [|x l S IH F]; constructor; [|exact IH]. intros I. rewrite Forall_forall in F. specialize (F x I). lia.
Qed.
Definition has_x (x : Z) (T : pt Qc) : Prop := exists y, T = Aff (zq x) y.
Lemma has_x_inj x x' T : has_x x T -> has_x x' T -> x = x'.
Proof. intros (y & ->) (y' & Q). apply Aff_inj in Q as [Q _]. now apply zq_inj. Qed.

(** ** three_torsion *)
Local Notation P3 := (div_pol_3 (a1 E) (a2 E) (a3 E) (a4 E) (a6 E)).
Lemma three_char x y : on (Aff x y) -> (peval P3 x = 0%Qc <-> emul E 3 (Aff x y) = Inf).
Proof.
  intros H. destruct (C78_roots E 3 4 HD ltac:(lia) ltac:(cbn; lia)) as (p & Ep & Q). injection Ep as <-. rewrite (Q x y H). change (Z.to_nat 3) with 3%nat.
  split; [tauto|]. intros K. split; [exact K|]. right. now left.
Qed.
Lemma order_three T : on T -> (pt_order E 3 T <-> emul E 3 T = Inf /\ T <> Inf).
Proof.
  intros HT. split.
  - intros (_ & A & B). split; [exact A|]. intros ->. apply (B 1%nat); [cbn; lia|reflexivity].
  - intros [A B]. split; [lia|]. split; [exact A|]. intros j Hj Z. change (Z.to_nat 3) with 3%nat in Hj. assert (E1 : emul E 1 T = T) by (cbn [emul]; apply eadd_inf_r).
    destruct j as [|[|[|j]]]; try lia; [congruence|]. apply B. change 3%nat with (1 + 2)%nat in A. rewrite emul_add, Z, eadd_inf_r in A by auto. congruence.
Qed.
Lemma neg_neq P x y : aff P = Aff x y -> (y + y + zq (a1 E) * x + zq (a3 E))%Qc <> 0%Qc -> aff P <> eneg E (aff P).
Proof.
  intros -> N Q. apply N. unfold eneg, qneg, neg in Q. apply Aff_inj in Q as [_ Q]. rewrite Q at 1. ring.
Qed.
Lemma same_x x y y' : on (Aff x y) -> on (Aff x y') -> Aff x y' = Aff x y \/ Aff x y' = eneg E (Aff x y).
Proof.
  intros H H'. destruct (Qc_eq_dec y' (- y - zq (a1 E) * x - zq (a3 E))%Qc) as [Q|N]; [right; cbn; now rewrite <- Q|left]. f_equal.
  exact (proj1 (@qsame_x (zq (a1 E)) (zq (a2 E)) (zq (a3 E)) (zq (a4 E)) (zq (a6 E)) x y' y H' H N)).
Qed.
Lemma t2_b x y : on (Aff x y) -> ((y + y + zq (a1 E) * x + zq (a3 E)) * (y + y + zq (a1 E) * x + zq (a3 E)))%Qc = peval P2 x.
Proof. intros H. apply (t2_P2 E x y H). Qed.
Lemma P2_int u : peval P2 (zq u) = zq (((4 * u + sb2 E) * u + 2 * sb4 E) * u + sb6 E).
Proof.
  unfold sb2, sb4, sb6. cbn [div_pol_2 peval]. rewrite !Z.pow_2_r. change 4 with (2 * 2). repeat (rewrite zq_add || rewrite zq_mul). ring.
Qed.
Lemma three_point_ok x0 : peval [27 * sb8 E; 27 * sb6 E; 9 * sb4 E; sb2 E; 1] (zq x0) = 0%Qc ->
  exists L, three_point E (sb2 E) (sb4 E) (sb6 E) x0 = Ok L /\ Forall tok L /\ NoDup (map aff L) /\
    forall T, In T (map aff L) <-> on T /\ emul E 3 T = Inf /\ exists u, x0 = 3 * u /\ has_x u T.
Proof.
  intros R. unfold three_point. destruct (Z.eqb_spec (x0 mod 3) 0) as [M|M].
  2:{ exists []. split; [reflexivity|]. split; [constructor|]. split; [constructor|]. intros T. split; [intros []|]. intros (_ & _ & u & -> & _). apply M. rewrite Z.mul_comm. now apply Z_mod_mult. }
  set (u := x0 / 3). assert (Ex : x0 = 3 * u) by (pose proof (Z.div_mod x0 3 ltac:(lia)); unfold u; lia). rewrite Ex in R.
  assert (SC : peval P3 (zq u) = 0%Qc).
  { assert (Q : (zq 27 * peval P3 (zq u))%Qc = 0%Qc).
    { rewrite <- R. unfold sb8, sb2, sb4, sb6. cbn [div_pol_3 peval]. change 27 with (3 * 3 * 3). change 9 with (3 * 3). rewrite !Z.pow_2_r.
      repeat (rewrite zq_add || rewrite zq_sub || rewrite zq_mul || rewrite zq_opp). change 12 with (4 * 3). change 6 with (2 * 3). rewrite !zq_mul, zq_1. ring. }
    destruct (Qcmult_integral _ _ Q) as [Q1|Q1]; [exfalso; apply (zq_ne 27); [lia|auto]|auto]. }
  cbv zeta. set (d := ((4 * u + sb2 E) * u + 2 * sb4 E) * u + sb6 E). destruct (isqrt_ok d) as (ok & rd & Eq & S1 & S2). rewrite Eq, bind_Ok. destruct ok.
  2:{ exists []. split; [reflexivity|]. split; [constructor|]. split; [constructor|]. intros T. split; [intros []|]. intros (HT & T3 & u' & Eu & (y & ->)). replace u' with u in * by lia.
      assert (T3o : has_order E 3 (Aff (zq u) y)) by (apply pt_order_ho; change (Z.of_nat 3) with 3; apply order_three; auto; split; [auto|discriminate]).
      destruct (torsion_integral E HD 3 _ _ HT T3o (le_n 3)) as (u2 & w & _ & Ey). discriminate S2. exists (2 * w + a1 E * u + a3 E).
      apply zq_inj. unfold d. rewrite <- P2_int, <- (t2_b (zq u) y HT), zq_mul, Ey. repeat (rewrite zq_add || rewrite zq_mul). rewrite zq_2. ring. }
  destruct (S1 eq_refl) as [R0 Ed]. clear S1 S2 Eq. set (P := mkpoint (2 * u) (rd - (a1 E * u + a3 E)) 2).
  assert (N2 : (1 + 1 <> 0)%Qc) by (rewrite <- zq_2; apply zq_ne; lia).
  set (y := ((zq rd - (zq (a1 E) * zq u + zq (a3 E))) / (1 + 1))%Qc).
  assert (Ty : (y + y + zq (a1 E) * zq u + zq (a3 E))%Qc = zq rd) by (unfold y; field; auto).
  assert (HT : on (Aff (zq u) y)).
  { unfold eon_pt, qon_pt, on_pt, QcGroup.qon, GroupLaw.on. pose proof (P2_int u) as R2. fold d in R2. rewrite Ed, zq_mul, <- Ty in R2. cbn [div_pol_2 peval] in R2.
    repeat (rewrite zq_add in R2 || rewrite zq_mul in R2). rewrite zq_2 in R2.
    assert (E4 : zq 4 = (1 + 1 + 1 + 1)%Qc) by (apply Qc_is_canon; reflexivity). rewrite E4 in R2. assert (F4 : (1 + 1 + 1 + 1 <> 0)%Qc) by (rewrite <- E4; apply zq_ne; lia).
    clearbody y. clear Ty SC R. set (A1 := zq (a1 E)) in *. set (A2 := zq (a2 E)) in *. set (A3 := zq (a3 E)) in *. set (A4 := zq (a4 E)) in *. set (A6 := zq (a6 E)) in *. set (x := zq u) in *.
    match goal with |- ?l = ?r => assert (Q : ((1 + 1 + 1 + 1) * (l - r))%Qc = 0%Qc) end.
    { match type of R2 with ?r = ?s => transitivity (s - r)%Qc; [ring|rewrite R2; ring] end. }
    destruct (Qcmult_integral _ _ Q) as [Q1|Q1]; [contradiction|]. match goal with |- ?u = ?v => transitivity (u - v + v)%Qc; [ring|rewrite Q1; ring] end. }
  assert (T3 : emul E 3 (Aff (zq u) y) = Inf) by now apply three_char.
  destruct (mk_tok (2 * u) (rd - (a1 E * u + a3 E)) 2 (Aff (zq u) y)) as [KP AP]; [lia| |exact HT|exists 3%nat; split; [lia|exact T3]|].
  { unfold y. rewrite zq_sub, zq_add, !zq_mul, zq_2. f_equal. field. auto. }
  fold P in KP, AP. destruct (neg_tok P KP) as [KN AN].
  assert (NT : zq rd <> 0%Qc).
  { intros Z. rewrite Z in Ty. apply (two_t E (zq u) y HT) in Ty. change 3%nat with (1 + 2)%nat in T3. rewrite emul_add, Ty, eadd_inf_r in T3 by auto. cbn [emul] in T3. rewrite eadd_inf_r in T3. discriminate. }
  exists [P; p_neg E P]. split; [reflexivity|]. split; [auto|]. split.
  - cbn [map]. rewrite AN. constructor; [|repeat constructor; auto]. intros [Q|[]]. symmetry in Q. revert Q. apply (neg_neq P (zq u) y); [exact AP|]. now rewrite Ty.
  - intros T. cbn [map In]. rewrite AN, AP. split.
    + intros [<-|[<-|[]]]; (split; [|split]); auto.
      * exists u. split; [auto|]. now exists y.
      * now apply eneg_on.
      * rewrite emul_neg, T3 by auto. reflexivity.
      * exists u. split; [auto|]. eexists. reflexivity.
    + intros (HT' & T3' & u' & Eu & (y' & ->)). replace u' with u in * by lia. destruct (same_x (zq u) y y' HT HT') as [->| ->]; auto.
Qed.
Theorem three_torsion_ok (exact : bool) : exists f0, forall fuel, (f0 <= fuel)%nat -> exists l,
  three_torsion introots E (sb2 E) (sb4 E) (sb6 E) (sb8 E) fuel exact = Ok l /\ tors_list E (wanted 3 exact) l /\ Forall tok l.
Proof.
  unfold three_torsion, three_torsion_x. set (f := [27 * sb8 E; 27 * sb6 E; 9 * sb4 E; sb2 E; 1]). destruct (IR f) as (xl & Ex & I & S); [exists 4%nat; cbn; lia|].
  destruct (concat_x (fun _ => three_point E (sb2 E) (sb4 E) (sb6 E)) (fun x0 T => on T /\ emul E 3 T = Inf /\ exists u, x0 = 3 * u /\ has_x u T) xl) as (f1 & L & EL & K & ND & IL).
  - intros x Ix. apply I in Ix. destruct (three_point_ok x Ix) as (L & EL & H). exists O, L. split; [auto|exact H].
  - now apply sorted_nodup.
  - intros x x' T (_ & _ & u & -> & H) (_ & _ & u' & -> & H'). now rewrite (has_x_inj _ _ _ H H').
  - destruct (finish0 3 exact L) as (f0 & H); auto; [lia| |].
    + intros T. assert (W : on T -> T <> Inf -> (wanted 3 exact T <-> emul E 3 T = Inf)) by (intros HT NT; unfold wanted; destruct exact; [rewrite order_three by auto; tauto|reflexivity]).
      rewrite IL. split.
      * intros (x & _ & HT & T3 & u & _ & (y & ->)). split; [auto|]. split; [discriminate|]. apply W; auto. discriminate.
      * intros (HT & NT & HW). apply W in HW; auto. destruct T as [|x y]; [now destruct NT|].
        assert (HO : has_order E 3 (Aff x y)) by (apply pt_order_ho; change (Z.of_nat 3) with 3; apply order_three; auto).
        destruct (torsion_integral E HD 3 _ _ HT HO (le_n 3)) as (u & w & -> & _). exists (3 * u). split; [|split; [auto|split; [auto|exists u; split; [auto|now exists y]]]].
        apply I. apply three_char in HW; auto. unfold f, sb8, sb2, sb4, sb6. transitivity (zq 27 * peval P3 (zq u))%Qc; [|rewrite HW; ring].
        cbn [div_pol_3 peval]. change 27 with (3 * 3 * 3). change 9 with (3 * 3). rewrite !Z.pow_2_r.
        repeat (rewrite zq_add || rewrite zq_sub || rewrite zq_mul || rewrite zq_opp). change 12 with (4 * 3). change 6 with (2 * 3). rewrite !zq_mul, zq_1. ring.
    + exists (max f0 f1). intros fuel Hf. destruct (H fuel ltac:(lia)) as (l & El & TL & TK). exists l. rewrite Ex, bind_Ok. specialize (EL fuel ltac:(lia)). cbv beta in EL. rewrite EL, bind_Ok. auto.
Qed.

(** ** m_torsion *)
Lemma pfx_ord n d L : points_from_x E (sb2 E) (sb4 E) (sb6 E) (n, d) = Ok L -> forall P, In P L -> ord P = 0.
Proof.
  unfold points_from_x. intros H P I. destruct (isqrt d) as [[ok xd]| | |]; cbn [bind] in H; try discriminate. destruct ok; [|injection H as <-; destruct I].
  cbv zeta in H. destruct (isqrt _) as [[ok t]| | |]; cbn [bind] in H; try discriminate. destruct ok; [|injection H as <-; destruct I].
  assert (O : forall X Y W, ord (mkpoint X Y W) = 0) by (intros X Y W; unfold mkpoint; destruct (reduce3 X Y W) as [[? ?] ?]; reflexivity).
  destruct (negb _); injection H as <-; destruct I as [<-|I]; try apply O; try (destruct I as [<-|[]]; apply O). destruct I.
Qed.
(** the points with integer abscissa x *)
Lemma pfx_int x : exists L, points_from_x E (sb2 E) (sb4 E) (sb6 E) (x, 1) = Ok L /\ Forall (fun P => proj_on E P /\ reduced P /\ ord P = 0) L /\ NoDup (map aff L) /\
  forall T, In T (map aff L) <-> on T /\ has_x x T.
Proof.
  destruct (pfx_ok E x 1 ltac:(lia) (Z.gcd_1_r x)) as (L & EL & A & B & C). exists L. split; [exact EL|]. split; [|split].
  - apply Forall_forall. intros P IP. destruct (A P IP) as (V & R & _). split; [auto|]. split; [auto|]. now apply (pfx_ord x 1 L).
  - clear EL B. induction C as [|P L F C IH]; cbn [map]; constructor.
    + intros I. apply in_map_iff in I as (Q & EQ & IQ). rewrite Forall_forall in F. apply (F Q IQ). apply (aff_eq_same E); auto; apply A; [now left|now right].
    + apply IH. intros Q IQ. apply A. now right.
  - intros T. rewrite in_map_iff. split.
    + intros (P & <- & IP). destruct (A P IP) as (V & R & NZ & HX). split; [now apply aff_on_all|]. unfold aff. destruct (Z.eqb_spec (pZ P) 0); [contradiction|].
      eexists. f_equal. rewrite <- (frac_one x). apply frac_eq; [auto|lia|]. lia.
    + intros (HT & y & ->). destruct (lift_pt E (zq x) y HT) as (P & V & R & AP & _). pose proof AP as AP'. unfold aff in AP'. destruct (Z.eqb_spec (pZ P) 0) as [|NZ]; [discriminate|]. apply Aff_inj in AP' as [HX _].
      destruct (B P V) as (Q & IQ & SQ). { split; [auto|]. rewrite <- (frac_one x) in HX. apply frac_eq in HX; auto; lia. }
      exists Q. split; [|exact IQ]. rewrite <- AP. symmetry. now apply aff_same.
Qed.
Lemma keep_order_ok m (exact : bool) Ps : Forall tok Ps -> NoDup (map aff Ps) ->
  exists f0 L, (forall fuel, (f0 <= fuel)%nat -> keep_order E fuel m exact Ps = Ok L) /\ Forall tok L /\ NoDup (map aff L) /\
    forall T, In T (map aff L) <-> In T (map aff Ps) /\ (exact = true -> pt_order E m T).
Proof.
  induction Ps as [|P Ps IH]; intros K N.
  - exists O, []. split; [reflexivity|]. split; [constructor|]. split; [constructor|]. intros T. cbn. tauto.
  - inversion K as [|? ? KP K']; subst. cbn [map] in N. inversion N as [|? ? NI N']; subst. destruct (IH K' N') as (f0 & L & EL & KL & NL & IL).
    destruct exact.
    + destruct (tok_order P KP) as (o & f1 & Ho & Eo). set (P' := Pt (pX P) (pY P) (pZ P) o).
      assert (KP' : tok P'). { destruct KP as (V & R & T & _). split; [exact V|]. split; [exact R|]. split; [exact T|]. right. apply pt_order_is; [exact V|exact Ho]. }
      assert (AP' : aff P' = aff P) by reflexivity.
      exists (max f0 f1), (if o =? m then P' :: L else L). split; [|split; [|split]].
      * intros fuel Hf. cbn [keep_order negb]. rewrite Eo, bind_Ok, bind_Ok, EL, bind_Ok by lia. reflexivity.
      * destruct (o =? m); auto.
      * destruct (o =? m); auto. cbn [map]. rewrite AP'. constructor; [|auto]. intros I. apply IL in I. now destruct I.
      * intros T. cbn [map In]. destruct (Z.eqb_spec o m) as [<-|NO]; cbn [map In].
        -- rewrite IL, AP'. split; [intros [<-|H]; tauto|tauto].
        -- rewrite IL. split; [tauto|]. intros [[<-|I] H]; [|tauto]. exfalso. apply NO. apply (pt_order_unique _ _ _ Ho). now apply H.
    + exists f0, (P :: L). split; [|split; [|split]].
      * intros fuel Hf. cbn [keep_order negb]. rewrite bind_Ok, EL, bind_Ok by lia. reflexivity.
      * auto.
      * cbn [map]. constructor; [|auto]. intros I. apply IL in I. now destruct I.
      * intros T. cbn [map In]. rewrite IL. split; [intros [<-|[H _]]; split; auto; discriminate|]. intros [H _]. destruct H; [now left|right]. split; [auto|discriminate].
Qed.
(** what m_torsion returns for m >= 3 *)
Definition got (m : Z) (exact : bool) (T : pt Qc) : Prop :=
  if exact then pt_order E m T else emul E (Z.to_nat m) T = Inf /\ (T = Inf \/ Z.odd m = true \/ emul E 2 T <> Inf).
Lemma order_ge3 m o x y : on (Aff x y) -> pt_order E o (Aff x y) -> emul E (Z.to_nat m) (Aff x y) = Inf -> 3 <= m -> Z.odd m = true \/ emul E 2 (Aff x y) <> Inf -> 3 <= o.
Proof.
  intros HT Ho Hm M3 C. destruct (Z.eq_dec o 1) as [->|N1].
  { destruct Ho as (_ & Q & _). change (Z.to_nat 1) with 1%nat in Q. cbn [emul] in Q. rewrite eadd_inf_r in Q. discriminate. }
  destruct (Z.eq_dec o 2) as [->|N2]; [|destruct Ho; lia]. exfalso. destruct C as [O|C]; [|destruct Ho as (_ & Q & _); contradiction].
  apply (order_div 2) in Hm; auto. destruct Hm as [k Hk]. change (Z.to_nat 2) with 2%nat in Hk. assert (m = Z.of_nat k * 2) by lia. subst m. rewrite Z.odd_mul, andb_false_r in O. discriminate.
Qed.
Theorem m_torsion_ge3 m (exact : bool) : 3 <= Z.abs m -> exists f0, forall fuel, (f0 <= fuel)%nat -> exists l,
  m_torsion introots E (sb2 E) (sb4 E) (sb6 E) fuel m exact = Ok l /\ tors_list E (got (Z.abs m) exact) l /\ Forall tok l.
Proof.
  intros Hm. unfold m_torsion. set (n := Z.abs m) in *. clearbody n. clear m.
  destruct (Z.eqb_spec n 2); [lia|]. destruct (Z.eqb_spec n 0); [lia|]. destruct (Z.eqb_spec n 1); [lia|].
  destruct (C78_degree E n (S (Z.to_nat n)) ltac:(lia) ltac:(lia)) as (p & Ep & ND & _).
  destruct (C78_roots E n (S (Z.to_nat n)) HD ltac:(lia) ltac:(lia)) as (p' & Ep' & HR). rewrite Ep in Ep'. injection Ep' as <-.
  assert (EF : forall fuel, (Z.to_nat n < fuel)%nat -> div_pol (a1 E) (a2 E) (a3 E) (a4 E) (a6 E) fuel n = Ok p).
  { intros fuel Hf. unfold div_pol in Ep |- *. destruct (Z.eqb_spec n 2); [lia|]. rewrite dpo_dp in Ep |- * by lia. exact Ep. }
  destruct (IR p) as (xs & Exs & I & S).
  { eexists. intros Z. unfold coeff in Z. rewrite Z in ND. destruct (n =? 2), (Z.odd n); try lia. assert (0 < n / 2) by (apply Z.div_str_pos; lia). lia. }
  set (G := fun T => on T /\ emul E (Z.to_nat n) T = Inf /\ T <> Inf /\ (Z.odd n = true \/ emul E 2 T <> Inf) /\ (exact = true -> pt_order E n T)).
  destruct (concat_x (fun fuel xi => Ps <- points_from_x E (sb2 E) (sb4 E) (sb6 E) (xi, 1) ;; keep_order E fuel n exact Ps) (fun x T => G T /\ has_x x T) xs) as (f1 & L & EL & K & NL & IL).
  - intros x Ix. apply I in Ix. destruct (pfx_int x) as (Ps & EP & FP & NP & IP).
    assert (TP : forall T, In T (map aff Ps) -> on T /\ has_x x T /\ emul E (Z.to_nat n) T = Inf /\ (Z.odd n = true \/ emul E 2 T <> Inf)).
    { intros T IT. apply IP in IT as (HT & y & ->). apply (HR (zq x) y HT) in Ix as [A B]. split; [auto|]. split; [now exists y|]. split; [auto|]. destruct B as [B|B]; [lia|auto]. }
    destruct (keep_order_ok n exact Ps) as (f0 & L & EL & KL & NL & IL); auto.
    + rewrite Forall_forall in FP |- *. intros P IPs. destruct (FP P IPs) as (V & R & O). split; [auto|]. split; [auto|]. split; [|auto].
      exists (Z.to_nat n). split; [lia|]. apply TP. now apply in_map.
    + exists f0, L. split; [intros fuel Hf; rewrite EP, bind_Ok; auto|]. split; [auto|]. split; [auto|]. intros T. rewrite IL. split.
      * intros [IT H]. destruct (TP T IT) as (A & B & C & D). split; [|auto]. split; [auto|]. split; [auto|]. split; [|auto]. destruct B as (y & ->). discriminate.
      * intros [(A & B & C & D & F) H]. split; [|auto]. apply IP. auto.
  - now apply sorted_nodup.
  - intros x x' T [_ H] [_ H']. exact (has_x_inj _ _ _ H H').
  - assert (GL : forall T, In T (map aff L) <-> G T).
    { intros T. rewrite IL. split; [intros (x & _ & H & _); exact H|]. intros H. destruct H as (HT & HN & NT & C & Ex). destruct T as [|x y]; [now destruct NT|].
      destruct (tors_order (Aff x y)) as (o & Ho); [exists (Z.to_nat n); split; [lia|auto]|]. pose proof (order_ge3 n o x y HT Ho HN Hm C) as O3.
      destruct (torsion_integral E HD (Z.to_nat o) x y HT) as (u & w & -> & ->); [apply pt_order_ho; now rewrite Z2Nat.id by lia|lia|].
      exists u. split; [|split; [split; [auto|]; split; [auto|]; split; [auto|]; split; [auto|auto]|now exists (zq w)]]. apply I. apply (HR _ _ HT). split; [auto|]. destruct C; auto. }
    destruct (finish ((if exact then [] else [infpt]) ++ L) (got n exact)) as (f0 & H).
    + destruct exact; [exact K|]. constructor; [apply inf_tok|exact K].
    + destruct exact; [exact NL|]. cbn [app map]. constructor; [|exact NL]. intros J. apply GL in J. destruct J as (_ & _ & J & _). now apply J.
    + intros T. unfold got. destruct exact; cbn [app map In].
      * rewrite GL. unfold G. split; [intros (A & B & C & D & F); auto|]. intros [A B]. split; [auto|]. pose proof B as (B1 & B2 & B3). split; [auto|].
        split; [intros ->; apply (B3 1%nat); [lia|reflexivity]|]. split; [right; apply B3; lia|auto].
      * change (aff infpt) with (@Inf Qc). rewrite GL. unfold G. split.
        -- intros [<-|(A & B & C & D & _)]; [|auto]. split; [exact Logic.I|]. split; [apply emul_inf|auto].
        -- intros (A & B & C). destruct T as [|x y]; [now left|right]. split; [auto|]. split; [auto|]. split; [discriminate|]. split; [destruct C as [C|C]; [discriminate|auto]|discriminate].
    + exists (max (max f0 f1) (Datatypes.S (Z.to_nat n))). intros fuel Hf. destruct (H fuel ltac:(lia)) as (l & El & TL & TK). exists l.
      rewrite EF, bind_Ok, Exs, bind_Ok by lia. specialize (EL fuel ltac:(lia)). cbv beta in EL. rewrite EL, bind_Ok. auto.
Qed.
End OnE.
