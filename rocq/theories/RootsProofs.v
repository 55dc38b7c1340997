(** The rational roots of an integer polynomial are those of its linear factors. *)
From Coq Require Import ZArith Znumtheory Lia List Bool QArith Qcanon Arith Permutation Sorted.
From Verif Require Import Base RatModel RatProofs DivPolModel DivPolProofs GroupLaw QcGroup PointsProofs DivPolQ NagLutz RootsModel.
Import ListNotations.
Open Scope Z_scope.

(** ** specification *)
(** the same polynomial *)
Definition peq (p q : poly) : Prop := forall j, coeff p j = coeff q j.
Definition irreducible (g : poly) : Prop := 1 <= pdeg g /\ forall a b, peq g (pmul a b) -> pdeg a <= 0 \/ pdeg b <= 0.
Definition primitive (g : poly) : Prop := forall k, (forall j, (k | coeff g j)) -> k = 1 \/ k = -1.
Fixpoint ppow (g : poly) (e : nat) : poly := match e with O => [1] | S e' => pmul g (ppow g e') end.
Definition pprod (l : list (poly * Z)) : poly := fold_right (fun ge r => pmul (ppow (fst ge) (Z.to_nat (snd ge))) r) [1] l.
(** what NTL promises of factor: f = c * prod g^e, the g distinct, primitive and irreducible
    with positive leading coefficients, the exponents positive *)
Definition factor_ok (f : poly) (l : list (poly * Z)) : Prop :=
  (exists c, c <> 0 /\ peq f (pscal c (pprod l))) /\
  Forall (fun ge => irreducible (fst ge) /\ primitive (fst ge) /\ 0 < coeff (fst ge) (Z.to_nat (pdeg (fst ge))) /\ 0 < snd ge) l /\
  ForallOrdPairs (fun a b => ~ peq (fst a) (fst b)) l.
(** the rational roots of f, in lowest terms, without repetitions, in increasing order *)
Definition rat_roots_of (f : poly) (l : list rat) : Prop :=
  (forall n d, In (n, d) l <-> 0 < d /\ Z.gcd n d = 1 /\ peval f (zq n / zq d)%Qc = 0%Qc) /\
  StronglySorted (fun a b => fst a * snd b < fst b * snd a) l.
Definition int_roots_of (f : poly) (l : list Z) : Prop :=
  (forall n, In n l <-> peval f (zq n) = 0%Qc) /\ StronglySorted Z.lt l.

(** ** coefficients and values *)
Lemma peq_peval p : forall q x, peq p q -> peval p x = peval q x.
Proof.
  induction p as [|a p IH]; intros q x H.
  - symmetry. apply peval_zero. intros j. rewrite <- (co_nil j). symmetry. apply H.
  - destruct q as [|b q]; [apply peval_zero; intros j; rewrite <- (co_nil j); apply H|].
    cbn [peval]. rewrite (H O : a = b), (IH q x); [reflexivity|]. intros j. exact (H (S j)).
Qed.
Lemma ppow_eval g x e : peval (ppow g e) x = 0%Qc <-> (e <> 0%nat /\ peval g x = 0%Qc).
Proof.
  induction e as [|e IH]; cbn [ppow].
  - cbn [peval]. rewrite zq_1. split; [intros H; exfalso|tauto]. apply (zq_ne 1); [lia|]. rewrite zq_1, <- H. ring.
  - rewrite peval_mul. split.
    + intros H. split; [lia|]. destruct (Qcmult_integral _ _ H); [auto|tauto].
    + intros [_ ->]. ring.
Qed.
Lemma pprod_eval l x : Forall (fun ge : poly * Z => 0 < snd ge) l -> (peval (pprod l) x = 0%Qc <-> exists ge, In ge l /\ peval (fst ge) x = 0%Qc).
Proof.
  induction l as [|[g e] l IH]; intros F; cbn [pprod fold_right].
  - cbn [peval]. rewrite zq_1. split; [intros H; exfalso|intros (ge & [] & _)]. apply (zq_ne 1); [lia|]. rewrite zq_1, <- H. ring.
  - inversion F as [|? ? F1 F2]; subst. cbn [fst snd] in *. fold (pprod l). rewrite peval_mul. split.
    + intros H. destruct (Qcmult_integral _ _ H) as [H1|H1].
      * apply ppow_eval in H1 as [_ H1]. exists (g, e). split; [now left|auto].
      * apply (IH F2) in H1 as (ge & I & Z). exists ge. split; [now right|auto].
    + intros (ge & [<-|I] & Z).
      * cbn [fst] in Z. assert (Q : peval (ppow g (Z.to_nat e)) x = 0%Qc) by (apply ppow_eval; split; [lia|auto]). rewrite Q. ring.
      * assert (Q : peval (pprod l) x = 0%Qc) by (apply IH; eauto). rewrite Q. ring.
Qed.

(** ** degrees *)
Lemma pdeg_ge p : -1 <= pdeg p.
Proof. induction p as [|a p IH]; cbn [pdeg]; [lia|]. destruct (_ <? _); [destruct (_ =? _)|]; lia. Qed.
Lemma pdeg_ld p : (pdeg p = -1 /\ forall j, co p j = 0) \/ (exists D, pdeg p = Z.of_nat D /\ co p D <> 0 /\ ld p D (co p D)).
Proof.
  induction p as [|a p [[D Z]|(D & ED & ND & L)]]; cbn [pdeg].
  - left. split; [reflexivity|apply co_nil].
  - rewrite D. cbn. destruct (Z.eqb_spec a 0) as [->|Na].
    + left. split; [reflexivity|]. intros [|j]; [reflexivity|apply Z].
    + right. exists O. split; [reflexivity|]. split; [exact Na|]. split; [reflexivity|]. intros [|j] Hj; [lia|apply Z].
  - right. exists (S D). destruct (Z.ltb_spec (pdeg p) 0); [lia|]. split; [lia|]. split; [exact ND|]. split; [reflexivity|].
    intros [|j] Hj; [lia|]. apply L. lia.
Qed.
Lemma ld_pdeg p D c : ld p D c -> c <> 0 -> pdeg p = Z.of_nat D.
Proof.
  intros [L1 L2] Hc. destruct (pdeg_ld p) as [[_ Z]|(D' & ED & ND & L1' & L2')]; [rewrite Z in L1; congruence|].
  rewrite ED. f_equal. destruct (lt_eq_lt_dec D D') as [[H|H]|H]; [|auto|].
  - exfalso. apply ND. now apply L2.
  - exfalso. apply Hc. rewrite <- L1. now apply L2'.
Qed.
Lemma ld_le p D : pdeg p <= Z.of_nat D -> ld p D (co p D).
Proof.
  intros H. split; [reflexivity|]. destruct (pdeg_ld p) as [[_ Z]|(D' & ED & _ & _ & L)]; [auto|]. intros j Hj. apply L. lia.
Qed.
Lemma peq_ld p q D c : peq p q -> ld q D c -> ld p D c.
Proof. intros H [L1 L2]. split; [rewrite <- L1; apply H|]. intros j Hj. rewrite <- (L2 j Hj). apply H. Qed.

(** ** a root gives a linear factor with integer coefficients *)
Lemma co_lin a b q j : co (pmul [a; b] q) j = a * co q j + b * (match j with O => 0 | S i => co q i end).
Proof.
  cbn [pmul]. rewrite co_add, co_scal. destruct j as [|j]; [cbn; ring|].
  change (co (0 :: padd (pscal b q) [0]) (S j)) with (co (padd (pscal b q) [0]) j). rewrite co_add, co_scal. destruct j as [|[|j]]; cbn; ring.
Qed.
Lemma hom_ex p u v : v <> 0 -> exists h, (zq (v ^ Z.of_nat (length p)) * peval p (zq u / zq v))%Qc = zq h.
Proof.
  intros Hv. destruct (ld_hom (length p) p 0 u v Hv) as (h & Hh & _); [|eauto].
  split; [apply nth_overflow; lia|intros j Hj; apply nth_overflow; lia].
Qed.
Lemma root_factor u v : 0 < v -> Z.gcd u v = 1 -> forall n g, (length g <= n)%nat -> peval g (zq u / zq v)%Qc = 0%Qc -> exists h, peq g (pmul [- u; v] h).
Proof.
  intros Hv G. assert (Nv : zq v <> 0%Qc) by (apply zq_ne; lia). induction n as [|n IH]; intros g Hl R.
  { destruct g; [|cbn in Hl; lia]. exists []. intros j. unfold coeff. change (co [] j = co (pmul [- u; v] []) j). rewrite co_lin, !co_nil. destruct j; rewrite ?co_nil; ring. }
  destruct g as [|g0 g1]. { apply (IH []); [cbn; lia|auto]. }
  cbn [peval] in R. destruct (Z.eq_dec u 0) as [->|Nu].
  { rewrite Z.gcd_0_l in G. assert (v = 1) by lia. subst v.
    assert (Z0 : g0 = 0). { apply zq_inj. rewrite zq_0, <- R, zq_0, zq_1. unfold Qcdiv. ring. }
    exists g1. intros j. change (co (g0 :: g1) j = co (pmul [-0; 1] g1) j). rewrite co_lin. destruct j; unfold co; cbn [nth]; [rewrite Z0|]; ring. }
  destruct g1 as [|c g1'] eqn:E1.
  { cbn [peval] in R. assert (Z0 : g0 = 0). { apply zq_inj. rewrite zq_0, <- R. ring. }
    exists []. intros j. change (co [g0] j = co (pmul [- u; v] []) j). rewrite co_lin, !co_nil, Z0. destruct j as [|[|j]]; rewrite ?co_nil; cbn; ring. }
  rewrite <- E1 in *. assert (L1 : (length g1 <= n)%nat) by (cbn [length] in Hl; lia).
  assert (Du : (u | g0)).
  { destruct (hom_ex g1 u v ltac:(lia)) as (h & Hh). set (N := length g1) in *.
    assert (Q : g0 * v ^ Z.of_nat (S N) + u * h = 0).
    { apply zq_inj. rewrite zq_add, !zq_mul, <- Hh, zq_pow, zq_0. transitivity (zq v * zq (v ^ Z.of_nat N) * (zq g0 + zq u / zq v * peval g1 (zq u / zq v)))%Qc; [field; auto|]. rewrite R. ring. }
    apply (Z.gauss u (v ^ Z.of_nat (S N))); [exists (- h); lia|]. apply gcd_pow. now rewrite Z.gcd_comm. }
  destruct Du as [k Hk]. set (h0 := - k). set (g2 := padd g1 [- v * h0]).
  destruct (IH g2) as (h1 & Hh1).
  - assert (LL : length g2 = length g1) by (unfold g2; rewrite E1; cbn [padd length]; now destruct g1'). lia.
  - assert (Nuq : zq u <> 0%Qc) by now apply zq_ne.
    assert (Q : (zq u / zq v * peval g2 (zq u / zq v) = 0)%Qc).
    { assert (EV : peval g2 (zq u / zq v) = (peval g1 (zq u / zq v) + zq (- v * h0))%Qc) by (unfold g2; rewrite E1; cbn [padd peval]; destruct g1'; cbn [padd peval]; rewrite zq_add; ring).
      rewrite EV, <- R, Hk. unfold h0. rewrite !zq_mul, !zq_opp. field. auto. }
    destruct (Qcmult_integral _ _ Q) as [Q1|Q1]; [exfalso|exact Q1]. apply Nuq. transitivity (zq u / zq v * zq v)%Qc; [field; auto|]. rewrite Q1. ring.
  - exists (h0 :: h1). intros j. change (co (g0 :: g1) j = co (pmul [- u; v] (h0 :: h1)) j). rewrite co_lin. destruct j as [|i].
    + cbn [co nth]. unfold co. cbn. subst g0. unfold h0. ring.
    + change (co (g0 :: g1) (S i)) with (co g1 i). change (co (h0 :: h1) (S i)) with (co h1 i).
      assert (Q : co g2 i = co (pmul [- u; v] h1) i) by exact (Hh1 i). rewrite co_lin in Q. unfold g2 in Q. rewrite co_add in Q.
      destruct i as [|i]; unfold co in *; cbn [nth] in *; [lia|]. destruct i; cbn [nth] in *; lia.
Qed.
(** an irreducible polynomial with a rational root is linear *)
Lemma irr_root g u v : irreducible g -> 0 < v -> Z.gcd u v = 1 -> peval g (zq u / zq v)%Qc = 0%Qc -> pdeg g = 1.
Proof.
  intros [I1 I2] Hv G R. destruct (root_factor u v Hv G (length g) g (Nat.le_refl _) R) as (h & H).
  assert (LL : ld [- u; v] 1 v). { split; [reflexivity|]. intros [|[|j]] Hj; try lia. unfold co. cbn. now destruct j. }
  destruct (I2 _ _ H) as [B|B].
  - rewrite (ld_pdeg _ _ _ LL) in B by lia. lia.
  - pose proof (ld_mul _ _ _ _ _ _ LL (ld_le h 0 B)) as L. apply (peq_ld g) in L; [|exact H]. cbn [Nat.add] in L.
    destruct (pdeg_ld g) as [[D _]|(D & ED & ND & _)]; [lia|]. destruct (le_lt_dec D 1) as [L1|L1]; [lia|]. exfalso. apply ND. now apply L.
Qed.
(** linear primitive polynomials *)
Lemma lin_peq g : pdeg g = 1 -> peq g [coeff g 0; coeff g 1].
Proof.
  intros D j. destruct j as [|[|j]]; try reflexivity. pose proof (ld_le g 1 ltac:(lia)) as [_ L]. unfold coeff, co in *. rewrite L by lia. cbn. now destruct j.
Qed.
Lemma lin_gcd g : pdeg g = 1 -> primitive g -> Z.gcd (coeff g 0) (coeff g 1) = 1.
Proof.
  intros D P. destruct (P (Z.gcd (coeff g 0) (coeff g 1))) as [H|H]; [|auto|].
  - intros j. rewrite (lin_peq g D j). destruct j as [|[|j]]; [apply Z.gcd_divide_l|apply Z.gcd_divide_r|]. unfold coeff. cbn. destruct j; apply Z.divide_0_r.
  - pose proof (Z.gcd_nonneg (coeff g 0) (coeff g 1)). lia.
Qed.
Lemma lin_eval g n d : pdeg g = 1 -> 0 < d -> Z.gcd n d = 1 -> primitive g -> 0 < coeff g 1 ->
  (peval g (zq n / zq d)%Qc = 0%Qc <-> n = - coeff g 0 /\ d = coeff g 1).
Proof.
  intros D Hd G P L. rewrite (peq_peval _ _ _ (lin_peq g D)). set (a := coeff g 0) in *. set (b := coeff g 1) in *.
  pose proof (lin_gcd g D P) as GG. fold a b in GG. assert (Nd : zq d <> 0%Qc) by (apply zq_ne; lia).
  cbn [peval]. split.
  - intros H. assert (Q : a * d + n * b = 0).
    { apply zq_inj. rewrite zq_0, zq_add, !zq_mul. transitivity (zq d * (zq a + zq n / zq d * (zq b + zq n / zq d * 0)))%Qc; [field; auto|]. rewrite H. ring. }
    assert (D1 : (d | b)). { apply (Z.gauss d n); [exists (- a); lia|now rewrite Z.gcd_comm]. }
    assert (D2 : (b | d)). { apply (Z.gauss b a); [exists (- n); lia|now rewrite Z.gcd_comm]. }
    assert (d = b) by (apply Z.divide_antisym_nonneg; auto; lia). subst d. split; [|auto]. clear - Q L. nia.
  - intros [-> ->]. rewrite zq_opp. field. auto.
Qed.
Lemma brat_make_low n d : 0 < d -> Z.gcd n d = 1 -> brat_make n d = Ok (n, d).
Proof.
  intros Hd G. unfold brat_make, brat_cancel. rewrite G. change (1 <? 1) with false. cbv iota beta. rewrite bind_Ok. cbv iota beta.
  destruct (Z.ltb_spec d 0); [lia|reflexivity].
Qed.

(** ** sorting *)
Lemma ins_perm {A} lt (x : A) l : Permutation (ins lt x l) (x :: l).
Proof.
  induction l as [|y l IH]; cbn [ins]; [auto|]. destruct (lt y x); [|auto]. rewrite IH. apply perm_swap.
Qed.
Lemma isort_perm {A} lt (l : list A) : Permutation (isort lt l) l.
Proof. induction l as [|x l IH]; cbn [isort fold_right]; [auto|]. fold (isort lt l). rewrite ins_perm. now constructor. Qed.
Section Sort.
Context {A : Type} (lt : A -> A -> bool) (R : A -> A -> Prop) (ok : A -> Prop).
Hypothesis lt_R : forall x y, ok x -> ok y -> lt x y = true -> R x y.
Hypothesis tot : forall x y, ok x -> ok y -> lt x y = false -> x <> y -> R y x.
Hypothesis tr : forall x y z, ok x -> ok y -> ok z -> R x y -> R y z -> R x z.
Lemma ins_sorted x l : ok x -> Forall ok l -> ~ In x l -> StronglySorted R l -> StronglySorted R (ins lt x l).
Proof.
  induction l as [|y l IH]; intros Ox Ol NI S; cbn [ins]; [repeat constructor|].
  inversion Ol as [|? ? Oy Ol']; subst. inversion S as [|? ? S' F]; subst. destruct (lt y x) eqn:E.
  - constructor; [apply IH; auto; intros I; apply NI; now right|].
    apply Forall_forall. intros z Iz. apply (Permutation_in _ (ins_perm lt x l)) in Iz. destruct Iz as [<-|Iz]; [now apply lt_R|]. rewrite Forall_forall in F. now apply F.
  - assert (Rxy : R x y) by (apply tot; auto; intros ->; apply NI; now left).
    constructor; [exact S|]. constructor; [exact Rxy|]. rewrite Forall_forall in F, Ol'. apply Forall_forall. intros z Iz. apply (tr x y z); auto.
Qed.
Lemma isort_sorted l : Forall ok l -> NoDup l -> StronglySorted R (isort lt l).
Proof.
  induction l as [|x l IH]; intros O N; cbn [isort fold_right]; [constructor|]. fold (isort lt l). inversion O; subst. inversion N; subst.
  apply ins_sorted; auto.
  - apply Forall_forall. intros z Iz. apply (Permutation_in _ (isort_perm lt l)) in Iz. rewrite Forall_forall in H2. auto.
  - intros I. apply (Permutation_in _ (isort_perm lt l)) in I. contradiction.
Qed.
End Sort.

(** ** the roots *)
Section Roots.
Variable factor : poly -> list (poly * Z).
Lemma lin_roots_ok l : Forall (fun ge => irreducible (fst ge) /\ primitive (fst ge) /\ 0 < coeff (fst ge) (Z.to_nat (pdeg (fst ge))) /\ 0 < snd ge) l ->
  ForallOrdPairs (fun a b => ~ peq (fst a) (fst b)) l ->
  exists r, lin_roots l = Ok r /\ NoDup r /\
    forall n d, In (n, d) r <-> 0 < d /\ Z.gcd n d = 1 /\ exists ge, In ge l /\ peval (fst ge) (zq n / zq d)%Qc = 0%Qc.
Proof.
  induction l as [|[g e] l IH]; intros F P; cbn [lin_roots].
  - exists []. split; [reflexivity|]. split; [constructor|]. intros n d. split; [intros []|intros (_ & _ & ge & [] & _)].
  - inversion F as [|? ? (I & PR & LP & EP) F']; subst. inversion P as [|? ? PH P']; subst. cbn [fst snd] in *.
    destruct (IH F' P') as (r & Er & ND & Hr). destruct (Z.eqb_spec (pdeg g) 1) as [D1|D1].
    + rewrite D1 in LP. change (Z.to_nat 1) with 1%nat in LP. pose proof (lin_gcd g D1 PR) as GG.
      rewrite brat_make_low, bind_Ok by (try rewrite Z.gcd_opp_l; auto). rewrite Er, bind_Ok. eexists. split; [reflexivity|]. split.
      * constructor; [|exact ND]. intros IN. apply Hr in IN as (_ & _ & ge & Ige & Z). rewrite Forall_forall in PH, F'.
        destruct (F' ge Ige) as (I' & PR' & LP' & _). assert (D1' : pdeg (fst ge) = 1) by (apply (irr_root _ (- coeff g 0) (coeff g 1)); auto; now rewrite Z.gcd_opp_l).
        rewrite D1' in LP'. change (Z.to_nat 1) with 1%nat in LP'. apply lin_eval in Z as [Z1 Z2]; auto; [|now rewrite Z.gcd_opp_l].
        apply (PH ge Ige). intros j. rewrite (lin_peq g D1 j), (lin_peq _ D1' j). replace (coeff (fst ge) 0) with (coeff g 0) by lia. now rewrite Z2.
      * intros n d. cbn [In]. rewrite Hr. split.
        -- intros [Q|(A & B & ge & Ige & Z)]; [|split; [auto|]; split; [auto|]; exists ge; auto].
           injection Q as <- <-. split; [auto|]. split; [now rewrite Z.gcd_opp_l|]. exists (g, e). split; [now left|]. apply lin_eval; auto; now rewrite Z.gcd_opp_l.
        -- intros (A & B & ge & [<-|Ige] & Z); [left|right; split; [auto|]; split; [auto|]; exists ge; auto].
           cbn [fst] in Z. apply lin_eval in Z as [-> ->]; auto.
    + exists r. split; [exact Er|]. split; [exact ND|]. intros n d. rewrite Hr. split.
      * intros (A & B & ge & Ige & Z). split; [auto|]. split; [auto|]. exists ge. split; [now right|auto].
      * intros (A & B & ge & [<-|Ige] & Z); [exfalso; apply D1; apply (irr_root g n d); auto|]. split; [auto|]. split; [auto|]. exists ge. auto.
Qed.
Theorem zroots_ok f : factor_ok f (factor f) -> exists l, zroots factor f = Ok l /\ rat_roots_of f l.
Proof.
  intros ((c & Hc & Ef) & F & P). destruct (lin_roots_ok (factor f) F P) as (r & Er & ND & Hr). unfold zroots. rewrite Er, bind_Ok.
  eexists. split; [reflexivity|]. assert (Nc : zq c <> 0%Qc) by now apply zq_ne. split.
  - intros n d. assert (Q : In (n, d) (isort brat_lt r) <-> In (n, d) r) by (split; apply Permutation_in; [|apply Permutation_sym]; apply isort_perm).
    rewrite Q, Hr, (peq_peval _ _ _ Ef), peval_scal. rewrite <- pprod_eval by (eapply Forall_impl; [|exact F]; tauto).
    split; intros (A & B & C); (split; [auto|]); (split; [auto|]); [rewrite C; ring|]. destruct (Qcmult_integral _ _ C); [contradiction|auto].
  - apply (isort_sorted brat_lt (fun a b => fst a * snd b < fst b * snd a) (fun a => 0 < snd a /\ Z.gcd (fst a) (snd a) = 1)); auto.
    + intros [a b] [c' d] _ _ H. unfold brat_lt in H. cbn. lia.
    + intros [a b] [c' d] [O1 G1] [O2 G2] H NE. unfold brat_lt in H. cbn [fst snd] in *. assert (a * d <> c' * b); [|lia]. intros Q. apply NE.
      assert (D1 : (b | d)). { apply (Z.gauss b a); [exists c'; lia|now rewrite Z.gcd_comm]. }
      assert (D2 : (d | b)). { apply (Z.gauss d c'); [exists a; lia|now rewrite Z.gcd_comm]. }
      assert (b = d) by (apply Z.divide_antisym_nonneg; auto; lia). subst d. f_equal. nia.
    + intros [x1 y1] [x2 y2] [x3 y3] [O1 _] [O2 _] [O3 _]. cbn [fst snd] in *. intros A B.
      apply (Z.mul_lt_mono_pos_r y2); [auto|]. clear - A B O1 O2 O3. assert (x1 * y2 * y3 < x2 * y1 * y3) by now apply Z.mul_lt_mono_pos_r. assert (x2 * y3 * y1 < x3 * y2 * y1) by now apply Z.mul_lt_mono_pos_r. nia.
    + apply Forall_forall. intros [n d] I. apply Hr in I. cbn. tauto.
Qed.
Theorem introots_ok f : factor_ok f (factor f) -> exists l, introots factor f = Ok l /\ int_roots_of f l.
Proof.
  intros H. destruct (zroots_ok f H) as (r & Er & Hr & S). unfold introots. rewrite Er, bind_Ok. eexists. split; [reflexivity|].
  set (r1 := map fst (filter (fun q : rat => snd q =? 1) r)).
  assert (I1 : forall n, In n r1 <-> peval f (zq n) = 0%Qc).
  { intros n. unfold r1. rewrite in_map_iff. split.
    - intros ([n' d] & <- & I). apply filter_In in I as [I Q]. cbn [fst snd] in *. apply Z.eqb_eq in Q. subst d. apply Hr in I as (_ & _ & I). now rewrite frac_one in I.
    - intros Z. exists (n, 1). split; [reflexivity|]. apply filter_In. split; [|reflexivity]. apply Hr. split; [lia|]. split; [apply Z.gcd_1_r|]. now rewrite frac_one. }
  assert (ND : NoDup r1).
  { unfold r1. clear - S. induction S as [|[n d] l S IH F]; [constructor|]. cbn [filter]. cbn [snd]. destruct (Z.eqb_spec d 1) as [->|]; [|exact IH]. cbn [map fst]. constructor; [|exact IH].
    intros I. apply in_map_iff in I as ([n' d'] & Q & I). apply filter_In in I as [I Q']. cbn [fst snd] in *. rewrite Forall_forall in F. specialize (F _ I). cbn in F. apply Z.eqb_eq in Q'. subst. lia. }
  split.
  - intros n. rewrite <- I1. split; apply Permutation_in; [|apply Permutation_sym]; apply isort_perm.
  - apply (isort_sorted Z.ltb Z.lt (fun _ => True)); auto; try (intros; lia). apply Forall_forall. auto.
Qed.
End Roots.
