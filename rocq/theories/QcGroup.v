(** The group law over Q, on the canonical rationals Qc of the standard library. *)
From Coq Require Import ZArith QArith Qcanon Field.
From mathcomp Require Import all_ssreflect all_algebra ssrZ.
From Verif Require Import GroupLaw CoordRing.
Set Implicit Arguments.
Unset Strict Implicit.
Unset Printing Implicit Defensive.

Definition qc_code (q : Qc) : Z * Z := (Qnum (this q), Zpos (Qden (this q))).
Definition qc_decode (c : Z * Z) : option Qc := Some (Q2Qc (Qmake c.1 (Z.to_pos c.2))).
Lemma qc_codeK : pcancel qc_code qc_decode.
Proof.
  move=> q. rewrite /qc_decode /qc_code /=. congr Some. apply: Qc_is_canon.
  case: q => [[n d] H] /=. exact: Qred_correct.
Qed.
Definition Qc_eqMixin := PcanEqMixin qc_codeK.
Canonical Qc_eqType := EqType Qc Qc_eqMixin.
Definition Qc_choiceMixin := PcanChoiceMixin qc_codeK.
Canonical Qc_choiceType := ChoiceType Qc Qc_choiceMixin.
Definition Qc_zmodMixin := @ZmodMixin Qc_choiceType 0%Qc Qcopp Qcplus Qcplus_assoc Qcplus_comm Qcplus_0_l
  (fun x => etrans (Qcplus_comm (Qcopp x) x) (Qcplus_opp_r x)).
Canonical Qc_zmodType := ZmodType Qc Qc_zmodMixin.
Lemma Qc_one_neq0 : (1%Qc : Qc_eqType) != 0%Qc.
Proof. by []. Qed.
Definition Qc_comMixin := @ComRingMixin Qc_zmodType 1%Qc Qcmult Qcmult_assoc Qcmult_comm Qcmult_1_l Qcmult_plus_distr_l Qc_one_neq0.
Canonical Qc_ringType := RingType Qc Qc_comMixin.
Canonical Qc_comRingType := ComRingType Qc Qcmult_comm.
Lemma Qc_mulV (x : Qc) : x != 0%Qc :> Qc_eqType -> Qcmult (Qcinv x) x = 1%Qc.
Proof. move=> /eqP H. exact: Qcmult_inv_l. Qed.
Lemma Qc_inv0 : Qcinv 0%Qc = 0%Qc.
Proof. by apply: Qc_is_canon. Qed.
Definition Qc_unitMixin := @FieldUnitMixin Qc_comRingType Qcinv Qc_mulV Qc_inv0.
Canonical Qc_unitRingType := UnitRingType Qc Qc_unitMixin.
Canonical Qc_comUnitRingType := [comUnitRingType of Qc].
Lemma Qc_fieldMixin : GRing.Field.mixin_of Qc_unitRingType.
Proof. by []. Qed.
Definition Qc_idomMixin := FieldIdomainMixin Qc_fieldMixin.
Canonical Qc_idomType := IdomainType Qc Qc_idomMixin.
Canonical Qc_fieldType := FieldType Qc Qc_fieldMixin.

Section Law.
Variables a1 a2 a3 a4 a6 : Qc.
Definition qon := on Qcplus Qcmult a1 a2 a3 a4 a6.
Definition qon_pt := on_pt Qcplus Qcmult a1 a2 a3 a4 a6.
Definition qneg := neg Qcmult Qcminus Qcopp a1 a3.
Definition qadd := add 1%Qc Qcplus Qcmult Qcminus Qcopp Qcdiv Qc_eq_dec a1 a2 a3 a4.
Definition qfx := fx 1%Qc Qcplus Qcmult Qcminus a1 a2 a4.
Definition qfy := fy Qcplus Qcmult a1 a3.
Definition qnonsing := forall x y, qon x y -> qfy x y <> 0%Qc \/ qfx x y <> 0%Qc.

Lemma qadd_F P Q : qadd P Q = @add Qc 1%Qc Qcplus Qcmult Qcminus Qcopp Qcdiv (@feq_dec Qc_fieldType) a1 a2 a3 a4 P Q.
Proof.
  rewrite /qadd. case: P => [|x y] //. case: Q => [|x' y'] //. rewrite /add.
  case: (Qc_eq_dec x x') => H; case: (feq_dec x x') => H' //.
  case: (Qc_eq_dec y _) => G; case: (feq_dec y _) => G' //.
Qed.
Theorem qadd_assoc : qnonsing -> forall A B C, qon_pt A -> qon_pt B -> qon_pt C ->
  qadd (qadd A B) C = qadd A (qadd B C).
Proof.
  move=> NS A B C HA HB HC. rewrite !qadd_F.
  exact: (@add_assoc_F Qc_fieldType a1 a2 a3 a4 a6 NS A B C HA HB HC).
Qed.
Lemma qneg_on P : qon_pt P -> qon_pt (qneg P).
Proof. exact (neg_on _ _ _ _ _ _ _ _ _ Qcft _ _ _ _ _ P). Qed.
Lemma qadd_on P Q : qon_pt P -> qon_pt Q -> qon_pt (qadd P Q).
Proof. exact (add_on _ _ _ _ _ _ _ _ _ Qcft Qc_eq_dec _ _ _ _ _ P Q). Qed.
Lemma qadd_comm P Q : qon_pt P -> qon_pt Q -> qadd P Q = qadd Q P.
Proof. exact (add_comm _ _ _ _ _ _ _ _ _ Qcft Qc_eq_dec _ _ _ _ _ P Q). Qed.
Lemma qneg_neg P : qneg (qneg P) = P.
Proof. exact (neg_neg _ _ _ _ _ _ _ _ _ Qcft _ _ P). Qed.
Lemma qadd_neg_r P : qadd P (qneg P) = Inf.
Proof. exact (add_neg_r _ _ _ _ _ _ _ _ _ Qcft Qc_eq_dec _ _ _ _ P). Qed.
Lemma qadd_neg P Q : qon_pt P -> qon_pt Q -> qadd P (qneg Q) = Inf -> P = Q.
Proof. exact (add_neg _ _ _ _ _ _ _ _ _ Qcft Qc_eq_dec _ _ _ _ _ P Q). Qed.
Lemma qsame_x x y y' : qon x y -> qon x y' -> y <> (- y' - a1 * x - a3)%Qc -> y = y' /\ qfy x y <> 0%Qc.
Proof. exact (same_x _ _ _ _ _ _ _ _ _ Qcft _ _ _ _ _ x y y'). Qed.
End Law.
