(** The relations between the division polynomials hold as identities of integer
    polynomials: they hold at infinitely many points over the algebraic numbers. *)
From Coq Require Import ZArith Ring Field Lia.
From mathcomp Require Import all_ssreflect all_algebra all_field zify ssrZ.
From Verif Require Import DivPolModel DivPolProofs GroupLaw CoordRing DivPolEval.
Set Implicit Arguments.
Unset Strict Implicit.
Unset Printing Implicit Defensive.
Import GRing.Theory Num.Theory.
Local Open Scope ring_scope.

Definition az (z : Z) : fK [fieldType of algC] := ((int_of_Z z)%:~R : algC).
Lemma az1 : az 1 = @f1 [fieldType of algC].
Proof. by []. Qed.
Lemma az_add a b : az (a + b) = fadd (az a) (az b).
Proof. have E : int_of_Z (a + b) = int_of_Z a + int_of_Z b by lia. by rewrite /az E /fadd rmorphD. Qed.
Lemma az_mul a b : az (a * b) = fmul (az a) (az b).
Proof. have E : int_of_Z (a * b) = int_of_Z a * int_of_Z b by lia. by rewrite /az E /fmul rmorphM. Qed.
Lemma az_inj a : az a = @f0 [fieldType of algC] -> a = Z0.
Proof. rewrite /az /f0 => /eqP. rewrite intr_eq0 => /eqP E. lia. Qed.

Local Notation AC := [fieldType of algC].
Local Notation k1 := (@f1 AC).
Section OnE.
Variables A1 A2 A3 A4 A6 : Z.
Local Notation a1 := (az A1).
Local Notation a2 := (az A2).
Local Notation a3 := (az A3).
Local Notation a4 := (az A4).
Local Notation a6 := (az A6).
Lemma two_ne : fadd k1 k1 <> @f0 AC.
Proof. rewrite /fadd /f1 /f0 => /eqP. by rewrite -mulr2n pnatr_eq0. Qed.
Lemma az_lift z : exists y, on (@fadd AC) (@fmul AC) a1 a2 a3 a4 a6 (az z) y.
Proof.
  set x := az z. set h : fK AC := fadd (fmul a1 x) a3.
  set g : fK AC := fadd (fadd (fadd (fmul (fmul x x) x) (fmul (fmul a2 x) x)) (fmul a4 x)) a6.
  set D : fK AC := fadd (fmul h h) (fmul (fmul (fadd k1 k1) (fadd k1 k1)) g).
  set r : fK AC := sqrtC (D : algC). have Er : fmul r r = D by rewrite /fmul /r -expr2 sqrtCK.
  eexists. exact: (@lift_sq (fK AC) _ _ _ _ _ _ _ _ (Fft AC) az A1 A2 A3 A4 A6 x r two_ne Er).
Qed.
Theorem Ipol_zero_Z : discZ A1 A2 A3 A4 A6 <> Z0 -> forall n d, (1 <= n)%coq_nat -> (1 <= d)%coq_nat -> forall j, co (Ipol A1 A2 A3 A4 A6 n d) j = Z0.
Proof.
  move=> HD n d Hn Hd.
  have NS := @nonsing_iz (fK AC) _ _ _ _ _ _ _ _ (Fft AC) (@feq_dec AC) az az1 az_add az_mul az_inj A1 A2 A3 A4 A6 HD.
  apply: (@Ipol_zero (fK AC) _ _ _ _ _ _ _ _ (Fft AC) (@feq_dec AC) az az1 az_add az_mul az_inj A1 A2 A3 A4 A6 _ _ n d Hn Hd).
  - exact: (@add_assoc_F AC a1 a2 a3 a4 a6 NS).
  - exact: az_lift.
Qed.
End OnE.
