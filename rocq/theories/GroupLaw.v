(** The group law on a nonsingular Weierstrass cubic over a field, by the ideal
    class argument: the ideals of three collinear points multiply to the
    principal ideal of the line, and the ideal of one point is never
    principal.  This file works with an abstract coordinate ring; CoordRing.v
    constructs it. *)
From Coq Require Import Ring Field List Permutation.
Import ListNotations.

Section Law.
Variable K : Type.
Variables k0 k1 : K.
Variables kadd kmul ksub : K -> K -> K.
Variable kopp : K -> K.
Variable kdiv : K -> K -> K.
Variable kinv : K -> K.
Hypothesis Kft : field_theory k0 k1 kadd kmul ksub kopp kdiv kinv eq.
Hypothesis keq_dec : forall x y : K, {x = y} + {x <> y}.
Add Field Kfield : Kft.
Declare Scope K_scope.
Delimit Scope K_scope with K.
Bind Scope K_scope with K.
Local Notation "x + y" := (kadd x y) : K_scope.
Local Notation "x * y" := (kmul x y) : K_scope.
Local Notation "x - y" := (ksub x y) : K_scope.
Local Notation "- x" := (kopp x) : K_scope.
Local Notation "x / y" := (kdiv x y) : K_scope.
Local Notation "0" := k0 : K_scope.
Local Notation "1" := k1 : K_scope.
Local Open Scope K_scope.
Variables a1 a2 a3 a4 a6 : K.

(** ** Points, and the chord and tangent law *)
Inductive pt := Inf | Aff (x y : K).
Definition on (x y : K) : Prop := y * y + a1 * x * y + a3 * y = x * x * x + a2 * x * x + a4 * x + a6.
Definition on_pt (P : pt) : Prop := match P with Inf => True | Aff x y => on x y end.
Definition fy x y := y + y + a1 * x + a3.
Definition fx x y := (1 + 1 + 1) * x * x + (1 + 1) * a2 * x + a4 - a1 * y.
Hypothesis nonsing : forall x y, on x y -> fy x y <> 0 \/ fx x y <> 0.

Definition neg (P : pt) : pt := match P with Inf => Inf | Aff x y => Aff x (- y - a1 * x - a3) end.
(** third point on the line of slope l through (x1,y1) and a point with
    abscissa x2, then reflected *)
Definition chord (l x1 y1 x2 : K) : pt :=
  let x3 := l * l + a1 * l - a2 - x1 - x2 in
  Aff x3 (- (l * (x3 - x1) + y1) - a1 * x3 - a3).
Definition add (P Q : pt) : pt :=
  match P, Q with
  | Inf, _ => Q
  | _, Inf => P
  | Aff x1 y1, Aff x2 y2 =>
      if keq_dec x1 x2 then
        if keq_dec y1 (- y2 - a1 * x2 - a3) then Inf
        else chord (fx x1 y1 / fy x1 y1) x1 y1 x2
      else chord ((y1 - y2) / (x1 - x2)) x1 y1 x2
  end.

Lemma kmul_0 x y : x * y = 0 -> x <> 0 -> y = 0.
Proof.
  intros H N. transitivity (x * y / x); [field; auto|]. rewrite H. field. auto.
Qed.
Lemma ksub_0 x y : x - y = 0 -> x = y.
Proof. intros H. transitivity (x - y + y); [ring|]. rewrite H. ring. Qed.
Lemma ksub_ne x y : x <> y -> x - y <> 0.
Proof. intros H E. apply H. now apply ksub_0. Qed.
Lemma kmul_ne x y : x <> 0 -> y <> 0 -> x * y <> 0.
Proof. intros H1 H2 E. apply H2. now apply kmul_0 with x. Qed.

(** ** the abstract coordinate ring *)
Variable R : Type.
Variables r0 r1 : R.
Variables radd rmul rsub : R -> R -> R.
Variable ropp : R -> R.
Hypothesis Rrt : ring_theory r0 r1 radd rmul rsub ropp eq.
Add Ring Rring : Rrt.
Declare Scope R_scope.
Delimit Scope R_scope with R.
Bind Scope R_scope with R.
Local Notation "x + y" := (radd x y) : R_scope.
Local Notation "x * y" := (rmul x y) : R_scope.
Local Notation "x - y" := (rsub x y) : R_scope.
Local Notation "- x" := (ropp x) : R_scope.
Local Notation "0" := r0 : R_scope.
Local Notation "1" := r1 : R_scope.
Variable cst : K -> R.
Hypothesis cst_0 : cst 0 = 0%R.
Hypothesis cst_1 : cst 1 = 1%R.
Hypothesis cst_add : forall x y, cst (x + y) = (cst x + cst y)%R.
Hypothesis cst_mul : forall x y, cst (x * y) = (cst x * cst y)%R.
Hypothesis cst_opp : forall x, cst (- x) = (- cst x)%R.
Variables X Y : R.
Hypothesis Rcurve : (Y * Y + cst a1 * X * Y + cst a3 * Y = X * X * X + cst a2 * X * X + cst a4 * X + cst a6)%R.
Hypothesis Rdom : forall x y, (x * y = 0 -> x <> 0 -> y = 0)%R.
Hypothesis Xne : forall c, (X - cst c)%R <> 0%R.
Hypothesis Yne : forall l m, (Y - cst l * X - cst m)%R <> 0%R.

Lemma cst_sub x y : cst (x - y) = (cst x - cst y)%R.
Proof. replace (x - y) with (x + - y) by ring. rewrite cst_add, cst_opp. ring. Qed.
Ltac csts := repeat (rewrite cst_add || rewrite cst_mul || rewrite cst_sub || rewrite cst_opp || rewrite cst_0 || rewrite cst_1).

(** products of the ideals of points *)
Fixpoint IL (L : list pt) (f : R) : Prop :=
  match L with
  | [] => True
  | Inf :: L' => IL L' f
  | Aff x y :: L' => exists h1 h2, IL L' h1 /\ IL L' h2 /\ f = ((X - cst x) * h1 + (Y - cst y) * h2)%R
  end.
Hypothesis nonprinc : forall x y, on x y -> forall l, ~ (forall f, IL [Aff x y] f <-> exists k, f = (l * k)%R).

Lemma IL_add L : forall f g, IL L f -> IL L g -> IL L (f + g)%R.
Proof.
  induction L as [|[|x y] L IH]; cbn [IL]; auto.
  intros f g (h1 & h2 & H1 & H2 & ->) (g1 & g2 & G1 & G2 & ->).
  exists (h1 + g1)%R, (h2 + g2)%R. split; [auto|]. split; [auto|]. ring.
Qed.
Lemma IL_mul L : forall r f, IL L f -> IL L (r * f)%R.
Proof.
  induction L as [|[|x y] L IH]; cbn [IL]; auto.
  intros r f (h1 & h2 & H1 & H2 & ->). exists (r * h1)%R, (r * h2)%R. split; [auto|]. split; [auto|]. ring.
Qed.
Lemma IL_perm L L' : Permutation L L' -> forall f, IL L f <-> IL L' f.
Proof.
  assert (SW : forall P Q L f, IL (P :: Q :: L) f -> IL (Q :: P :: L) f).
  { intros P Q M f. destruct P as [|x y], Q as [|x' y']; cbn [IL]; auto.
    intros (h1 & h2 & (h11 & h12 & A & B & ->) & (h21 & h22 & C & D & ->) & ->).
    exists ((X - cst x) * h11 + (Y - cst y) * h21)%R, ((X - cst x) * h12 + (Y - cst y) * h22)%R.
    split; [exists h11, h21; auto|]. split; [exists h12, h22; auto|]. ring. }
  induction 1 as [|P L L' _ IH|P Q L|L L' L'' _ IH1 _ IH2]; intros f.
  - reflexivity.
  - destruct P as [|x y]; cbn [IL]; [auto|].
    split; intros (h1 & h2 & H1 & H2 & ->); exists h1, h2; (split; [now apply IH|]); (split; [now apply IH|]); reflexivity.
  - split; apply SW.
  - now rewrite IH1.
Qed.

Definition princ_by (L : list pt) (l : R) : Prop := l <> 0%R /\ forall f, IL L f <-> exists k, f = (l * k)%R.
Definition princ (L : list pt) : Prop := exists l, princ_by L l.

Lemma princ_perm L L' : Permutation L L' -> princ L -> princ L'.
Proof. intros P (l & N & H). exists l. split; [auto|]. intros f. rewrite <- H. symmetry. now apply IL_perm. Qed.
Lemma IL_app_princ L1 L2 l : princ_by L2 l -> forall f, IL (L1 ++ L2) f <-> exists h, IL L1 h /\ f = (l * h)%R.
Proof.
  intros (N & H). induction L1 as [|[|x y] L1 IH]; intros f; cbn [app IL].
  - rewrite H. split; [intros [k ->]; eauto|intros (k & _ & ->); eauto].
  - apply IH.
  - split.
    + intros (h1 & h2 & H1 & H2 & ->). apply IH in H1 as (g1 & G1 & ->). apply IH in H2 as (g2 & G2 & ->).
      exists ((X - cst x) * g1 + (Y - cst y) * g2)%R. split; [exists g1, g2; auto|]. ring.
    + intros (h & (g1 & g2 & G1 & G2 & ->) & ->). exists (l * g1)%R, (l * g2)%R.
      split; [apply IH; eauto|]. split; [apply IH; eauto|]. ring.
Qed.
Lemma Rmul_ne x y : (x <> 0 -> y <> 0 -> x * y <> 0)%R.
Proof. intros H1 H2 E. apply H2. now apply Rdom with x. Qed.
Lemma Rcancel x y z : (x <> 0 -> x * y = x * z -> y = z)%R.
Proof.
  intros N E. assert (F : (y - z = 0)%R). { apply Rdom with x; [|auto]. transitivity (x * y - x * z)%R; [ring|]. rewrite E. ring. }
  transitivity (y - z + z)%R; [ring|]. rewrite F. ring.
Qed.
Lemma princ_app L1 L2 : princ L1 -> princ L2 -> princ (L1 ++ L2).
Proof.
  intros (l1 & N1 & H1) (l2 & PB). exists (l2 * l1)%R. split; [apply Rmul_ne; [apply PB|auto]|].
  intros f. rewrite (IL_app_princ L1 L2 l2 PB). split.
  - intros (h & Hh & ->). apply H1 in Hh as [k ->]. exists k. ring.
  - intros [k ->]. exists (l1 * k)%R. split; [apply H1; eauto|]. ring.
Qed.
Lemma princ_cancel L1 L2 : princ (L1 ++ L2) -> princ L2 -> princ L1.
Proof.
  intros (l & N & H) (l2 & PB).
  assert (E : IL (L1 ++ L2) l) by (apply H; exists 1%R; ring).
  apply (IL_app_princ L1 L2 l2 PB) in E as (m & Hm & El). exists m. split.
  { intros ->. apply N. rewrite El. ring. }
  intros f. split.
  - intros Hf. assert (IL (L1 ++ L2) (l2 * f)%R) by (apply (IL_app_princ L1 L2 l2 PB); eauto).
    apply H in H0 as [k Hk]. exists k. apply Rcancel with l2; [apply PB|]. rewrite Hk, El. ring.
  - intros [k ->]. replace (m * k)%R with (k * m)%R by ring. now apply IL_mul.
Qed.
Lemma princ_inf L : princ L <-> princ (Inf :: L).
Proof. reflexivity. Qed.
Lemma princ_nil : princ [].
Proof.
  exists 1%R. split.
  - intros E. apply (Xne 0). transitivity ((X - cst 0) * 1)%R; [ring|]. rewrite E. ring.
  - intros f. cbn [IL]. split; [intros _; exists f; ring|auto].
Qed.

Lemma cst_unit c f L : c <> 0 -> IL L (cst c * f)%R -> IL L f.
Proof.
  intros N H. replace f with (cst (k1 / c) * (cst c * f))%R; [now apply IL_mul|].
  transitivity (cst (k1 / c * c) * f)%R; [csts; ring|]. replace (k1 / c * c) with k1 by (field; auto). csts. ring.
Qed.

(** *** a point and its negative *)
Lemma IL_prod P L f g : IL [P] f -> IL L g -> IL (P :: L) (f * g)%R.
Proof.
  destruct P as [|x y]; cbn [IL]; [intros _; apply IL_mul|].
  intros (h1 & h2 & _ & _ & ->) H. exists (h1 * g)%R, (h2 * g)%R. split; [now apply IL_mul|]. split; [now apply IL_mul|]. ring.
Qed.
Lemma IL_x x y : IL [Aff x y] (X - cst x)%R.
Proof. cbn [IL]. exists 1%R, 0%R. split; [auto|]. split; [auto|]. ring. Qed.
Lemma IL_y x y : IL [Aff x y] (Y - cst y)%R.
Proof. cbn [IL]. exists 0%R, 1%R. split; [auto|]. split; [auto|]. ring. Qed.

Lemma princ_neg x y : on x y -> princ [Aff x y; neg (Aff x y)].
Proof.
  intros H. cbn [neg]. set (y' := - y - a1 * x - a3).
  pose (T := (X * X + (cst x + cst a2) * X + cst x * cst x + cst a2 * cst x + cst a4 - cst a1 * Y)%R).
  assert (EX : cst a6 = (cst y * cst y + cst a1 * cst x * cst y + cst a3 * cst y - cst x * cst x * cst x - cst a2 * cst x * cst x - cst a4 * cst x)%R).
  { replace a6 with (y * y + a1 * x * y + a3 * y - x * x * x - a2 * x * x - a4 * x); [csts; ring|]. rewrite H. ring. }
  assert (EY : cst y' = (- cst y - cst a1 * cst x - cst a3)%R) by (unfold y'; csts; ring).
  assert (ET : ((Y - cst y) * (Y - cst y') = (X - cst x) * T)%R).
  { rewrite EY. transitivity (Y * Y + cst a1 * X * Y + cst a3 * Y - cst a1 * (X - cst x) * Y - cst y * (cst y + cst a1 * cst x + cst a3))%R; [ring|].
    rewrite Rcurve, EX. unfold T. ring. }
  exists (X - cst x)%R. split; [apply Xne|]. intros f. split.
  - cbn [IL]. intros (h1 & h2 & (h11 & h12 & _ & _ & ->) & (h21 & h22 & _ & _ & ->) & ->).
    exists ((X - cst x) * h11 + (Y - cst y') * h12 + (Y - cst y) * h21 + T * h22)%R.
    transitivity ((X - cst x) * ((X - cst x) * h11 + (Y - cst y') * h12 + (Y - cst y) * h21) + ((Y - cst y) * (Y - cst y')) * h22)%R; [ring|].
    rewrite ET. ring.
  - intros [k ->]. replace ((X - cst x) * k)%R with (k * (X - cst x))%R by ring. apply IL_mul.
    assert (P11 := IL_prod (Aff x y) [Aff x y'] _ _ (IL_x x y) (IL_x x y')).
    assert (P12 := IL_prod (Aff x y) [Aff x y'] _ _ (IL_x x y) (IL_y x y')).
    assert (P21 := IL_prod (Aff x y) [Aff x y'] _ _ (IL_y x y) (IL_x x y')).
    assert (P22 := IL_prod (Aff x y) [Aff x y'] _ _ (IL_y x y) (IL_y x y')). rewrite ET in P22.
    destruct (nonsing x y H) as [N|N].
    + apply (cst_unit (fy x y)); [auto|].
      replace (cst (fy x y) * (X - cst x))%R with ((X - cst x) * (Y - cst y') + cst (- k1) * ((Y - cst y) * (X - cst x)))%R.
      * apply IL_add; [auto|]. now apply IL_mul.
      * rewrite EY. unfold fy. csts. ring.
    + apply (cst_unit (fx x y)); [auto|].
      replace (cst (fx x y) * (X - cst x))%R with ((X - cst x) * T + ((- (X + cst x + cst x + cst a2)) * ((X - cst x) * (X - cst x)) +
         cst a1 * ((Y - cst y) * (X - cst x))))%R.
      * apply IL_add; [auto|]. apply IL_add; now apply IL_mul.
      * unfold T, fx. csts. ring.
Qed.

(** *** three points on a line *)
Section Line.
Variables l m x1 x2 x3 : K.
Hypothesis e1 : x1 + x2 + x3 = l * l + a1 * l - a2.
Hypothesis e2 : x1 * x2 + x1 * x3 + x2 * x3 = a4 - (l + l) * m - a1 * m - a3 * l.
Hypothesis e3 : x1 * x2 * x3 = m * m + a3 * m - a6.
Let lin x := l * x + m.
Let LL : R := (Y - cst l * X - cst m)%R.
Let UU : R := (Y + cst l * X + cst m + cst a1 * X + cst a3)%R.

Lemma prod_line : ((X - cst x1) * (X - cst x2) * (X - cst x3) = LL * UU)%R.
Proof.
  transitivity (X * X * X - cst (x1 + x2 + x3) * X * X + cst (x1 * x2 + x1 * x3 + x2 * x3) * X - cst (x1 * x2 * x3))%R; [csts; ring|].
  rewrite e1, e2, e3. unfold LL, UU.
  transitivity (Y * Y + cst a1 * X * Y + cst a3 * Y - (cst l * X + cst m) * (cst l * X + cst m + cst a1 * X + cst a3))%R; [|ring].
  rewrite Rcurve. csts. ring.
Qed.
Lemma lin_on x : (x = x1 \/ x = x2 \/ x = x3) -> on x (lin x).
Proof.
  intros H. unfold on, lin. apply ksub_0.
  transitivity (- ((x - x1) * (x - x2) * (x - x3))).
  - transitivity (- (x * x * x - (x1 + x2 + x3) * x * x + (x1 * x2 + x1 * x3 + x2 * x3) * x - x1 * x2 * x3)); [|ring].
    rewrite e1, e2, e3. ring.
  - destruct H as [-> |[-> | ->]]; ring.
Qed.
Lemma IL_lin x L f : IL (Aff x (lin x) :: L) f <-> exists h1 h2, IL L h1 /\ IL L h2 /\ f = ((X - cst x) * h1 + LL * h2)%R.
Proof.
  cbn [IL]. unfold lin, LL. split; intros (h1 & h2 & H1 & H2 & ->).
  - exists (h1 + cst l * h2)%R, h2. split; [apply IL_add; auto; now apply IL_mul|]. split; [auto|]. csts. ring.
  - exists (h1 + (- cst l) * h2)%R, h2. split; [apply IL_add; auto; now apply IL_mul|]. split; [auto|]. csts. ring.
Qed.
Let L3 := [Aff x1 (lin x1); Aff x2 (lin x2); Aff x3 (lin x3)].
Lemma line_sub f : IL L3 f -> exists k, f = (LL * k)%R.
Proof.
  unfold L3. rewrite IL_lin. intros (h1 & h2 & H1 & _ & ->). rewrite IL_lin in H1. destruct H1 as (h11 & h12 & H1 & _ & ->).
  rewrite IL_lin in H1. destruct H1 as (h111 & h112 & _ & _ & ->).
  exists (UU * h111 + (X - cst x1) * (X - cst x2) * h112 + (X - cst x1) * h12 + h2)%R.
  transitivity (((X - cst x1) * (X - cst x2) * (X - cst x3)) * h111 + LL * ((X - cst x1) * (X - cst x2) * h112 + (X - cst x1) * h12 + h2))%R; [ring|].
  rewrite prod_line. ring.
Qed.
(** the ideal J of all f with LL*f in the product *)
Let J f := IL L3 (LL * f)%R.
Lemma J_add f g : J f -> J g -> J (f + g)%R.
Proof. unfold J. intros. replace (LL * (f + g))%R with (LL * f + LL * g)%R by ring. now apply IL_add. Qed.
Lemma J_mul r f : J f -> J (r * f)%R.
Proof. unfold J. intros. replace (LL * (r * f))%R with (r * (LL * f))%R by ring. now apply IL_mul. Qed.
Lemma J_unit c : c <> 0 -> J (cst c) -> J 1%R.
Proof.
  intros N H. replace 1%R with (cst (k1 / c) * cst c)%R; [now apply J_mul|].
  rewrite <- cst_mul. replace (k1 / c * c) with k1 by (field; auto). auto.
Qed.
Lemma IL_LL x : IL [Aff x (lin x)] LL.
Proof. apply IL_lin. exists 0%R, 1%R. cbn [IL]. split; [auto|]. split; [auto|]. ring. Qed.
Lemma IL_prod3 f g h : IL [Aff x1 (lin x1)] f -> IL [Aff x2 (lin x2)] g -> IL [Aff x3 (lin x3)] h -> IL L3 (f * (g * h))%R.
Proof. intros. unfold L3. apply IL_prod; [auto|]. now apply IL_prod. Qed.
Lemma J_U : J UU.
Proof.
  unfold J. rewrite <- prod_line. replace ((X - cst x1) * (X - cst x2) * (X - cst x3))%R with ((X - cst x1) * ((X - cst x2) * (X - cst x3)))%R by ring.
  apply IL_prod3; apply IL_x.
Qed.
Lemma J_12 : J ((X - cst x1) * (X - cst x2))%R.
Proof. unfold J. replace (LL * _)%R with ((X - cst x1) * ((X - cst x2) * LL))%R by ring. apply IL_prod3; auto using IL_x, IL_LL. Qed.
Lemma J_13 : J ((X - cst x1) * (X - cst x3))%R.
Proof. unfold J. replace (LL * _)%R with ((X - cst x1) * (LL * (X - cst x3)))%R by ring. apply IL_prod3; auto using IL_x, IL_LL. Qed.
Lemma J_23 : J ((X - cst x2) * (X - cst x3))%R.
Proof. unfold J. replace (LL * _)%R with (LL * ((X - cst x2) * (X - cst x3)))%R by ring. apply IL_prod3; auto using IL_x, IL_LL. Qed.
Lemma J_1 : J ((X - cst x1) * LL)%R.
Proof. unfold J. replace (LL * _)%R with ((X - cst x1) * (LL * LL))%R by ring. apply IL_prod3; auto using IL_x, IL_LL. Qed.
Lemma J_L : J (LL * LL)%R.
Proof. unfold J. apply IL_prod3; apply IL_LL. Qed.
Lemma line_of_1 : J 1%R -> princ L3.
Proof.
  intros H. exists LL. split; [apply Yne|]. intros f. split; [apply line_sub|].
  intros [k ->]. unfold J in H. replace (LL * k)%R with (k * (LL * 1))%R by ring. now apply IL_mul.
Qed.
Lemma line_double : x1 = x2 -> princ L3.
Proof.
  intros E. apply line_of_1.
  assert (N : fy x1 (lin x1) <> 0).
  { intros F. destruct (nonsing x1 (lin x1) (lin_on x1 ltac:(auto))) as [G|G]; [contradiction|]. apply G.
    transitivity (fx x1 (lin x1) - l * fy x1 (lin x1)); [rewrite F; ring|].
    transitivity ((1 + 1 + 1) * x1 * x1 - (1 + 1) * (l * l + a1 * l - a2) * x1 + (a4 - (l + l) * m - a1 * m - a3 * l)).
    - unfold fx, fy, lin. ring.
    - rewrite <- e1, <- e2, <- E. ring. }
  apply (J_unit (fy x1 (lin x1) * fy x1 (lin x1))); [now apply kmul_ne|].
  set (n := (((cst l + cst l + cst a1) * (X - cst x1)) + LL)%R).
  assert (EU : UU = (cst (fy x1 (lin x1)) + n)%R) by (unfold UU, n, LL, fy, lin; csts; ring).
  replace (cst (fy x1 (lin x1) * fy x1 (lin x1)))%R with ((cst (fy x1 (lin x1)) - n) * UU +
     ((cst l + cst l + cst a1) * (cst l + cst l + cst a1) * ((X - cst x1) * (X - cst x2)) +
      ((cst l + cst l + cst a1 + (cst l + cst l + cst a1)) * ((X - cst x1) * LL) + 1 * (LL * LL))))%R.
  - apply J_add; [apply J_mul, J_U|]. apply J_add; [apply J_mul, J_12|]. apply J_add; apply J_mul; [apply J_1|apply J_L].
  - rewrite EU, <- E, cst_mul. unfold n. ring.
Qed.
Lemma line_distinct : x1 <> x2 -> x2 <> x3 -> x1 <> x3 -> princ L3.
Proof.
  intros N12 N23 N13. apply line_of_1. apply (J_unit ((x1 - x3) * ((x1 - x2) * (x2 - x3)))).
  { apply kmul_ne; [now apply ksub_ne|]. apply kmul_ne; now apply ksub_ne. }
  replace (cst ((x1 - x3) * ((x1 - x2) * (x2 - x3)))) with
    (cst (x2 - x3) * ((X - cst x2) * (X - cst x3)) + ((- cst (x2 - x3)) * ((X - cst x1) * (X - cst x3)) +
     ((- cst (x1 - x2)) * ((X - cst x1) * (X - cst x3)) + cst (x1 - x2) * ((X - cst x1) * (X - cst x2)))))%R.
  - apply J_add; [apply J_mul, J_23|]. apply J_add; [apply J_mul, J_13|]. apply J_add; apply J_mul; [apply J_13|apply J_12].
  - csts. ring.
Qed.
End Line.

Lemma princ_line l m x1 x2 x3 :
  x1 + x2 + x3 = l * l + a1 * l - a2 ->
  x1 * x2 + x1 * x3 + x2 * x3 = a4 - (l + l) * m - a1 * m - a3 * l ->
  x1 * x2 * x3 = m * m + a3 * m - a6 ->
  princ [Aff x1 (l * x1 + m); Aff x2 (l * x2 + m); Aff x3 (l * x3 + m)].
Proof.
  intros e1 e2 e3. destruct (keq_dec x1 x2) as [E|N12]; [now apply line_double|].
  destruct (keq_dec x2 x3) as [E|N23].
  - apply (princ_perm [Aff x2 (l * x2 + m); Aff x3 (l * x3 + m); Aff x1 (l * x1 + m)]).
    { apply Permutation_sym, (Permutation_cons_append [_; _]). }
    apply line_double; auto; rewrite <- ?e1, <- ?e2, <- ?e3; ring.
  - destruct (keq_dec x1 x3) as [E|N13]; [|now apply line_distinct].
    apply (princ_perm [Aff x1 (l * x1 + m); Aff x3 (l * x3 + m); Aff x2 (l * x2 + m)]).
    { apply perm_skip, perm_swap. }
    apply line_double; auto; rewrite <- ?e1, <- ?e2, <- ?e3; ring.
Qed.

(** coefficients of the cubic cut out by a chord or a tangent *)
Lemma chord_coeffs x1 y1 x2 y2 : on x1 y1 -> on x2 y2 -> x1 <> x2 ->
  let l := (y1 - y2) / (x1 - x2) in let m := y1 - l * x1 in let x3 := l * l + a1 * l - a2 - x1 - x2 in
  y2 = l * x2 + m /\
  x1 * x2 + x1 * x3 + x2 * x3 = a4 - (l + l) * m - a1 * m - a3 * l /\
  x1 * x2 * x3 = m * m + a3 * m - a6.
Proof.
  intros H1 H2 N l m x3. pose proof (ksub_ne _ _ N) as N'.
  assert (L : y1 - y2 = l * (x1 - x2)) by (unfold l; field; auto).
  assert (Y1 : y1 = l * x1 + m) by (unfold m; ring).
  assert (Y2 : y2 = l * x2 + m).
  { transitivity (y1 - (y1 - y2)); [ring|]. rewrite L. unfold m. ring. }
  clearbody l. clearbody m. unfold on in H1, H2. rewrite Y1 in H1. rewrite Y2 in H2. split; [auto|].
  assert (E2 : x1 * x2 + x1 * x3 + x2 * x3 = a4 - (l + l) * m - a1 * m - a3 * l).
  { apply ksub_0, kmul_0 with (x1 - x2); [|auto].
    transitivity (((l * x1 + m) * (l * x1 + m) + a1 * x1 * (l * x1 + m) + a3 * (l * x1 + m) - (x1 * x1 * x1 + a2 * x1 * x1 + a4 * x1 + a6))
      - ((l * x2 + m) * (l * x2 + m) + a1 * x2 * (l * x2 + m) + a3 * (l * x2 + m) - (x2 * x2 * x2 + a2 * x2 * x2 + a4 * x2 + a6))).
    - unfold x3. ring.
    - rewrite H1, H2. ring. }
  split; [auto|]. apply ksub_0.
  transitivity (x1 * (x1 * x2 + x1 * x3 + x2 * x3 - (a4 - (l + l) * m - a1 * m - a3 * l)) -
     ((l * x1 + m) * (l * x1 + m) + a1 * x1 * (l * x1 + m) + a3 * (l * x1 + m) - (x1 * x1 * x1 + a2 * x1 * x1 + a4 * x1 + a6))).
  - unfold x3. ring.
  - rewrite E2, H1. ring.
Qed.
Lemma tangent_coeffs x1 y1 : on x1 y1 -> fy x1 y1 <> 0 ->
  let l := fx x1 y1 / fy x1 y1 in let m := y1 - l * x1 in let x3 := l * l + a1 * l - a2 - x1 - x1 in
  x1 * x1 + x1 * x3 + x1 * x3 = a4 - (l + l) * m - a1 * m - a3 * l /\
  x1 * x1 * x3 = m * m + a3 * m - a6.
Proof.
  intros H1 N l m x3.
  assert (L : fx x1 y1 = l * fy x1 y1) by (unfold l; field; auto).
  assert (Y1 : y1 = l * x1 + m) by (unfold m; ring).
  clearbody l. clearbody m. unfold on in H1. unfold fx, fy in L. rewrite Y1 in H1, L.
  assert (E2 : x1 * x1 + x1 * x3 + x1 * x3 = a4 - (l + l) * m - a1 * m - a3 * l).
  { apply ksub_0. transitivity (- ((1 + 1 + 1) * x1 * x1 + (1 + 1) * a2 * x1 + a4 - a1 * (l * x1 + m) -
      l * (l * x1 + m + (l * x1 + m) + a1 * x1 + a3))).
    - unfold x3. ring.
    - rewrite L. ring. }
  split; [auto|]. apply ksub_0.
  transitivity (x1 * (x1 * x1 + x1 * x3 + x1 * x3 - (a4 - (l + l) * m - a1 * m - a3 * l)) -
     ((l * x1 + m) * (l * x1 + m) + a1 * x1 * (l * x1 + m) + a3 * (l * x1 + m) - (x1 * x1 * x1 + a2 * x1 * x1 + a4 * x1 + a6))).
  - unfold x3. ring.
  - rewrite E2, H1. ring.
Qed.

Lemma same_x x y y' : on x y -> on x y' -> y <> - y' - a1 * x - a3 -> y = y' /\ fy x y <> 0.
Proof.
  intros H H' N. assert (E : y = y').
  { apply ksub_0, kmul_0 with (y + y' + a1 * x + a3).
    - transitivity ((y * y + a1 * x * y + a3 * y) - (y' * y' + a1 * x * y' + a3 * y')); [ring|].
      unfold on in H, H'. rewrite H, H'. ring.
    - intros F. apply N. transitivity (y - (y + y' + a1 * x + a3)); [rewrite F; ring|]. ring. }
  split; [auto|]. subst y'. intros F. apply N. transitivity (y - fy x y); [rewrite F; ring|]. unfold fy. ring.
Qed.

Lemma neg_neg P : neg (neg P) = P.
Proof. destruct P as [|x y]; cbn [neg]; [auto|]. f_equal. ring. Qed.
Lemma neg_on P : on_pt P -> on_pt (neg P).
Proof. destruct P as [|x y]; cbn [neg on_pt]; [auto|]. unfold on. intros H. rewrite <- H. ring. Qed.
Lemma neg_chord l x1 y1 x2 : let x3 := l * l + a1 * l - a2 - x1 - x2 in
  neg (chord l x1 y1 x2) = Aff x3 (l * x3 + (y1 - l * x1)).
Proof. unfold chord. cbv zeta. cbn [neg]. f_equal. ring. Qed.

(** the three cases of addition *)
Lemma add_cases P Q : on_pt P -> on_pt Q ->
  (P = Inf /\ add P Q = Q) \/ (Q = Inf /\ add P Q = P) \/ (P = neg Q /\ add P Q = Inf) \/
  exists l m x1 x2 x3, x1 + x2 + x3 = l * l + a1 * l - a2 /\
    x1 * x2 + x1 * x3 + x2 * x3 = a4 - (l + l) * m - a1 * m - a3 * l /\
    x1 * x2 * x3 = m * m + a3 * m - a6 /\
    P = Aff x1 (l * x1 + m) /\ Q = Aff x2 (l * x2 + m) /\ neg (add P Q) = Aff x3 (l * x3 + m).
Proof.
  destruct P as [|x1 y1]; [cbn [add]; auto|]. destruct Q as [|x2 y2]; [cbn [add]; auto|].
  intros H1 H2. cbn [on_pt] in H1, H2. cbn [add]. destruct (keq_dec x1 x2) as [<-|N].
  - destruct (keq_dec y1 (- y2 - a1 * x1 - a3)) as [->|N].
    + right. right. left. cbn [neg]. auto.
    + destruct (same_x x1 y1 y2 H1 H2 N) as [<- NF]. right. right. right.
      destruct (tangent_coeffs x1 y1 H1 NF) as [C2 C3].
      exists (fx x1 y1 / fy x1 y1), (y1 - fx x1 y1 / fy x1 y1 * x1), x1, x1.
      eexists. split; [|split; [exact C2|split; [exact C3|]]]; [ring|].
      split; [f_equal; ring|]. split; [f_equal; ring|]. apply neg_chord.
  - right. right. right. destruct (chord_coeffs x1 y1 x2 y2 H1 H2 N) as (Y2 & C2 & C3).
    exists ((y1 - y2) / (x1 - x2)), (y1 - (y1 - y2) / (x1 - x2) * x1), x1, x2.
    eexists. split; [|split; [exact C2|split; [exact C3|]]]; [ring|].
    split; [f_equal; ring|]. split; [now f_equal|]. apply neg_chord.
Qed.

Lemma add_on P Q : on_pt P -> on_pt Q -> on_pt (add P Q).
Proof.
  intros H1 H2. destruct (add_cases P Q H1 H2) as [[_ ->]|[[_ ->]|[[_ ->]|(l & m & x1 & x2 & x3 & e1 & e2 & e3 & _ & _ & E)]]]; auto.
  { exact I. }
  rewrite <- (neg_neg (add P Q)), E. apply neg_on. cbn [on_pt]. apply (lin_on l m x1 x2 x3); auto.
Qed.
Lemma add_neg P Q : on_pt P -> on_pt Q -> add P (neg Q) = Inf -> P = Q.
Proof.
  intros H1 H2 E. destruct P as [|x1 y1], Q as [|x2 y2]; cbn [neg add] in E; auto; try discriminate.
  destruct (keq_dec x1 x2) as [<-|]; [|discriminate].
  destruct (keq_dec y1 _) as [-> |]; [|discriminate]. f_equal. ring.
Qed.
Lemma add_inf_r P : add P Inf = P.
Proof. destruct P; reflexivity. Qed.
Lemma add_neg_r P : add P (neg P) = Inf.
Proof.
  destruct P as [|x y]; [reflexivity|]. cbn [neg add].
  destruct (keq_dec x x) as [_|N]; [|now elim N].
  destruct (keq_dec y _) as [_|N]; [reflexivity|]. exfalso. apply N. ring.
Qed.
Lemma add_comm P Q : on_pt P -> on_pt Q -> add P Q = add Q P.
Proof.
  destruct P as [|x1 y1], Q as [|x2 y2]; try reflexivity. cbn [on_pt add]. intros H1 H2.
  destruct (keq_dec x1 x2) as [<-|N].
  - destruct (keq_dec x1 x1) as [_|N]; [|now elim N].
    destruct (keq_dec y1 _) as [E|N].
    + destruct (keq_dec y2 _) as [_|N]; [reflexivity|]. exfalso. apply N. rewrite E. ring.
    + destruct (same_x x1 y1 y2 H1 H2 N) as [<- NF]. destruct (keq_dec y1 _); [contradiction|reflexivity].
  - destruct (keq_dec x2 x1) as [E|N']; [now elim N|].
    assert (EL : (y1 - y2) / (x1 - x2) = (y2 - y1) / (x2 - x1)) by (field; split; now apply ksub_ne).
    assert (EY : y2 = (y2 - y1) / (x2 - x1) * (x2 - x1) + y1) by (field; now apply ksub_ne).
    rewrite EL. unfold chord. cbv zeta. set (l := (y2 - y1) / (x2 - x1)) in *. clearbody l.
    f_equal; [ring|]. rewrite EY. ring.
Qed.
Lemma princ_neg_pt P : on_pt P -> princ [P; neg P].
Proof. destruct P as [|x y]; [intros _; exact princ_nil|apply princ_neg]. Qed.
Lemma princ_sum P Q : on_pt P -> on_pt Q -> princ [P; Q; neg (add P Q)].
Proof.
  intros H1 H2. destruct (add_cases P Q H1 H2) as [[-> E]|[[-> E]|[[-> E]|(l & m & x1 & x2 & x3 & e1 & e2 & e3 & EP & EQ & E)]]].
  - rewrite E. apply princ_inf, princ_neg_pt. auto.
  - rewrite E. apply (princ_perm (Inf :: [P; neg P])); [apply perm_swap|]. apply princ_inf, princ_neg_pt. auto.
  - rewrite E. cbn [neg]. apply (princ_perm (Inf :: [Q; neg Q])).
    + apply (Permutation_trans (perm_skip Inf (perm_swap (neg Q) Q []))).
      apply (Permutation_cons_append [neg Q; Q] Inf).
    + apply princ_inf, princ_neg_pt. auto.
  - rewrite E, EP, EQ. now apply princ_line.
Qed.

Theorem add_assoc A B C : on_pt A -> on_pt B -> on_pt C -> add (add A B) C = add A (add B C).
Proof.
  intros HA HB HC. pose proof (add_on A B HA HB) as HAB. pose proof (add_on B C HB HC) as HBC.
  set (AB := add A B) in *. set (BC := add B C) in *.
  pose proof (add_on AB C HAB HC) as H1. pose proof (add_on A BC HA HBC) as H2.
  set (S1 := add AB C) in *. set (S2 := add A BC) in *.
  pose proof (add_on S1 (neg S2) H1 (neg_on _ H2)) as HD. set (D := add S1 (neg S2)) in *.
  assert (P1 : princ ([A; B; C; neg S1])).
  { apply (princ_cancel _ [AB; neg AB]); [|now apply princ_neg_pt].
    apply (princ_perm ([A; B; neg AB] ++ [AB; C; neg S1])); [|apply princ_app; now apply princ_sum].
    cbn [app]. do 2 apply perm_skip. apply Permutation_trans with ([AB; C; neg S1] ++ [neg AB]).
    - apply (Permutation_cons_append [AB; C; neg S1]).
    - cbn [app]. apply (Permutation_app_tail [neg AB] (Permutation_cons_append [C; neg S1] AB)). }
  assert (P2 : princ ([A; B; C; neg S2])).
  { apply (princ_cancel _ [BC; neg BC]); [|now apply princ_neg_pt].
    apply (princ_perm ([B; C; neg BC] ++ [A; BC; neg S2])); [|apply princ_app; now apply princ_sum].
    cbn [app]. apply Permutation_trans with (A :: [B; C; neg BC; BC; neg S2]).
    - apply Permutation_sym, (Permutation_middle [B; C; neg BC] [BC; neg S2] A).
    - apply perm_skip. do 2 apply perm_skip. apply Permutation_trans with ([BC; neg S2] ++ [neg BC]).
      + apply (Permutation_cons_append [BC; neg S2]).
      + apply perm_swap. }
  assert (P3 : princ [neg D]).
  { apply (princ_cancel _ ([A; B; C; neg S2] ++ [S1; neg S1])); [|apply princ_app; [auto|now apply princ_neg_pt]].
    apply (princ_perm ([A; B; C; neg S1] ++ [S1; neg S2; neg D])).
    - cbn [app]. apply Permutation_trans with ([A; B; C; neg S1; S1; neg S2] ++ [neg D]); [reflexivity|].
      apply Permutation_trans with (neg D :: [A; B; C; neg S1; S1; neg S2]).
      + apply Permutation_sym, Permutation_cons_append.
      + do 4 apply perm_skip. apply Permutation_trans with ([S1; neg S2] ++ [neg S1]).
        * apply (Permutation_cons_append [S1; neg S2]).
        * apply perm_swap.
    - apply princ_app; [auto|]. apply princ_sum; [auto|now apply neg_on]. }
  assert (E : D = Inf).
  { pose proof (neg_on D HD) as HN. rewrite <- (neg_neg D). destruct (neg D) as [|x y]; [reflexivity|].
    exfalso. destruct P3 as (l & _ & PB). exact (nonprinc x y HN l PB). }
  now apply add_neg.
Qed.
End Law.
Arguments Inf {K}.
Arguments Aff {K}.
Arguments on {K}.
Arguments on_pt {K}.
Arguments fx {K}.
Arguments fy {K}.
Arguments neg {K}.
Arguments chord {K}.
Arguments add {K}.
Arguments IL {K R}.
