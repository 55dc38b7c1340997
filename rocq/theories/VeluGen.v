(** Velu's isogenies with kernel {O, T} and {O, T, -T} over any field in which 2 is not 0:
    the map is a homomorphism of the chord and tangent groups. *)
From Coq Require Import Ring Field.
From Verif Require Import GroupLaw.

Section Velu.
Variable K : Type.
Variables k0 k1 : K.
Variables kadd kmul ksub : K -> K -> K.
Variable kopp : K -> K.
Variable kdiv : K -> K -> K.
Variable kinv : K -> K.
Hypothesis Kft : field_theory k0 k1 kadd kmul ksub kopp kdiv kinv eq.
Hypothesis keq_dec : forall x y : K, {x = y} + {x <> y}.
Add Field Kfield : Kft.
Declare Scope V_scope.
Delimit Scope V_scope with K.
Bind Scope V_scope with K.
Local Notation "x + y" := (kadd x y) : V_scope.
Local Notation "x * y" := (kmul x y) : V_scope.
Local Notation "x - y" := (ksub x y) : V_scope.
Local Notation "- x" := (kopp x) : V_scope.
Local Notation "x / y" := (kdiv x y) : V_scope.
Local Notation "0" := k0 : V_scope.
Local Notation "1" := k1 : V_scope.
Local Notation "2" := (1 + 1)%K : V_scope.
Local Notation "3" := (1 + 1 + 1)%K : V_scope.
Local Notation "4" := ((1 + 1) * (1 + 1))%K : V_scope.
Local Open Scope V_scope.
Hypothesis two : 2 <> 0.
Local Notation pt := (pt K).
Lemma four : 4 <> 0. Proof. apply (kmul_ne _ _ _ _ _ _ _ _ _ Kft); exact two. Qed.
Let k_0 := kmul_0 _ _ _ _ _ _ _ _ _ Kft.
Let s_0 := ksub_0 _ _ _ _ _ _ _ _ _ Kft.
Let s_ne := ksub_ne _ _ _ _ _ _ _ _ _ Kft.
Let m_ne := kmul_ne _ _ _ _ _ _ _ _ _ Kft.
Lemma div_ne x y : x <> 0 -> y <> 0 -> x / y <> 0.
Proof. intros A B E. apply A. transitivity (x / y * y); [field; auto|]. rewrite E. ring. Qed.

(** ** three points on a line add up to zero *)
Section Collin.
Variables a1 a2 a3 a4 a6 : K.
Local Notation on := (on kadd kmul a1 a2 a3 a4 a6).
Local Notation fx := (fx 1 kadd kmul ksub a1 a2 a4).
Local Notation fy := (fy kadd kmul a1 a3).
Local Notation add := (add 1 kadd kmul ksub kopp kdiv keq_dec a1 a2 a3 a4).
Local Notation neg := (neg kmul ksub kopp a1 a3).
Hypothesis nonsing : forall x y, on x y -> fy x y <> 0 \/ fx x y <> 0.
Lemma collin l m x1 x2 x3 :
  x1 + x2 + x3 = l * l + a1 * l - a2 ->
  x1 * x2 + x1 * x3 + x2 * x3 = a4 - (l + l) * m - a1 * m - a3 * l ->
  x1 * x2 * x3 = m * m + a3 * m - a6 ->
  add (Aff x1 (l * x1 + m)) (Aff x2 (l * x2 + m)) = neg (Aff x3 (l * x3 + m)).
Proof.
  intros e1 e2 e3.
  assert (e1' : x3 = l * l + a1 * l - a2 - x1 - x2) by (rewrite <- e1; ring).
  assert (e4 : a4 = x1 * x2 + x1 * x3 + x2 * x3 + (l + l) * m + a1 * m + a3 * l) by (rewrite e2; ring).
  assert (e6 : a6 = m * m + a3 * m - x1 * x2 * x3) by (rewrite e3; ring).
  assert (e0 : a2 = l * l + a1 * l - x1 - x2 - x3) by (rewrite e1'; ring).
  cbn [GroupLaw.add GroupLaw.neg]. destruct (keq_dec x1 x2) as [<-|N].
  - assert (O1 : on x1 (l * x1 + m)). { unfold GroupLaw.on. rewrite e6, e4, e0. ring. }
    assert (EF : fx x1 (l * x1 + m) = l * fy x1 (l * x1 + m)). { unfold GroupLaw.fx, GroupLaw.fy. rewrite e4, e0. ring. }
    destruct (keq_dec (l * x1 + m) (- (l * x1 + m) - a1 * x1 - a3)) as [EY|NY].
    + exfalso. assert (F0 : fy x1 (l * x1 + m) = 0).
      { unfold GroupLaw.fy. transitivity ((l * x1 + m) - (- (l * x1 + m) - a1 * x1 - a3)); [ring|]. rewrite <- EY. ring. }
      destruct (nonsing _ _ O1) as [C|C]; apply C; [exact F0|]. rewrite EF, F0. ring.
    + assert (F0 : fy x1 (l * x1 + m) <> 0).
      { intros F. apply NY. transitivity ((l * x1 + m) - fy x1 (l * x1 + m)); [rewrite F; ring|]. unfold GroupLaw.fy. ring. }
      assert (EL : fx x1 (l * x1 + m) / fy x1 (l * x1 + m) = l). { rewrite EF. field. exact F0. }
      rewrite EL. unfold chord. rewrite e1'. f_equal; ring.
  - assert (EL : (l * x1 + m - (l * x2 + m)) / (x1 - x2) = l). { field. now apply s_ne. }
    rewrite EL. unfold chord. rewrite e1'. f_equal; ring.
Qed.
End Collin.

(** ** nonzero discriminant: no singular point *)
Definition disc a1 a2 a3 a4 a6 : K :=
  let b2 := a1 * a1 + 4 * a2 in let b4 := 2 * a4 + a1 * a3 in let b6 := a3 * a3 + 4 * a6 in
  let b8 := a1 * a1 * a6 + 4 * a2 * a6 - a1 * a3 * a4 + a2 * a3 * a3 - a4 * a4 in
  - b2 * b2 * b8 - 4 * 2 * b4 * b4 * b4 - 3 * 3 * 3 * b6 * b6 + 3 * 3 * b2 * b4 * b6.
Lemma disc_nonsing a1 a2 a3 a4 a6 : disc a1 a2 a3 a4 a6 <> 0 -> forall x y, on kadd kmul a1 a2 a3 a4 a6 x y ->
  fy kadd kmul a1 a3 x y <> 0 \/ fx 1 kadd kmul ksub a1 a2 a4 x y <> 0.
Proof.
  intros D x y H. destruct (keq_dec (fy kadd kmul a1 a3 x y) 0) as [EY|]; [|auto].
  destruct (keq_dec (fx 1 kadd kmul ksub a1 a2 a4 x y) 0) as [EX|]; [|auto]. exfalso. apply D.
  unfold fy in EY. unfold fx in EX. unfold on in H.
  assert (H3 : a3 = - y - y - a1 * x). { transitivity ((y + y + a1 * x + a3) - y - y - a1 * x); [ring|]. rewrite EY. ring. }
  assert (H4 : a4 = a1 * y - 3 * x * x - 2 * a2 * x).
  { transitivity ((3 * x * x + 2 * a2 * x + a4 - a1 * y) + a1 * y - 3 * x * x - 2 * a2 * x); [ring|]. rewrite EX. ring. }
  assert (H6 : a6 = y * y + a1 * x * y + a3 * y - x * x * x - a2 * x * x - a4 * x). { rewrite H. ring. }
  unfold disc. rewrite H6, H4, H3. ring.
Qed.

(** ** change of variables x = u^2 x' + r, y = u^3 y' + s u^2 x' + t *)
Section Change.
Variables a1 a2 a3 a4 a6 A1 A2 A3 A4 A6 u r s t : K.
Hypothesis u0 : u <> 0.
Hypothesis E1 : a1 + 2 * s = u * A1.
Hypothesis E2 : a2 - s * a1 + 3 * r - s * s = u * u * A2.
Hypothesis E3 : a3 + r * a1 + 2 * t = u * u * u * A3.
Hypothesis E4 : a4 - s * a3 + 2 * r * a2 - (t + r * s) * a1 + 3 * r * r - 2 * s * t = u * u * u * u * A4.
Hypothesis E6 : a6 + r * a4 + r * r * a2 + r * r * r - t * a3 - t * t - r * t * a1 = u * u * u * u * u * u * A6.
Definition change (P : pt) : pt :=
  match P with Inf => Inf | Aff x y => Aff ((x - r) / (u * u)) ((y - s * (x - r) - t) / (u * u * u)) end.
Let F1 : A1 = (a1 + 2 * s) / u. Proof. rewrite E1. field. auto. Qed.
Let F2 : A2 = (a2 - s * a1 + 3 * r - s * s) / (u * u). Proof. rewrite E2. field. auto. Qed.
Let F3 : A3 = (a3 + r * a1 + 2 * t) / (u * u * u). Proof. rewrite E3. field. auto. Qed.
Let F4 : A4 = (a4 - s * a3 + 2 * r * a2 - (t + r * s) * a1 + 3 * r * r - 2 * s * t) / (u * u * u * u). Proof. rewrite E4. field. auto. Qed.
Let F6 : A6 = (a6 + r * a4 + r * r * a2 + r * r * r - t * a3 - t * t - r * t * a1) / (u * u * u * u * u * u). Proof. rewrite E6. field. auto. Qed.
Lemma change_on P : on_pt kadd kmul a1 a2 a3 a4 a6 P -> on_pt kadd kmul A1 A2 A3 A4 A6 (change P).
Proof.
  destruct P as [|x y]; cbn [on_pt change]; [auto|]. unfold on. intros H.
  assert (H6 : a6 = y * y + a1 * x * y + a3 * y - x * x * x - a2 * x * x - a4 * x) by (rewrite H; ring).
  rewrite F6, F4, F3, F2, F1, H6. field. auto.
Qed.
Lemma change_add P Q : on_pt kadd kmul a1 a2 a3 a4 a6 P -> on_pt kadd kmul a1 a2 a3 a4 a6 Q ->
  change (add 1 kadd kmul ksub kopp kdiv keq_dec a1 a2 a3 a4 P Q) =
  add 1 kadd kmul ksub kopp kdiv keq_dec A1 A2 A3 A4 (change P) (change Q).
Proof.
  destruct P as [|x1 y1]; [auto|]. destruct Q as [|x2 y2]; [auto|]. intros O1 O2. cbn [on_pt] in O1, O2.
  cbn [change add]. destruct (keq_dec x1 x2) as [<-|N].
  - destruct (keq_dec ((x1 - r) / (u * u)) ((x1 - r) / (u * u))) as [_|C]; [|now destruct C].
    destruct (keq_dec y1 (- y2 - a1 * x1 - a3)) as [EY|N].
    + destruct (keq_dec ((y1 - s * (x1 - r) - t) / (u * u * u)) _) as [_|C]; [reflexivity|].
      exfalso. apply C. rewrite EY, F1, F3. field. auto.
    + destruct (keq_dec ((y1 - s * (x1 - r) - t) / (u * u * u)) _) as [C|_].
      * exfalso. apply N. transitivity (u * u * u * ((y1 - s * (x1 - r) - t) / (u * u * u)) + s * (x1 - r) + t); [field; auto|].
        rewrite C, F1, F3. field. auto.
      * destruct (same_x _ _ _ _ _ _ _ _ _ Kft a1 a2 a3 a4 a6 x1 y1 y2 O1 O2 N) as [<- NF]. set (l := fx 1 kadd kmul ksub a1 a2 a4 x1 y1 / fy kadd kmul a1 a3 x1 y1).
        assert (EL : fx 1 kadd kmul ksub a1 a2 a4 x1 y1 = l * fy kadd kmul a1 a3 x1 y1) by (unfold l; field; auto).
        match goal with |- _ = chord _ _ _ _ _ _ _ ?L _ _ _ => assert (EL' : L = (l - s) / u) end.
        { assert (EY : fy kadd kmul A1 A3 ((x1 - r) / (u * u)) ((y1 - s * (x1 - r) - t) / (u * u * u)) = fy kadd kmul a1 a3 x1 y1 / (u * u * u)).
          { unfold fy. rewrite F1, F3. field. auto. }
          assert (EX : fx 1 kadd kmul ksub A1 A2 A4 ((x1 - r) / (u * u)) ((y1 - s * (x1 - r) - t) / (u * u * u)) = (l - s) * fy kadd kmul a1 a3 x1 y1 / (u * u * u * u)).
          { transitivity ((fx 1 kadd kmul ksub a1 a2 a4 x1 y1 - s * fy kadd kmul a1 a3 x1 y1) / (u * u * u * u)); [|rewrite EL; field; auto].
            unfold fx, fy. rewrite F1, F2, F4. field. auto. }
          rewrite EX, EY. field. auto. }
        rewrite EL'. clearbody l. unfold chord. cbv zeta. cbn [change]. rewrite F1, F2, F3. f_equal; field; auto.
  - assert (N' : x1 - x2 <> 0) by now apply s_ne.
    destruct (keq_dec ((x1 - r) / (u * u)) ((x2 - r) / (u * u))) as [C|_].
    + exfalso. apply N. transitivity (u * u * ((x1 - r) / (u * u)) + r); [field; auto|]. rewrite C. field. auto.
    + set (l := (y1 - y2) / (x1 - x2)). assert (EL : y2 = y1 - l * (x1 - x2)) by (unfold l; field; auto).
      match goal with |- _ = chord _ _ _ _ _ _ _ ?L _ _ _ => assert (EL' : L = (l - s) / u) end.
      { transitivity ((y1 - y2 - s * (x1 - x2)) / (u * (x1 - x2))); [|rewrite EL; field; auto].
        assert (N2 : x1 - r - (x2 - r) <> 0) by (intros C; apply N'; rewrite <- C; ring). field. auto. }
      rewrite EL'. clearbody l. unfold chord. cbv zeta. cbn [change]. rewrite F1, F2, F3. f_equal; field; auto.
Qed.
Lemma change_inf P : change P = Inf <-> P = Inf.
Proof. destruct P; cbn [change]; split; auto; discriminate. Qed.
End Change.

(** ** the images of three points on a line are on a line: in the coordinates h = x - x0 and
    eta = 2y + a1 x + a3, for the line eta = la h + nu *)
Definition Zv t u h : K := h + t / h + u / (h * h).
Definition Mv t u h : K := 1 - t / (h * h) - 2 * u / (h * h * h).
Section Line2.
Variables h1 h2 h3 la nu t B2 : K.
Hypothesis n1 : h1 <> 0.
Hypothesis n2 : h2 <> 0.
Hypothesis n3 : h3 <> 0.
Hypothesis c1 : B2 = la * la - 4 * (h1 + h2 + h3).
Hypothesis c2 : 2 * t = la * nu + 2 * (h1 * h2 + h1 * h3 + h2 * h3).
Hypothesis c3 : nu * nu = 4 * (h1 * h2 * h3).
Let nn : nu <> 0.
Proof. intros E. apply (m_ne 4 (h1 * h2 * h3)); auto using four. rewrite <- c3, E. ring. Qed.
Let f3 : h3 = nu * nu / (4 * (h1 * h2)). Proof. rewrite c3. field. auto using four. Qed.
Let ft : t = (la * nu + 2 * (h1 * h2 + h1 * h3 + h2 * h3)) / 2. Proof. rewrite <- c2. field. auto. Qed.
Definition la2 := la - 4 * t / nu.
Definition nu2 := nu + 4 * (h1 + h2 + h3) * t / nu.
Lemma line2_on h : h = h1 \/ h = h2 \/ h = h3 -> Mv t 0 h * (la * h + nu) = la2 * Zv t 0 h + nu2.
Proof.
  intros H. unfold Mv, Zv, la2, nu2. destruct H as [->|[->| ->]]; rewrite ft.
  1,2: rewrite f3; field; auto 10.
  assert (f1 : h1 = nu * nu / (4 * (h2 * h3))) by (rewrite c3; field; auto using four). rewrite f1. field. auto 10.
Qed.
Lemma line2_1 : 4 * (Zv t 0 h1 + Zv t 0 h2 + Zv t 0 h3) = la2 * la2 - B2.
Proof. rewrite c1. unfold Zv, la2. rewrite ft, f3. field. auto 10. Qed.
Lemma line2_2 : 4 * (Zv t 0 h1 * Zv t 0 h2 + Zv t 0 h1 * Zv t 0 h3 + Zv t 0 h2 * Zv t 0 h3) = 2 * (- (4 * 2) * t) - 2 * la2 * nu2.
Proof. unfold Zv, la2, nu2. rewrite ft, f3. field. auto 10. Qed.
Lemma line2_3 : 4 * (Zv t 0 h1 * Zv t 0 h2 * Zv t 0 h3) = nu2 * nu2 + 4 * B2 * t.
Proof. rewrite c1. unfold Zv, la2, nu2. rewrite ft, f3. field. auto 10. Qed.
End Line2.
Section Sym3.
Variables h1 h2 h3 t u : K.
Hypothesis n1 : h1 <> 0.
Hypothesis n2 : h2 <> 0.
Hypothesis n3 : h3 <> 0.
Let e1 := h1 + h2 + h3.
Let e2 := h1 * h2 + h1 * h3 + h2 * h3.
Let e3 := h1 * h2 * h3.
Let be := t - e2.
Let ga := u + e3.
Definition S1 e1 e2 e3 t u := e1 + t * e2 / e3 + u * (e2 * e2 - 2 * e1 * e3) / (e3 * e3).
Definition S2 al e2 e3 be ga := (3 * al * al * e3 * e3 + 2 * al * be * e3 * e2 + 2 * al * ga * (e2 * e2 - 2 * al * e3) + be * be * e3 * al
  + be * ga * (al * e2 - 3 * e3) + ga * ga * (al * al - 2 * e2)) / (e3 * e3).
Definition S3 al e2 e3 be ga := (al * al * al * e3 * e3 + al * al * be * e2 * e3 + al * al * ga * (e2 * e2 - 2 * al * e3) + al * be * be * al * e3
  + al * be * ga * (al * e2 - 3 * e3) + al * ga * ga * (al * al - 2 * e2) + be * be * be * e3 + be * be * ga * e2 + be * ga * ga * al + ga * ga * ga) / (e3 * e3).
Lemma sum1 : Zv t u h1 + Zv t u h2 + Zv t u h3 = S1 e1 e2 e3 t u.
Proof. unfold Zv, S1, e1, e2, e3. field. auto. Qed.
Lemma sum2 : Zv t u h1 * Zv t u h2 + Zv t u h1 * Zv t u h3 + Zv t u h2 * Zv t u h3 = S2 e1 e2 e3 be ga.
Proof. unfold Zv, S2, be, ga, e1, e2, e3. field. auto. Qed.
Lemma sum3 : Zv t u h1 * Zv t u h2 * Zv t u h3 = S3 e1 e2 e3 be ga.
Proof. unfold Zv, S3, be, ga, e1, e2, e3. field. auto. Qed.
End Sym3.
Section Line3.
Variables e1 e2 e3 la nu t u B2 : K.
Hypothesis n3 : e3 <> 0.
Hypothesis nu0 : u <> 0.
Hypothesis c1 : B2 = la * la - 4 * e1.
Hypothesis c2 : t = la * nu + 2 * e2.
Hypothesis c3 : u = nu * nu - 4 * e3.
Hypothesis ct : B2 * u = t * t.
Let cc : e1 * u + e2 * la * nu + e3 * la * la + e2 * e2 = 0.
Proof.
  apply (k_0 4 _); [|exact four]. transitivity (t * t - B2 * u); [|rewrite ct; ring]. rewrite c1, c2. rewrite c3. ring.
Qed.
Let pp := (e2 * nu + 2 * e3 * la) / (2 * e3).
Let qq := u * nu / (2 * e3).
Definition la3 := la - 4 * pp.
Definition nu3 := nu - 4 * qq + 4 * pp * e1.
Lemma line3_on h : h <> 0 -> h * h * h - e1 * h * h + e2 * h - e3 = 0 -> Mv t u h * (la * h + nu) = la3 * Zv t u h + nu3.
Proof.
  intros H C. apply s_0.
  transitivity (((pp * h + qq) * 4 * (h * h * h - e1 * h * h + e2 * h - e3) + 2 * nu * (e1 * u + e2 * la * nu + e3 * la * la + e2 * e2) * h * h / e3) / (h * h * h)).
  - unfold Mv, Zv, la3, nu3, pp, qq. rewrite c2, c3. field. auto.
  - rewrite C, cc. field. auto.
Qed.
Let fe : e1 = - (e2 * la * nu + e3 * la * la + e2 * e2) / (nu * nu - 4 * e3).
Proof.
  assert (N : nu * nu - 4 * e3 <> 0) by (rewrite <- c3; exact nu0).
  assert (Q : e1 * (nu * nu - 4 * e3) = - (e2 * la * nu + e3 * la * la + e2 * e2)).
  { rewrite <- c3. transitivity ((e1 * u + e2 * la * nu + e3 * la * la + e2 * e2) - (e2 * la * nu + e3 * la * la + e2 * e2)); [ring|]. rewrite cc. ring. }
  rewrite <- Q. field. exact N.
Qed.
Lemma line3_1 : 4 * S1 e1 e2 e3 t u = la3 * la3 - B2.
Proof.
  assert (N : nu * nu - 4 * e3 <> 0) by (rewrite <- c3; exact nu0).
  rewrite c1. unfold S1, la3, pp. rewrite c2, c3, fe. field. auto.
Qed.
Lemma line3_2 : 4 * S2 e1 e2 e3 (t - e2) (u + e3) = 2 * (t - (4 + 4 + 2) * t) - 2 * la3 * nu3.
Proof.
  assert (N : nu * nu - 4 * e3 <> 0) by (rewrite <- c3; exact nu0).
  unfold S2, la3, nu3, pp, qq. rewrite c2, c3, fe. field. auto.
Qed.
Lemma line3_3 : 4 * S3 e1 e2 e3 (t - e2) (u + e3) = nu3 * nu3 - (u - 4 * B2 * t - 4 * (4 + 3) * u).
Proof.
  assert (N : nu * nu - 4 * e3 <> 0) by (rewrite <- c3; exact nu0).
  rewrite c1. unfold S3, la3, nu3, pp, qq. rewrite c2, c3, fe. field. auto.
Qed.
End Line3.
(** ** the map *)
Section Map.
Variables a1 a2 a3 a4 a6 x0 t : K.
Definition b2 := a1 * a1 + 4 * a2.
Definition b4 := 2 * a4 + a1 * a3.
Definition b6 := a3 * a3 + 4 * a6.
Definition B2 := b2 + 4 * 3 * x0.
Definition B4 := b4 + x0 * b2 + 2 * 3 * x0 * x0.
Definition B6 := b6 + 2 * x0 * b4 + x0 * x0 * b2 + 4 * x0 * x0 * x0.
Definition a4' := a4 - (4 + 1) * t.
Definition a6' := a6 - b2 * t - (4 + 3) * (B6 + x0 * t).
Definition phi (P : pt) : pt :=
  match P with
  | Inf => Inf
  | Aff x y =>
      if keq_dec x x0 then Inf
      else
        let X := x0 + Zv t B6 (x - x0) in
        Aff X ((Mv t B6 (x - x0) * fy kadd kmul a1 a3 x y - a1 * X - a3) / 2)
  end.
Definition ker2 := B6 = 0 /\ B4 = 2 * t.
Definition ker3 := B4 = t /\ B2 * B6 = t * t /\ B6 <> 0.
Hypothesis ker : ker2 \/ ker3.
Local Notation fy := (fy kadd kmul a1 a3).
Local Notation on := (on kadd kmul a1 a2 a3 a4 a6).
Local Notation on' := (GroupLaw.on kadd kmul a1 a2 a3 a4' a6').
Local Notation on_pt := (on_pt kadd kmul a1 a2 a3 a4 a6).
Local Notation on_pt' := (GroupLaw.on_pt kadd kmul a1 a2 a3 a4' a6').
Local Notation add := (add 1 kadd kmul ksub kopp kdiv keq_dec a1 a2 a3 a4).
Local Notation add' := (GroupLaw.add 1 kadd kmul ksub kopp kdiv keq_dec a1 a2 a3 a4').
Local Notation neg := (neg kmul ksub kopp a1 a3).

Lemma on_eta x y : on x y -> fy x y * fy x y = 4 * (x - x0) * (x - x0) * (x - x0) + B2 * (x - x0) * (x - x0) + 2 * B4 * (x - x0) + B6.
Proof.
  unfold GroupLaw.on, GroupLaw.fy, B2, B4, B6, b2, b4, b6. intros H.
  transitivity (4 * (y * y + a1 * x * y + a3 * y) + (a1 * x + a3) * (a1 * x + a3)); [ring|]. rewrite H. ring.
Qed.
Lemma eta_on' X Y : fy X Y * fy X Y = 4 * (X - x0) * (X - x0) * (X - x0) + B2 * (X - x0) * (X - x0) + 2 * (B4 - (4 + 4 + 2) * t) * (X - x0) + (B6 - 4 * B2 * t - 4 * (4 + 3) * B6) -> on' X Y.
Proof.
  unfold GroupLaw.on, GroupLaw.fy, a4', a6'. intros H. apply s_0, (k_0 4); [|exact four].
  transitivity ((Y + Y + a1 * X + a3) * (Y + Y + a1 * X + a3) - (4 * (X - x0) * (X - x0) * (X - x0) + B2 * (X - x0) * (X - x0) + 2 * (B4 - (4 + 4 + 2) * t) * (X - x0) + (B6 - 4 * B2 * t - 4 * (4 + 3) * B6))).
  - unfold B2, B4, B6, b2, b4, b6. ring.
  - rewrite H. ring.
Qed.
Lemma fy_half X e : fy X ((e - a1 * X - a3) / 2) = e.
Proof. unfold GroupLaw.fy. field. exact two. Qed.
Lemma phi_on P : on_pt P -> on_pt' (phi P).
Proof.
  destruct P as [|x y]; cbn [GroupLaw.on_pt phi]; [auto|]. intros H. destruct (keq_dec x x0) as [->|N]; [exact I|].
  cbn [GroupLaw.on_pt]. apply eta_on'. rewrite fy_half. pose proof (on_eta x y H) as E. pose proof (s_ne _ _ N) as N0.
  set (h := x - x0) in *. set (e := fy x y) in *.
  replace (x0 + Zv t B6 h - x0) with (Zv t B6 h) by ring.
  transitivity (Mv t B6 h * Mv t B6 h * (e * e)); [ring|]. rewrite E. unfold Mv, Zv. destruct ker as [(K6 & K4)|(K4 & K2 & K6)].
  - rewrite K6, K4. field. exact N0.
  - rewrite K4. assert (Q : B2 = t * t / B6) by (rewrite <- K2; field; auto). rewrite Q. field. auto.
Qed.
Lemma phi_neg P : phi (neg P) = neg (phi P).
Proof.
  destruct P as [|x y]; cbn [GroupLaw.neg phi]; [auto|]. destruct (keq_dec x x0); [reflexivity|].
  cbn [GroupLaw.neg]. f_equal. unfold GroupLaw.fy. field. exact two.
Qed.
Lemma phi_inf P : phi P = Inf <-> P = Inf \/ exists y, P = Aff x0 y.
Proof.
  destruct P as [|x y]; cbn [phi]; [split; auto|]. destruct (keq_dec x x0) as [->|N].
  - split; auto. intros _. right. now exists y.
  - split; [discriminate|]. intros [C|(z & C)]; [discriminate|]. congruence.
Qed.

Hypothesis D' : disc a1 a2 a3 a4' a6' <> 0.
Lemma phi_line l m x1 x2 x3 : x1 <> x0 -> x2 <> x0 -> x3 <> x0 ->
  x1 + x2 + x3 = l * l + a1 * l - a2 ->
  x1 * x2 + x1 * x3 + x2 * x3 = a4 - (l + l) * m - a1 * m - a3 * l ->
  x1 * x2 * x3 = m * m + a3 * m - a6 ->
  add' (phi (Aff x1 (l * x1 + m))) (phi (Aff x2 (l * x2 + m))) = neg (phi (Aff x3 (l * x3 + m))).
Proof.
  intros N1 N2 N3 e1 e2 e3. cbn [phi]. destruct (keq_dec x1 x0); [contradiction|]. destruct (keq_dec x2 x0); [contradiction|]. destruct (keq_dec x3 x0); [contradiction|].
  apply s_ne in N1, N2, N3. clear n n0 n1.
  set (la := 2 * l + a1). set (nu := 2 * m + a3 + la * x0).
  set (h1 := x1 - x0) in *. set (h2 := x2 - x0) in *. set (h3 := x3 - x0) in *.
  assert (FY : forall x, fy x (l * x + m) = la * (x - x0) + nu) by (intros x; unfold GroupLaw.fy, nu, la; ring).
  rewrite !FY. fold h1 h2 h3.
  assert (C1 : B2 = la * la - 4 * (h1 + h2 + h3)).
  { transitivity (la * la - 4 * (x1 + x2 + x3) + 4 * 3 * x0); [rewrite e1; unfold la, B2, b2; ring|unfold h1, h2, h3; ring]. }
  assert (C2 : B4 = la * nu + 2 * (h1 * h2 + h1 * h3 + h2 * h3)).
  { transitivity (la * nu + 2 * ((x1 * x2 + x1 * x3 + x2 * x3) - 2 * x0 * (x1 + x2 + x3) + 3 * x0 * x0)); [rewrite e1, e2; unfold nu, la, B4, b4, b2; ring|unfold h1, h2, h3; ring]. }
  assert (C3 : B6 = nu * nu - 4 * (h1 * h2 * h3)).
  { transitivity (nu * nu - 4 * ((x1 * x2 * x3) - x0 * (x1 * x2 + x1 * x3 + x2 * x3) + x0 * x0 * (x1 + x2 + x3) - x0 * x0 * x0)); [rewrite e1, e2, e3; unfold nu, la, B6, b6, b4, b2; ring|unfold h1, h2, h3; ring]. }
  clearbody la nu. clearbody h1 h2 h3. clear e1 e2 e3 FY l m x1 x2 x3.
  assert (G : exists lb nb,
    (forall h, h = h1 \/ h = h2 \/ h = h3 -> Mv t B6 h * (la * h + nu) = lb * Zv t B6 h + nb) /\
    4 * (Zv t B6 h1 + Zv t B6 h2 + Zv t B6 h3) = lb * lb - B2 /\
    4 * (Zv t B6 h1 * Zv t B6 h2 + Zv t B6 h1 * Zv t B6 h3 + Zv t B6 h2 * Zv t B6 h3) = 2 * (B4 - (4 + 4 + 2) * t) - 2 * lb * nb /\
    4 * (Zv t B6 h1 * Zv t B6 h2 * Zv t B6 h3) = nb * nb - (B6 - 4 * B2 * t - 4 * (4 + 3) * B6)).
  { destruct ker as [(K6 & K4)|(K4 & K2 & K6)].
    - rewrite K6 in C3 |- *. rewrite K4 in C2 |- *.
      assert (C3' : nu * nu = 4 * (h1 * h2 * h3)). { transitivity (nu * nu - 0); [ring|]. rewrite C3. ring. }
      exists (la2 la nu t), (nu2 h1 h2 h3 nu t). split; [intros h H; eapply line2_on; eauto|]. split; [eapply line2_1; eauto|]. split.
      + rewrite (line2_2 h1 h2 h3 la nu t N1 N2 N3 C2 C3'). ring.
      + rewrite (line2_3 h1 h2 h3 la nu t B2 N1 N2 N3 C1 C2 C3'). ring.
    - rewrite K4 in C2 |- *. set (e3 := h1 * h2 * h3) in *. set (e2 := h1 * h2 + h1 * h3 + h2 * h3) in *. set (e1 := h1 + h2 + h3) in *.
      assert (N : e3 <> 0) by (unfold e3; auto).
      exists (la3 e2 e3 la nu), (nu3 e1 e2 e3 la nu B6). split; [|split; [|split]].
      + intros h H. apply (line3_on e1 e2 e3 la nu t B6 B2); auto; [destruct H as [->|[->| ->]]; auto|].
        unfold e1, e2, e3. destruct H as [->|[->| ->]]; ring.
      + rewrite sum1 by auto. apply (line3_1 e1 e2 e3 la nu t B6 B2); auto.
      + rewrite sum2 by auto. apply (line3_2 e1 e2 e3 la nu t B6 B2); auto.
      + rewrite sum3 by auto. apply (line3_3 e1 e2 e3 la nu t B6 B2); auto. }
  destruct G as (lb & nb & G0 & G1 & G2 & G3). rewrite (G0 h1), (G0 h2), (G0 h3) by auto.
  set (Z1 := Zv t B6 h1) in *. set (Z2 := Zv t B6 h2) in *. set (Z3 := Zv t B6 h3) in *. clearbody Z1 Z2 Z3.
  set (l := (lb - a1) / 2). set (m := (nb - a3 - lb * x0) / 2).
  assert (YL : forall Z, (lb * Z + nb - a1 * (x0 + Z) - a3) / 2 = l * (x0 + Z) + m) by (intros Z; unfold l, m; field; exact two).
  rewrite !YL. apply (collin a1 a2 a3 a4' a6' (disc_nonsing _ _ _ _ _ D')); apply s_0, (k_0 4); auto using four.
  - transitivity (4 * (Z1 + Z2 + Z3) - (lb * lb - B2)); [unfold l, B2, b2; field; exact two|rewrite G1; ring].
  - transitivity (4 * (Z1 * Z2 + Z1 * Z3 + Z2 * Z3) - (2 * (B4 - (4 + 4 + 2) * t) - 2 * lb * nb) + 2 * x0 * (4 * (Z1 + Z2 + Z3) - (lb * lb - B2)));
      [unfold l, m, a4', B4, B2, b4, b2; field; exact two|rewrite G1, G2; ring].
  - transitivity (4 * (Z1 * Z2 * Z3) - (nb * nb - (B6 - 4 * B2 * t - 4 * (4 + 3) * B6)) + x0 * (4 * (Z1 * Z2 + Z1 * Z3 + Z2 * Z3) - (2 * (B4 - (4 + 4 + 2) * t) - 2 * lb * nb)) + x0 * x0 * (4 * (Z1 + Z2 + Z3) - (lb * lb - B2)));
      [unfold l, m, a6', B6, B4, B2, b6, b4, b2; field; exact two|rewrite G1, G2, G3; ring].
Qed.
(** translation by a point of the kernel *)
Lemma lam_fy l m x : fy x (l * x + m) = (2 * l + a1) * (x - x0) + (2 * m + a3 + (2 * l + a1) * x0).
Proof. unfold GroupLaw.fy. ring. Qed.
Lemma fy_inj x y z : fy x y = fy x z -> y = z.
Proof.
  unfold GroupLaw.fy. intros H. apply s_0, (k_0 2); [|exact two].
  transitivity ((y + y + a1 * x + a3) - (z + z + a1 * x + a3)); [ring|]. rewrite H. ring.
Qed.
Lemma third2 h h3 la e : h <> 0 -> t <> 0 -> B6 = 0 -> e * e = 4 * h * h * h + B2 * h * h + 2 * (2 * t) * h -> la * h = e -> 4 * h3 = la * la - B2 - 4 * h ->
  h3 <> 0 /\ Zv t 0 h3 = Zv t 0 h /\ Mv t 0 h3 * - (la * h3) = Mv t 0 h * e.
Proof.
  intros N NT _ E L H3. assert (Q : h3 * h = t).
  { apply s_0, (k_0 (4 * h)); [|auto using four]. transitivity (4 * h3 * h * h - 4 * t * h); [ring|]. rewrite H3.
    transitivity ((la * h) * (la * h) - (4 * h * h * h + B2 * h * h + 2 * (2 * t) * h)); [ring|]. rewrite L, E. ring. }
  assert (N3 : h3 <> 0) by (intros C; apply NT; rewrite <- Q, C; ring).
  split; [exact N3|]. rewrite <- Q, <- L. unfold Zv, Mv. split; field; auto.
Qed.
Lemma third3 h h3 la e0 e : h <> 0 -> e0 <> 0 -> B4 = t -> B2 * (e0 * e0) = t * t -> e * e = 4 * h * h * h + B2 * h * h + 2 * t * h + e0 * e0 ->
  la * h + e0 = e -> 4 * h3 = la * la - B2 - 4 * h ->
  h3 <> 0 /\ Zv t (e0 * e0) h3 = Zv t (e0 * e0) h /\ Mv t (e0 * e0) h3 * - (la * h3 + e0) = Mv t (e0 * e0) h * e.
Proof.
  intros N N0 _ KB E L H3. set (al := t / e0). assert (ET : t = al * e0) by (unfold al; field; auto).
  assert (EB : B2 = al * al). { transitivity (B2 * (e0 * e0) / (e0 * e0)); [field; auto|]. rewrite KB, ET. field. auto. }
  clearbody al. rewrite EB in *. rewrite ET in *. clear EB KB.
  assert (Q : 2 * h * h3 = e0 * (al - la)).
  { apply s_0, (k_0 (2 * h)); [|auto]. transitivity (h * h * (4 * h3) - 2 * h * e0 * (al - la)); [ring|]. rewrite H3.
    transitivity ((la * h + e0) * (la * h + e0) - (4 * h * h * h + al * al * h * h + 2 * (al * e0) * h + e0 * e0)); [ring|]. rewrite L, E. ring. }
  assert (NL : al - la <> 0).
  { intros C. assert (C3 : h3 = 0). { apply (k_0 (2 * h)); [rewrite Q, C; ring|auto]. }
    apply N. apply (k_0 4); [|exact four]. transitivity (la * la - al * al - 4 * h3).
    - rewrite H3. ring. 
    - rewrite C3. transitivity (- (al - la) * (al + la)); [ring|]. rewrite C. ring. }
  assert (N3 : h3 <> 0) by (intros C; apply (m_ne e0 (al - la) N0 NL); rewrite <- Q, C; ring).
  assert (F0 : e0 = 2 * h * h3 / (al - la)) by (rewrite Q; field; auto).
  assert (F3 : h = (la * la - al * al) / 4 - h3). { apply s_0, (k_0 4); [|exact four]. transitivity (4 * h3 - (la * la - al * al - 4 * h)); [field; auto using four|]. rewrite H3. ring. }
  split; [exact N3|]. rewrite <- L, F0. unfold Zv, Mv. rewrite F3 in N |- *. 
  assert (N' : la * la - al * al - 4 * h3 <> 0). { intros C. apply N. transitivity ((la * la - al * al - 4 * h3) / 4); [field; auto|]. rewrite C. field. auto. }
  split; field; repeat split; auto using four; intros C; apply N'; rewrite <- C; ring.
Qed.
Lemma trans y0 Q : disc a1 a2 a3 a4 a6 <> 0 -> t <> 0 \/ ker3 -> on x0 y0 -> on_pt Q -> phi (add (Aff x0 y0) Q) = phi Q.
Proof.
  intros DD NT O0 OQ. destruct Q as [|x y]; [cbn; destruct (keq_dec x0 x0); [auto|contradiction]|]. cbn [GroupLaw.on_pt] in OQ.
  pose proof (on_eta _ _ O0) as E0. assert (E0' : fy x0 y0 * fy x0 y0 = B6) by (rewrite E0; ring). clear E0.
  cbn [GroupLaw.add]. destruct (keq_dec x0 x) as [<-|N].
  - replace (phi (Aff x0 y)) with (@Inf K) by (cbn; destruct (keq_dec x0 x0); [auto|contradiction]).
    destruct (keq_dec y0 (- y - a1 * x0 - a3)) as [EY|NY]; [reflexivity|].
    destruct (same_x _ _ _ _ _ _ _ _ _ Kft a1 a2 a3 a4 a6 x0 y0 y O0 OQ NY) as [<- NF].
    destruct ker as [(K6 & K4)|(K4 & K2 & K6)].
    { exfalso. rewrite K6 in E0'. apply (m_ne _ _ NF NF E0'). }
    unfold chord. cbv zeta. cbn [phi].
    match goal with |- context[keq_dec ?X x0] => destruct (keq_dec X x0) as [_|C]; [reflexivity|]; exfalso; apply C end.
    set (f := fy x0 y0) in *. set (l := fx 1 kadd kmul ksub a1 a2 a4 x0 y0 / f).
    assert (EL : 2 * l + a1 = t / f). { rewrite <- K4. transitivity ((2 * fx 1 kadd kmul ksub a1 a2 a4 x0 y0 + a1 * f) / f); [unfold l; field; auto|]. f_equal. unfold f, GroupLaw.fx, GroupLaw.fy, B4, b4, b2. ring. }
    apply s_0, (k_0 4); [|exact four]. transitivity ((2 * l + a1) * (2 * l + a1) - B2); [unfold B2, b2; ring|]. rewrite EL.
    transitivity ((t * t - B2 * (f * f)) / (f * f)); [field; auto|]. rewrite E0', K2. field. auto.
  - assert (N' : x <> x0) by congruence. pose proof (s_ne _ _ N') as NH. pose proof (s_ne _ _ N) as NH'.
    set (l := (y0 - y) / (x0 - x)). set (la := 2 * l + a1).
    assert (LA : la * (x - x0) + fy x0 y0 = fy x y). { unfold la, l, GroupLaw.fy. field. exact NH'. }
    unfold chord. cbv zeta. set (x3 := l * l + a1 * l - a2 - x0 - x).
    assert (H3 : 4 * (x3 - x0) = la * la - B2 - 4 * (x - x0)) by (unfold x3, la, B2, b2; ring).
    assert (Y3 : fy x3 (- (l * (x3 - x0) + y0) - a1 * x3 - a3) = - (la * (x3 - x0) + fy x0 y0)) by (unfold la, GroupLaw.fy; ring).
    pose proof (on_eta _ _ OQ) as EQ.
    assert (G : x3 - x0 <> 0 /\ Zv t B6 (x3 - x0) = Zv t B6 (x - x0) /\ Mv t B6 (x3 - x0) * - (la * (x3 - x0) + fy x0 y0) = Mv t B6 (x - x0) * fy x y).
    { destruct ker as [(K6 & K4)|(K4 & K2 & K6)].
      - assert (F0 : fy x0 y0 = 0). { destruct (keq_dec (fy x0 y0) 0); [auto|]. exfalso. rewrite K6 in E0'. revert E0'. now apply m_ne. }
        rewrite F0 in LA |- *. rewrite K6, K4 in *. destruct NT as [NT|(_ & _ & C)]; [|rewrite K6 in C; contradiction].
        destruct (third2 (x - x0) (x3 - x0) la (fy x y)) as (A & B & C); auto.
        { rewrite EQ. ring. } { rewrite <- LA. ring. }
        split; [auto|]. split; [auto|]. rewrite <- C. ring.
      - rewrite <- E0' in *. assert (F0 : fy x0 y0 <> 0) by (intros C; apply K6; rewrite C; ring).
        apply third3; auto. rewrite EQ, K4. ring. }
    destruct G as (G0 & G1 & G2). cbn [phi]. destruct (keq_dec x3 x0) as [C|_]; [exfalso; apply G0; rewrite C; ring|].
    destruct (keq_dec x x0); [contradiction|]. rewrite Y3, G1, G2. reflexivity.
Qed.
Hypothesis D : disc a1 a2 a3 a4 a6 <> 0.
Definition D4 x y z : K := - x * x * (x * z - y * y) - 4 * 4 * 2 * y * y * y - 4 * 3 * 3 * 3 * z * z + 4 * 3 * 3 * x * y * z.
Lemma disc4 : 4 * disc a1 a2 a3 a4 a6 = D4 B2 B4 B6.
Proof. unfold disc, D4, B2, B4, B6, b2, b4, b6. ring. Qed.
Lemma disc4' : 4 * disc a1 a2 a3 a4' a6' = D4 B2 (B4 - (4 + 4 + 2) * t) (B6 - 4 * B2 * t - 4 * (4 + 3) * B6).
Proof. unfold disc, D4, a4', a6', B2, B4, B6, b2, b4, b6. ring. Qed.
Lemma t_ne : t <> 0 \/ ker3.
Proof.
  destruct ker as [(K6 & K4)|H]; [left|now right]. intros C. apply D, (k_0 4); [|exact four]. rewrite disc4, K6, K4, C. unfold D4. ring.
Qed.
Hypothesis assoc : forall P Q R, on_pt P -> on_pt Q -> on_pt R -> add (add P Q) R = add P (add Q R).
Lemma phi_add P Q : on_pt P -> on_pt Q -> phi (add P Q) = add' (phi P) (phi Q).
Proof.
  intros OP OQ. pose proof t_ne as NT.
  assert (KT : forall y0 R, on x0 y0 -> on_pt R -> phi (add (Aff x0 y0) R) = phi R) by (intros; now apply trans).
  assert (PK : forall y0, phi (Aff x0 y0) = Inf) by (intros y0; cbn; destruct (keq_dec x0 x0); [auto|contradiction]).
  assert (AC : forall P Q, on_pt P -> on_pt Q -> add P Q = add Q P) by (intros; eapply add_comm; eauto).
  destruct (add_cases _ _ _ _ _ _ _ _ _ Kft keq_dec a1 a2 a3 a4 a6 P Q OP OQ) as [[-> ->]|[[-> ->]|[[-> ->]|(l & m & x1 & x2 & x3 & e1 & e2 & e3 & EP & EQ & ER)]]].
  - reflexivity.
  - destruct (phi P); reflexivity.
  - rewrite phi_neg. cbn [phi]. symmetry. rewrite <- (neg_neg _ _ _ _ _ _ _ _ _ Kft a1 a3 (phi Q)) at 2. eapply add_neg_r; eauto.
  - destruct (keq_dec x1 x0) as [X1|X1].
    { rewrite EP, X1 in OP |- *. rewrite (KT _ _ OP OQ), PK. reflexivity. }
    destruct (keq_dec x2 x0) as [X2|X2].
    { rewrite (AC _ _ OP OQ). rewrite EQ, X2 in OQ |- *. rewrite (KT _ _ OQ OP), PK. destruct (phi P); reflexivity. }
    destruct (keq_dec x3 x0) as [X3|X3].
    + (* P + Q = - R in the kernel *)
      assert (OR : on_pt (add P Q)). { rewrite <- (neg_neg _ _ _ _ _ _ _ _ _ Kft a1 a3 (add P Q)), ER. apply (neg_on _ _ _ _ _ _ _ _ _ Kft). cbn [GroupLaw.on_pt].
        unfold GroupLaw.on. assert (e4 : a4 = x1 * x2 + x1 * x3 + x2 * x3 + (l + l) * m + a1 * m + a3 * l) by (rewrite e2; ring).
        assert (e6 : a6 = m * m + a3 * m - x1 * x2 * x3) by (rewrite e3; ring). assert (e0 : a2 = l * l + a1 * l - x1 - x2 - x3).
        { transitivity (l * l + a1 * l - (l * l + a1 * l - a2)); [ring|]. rewrite <- e1. ring. }
        rewrite e6, e4, e0. ring. }
      assert (EA : exists y0, add P Q = Aff x0 y0).
      { rewrite X3 in ER. rewrite <- (neg_neg _ _ _ _ _ _ _ _ _ Kft a1 a3 (add P Q)), ER. cbn [GroupLaw.neg]. eexists. reflexivity. }
      destruct EA as (y0 & EA). rewrite EA in OR. cbn [GroupLaw.on_pt] in OR.
      assert (ON : on_pt (neg P)) by now apply (neg_on _ _ _ _ _ _ _ _ _ Kft).
      assert (EQ' : Q = add (Aff x0 y0) (neg P)).
      { rewrite <- EA, (AC P Q OP OQ). rewrite assoc by auto. rewrite (add_neg_r _ _ _ _ _ _ _ _ _ Kft keq_dec a1 a2 a3 a4 P). destruct Q; reflexivity. }
      assert (PQ : phi Q = neg (phi P)). { rewrite EQ', KT by auto. apply phi_neg. }
      rewrite EA, PK, PQ. symmetry. eapply add_neg_r; eauto.
    + rewrite EP, EQ at 2. rewrite (phi_line l m x1 x2 x3) by auto. rewrite <- ER, phi_neg. symmetry. eapply neg_neg; eauto.
Qed.
(** the points of the kernel *)
Lemma ker_two y0 : ker2 -> on x0 y0 -> add (Aff x0 y0) (Aff x0 y0) = Inf /\ forall y, on x0 y -> y = y0.
Proof.
  intros (K6 & _) O0. assert (FZ : forall y, on x0 y -> fy x0 y = 0).
  { intros y Oy. pose proof (on_eta _ _ Oy) as E. destruct (keq_dec (fy x0 y) 0); [auto|]. exfalso. apply (m_ne (fy x0 y) (fy x0 y)); auto. rewrite E, K6. ring. }
  split.
  - cbn [GroupLaw.add]. destruct (keq_dec x0 x0); [|contradiction]. destruct (keq_dec y0 _) as [_|C]; [reflexivity|]. exfalso. apply C.
    transitivity (y0 - fy x0 y0); [rewrite FZ by auto; ring|unfold GroupLaw.fy; ring].
  - intros y Oy. apply (fy_inj x0). rewrite !FZ; auto.
Qed.
Lemma ker_three y0 : ker3 -> on x0 y0 -> add (Aff x0 y0) (Aff x0 y0) = neg (Aff x0 y0) /\ neg (Aff x0 y0) <> Aff x0 y0 /\ forall y, on x0 y -> Aff x0 y = Aff x0 y0 \/ Aff x0 y = neg (Aff x0 y0).
Proof.
  intros (K4 & K2 & K6) O0. pose proof (on_eta _ _ O0) as E0. assert (E0' : fy x0 y0 * fy x0 y0 = B6) by (rewrite E0; ring). clear E0.
  assert (NF : fy x0 y0 <> 0) by (intros C; apply K6; rewrite <- E0', C; ring). set (f := fy x0 y0) in *.
  assert (NN : y0 <> - y0 - a1 * x0 - a3). { intros C. apply NF. unfold f, GroupLaw.fy. transitivity (y0 - (- y0 - a1 * x0 - a3)); [ring|]. rewrite <- C. ring. }
  split; [|split].
  - cbn [GroupLaw.add GroupLaw.neg]. destruct (keq_dec x0 x0); [|contradiction]. destruct (keq_dec y0 _) as [C|_]; [contradiction|].
    fold f. set (l := fx 1 kadd kmul ksub a1 a2 a4 x0 y0 / f).
    assert (EL : 2 * l + a1 = t / f). { rewrite <- K4. transitivity ((2 * fx 1 kadd kmul ksub a1 a2 a4 x0 y0 + a1 * f) / f); [unfold l; field; auto|]. f_equal. unfold f, GroupLaw.fx, GroupLaw.fy, B4, b4, b2. ring. }
    assert (X3 : l * l + a1 * l - a2 - x0 - x0 = x0).
    { apply s_0, (k_0 4); [|exact four]. transitivity ((2 * l + a1) * (2 * l + a1) - B2); [unfold B2, b2; ring|]. rewrite EL.
      transitivity ((t * t - B2 * (f * f)) / (f * f)); [field; auto|]. rewrite E0', K2. field. auto. }
    unfold chord. cbv zeta. rewrite X3. f_equal. ring.
  - cbn [GroupLaw.neg]. congruence.
  - intros y Oy. pose proof (on_eta _ _ Oy) as E. cbn [GroupLaw.neg]. destruct (keq_dec y (- y0 - a1 * x0 - a3)) as [->|N]; [now right|].
    left. f_equal. apply (same_x _ _ _ _ _ _ _ _ _ Kft a1 a2 a3 a4 a6 x0 y y0 Oy O0 N).
Qed.
End Map.
Lemma disc_velu a1 a2 a3 a4 a6 x0 t : ker2 a1 a2 a3 a4 a6 x0 t \/ ker3 a1 a2 a3 a4 a6 x0 t -> disc a1 a2 a3 a4 a6 <> 0 ->
  disc a1 a2 a3 (a4' a4 t) (a6' a1 a2 a3 a4 a6 x0 t) <> 0.
Proof.
  intros KR D C. assert (D1 : 4 * disc a1 a2 a3 a4 a6 <> 0) by auto using four.
  assert (C1 : 4 * disc a1 a2 a3 (a4' a4 t) (a6' a1 a2 a3 a4 a6 x0 t) = 0) by (rewrite C; ring).
  rewrite disc4 with (x0 := x0) in D1. rewrite disc4' in C1.
  set (x := B2 a1 a2 x0) in *. set (y := B4 a1 a2 a3 a4 x0) in *. set (z := B6 a1 a2 a3 a4 a6 x0) in *.
  destruct KR as [(K6 & K4)|(K4 & K2 & K6)]; fold x in K4, K6 || idtac; fold y in K4; fold z in K6.
  - rewrite K4, K6 in C1. assert (Q : 4 * t * t * (x * x - 4 * 4 * 4 * t) <> 0) by (intros Q; apply D1; rewrite K4, K6; transitivity (4 * t * t * (x * x - 4 * 4 * 4 * t)); [unfold D4; ring|exact Q]).
    assert (NT : t <> 0) by (intros N; apply Q; rewrite N; ring). assert (NX : x * x - 4 * 4 * 4 * t <> 0) by (intros N; apply Q; rewrite N; ring).
    apply (m_ne (4 * t) ((x * x - 4 * 4 * 4 * t) * (x * x - 4 * 4 * 4 * t))); auto using four. rewrite <- C1. unfold D4. ring.
  - fold x y z in K2. rewrite K4 in *. assert (EX : x = t * t / z) by (rewrite <- K2; field; auto). rewrite EX in *.
    assert (Q : 4 * (t * t * t - 3 * 3 * 3 * z * z) <> 0).
    { intros Q. apply D1. transitivity (4 * (t * t * t - 3 * 3 * 3 * z * z)); [unfold D4; field; auto|exact Q]. }
    assert (NQ : t * t * t - 3 * 3 * 3 * z * z <> 0) by (intros N; apply Q; rewrite N; ring).
    set (w := t * t * t - 3 * 3 * 3 * z * z) in *. apply (m_ne 4 (w * (w * w))); auto using four.
    transitivity (z * z * z * z * 0); [rewrite <- C1; unfold w, D4; field; auto|ring].
Qed.
End Velu.
