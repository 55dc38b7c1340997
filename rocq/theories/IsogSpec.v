(** Isogenies between Weierstrass curves over Z, given by rational functions over Q,
    over every field of characteristic 0 *)
From Coq Require Import ZArith.
From mathcomp Require Import all_ssreflect all_algebra zify ssrZ.
From Verif Require Import CurveModel GroupLaw CoordRing.
Import GRing.Theory.

Section Map.
Variable K : Type.
Variables k0 k1 : K.
Variables kadd kmul ksub : K -> K -> K.
Variable kdiv : K -> K -> K.
Variable keq_dec : forall x y : K, {x = y} + {x <> y}.
Declare Scope I_scope.
Delimit Scope I_scope with K.
Bind Scope I_scope with K.
Local Notation "x + y" := (kadd x y) : I_scope.
Local Notation "x * y" := (kmul x y) : I_scope.
Local Notation "x - y" := (ksub x y) : I_scope.
Local Notation "x / y" := (kdiv x y) : I_scope.
Local Notation "1" := k1 : I_scope.
Local Notation "2" := (1 + 1)%K : I_scope.
Local Notation "4" := ((1 + 1) * (1 + 1))%K : I_scope.
Local Open Scope I_scope.
(** Velu's formulas for a kernel of order 2 or 3 with abscissa x0, and the change of
    coordinates x = u^2 x' + r, y = u^3 y' + u^2 s x' + v *)
Definition isog_map (a1 a2 a3 a4 a6 x0 t u r s v : K) (P : pt K) : pt K :=
  match P with
  | Inf => Inf
  | Aff x y =>
      match keq_dec x x0 with
      | left _ => Inf
      | right _ =>
        let h := x - x0 in
        let w := 4 * x0 * x0 * x0 + (a1 * a1 + 4 * a2) * x0 * x0 + 2 * (2 * a4 + a1 * a3) * x0 + (a3 * a3 + 4 * a6) in
        let X := x + t / h + w / (h * h) in
        let Y := ((1 - t / (h * h) - 2 * w / (h * h * h)) * (2 * y + a1 * x + a3) - a1 * X - a3) / 2 in
        Aff ((X - r) / (u * u)) ((Y - s * (X - r) - v) / (u * u * u))
      end
  end.
End Map.

Section Fld.
Variable F : fieldType.
Definition fz (z : Z) : fK F := ((int_of_Z z)%:~R : F)%R.
Definition fq (q : Z * Z) : fK F := fdiv (fz q.1) (fz q.2).
Definition char0 : Prop := forall z, fz z = @f0 F -> z = Z0.
Definition on_F (E : curve) (P : pt (fK F)) : Prop :=
  on_pt (@fadd F) (@fmul F) (fz (a1 E)) (fz (a2 E)) (fz (a3 E)) (fz (a4 E)) (fz (a6 E)) P.
Definition add_F (E : curve) : pt (fK F) -> pt (fK F) -> pt (fK F) :=
  add (@f1 F) (@fadd F) (@fmul F) (@fsub F) (@fopp F) (@fdiv F) (@feq_dec F) (fz (a1 E)) (fz (a2 E)) (fz (a3 E)) (fz (a4 E)).
Definition neg_F (E : curve) : pt (fK F) -> pt (fK F) := neg (@fmul F) (@fsub F) (@fopp F) (fz (a1 E)) (fz (a3 E)).
Definition map_F (E : curve) (x0 t u r s v : Z * Z) : pt (fK F) -> pt (fK F) :=
  isog_map (fK F) (@f1 F) (@fadd F) (@fmul F) (@fsub F) (@fdiv F) (@feq_dec F) (fz (a1 E)) (fz (a2 E)) (fz (a3 E)) (fz (a4 E)) (fz (a6 E))
    (fq x0) (fq t) (fq u) (fq r) (fq s) (fq v).
(** f maps E to E', is a homomorphism, and has kernel Ker *)
Definition isogeny (E E' : curve) (f : pt (fK F) -> pt (fK F)) (Ker : pt (fK F) -> Prop) : Prop :=
  (forall P, on_F E P -> on_F E' (f P)) /\
  (forall P Q, on_F E P -> on_F E Q -> f (add_F E P Q) = add_F E' (f P) (f Q)) /\
  (forall P, on_F E P -> (f P = Inf <-> Ker P)).
End Fld.
(** one map over Q, an isogeny over every field of characteristic 0 *)
Definition rational_isogeny (E E' : curve) (x0 : Z * Z) (Ker : forall F : fieldType, pt (fK F) -> Prop) : Prop :=
  exists t u r s v : Z * Z, u.1 <> Z0 /\ t.2 <> Z0 /\ u.2 <> Z0 /\ r.2 <> Z0 /\ s.2 <> Z0 /\ v.2 <> Z0 /\
  forall F : fieldType, char0 F -> isogeny F E E' (map_F F E x0 t u r s v) (Ker F).
