(** Velu's map in the form of IsogSpec; integral points of P^2 over a field *)
From Coq Require Import ZArith Ring Field Lia.
From Verif Require Import CurveModel GroupLaw PointsModel PointsProofs VeluGen VeluInt IsogSpec.

Section VI.
Variable K : Type.
Variables k0 k1 : K.
Variables kadd kmul ksub : K -> K -> K.
Variable kopp : K -> K.
Variable kdiv : K -> K -> K.
Variable kinv : K -> K.
Hypothesis Kft : field_theory k0 k1 kadd kmul ksub kopp kdiv kinv eq.
Hypothesis keq_dec : forall x y : K, {x = y} + {x <> y}.
Add Field Kfield : Kft.
Declare Scope G_scope.
Delimit Scope G_scope with K.
Bind Scope G_scope with K.
Local Notation "x + y" := (kadd x y) : G_scope.
Local Notation "x * y" := (kmul x y) : G_scope.
Local Notation "x - y" := (ksub x y) : G_scope.
Local Notation "- x" := (kopp x) : G_scope.
Local Notation "x / y" := (kdiv x y) : G_scope.
Local Notation "0" := k0 : G_scope.
Local Notation "1" := k1 : G_scope.
Local Notation "2" := (1 + 1)%K : G_scope.
Variable iz : Z -> K.
Hypothesis iz1 : iz 1 = k1.
Hypothesis iz_add : forall a b, iz (a + b) = kadd (iz a) (iz b).
Hypothesis iz_mul : forall a b, iz (a * b) = kmul (iz a) (iz b).
Hypothesis iz_inj : forall a, iz a = k0 -> a = 0%Z.
Local Open Scope G_scope.
Let iz_2 := iz_2 K kmul iz iz_mul.
Let iz_3 := iz_3 K kmul iz iz_mul.
Lemma two0 : 2 <> 0.
Proof. exact (two K _ _ _ _ _ _ _ _ Kft iz iz1 iz_add iz_mul iz_inj). Qed.
Lemma map_eq E x0 t u r s v P : u <> 0 ->
  isog_map K k1 kadd kmul ksub kdiv keq_dec (iz (a1 E)) (iz (a2 E)) (iz (a3 E)) (iz (a4 E)) (iz (a6 E)) x0 t u r s v P =
  velu_map K k1 kadd kmul ksub kdiv keq_dec iz E x0 t u r s v P.
Proof.
  intros U0. pose proof two0 as T2. destruct P as [|x y]; [reflexivity|]. unfold isog_map, velu_map, phi. destruct (keq_dec x x0) as [|N]; [reflexivity|].
  assert (H : x - x0 <> 0) by (intros C; apply N; transitivity (x - x0 + x0); [ring|rewrite C; ring]).
  unfold change, Zv, Mv, fy, B6, b6, b4, b2. cbv beta iota zeta.
  f_equal; field; auto.
Qed.
Lemma point_on E T : pZ T <> 0%Z -> proj_on E T ->
  on kadd kmul (iz (a1 E)) (iz (a2 E)) (iz (a3 E)) (iz (a4 E)) (iz (a6 E)) (iz (pX T) / iz (pZ T)) (iz (pY T) / iz (pZ T)).
Proof.
  intros NZ (_ & H). assert (Z0 : iz (pZ T) <> 0) by (intros C; now apply iz_inj in C). apply (f_equal iz) in H.
  repeat first [rewrite iz_add in H | rewrite iz_mul in H | rewrite iz_2 in H | rewrite iz_3 in H].
  unfold on. match type of H with ?L = ?R => transitivity (L / (iz (pZ T) * iz (pZ T) * iz (pZ T))); [field; auto|rewrite H; field; auto] end.
Qed.
Lemma div_eq a b c d : b <> 0%Z -> d <> 0%Z -> (a * d = c * b)%Z -> iz a / iz b = iz c / iz d.
Proof.
  intros B D H. assert (B0 : iz b <> 0) by (intros C; now apply iz_inj in C). assert (D0 : iz d <> 0) by (intros C; now apply iz_inj in C).
  apply (f_equal iz) in H. rewrite !iz_mul in H. transitivity (iz a * iz d / (iz b * iz d)); [field; auto|]. rewrite H. field. auto.
Qed.
End VI.
