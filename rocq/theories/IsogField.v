(** twoisog and threeisog: the isogenies over any field of characteristic 0 *)
From Coq Require Import ZArith List Sorted.
From mathcomp Require Import all_ssreflect all_algebra zify ssrZ.
From Verif Require Import Base CurveModel CurveProofs MinimalProofs GroupLaw CoordRing PointsModel PointsProofs VeluGen VeluInt IsogSpec IsogGen IsogProofs.
Set Implicit Arguments.
Unset Strict Implicit.
Unset Printing Implicit Defensive.
Import GRing.Theory.
Local Open Scope ring_scope.
Delimit Scope Z_scope with cZ.

Section Fld.
Variable F : fieldType.
Hypothesis C0 : char0 F.
Local Notation fz := (fz F).
Lemma fz1 : fz 1 = @f1 F.
Proof. by []. Qed.
Lemma fz_add a b : fz (a + b) = fadd (fz a) (fz b).
Proof. have E : int_of_Z (a + b) = int_of_Z a + int_of_Z b by lia. by rewrite /fz E /fadd rmorphD. Qed.
Lemma fz_mul a b : fz (a * b) = fmul (fz a) (fz b).
Proof. have E : int_of_Z (a * b) = int_of_Z a * int_of_Z b by lia. by rewrite /fz E /fmul rmorphM. Qed.
Variable E : curve.
Hypothesis HD : sdisc E <> Z0.
Lemma assocF P Q R : on_F F E P -> on_F F E Q -> on_F F E R -> add_F F E (add_F F E P Q) R = add_F F E P (add_F F E Q R).
Proof.
  apply: add_assoc_F. apply: (@disc_nonsing (fK F) _ _ _ _ _ _ _ _ (Fft F) (@feq_dec F)).
  exact: (@disc_iz (fK F) _ _ _ _ _ _ _ _ (Fft F) fz fz1 fz_add fz_mul C0 E HD).
Qed.
Lemma fz_ne z : z <> Z0 -> fz z <> @f0 F.
Proof. by move=> H /C0. Qed.
Lemma fdiv_ne a b : a <> Z0 -> b <> Z0 -> fdiv (fz a) (fz b) <> @f0 F.
Proof. move=> Ha Hb. exact: (@VeluGen.div_ne (fK F) _ _ _ _ _ _ _ _ (Fft F) _ _ (fz_ne Ha) (fz_ne Hb)). Qed.
Local Notation hk E' f x0 := (hom_ker (fK F) (@f1 F) (@fadd F) (@fmul F) (@fsub F) (@fopp F) (@fdiv F) (@feq_dec F) fz E E' f x0).
Local Notation vm := (velu_map (fK F) (@f1 F) (@fadd F) (@fmul F) (@fsub F) (@fdiv F) (@feq_dec F) fz E).
Lemma vm_map x0 t u r s v P : u.1 <> Z0 -> u.2 <> Z0 -> map_F F E x0 t u r s v P = vm (fq F x0) (fq F t) (fq F u) (fq F r) (fq F s) (fq F v) P.
Proof. move=> H1 H2. apply: (@map_eq (fK F) _ _ _ _ _ _ _ _ (Fft F) (@feq_dec F) fz fz1 fz_add fz_mul C0). exact: fdiv_ne. Qed.
Lemma hk_isog E' x0 t u r s v (Ker : pt (fK F) -> Prop) : u.1 <> Z0 -> u.2 <> Z0 -> hk E' (vm (fq F x0) (fq F t) (fq F u) (fq F r) (fq F s) (fq F v)) (fq F x0) ->
  (forall P, on_F F E P -> ((P = Inf \/ exists y, P = Aff (fq F x0) y) <-> Ker P)) -> isogeny F E E' (map_F F E x0 t u r s v) Ker.
Proof.
  move=> H1 H2 [A [B C]] HK. split; [|split].
  - move=> P HP. rewrite vm_map //; exact: A.
  - move=> P Q HP HQ. rewrite !vm_map //; exact: B.
  - move=> P HP. rewrite vm_map // -HK //; exact: C.
Qed.
Lemma two_F xi E' U r s v T : (0 < U)%cZ -> root2 E xi -> carries U r s v (raw2 E xi) E' -> pZ T <> Z0 -> proj_on E T -> (4 * pX T)%cZ = (xi * pZ T)%cZ ->
  isogeny F E E' (map_F F E (pX T, pZ T) ((3 * xi * xi + 2 * sb2 E * xi + 8 * sb4 E)%cZ, 16%cZ) (U, 2%cZ) (r, 4%cZ) (s, 2%cZ) (v, 8%cZ))
    (fun P => P = Inf \/ P = Aff (fq F (pX T, pZ T)) (fq F (pY T, pZ T))).
Proof.
  move=> HU RT CA NZ V Hx.
  have Ex : fq F (pX T, pZ T) = fq F (xi, 4%cZ).
  { apply: (@div_eq (fK F) _ _ _ _ _ _ _ _ (Fft F) fz fz_mul C0); [exact: NZ|by []|by rewrite Z.mul_comm]. }
  have ON := @point_on (fK F) _ _ _ _ _ _ _ _ (Fft F) fz fz_add fz_mul C0 E T NZ V.
  apply: hk_isog => /=; [lia|by []| |].
  - rewrite Ex. exact: (@velu_two (fK F) _ _ _ _ _ _ _ _ (Fft F) (@feq_dec F) fz fz1 fz_add fz_mul C0 E HD assocF xi E' U r s v HU RT CA).
  - have [K2 _] := @two_eqs (fK F) _ _ _ _ _ _ _ _ (Fft F) fz fz1 fz_add fz_mul C0 E xi RT.
    have [UQ _] := @ker_points (fK F) _ _ _ _ _ _ _ _ (Fft F) (@feq_dec F) fz fz1 fz_add fz_mul C0 E (fq F (pX T, pZ T)) (fdiv (fz (3 * xi * xi + 2 * sb2 E * xi + 8 * sb4 E)) (fz 16)) _ ON.
    rewrite -[X in VeluGen.ker2 _ _ _ _ _ _ _ _ _ _ X _]/(fq F (xi, 4%cZ)) -Ex in K2.
    move=> P HP. split; case=> [->|]; [by left| |by left|].
    + case=> y EP. right. rewrite EP in HP *. congr Aff. exact: (UQ K2 y HP).
    + move=> ->. right. by eexists.
Qed.
Lemma three_F xi E' U r s v : (0 < U)%cZ -> root3 E xi -> carries U r s v (raw3 E xi) E' ->
  isogeny F E E' (map_F F E (xi, 3%cZ) (((2 * xi + sb2 E) * xi + 3 * sb4 E)%cZ, 3%cZ) (U, 3%cZ) (r, 9%cZ) (s, 3%cZ) (v, 27%cZ))
    (fun P => P = Inf \/ exists y, P = Aff (fq F (xi, 3%cZ)) y).
Proof.
  move=> HU RT CA. apply: hk_isog => //=; [lia|].
  exact: (@velu_three (fK F) _ _ _ _ _ _ _ _ (Fft F) (@feq_dec F) fz fz1 fz_add fz_mul C0 E HD assocF xi E' U r s v HU RT CA).
Qed.
(** the points of the kernel have order 3 *)
Lemma three_ker xi y : root3 E xi -> on_F F E (Aff (fq F (xi, 3%cZ)) y) ->
  let T := Aff (fq F (xi, 3%cZ)) y in add_F F E T T = neg_F F E T /\ neg_F F E T <> T /\
  forall y', on_F F E (Aff (fq F (xi, 3%cZ)) y') -> Aff (fq F (xi, 3%cZ)) y' = T \/ Aff (fq F (xi, 3%cZ)) y' = neg_F F E T.
Proof.
  move=> RT ON. have [K3 _] := @three_eqs (fK F) _ _ _ _ _ _ _ _ (Fft F) (@feq_dec F) fz fz1 fz_add fz_mul C0 E HD xi RT.
  have [_ UQ] := @ker_points (fK F) _ _ _ _ _ _ _ _ (Fft F) (@feq_dec F) fz fz1 fz_add fz_mul C0 E (fq F (xi, 3%cZ)) (fdiv (fz ((2 * xi + sb2 E) * xi + 3 * sb4 E)) (fz 3)) _ ON.
  exact: (UQ K3).
Qed.
(** every point of order 3 with rational abscissa *)
Lemma three_all n d y : d <> Z0 -> let T := Aff (fq F (n, d)) y in on_F F E T -> add_F F E T T = neg_F F E T ->
  exists xi, root3 E xi /\ fq F (n, d) = fq F (xi, 3%cZ).
Proof.
  move=> Hd T ON H. have R := @three_x (fK F) _ _ _ _ _ _ _ _ (Fft F) (@feq_dec F) fz fz1 fz_add fz_mul C0 E n d y Hd ON H.
  have [xi [Hx RT]] := root3_of E n d Hd R. exists xi. split; [exact: RT|]. apply: (@div_eq (fK F) _ _ _ _ _ _ _ _ (Fft F) fz fz_mul C0); [exact: Hd|by []|by rewrite Z.mul_comm].
Qed.
End Fld.
Lemma char0_rat : char0 [fieldType of rat].
Proof. move=> z /eqP. rewrite /fz /f0 intr_eq0 => /eqP H. lia. Qed.
