(** Properties C29-C32 and C56-C58: 2x2 matrices and binary forms. *)
From Coq Require Import ZArith Lia List Bool.
From Verif Require Import Base MArithModel FormsModel FormsProofs.
Import ListNotations.
Open Scope Z_scope.

(** ** Specification: values of a form at a point, independent of the model *)
Definition qval (q : quadratic) x z := qa q * x ^ 2 + qb q * (x * z) + qc q * z ^ 2.
Definition cval (f : cubic) x z := ca f * x ^ 3 + cb f * (x ^ 2 * z) + cc f * (x * z ^ 2) + cd f * z ^ 3.
Definition rval (g : quartic) x z :=
  ra g * x ^ 4 + rb g * (x ^ 3 * z) + rc g * (x ^ 2 * z ^ 2) + rd g * (x * z ^ 3) + re g * z ^ 4.
(** the point m(x,z) *)
Definition px (m : unimod) x z := m11 m * x + m12 m * z.
Definition pz (m : unimod) x z := m21 m * x + m22 m * z.

(** ** C29: unimod *)
Theorem C29_product_acts : forall m n x z,
  px (um_mul m n) x z = px m (px n x z) (pz n x z) /\ pz (um_mul m n) x z = pz m (px n x z) (pz n x z) /\
  um_det (um_mul m n) = um_det m * um_det n.
Proof. intros. unfold px, pz, um_mul, um_det. cbn [m11 m12 m21 m22]. repeat split; ring. Qed.
Theorem C29_elementary : forall m a,
  um_xshift a m = um_mul m (Um 1 a 0 1) /\ um_yshift a m = um_mul m (Um 1 0 a 1) /\
  um_negate m = um_mul m (Um (-1) 0 0 (-1)) /\ um_seminegate m = um_mul m (Um 1 0 0 (-1)) /\
  um_invert m = um_mul m (Um 0 (-1) 1 0).
Proof.
  intros. repeat split; [apply um_xshift_mul|apply um_yshift_mul|apply um_negate_mul
    |apply um_seminegate_mul|apply um_invert_mul].
Qed.
(** Any history of the public operations keeps the determinant a unit. *)
Inductive um_built : unimod -> Prop :=
| built_id : um_built um_id
| built_mul m n : um_built m -> um_built n -> um_built (um_mul m n)
| built_xshift a m : um_built m -> um_built (um_xshift a m)
| built_yshift a m : um_built m -> um_built (um_yshift a m)
| built_negate m : um_built m -> um_built (um_negate m)
| built_seminegate m : um_built m -> um_built (um_seminegate m)
| built_invert m : um_built m -> um_built (um_invert m)
| built_inverse m : um_built m -> um_built (fst (um_inverse m))
| built_inverse_this m : um_built m -> um_built (snd (um_inverse m)).
Theorem C29_det_unit : forall m, um_built m -> um_det m = 1 \/ um_det m = -1.
Proof.
  induction 1; unfold um_det, um_inverse, um_id, um_mul, um_xshift, um_yshift, um_negate, um_seminegate, um_invert in *;
    cbn [fst snd m11 m12 m21 m22] in *; try lia.
  - match goal with |- ?L = _ \/ _ => replace L with
      ((m11 m * m22 m - m12 m * m21 m) * (m11 n * m22 n - m12 n * m21 n)) by ring end.
    destruct IHum_built1 as [-> | ->], IHum_built2 as [-> | ->]; auto.
  - destruct (_ <? 0); cbn [m11 m12 m21 m22]; lia.
Qed.
Theorem C29_inverse_partial : forall m, um_det m = 1 ->
  let '(i, m') := um_inverse m in m' = m /\ um_mul i m = um_id /\ um_mul m i = um_id.
Proof.
  intros m D. destruct (um_inverse_mul m) as [H1 H2]. rewrite D in *. unfold um_inverse in *. cbn [fst] in *.
  rewrite D. auto.
Qed.
(** For determinant -1 the answer is minus the inverse, and m itself is negated. *)
Theorem C29_inverse_refuted : exists m, um_built m /\ um_det m = -1 /\
  let '(i, m') := um_inverse m in m' <> m /\ um_mul i m <> um_id /\ um_mul m i <> um_id.
Proof.
  exists (um_seminegate um_id). split; [constructor; constructor|]. split; [reflexivity|].
  vm_compute. repeat split; discriminate.
Qed.
(** unimod.h documents invert() as multiplication by (0,1;-1,0). *)
Theorem C29_invert_comment_refuted : exists m, um_built m /\ um_invert m <> um_mul m (Um 0 1 (-1) 0).
Proof. exists um_id. split; [constructor|]. vm_compute. discriminate. Qed.
Example C29_ex : um_inverse (Um 2 1 1 1) = (Um 1 (-1) (-1) 2, Um 2 1 1 1).
Proof. reflexivity. Qed.
Print Assumptions C29_product_acts.
Print Assumptions C29_elementary.
Print Assumptions C29_det_unit.
Print Assumptions C29_inverse_partial.
Print Assumptions C29_inverse_refuted.
Print Assumptions C29_invert_comment_refuted.

(** ** C30: substitution *)
Theorem C30_eval : (forall q x z, q_eval q x z = qval q x z) /\ (forall f x z, c_eval f x z = cval f x z) /\
  (forall g x z, r_eval g x z = rval g x z).
Proof. unfold q_eval, c_eval, r_eval, qval, cval, rval. repeat split; intros; cbv zeta; ring. Qed.
Theorem C30_quadratic : forall q m,
  (forall x z, qval (q_transform m q) x z = qval q (px m x z) (pz m x z)) /\
  (forall n, q_transform n (q_transform m q) = q_transform (um_mul m n) q) /\
  (qb (q_transform m q) ^ 2 - 4 * qa (q_transform m q) * qc (q_transform m q) =
   um_det m ^ 2 * (qb q ^ 2 - 4 * qa q * qc q)).
Proof.
  intros. split; [|split].
  - intros. unfold qval, px, pz, q_transform, q_eval. cbn [qa qb qc]. ring.
  - intros. apply q_transform_mul.
  - unfold q_transform, q_eval, um_det. cbn [qa qb qc]. ring.
Qed.
Definition cubic_disc (f : cubic) : Z :=
  cb f ^ 2 * cc f ^ 2 - 4 * ca f * cc f ^ 3 - 4 * cb f ^ 3 * cd f - 27 * ca f ^ 2 * cd f ^ 2
  + 18 * ca f * cb f * cc f * cd f.
Theorem C30_cubic : forall f m,
  (forall x z, cval (c_transform m f) x z = cval f (px m x z) (pz m x z)) /\
  (forall n, c_transform n (c_transform m f) = c_transform (um_mul m n) f) /\
  c_disc f = cubic_disc f /\ cubic_disc (c_transform m f) = um_det m ^ 6 * cubic_disc f.
Proof.
  intros. assert (E : forall f, c_disc f = cubic_disc f) by (intros; unfold c_disc, cubic_disc; cbv zeta; ring).
  split; [|split; [|split]].
  - intros. rewrite <- !(proj1 (proj2 C30_eval)). apply c_transform_eval.
  - intros. apply c_transform_mul.
  - apply E.
  - rewrite <- !E. apply c_disc_transform.
Qed.
Theorem C30_quartic : forall g m,
  (forall x z, rval (r_transform m g) x z = rval g (px m x z) (pz m x z)) /\
  (forall n, r_transform n (r_transform m g) = r_transform (um_mul m n) g) /\
  II (r_transform m g) = um_det m ^ 4 * II g /\ JJ (r_transform m g) = um_det m ^ 6 * JJ g /\
  r_disc (r_transform m g) = um_det m ^ 12 * r_disc g.
Proof.
  intros. split; [|split; [|split; [|split]]].
  - intros. rewrite <- !(proj2 (proj2 C30_eval)). apply r_transform_eval.
  - intros. apply r_transform_mul.
  - apply II_transform.
  - apply JJ_transform.
  - apply r_disc_transform.
Qed.
(** The shift and inversion functions change the form by the matrix by which
    they multiply the record; for cubics the inversion does so up to sign. *)
Theorem C30_elementary : forall q f g a,
  q_xshift a q = q_transform (um_xshift a um_id) q /\ q_yshift a q = q_transform (um_yshift a um_id) q /\
  q_invert q = q_transform (um_invert um_id) q /\
  c_xshift a f = c_transform (um_xshift a um_id) f /\ c_yshift a f = c_transform (um_yshift a um_id) f /\
  c_negate f = c_transform (um_negate um_id) f /\ c_seminegate f = c_transform (um_seminegate um_id) f /\
  c_invert f = c_transform (um_negate (um_invert um_id)) f /\
  r_xshift a g = r_transform (um_xshift a um_id) g /\ r_zshift a g = r_transform (um_yshift a um_id) g /\
  r_invert g = r_transform (um_invert um_id) g.
Proof.
  intros. rewrite um_xshift_mul, um_yshift_mul, !um_mul_id_l.
  rewrite q_xshift_tr, q_yshift_tr, q_invert_tr, c_xshift_tr, c_yshift_tr, c_negate_tr, c_seminegate_tr, c_invert_tr,
    r_xshift_tr, r_zshift_tr, r_invert_tr. repeat split; reflexivity.
Qed.
(** cubic::invert and the matrix recorded with it disagree by the factor -1. *)
Theorem C30_cubic_invert_refuted : exists f, c_invert f <> c_transform (um_invert um_id) f.
Proof. exists (Cb 1 0 0 0). vm_compute. discriminate. Qed.
(** apply_transform with a scaled matrix, and check_transform *)
Theorem C30_scaled : forall m g, m00 m <> 0 ->
  (let h := r_transform (sm m) g in let u2 := m00 m * m00 m in
   (u2 | ra h) /\ (u2 | rb h) /\ (u2 | rc h) /\ (u2 | rd h) /\ (u2 | re h)) ->
  forall x z, m00 m ^ 2 * rval (r_transform_scaled m g) x z = rval g (px (sm m) x z) (pz (sm m) x z).
Proof.
  intros m g H D x z. rewrite <- !(proj2 (proj2 C30_eval)). unfold px, pz.
  rewrite <- (r_scaled_eval m g H D). ring.
Qed.
Theorem C30_check_transform : forall g m h, r_check g m h = true <-> h = r_transform m g.
Proof. exact r_check_ok. Qed.
Example C30_ex : c_transform (Um 2 1 1 1) (Cb 1 0 (-7) 1) = Cb (-5) (-20) (-19) (-5) /\
  r_transform_scaled (Sum 2 (Um 2 0 0 1)) (Qt 1 2 4 2 4) = Qt 4 4 4 1 1.
Proof. split; reflexivity. Qed.
Print Assumptions C30_eval.
Print Assumptions C30_quadratic.
Print Assumptions C30_cubic.
Print Assumptions C30_quartic.
Print Assumptions C30_elementary.
Print Assumptions C30_cubic_invert_refuted.
Print Assumptions C30_scaled.
Print Assumptions C30_check_transform.

(** ** C31: quadratic::reduce *)
Theorem C31_quadratic_reduce : forall q m, 0 < qa q -> qb q ^ 2 < 4 * qa q * qc q ->
  exists q' M, q_reduce q m = Ok (q', um_mul m M) /\ um_det M = 1 /\
    (forall x z, qval q' x z = qval q (px M x z) (pz M x z)) /\ Z.abs (qb q') <= qa q' <= qc q'.
Proof.
  intros q m Ha Hd. destruct (q_reduce_ok q m Ha) as (q' & m' & E & P & B & C & M & D & Eq & Em).
  { unfold q_disc. lia. }
  exists q', M. rewrite <- Em. split; [exact E|]. split; [exact D|]. split; [|lia].
  intros. rewrite Eq. apply (proj1 (C30_quadratic q M)).
Qed.
(** The reduced form is unique once the boundary cases are fixed, so two reduced
    forms related by a matrix of determinant 1 agree. *)
Theorem C31_unique : forall q m, um_det m = 1 ->
  (forall r, r = q \/ r = q_transform m q -> 0 < qa r /\
     (- qa r <= qb r < qa r /\ qa r < qc r \/ 0 <= qb r <= qa r /\ qa r = qc r)) ->
  q_transform m q = q.
Proof. intros q m D H. apply qreduced_unique; auto; unfold qreduced; apply H; auto. Qed.
(** The record is wrong for negative definite forms: the form is negated first. *)
Theorem C31_negative_refuted : exists q q' m, qa q < 0 /\ qb q ^ 2 < 4 * qa q * qc q /\
  q_reduce q um_id = Ok (q', m) /\ q' <> q_transform m q.
Proof.
  exists (Qd (-1) 0 (-1)), (Qd 1 0 1), um_id. split; [reflexivity|]. split; [reflexivity|].
  split; [vm_compute; reflexivity|]. vm_compute. discriminate.
Qed.
Example C31_ex : q_reduce (Qd 100 77 15) um_id = Ok (Qd 4 3 5, Um (-1) (-2) 3 5) /\
  qb (Qd 100 77 15) ^ 2 < 4 * qa (Qd 100 77 15) * qc (Qd 100 77 15).
Proof. split; vm_compute; reflexivity. Qed.
Print Assumptions C31_quadratic_reduce.
Print Assumptions C31_unique.
Print Assumptions C31_negative_refuted.

(** ** C32: cubic::hess_reduce *)
Definition hess_reduced (f : cubic) : Prop :=
  let P := cb f ^ 2 - 3 * ca f * cc f in let Q := cb f * cc f - 9 * ca f * cd f in
  let R := cc f ^ 2 - 3 * cb f * cd f in
  0 < P /\ (- P <= Q < P /\ P < R \/ 0 <= Q <= P /\ P = R).
Theorem C32_hess_reduce : forall f, 0 < cubic_disc f ->
  exists g m, hess_reduce f = Ok (g, m) /\ um_det m = 1 /\
    ((forall x z, cval g x z = cval f (px m x z) (pz m x z)) \/
     (forall x z, cval g x z = - cval f (px m x z) (pz m x z))) /\
    cubic_disc g = cubic_disc f /\ hess_reduced g.
Proof.
  intros f D. rewrite <- (proj1 (proj2 (proj2 (C30_cubic f um_id)))) in D.
  destruct (hess_reduce_ok f D) as (g & m & E & Dm & T & Dg & R).
  exists g, m. split; [exact E|]. split; [exact Dm|]. split; [|split].
  - destruct T as [-> | ->].
    + left. apply (C30_cubic f m).
    + right. intros. rewrite (proj1 (C30_cubic f (um_negate m))). unfold cval, px, pz, um_negate.
      cbn [m11 m12 m21 m22]. ring.
  - rewrite <- (proj1 (proj2 (proj2 (C30_cubic g um_id)))), <- (proj1 (proj2 (proj2 (C30_cubic f um_id)))). exact Dg.
  - unfold hess_reduced. unfold qreduced, hessian, p_semi, q_semi, r_semi in R. cbn [qa qb qc] in R.
    rewrite !Z.pow_2_r. exact R.
Qed.
(** The recorded matrix need not carry the input to the output. *)
Theorem C32_matrix_refuted : exists f g m, 0 < cubic_disc f /\ hess_reduce f = Ok (g, m) /\
  g <> c_transform m f.
Proof.
  exists (Cb 3 11 4 (-1)), (Cb 1 7 0 (-3)), (Um 0 (-1) 1 1). split; [reflexivity|].
  split; [vm_compute; reflexivity|]. vm_compute. discriminate.
Qed.
(** hess_reduce and is_hessian_reduced disagree on the boundary. *)
Theorem C32_is_reduced_refuted : exists f g m, 0 < cubic_disc f /\ hess_reduce f = Ok (g, m) /\
  is_hessian_reduced g = false.
Proof.
  exists (Cb 0 (-1) 1 1), (Cb 0 1 (-1) (-1)), (Um (-1) 0 0 (-1)). split; [reflexivity|].
  split; vm_compute; reflexivity.
Qed.
(** Positive discriminant is needed. *)
Theorem C32_disc_zero_refuted : exists f, cubic_disc f = 0 /\ hess_reduce f = Die.
Proof. exists (Cb 1 3 3 1). split; vm_compute; reflexivity. Qed.
Example C32_ex : hess_reduce (Cb 0 (-1) 1 1) = Ok (Cb 0 1 (-1) (-1), Um (-1) 0 0 (-1)).
Proof. vm_compute. reflexivity. Qed.
Print Assumptions C32_hess_reduce.
Print Assumptions C32_matrix_refuted.
Print Assumptions C32_is_reduced_refuted.
Print Assumptions C32_disc_zero_refuted.

(** ** C56: jc_reduce *)
Theorem C56_jc_matrix_refuted : exists f, cubic_disc f < 0 /\ forall kround fuel,
  exists g m, jc_reduce kround fuel f = Ok (g, m) /\ g <> c_transform m f.
Proof.
  exists (Cb 0 (-1) 0 (-1)). split; [reflexivity|]. intros. exists (Cb 0 1 0 1), um_id.
  split; [vm_compute; reflexivity|]. vm_compute. discriminate.
Qed.
Print Assumptions C56_jc_matrix_refuted.

(** ** C57: equivalence tests *)
Theorem C57_sl2_equivalent : forall f g, 0 < cubic_disc f ->
  exists b, sl2_equivalent_pos f g = Ok b /\
  (b = true <-> exists p q r s, p * s - q * r = 1 /\
     forall x z, cval g x z = cval f (p * x + q * z) (r * x + s * z)).
Proof.
  intros f g D. rewrite <- (proj1 (proj2 (proj2 (C30_cubic f um_id)))) in D.
  destruct (sl2_equivalent_pos_ok f g D) as (b & E & H). exists b. split; [exact E|]. rewrite H. split.
  - intros (M & DM & ->). exists (m11 M), (m12 M), (m21 M), (m22 M). split; [exact DM|]. apply (C30_cubic f M).
  - intros (p & q & r & s & DM & V). exists (Um p q r s). split; [exact DM|].
    apply c_eval_inj. intros. rewrite !(proj1 (proj2 C30_eval)), V.
    symmetry. apply (proj1 (C30_cubic f (Um p q r s))).
Qed.
Theorem C57_gl2_equivalent : forall f g, 0 < cubic_disc f ->
  exists b, gl2_equivalent_pos f g = Ok b /\
  (b = true <-> exists p q r s, Z.abs (p * s - q * r) = 1 /\
     forall x z, cval g x z = cval f (p * x + q * z) (r * x + s * z)).
Proof.
  intros f g D. rewrite <- (proj1 (proj2 (proj2 (C30_cubic f um_id)))) in D.
  destruct (gl2_equivalent_pos_ok f g D) as (b & E & H). exists b. split; [exact E|]. rewrite H. split.
  - intros (M & DM & ->). exists (m11 M), (m12 M), (m21 M), (m22 M).
    split; [unfold um_det in DM; lia|]. apply (C30_cubic f M).
  - intros (p & q & r & s & DM & V). exists (Um p q r s).
    split; [unfold um_det; cbn [m11 m12 m21 m22]; lia|].
    apply c_eval_inj. intros. rewrite !(proj1 (proj2 C30_eval)), V.
    symmetry. apply (proj1 (C30_cubic f (Um p q r s))).
Qed.
Example C57_ex : sl2_equivalent_pos (Cb 3 11 4 (-1)) (Cb 1 7 0 (-3)) = Ok true /\
  sl2_equivalent_pos (Cb 1 7 0 (-3)) (Cb 1 (-7) 0 3) = Ok false /\
  gl2_equivalent_pos (Cb 1 7 0 (-3)) (Cb 1 (-7) 0 3) = Ok true.
Proof. vm_compute. auto. Qed.
Print Assumptions C57_sl2_equivalent.
Print Assumptions C57_gl2_equivalent.

(** ** C58: syzygy and doubling of quartics, resultant of quadratics *)
Theorem C58_syzygy : forall g,
  - H_inv g ^ 3 + 48 * ra g ^ 2 * II g * H_inv g - 64 * ra g ^ 3 * JJ g - 27 * R_inv g ^ 2 = 0.
Proof. exact r_syzygy. Qed.
Theorem C58_doubleup : forall g, II (r_doubleup g) = 16 * II g /\ JJ (r_doubleup g) = 64 * JJ g /\
  r_disc (r_doubleup g) = 4096 * r_disc g /\ forall x z, rval (r_doubleup g) x z = rval g x (2 * z).
Proof.
  intros g. destruct (r_doubleup_inv g) as (A & B & C). repeat split; auto. intros. unfold rval, r_doubleup.
  cbn [ra rb rc rd re]. ring.
Qed.
(** resultant as the determinant of the Sylvester matrix expanded along Bezout minors *)
Theorem C58_resultant : forall q1 q2,
  q_resultant q1 q2 = (qa q1 * qc q2 - qa q2 * qc q1) ^ 2
    - (qa q1 * qb q2 - qa q2 * qb q1) * (qb q1 * qc q2 - qb q2 * qc q1).
Proof. intros. rewrite q_resultant_bezout. ring. Qed.
(** hence a common root forces it to vanish *)
Theorem C58_resultant_root : forall q1 q2 x z, (x <> 0 \/ z <> 0) ->
  qval q1 x z = 0 -> qval q2 x z = 0 -> q_resultant q1 q2 = 0.
Proof.
  intros q1 q2 x z N E1 E2. unfold qval in *.
  assert (X : x ^ 3 * q_resultant q1 q2 = 0 /\ z ^ 3 * q_resultant q1 q2 = 0).
  { destruct q1 as [a b c], q2 as [a' b' c']. unfold q_resultant. cbn [qa qb qc] in *. split.
    - transitivity ((a * x ^ 2 + b * (x * z) + c * z ^ 2) * ((a * c' ^ 2 - a' * c * c' - b * b' * c' + c * b' ^ 2) * x
          + (b' * c - b * c') * c' * z)
       + (a' * x ^ 2 + b' * (x * z) + c' * z ^ 2) * ((a' * c ^ 2 - a * c * c' - b * b' * c + c' * b ^ 2) * x
          + (b * c' - b' * c) * c * z)); [ring|rewrite E1, E2; ring].
    - transitivity ((a * x ^ 2 + b * (x * z) + c * z ^ 2) * ((c * a' ^ 2 - a * a' * c' - a' * b * b' + a * b' ^ 2) * z
          + (a * b' - a' * b) * a' * x)
       + (a' * x ^ 2 + b' * (x * z) + c' * z ^ 2) * ((a ^ 2 * c' - a * a' * c - a * b * b' + a' * b ^ 2) * z
          + (a' * b - a * b') * a * x)); [ring|rewrite E1, E2; ring]. }
  destruct X as [X Z']. destruct N as [N|N].
  - apply Z.mul_eq_0 in X as [X|]; [|auto]. exfalso. apply N. apply Z.pow_eq_0 in X; lia.
  - apply Z.mul_eq_0 in Z' as [X'|]; [|auto]. exfalso. apply N. apply Z.pow_eq_0 in X'; lia.
Qed.
Example C58_ex : q_resultant (Qd 1 (-3) 2) (Qd 1 (-5) 6) = 0 /\ q_resultant (Qd 1 0 1) (Qd 1 0 (-1)) = 4.
Proof. split; reflexivity. Qed.
Print Assumptions C58_syzygy.
Print Assumptions C58_doubleup.
Print Assumptions C58_resultant.
Print Assumptions C58_resultant_root.
