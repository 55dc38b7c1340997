(** Model of the 2x2 integer matrices of unimod.h / unimod.cc and of the binary
    forms built on them: quadratic.cc/h, cubic.cc/h, transform.cc, and the
    invariants of mquartic.h.  All coefficients are bigint (= Z). *)
From Coq Require Import ZArith List Bool.
From Verif Require Import Base RatModel MArithModel.
Import ListNotations.
Open Scope Z_scope.

(** ** class unimod (unimod.h lines 30-83): (m11, m12, m21, m22) *)
Record unimod := Um { m11 : Z; m12 : Z; m21 : Z; m22 : Z }.
(** default constructor and reset, lines 37 and 42 *)
Definition um_id : unimod := Um 1 0 0 1.
(** operator*=, lines 53-57, and operator*, unimod.cc lines 26-34 *)
Definition um_mul (m a : unimod) : unimod :=
  Um (m11 m * m11 a + m12 m * m21 a) (m11 m * m12 a + m12 m * m22 a)
     (m21 m * m11 a + m22 m * m21 a) (m21 m * m12 a + m22 m * m22 a).
(** lines 60-64 *)
Definition um_det (m : unimod) : Z := m11 m * m22 m - m12 m * m21 m.
Definition um_xshift (a : Z) (m : unimod) : unimod :=
  Um (m11 m) (m12 m + a * m11 m) (m21 m) (m22 m + a * m21 m).
Definition um_yshift (a : Z) (m : unimod) : unimod :=
  Um (m11 m + a * m12 m) (m12 m) (m21 m + a * m22 m) (m22 m).
Definition um_negate (m : unimod) : unimod := Um (- m11 m) (- m12 m) (- m21 m) (- m22 m).
Definition um_seminegate (m : unimod) : unimod := Um (m11 m) (- m12 m) (m21 m) (- m22 m).
(** inverse(), lines 65-70: returns (answer, new value of *this); for negative
    determinant it is *this, not the answer, that is negated. *)
Definition um_inverse (m : unimod) : unimod * unimod :=
  (Um (m22 m) (- m12 m) (- m21 m) (m11 m),
   if um_det m <? 0 then um_negate m else m).
(** invert(), lines 71-74 *)
Definition um_invert (m : unimod) : unimod := Um (m12 m) (- m11 m) (m22 m) (- m21 m).

(** class scaled_unimod, lines 85-140: m00 and a unimod *)
Record sunimod := Sum { m00 : Z; sm : unimod }.
Definition sum_id : sunimod := Sum 1 um_id.
(** operator*= with scaled_unimod (112-117), with unimod (118-123) *)
Definition sum_mul (m a : sunimod) : sunimod := Sum (m00 m * m00 a) (um_mul (sm m) (sm a)).
Definition sum_mul_um (m : sunimod) (a : unimod) : sunimod := Sum (m00 m) (um_mul (sm m) a).
(** lines 125-127 *)
Definition sum_xscale (c : Z) (s : sunimod) : sunimod :=
  let m := sm s in Sum (m00 s) (Um (m11 m * c) (m12 m) (m21 m * c) (m22 m)).
Definition sum_yscale (c : Z) (s : sunimod) : sunimod :=
  let m := sm s in Sum (m00 s) (Um (m11 m) (m12 m * c) (m21 m) (m22 m * c)).
Definition sum_uscale (c : Z) (s : sunimod) : sunimod := Sum (m00 s * c) (sm s).

(** ** class quadratic *)
Record quadratic := Qd { qa : Z; qb : Z; qc : Z }.
(** eval, quadratic.h lines 46-47; disc, line 58 *)
Definition q_eval (q : quadratic) (x z : Z) : Z := qa q * (x * x) + qb q * x * z + qc q * (z * z).
Definition q_disc (q : quadratic) : Z := qb q * qb q - 4 * qa q * qc q.
(** transform, quadratic.cc lines 26-34 *)
Definition q_transform (m : unimod) (q : quadratic) : quadratic :=
  Qd (q_eval q (m11 m) (m21 m))
     (2 * (qa q * m11 m * m12 m + qc q * m21 m * m22 m)
        + qb q * (m11 m * m22 m + m12 m * m21 m))
     (q_eval q (m12 m) (m22 m)).
(** x_shift, lines 36-42: [aq0] binds a temporary, its value is fixed *)
Definition q_xshift (a : Z) (q : quadratic) : quadratic :=
  let aq0 := a * qa q in Qd (qa q) (qb q + 2 * aq0) (qc q + (aq0 + qb q) * a).
(** y_shift, lines 44-50 *)
Definition q_yshift (a : Z) (q : quadratic) : quadratic :=
  let aq2 := a * qc q in Qd (qa q + (aq2 + qb q) * a) (qb q + 2 * aq2) (qc q).
(** invert, lines 52-56 *)
Definition q_invert (q : quadratic) : quadratic := Qd (qc q) (- qb q) (qa q).
(** loop of reduce, lines 70-76; the test [reduced] of the previous round first *)
Definition qred_step (s : quadratic * unimod) : res ((quadratic * unimod) + (quadratic * unimod)) :=
  let '(q, m) := s in
  if qa q <=? qc q then Ok (inr (q, m))
  else
    let q := q_invert q in let m := um_invert m in
    a <- roundover (- qb q) (2 * qa q) ;;
    Ok (inl (q_xshift a q, um_xshift a m)).
(** reduce, lines 58-80 *)
Definition q_reduce (q : quadratic) (m : unimod) : res (quadratic * unimod) :=
  let q := if qa q <? 0 then Qd (- qa q) (- qb q) (- qc q) else q in
  a <- roundover (- qb q) (2 * qa q) ;;
  while qred_step (zfuel (qa q)) (q_xshift a q, um_xshift a m).
(** resultant, lines 82-89 *)
Definition q_resultant (q1 q2 : quadratic) : Z :=
  let a1 := qa q1 in let b1 := qb q1 in let c1 := qc q1 in
  let a2 := qa q2 in let b2 := qb q2 in let c2 := qc q2 in
  (c2 * a1) * (c2 * a1) - a1 * c2 * b2 * b1 + (-2 * c2 * a2 + b2 * b2) * c1 * a1
  + c2 * a2 * (b1 * b1) - b2 * a2 * c1 * b1 + (a2 * c1) * (a2 * c1).

(** ** class cubic *)
Record cubic := Cb { ca : Z; cb : Z; cc : Z; cd : Z }.
(** eval, cubic.h lines 68-70; disc, lines 74-77 *)
Definition c_eval (f : cubic) (x z : Z) : Z :=
  let x2 := x * x in let z2 := z * z in
  ca f * x * x2 + cb f * x2 * z + cc f * x * z2 + cd f * z * z2.
Definition c_disc (f : cubic) : Z :=
  let b2 := cb f * cb f in let c2 := cc f * cc f in
  let ac := ca f * cc f in let bd := cb f * cd f in
  -27 * ((ca f * cd f) * (ca f * cd f)) + 18 * ac * bd - 4 * ac * c2 - 4 * bd * b2 + b2 * c2.
(** transform_helper, cubic.cc lines 39-55 *)
Definition c_transform (m : unimod) (f : cubic) : cubic :=
  let a := ca f in let b := cb f in let c := cc f in let d := cd f in
  let m112 := m11 m * m11 m in let m113 := m112 * m11 m in
  let m212 := m21 m * m21 m in let m213 := m212 * m21 m in
  let m222 := m22 m * m22 m in let m223 := m222 * m22 m in
  let m122 := m12 m * m12 m in let m123 := m122 * m12 m in
  Cb (m113 * a + m21 m * m112 * b + m212 * m11 m * c + m213 * d)
     (3 * m12 m * m112 * a + (m22 m * m112 + 2 * m21 m * m12 m * m11 m) * b
        + (2 * m22 m * m21 m * m11 m + m212 * m12 m) * c + 3 * m22 m * m212 * d)
     (3 * m122 * m11 m * a + (2 * m22 m * m12 m * m11 m + m21 m * m122) * b
        + (m222 * m11 m + 2 * m22 m * m21 m * m12 m) * c + 3 * m222 * m21 m * d)
     (m123 * a + m22 m * m122 * b + m222 * m12 m * c + m223 * d).
(** x_shift 208-214, y_shift 216-222, invert 224-229, negate 231-236, seminegate 238-243 *)
Definition c_xshift (e : Z) (f : cubic) : cubic :=
  Cb (ca f) (cb f + 3 * e * ca f) (cc f + e * (2 * cb f + 3 * e * ca f))
     (cd f + e * (cc f + e * (cb f + e * ca f))).
Definition c_yshift (e : Z) (f : cubic) : cubic :=
  Cb (ca f + e * (cb f + e * (cc f + e * cd f))) (cb f + e * (2 * cc f + 3 * e * cd f))
     (cc f + 3 * e * cd f) (cd f).
Definition c_invert (f : cubic) : cubic := Cb (- cd f) (cc f) (- cb f) (ca f).
Definition c_negate (f : cubic) : cubic := Cb (- ca f) (- cb f) (- cc f) (- cd f).
Definition c_seminegate (f : cubic) : cubic := Cb (ca f) (- cb f) (cc f) (- cd f).
(** p_semi, q_semi, r_semi, cubic.h lines 129-134 *)
Definition p_semi (f : cubic) : Z := cb f * cb f - 3 * ca f * cc f.
Definition q_semi (f : cubic) : Z := cb f * cc f - 9 * ca f * cd f.
Definition r_semi (f : cubic) : Z := cc f * cc f - 3 * cb f * cd f.

(** operator<, cubic.cc lines 34-37: lexicographic *)
Definition c_lt (f g : cubic) : bool :=
  if ca f <? ca g then true else if ca g <? ca f then false else
  if cb f <? cb g then true else if cb g <? cb f then false else
  if cc f <? cc g then true else if cc g <? cc f then false else
  cd f <? cd g.
(** operator==, cubic.h lines 52-53 *)
Definition c_eqb (f g : cubic) : bool :=
  (ca f =? ca g) && (cb f =? cb g) && (cc f =? cc g) && (cd f =? cd g).

(** j_c1 .. j_c4, cubic.cc lines 248-355 *)
Definition j_c1 (f : cubic) : Z :=
  let a := ca f in let b := cb f in let c := cc f in let d := cd f in
  let b2 := b * b in let b3 := b * b2 in let b4 := b * b3 in let b5 := b * b4 in let b6 := b * b5 in
  let a2 := a * a in let a3 := a * a2 in let a4 := a * a3 in
  let c2 := c * c in let c3 := c * c2 in let c4 := c * c3 in let c5 := c * c4 in let c6 := c * c5 in
  let d2 := d * d in let d3 := d * d2 in let d4 := d * d3 in
  let ac := a * c in let bd := b * d in
  - (108) * b3 * a2 * d - 3 * b4 * c2 + 54 * a2 * c4 + 18 * b5 * d + 243 * a2 * d2 * b2 -
    54 * b3 * ac * d - 162 * bd * c2 * a2 - 54 * a3 * c3 + 486 * a3 * bd * c + 3 * c4 * b2 -
      18 * c5 * a + 54 * c3 * a * bd - 243 * d2 * a2 * c2 + 162 * d2 * ac * b2 + 2 * c6 -
        729 * a4 * d2 - 2 * b6 + 18 * b4 * ac - 27 * a2 * b2 * c2 + 729 * d4 * a2 + 54 * b3 * d3 +
          108 * c3 * d2 * a - 18 * c4 * bd + 27 * d2 * c2 * b2 - 486 * d3 * ac * b - 54 * d2 * b4.
Definition j_c2 (f : cubic) : Z :=
  let a := ca f in let b := cb f in let c := cc f in let d := cd f in
  let b2 := b * b in let b3 := b * b2 in let b4 := b * b3 in let b5 := b * b4 in let b6 := b * b5 in
  let a2 := a * a in let a3 := a * a2 in let a4 := a * a3 in
  let c2 := c * c in let c3 := c * c2 in let c4 := c * c3 in
  let d2 := d * d in
  let ac := a * c in let bd := b * d in
  108 * b3 * a2 * d - 12 * b4 * c2 + 216 * a2 * c4 + 72 * b5 * d + 486 * a3 * c2 * d
    - 270 * a2 * c3 * b + 90 * b3 * c2 * a + 972 * a2 * d2 * b2 - 216 * b3 * ac * d -
      648 * bd * c2 * a2 + 54 * a3 * c3 - 486 * a3 * bd * c + 16 * c3 * b3 - 216 * d2 * b3 * a -
        72 * d * b4 * c - 72 * c4 * b * a - 216 * d * c3 * a2 + 432 * d * b2 * a * c2
    + 729 * a4 * d2 + 2 * b6
          - 18 * b4 * ac + 27 * a2 * b2 * c2 - 6 * b5 * c + 648 * b2 * c * a2 * d
    - 162 * a * d * b4 - 1458 * a3 * d2 * b.
Definition j_c3 (f : cubic) : Z :=
  let a := ca f in let b := cb f in let c := cc f in let d := cd f in
  let b2 := b * b in let b3 := b * b2 in let b4 := b * b3 in let b5 := b * b4 in let b6 := b * b5 in
  let a2 := a * a in let a3 := a * a2 in let a4 := a * a3 in
  let c2 := c * c in let c3 := c * c2 in let c4 := c * c3 in
  let d2 := d * d in
  108 * b3 * a2 * d - 12 * b4 * c2 + 216 * a2 * c4 + 72 * b5 * d - 486 * a3 * c2 * d +
    270 * a2 * c3 * b - 90 * b3 * c2 * a + 972 * a2 * d2 * b2 - 216 * b3 * c * a * d - 648 * b * c2 * a2 * d
      + 54 * a3 * c3 - 486 * a3 * d * c * b - 16 * c3 * b3 + 216 * d2 * b3 * a + 72 * d * b4 * c +
        72 * c4 * b * a + 216 * d * c3 * a2 - 432 * d * b2 * a * c2 + 729 * a4 * d2 + 2 * b6 - 18 * b4 * a * c
          + 27 * a2 * b2 * c2 + 6 * b5 * c - 648 * b2 * c * a2 * d + 162 * a * d * b4 + 1458 * a3 * d2 * b.
Definition j_c4 (f : cubic) : Z :=
  let a := ca f in let b := cb f in let c := cc f in let d := cd f in
  let b2 := b * b in let b3 := b * b2 in let b4 := b * b3 in
  let a2 := a * a in let c2 := c * c in let c3 := c * c2 in let c4 := c2 * c2 in let d2 := d * d in
  27 * d * c3 * a2 + (27 * d2 * b3 - 54 * d * c2 * b2 + 9 * c4 * b) * a + 9 * d * c * b4 - 2 * c3 * b3.

(** normalise, cubic.cc lines 84-148.  The two vectors Flist and transforms are
    built in parallel; here a list of pairs. *)
Definition auto2 : unimod := Um (-1) 0 0 (-1).
Definition auto4 : unimod := Um 0 (-1) 1 0.
Definition auto6 : unimod := Um 1 1 (-1) 0.
(** lines 86-115 *)
Definition nautos (f : cubic) : nat :=
  if c_disc f <? 0 then
    if j_c1 f =? 0 then if j_c4 f =? 0 then 4 else if j_c2 f =? 0 then 6 else 2 else 2
  else
    if p_semi f =? r_semi f then
      if q_semi f =? 0 then 4 else if q_semi f =? r_semi f then 6 else 2
    else 2.
(** lines 128-135: k more elements after (f1, pow) *)
Fixpoint aut_list (k : nat) (aut : unimod) (f1 : cubic) (pow : unimod) : list (cubic * unimod) :=
  match k with
  | O => []
  | S k' =>
      let f1 := c_transform aut f1 in let pow := um_mul pow aut in
      (f1, pow) :: aut_list k' aut f1 pow
  end.
(** std::max_element (line 140): first largest element *)
Definition pick_max (l : list (cubic * unimod)) (best : cubic * unimod) : cubic * unimod :=
  fold_left (fun best x => if c_lt (fst best) (fst x) then x else best) l best.
Definition c_normalise (f : cubic) (m : unimod) : cubic * unimod :=
  let n := nautos f in
  let aut := if (n =? 4)%nat then auto4 else if (n =? 6)%nat then auto6 else auto2 in
  let '(g, pow) := pick_max (aut_list (n - 1) aut f um_id) (f, um_id) in
  (g, um_mul m pow).

(** is_hessian_reduced, lines 374-387 *)
Definition is_hessian_reduced (f : cubic) : bool :=
  let P := p_semi f in let R := r_semi f in
  if R <? P then false
  else
    let Q := q_semi f in
    if P <? Q then false
    else if P =? R then 0 <=? Q else - P <? Q.

(** loop body of hess_reduce, lines 396-416; leaves when neither changed *)
Definition hess_step (s : cubic * unimod) : res ((cubic * unimod) + (cubic * unimod)) :=
  let '(f, m) := s in
  k <- roundover (- q_semi f) (2 * p_semi f) ;;
  let '(f, m, s) := if k =? 0 then (f, m, false) else (c_xshift k f, um_xshift k m, true) in
  let '(f, m, s) := if r_semi f <? p_semi f then (c_invert f, um_invert m, true) else (f, m, s) in
  Ok (if (s : bool) then inl (f, m) else inr (f, m)).
(** hess_reduce, lines 389-426; m is reset on entry *)
Definition hess_reduce (f : cubic) : res (cubic * unimod) :=
  '(f, m) <- while hess_step (zfuel (p_semi f)) (f, um_id) ;;
  let '(f, m) :=
    if (p_semi f =? r_semi f) && (q_semi f <? 0) then (c_invert f, um_invert m) else (f, m) in
  Ok (c_normalise f m).

(** is_jc_reduced, lines 470-492 *)
Definition is_jc_reduced (f : cubic) : bool :=
  if ca f =? 0 then
    let b := cb f in let c := cc f in let d := cd f in
    if b =? d then (0 <=? c) && (c <=? b)
    else (- b <? c) && (c <=? b) && (b <? d)
  else if j_c1 f <? 0 then false
  else if j_c2 f <? 0 then false
  else if j_c1 f =? 0 then 0 <=? j_c4 f
  else 0 <? j_c3 f.

(** ** jc_reduce, lines 494-653.  The amount [kround f] = Iround(-h1/(2 h0)) is
    computed in floating point from a real root; it is a parameter here. *)
Section JC.
Variable kround : cubic -> Z.

(** the branch a = 0, lines 518-542; m is reset on entry.  [divides] floors. *)
Definition jc_reduce_a0 (f : cubic) : res (cubic * unimod) :=
  let m := um_id in
  let bb := cb f in let cc' := cc f in
  let '(bb, cc', m) := if bb <? 0 then (- bb, - cc', um_negate m) else (bb, cc', m) in
  q <- zz_div (- cc') (2 * bb) ;; r <- zz_mod (- cc') (2 * bb) ;;
  let q := if bb <=? r then q + 1 else q in
  Ok (c_normalise (c_xshift q f) (um_xshift q m)).

(** lines 604-617: two correction loops *)
Definition jc_down (s : cubic * unimod) : res ((cubic * unimod) + (cubic * unimod)) :=
  let '(f, m) := s in
  Ok (if j_c2 f <? 0 then inl (c_xshift (-1) f, um_xshift (-1) m) else inr (f, m)).
Definition jc_up (s : cubic * unimod) : res ((cubic * unimod) + (cubic * unimod)) :=
  let '(f, m) := s in
  Ok (if j_c3 f <=? 0 then inl (c_xshift 1 f, um_xshift 1 m) else inr (f, m)).

(** loop body, lines 544-650: [inr (true,...)] leaves through the a=0 branch *)
Definition jc_step (fuel : nat) (s : cubic * unimod)
  : res ((cubic * unimod) + (bool * cubic * unimod)) :=
  let '(f, m) := s in
  if ca f =? 0 then Ok (inr (true, f, m))
  else
    let '(f, m, s) := if j_c1 f <? 0 then (c_invert f, um_invert m, true) else (f, m, false) in
    '(f, m, s) <-
      (if (j_c2 f <? 0) || (j_c3 f <=? 0) then
         let k := kround f in
         let '(f, m) := if k =? 0 then (f, m) else (c_xshift k f, um_xshift k m) in
         '(f, m) <- while jc_down fuel (f, m) ;;
         '(f, m) <- while jc_up fuel (f, m) ;;
         Ok (f, m, true)
       else Ok (f, m, s)) ;;
    let '(f, m, s) :=
      if (j_c1 f =? 0) && (j_c4 f <? 0) then (c_invert f, um_invert m, true) else (f, m, s) in
    Ok (if (s : bool) then inl (f, m) else inr (false, f, m)).
(** jc_reduce: the recursive call for a = 0 resets m.  The final assert is
    compiled in (no NDEBUG): a false assertion is [Die]. *)
Definition jc_reduce (fuel : nat) (f : cubic) : res (cubic * unimod) :=
  if ca f =? 0 then jc_reduce_a0 f
  else
    '(z, f, m) <- while (jc_step fuel) fuel (f, um_id) ;;
    if (z : bool) then jc_reduce_a0 f
    else
      let '(f, m) := c_normalise f m in
      if is_jc_reduced f then Ok (f, m) else Die.
End JC.

(** sl2_equivalent, lines 151-165, for non-negative discriminant (the reduction
    used is then hess_reduce, lines 72-78). *)
Definition sl2_equivalent_pos (f g : cubic) : res bool :=
  if c_eqb f g then Ok true
  else
    let f := c_negate f in
    if c_eqb f g then Ok true
    else if negb (c_disc f =? c_disc g) then Ok false
    else
      '(f, _) <- hess_reduce f ;;
      '(g, _) <- hess_reduce g ;;
      Ok (c_eqb f g).
(** gl2_equivalent, lines 167-171 ([||] does not evaluate its second argument) *)
Definition gl2_equivalent_pos (f g : cubic) : res bool :=
  e <- sl2_equivalent_pos f g ;;
  if (e : bool) then Ok true else sl2_equivalent_pos f (c_transform (Um (-1) 0 0 1) g).

(** ** Quartics: transform.cc *)
Record quartic := Qt { ra : Z; rb : Z; rc : Z; rd : Z; re : Z }.
(** value at (x,z) (the class has no evaluation function; this is the notation of
    transform.cc line 25) *)
Definition r_eval (g : quartic) (x z : Z) : Z :=
  ra g * x ^ 4 + rb g * x ^ 3 * z + rc g * x ^ 2 * z ^ 2 + rd g * x * z ^ 3 + re g * z ^ 4.
(** apply_transform with unimod, lines 53-75 *)
Definition r_transform (m : unimod) (g : quartic) : quartic :=
  let a := ra g in let b := rb g in let c := rc g in let d := rd g in let e := re g in
  let n11 := m11 m in let n12 := m12 m in let n21 := m21 m in let n22 := m22 m in
  let m112 := n11 * n11 in let m113 := m112 * n11 in let m114 := m113 * n11 in
  let m212 := n21 * n21 in let m213 := m212 * n21 in let m214 := m213 * n21 in
  let m222 := n22 * n22 in let m223 := m222 * n22 in let m224 := m223 * n22 in
  let m122 := n12 * n12 in let m123 := m122 * n12 in let m124 := m123 * n12 in
  Qt (m214 * e + n11 * m213 * d + m112 * m212 * c + m113 * n21 * b + m114 * a)
     (4 * m213 * n22 * e + (3 * n11 * m212 * n22 + n12 * m213) * d
        + 2 * (m112 * n21 * n22 + n11 * n12 * m212) * c
        + (3 * m112 * n12 * n21 + m113 * n22) * b + 4 * m113 * n12 * a)
     (6 * m212 * m222 * e + 3 * (n12 * m212 * n22 + n11 * n21 * m222) * d
        + (m122 * m212 + 4 * n11 * n12 * n21 * n22 + m112 * m222) * c
        + 3 * (n11 * m122 * n21 + m112 * n12 * n22) * b + 6 * m112 * m122 * a)
     (4 * n21 * m223 * e + (3 * n12 * n21 * m222 + n11 * m223) * d
        + 2 * (m122 * n21 * n22 + n11 * n12 * m222) * c
        + (m123 * n21 + 3 * n11 * m122 * n22) * b + 4 * n11 * m123 * a)
     (m224 * e + n12 * m223 * d + m122 * m222 * c + m123 * n22 * b + m124 * a).
(** apply_transform with scaled_unimod, lines 77-90; divide_exact(a,b,c) of
    marith.h is c = a/b (floor) *)
Definition r_transform_scaled (m : sunimod) (g : quartic) : quartic :=
  let g := r_transform (sm m) g in
  let u2 := m00 m * m00 m in
  if 1 <? u2 then Qt (ra g / u2) (rb g / u2) (rc g / u2) (rd g / u2) (re g / u2) else g.
(** xshift 92-101, zshift 103-112, m_invert 114-119 *)
Definition r_xshift (al : Z) (g : quartic) : quartic :=
  let a := ra g in let b := rb g in let c := rc g in let d := rd g in let e := re g in
  Qt a (b + 4 * al * a) (c + al * (3 * b + 6 * al * a)) (d + al * (2 * c + al * (3 * b + 4 * al * a)))
     (e + al * (d + al * (c + al * (b + al * a)))).
Definition r_zshift (ga : Z) (g : quartic) : quartic :=
  let a := ra g in let b := rb g in let c := rc g in let d := rd g in let e := re g in
  Qt (a + ga * (b + ga * (c + ga * (d + ga * e)))) (b + ga * (2 * c + ga * (3 * d + 4 * ga * e)))
     (c + ga * (3 * d + 6 * ga * e)) (d + 4 * ga * e) e.
Definition r_invert (g : quartic) : quartic := Qt (re g) (- rd g) (rc g) (- rb g) (ra g).
(** check_transform, lines 128-142 *)
Definition r_check (g : quartic) (m : unimod) (x : quartic) : bool :=
  let h := r_transform m g in
  (ra h =? ra x) && (rb h =? rb x) && (rc h =? rc x) && (rd h =? rd x) && (re h =? re x).
(** II, JJ, H_invariant, R_invariant, mquartic.h lines 30-51 *)
Definition II (g : quartic) : Z := 12 * ra g * re g - 3 * rb g * rd g + rc g * rc g.
Definition JJ (g : quartic) : Z :=
  (72 * ra g * re g + 9 * rb g * rd g - 2 * (rc g * rc g)) * rc g
  - 27 * (ra g * (rd g * rd g) + (rb g * rb g) * re g).
Definition H_inv (g : quartic) : Z := 8 * ra g * rc g - 3 * (rb g * rb g).
Definition R_inv (g : quartic) : Z := rb g ^ 3 + 8 * rd g * (ra g * ra g) - 4 * ra g * rb g * rc g.
(** disc, mquartic.cc line 61 *)
Definition r_disc (g : quartic) : Z := 4 * II g ^ 3 - JJ g * JJ g.
(** doubleup, mquartic.h lines 102-105 *)
Definition r_doubleup (g : quartic) : quartic := Qt (ra g) (rb g * 2) (rc g * 4) (rd g * 8) (re g * 16).
