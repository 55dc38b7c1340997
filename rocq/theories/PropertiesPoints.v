(** Points of elliptic curves: C37 - C40, C59 *)
From Coq Require Import ZArith Znumtheory Lia List Bool QArith Qcanon.
From Verif Require Import Base RatModel CurveModel CurveProofs MinimalProofs PointsModel GroupLaw QcGroup PointsProofs PointsGroup PointsMore.
Import ListNotations.
Open Scope Z_scope.

(** * C37: the group law *)
Theorem C37_constructor X Y W : ~ (X = 0 /\ Y = 0 /\ W = 0) ->
  same (mkpoint X Y W) (Pt X Y W 0) /\ reduced (mkpoint X Y W).
Proof. intros H. destruct (mkpoint_ok X Y W H) as (A & B & _). exact (conj A B). Qed.
Print Assumptions C37_constructor.

Theorem C37_isvalid E P : p_isvalid E P = true <-> proj_on E P.
Proof. exact (isvalid_ok E P). Qed.
Print Assumptions C37_isvalid.

Theorem C37_equality E P Q : proj_on E P -> proj_on E Q -> (p_eq P Q = true <-> same P Q).
Proof. intros HP HQ. exact (iff_trans (p_eq_aff E P Q HP HQ) (iff_sym (same_aff E P Q HP HQ))). Qed.
Print Assumptions C37_equality.

(** the results lie on the curve, and are those of the chord and tangent law over Q *)
Theorem C37_closure E P Q : proj_on E P -> proj_on E Q ->
  (proj_on E (p_neg E P) /\ aff (p_neg E P) = eneg E (aff P)) /\
  (proj_on E (p_twice E P) /\ aff (p_twice E P) = eadd E (aff P) (aff P)) /\
  (proj_on E (p_add E P Q) /\ aff (p_add E P Q) = eadd E (aff P) (aff Q)).
Proof.
  intros HP HQ. destruct (twice_spec E P HP) as [A B]. destruct (add_spec E P Q HP HQ) as [C D].
  exact (conj (conj (neg_valid E P HP) (neg_aff E P)) (conj (conj B A) (conj D C))).
Qed.
Print Assumptions C37_closure.

Theorem C37_reduced E P Q : proj_on E P -> proj_on E Q -> reduced P -> reduced Q ->
  reduced (p_neg E P) /\ reduced (p_twice E P) /\ reduced (p_add E P Q).
Proof.
  intros HP HQ RP RQ. exact (conj (neg_reduced E P RP) (conj (twice_reduced E P HP) (add_reduced E P Q HP HQ RP RQ))).
Qed.
Print Assumptions C37_reduced.

Theorem C37_subtraction E P Q : proj_on E P -> proj_on E Q ->
  proj_on E (p_sub E P Q) /\ same (p_sub E P Q) (p_add E P (p_neg E Q)) /\ reduced (p_sub E P Q) /\
  same (p_subeq E P Q) (p_sub E P Q).
Proof. exact (sub_spec E P Q). Qed.
Print Assumptions C37_subtraction.

Theorem C37_group E : sdisc E <> 0 ->
  (forall P Q, proj_on E P -> proj_on E Q -> same (p_add E P Q) (p_add E Q P)) /\
  (forall P Q R, proj_on E P -> proj_on E Q -> proj_on E R ->
     same (p_add E P (p_add E Q R)) (p_add E (p_add E P Q) R)) /\
  (forall P, proj_on E P -> same (p_add E P infpt) P /\ same (p_add E infpt P) P) /\
  (forall P, proj_on E P -> same (p_add E P (p_neg E P)) infpt).
Proof. exact (group_laws E). Qed.
Print Assumptions C37_group.

Definition e37 := Cv 0 0 1 (-1) 0.
Definition p37 := Pt 0 0 1 0.
Example C37_ex : sdisc e37 = 37 /\ proj_on e37 p37 /\ reduced p37 /\
  p_twice e37 p37 = Pt 1 0 1 0 /\ p_add e37 (p_twice e37 p37) p37 = Pt (-1) (-1) 1 0 /\
  p_add e37 (Pt (-1) (-1) 1 0) (Pt 1 0 1 0) = Pt 2 (-5) 8 0.
Proof. repeat split; try reflexivity; try discriminate; intros (_ & _ & H); discriminate H. Qed.
Example C37_ex_tangent_vertical : p_twice (Cv 0 0 0 (-1) 0) (Pt 1 0 1 0) = infpt.
Proof. reflexivity. Qed.

(** * C38: multiples *)
Theorem C38_multiple E n P : sdisc E <> 0 -> proj_on E P -> - max32 <= n <= max32 ->
  exists R, p_mul E n P = Ok R /\ proj_on E R /\
    same R (if n <? 0 then p_neg E (nfold E (Z.to_nat (- n)) P) else nfold E (Z.to_nat n) P).
Proof. exact (mul_nfold E n P). Qed.
Print Assumptions C38_multiple.

(** negating the least int is undefined *)
Theorem C38_least_int_refuted : exists E P, sdisc E <> 0 /\ proj_on E P /\ p_mul E min32 P = UB.
Proof.
  exists e37, p37. assert (V : proj_on e37 p37) by (split; [intros (_ & _ & H); discriminate H|reflexivity]).
  split; [discriminate|]. split; [exact V|]. apply p_mul_UB; [exact V|discriminate].
Qed.
Print Assumptions C38_least_int_refuted.

(** a positive order is the order; that order(P) ends and recognises all torsion points
    is C79_order *)
Theorem C38_order_partial E fuel P o P' : sdisc E <> 0 -> proj_on E P -> ord_ok E P -> p_order E fuel P = Ok (o, P') ->
  P' = Pt (pX P) (pY P) (pZ P) o /\ (0 < o -> is_order E o P).
Proof. intros D. exact (p_order_spec E D fuel P o P'). Qed.
Print Assumptions C38_order_partial.

Theorem C38_multiples E P : sdisc E <> 0 -> proj_on E P ->
  exists o ms, p_multiples E P = Ok (o, ms) /\ mults E ms P /\ (1 <= length ms <= 13)%nat /\
  (0 < o -> o = Z.of_nat (length ms) /\ is_order E o P) /\
  (o <= 0 -> o = -1 /\ (8 < pZ (last ms infpt) \/ length ms = 13%nat)).
Proof. intros D. exact (p_multiples_spec E D P). Qed.
Print Assumptions C38_multiples.

Example C38_ex : p_mul e37 7 p37 = Ok (Pt (-15) 8 27 0) /\ p_mul e37 (-7) p37 = Ok (Pt (-15) (-35) 27 0) /\
  nfold e37 7 p37 = Pt (-15) 8 27 0 /\
  p_order (Cv 0 (-1) 1 (-10) (-20)) 10 (Pt 5 5 1 0) = Ok (5, Pt 5 5 1 5) /\
  p_order e37 10 p37 = Ok (-1, Pt 0 0 1 (-1)).
Proof. vm_compute. auto. Qed.

(** * C39: changes of model *)
Theorem C39_transform E E' u r s t : u <> 0 -> carries u r s t E E' ->
  (forall P, proj_on E P -> proj_on E' (p_transform P u r s t false)) /\
  (forall P, proj_on E' P -> proj_on E (p_transform P u r s t true)) /\
  (forall P, proj_on E P -> same (p_transform (p_transform P u r s t false) u r s t true) P) /\
  (forall P, proj_on E' P -> same (p_transform (p_transform P u r s t true) u r s t false) P) /\
  (forall P Q, proj_on E P -> proj_on E Q ->
     same (p_transform (p_add E P Q) u r s t false)
          (p_add E' (p_transform P u r s t false) (p_transform Q u r s t false))).
Proof.
  intros U T. exact (conj (transform_valid_fwd E E' u r s t U T) (conj (transform_valid_back E E' u r s t U T)
    (conj (fun P => transform_inverse E E' u r s t U T P false) (conj (fun P => transform_inverse E E' u r s t U T P true)
    (transform_hom E E' u r s t U T))))).
Qed.
Print Assumptions C39_transform.

(** on coordinates: x = u^2 x' + r, y = u^3 y' + s u^2 x' + t *)
Theorem C39_coordinates u r s t P : u <> 0 ->
  aff (p_transform P u r s t true) = psi (zq u) (zq r) (zq s) (zq t) (aff P) /\
  aff (p_transform P u r s t false) = phi (zq u) (zq r) (zq s) (zq t) (aff P).
Proof. intros U. exact (conj (transform_aff u r s t U P true) (transform_aff u r s t U P false)). Qed.
Print Assumptions C39_coordinates.

Definition f37 := Cv 0 0 8 (-16) 0.
Example C39_ex : carries 2 0 0 0 f37 e37 /\ proj_on f37 (Pt 4 0 1 0) /\
  p_transform (Pt 4 0 1 0) 2 0 0 0 false = Pt 1 0 1 0 /\ p_transform (Pt 1 0 1 0) 2 0 0 0 true = Pt 4 0 1 0.
Proof. repeat split; try (vm_compute; reflexivity). intros (_ & _ & H); discriminate H. Qed.
Example C39_ex_shift : carries 1 1 2 3 e37 (tr_rst 1 2 3 e37) /\ p_isvalid (tr_rst 1 2 3 e37) (p_transform (Pt 2 (-5) 8 0) 1 1 2 3 false) = true.
Proof. split; vm_compute; reflexivity. Qed.

(** * C40: points with given x-coordinate *)
Theorem C40_points_from_x E n d : 0 < d -> Z.gcd n d = 1 ->
  exists L, points_from_x E (sb2 E) (sb4 E) (sb6 E) (n, d) = Ok L /\
  (forall P, In P L -> proj_on E P /\ reduced P /\ xcoord P n d) /\
  (forall P, proj_on E P -> xcoord P n d -> exists Q, In Q L /\ same P Q) /\
  ForallOrdPairs (fun P Q => ~ same P Q) L.
Proof. exact (pfx_ok E n d). Qed.
Print Assumptions C40_points_from_x.

Example C40_ex : points_from_x e37 (sb2 e37) (sb4 e37) (sb6 e37) (1, 4) = Ok [Pt 2 (-3) 8 0; Pt 2 (-5) 8 0] /\
  points_from_x e37 (sb2 e37) (sb4 e37) (sb6 e37) (1, 2) = Ok [] /\
  points_from_x (Cv 0 0 0 (-1) 0) 0 (-2) 0 (1, 1) = Ok [Pt 1 0 1 0].
Proof. vm_compute. auto. Qed.

(** * C59: reduction modulo a prime *)
Theorem C59_good_reduction E p P : prime p -> proj_on E P -> reduced P -> (good_red E p P = true <-> ~ sing_mod E p P).
Proof. exact (good_red_ok E p P). Qed.
Print Assumptions C59_good_reduction.
Example C59_ex : good_red (Cv 0 0 0 0 25) 5 (Pt 0 5 1 0) = false /\ proj_on (Cv 0 0 0 0 25) (Pt 0 5 1 0) /\
  good_red (Cv 0 0 0 0 25) 7 (Pt 0 5 1 0) = true.
Proof. repeat split; try (vm_compute; reflexivity). intros (_ & _ & H); discriminate H. Qed.
