(** C79: the order of a point, and coordinates of torsion points *)
From Coq Require Import ZArith Lia List Bool QArith Qcanon.
From Verif Require Import Base CurveModel CurveProofs PointsModel GroupLaw QcGroup PointsProofs PointsGroup NagLutz OrderTot.
Import ListNotations.
Open Scope Z_scope.

(** [aff P]: the point of the curve over Q given by the triple P; [emul E n Q]: the n-fold
    sum of Q for the chord and tangent law; [reduced P]: no common factor of the
    coordinates, Z >= 0, as every constructor of Point leaves it. *)

(** order(P) ends for every point, returns n > 0 when P has order n, and -1 exactly when
    P has infinite order; the answer is stored in P *)
Theorem C79_order E P : sdisc E <> 0 -> proj_on E P -> reduced P -> ord P = 0 ->
  exists f0, forall fuel, (f0 <= fuel)%nat -> exists o,
    p_order E fuel P = Ok (o, Pt (pX P) (pY P) (pZ P) o) /\
    ((0 < o /\ emul E (Z.to_nat o) (aff P) = Inf /\ forall j, (0 < j < Z.to_nat o)%nat -> emul E j (aff P) <> Inf) \/
     (o = -1 /\ forall n, (1 <= n)%nat -> emul E n (aff P) <> Inf)).
Proof.
  intros HD HP RP O0. destruct (order_total E HD P HP RP O0) as (f0 & H). exists f0. intros fuel Hf. destruct (H fuel Hf) as (o & Eo & C).
  exists o. split; [exact Eo|]. destruct C as [[L O]|C]; [left|right; exact C]. now apply is_order_aff in O.
Qed.

(** points of finite order at least 3 have integer coordinates *)
Theorem C79_integral E m x y : sdisc E <> 0 -> eon_pt E (Aff x y) -> (3 <= m)%nat ->
  emul E m (Aff x y) = Inf -> (forall j, (0 < j < m)%nat -> emul E j (Aff x y) <> Inf) ->
  exists u w, x = zq u /\ y = zq w.
Proof. intros HD HP Hm HO HM. apply (torsion_integral E HD m); auto. split; [lia|auto]. Qed.

(** a point of order 2 has denominators dividing 4 and 8; so no point of finite order is
    given by a reduced triple with Z > 8, the test on which order(P) gives up *)
Theorem C79_two_torsion E x y : eon_pt E (Aff x y) -> emul E 2 (Aff x y) = Inf ->
  exists k u w, (k = 1 \/ k = 2) /\ x = (zq u / zq (k * k))%Qc /\ y = (zq w / zq (k * k * k))%Qc.
Proof. apply two_torsion_den. Qed.
Theorem C79_bound E P n : sdisc E <> 0 -> proj_on E P -> reduced P -> (1 <= n)%nat -> emul E n (aff P) = Inf -> pZ P <= 8.
Proof. intros HD HP. exact (tors_Z E HD P n HP). Qed.

(** (5,5) of order 5 on y^2+y = x^3-x^2-10x-20, (0,0) of infinite order on y^2+y = x^3-x,
    and (-1/4,1/8) of order 2 on y^2+xy = x^3+4x+1 *)
Definition e11a := Cv 0 (-1) 1 (-10) (-20).
Definition e37a := Cv 0 0 1 (-1) 0.
Example C79_ex :
  sdisc e11a <> 0 /\ proj_on e11a (Pt 5 5 1 0) /\ reduced (Pt 5 5 1 0) /\ p_order e11a 10 (Pt 5 5 1 0) = Ok (5, Pt 5 5 1 5) /\
  sdisc e37a <> 0 /\ proj_on e37a (Pt 0 0 1 0) /\ reduced (Pt 0 0 1 0) /\ p_order e37a 10 (Pt 0 0 1 0) = Ok (-1, Pt 0 0 1 (-1)) /\
  eon_pt e11a (Aff (zq 5) (zq 5)) /\ emul e11a 5 (Aff (zq 5) (zq 5)) = Inf /\
  (forall j, (0 < j < 5)%nat -> emul e11a j (Aff (zq 5) (zq 5)) <> Inf).
Proof.
  split; [vm_compute; discriminate|]. split; [split; [intros (A & B & C); discriminate|reflexivity]|]. split; [split; [reflexivity|cbn; lia]|]. split; [vm_compute; reflexivity|].
  split; [vm_compute; discriminate|]. split; [split; [intros (A & B & C); discriminate|reflexivity]|]. split; [split; [reflexivity|cbn; lia]|]. split; [vm_compute; reflexivity|].
  split; [apply Qc_is_canon; vm_compute; reflexivity|]. split; [vm_compute; reflexivity|].
  intros j Hj. destruct j as [|[|[|[|[|j]]]]]; try lia; vm_compute; discriminate.
Qed.
Example C79_two_ex : proj_on (Cv 1 0 0 4 1) (Pt (-2) 1 8 0) /\ reduced (Pt (-2) 1 8 0) /\ emul (Cv 1 0 0 4 1) 2 (aff (Pt (-2) 1 8 0)) = Inf.
Proof. split; [split; [intros (A & B & C); discriminate|reflexivity]|]. split; [split; [reflexivity|cbn; lia]|]. vm_compute. reflexivity. Qed.

Print Assumptions C79_order.
Print Assumptions C79_integral.
Print Assumptions C79_two_torsion.
Print Assumptions C79_bound.
