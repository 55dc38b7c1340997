(** Weierstrass equations: C34 - C36 *)
From Coq Require Import ZArith Znumtheory Lia List Bool.
From Verif Require Import Base DivisorProofs CurveModel CurveProofs MinimalProofs.
Import ListNotations.
Open Scope Z_scope.

(** * C34: stored invariants *)
Theorem C34_curvedata pdivs c :
  (sdisc c = 0 -> curvedata_of pdivs c false = Ok null_data) /\
  (sdisc c <> 0 -> exists E, curvedata_of pdivs c false = Ok E /\ cv E = c /\ consistent E /\
     conncomp E = (if 0 <? sdisc c then 2 else 1) /\ minimal_flag E = false).
Proof. exact (curvedata_of_ok pdivs c). Qed.
Print Assumptions C34_curvedata.

Theorem C34_identities c : 4 * sb8 c = sb2 c * sb6 c - sb4 c ^ 2 /\ 1728 * sdisc c = sc4 c ^ 3 - sc6 c ^ 2.
Proof. exact (conj (s_b8 c) (s_disc c)). Qed.
Print Assumptions C34_identities.

Theorem C34_transform r s t E : consistent E ->
  cv (cd_transform r s t E) = tr_rst r s t (cv E) /\ consistent (cd_transform r s t E) /\
  c4 (cd_transform r s t E) = c4 E /\ c6 (cd_transform r s t E) = c6 E /\ discr (cd_transform r s t E) = discr E.
Proof.
  intros H. exact (conj (cd_transform_cv r s t E) (conj (cd_transform_ok r s t E H) (conj eq_refl (conj eq_refl eq_refl)))).
Qed.
Print Assumptions C34_transform.

Example C34_ex : exists E, curvedata_of (fun _ => []) (Cv 0 (-1) 1 (-10) (-20)) false = Ok E /\
  consistent E /\ discr E = - 11 ^ 5 /\ c4 E = 496 /\ c6 E = 20008.
Proof. eexists. split; [vm_compute; reflexivity|]. vm_compute. auto 10. Qed.
Example C34_ex_singular : curvedata_of (fun _ => []) (Cv 0 1 0 0 0) false = Ok null_data.
Proof. vm_compute. reflexivity. Qed.

(** * C35: Kraus' conditions *)
Theorem C35_valid_invariants x4 x6 : exists b, valid_invariants x4 x6 = Ok b /\
  (b = true <-> exists c, sdisc c <> 0 /\ sc4 c = x4 /\ sc6 c = x6).
Proof.
  destruct (valid_invariants_ok x4 x6) as (b & E & H). exists b. split; [exact E|].
  exact (iff_trans H (kraus_iff x4 x6)).
Qed.
Print Assumptions C35_valid_invariants.

Theorem C35_curve_from_c4c6 d : sdisc d <> 0 ->
  exists c, curve_of_c4c6 (sc4 d) (sc6 d) = Ok c /\ sc4 c = sc4 d /\ sc6 c = sc6 d /\ normal c /\
    forall c', sc4 c' = sc4 d -> sc6 c' = sc6 d -> normal c' -> c' = c.
Proof. exact (curve_of_ok d). Qed.
Print Assumptions C35_curve_from_c4c6.

Theorem C35_b_invariants x4 x6 : (exists d, sdisc d <> 0 /\ sc4 d = x4 /\ sc6 d = x6) ->
  exists c, c4c6_to_ai x4 x6 = Ok (c, (sb2 c, sb4 c, sb6 c, sb8 c)) /\ sc4 c = x4 /\ sc6 c = x6.
Proof. exact (c4c6_b x4 x6). Qed.
Print Assumptions C35_b_invariants.

Example C35_ex : valid_invariants 496 20008 = Ok true /\ curve_of_c4c6 496 20008 = Ok (Cv 0 (-1) 1 (-10) (-20)) /\
  valid_invariants 496 20009 = Ok false /\ valid_invariants 16 0 = Ok false.
Proof. vm_compute. auto. Qed.

(** * C36: minimal models *)
Theorem C36_minimise_c4c6 pdivs d : pdivs_spec pdivs -> sdisc d <> 0 ->
  exists n4 n6 nd u, minimise_c4c6 pdivs (sc4 d) (sc6 d) = Ok (n4, n6, nd, u) /\ 0 < u /\
    sc4 d = u ^ 4 * n4 /\ sc6 d = u ^ 6 * n6 /\
    (exists c, sc4 c = n4 /\ sc6 c = n6 /\ sdisc c = nd /\ nd <> 0) /\
    forall v c, 0 < v -> sc4 d = v ^ 4 * sc4 c -> sc6 d = v ^ 6 * sc6 c -> (v | u).
Proof. exact (minimise_spec pdivs d). Qed.
Print Assumptions C36_minimise_c4c6.

Theorem C36_minimalize pdivs E : pdivs_spec pdivs -> consistent E -> sdisc (cv E) <> 0 -> minimal_flag E = false ->
  exists E' u r s t, minimalize pdivs E = Ok E' /\ consistent E' /\ minimal_flag E' = true /\ conncomp E' = conncomp E /\
    0 < u /\ carries u r s t (cv E) (cv E') /\ minimal (cv E') /\ normal (cv E').
Proof. exact (minimalize_ok pdivs E). Qed.
Print Assumptions C36_minimalize.

Theorem C36_minimalize_urst pdivs E : pdivs_spec pdivs -> consistent E -> sdisc (cv E) <> 0 -> minimal_flag E = false ->
  exists E' u r s t, minimalize_urst pdivs E = Ok (E', (u, r, s, t)) /\ consistent E' /\
    0 < u /\ carries u r s t (cv E) (cv E') /\ minimal (cv E') /\ normal (cv E').
Proof. exact (minimalize_urst_ok pdivs E). Qed.
Print Assumptions C36_minimalize_urst.

Theorem C36_minimal_unique c d : minimal c -> minimal d -> normal c -> normal d -> qiso c d -> qiso d c -> c = d.
Proof. exact (minimal_unique c d). Qed.
Print Assumptions C36_minimal_unique.

(** non-vacuity: a prime divisor function exists; 11a1 scaled by 6 and moved *)
Example C36_pdivs_exists : exists pdivs, pdivs_spec pdivs.
Proof. exact pdivs_exists. Qed.
Definition C36_E : curve := tr_rst 5 7 (-3) (scale_up 6 (Cv 0 (-1) 1 (-10) (-20))).
Example C36_ex : sdisc C36_E <> 0 /\
  (exists E, curvedata_of (fun _ => [2; 3; 11]) C36_E false = Ok E /\
   exists N, minimalize_urst (fun _ => [2; 3; 11]) E = Ok (N, (6, -5, -7, 38)) /\ cv N = Cv 0 (-1) 1 (-10) (-20)).
Proof. split; [vm_compute; discriminate|]. eexists. split; [vm_compute; reflexivity|].
  eexists. split; vm_compute; reflexivity. Qed.
