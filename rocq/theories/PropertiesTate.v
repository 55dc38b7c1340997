(** Tate's algorithm: C69, Tamagawa numbers: C70 *)
From Coq Require Import ZArith Znumtheory Lia List Bool.
From Verif Require Import Base RatModel MArithModel MArithProofs DivisorProofs CurveModel CurveProofs MinimalProofs
  TateModel TateSpec TateProofs TateFinal TateUnique TamModel TamProofs PropertiesMArith.
Import ListNotations.
Open Scope Z_scope.

(** * C69: Tate's algorithm *)
Theorem C69_tate xgcd srm rm pdivs E : xgcd_spec xgcd -> srm 1 2 = 1 -> rootsmod_spec rm -> bad_spec pdivs ->
  consistent E -> sdisc (cv E) <> 0 -> minimal_flag E = false ->
  exists M l N, curvered xgcd srm rm pdivs E = Ok (M, l, N) /\
    consistent M /\ minimal (cv M) /\ normal (cv M) /\ (exists u r s t, 0 < u /\ carries u r s t (cv E) (cv M)) /\
    NoDup (map fst l) /\ (forall p, In p (map fst l) <-> prime p /\ (p | sdisc (cv M))) /\
    (forall p d, In (p, d) l -> reduction_at p (cv M) d) /\
    N = fold_right (fun x n => fst x ^ ord_p_N (snd x) * n) 1 l.
Proof. exact (curvered_ok xgcd srm rm pdivs E). Qed.
Print Assumptions C69_tate.

(** the type and the Tamagawa number described by tate_form, and the whole entry, are
    those of the curve: they do not depend on the model *)
Theorem C69_type_unique p c r s t K K' cp cp' : prime p ->
  tate_form p c K cp -> tate_form p (tr_rst r s t c) K' cp' -> K = K' /\ cp = cp'.
Proof. intros P. apply (tate_unique p P c (tr_rst r s t c)). exists r, s, t. reflexivity. Qed.
Print Assumptions C69_type_unique.

Theorem C69_entry_unique p c r s t d d' : prime p -> sdisc c <> 0 ->
  reduction_at p c d -> reduction_at p (tr_rst r s t c) d' -> d = d'.
Proof. exact (reduction_unique p c r s t d d'). Qed.
Print Assumptions C69_entry_unique.

(** non-vacuity: functions meeting the contracts, and computed curves *)
Definition rootsmod_example (l : list Z) (p : Z) : list Z :=
  filter (fun x => polyval l x mod p =? 0) (map Z.of_nat (seq 0 (Z.to_nat p))).
Example C69_rootsmod_met : rootsmod_spec rootsmod_example.
Proof.
  intros l p P _ _. destruct P as [G _]. unfold rootsmod_example. split.
  - apply NoDup_filter. apply FinFun.Injective_map_NoDup; [intros x y; apply Nat2Z.inj|apply seq_NoDup].
  - intros x. rewrite filter_In, in_map_iff, Z.eqb_eq, Z.mod_divide by lia. split.
    + intros [(n & <- & H) D]. apply in_seq in H. split; [lia|exact D].
    + intros [B D]. split; [|exact D]. exists (Z.to_nat x). rewrite in_seq. lia.
Qed.
Example C69_pdivs_met : exists pdivs, bad_spec pdivs.
Proof.
  destruct pdivs_exists as [f F]. exists (fun n => filter (fun p => n mod p =? 0) (f (Z.abs n))). intros n N0.
  destruct (F (Z.abs n) ltac:(lia)) as (ND & PR & ALL). rewrite Forall_forall in PR. split; [apply NoDup_filter; exact ND|].
  intros p. rewrite filter_In, Z.eqb_eq. split.
  - intros [I D]. pose proof (PR p I) as P. split; [exact P|]. destruct P. apply Z.mod_divide; [lia|exact D].
  - intros [P D]. split; [apply ALL; [exact P|apply Z.divide_abs_r; exact D]|]. destruct P. apply Z.mod_divide; [lia|exact D].
Qed.
Definition C69_run (ps : list Z) (c : curve) : option (curve * list (Z * reduction) * Z) :=
  match curvedata_of (fun n => filter (fun p => n mod p =? 0) ps) c false with
  | Ok E => match curvered xgcd_example (fun _ _ => 1) rootsmod_example (fun n => filter (fun p => n mod p =? 0) ps) E with
            | Ok (M, l, N) => Some (cv M, l, N) | _ => None end
  | _ => None end.
(** 11a1: I5, split; y^2 = x^3 + 686: II, II, I0* with Tamagawa number 1; 240: I4*, I4, I4 *)
Example C69_ex : C69_run [11] (Cv 0 (-1) 1 (-10) (-20)) = Some (Cv 0 (-1) 1 (-10) (-20), [(11, Red 5 1 5 50 5)], 11) /\
  C69_run [2; 3; 7] (Cv 0 0 0 0 686) = Some (Cv 0 0 0 0 686, [(2, Red 6 6 0 2 1); (3, Red 3 3 0 2 1); (7, Red 6 2 0 1 1)], 84672) /\
  C69_run [2; 3; 5] (Cv 0 1 0 (-160) 308) = Some (Cv 0 1 0 (-160) 308, [(2, Red 12 4 0 41 4); (3, Red 4 1 4 40 4); (5, Red 4 1 4 40 4)], 240) /\
  C69_run [5; 7; 23] (Cv 0 (-7) 7 (-490) (-6860)) =
    Some (Cv 0 (-1) 1 (-506) (-7848), [(5, Red 1 1 1 10 1); (7, Red 4 2 0 4 3); (23, Red 1 1 1 10 1)], 5635).
Proof. repeat split; vm_compute; reflexivity. Qed.
Example C69_form_ex : tate_form 11 (tr_rst 5 0 5 (Cv 0 (-1) 1 (-10) (-20))) (KI 5) 5.
Proof.
  cbn [tate_form]. repeat split; try lia; try (apply Z.mod_divide; [lia|vm_compute; reflexivity]);
    try (intros F; apply Z.mod_divide in F; [vm_compute in F; discriminate F|lia]).
  left. split; [|reflexivity]. exists 5. apply Z.mod_divide; [lia|vm_compute; reflexivity].
Qed.

(** * C70: Tamagawa numbers and exponents *)
Theorem C70_numbers E l : (forall p d, In (p, d) l -> prime p) -> NoDup (map fst l) ->
  (forall p, ~ In p (map fst l) -> p <> 0 -> local_Tamagawa_number E l p = 1) /\
  (forall p d, In (p, d) l -> local_Tamagawa_number E l p = c_p d) /\
  local_Tamagawa_number E l 0 = conncomp E /\
  forall real_too, global_Tamagawa_number E l real_too =
    fold_right (fun p n => local_Tamagawa_number E l p * n) 1 (map fst l) * (if real_too then local_Tamagawa_number E l 0 else 1).
Proof.
  intros PR ND. pose proof (local_number_ok E l PR ND) as L. split; [|split; [|split]].
  - intros p N P0. exact (proj1 (proj1 (L p) N P0)).
  - intros p d I. exact (proj1 (proj2 (L p)) d I).
  - exact (proj1 (proj2 (proj2 (L 0)) eq_refl)).
  - intros rt. unfold global_Tamagawa_number. rewrite (prodcp_ok E l PR ND). destruct rt; reflexivity.
Qed.
Print Assumptions C70_numbers.

Theorem C70_local_exponent E l : (forall p d, In (p, d) l -> prime p) -> NoDup (map fst l) ->
  (forall p d K, In (p, d) l -> type_at p (cv E) d K -> is_exponent (comp_group K (c_p d)) (local_Tamagawa_exponent E l p)) /\
  (forall p, ~ In p (map fst l) -> p <> 0 -> local_Tamagawa_exponent E l p = 1) /\
  local_Tamagawa_exponent E l 0 = conncomp E.
Proof.
  intros PR ND. pose proof (local_number_ok E l PR ND) as L. split; [|split].
  - exact (local_exponent_ok E l PR ND).
  - intros p N P0. exact (proj2 (proj1 (L p) N P0)).
  - exact (proj2 (proj2 (proj2 (L 0)) eq_refl)).
Qed.
Print Assumptions C70_local_exponent.

(** The claim "global_Tamagawa_exponent is the lcm of the local exponents" holds
    when no prime has type I0* with Tamagawa number 1; in general the result is a
    multiple of that lcm and divides twice the lcm *)
Theorem C70_global_exponent_partial E l : (forall p d, In (p, d) l -> prime p) -> NoDup (map fst l) ->
  (forall p d, In (p, d) l -> exists K, type_at p (cv E) d K) -> forall real_too,
  exists g, global_Tamagawa_exponent E l real_too = Ok g /\ 0 < g /\
  (real_factor E real_too | g) /\
  (forall p d, In (p, d) l -> (local_Tamagawa_exponent E l p | g)) /\
  ((forall p d, In (p, d) l -> ~ (type_at p (cv E) d (KIs 0) /\ c_p d = 1)) -> forall n,
     (real_factor E real_too | n) -> (forall p d, In (p, d) l -> (local_Tamagawa_exponent E l p | n)) -> (g | n)) /\
  (forall n, (real_factor E real_too | n) -> (forall p d, In (p, d) l -> (local_Tamagawa_exponent E l p | n)) -> (g | 2 * n)).
Proof. intros PR ND TY. exact (global_exponent_ok E l PR ND TY). Qed.
Print Assumptions C70_global_exponent_partial.

(** y^2 = x^3 + 686: all component groups are trivial and there is one real component;
    the global exponent is 2 and 2 is reported as a Tamagawa prime *)
Theorem C70_global_exponent_refuted : exists E M l N,
  curvedata_of (fun n => filter (fun p => n mod p =? 0) [2; 3; 7]) (Cv 0 0 0 0 686) false = Ok E /\
  curvered xgcd_example (fun _ _ => 1) rootsmod_example (fun n => filter (fun p => n mod p =? 0) [2; 3; 7]) E = Ok (M, l, N) /\
  map fst l = [2; 3; 7] /\ conncomp M = 1 /\
  (forall p d, In (p, d) l -> local_Tamagawa_exponent M l p = 1 /\ local_Tamagawa_number M l p = 1) /\
  global_Tamagawa_exponent M l true = Ok 2 /\ global_Tamagawa_exponent M l false = Ok 2 /\
  tamagawa_primes (fun n => filter (fun p => n mod p =? 0) [2; 3; 5; 7]) M l false = Ok [2].
Proof.
  do 4 eexists. split; [vm_compute; reflexivity|]. split; [vm_compute; reflexivity|].
  split; [reflexivity|]. split; [reflexivity|]. split; [|repeat split; vm_compute; reflexivity].
  intros p d [F|[F|[F|[]]]]; injection F as <- <-; split; reflexivity.
Qed.
Print Assumptions C70_global_exponent_refuted.

(** non-vacuity: I0* at 7 for y^2 = x^3 + 686 *)
Example C70_ex : type_at 7 (Cv 0 0 0 0 686) (Red 6 2 0 1 1) (KIs 0) /\
  is_exponent (comp_group (KIs 2) 4) 2 /\ is_exponent (comp_group (KIs 1) 4) 4.
Proof.
  split; [|split].
  - exists 0, 0, 0. split; [|reflexivity]. cbn [tate_form]. cbn [Z.eqb].
    repeat split; try (apply Z.mod_divide; [lia|vm_compute; reflexivity]);
      try (intros F; apply Z.mod_divide in F; [vm_compute in F; discriminate F|lia]).
    exists []. split; [constructor|]. split; [|reflexivity]. intros x. split; [intros []|].
    intros [B F]. unfold cubic_root in F. apply Z.mod_divide in F; [|lia].
    assert (x = 0 \/ x = 1 \/ x = 2 \/ x = 3 \/ x = 4 \/ x = 5 \/ x = 6) as K by lia.
    destruct K as [->|[->|[->|[->|[->|[->| -> ]]]]]]; vm_compute in F; discriminate F.
  - split; [lia|]. intros n. split; [intros D; repeat constructor; exact D|intros F; inversion_clear F; assumption].
  - split; [lia|]. intros n. split; [intros D; constructor; [exact D|constructor]|intros F; inversion_clear F; assumption].
Qed.
