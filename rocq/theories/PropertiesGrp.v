(** C71-C74: discrete logarithms, orders of points, linear relations and the structure
    of the group of points modulo q (pointsmod.cc). *)
From Coq Require Import ZArith Znumtheory Lia List Bool Sorted.
From Verif Require Import Base GrpModel GrpLib GrpBG GrpProofs GrpIso GrpEx ConicSpec ConicExample.
Import ListNotations.
Open Scope Z_scope.

(** ** C71: baby-step giant-step *)
(** -1 is returned only if there is no solution in the interval; another result is a
    solution; it is in the interval if that is not short, and else at most one above it *)
Theorem C71_bg_partial g P Q lower upper : is_grp g -> 0 <= lower <= upper -> exists h, bg_algorithm g P Q lower upper = Ok h /\
  (h = -1 -> forall k, lower <= k <= upper -> mul g k P <> Q) /\
  (h <> -1 -> mul g h P = Q /\ lower <= h <= upper + 1 /\ (30 <= upper - lower -> h <= upper)).
Proof.
  intros GG L. destruct (bg_ok g GG P Q lower upper L) as (h & E & H). exists h. split; [exact E|].
  destruct H as [(-> & H)|(H1 & H2 & H3)].
  - split; [intros _; exact H|contradiction].
  - split; [lia|]. intros _. auto.
Qed.
Print Assumptions C71_bg_partial.

(** a short interval: the result lies outside *)
Theorem C71_bg_refuted : exists g P Q lower upper h, is_grp g /\ 0 <= lower <= upper /\
  bg_algorithm g P Q lower upper = Ok h /\ upper < h /\ forall k, lower <= k <= upper -> mul g k P <> Q.
Proof.
  exists (zz 10 1), (mk 10 1 (1, 0)), (mk 10 1 (6, 0)), 0, 5, 6. split; [apply zz_grp|]. split; [lia|].
  split; [vm_compute; reflexivity|]. split; [lia|]. intros k K.
  assert (C : k = 0 \/ k = 1 \/ k = 2 \/ k = 3 \/ k = 4 \/ k = 5) by lia.
  destruct C as [->|[->|[->|[->|[->| -> ]]]]]; intros E; apply (f_equal (fun X => fst (proj1_sig X))) in E; vm_compute in E; discriminate E.
Qed.
Print Assumptions C71_bg_refuted.

(** non-vacuity: a long interval, with the solution in the table, at a giant step and absent *)
Example C71_ex : is_grp (zz 1009 1) /\ bg_algorithm (zz 1009 1) (mk 1009 1 (1, 0)) (mk 1009 1 (777, 0)) 100 900 = Ok 777 /\
  bg_algorithm (zz 1009 1) (mk 1009 1 (1, 0)) (mk 1009 1 (110, 0)) 100 900 = Ok 110 /\
  bg_algorithm (zz 1009 1) (mk 1009 1 (1, 0)) (mk 1009 1 (950, 0)) 100 900 = Ok (-1).
Proof. split; [apply zz_grp|]. repeat split; vm_compute; reflexivity. Qed.

(** ** C72: multiples and orders *)
Theorem C72_multiple g n P : is_grp g -> pt_mul g n P = mul g n P.
Proof. intros GG. apply (pt_mul_ok g GG). Qed.
Print Assumptions C72_multiple.

Theorem C72_order_multiple g pdivs P M : is_grp g -> pdivs_spec pdivs -> 0 < M -> mul g M P = gz g ->
  exists n, order_mult g pdivs P M = Ok n /\ is_order g P n.
Proof. intros GG PD. apply (order_mult_ok g GG pdivs PD). Qed.
Print Assumptions C72_order_multiple.

Theorem C72_order_bounds g pdivs P lower upper : is_grp g -> pdivs_spec pdivs -> 1 <= lower ->
  (exists N, lower <= N <= upper /\ mul g N P = gz g) -> exists n, order_bounds g pdivs P lower upper = Ok n /\ is_order g P n.
Proof. intros GG PD. apply (order_bounds_ok g GG pdivs PD). Qed.
Print Assumptions C72_order_bounds.

(** the Hasse interval, and the order computed from it *)
Theorem C72_hasse q : 2 <= q -> exists l u, hasse_bounds q = (l, u) /\ 1 <= l <= u /\ forall n, l <= n <= u <-> (q + 1 - n) ^ 2 <= 4 * q.
Proof. intros Q. pose proof (hasse_ok q Q) as H. destruct (hasse_bounds q) as [l u]. exists l, u. split; [reflexivity|exact H]. Qed.
Print Assumptions C72_hasse.
Theorem C72_order_point g pdivs q P : is_grp g -> pdivs_spec pdivs -> 2 <= q -> (exists N, (q + 1 - N) ^ 2 <= 4 * q /\ mul g N P = gz g) ->
  exists n, order_point g pdivs q P = Ok n /\ is_order g P n.
Proof. intros GG PD. apply (order_point_ok g GG pdivs PD). Qed.
Print Assumptions C72_order_point.

(** coprime divisors with the same least common multiple *)
Theorem C72_tidy_lcm m n : 0 < m -> 0 < n -> exists m' n', tidy_lcm m n = Ok (m', n', Z.lcm m n) /\
  0 < m' /\ 0 < n' /\ (m' | m) /\ (n' | n) /\ rel_prime m' n' /\ m' * n' = Z.lcm m n.
Proof. apply tidy_ok. Qed.
Print Assumptions C72_tidy_lcm.

(** merging two points: a point whose order is the least common multiple *)
Theorem C72_merge g pdivs q P a Q b : is_grp g -> pdivs_spec pdivs -> 2 <= q -> is_order g P a -> is_order g Q b ->
  (exists N, (q + 1 - N) ^ 2 <= 4 * q /\ mul g N Q = gz g) ->
  exists R, merge1 g pdivs q P a Q = Ok (R, Z.lcm a b) /\ is_order g R (Z.lcm a b).
Proof. intros GG PD. apply (merge1_ok g GG pdivs PD). Qed.
Print Assumptions C72_merge.

Lemma pdivs_met : pdivs_spec pdivs_example.
Proof.
  intros n N. destruct (pdivs_contract_met n N) as [S H]. split; [|exact H].
  clear - S. apply Sorted_StronglySorted in S; [|intros x y z; lia]. induction S as [|x l S IH F]; constructor; [|exact IH].
  intros I. rewrite Forall_forall in F. specialize (F x I). lia.
Qed.
Example C72_ex : is_grp (zz 60 2) /\ pdivs_spec pdivs_example /\ (103 + 1 - 120) ^ 2 <= 4 * 103 /\ mul (zz 60 2) 120 (mk 60 2 (5, 1)) = gz (zz 60 2) /\
  order_point (zz 60 2) pdivs_example 103 (mk 60 2 (5, 1)) = Ok 12 /\ hasse_bounds 103 = (84, 124) /\
  tidy_lcm 12 90 = Ok (4, 45, 180) /\
  show1 (merge1 (zz 60 2) pdivs_example 103 (mk 60 2 (15, 0)) 4 (mk 60 2 (10, 0))) = Some (35, 0, 12).
Proof.
  split; [apply zz_grp|]. split; [exact pdivs_met|]. split; [lia|].
  split; [rewrite mul_mk; apply mk_0; split; [exists 10|exists 60]; reflexivity|].
  split; [vm_compute; reflexivity|]. split; [vm_compute; reflexivity|]. split; [vm_compute; reflexivity|].
  vm_compute. reflexivity.
Qed.

(** ** C73: linear relations *)
(** the least k > 0 with k Q in <P>, if the orders are not coprime (or Q = 0) *)
Theorem C73_relation_partial g pdivs posdivs q P n Q m : is_grp g -> pdivs_spec pdivs -> posdivs_spec posdivs -> 2 <= q ->
  (exists N, (q + 1 - N) ^ 2 <= 4 * q /\ mul g N P = gz g) -> (exists N, (q + 1 - N) ^ 2 <= 4 * q /\ mul g N Q = gz g) ->
  is_order g P n -> is_order g Q m -> Z.gcd n m <> 1 \/ Q = gz g ->
  exists k a, linear_relation g pdivs posdivs q P Q = Ok (k, a) /\ 0 < k /\ mul g k Q = mul g a P /\
    forall j b, mul g j Q = mul g b P -> (k | j).
Proof. intros GG PD DV. apply (linear_relation_ok g GG pdivs posdivs PD DV). Qed.
Print Assumptions C73_relation_partial.

(** coprime orders: the result is 1 and not the order of Q *)
Theorem C73_relation_refuted : exists g q P n Q m, is_grp g /\ 2 <= q /\ card g 6 /\ (q + 1 - 6) ^ 2 <= 4 * q /\
  is_order g P n /\ is_order g Q m /\
  (forall pdivs posdivs, pdivs_spec pdivs -> posdivs_spec posdivs -> linear_relation g pdivs posdivs q P Q = Ok (1, 0)) /\
  m = 3 /\ mul g 1 Q <> mul g 0 P /\ forall j b, mul g j Q = mul g b P -> (m | j).
Proof.
  pose proof (zz_grp 6 1) as GG. pose proof (zz_card 6 1) as CC.
  assert (O1 : is_order (zz 6 1) (mk 6 1 (3, 0)) 2).
  { split; [lia|]. intros k. rewrite mul_mk_0. split; [intros [[c C] _]; exists c; lia|intros [c ->]; split; [exists c|exists 0]; lia]. }
  assert (O2 : is_order (zz 6 1) (mk 6 1 (2, 0)) 3).
  { split; [lia|]. intros k. rewrite mul_mk_0. split; [intros [[c C] _]; exists c; lia|intros [c ->]; split; [exists c|exists 0]; lia]. }
  exists (zz 6 1), 5, (mk 6 1 (3, 0)), 2, (mk 6 1 (2, 0)), 3. split; [exact GG|]. split; [lia|]. split; [exact CC|]. split; [lia|].
  split; [exact O1|]. split; [exact O2|]. split; [|split; [reflexivity|split]].
  - intros pdivs posdivs PD DV. unfold linear_relation.
    assert (HH : forall X, hasse_pt (zz 6 1) 5 X) by (intros X; exists 6; split; [lia|apply (lagrange _ GG 6 X CC)]).
    destruct (order_point_ok _ GG pdivs PD 5 (mk 6 1 (3, 0)) ltac:(lia) (HH _)) as (n & -> & ON). rewrite (order_unique _ _ n 2 ON O1).
    destruct (order_point_ok _ GG pdivs PD 5 (mk 6 1 (2, 0)) ltac:(lia) (HH _)) as (m & -> & OM). rewrite (order_unique _ _ m 3 OM O2).
    reflexivity.
  - intros E. apply (f_equal (fun X => fst (proj1_sig X))) in E. vm_compute in E. discriminate E.
  - intros j b E. rewrite !mul_mk in E. apply (f_equal (fun X => fst (proj1_sig X))) in E. cbn [mk proj1_sig fst snd] in E.
    assert (D : (6 | j * 2 - b * 3)) by (apply Z.mod_divide; [lia|]; rewrite Zminus_mod, E, Z.sub_diag; reflexivity).
    destruct D as [c C]. exists (j - b - 2 * c). lia.
Qed.
Print Assumptions C73_relation_refuted.

Example C73_ex : posdivs_spec posdivs_example /\ Z.gcd 60 4 <> 1 /\
  linear_relation (zz 60 2) pdivs_example posdivs_example 103 (mk 60 2 (1, 0)) (mk 60 2 (15, 1)) = Ok (2, 30).
Proof. split; [exact posdivs_met|]. split; [discriminate|]. vm_compute. reflexivity. Qed.

(** ** C74: the structure of the group *)
(** If the group order is computed in advance, a result is a basis *)
Theorem C74_basis_known_order g pdivs q wpo N rnd tt f1 f2 P1 n1 P2 n2 : is_grp g -> pdivs_spec pdivs -> 2 <= q ->
  weil_spec g q wpo -> card g N -> (q + 1 - N) ^ 2 <= 4 * q -> tt_spec g tt ->
  isomorphism_type g pdivs wpo rnd tt q (Some N) f1 f2 = Ok (P1, n1, P2, n2) ->
  is_basis g P1 n1 P2 n2 /\ n1 * n2 = N.
Proof.
  intros GG PD Q2 WP CN HN TT E. pose proof (iso_known g GG pdivs PD q Q2 wpo WP N CN HN rnd tt TT f1 f2 P1 n1 P2 n2 E) as B.
  split; [exact B|]. exact (basis_card g GG N P1 n1 P2 n2 CN B).
Qed.
Print Assumptions C74_basis_known_order.

(** If it is not, a result is a basis provided that the point found in the first phase
    has maximal order (its index divides gcd(n, q-1)) or the only possible index is 1 *)
Theorem C74_basis_partial g pdivs q wpo N rnd tt f1 f2 P1 n1 P2 n2 l u k P n ql : is_grp g -> pdivs_spec pdivs -> 2 <= q ->
  weil_spec g q wpo -> card g N -> (q + 1 - N) ^ 2 <= 4 * q -> tt_spec g tt ->
  hasse_bounds q = (l, u) -> iso_phase1 g pdivs rnd q l u false f1 = Ok (k, P, n, ql) ->
  (N | n * Z.gcd n (q - 1)) \/ (34 <= q /\ hd 0 ql = 1) ->
  isomorphism_type g pdivs wpo rnd tt q None f1 f2 = Ok (P1, n1, P2, n2) ->
  is_basis g P1 n1 P2 n2 /\ n1 * n2 = N.
Proof.
  intros GG PD Q2 WP CN HN TT HB E1 C E.
  assert (B : is_basis g P1 n1 P2 n2).
  { apply (iso_unknown g GG pdivs PD q Q2 wpo WP N CN HN rnd tt TT f1 f2 P1 n1 P2 n2 k P n ql); [rewrite HB; exact E1|exact C|exact E]. }
  split; [exact B|]. exact (basis_card g GG N P1 n1 P2 n2 CN B).
Qed.
Print Assumptions C74_basis_partial.

(** In general it is not: a group Z/60 x Z/2 (y^2 = x^3 + x + 11 modulo 103 is one), and
    a first phase in which all points have order dividing 30: the index is taken to be 3;
    then a point of order 60 makes it 1, and the group is declared cyclic of order 60 *)
Theorem C74_basis_refuted : exists g q rnd T, is_grp g /\ 34 <= q /\ card g 120 /\ (q + 1 - 120) ^ 2 <= 4 * q /\
  is_basis g (rnd 11%nat) 60 T 2 /\
  forall wpo tt, exists P, isomorphism_type g pdivs_example wpo rnd tt q None 10 10 = Ok (P, 60, gz g, 1).
Proof.
  exists (zz 60 2), 103, (fun k => if (k <? 11)%nat then mk 60 2 (2, 0) else mk 60 2 (1, 0)), (mk 60 2 (0, 1)).
  pose proof (zz_grp 60 2) as GG. pose proof (zz_card 60 2) as CC.
  split; [exact GG|]. split; [lia|]. split; [exact CC|]. split; [lia|]. split.
  - change (if (11 <? 11)%nat then mk 60 2 (2, 0) else mk 60 2 (1, 0)) with (mk 60 2 (1, 0)). apply (basis_of _ GG 120); [exact CC| |lia| |reflexivity|exists 30; reflexivity|].
    + split; [lia|]. intros k. rewrite mul_mk_0. split; [intros [D _]; rewrite Z.mul_1_r in D; exact D|intros D; split; [rewrite Z.mul_1_r; exact D|exists 0; lia]].
    + rewrite mul_mk. apply mk_0. split; [exists 0|exists 1]; reflexivity.
    + intros k b E. rewrite !mul_mk in E. apply (f_equal (fun X => snd (proj1_sig X))) in E. cbn [mk proj1_sig fst snd] in E.
      rewrite Z.mul_1_r, Z.mul_0_r, Z.mod_0_l in E by lia. apply Z.mod_divide; [lia|exact E].
  - intros wpo tt. destruct (show2_ok 60 2 (isomorphism_type (zz 60 2) pdivs_example wpo
      (fun k => if (k <? 11)%nat then mk 60 2 (2, 0) else mk 60 2 (1, 0)) tt 103 None 10 10) (1, 0) 60 (0, 0) 1) as (P & Q & E & EP & EQ);
      [vm_compute; reflexivity|].
    exists P. assert (EZ : Q = mk 60 2 (0, 0)) by (apply zel_eq; rewrite EQ; reflexivity). rewrite EZ in E. exact E.
Qed.
Print Assumptions C74_basis_refuted.

(** merge_points_2 does not keep the second generator independent of the first: in
    Z/4 x Z/4 (y^2 = x^3 + 5 modulo 13), P1 = (1,0), Q = (1,2) give P2 = (2,0) = 2 P1 *)
Theorem C74_independent_refuted : exists g q wpo P1 P2 Q P2', is_grp g /\ card g 16 /\ (q + 1 - 16) ^ 2 <= 4 * q /\ weil_spec g q wpo /\
  is_order g P1 4 /\ P2 = gz g /\
  merge2 g pdivs_example wpo q P1 4 P2 1 4 Q = Ok (P1, 4, P2', 2, 4) /\ P2' <> gz g /\ P2' = mul g 2 P1.
Proof.
  exists (zz 4 4), 13, (weil_example 4), (mk 4 4 (1, 0)), (gz (zz 4 4)), (mk 4 4 (1, 2)), (mk 4 4 (2, 0)).
  split; [apply zz_grp|]. split; [exact (zz_card 4 4)|]. split; [lia|]. split; [apply weil_met|]. split.
  { split; [lia|]. intros k. rewrite mul_mk_0. split; [intros [D _]; rewrite Z.mul_1_r in D; exact D|intros D; split; [rewrite Z.mul_1_r; exact D|exists 0; lia]]. }
  split; [reflexivity|]. split; [|split].
  - assert (E : show3 (merge2 (zz 4 4) pdivs_example (weil_example 4) 13 (mk 4 4 (1, 0)) 4 (gz (zz 4 4)) 1 4 (mk 4 4 (1, 2))) =
      Some (1, 0, 4, (2, 0), 2, 4)) by (vm_compute; reflexivity).
    destruct (merge2 (zz 4 4) pdivs_example (weil_example 4) 13 (mk 4 4 (1, 0)) 4 (gz (zz 4 4)) 1 4 (mk 4 4 (1, 2))) as [[[[[P n] R] m] t]| | |]; try discriminate E.
    cbn [show3] in E. injection E as E1 -> E2 -> ->. repeat f_equal; apply zel_eq; rewrite ?E1, ?E2; reflexivity.
  - intros F. apply mk_0 in F as [[c C] _]. lia.
  - rewrite mul_mk. reflexivity.
Qed.
Print Assumptions C74_independent_refuted.

(** non-vacuity: a run on Z/4 x Z/4 that passes through that state and ends with a basis,
    and one on Z/60 x Z/2 *)
Example C74_ex : weil_spec (zz 4 4) 13 (weil_example 4) /\ tt_spec (zz 4 4) (tt_example 4 4) /\
  show2 (isomorphism_type (zz 4 4) pdivs_example (weil_example 4)
     (fun k => if (k <? 11)%nat then mk 4 4 (1, 0) else if (k =? 11)%nat then mk 4 4 (1, 2) else mk 4 4 (3, 1))
     (fun _ => None) 13 (Some 16) 10 10) = Some (1, 0, 4, (3, 1), 4) /\
  show2 (isomorphism_type (zz 60 2) pdivs_example (fun _ _ _ => 1) (fun _ => mk 60 2 (1, 1)) (tt_example 60 2) 103 None 10 10) =
     Some (1, 1, 60, (0, 1), 2) /\ (120 | 60 * Z.gcd 60 (103 - 1)).
Proof.
  split; [apply weil_met|]. split; [apply tt_met|]. split; [vm_compute; reflexivity|].
  split; [vm_compute; reflexivity|]. exists 3. reflexivity.
Qed.
