(** C75-C77: component groups, the subgroup of points of everywhere good reduction and
    its index (egr.cc). *)
From Coq Require Import ZArith Znumtheory Lia List Bool.
From Verif Require Import Base MArithModel CurveModel TateModel TateSpec TamModel TamProofs PropertiesMArith PropertiesTate GrpModel GrpLib GrpEx EgrModel EgrSpec EgrImage EgrProofs EgrGood EgrIndex EgrTam.
Import ListNotations.
Open Scope Z_scope.

(** ** C75: the structure of the component group *)
(** the group returned is the component group of the reduction type, except exactly for
    type I*m, m even, with Tamagawa number 1 or 2; it always contains it *)
Theorem C75_component_group_partial E l : (forall p d, In (p, d) l -> prime p) -> NoDup (map fst l) ->
  (forall p d K, In (p, d) l -> type_at p (cv E) d K ->
     (ComponentGroup E l p = comp_group K (c_p d) <-> ~ exists m, K = KIs m /\ Z.even m = true /\ c_p d <> 4) /\
     (forall g good im, component_map g good im (comp_group K (c_p d)) -> component_map g good im (ComponentGroup E l p))) /\
  (forall p, ~ In p (map fst l) -> p <> 0 -> ComponentGroup E l p = [1]) /\
  ComponentGroup E l 0 = [conncomp E].
Proof.
  intros PR ND. split; [|split].
  - intros p d K I T. split; [exact (cgroup_ok E l PR ND p d K I T)|]. intros g good im. exact (cgroup_embeds E l PR ND g good im p d K I T).
  - intros p N P0. unfold ComponentGroup. destruct (Z.eqb_spec p 0); [contradiction|]. rewrite (red_find_none l p N). reflexivity.
  - reflexivity.
Qed.
Print Assumptions C75_component_group_partial.

(** y^2 = x^3 + 686 at 7: type I0*, one component is rational, the result is [2,2] *)
Theorem C75_component_group_refuted : exists E M l N,
  curvedata_of (fun n => filter (fun p => n mod p =? 0) [2; 3; 7]) (Cv 0 0 0 0 686) false = Ok E /\
  curvered xgcd_example (fun _ _ => 1) rootsmod_example (fun n => filter (fun p => n mod p =? 0) [2; 3; 7]) E = Ok (M, l, N) /\
  local_Tamagawa_number M l 7 = 1 /\ ComponentGroup M l 7 = [2; 2].
Proof.
  do 4 eexists. split; [vm_compute; reflexivity|]. split; [vm_compute; reflexivity|]. split; reflexivity.
Qed.
Print Assumptions C75_component_group_refuted.

(** non-vacuity: the exception is met and is not the only case *)
Example C75_ex : comp_group (KIs 0) 1 = [1] /\ comp_group (KIs 2) 4 = [2; 2] /\ comp_group (KIs 1) 4 = [4] /\ comp_group (KI 6) 6 = [6] /\
  (exists m, KIs 0 = KIs m /\ Z.even m = true /\ 1 <> 4) /\ ~ (exists m, KIs 1 = KIs m /\ Z.even m = true /\ 2 <> 4).
Proof.
  repeat split; try reflexivity.
  - exists 0. repeat split; discriminate.
  - intros (m & F & EV & _). injection F as <-. discriminate EV.
Qed.

(** ** C76: the subgroup of points with everywhere good reduction *)
Theorem C76_order g good im cg p P : is_grp g -> component_map g (good p) (im p) (cg p) ->
  let o := OrderInComponentGroup g good im P p (cg p) in 1 <= o /\ forall k, good p (mul g k P) = true <-> (o | k).
Proof.
  intros GG CM. destruct CM as [(n & phi & EC & N & H & GP & IM)|(f1 & f2 & EC & H1 & H2 & GP)]; rewrite EC; cbv zeta.
  - destruct (ord_spec g GG good im p n phi N H GP IM P) as (A & _ & B). split; [exact A|exact B].
  - unfold OrderInComponentGroup. pose proof (good_par g good p f1 f2 GP) as K. split; [destruct (good p P); lia|]. intros k.
    rewrite (K (mul g k P)), (par_mul g GG f1 f2 H1 H2), (K P). destruct (beq2 (par g f1 f2 P) (false, false)) eqn:B.
    + apply beq2_ok in B. rewrite B. split; [intros _; apply Z.divide_1_l|destruct (Z.odd k); reflexivity].
    + rewrite odd_div. destruct (Z.odd k); [rewrite B; split; intros F; discriminate F|split; reflexivity].
Qed.
Print Assumptions C76_order.

Theorem C76_one_prime g good im cg L p : is_grp g -> component_map g (good p) (im p) (cg p) -> (forall n, cg p = [n] -> n * n <= max32) ->
  exists L' m, gr1prime g good im cg L p = Ok (L', m) /\ length L' = length L /\
  (forall X, span g L' X <-> span g L X /\ good p X = true) /\ index_is g (span g L) (fun X => span g L X /\ good p X = true) m.
Proof. intros GG CM NM. exact (gr1prime_ok g GG good im cg L p (conj CM NM)). Qed.
Print Assumptions C76_one_prime.

Theorem C76_all_primes g good im cg L ps : is_grp g -> (forall p, In p ps -> component_map g (good p) (im p) (cg p) /\ forall n, cg p = [n] -> n * n <= max32) ->
  exists L' N, grprimes g good im cg L ps = Ok (L', N) /\ length L' = length L /\
  (forall X, span g L' X <-> span g L X /\ forall p, In p ps -> good p X = true) /\
  index_is g (span g L) (fun X => span g L X /\ forall p, In p ps -> good p X = true) N.
Proof. intros GG H. exact (grprimes_ok g GG good im cg ps L H). Qed.
Print Assumptions C76_all_primes.

Theorem C76_egr_subgroup g good im cg bad conncomp L real_too : is_grp g ->
  let ps := if real_too && (conncomp =? 2) then bad ++ [0] else bad in
  (forall p, In p ps -> component_map g (good p) (im p) (cg p) /\ forall n, cg p = [n] -> n * n <= max32) ->
  exists L' N, egr_subgroup g good im cg bad conncomp L real_too = Ok (L', N) /\ length L' = length L /\
  (forall X, span g L' X <-> span g L X /\ forall p, In p ps -> good p X = true) /\
  index_is g (span g L) (fun X => span g L X /\ forall p, In p ps -> good p X = true) N.
Proof. intros GG ps H. exact (egr_subgroup_ok g GG good im cg bad conncomp real_too L H). Qed.
Print Assumptions C76_egr_subgroup.

(** non-vacuity: Z/12 x Z/6 with component groups Z/6 (prime 5) and Z/2 x Z/2 (prime 7) *)
Definition g76 := zz 12 6.
Definition good76 (p : Z) (X : el g76) : bool :=
  if p =? 5 then (fst (proj1_sig X) + 2 * snd (proj1_sig X)) mod 6 =? 0 else (fst (proj1_sig X) mod 2 =? 0) && (snd (proj1_sig X) mod 2 =? 0).
Definition cg76 (p : Z) : list Z := if p =? 5 then [6] else [2; 2].
Example C76_ex : is_grp g76 /\ (forall p, In p [5; 7] -> component_map g76 (good76 p) (fun n X => fst (proj1_sig X) + 2 * snd (proj1_sig X)) (cg76 p) /\ forall n, cg76 p = [n] -> n * n <= max32) /\
  match egr_subgroup g76 good76 (fun _ n X => fst (proj1_sig X) + 2 * snd (proj1_sig X)) cg76 [5; 7] 1 [mk 12 6 (3, 0); mk 12 6 (2, 1); mk 12 6 (3, 3)] true with Ok (L', N) => (map (@proj1_sig _ _) L', N) | _ => ([], 0) end = ([(0, 0); (6, 0); (0, 0)], 12).
Proof.
  split; [apply zz_grp|]. split.
  - intros p [<-|[<-|[]]].
    + split; [|intros n E; injection E as <-; discriminate]. left. exists 6, (fun X => fst (proj1_sig X) + 2 * snd (proj1_sig X)). split; [reflexivity|]. split; [lia|]. split; [|split].
      * intros X Y. pose proof (zz_fst 12 6 6 ltac:(exists 2; reflexivity) X Y) as [a A]. pose proof (zz_snd 12 6 6 ltac:(exists 1; reflexivity) X Y) as [b B]. cbv beta in A, B |- *. exists (a + 2 * b). unfold g76 in *. lia.
      * intros X. apply mod_div. lia.
      * intros _ X. rewrite Z.sub_diag. apply Z.divide_0_r.
    + split; [|intros n E; discriminate E]. right. exists (fun X => fst (proj1_sig X)), (fun X => snd (proj1_sig X)). split; [reflexivity|].
      split; [apply zz_fst; exists 6; reflexivity|]. split; [apply zz_snd; exists 3; reflexivity|].
      intros X. unfold good76. cbn [Z.eqb Pos.eqb]. rewrite andb_true_iff, !mod_div by lia. reflexivity.
  - vm_compute. reflexivity.
Qed.

(** ** C77: the index from the images in the component groups *)
(** the order of the image of the component map *)
Theorem C77_comp_map_image moduli rows : (forall j, (j < length moduli)%nat -> 1 <= nth j moduli 0) -> (forall r, In r rows -> length r = length moduli) ->
  exists N, comp_map_image moduli rows = Ok N /\ image_order moduli rows N.
Proof. apply comp_map_image_ok. Qed.
Print Assumptions C77_comp_map_image.

(** The claim "egr_index is the index of the points of good reduction at all primes"
    holds when, at the primes with cyclic component group of order 3 or 4, the points
    whose images generate that group all lie in one component *)
Theorem C77_index_partial g good im cg L ps : is_grp g ->
  (forall p, In p ps -> component_map g (good p) (im p) (cg p)) ->
  (forall p n, In p ps -> cg p = [n] -> n = 3 \/ n = 4 -> forall P Q, In P L -> In Q L ->
     good p (mul g 2 P) = false -> good p (mul g 2 Q) = false -> good p (gadd g P (gneg g Q)) = true) ->
  exists N, egr_index g good im cg L ps = Ok N /\ index_is g (span g L) (fun X => span g L X /\ forall p, In p ps -> good p X = true) N.
Proof.
  intros GG CM SA. apply (egr_index_ok g GG good im cg L ps). intros p I. split; [apply CM, I|]. intros n EC N34. apply (SA p n I EC N34).
Qed.
Print Assumptions C77_index_partial.

(** Z/3 x Z/3 with the two projections as component maps: the images of (1,1) and (1,2)
    are computed up to sign at each prime; the index is 9, the result 3 *)
Definition good77 (p : Z) (X : el (zz 3 3)) : bool := if p =? 5 then fst (proj1_sig X) mod 3 =? 0 else snd (proj1_sig X) mod 3 =? 0.
Lemma map77 p : In p [5; 7] -> component_map (zz 3 3) (good77 p) (fun _ _ => 0) [3].
Proof.
  intros [<-|[<-|[]]]; left.
  - exists 3, (fun X => fst (proj1_sig X)). split; [reflexivity|]. split; [lia|]. split; [apply zz_fst; exists 1; reflexivity|]. split; [intros X; apply mod_div; lia|lia].
  - exists 3, (fun X => snd (proj1_sig X)). split; [reflexivity|]. split; [lia|]. split; [apply zz_snd; exists 1; reflexivity|]. split; [intros X; apply mod_div; lia|lia].
Qed.
Theorem C77_index_refuted : exists g good im cg L ps, is_grp g /\ (forall p, In p ps -> component_map g (good p) (im p) (cg p)) /\
  egr_index g good im cg L ps = Ok 3 /\
  index_is g (span g L) (fun X => span g L X /\ forall p, In p ps -> good p X = true) 9 /\
  ~ index_is g (span g L) (fun X => span g L X /\ forall p, In p ps -> good p X = true) 3.
Proof.
  exists (zz 3 3), good77, (fun _ _ _ => 0), (fun _ => [3]), [mk 3 3 (1, 1); mk 3 3 (1, 2)], [5; 7].
  assert (CO : forall p, In p [5; 7] -> comp_ok (zz 3 3) good77 (fun _ _ _ => 0) (fun _ => [3]) p) by (intros p I; split; [apply map77, I|intros n E; injection E as <-; discriminate]).
  split; [apply zz_grp|]. split; [exact map77|]. split; [vm_compute; reflexivity|].
  destruct (grprimes_ok (zz 3 3) (zz_grp 3 3) good77 (fun _ _ _ => 0) (fun _ => [3]) [5; 7] [mk 3 3 (1, 1); mk 3 3 (1, 2)] CO) as (L' & N & E & _ & _ & ID).
  assert (N9 : N = 9) by (vm_compute in E; congruence). subst N. split; [exact ID|]. intros ID3.
  assert (F : 9 = 3); [|discriminate F]. refine (idx_unique (zz 3 3) (zz_grp 3 3) _ _ 9 3 _ ID ID3).
  apply (sub_and (zz 3 3)); [apply (span_sub _ (zz_grp 3 3))|]. exact (all_good_sub (zz 3 3) (zz_grp 3 3) good77 (fun _ _ _ => 0) (fun _ => [3]) [5; 7] CO).
Qed.
Print Assumptions C77_index_refuted.

(** non-vacuity: an image of order 24 in Z/4 x Z/6 x Z/2; the groups of C76_ex *)
Example C77_ex : (forall j, (j < length [4; 6; 2])%nat -> 1 <= nth j [4; 6; 2] 0) /\ comp_map_image [4; 6; 2] [[1; 2; 0]; [2; 3; 1]; [0; 3; 1]] = Ok 24 /\
  egr_index g76 good76 (fun _ n X => fst (proj1_sig X) + 2 * snd (proj1_sig X)) cg76 [mk 12 6 (3, 0); mk 12 6 (2, 1); mk 12 6 (3, 3)] [5; 7] = Ok 12 /\
  (forall p n, In p [5; 7] -> cg76 p = [n] -> ~ (n = 3 \/ n = 4)).
Proof.
  split; [intros [|[|[|j]]] J; cbn in *; lia|]. split; [vm_compute; reflexivity|]. split; [vm_compute; reflexivity|].
  intros p n [<-|[<-|[]]] E; [injection E as <-; lia|discriminate E].
Qed.
