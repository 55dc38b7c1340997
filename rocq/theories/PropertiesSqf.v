(** C62: the subgroup and the representatives of classes modulo squares (class sqfdiv), and
    the numbers of classes (makenum, makeindex). *)
From Coq Require Import ZArith Znumtheory Lia List Bool.
From Verif Require Import Base RatModel LinModel BitModel SqfModel SqfSpec SqfEnd SqfIndex SqfLast.
Import ListNotations.
Open Scope Z_scope.
Open Scope res_scope.

(** After any sequence of usediv on elements of the group generated by -1 and the primes
    dividing dd: subgp is a set of representatives of the subgroup generated, getdivs one of
    the cosets, each class being a product in exactly one way. *)
Theorem C62_subgroup_partial ps dd posd es : Forall prime ps -> NoDup ps -> (length (divprimes ps dd) <= 29)%nat -> Forall (ingroup ps dd) es -> exists s l,
  sq_run dd posd ps es = Ok s /\ sq_divs ps s = Ok l /\ NoDup (sq_subgp s) /\ NoDup l /\
  (forall x, In x (sq_subgp s) \/ In x l -> exists bs, length bs = length (-1 :: divprimes ps dd) /\ x = cprod bs (-1 :: divprimes ps dd)) /\
  (forall n, ingroup ps dd n -> ((exists x, In x (sq_subgp s) /\ sqclass n x) <-> sgen ((if posd then [-1] else []) ++ es) n)) /\
  (forall n, ingroup ps dd n -> exists x y, In x (sq_subgp s) /\ In y l /\ sqclass n (x * y) /\
     forall x' y', In x' (sq_subgp s) -> In y' l -> sqclass n (x' * y') -> x' = x /\ y' = y) /\
  Z.of_nat (length (sq_subgp s)) = 2 ^ (sq_factor s + if posd then 1 else 0) /\ (length (sq_subgp s) * length l = 2 ^ S (length (divprimes ps dd)))%nat.
Proof. intros F N. exact (sq_main ps dd (conj F N) posd es). Qed.
(** getsupp gives generators of the list of getdivs. *)
Theorem C62_support_partial ps dd posd es s : Forall prime ps -> NoDup ps -> (length (divprimes ps dd) <= 29)%nat -> Forall (ingroup ps dd) es -> sq_run dd posd ps es = Ok s -> exists l sp,
  sq_divs ps s = Ok l /\ sq_supp ps s false = Ok sp /\ (forall n, In n l <-> exists bs, length bs = length sp /\ n = cprod bs sp) /\
  NoDup sp /\ incl sp (-1 :: divprimes ps dd) /\ sq_supp ps s true = Ok (-1 :: divprimes ps (sq_d s)) /\ sp = (if sq_pos s then [] else [-1]) ++ divprimes ps (sq_d s).
Proof. intros F N. exact (supp_main ps dd (conj F N) posd es s). Qed.
(** The number of a class, and the class of a number. *)
Theorem C62_index_partial supp n : Forall signprime supp -> NoDup supp -> (length supp <= 32)%nat -> n <> 0 -> exists ix n0,
  makeindex supp n = Ok (ix, Some n0) /\ makenum supp ix = Ok n0 /\ (forall p, In p supp -> prime p -> ((p | n0) <-> oddpow p n)) /\ (n0 < 0 <-> n < 0 /\ In (-1) supp) /\
  (exists bs, length bs = length supp /\ n0 = cprod bs supp) /\ (sgen supp n -> sqclass n n0).
Proof. exact (index_main supp n). Qed.
Theorem C62_makenum_partial supp m : Forall signprime supp -> NoDup supp -> (length supp <= 32)%nat ->
  makenum supp m = Ok (cprod (map (fun i => Z.testbit m (Z.of_nat i)) (seq 0 (length supp))) supp).
Proof. exact (makenum_main supp m). Qed.
Theorem C62_sqfmul a b : a <> 0 -> b <> 0 -> exists c, sqfmul a b = Ok c /\ a * b = c * Z.gcd a b ^ 2.
Proof. exact (sqfmul_main a b). Qed.
(** Beyond these sizes: with 30 primes dividing dd the constructor throws, and makenum on
    more than 32 entries is undefined. *)
Theorem C62_wide_refuted : (exists ps dd, Forall prime ps /\ NoDup ps /\ length (divprimes ps dd) = 30%nat /\ forall posd, sq_new dd posd ps = Die) /\
  (forall supp m, Forall signprime supp -> NoDup supp -> (32 < length supp)%nat -> makenum supp m = UB).
Proof.
  split; [|intros supp m F N; exact (makenum_wide supp F N m)]. set (ps := [2; 3; 5; 7; 11; 13; 17; 19; 23; 29; 31; 37; 41; 43; 47; 53; 59; 61; 67; 71; 73; 79; 83; 89; 97; 101; 103; 107; 109; 113]).
  assert (F : Forall prime ps) by (unfold ps; repeat (constructor; [apply prime_check; [lia|vm_compute; reflexivity]|]); constructor).
  exists ps, (fold_right Z.mul 1 ps). split; auto. split; [unfold ps; repeat (constructor; [cbn; lia|]); constructor|]. split; [vm_compute; reflexivity|]. intros posd. apply new_wide; auto.
Qed.
(** An element with a prime of the base not dividing dd is never recorded as a generator,
    and is added again each time until the array overflows. *)
Theorem C62_outside_refuted : exists ps dd e s, Forall prime ps /\ NoDup ps /\ sq_run dd false ps [e; e] = Ok s /\ ~ NoDup (sq_subgp s) /\ sq_gens s = [] /\ sq_run dd false ps [e; e; e] = UB.
Proof.
  exists [2; 3], 2, 3. eexists. split; [repeat (constructor; [apply prime_check; [lia|vm_compute; reflexivity]|]); constructor|]. split; [repeat (constructor; [cbn; lia|]); constructor|]. split; [vm_compute; reflexivity|]. split; [|split; vm_compute; reflexivity].
  cbn [sq_subgp]. intros N. inversion N as [|? ? Q _]; subst. apply Q. cbn. auto.
Qed.
Print Assumptions C62_subgroup_partial.
Print Assumptions C62_support_partial.
Print Assumptions C62_index_partial.
Print Assumptions C62_makenum_partial.
Print Assumptions C62_sqfmul.
Print Assumptions C62_wide_refuted.
Print Assumptions C62_outside_refuted.

(** The base -1, 2, 3, 5, 7 with dd = 30; 6, -15 and their product -10 (times 9). *)
Example ex_group : Forall (ingroup [2; 3; 5; 7] 30) [6; -15; -90].
Proof.
  assert (forall n bs, n <> 0 -> length bs = 4%nat -> (exists x, x <> 0 /\ n = cprod bs [-1; 2; 3; 5] * x ^ 2) -> ingroup [2; 3; 5; 7] 30 n) as G.
  { intros n bs Hn L (x & Hx & E). split; auto. exists bs. split; auto. exists 1, x. split; [lia|]. split; auto. change (divprimes [2; 3; 5; 7] 30) with [2; 3; 5]. rewrite E. ring. }
  constructor; [|constructor; [|constructor; [|constructor]]].
  - apply (G _ [false; true; true; false]); [lia|auto|exists 1; split; [lia|reflexivity]].
  - apply (G _ [true; false; true; true]); [lia|auto|exists 1; split; [lia|reflexivity]].
  - apply (G _ [true; true; false; true]); [lia|auto|exists 3; split; [lia|reflexivity]].
Qed.
Example ex_sqf : match sq_run 30 false [2; 3; 5; 7] [6; -15; -90] with
  | Ok s => sq_subgp s = [1; 6; -10; -15] /\ sq_gens s = [6; -10] /\ sq_factor s = 2 /\ sq_divs [2; 3; 5; 7] s = Ok [1; -1; 2; -2] /\ sq_supp [2; 3; 5; 7] s false = Ok [-1; 2]
  | _ => False end.
Proof. vm_compute. repeat split; reflexivity. Qed.
Example ex_index : makeindex [-1; 2; 3; 5] (-360) = Ok (11, Some (-10)) /\ makenum [-1; 2; 3; 5] 11 = Ok (-10).
Proof. split; vm_compute; reflexivity. Qed.
