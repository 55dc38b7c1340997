(** C63: lifting sparse matrices from F_p to Q.
    [rep c m nr nc e]: the sparse matrix m has nr rows and nc columns, positions increase in
    each row and the value at (i,j) is e i j, 0 when not stored; if c, no stored value is 0. *)
From Coq Require Import ZArith Znumtheory Lia List Bool.
From Verif Require Import Base ArithModel ArithProofs XModModel LinModel LinSpec LinProofs LinAlg LinElim LinKer EchModel SvecModel SmatModel SmatProofs SmatMat SmatArith LiftModel LiftProofs.
Import ListNotations.
Open Scope Z_scope.

(** int with 2p < 2^31, long with p <= 2^31 (and p^2 < 2^63) *)
Definition lift_scalars (S : scal) (D : Z -> Prop) (p : Z) : Prop :=
  (S = sc_int /\ D = sym32 /\ 2 * p <= max32) \/ (S = sc_long /\ D = sym64 /\ p <= 2 ^ 31).
(** If the matrix is the reduction of a rational matrix num/den with numerators and denominators
    below sqrt(p/2), and a common denominator DD < p for which the integral matrix DD * num/den
    has entries below p/2, then liftmat finds that rational matrix: m / dd = num / den. *)
Theorem C63_liftmat_partial S D p : lift_scalars S D p -> prime p ->
  forall (c c0 : Prop) mm m0 nr nc nr0 nc0 e e0 (num den : nat -> nat -> Z) DD,
  rep c mm nr nc e -> rep c0 m0 nr0 nc0 e0 -> (forall i j, (i < nr)%nat -> (j < nc)%nat -> D (e i j)) ->
  (forall i j, (i < nr)%nat -> (j < nc)%nat -> 0 < den i j /\ 2 * num i j ^ 2 < p /\ 2 * den i j ^ 2 <= p /\ (p | num i j - e i j * den i j)) ->
  0 < DD < p -> (forall i j, (i < nr)%nat -> (j < nc)%nat -> (den i j | DD) /\ 2 * Z.abs (num i j * (DD / den i j)) < p) ->
  exists m dd e', sm_liftmat S mm p m0 = Ok (true, m, dd) /\ 0 < dd /\ (dd | DD) /\ rep True m nr nc e' /\
    forall i j, (i < nr)%nat -> (j < nc)%nat -> e' i j * den i j = num i j * dd.
Proof.
  intros HS P c c0 mm m0 nr nc nr0 nc0 e e0 num den DD R R0 HD HF HDD HB. pose proof (prime_ge_2 _ P) as P2.
  assert (L : liftok S p) by (destruct HS as [(-> & _ & H)|(-> & _ & H)]; [apply liftok_int; lia|apply liftok_long; lia]).
  assert (M : LinElim.modok S D p). { destruct HS as [(-> & -> & H)|(-> & -> & H)]; [apply modok_int; auto|apply modok_long; auto]. change (2 ^ 31) with 2147483648 in H. unfold max64. nia. }
  apply (liftmat_ok S D p M L c c0 mm m0 nr nc nr0 nc0 e e0 num den DD); auto.
  intros i j Hi Hj. destruct (HF i j Hi Hj) as (A1 & A2 & A3 & A4). destruct (HB i j Hi Hj) as (B1 & B2). split; [|split; [auto|]].
  - split; [auto|]. split; [lia|]. split; [lia|auto].
  - rewrite Z.abs_mul in B2. rewrite (Z.abs_eq (DD / den i j)) in B2 by (apply Z.div_pos; lia). lia.
Qed.

(** the flag returned says whether every entry is a fraction with numerator and denominator
    below sqrt(p/2) *)
Theorem C63_flag S D p : lift_scalars S D p -> prime p ->
  forall (c c0 : Prop) mm m0 nr nc nr0 nc0 e e0 ok m dd,
  rep c mm nr nc e -> rep c0 m0 nr0 nc0 e0 -> (forall i j, (i < nr)%nat -> (j < nc)%nat -> D (e i j)) -> sm_liftmat S mm p m0 = Ok (ok, m, dd) ->
  (ok = true <-> forall i j, (i < nr)%nat -> (j < nc)%nat -> exists n d, d <> 0 /\ 2 * n ^ 2 <= p /\ 2 * d ^ 2 <= p /\ (p | n - e i j * d)).
Proof.
  intros HS P c c0 mm m0 nr nc nr0 nc0 e e0 ok m dd R R0 HD E. pose proof (prime_ge_2 _ P) as P2.
  assert (L : liftok S p) by (destruct HS as [(-> & _ & H)|(-> & _ & H)]; [apply liftok_int; lia|apply liftok_long; lia]).
  assert (M : LinElim.modok S D p). { destruct HS as [(-> & -> & H)|(-> & -> & H)]; [apply modok_int; auto|apply modok_long; auto]. change (2 ^ 31) with 2147483648 in H. unfold max64. nia. }
  rewrite (liftmat_flag S D p M L c c0 mm m0 nr nc nr0 nc0 e e0 ok m dd R R0 HD E). unfold wfrac.
  split; intros K i j Hi Hj; destruct (K i j Hi Hj) as (n & d & K1 & K2 & K3 & K4); exists n, d; (split; [auto|]); (split; [lia|]); (split; [lia|auto]).
Qed.
Example flag_ex : prime 7 /\ exists m, sm_liftmat sc_long (Sm 1 [Rw [Some 1; Some 1] [Some 2]]) 7 (sm_new 0 0) = Ok (false, m, 1).
Proof. split; [apply prime_intro; [lia|]; intros n Hn; assert (n = 1 \/ n = 2 \/ n = 3 \/ n = 4 \/ n = 5 \/ n = 6) as [->|[->|[->|[->|[->| ->]]]]] by lia; apply Zgcd_1_rel_prime; reflexivity|]. eexists. vm_compute. reflexivity. Qed.

(** a one-row sparse matrix *)
Definition row_of (l : list Z) : smat := match sm_of_mat (Mt 1 (length l) l) with Ok m => m | _ => sm_new 0 0 end.
(** the values of row 0, or [] *)
Definition row_vals (r : res (bool * smat * Z)) : res (bool * list Z * Z) :=
  bind r (fun '(ok, m, dd) => bind (sm_vals m) (fun vs => Ok (ok, vs, dd))).
Example lift_ex : row_vals (sm_liftmat sc_long (row_of [536870895; 1; 715827860]) 1073741789 (sm_new 0 0)) = Ok (true, [3; 6; 4], 6).
Proof. vm_compute. reflexivity. Qed.
(** the hypotheses hold for this matrix: 1/2, 1, 2/3 modulo 2^30 - 35 *)
Example lift_ex_hyp : exists e, rep True (row_of [536870895; 1; 715827860]) 1 3 e /\ rep True (sm_new 0 0) 0 0 e /\
  (let num := fun _ j => nth j [1; 1; 2] 0 in let den := fun _ j => nth j [2; 1; 3] 1 in
   forall i j, (i < 1)%nat -> (j < 3)%nat -> sym64 (e i j) /\ 0 < den i j /\ 2 * num i j ^ 2 < 1073741789 /\ 2 * den i j ^ 2 <= 1073741789 /\ (1073741789 | num i j - e i j * den i j) /\
     (den i j | 6) /\ 2 * Z.abs (num i j * (6 / den i j)) < 1073741789).
Proof.
  destruct (sm_of_mat_ok True (Mt 1 3 [536870895; 1; 715827860]) 1 3) as (m & E & R); [split; [reflexivity|split; reflexivity]|].
  exists (me (Mt 1 3 [536870895; 1; 715827860])). split; [unfold row_of; cbn [length]; rewrite E; exact R|]. split; [split; [reflexivity|split; [reflexivity|intros i Hi; lia]]|].
  intros num den i j Hi Hj. subst num den. assert (i = 0%nat) by lia. subst i. unfold sym64, max64. 
  destruct j as [|[|[|j]]]; [..|lia]; cbn [nth];
  (split; [vm_compute; congruence|]); (split; [lia|]); (split; [lia|]); (split; [lia|]); (split; [|split; [|vm_compute; reflexivity]]).
  - exists (-1). vm_compute. reflexivity.
  - exists 3. reflexivity.
  - exists 0. vm_compute. reflexivity.
  - exists 6. reflexivity.
  - exists (-2). vm_compute. reflexivity.
  - exists 2. reflexivity.
Qed.

(** without the condition on the common denominator success is reported for a wrong lift:
    6/7, 6/5, 5/6 modulo 101 *)
Theorem C63_liftmat_refuted : exists l num den l' dd,
  length num = length l /\ length den = length l /\
  (forall j, (j < length l)%nat -> 0 < nth j den 1 /\ 2 * nth j num 0 ^ 2 < 101 /\ 2 * nth j den 1 ^ 2 <= 101 /\ (101 | nth j num 0 - nth j l 0 * nth j den 1)) /\
  row_vals (sm_liftmat sc_long (row_of l) 101 (sm_new 0 0)) = Ok (true, l', dd) /\
  nth 0 l' 0 * nth 0 den 1 <> nth 0 num 0 * dd.
Proof.
  exists [-28; -19; -16], [6; 6; 5], [7; 5; 6]. eexists. eexists. split; [reflexivity|]. split; [reflexivity|]. split; [|split; [vm_compute; reflexivity|vm_compute; congruence]].
  intros j Hj. cbn [length] in Hj. destruct j as [|[|[|j]]]; [..|lia]; cbn [nth]; (split; [lia|]); (split; [lia|]); (split; [lia|]); [exists 2|exists 1|exists 1]; reflexivity.
Qed.
(** the common denominator can overflow: five entries 1/d modulo 2^30 - 35 *)
Definition inv_mod (d : Z) : Z := match invmod_long d 1073741789 with Ok x => x | _ => 0 end.
Theorem C63_overflow_refuted : exists l den, length den = length l /\
  (forall j, (j < length l)%nat -> 0 < nth j den 1 /\ 2 * nth j den 1 ^ 2 <= 1073741789 /\ (1073741789 | 1 - nth j l 0 * nth j den 1)) /\
  sm_liftmat sc_long (row_of l) 1073741789 (sm_new 0 0) = UB.
Proof.
  exists (map inv_mod [23003; 23011; 23017; 23021; 23027]), [23003; 23011; 23017; 23021; 23027]. split; [reflexivity|]. split; [|vm_compute; reflexivity].
  intros j Hj. rewrite map_length in Hj. cbn [length] in Hj. destruct j as [|[|[|[|[|j]]]]]; [..|lia]; cbn [nth map]; (split; [lia|]); (split; [lia|]); apply Z.mod_divide; try lia; vm_compute; reflexivity.
Qed.
(** liftmats_chinese divides the common denominator by the last one: 1/2 modulo 101 and 103 *)
Definition lists_of (r : res (bool * list smap * Z)) : res (bool * list Z * Z) := bind r (fun '(ok, m, dd) => Ok (ok, concat (map (map snd) m), dd)).
Theorem C63_chinese_refuted : exists x y dd,
  lists_of (sm_liftchin sc_long bezout_long (row_of [51]) 101 (row_of [52]) 103) = Ok (true, [x], dd) /\
  (101 | 1 - 51 * 2) /\ (103 | 1 - 52 * 2) /\ y = dd * 1 /\ x * 2 <> y /\ ~ (101 | x - dd * 51).
Proof.
  eexists. eexists. eexists. split; [vm_compute; reflexivity|]. split; [exists (-1); reflexivity|]. split; [exists (-1); reflexivity|]. split; [reflexivity|]. split; [vm_compute; congruence|].
  intros Q. apply Z.mod_divide in Q; [|lia]. vm_compute in Q. discriminate.
Qed.
(** and for the primes of the size used, modrat overflows on every entry *)
Theorem C63_chinese_overflow_refuted : sm_liftchin sc_long bezout_long (row_of [1]) 1073741789 (row_of [1]) 1073741783 = UB.
Proof. vm_compute. reflexivity. Qed.
(** when the last entry is an integer the result is right *)
Example chinese_ex : lists_of (sm_liftchin sc_long bezout_long (row_of [51; 3]) 101 (row_of [52; 3]) 103) = Ok (true, [1; 6], 2).
Proof. vm_compute. reflexivity. Qed.
Print Assumptions C63_liftmat_partial.
Print Assumptions C63_flag.
Print Assumptions C63_liftmat_refuted.
Print Assumptions C63_overflow_refuted.
Print Assumptions C63_chinese_refuted.
Print Assumptions C63_chinese_overflow_refuted.
