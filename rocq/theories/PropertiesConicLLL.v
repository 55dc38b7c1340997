(** C49, method 5: the conic solver with LLL reduction (legendre_via_lll). *)
From Coq Require Import ZArith Lia List Bool Znumtheory.
From Verif Require Import Base RatModel MArithModel MArithProofs SqrtModProofs DivisorProofs PropertiesMArith LLLSpec
  LegModel LegArith LegLem1 LegReduce LegSolve LegLLLModel LegLLL LegSolveLLL
  ConicModel ConicDiag ConicProofs ConicSpec ConicExample PropertiesConic.
Import ListNotations.
Open Scope Z_scope.

(** legendre_via_lll: for pairwise coprime coefficients, not all of one sign, and square roots of -bc, -ca, -ab one of
    the thirteen vectors is a solution, with every division which is right when the divisor divides. *)
Theorem C49_via_lll xgcd a b c n p q : xgcd_spec xgcd -> a <> 0 -> b <> 0 -> c <> 0 -> pairwise_coprime a b c ->
  ~ (0 < a /\ 0 < b /\ 0 < c) -> ~ (a < 0 /\ b < 0 /\ c < 0) ->
  (a | n * n + b * c) -> (b | p * p + a * c) -> (c | q * q + a * b) ->
  exists N x y z, (forall div f, exact_division (@Ok Z) div -> (N <= f)%nat -> legendre_via_lll xgcd div f a b c n p q = Ok (x, y, z)) /\
    legendre_eq a b c x y z /\ ~ (x = 0 /\ y = 0 /\ z = 0).
Proof.
  intros X A B C (G1 & G2 & G3) S1 S2 D1 D2 D3.
  destruct (legendre_via_lll_ok xgcd X a b c n p q) as (N & [[x y] z] & E & S).
  - repeat (split; [assumption|]). assumption.
  - split; [exact D1|]. split; [exact D2|exact D3].
  - exists N, x, y, z. split; [exact E|]. apply leg_spec in S as (E1 & NZ). split; [exact E1|now apply nz3].
Qed.
Print Assumptions C49_via_lll.
(** 3 x^2 + 5 y^2 = 2 z^2 with the roots 1, 1, 1; 7 x^2 + 3 z^2 = 19 y^2 *)
Example C49_via_lll_ex :
  legendre_via_lll xgcd_example zz_div 8 3 5 (-2) 1 1 1 = Ok (-1, 1, 2) /\
  legendre_via_lll xgcd_example zz_div 8 7 (-19) 3 1 6 1 = Ok (-3, 3, 6).
Proof. split; vm_compute; reflexivity. Qed.

(** legendre_solve with LLL: decides a x^2 + b y^2 + c z^2 = 0 for all non-zero a,b,c and finds a primitive solution. *)
Theorem C49_legendre_solve_lll xgcd srm f a b c ps : xgcd_spec xgcd -> sqrrootmod_spec srm ->
  a <> 0 -> b <> 0 -> c <> 0 -> factor_base (a * b * c) ps ->
  exists N r, (forall div lf, exact_division (@Ok Z) div -> (N <= lf)%nat ->
      legendre_solve xgcd srm (legendre_via_lll xgcd div lf) f a b c ps true = Ok r) /\
    answer (legendre_eq a b c) r.
Proof.
  intros X SR A B C PB. destruct (legendre_solve_lll xgcd X srm SR f a b c ps A B C PB) as (N & r & E & H).
  exists N, r. split; [exact E|]. destruct r as [[[x y] z]|].
  - destruct H as (S & P & _). now apply (some_answer (leg_sol a b c)); [apply leg_spec| |].
  - now apply (none_answer (leg_sol a b c)); [apply leg_spec|].
Qed.
Print Assumptions C49_legendre_solve_lll.

(** solve_conic with a given factor base, method 5, for every conic of non-zero discriminant *)
Theorem C49_method_5 xgcd srm pdivs f a b c d ps : xgcd_spec xgcd -> sqrrootmod_spec srm ->
  a <> 0 -> c <> 0 -> d <> 0 -> b * b - 4 * a * c <> 0 ->
  factor_base (if b =? 0 then a * c * d else a * d * (b * b - 4 * a * c)) ps ->
  exists N r, (forall div lf, exact_division (@Ok Z) div -> (N <= lf)%nat ->
      solve_conic xgcd srm pdivs (legendre_via_lll xgcd div lf) f a b c d ps 5 = Ok r) /\
    answer (conic a b c d) r.
Proof.
  intros X SR A C D DI PB.
  enough (H : exists N r, (forall div lf, exact_division (@Ok Z) div -> (N <= lf)%nat ->
      solve_conic xgcd srm pdivs (legendre_via_lll xgcd div lf) f a b c d ps 5 = Ok r) /\ conic_res a b c d r).
  { destruct H as (N & r & E & H). exists N, r. split; [exact E|now apply conic_answer]. }
  unfold solve_conic. change (3 <? 5) with true. cbv zeta iota. change (5 =? 5) with true.
  destruct (Z.eqb_spec b 0) as [B0|B0].
  - destruct (legendre_solve_lll xgcd X srm SR f a (- d) c ps) as (N & r & E & HR); auto; [lia| |].
    + apply (prime_base_div _ (a * c * d)); [exists (-1); ring|exact PB].
    + exists N, r. split; [exact E|]. subst b. destruct r as [[[x y] z]|].
      * destruct HR as ((E1 & NZ) & P & _). split; [|exact P]. split; [clear - E1; lia|exact NZ].
      * intros ([[x y] z] & E1 & NZ). apply HR. exists (x, y, z). split; [clear - E1; lia|exact NZ].
  - set (aa := b * b - 4 * a * c) in *.
    assert (AD : a * d <> 0) by now apply mul_nz.
    destruct (legendre_solve_lll xgcd X srm SR f 1 (- aa) (- (a * d)) ps) as (N & r & E & HR); [lia|lia|lia| |].
    + apply (prime_base_div _ (a * d * aa)); [exists 1; ring|exact PB].
    + destruct r as [[[x z] y]|].
      * destruct HR as ((E1 & NZ) & _).
        destruct (cancel_conic a b c d (x - b * z) (y * a) (z * (2 * a))) as (s & EC & CS).
        { split.
          - transitivity (a * (x * x - aa * (z * z))); [unfold aa; ring|]. replace (x * x - aa * (z * z)) with (a * d * (y * y)) by (clear - E1; lia). ring.
          - destruct (Z.eq_dec z 0) as [Z0|Z0].
            + destruct NZ as [NZ|[NZ|NZ]]; [left; rewrite Z0; lia|contradiction|right; left; now apply mul_nz].
            + right; right. apply mul_nz; [exact Z0|lia]. }
        exists N, (Some s). split; [intros div lf HD HF; rewrite (E div lf HD HF), bind_Ok, EC; reflexivity|exact CS].
      * exists N, None. split; [intros div lf HD HF; rewrite (E div lf HD HF); reflexivity|].
        intros ([[x y] z] & E1 & NZ). apply HR. exists (2 * a * x + b * z, z, 2 * y). split.
        -- transitivity (4 * a * (a * (x * x) + b * (x * z) + c * (z * z)) - 4 * a * d * (y * y)); [unfold aa; ring|]. rewrite E1. ring.
        -- destruct (Z.eq_dec z 0) as [Z0|Z0]; [|now right; left].
           destruct NZ as [NZ|[NZ|NZ]]; [left|right; right; lia|contradiction].
           rewrite Z0. pose proof (mul_nz a x A NZ) as H. clear - H. lia.
Qed.
Print Assumptions C49_method_5.
(** the entry which finds the primes itself *)
Theorem C49_full_5 xgcd srm pdivs f a b c d : xgcd_spec xgcd -> sqrrootmod_spec srm -> finds_primes pdivs ->
  a <> 0 -> c <> 0 -> d <> 0 -> b * b - 4 * a * c <> 0 ->
  exists N r, (forall div lf, exact_division (@Ok Z) div -> (N <= lf)%nat ->
      solve_conic_full xgcd srm pdivs (legendre_via_lll xgcd div lf) f a b c d 5 = Ok r) /\
    answer (conic a b c d) r.
Proof.
  intros X SR PD A C D DI. unfold solve_conic_full. cbv zeta.
  pose proof (full_base pdivs a d (if b =? 0 then c else b * b - 4 * a * c) PD A D) as FB.
  assert (E0 : (if b =? 0 then c else b * b - 4 * a * c) <> 0) by (destruct (b =? 0); assumption). specialize (FB E0).
  apply C49_method_5; auto.
  destruct (b =? 0); [|exact FB]. replace (a * c * d) with (a * d * c) by ring. exact FB.
Qed.
Print Assumptions C49_full_5.
(** 3 x^2 + x z - 7 z^2 = 5 y^2; 7 x^2 + 3 z^2 = 19 y^2; x^2 + z^2 = 3 y^2 has no solution *)
Example C49_full_5_ex : exact_division (@Ok Z) zz_div /\
  let solve := solve_conic_full xgcd_example sqrrootmod_example pdivs_example (legendre_via_lll xgcd_example zz_div 8) 0 in
  solve 3 1 (-7) 5 5 = Ok (Some (3, 1, 2)) /\ solve 7 0 3 19 5 = Ok (Some (1, 1, 2)) /\ solve 1 0 1 3 5 = Ok None.
Proof.
  split.
  - intros n m Hm. unfold zz_div. destruct (Z.eqb_spec m 0) as [E|_]; [contradiction|]. now rewrite Z.div_mul.
  - cbv zeta. split; [vm_compute; reflexivity|]. split; vm_compute; reflexivity.
Qed.
