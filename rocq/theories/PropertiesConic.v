(** C49: the conic solver of conic.cc and legendre.cc; C64: its test for solubility. *)
From Coq Require Import ZArith Lia List Bool Znumtheory Sorted.
From Verif Require Import Base MArithModel MArithProofs SqrtModProofs DivisorProofs PropertiesMArith
  LegModel LegArith LegLem1 LegBody LegDescent LegReduce LegSolve ConicModel ConicDiag ConicLocal ConicProofs ConicSpec ConicExample.
Import ListNotations.
Open Scope Z_scope.

Lemma nz3 x y z : nonzero3 x y z <-> ~ (x = 0 /\ y = 0 /\ z = 0).
Proof. unfold nonzero3. split; [tauto|]. intros H. destruct (Z.eq_dec x 0), (Z.eq_dec y 0); tauto. Qed.
Lemma none_answer (sol : tri -> Prop) (eqn : Z -> Z -> Z -> Prop) :
  (forall x y z, sol (x, y, z) <-> eqn x y z /\ nonzero3 x y z) -> ~ (exists s, sol s) -> answer eqn None.
Proof.
  intros H N x y z E. destruct (Z.eq_dec x 0) as [X|X]; [destruct (Z.eq_dec y 0) as [Y|Y]; [destruct (Z.eq_dec z 0) as [Z0|Z0]|]|];
    [tauto| | |]; exfalso; apply N; exists (x, y, z); apply H; split; auto; unfold nonzero3; tauto.
Qed.
Lemma some_answer (sol : tri -> Prop) (eqn : Z -> Z -> Z -> Prop) s :
  (forall x y z, sol (x, y, z) <-> eqn x y z /\ nonzero3 x y z) -> sol s -> prim3 s -> answer eqn (Some s).
Proof. intros H S P. destruct s as [[x y] z]. apply H in S as (E & N). split; [exact E|]. split; [now apply nz3|exact P]. Qed.
Lemma has_sol (sol : tri -> Prop) (eqn : Z -> Z -> Z -> Prop) :
  (forall x y z, sol (x, y, z) <-> eqn x y z /\ nonzero3 x y z) -> (exists s, sol s) <-> has_solution eqn.
Proof.
  intros H. split.
  - intros ([[x y] z] & S). exists x, y, z. apply H in S as (E & N). split; [exact E|now apply nz3].
  - intros (x & y & z & E & N). exists (x, y, z). apply H. split; [exact E|now apply nz3].
Qed.
Lemma leg_spec a b c x y z : leg_sol a b c (x, y, z) <-> legendre_eq a b c x y z /\ nonzero3 x y z.
Proof. unfold leg_sol, legendre_eq. now rewrite !Z.mul_assoc. Qed.
Lemma diag_spec a b x y z : dsol a b (x, y, z) <-> diag_eq a b x y z /\ nonzero3 x y z.
Proof. unfold dsol, diag_eq. now rewrite !Z.mul_assoc. Qed.
Lemma conic_spec a b c d x y z : conic_sol a b c d (x, y, z) <-> conic a b c d x y z /\ nonzero3 x y z.
Proof. unfold conic_sol, conic. now rewrite !Z.mul_assoc. Qed.

(** The descent with a certificate (legendre_solve_cert_1): for pairwise coprime coefficients, not all of one sign, and square
    roots of -bc, -ca, -ab it ends and either gives a solution in the lattice of the certificate or
    the number of a coefficient and a u > 1 whose square divides it. *)
Theorem C49_descent xgcd f a b c n p q : xgcd_spec xgcd -> a <> 0 -> b <> 0 -> c <> 0 -> pairwise_coprime a b c ->
  ~ (0 < a /\ 0 < b /\ 0 < c) -> ~ (a < 0 /\ b < 0 /\ c < 0) ->
  (a | n * n + b * c) -> (b | p * p + a * c) -> (c | q * q + a * b) -> 2 * Z.abs (a * b * c) < Z.of_nat f ->
  exists r u x y z, legendre_solve_cert_1 xgcd f a b c n p q = Ok (r, u, (x, y, z)) /\
    ((r = 0 /\ legendre_eq a b c x y z /\ ~ (x = 0 /\ y = 0 /\ z = 0) /\
        (a | b * y - n * z) /\ (b | c * z - p * x) /\ (c | a * x - q * y)) \/
     (1 < u /\ ((r = 1 /\ (u * u | a)) \/ (r = 2 /\ (u * u | b)) \/ (r = 3 /\ (u * u | c))))).
Proof.
  intros X A B C (G1 & G2 & G3) S1 S2 D1 D2 D3 F.
  destruct (solve_cert_ok xgcd X f a b c n p q) as ([[r u] [[x y] z]] & E & H).
  - repeat (split; [assumption|]). assumption.
  - split; [exact D1|]. split; [exact D2|exact D3].
  - pose proof (mu_le a b c). lia.
  - exists r, u, x, y, z. split; [exact E|]. destruct H as [(R & S & L)|H]; [left|right; exact H].
    apply leg_spec in S as (E1 & N). split; [exact R|]. split; [exact E1|]. split; [now apply nz3|exact L].
Qed.
Print Assumptions C49_descent.
(** 3 x^2 + 5 y^2 = 2 z^2 with the roots 1, 1, 1 *)
Example C49_descent_ex : pairwise_coprime 3 5 (-2) /\ (3 | 1 * 1 + 5 * -2) /\ (5 | 1 * 1 + 3 * -2) /\ (-2 | 1 * 1 + 3 * 5) /\
  legendre_solve_cert_1 xgcd_example 61 3 5 (-2) 1 1 1 = Ok (0, 0, (-1, -1, -2)).
Proof.
  split; [split; [reflexivity|split; reflexivity]|]. split; [exists (-3); reflexivity|]. split; [exists (-1); reflexivity|].
  split; [exists (-8); reflexivity|]. vm_compute. reflexivity.
Qed.

(** legendre_solve without LLL: decides a x^2 + b y^2 + c z^2 = 0 for all non-zero a,b,c and finds a primitive solution. *)
Theorem C49_legendre_solve xgcd srm lll f a b c ps : xgcd_spec xgcd -> sqrrootmod_spec srm ->
  a <> 0 -> b <> 0 -> c <> 0 -> factor_base (a * b * c) ps -> 2 * Z.abs (a * b * c) < Z.of_nat f ->
  exists r, legendre_solve xgcd srm lll f a b c ps false = Ok r /\ answer (legendre_eq a b c) r.
Proof.
  intros X SR A B C PB F. destruct (legendre_solve_ok xgcd X srm SR lll f a b c ps A B C PB F) as (r & E & H).
  exists r. split; [exact E|]. destruct r as [[[x y] z]|].
  - destruct H as (S & P & _). now apply (some_answer (leg_sol a b c)); [apply leg_spec| |].
  - now apply (none_answer (leg_sol a b c)); [apply leg_spec|].
Qed.
Print Assumptions C49_legendre_solve.
Example C49_legendre_ex : factor_base (7 * -19 * 3) [3; 7; 19] /\
  legendre_solve xgcd_example sqrrootmod_example (fun _ _ _ _ _ _ => UB) 900 7 (-19) 3 [3; 7; 19] false = Ok (Some (1, 1, 2)).
Proof.
  split; [|vm_compute; reflexivity].
  assert (P : forall p, 2 <= p -> forallb (fun i => negb (p mod Z.of_nat i =? 0)) (seq 2 (Z.to_nat p - 2)) = true -> prime p)
    by (intros p H; apply primeb_iff; exact H).
  assert (P3 : prime 3) by (apply P; [lia|reflexivity]). assert (P7 : prime 7) by (apply P; [lia|reflexivity]).
  assert (P19 : prime 19) by (apply P; [lia|reflexivity]).
  split; [repeat constructor; cbn [In]; lia|]. split; [exact (Forall_cons _ P3 (Forall_cons _ P7 (Forall_cons _ P19 (Forall_nil _))))|].
  intros p Hp D. cbn [In]. change (7 * -19 * 3) with (3 * (7 * (19 * -1))) in D.
  apply (prime_mult p Hp) in D as [D|D]; [left; symmetry; now apply prime_div_prime|].
  apply (prime_mult p Hp) in D as [D|D]; [right; left; symmetry; now apply prime_div_prime|].
  apply (prime_mult p Hp) in D as [D|D]; [right; right; left; symmetry; now apply prime_div_prime|].
  exfalso. apply (Z.divide_opp_r p 1) in D. apply Z.divide_1_r in D. pose proof (prime_ge_2 p Hp). lia.
Qed.

(** solve_conic_diag with each of the methods 0 to 3: decides x^2 - a z^2 = b y^2 for square-free a and b. *)
Theorem C49_diag xgcd srm pdivs method f a al b bl : xgcd_spec xgcd -> sqrrootmod_spec srm -> finds_primes pdivs ->
  0 <= method <= 3 -> no_square_factor a -> no_square_factor b -> lists_primes_of a al -> lists_primes_of b bl ->
  2 * (Z.abs a + Z.abs b) + 1 < Z.of_nat f ->
  exists r, solve_conic_diag xgcd srm pdivs method f a al b bl = Ok r /\ answer (diag_eq a b) r.
Proof.
  intros X SR PD M SA SB PA PB F.
  destruct (solve_conic_diag_ok xgcd X srm SR pdivs (sorted_pdivs_spec pdivs PD) method M f a al b bl SA SB PA PB) as (r & E & H).
  { unfold dmeas. destruct (Z.abs b <? Z.abs a); lia. }
  exists r. split; [exact E|]. destruct r as [s|].
  - destruct H as (S & P). now apply (some_answer (dsol a b)); [apply diag_spec| |].
  - now apply (none_answer (dsol a b)); [apply diag_spec|].
Qed.
Print Assumptions C49_diag.

Lemma conic_answer a b c d r : conic_res a b c d r -> answer (conic a b c d) r.
Proof.
  destruct r as [s|]; intros H.
  - destruct H as (S & P). now apply (some_answer (conic_sol a b c d)); [apply conic_spec| |].
  - now apply (none_answer (conic_sol a b c d)); [apply conic_spec|].
Qed.
(** solve_conic with a given factor base, without the term in xz, methods 0 to 3 *)
Theorem C49_methods_0_3 xgcd srm pdivs lll f a c d ps method : xgcd_spec xgcd -> sqrrootmod_spec srm -> finds_primes pdivs ->
  0 <= method <= 3 -> a <> 0 -> c <> 0 -> d <> 0 -> factor_base (a * c * d) ps ->
  2 * (Z.abs (a * c) + Z.abs (a * d)) + 1 < Z.of_nat f ->
  exists r, solve_conic xgcd srm pdivs lll f a 0 c d ps method = Ok r /\ answer (conic a 0 c d) r.
Proof.
  intros X SR PD M A C D PB F.
  destruct (solve_conic_03 xgcd X srm SR pdivs (sorted_pdivs_spec pdivs PD) lll f a c d ps method M A C D PB F) as (r & E & H).
  exists r. split; [exact E|now apply conic_answer].
Qed.
Print Assumptions C49_methods_0_3.
(** method 4, the default, for every conic of non-zero discriminant *)
Theorem C49_method_4 xgcd srm pdivs lll f a b c d ps : xgcd_spec xgcd -> sqrrootmod_spec srm ->
  a <> 0 -> c <> 0 -> d <> 0 -> b * b - 4 * a * c <> 0 ->
  factor_base (if b =? 0 then a * c * d else a * d * (b * b - 4 * a * c)) ps ->
  2 * Z.abs (if b =? 0 then a * c * d else a * d * (b * b - 4 * a * c)) < Z.of_nat f ->
  exists r, solve_conic xgcd srm pdivs lll f a b c d ps 4 = Ok r /\ answer (conic a b c d) r.
Proof.
  intros X SR A C D DI PB F.
  destruct (solve_conic_4 xgcd X srm SR pdivs lll f a b c d ps A C D DI PB F) as (r & E & H).
  exists r. split; [exact E|now apply conic_answer].
Qed.
Print Assumptions C49_method_4.
(** the entry which finds the primes itself *)
Theorem C49_full xgcd srm pdivs lll f a b c d method : xgcd_spec xgcd -> sqrrootmod_spec srm -> finds_primes pdivs ->
  a <> 0 -> c <> 0 -> d <> 0 -> b * b - 4 * a * c <> 0 -> (method = 4 \/ (0 <= method <= 3 /\ b = 0)) ->
  2 * Z.abs (a * d * (if b =? 0 then c else b * b - 4 * a * c)) + 2 * (Z.abs (a * c) + Z.abs (a * d)) + 1 < Z.of_nat f ->
  exists r, solve_conic_full xgcd srm pdivs lll f a b c d method = Ok r /\ answer (conic a b c d) r.
Proof.
  intros X SR PD A C D DI M F. unfold solve_conic_full. cbv zeta.
  pose proof (full_base pdivs a d (if b =? 0 then c else b * b - 4 * a * c) PD A D) as FB.
  assert (E0 : (if b =? 0 then c else b * b - 4 * a * c) <> 0) by (destruct (b =? 0); assumption). specialize (FB E0).
  destruct M as [->|(M & ->)].
  - apply C49_method_4; auto.
    + destruct (b =? 0); [|exact FB]. replace (a * c * d) with (a * d * c) by ring. exact FB.
    + destruct (b =? 0); [replace (a * c * d) with (a * d * c) by ring|]; lia.
  - cbn [Z.eqb] in *. apply C49_methods_0_3; auto; [|lia]. replace (a * c * d) with (a * d * c) by ring. exact FB.
Qed.
Print Assumptions C49_full.
(** 3 x^2 + x z - 7 z^2 = 5 y^2; 7 x^2 + 3 z^2 = 19 y^2 by all methods; x^2 + z^2 = 3 y^2 has no solution *)
Example C49_ex : finds_primes pdivs_example /\
  solve_conic_full xgcd_example sqrrootmod_example pdivs_example (fun _ _ _ _ _ _ => UB) 2700 3 1 (-7) 5 4 = Ok (Some (3, 1, 2)) /\
  map (solve_conic_full xgcd_example sqrrootmod_example pdivs_example (fun _ _ _ _ _ _ => UB) 1200 7 0 3 19) [0; 1; 2; 3; 4] =
    [Ok (Some (-1, 1, 2)); Ok (Some (-1, 1, 2)); Ok (Some (-1, -1, 2)); Ok (Some (-1, 1, 2)); Ok (Some (1, 1, 2))] /\
  map (solve_conic_full xgcd_example sqrrootmod_example pdivs_example (fun _ _ _ _ _ _ => UB) 20 1 0 1 3) [0; 1; 2; 3; 4] =
    [Ok None; Ok None; Ok None; Ok None; Ok None].
Proof. split; [exact pdivs_contract_met|]. repeat split; vm_compute; reflexivity. Qed.

(** With a term in xz the methods 0 to 3 are wrong: the discriminant used is b^2 + 4ac.
    x^2 + x z - z^2 = - y^2 has the solution (0,1,1), and 0 is returned; *)
Theorem C49_nondiag_refuted : exists a b c d, a <> 0 /\ c <> 0 /\ d <> 0 /\ b * b - 4 * a * c <> 0 /\
  forall method xgcd srm lll f, 0 <= method <= 3 ->
    has_solution (conic a b c d) /\ solve_conic_full xgcd srm pdivs_example lll f a b c d method = Ok None.
Proof.
  exists 1, 1, (-1), (-1). repeat (split; [discriminate|]). intros method xgcd srm lll f M. split.
  - exists 0, 1, 1. split; [reflexivity|]. intros (_ & H & _). discriminate.
  - unfold solve_conic_full, solve_conic. destruct (Z.ltb_spec 3 method); [lia|]. reflexivity.
Qed.
Print Assumptions C49_nondiag_refuted.
(** x^2 + 3 x z + 4 z^2 = - y^2 has no solution but (0,0,0), and (-2,0,1) is returned. *)
Theorem C49_nondiag_solution_refuted : exists a b c d, a <> 0 /\ c <> 0 /\ d <> 0 /\ b * b - 4 * a * c <> 0 /\
  forall method, In method [0; 1; 2; 3] ->
    ~ has_solution (conic a b c d) /\
    solve_conic_full xgcd_example sqrrootmod_example pdivs_example (fun _ _ _ _ _ _ => UB) 20 a b c d method = Ok (Some (-2, 0, 1)).
Proof.
  exists 1, 3, 4, (-1). repeat (split; [discriminate|]). intros method M. split.
  - intros (x & y & z & E & N). apply N. unfold conic in E.
    assert (Q : (2 * x + 3 * z) * (2 * x + 3 * z) + 7 * (z * z) + 4 * (y * y) = 0) by lia.
    pose proof (Z.square_nonneg (2 * x + 3 * z)). pose proof (Z.square_nonneg z). pose proof (Z.square_nonneg y).
    assert (z * z = 0 /\ y * y = 0 /\ (2 * x + 3 * z) * (2 * x + 3 * z) = 0) as (Z0 & Y0 & X0) by lia.
    apply Z.mul_eq_0 in Z0, Y0, X0. lia.
  - repeat (destruct M as [<-|M]; [vm_compute; reflexivity|]). destruct M.
Qed.
Print Assumptions C49_nondiag_solution_refuted.

(** ** C64: the test for solubility is right (Legendre's theorem) *)
Theorem C64_testlocsol3 a al b bl c cl : no_square_factor a -> no_square_factor b -> no_square_factor c -> pairwise_coprime a b c ->
  lists_primes_of a al -> lists_primes_of b bl -> lists_primes_of c cl ->
  exists t, testlocsol3 a al b bl c cl = Ok t /\ (t = true <-> has_solution (legendre_eq a b c)).
Proof.
  intros SA SB SC (G1 & G2 & G3) PA PB PC.
  destruct (testlocsol3_ok xgcd_example xgcd_contract_met a al b bl c cl SA SB SC G1 G2 G3 PA PB PC) as (t & E & H).
  exists t. split; [exact E|]. rewrite H. apply has_sol. apply leg_spec.
Qed.
Print Assumptions C64_testlocsol3.
Theorem C64_testlocsol2 a al b bl : no_square_factor a -> no_square_factor b -> lists_primes_of a al -> lists_primes_of b bl ->
  exists t, testlocsol2 a al b bl = Ok t /\ (t = true <-> has_solution (diag_eq a b)).
Proof.
  intros SA SB PA PB.
  destruct (testlocsol2_ok xgcd_example xgcd_contract_met a al b bl SA SB PA PB) as (t & E & H).
  exists t. split; [exact E|]. rewrite H. apply has_sol. apply diag_spec.
Qed.
Print Assumptions C64_testlocsol2.
(** the statement of Legendre's theorem by itself *)
Theorem C64_legendre a b c : no_square_factor a -> no_square_factor b -> no_square_factor c -> pairwise_coprime a b c ->
  has_solution (legendre_eq a b c) <->
  ~ (Z.sgn a = Z.sgn b /\ Z.sgn b = Z.sgn c) /\
  (exists n, (a | n * n + b * c)) /\ (exists n, (b | n * n + a * c)) /\ (exists n, (c | n * n + a * b)).
Proof.
  intros SA SB SC (G1 & G2 & G3).
  assert (PL : forall n, square_free n -> plist_of n (pdivs_example n)).
  { intros n S. apply (sorted_pdivs_spec _ pdivs_contract_met). now apply sqf_nz. }
  rewrite <- (has_sol (leg_sol a b c) _ (leg_spec a b c)). split.
  - intros S. split.
    + intros (H1 & H2). revert S. apply def_insoluble; auto; now apply sqf_nz.
    + destruct (prim_ex a b c S) as (x & y & z & S' & P).
      assert (K : forall a b c x y z, square_free a -> cop a b -> leg_sol a b c (x, y, z) -> prim3 (x, y, z) -> exists n, (a | n * n + b * c)).
      { clear. intros a b c x y z SA C S P. destruct (sol_cert a b c x y z (sqf_nz a SA) SA C S P) as (n & Hn). exists n.
        unfold sqroot in Hn. apply (proj1 (Z.divide_abs_l a _)) in Hn. replace (n * n + b * c) with (n * n - - b * c) by ring. exact Hn. }
      destruct (msol_perm a b c x y z (conj S' P)) as (_ & (M2 & P2) & (M3 & P3)).
      split; [now apply (K a b c x y z)|]. split.
      * destruct (K b c a y z x SB G3 M3 P3) as (n & Hn). exists n. now rewrite (Z.mul_comm a c).
      * destruct (K c b a z y x SC (cop_sym _ _ G3) M2 P2) as (n & Hn). exists n. now rewrite (Z.mul_comm a b).
  - intros (SG & (n & Hn) & (p & Hp) & (q & Hq)). pose proof (sqf_nz a SA) as A. pose proof (sqf_nz b SB) as B. pose proof (sqf_nz c SC) as C.
    apply (cert_soluble xgcd_example xgcd_contract_met a b c n p q); auto.
    + repeat (split; [assumption|]). clear - SG. split; intros H; lia.
    + split; [exact Hn|]. split; [exact Hp|exact Hq].
Qed.
Print Assumptions C64_legendre.
Example C64_ex : testlocsol2 (-15) [3; 5] 10 [2; 5] = Ok true /\ testlocsol2 (-15) [3; 5] 21 [3; 7] = Ok false /\
  has_solution (diag_eq (-15) 10) /\ testlocsol3 7 [7] (-19) [19] 3 [3] = Ok true.
Proof.
  split; [reflexivity|]. split; [reflexivity|]. split; [|reflexivity].
  exists 5, 2, 1. split; [reflexivity|]. intros (H & _). discriminate.
Qed.
