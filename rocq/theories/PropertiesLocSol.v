(** C65: the local solubility test of mlocsol.cc. *)
From Coq Require Import ZArith Lia List Bool Znumtheory.
From Verif Require Import Base MArithModel LocSolModel LocSolSpec LocSolArith LocSolLocal LocSolProofs LocSolZero.
Import ListNotations.
Open Scope Z_scope.

(** psquare decides whether an integer is a square in Z_p. *)
Theorem C65_psquare a p : prime p ->
  exists s, psquare a p = Ok s /\
    (s = true -> exists y, coherent p y /\ forall n, (p ^ Z.of_nat n | y n * y n - a)) /\
    (s = false -> exists N, 0 <= N /\ forall y, ~ (p ^ N | y * y - a)).
Proof.
  intros Hp. destruct (psquare_ok a p Hp) as (s & E & S1 & S0). exists s. split; [exact E|]. split; [exact S1|].
  intros S. destruct (S0 S) as (k & u & -> & K & U & NS).
  destruct (insol_of_obstructed p 0 0 0 0 (p ^ k * u) (k + 3) 0 k u (k + 3)) as (N & N0 & H); auto; try lia.
  - unfold gder. replace (((4 * 0 * 0 + 3 * 0) * 0 + 2 * 0) * 0 + 0) with 0 by ring. rewrite Z.mul_0_r. apply Z.divide_0_r.
  - destruct NS as [O|[O|(O & O')]].
    + left. exact O.
    + right. left. exact O.
    + right. right. right. split; [exact O|]. split; [lia|exact O'].
  - exists N. split; [exact N0|]. intros y Y. apply (H 0 y); [apply Z.divide_0_r|]. unfold gval.
    replace ((((0 * 0 + 0) * 0 + 0) * 0 + 0) * 0 + p ^ k * u) with (p ^ k * u) by ring. exact Y.
Qed.
Print Assumptions C65_psquare.
(** 17 is a square in Z_2, 5 and 8 are not; -2 is a square in Z_3 *)
Example C65_psquare_ex : psquare 17 2 = Ok true /\ psquare 5 2 = Ok false /\ psquare 8 2 = Ok false /\ psquare (-18) 3 = Ok true.
Proof. vm_compute. repeat split. Qed.

(** For a prime p and nonzero discriminant qpsoluble ends; if it returns 1 there is a point over Q_p,
    and if it returns 0 there is none, not even modulo a certain power of p. *)
Theorem C65_qpsoluble a b c d e p : prime p -> discriminant a b c d e <> 0 ->
  exists s, qpsoluble a b c d e p = Ok s /\
    (s = true -> padic_point p a b c d e) /\
    (s = false -> exists N, 0 <= N /\ no_solution_mod p N a b c d e).
Proof.
  intros Hp HD. apply qpsoluble_ok; auto. intros H. apply HD. rewrite <- gdisc_spec, H. reflexivity.
Qed.
Print Assumptions C65_qpsoluble.

(** The two outcomes exclude one another. *)
Theorem C65_exclusive p a b c d e N : 0 <= N -> padic_point p a b c d e -> ~ no_solution_mod p N a b c d e.
Proof.
  intros N0 (x & z & y & C1 & C2 & C3 & PR & SS) NS.
  assert (G : forall s, coherent p s -> forall n, (p | s (S n) - s 1%nat)).
  { intros s C. induction n as [|n IH]; [rewrite Z.sub_diag; apply Z.divide_0_r|].
    replace (s (S (S n)) - s 1%nat) with (s (S (S n)) - s (S n) + (s (S n) - s 1%nat)) by ring.
    apply Z.divide_add_r; [|exact IH]. apply pw_dvd1 with (Z.of_nat (S n)); [lia|apply C]. }
  set (n := S (Z.to_nat N)). apply (NS (x n) (z n) (y n)).
  - intros (X & Z'). apply PR. split.
    + apply dvd_cong with (x n); [apply G; exact C1|exact X].
    + apply dvd_cong with (z n); [apply G; exact C2|exact Z'].
  - apply pw_dvd with (Z.of_nat n); [unfold n; lia|apply SS].
Qed.
Print Assumptions C65_exclusive.

Theorem C65_decides a b c d e p : prime p -> discriminant a b c d e <> 0 ->
  (qpsoluble a b c d e p = Ok true <-> padic_point p a b c d e) /\
  (qpsoluble a b c d e p = Ok false <-> ~ padic_point p a b c d e).
Proof.
  intros Hp HD. destruct (C65_qpsoluble a b c d e p Hp HD) as (s & E & S1 & S0). rewrite E.
  destruct s.
  - pose proof (S1 eq_refl). split; split; auto; [discriminate|contradiction].
  - destruct (S0 eq_refl) as (N & N0 & H). 
    assert (~ padic_point p a b c d e) by (intros Q; exact (C65_exclusive p a b c d e N N0 Q H)).
    split; split; auto; [discriminate|contradiction].
Qed.
Print Assumptions C65_decides.
(** y^2 = 3 x^4 + 2 has no point over Q_3 and one over Q_5; y^2 = 2 x^4 - 34 (2-covering of a curve with
    nontrivial Tate-Shafarevich group) has points over Q_2 and Q_17 *)
Example C65_ex : discriminant 3 0 0 0 2 <> 0 /\ qpsoluble 3 0 0 0 2 3 = Ok false /\ qpsoluble 3 0 0 0 2 5 = Ok true /\
  discriminant 2 0 0 0 (-34) <> 0 /\ qpsoluble 2 0 0 0 (-34) 2 = Ok true /\ qpsoluble 2 0 0 0 (-34) 17 = Ok true.
Proof. split; [vm_compute; discriminate|]. split; [vm_compute; reflexivity|]. split; [vm_compute; reflexivity|].
  split; [vm_compute; discriminate|]. split; vm_compute; reflexivity. Qed.

(** Without the condition on the discriminant the recursion need not end: for
    y^2 = 2 (x^2 - 7)^2 and p = 3 the search for a point goes to every depth. *)
Theorem C65_zero_discriminant_refuted : exists a b c d e p, prime p /\ discriminant a b c d e = 0 /\
  forall depth, zpsol depth a b c d e p 0 0 = OutOfFuel.
Proof.
  exists 2, 0, (-28), 0, 98, 3. split; [exact prime_3|]. split; [reflexivity|]. exact zpsol_diverges.
Qed.
Print Assumptions C65_zero_discriminant_refuted.
