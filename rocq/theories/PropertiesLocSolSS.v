(** C67: Siksek's local solubility test of mlocsol.cc (primes from 1000 on). *)
From Coq Require Import ZArith Lia List Bool Znumtheory.
From Verif Require Import Base MArithModel LegendreSpec SqrtModProofs ConicExample LocSolModel LocSolSpec LocSolArith LocSolProofs PropertiesLocSol
  LocSolSSModel LocSolSSSpec LocSolSSField LocSolSSProofs LocSolSSFactor.
Import ListNotations.
Open Scope Z_scope.

(** For a prime p, nonzero discriminant, and a correct factorisation of polynomials over F_p, new_qpsoluble ends; if it
    returns 1 there is a point over Q_p, and if it returns 0 there is none, not even modulo a certain power of p. *)
Theorem C67_new_qpsoluble factor a b c d e p : prime p -> factors_poly p (factor p) -> discriminant a b c d e <> 0 ->
  exists s, new_qpsoluble factor a b c d e p = Ok s /\
    (s = true -> padic_point p a b c d e) /\
    (s = false -> exists N, 0 <= N /\ no_solution_mod p N a b c d e).
Proof.
  intros Hp Hf HD. apply new_qpsoluble_ok; auto. intros H. apply HD. rewrite <- gdisc_spec, H. reflexivity.
Qed.
Print Assumptions C67_new_qpsoluble.

Theorem C67_decides factor a b c d e p : prime p -> factors_poly p (factor p) -> discriminant a b c d e <> 0 ->
  (new_qpsoluble factor a b c d e p = Ok true <-> padic_point p a b c d e) /\
  (new_qpsoluble factor a b c d e p = Ok false <-> ~ padic_point p a b c d e).
Proof.
  intros Hp Hf HD. destruct (C67_new_qpsoluble factor a b c d e p Hp Hf HD) as (s & E & S1 & S0). rewrite E.
  destruct s.
  - pose proof (S1 eq_refl). split; split; auto; [discriminate|contradiction].
  - destruct (S0 eq_refl) as (N & N0 & H).
    assert (~ padic_point p a b c d e) by (intros Q; exact (C65_exclusive p a b c d e N N0 Q H)).
    split; split; auto; [discriminate|contradiction].
Qed.
Print Assumptions C67_decides.

(** The faster method gives the answer of the search over all residues. *)
Theorem C67_same_answer factor a b c d e p : prime p -> factors_poly p (factor p) -> discriminant a b c d e <> 0 ->
  new_qpsoluble factor a b c d e p = qpsoluble a b c d e p.
Proof.
  intros Hp Hf HD. destruct (C65_qpsoluble a b c d e p Hp HD) as (s & E & _).
  destruct (C65_decides a b c d e p Hp HD) as (A1 & A2). destruct (C67_decides factor a b c d e p Hp Hf HD) as (B1 & B2).
  rewrite E. destruct s.
  - apply B1, A1, E.
  - apply B2, A2, E.
Qed.
Print Assumptions C67_same_answer.

(** The contract on the factorisation can be met, for all primes. *)
Theorem C67_contract_met : exists factor, forall p, prime p -> factors_poly p (factor p).
Proof. exists factor_poly. exact factor_poly_ok. Qed.
Print Assumptions C67_contract_met.

(** y^2 = 11 x^4 + 1009 has no point over Q_1009, y^2 = x^4 + 1009 has one *)
Lemma prime_1009 : prime 1009.
Proof. apply primeb_iff; [lia|]. vm_compute. reflexivity. Qed.
Example C67_ex factor : factors_poly 1009 (factor 1009) ->
  new_qpsoluble factor 11 0 0 0 1009 1009 = Ok false /\ new_qpsoluble factor 1 0 0 0 1009 1009 = Ok true.
Proof.
  intros Hf. split.
  - apply C67_decides; [exact prime_1009|exact Hf|vm_compute; discriminate|].
    intros Q. apply (C65_exclusive 1009 11 0 0 0 1009 2 ltac:(lia) Q). intros x z y PR D.
    replace (quartic_form 11 0 0 0 1009 x z) with (11 * (x * x) * (x * x) + 1009 * (z * z * (z * z))) in D by (unfold quartic_form; ring).
    assert (SQ : forall w, (1009 | w * w) -> (1009 | w)).
    { intros w W. apply prime_mult in W; [destruct W; auto|exact prime_1009]. }
    assert (D1 : (1009 | y * y - 11 * ((x * x) * (x * x)))).
    { replace (y * y - 11 * ((x * x) * (x * x))) with (y * y - (11 * (x * x) * (x * x) + 1009 * (z * z * (z * z))) + 1009 * (z * z * (z * z))) by ring.
      apply Z.divide_add_r; [|apply Z.divide_factor_l]. apply Z.divide_trans with (2 := D). exists 1009. reflexivity. }
    assert (X : (1009 | x)).
    { destruct (Znumtheory.Zdivide_dec 1009 (x * x)) as [X|X]; [apply SQ, X|exfalso].
      destruct (legendre_prime 11 1009 prime_1009 ltac:(lia)) as (s & E & _ & L & _).
      assert (L11 : legendre_z 11 1009 = Ok (-1)) by (vm_compute; reflexivity).
      rewrite L11 in E. injection E as <-. assert (-1 = 1); [|discriminate]. apply L.
      - intros (q & Q1). lia.
      - destruct (inverse_sig 1009 (x * x) prime_1009 X) as (w & W). exists (y * w).
        replace (y * w * (y * w) - 11) with (w * w * (y * y - 11 * ((x * x) * (x * x))) + 11 * (w * (x * x) + 1) * (w * (x * x) - 1)) by ring.
        apply Z.divide_add_r; apply Z.divide_mul_r; auto. }
    apply PR. split; [exact X|]. destruct X as (x' & ->).
    assert (Y : (1009 | y)).
    { apply SQ. replace (y * y) with (y * y - 11 * ((x' * 1009 * (x' * 1009)) * (x' * 1009 * (x' * 1009)))
        + 1009 * (11 * x' * (x' * 1009 * (x' * 1009 * (x' * 1009))))) by ring.
      apply Z.divide_add_r; [exact D1|apply Z.divide_factor_l]. }
    destruct Y as (y' & ->). apply SQ, SQ.
    apply (dvd_cancel 1009); [lia|].
    replace (1009 * (z * z * (z * z))) with (1009 * 1009 * (y' * y' - 11 * (x' * x') * (x' * 1009 * (x' * 1009)))
      - (y' * 1009 * (y' * 1009) - (11 * (x' * 1009 * (x' * 1009)) * (x' * 1009 * (x' * 1009)) + 1009 * (z * z * (z * z))))) by ring.
    apply Z.divide_sub_r; [apply Z.divide_factor_l|exact D].
  - apply C67_decides; [exact prime_1009|exact Hf|vm_compute; discriminate|].
    exists (fun _ => 1), (fun _ => 0), (fun _ => 1).
    assert (C : forall k, coherent 1009 (fun _ => k)) by (intros k n; rewrite Z.sub_diag; apply Z.divide_0_r).
    split; [apply C|]. split; [apply C|]. split; [apply C|]. split.
    + intros (H & _). apply Z.divide_1_r in H. lia.
    + intros n. replace (1 * 1 - quartic_form 1 0 0 0 1009 1 0) with 0 by reflexivity. apply Z.divide_0_r.
Qed.
