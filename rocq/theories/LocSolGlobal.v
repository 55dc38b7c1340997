(** Rsoluble and locallysoluble of mlocsol.cc: the real place, the primes of good reduction, and the loop. *)
From Coq Require Import ZArith Reals Lra Lia List Bool Znumtheory Zpow_facts.
From Verif Require Import Base RatModel RatProofs MArithModel MArithProofs LocSolModel LocSolSpec LocSolArith LocSolLocal LocSolProofs
  LocSolSSModel LocSolSSSpec LocSolSSField LocSolSSProofs LocSolGood LocSolReal LocSolGlobalModel LocSolGlobalSpec HilbertModel HilbertSpec HilbertLocal HilbertGlobal.
Import ListNotations.
Open Scope Z_scope.
Open Scope res_scope.

Lemma point_excl p a b c d e N : 0 <= N -> padic_point p a b c d e -> no_solution_mod p N a b c d e -> False.
Proof.
  intros N0 (x & z & y & C1 & C2 & C3 & PR & SS) NS.
  assert (G : forall s, coherent p s -> forall n, (p | s (S n) - s 1%nat)).
  { intros s C. induction n as [|n IH]; [rewrite Z.sub_diag; apply Z.divide_0_r|].
    replace (s (S (S n)) - s 1%nat) with (s (S (S n)) - s (S n) + (s (S n) - s 1%nat)) by ring.
    apply Z.divide_add_r; [|exact IH]. apply pw_dvd1 with (Z.of_nat (S n)); [lia|apply C]. }
  set (n := S (Z.to_nat N)). apply (NS (x n) (z n) (y n)).
  - intros (X & Z'). apply PR. split.
    + apply dvd_cong with (x n); [apply G; exact C1|exact X].
    + apply dvd_cong with (z n); [apply G; exact C2|exact Z'].
  - apply pw_dvd with (Z.of_nat n); [unfold n; lia|apply SS].
Qed.

(** ** the real place *)
Lemma form_real a b c d e x z : (IZR a * x ^ 4 + IZR b * x ^ 3 * z + IZR c * x ^ 2 * z ^ 2 + IZR d * x * z ^ 3 + IZR e * z ^ 4)%R =
  formR (IZR a) (IZR b) (IZR c) (IZR d) (IZR e) x z.
Proof. unfold formR. ring. Qed.

Lemma disc_code a b c d e : 4 * II a b c d e ^ 3 - JJ a b c d e * JJ a b c d e = discriminant a b c d e.
Proof. unfold II, JJ, discriminant. cbv zeta. ring. Qed.

Lemma real_positive a b c d e x z : ~ (x = 0 /\ z = 0)%R -> (0 <= formR (IZR a) (IZR b) (IZR c) (IZR d) (IZR e) x z)%R -> real_point a b c d e.
Proof.
  intros N H. exists x, z, (sqrt (formR (IZR a) (IZR b) (IZR c) (IZR d) (IZR e) x z)). split; [exact N|].
  rewrite form_real. apply sqrt_sqrt, H.
Qed.

Lemma Rsoluble_ok a b c d e : discriminant a b c d e <> 0 -> Rsoluble a b c d e = true <-> real_point a b c d e.
Proof.
  intros D. pose proof (disc_code a b c d e) as DC. rewrite <- DC in D.
  assert (EII : (IZR (II a b c d e) = 12 * IZR a * IZR e - 3 * IZR b * IZR d + IZR c * IZR c)%R).
  { unfold II. rewrite plus_IZR, minus_IZR, !mult_IZR. reflexivity. }
  assert (EJJ : (IZR (JJ a b c d e) = (72 * IZR a * IZR e + 9 * IZR b * IZR d - 2 * (IZR c * IZR c)) * IZR c - 27 * (IZR a * (IZR d * IZR d) + IZR b * IZR b * IZR e))%R).
  { unfold JJ. rewrite minus_IZR, !mult_IZR, minus_IZR, !plus_IZR, !mult_IZR. reflexivity. }
  assert (ED : (IZR (4 * II a b c d e ^ 3 - JJ a b c d e * JJ a b c d e) =
     4 * (IZR (II a b c d e) * IZR (II a b c d e) * IZR (II a b c d e)) - IZR (JJ a b c d e) * IZR (JJ a b c d e))%R).
  { rewrite minus_IZR, !mult_IZR. f_equal. f_equal. replace (II a b c d e ^ 3) with (II a b c d e * II a b c d e * II a b c d e) by ring. now rewrite !mult_IZR. }
  assert (EH : (IZR (H_invariant a b c) = 8 * IZR a * IZR c - 3 * (IZR b * IZR b))%R).
  { unfold H_invariant. rewrite minus_IZR, !mult_IZR. reflexivity. }
  assert (EQ : (IZR (H_invariant a b c * H_invariant a b c - 16 * a * a * II a b c d e) =
     IZR (H_invariant a b c) * IZR (H_invariant a b c) - 16 * IZR a * IZR a * IZR (II a b c d e))%R).
  { rewrite minus_IZR, !mult_IZR. reflexivity. }
  rewrite EH, EII in EQ. rewrite EII, EJJ in ED.
  unfold Rsoluble, quartic_type. cbv zeta. set (di := 4 * II a b c d e ^ 3 - JJ a b c d e * JJ a b c d e) in *.
  set (Q := H_invariant a b c * H_invariant a b c - 16 * a * a * II a b c d e) in *.
  destruct (Z.ltb_spec 0 a) as [A|A].
  { rewrite orb_true_r. split; [intros _|reflexivity]. apply (real_positive a b c d e 1 0); [lra|]. unfold formR.
    apply IZR_lt in A. lra. }
  rewrite orb_false_r. destruct (Z.eq_dec a 0) as [->|A0].
  { assert (B : b <> 0).
    { intros ->. apply D. rewrite DC. unfold discriminant. cbv zeta. ring. }
    split.
    - intros _. apply (real_positive 0 b c d e 1 0); [lra|]. unfold formR. lra.
    - intros _. destruct (Z.ltb_spec di 0); [reflexivity|].
      assert (H0 : H_invariant 0 b c = - (3 * (b * b))) by (unfold H_invariant; ring).
      assert (B2 : 0 < b * b) by (clear - B; nia).
      assert (Q0 : 0 < Q).
      { unfold Q. rewrite H0. replace (- (3 * (b * b)) * - (3 * (b * b)) - 16 * 0 * 0 * II 0 b c d e) with (9 * (b * b * (b * b))) by ring.
        assert (0 < b * b * (b * b)) by (apply Z.mul_pos_pos; exact B2). lia. }
      destruct (Z.ltb_spec (H_invariant 0 b c) 0) as [_|K]; [|lia]. destruct (Z.ltb_spec 0 Q); [reflexivity|lia]. }
  assert (AR : (IZR a < 0)%R) by (apply (IZR_lt a 0); lia).
  destruct (Z.ltb_spec di 0) as [DN|DN].
  { split; [intros _|reflexivity]. destruct (quartic_point (IZR a) (IZR b) (IZR c) (IZR d) (IZR e) AR) as (x & X).
    - left. rewrite <- ED. now apply (IZR_lt di 0).
    - apply (real_positive a b c d e x 1); lra. }
  assert (DP : (0 < IZR di)%R) by (apply (IZR_lt 0 di); lia).
  destruct (Z.ltb_spec (H_invariant a b c) 0) as [HN|HN]; [destruct (Z.ltb_spec 0 Q) as [QP|QP]|]; cbn [andb].
  - split; [intros _|reflexivity]. destruct (quartic_point (IZR a) (IZR b) (IZR c) (IZR d) (IZR e) AR) as (x & X).
    + right. split; [rewrite <- EH; now apply (IZR_lt _ 0)|rewrite <- EQ; now apply (IZR_lt 0)].
    + apply (real_positive a b c d e x 1); lra.
  - split; [discriminate|]. intros (x & z & y & NZ & E). rewrite form_real in E. exfalso.
    assert (F : (formR (IZR a) (IZR b) (IZR c) (IZR d) (IZR e) x z < 0)%R).
    { apply quartic_no_point; auto; [rewrite <- ED; exact DP|]. intros (_ & H). rewrite <- EQ in H. apply (lt_IZR 0) in H. lia. }
    pose proof (Rle_0_sqr y) as S. unfold Rsqr in S. lra.
  - split; [discriminate|]. intros (x & z & y & NZ & E). rewrite form_real in E. exfalso.
    assert (F : (formR (IZR a) (IZR b) (IZR c) (IZR d) (IZR e) x z < 0)%R).
    { apply quartic_no_point; auto; [rewrite <- ED; exact DP|]. intros (H & _). rewrite <- EH in H. apply (lt_IZR _ 0) in H. lia. }
    pose proof (Rle_0_sqr y) as S. unfold Rsqr in S. lra.
Qed.

(** ** primes of good reduction *)
Definition range (p : Z) : list Z := map Z.of_nat (seq 0 (Z.to_nat p)).
Lemma in_range p x : 0 <= x < p -> In x (range p).
Proof. intros H. unfold range. apply in_map_iff. exists (Z.to_nat x). split; [lia|]. apply in_seq. lia. Qed.
Definition good_b (p a b c d e x : Z) : bool :=
  let v := gval a b c d e x mod p in
  if v =? 0 then negb (gder a b c d x mod p =? 0) else existsb (fun y => (y * y) mod p =? v) (range p).
Definition check (p a b c d e : Z) : bool :=
  (gdisc a b c d e mod p =? 0) || good_b p e d c b a 0 || existsb (good_b p a b c d e) (range p).
Definition all5 (l : list Z) (f : Z -> Z -> Z -> Z -> Z -> bool) : bool :=
  forallb (fun a => forallb (fun b => forallb (fun c => forallb (fun d => forallb (f a b c d) l) l) l) l) l.
Lemma all5_ok l f a b c d e : all5 l f = true -> In a l -> In b l -> In c l -> In d l -> In e l -> f a b c d e = true.
Proof.
  unfold all5. intros H A B C D E. rewrite forallb_forall in H. specialize (H a A). cbn beta in H.
  rewrite forallb_forall in H. specialize (H b B). cbn beta in H. rewrite forallb_forall in H. specialize (H c C). cbn beta in H.
  rewrite forallb_forall in H. specialize (H d D). cbn beta in H. rewrite forallb_forall in H. exact (H e E).
Qed.
Definition check_all (p : Z) : bool := all5 (range p) (check p).
Lemma check_3 : check_all 3 = true. Proof. vm_compute. reflexivity. Qed.
Lemma check_5 : check_all 5 = true. Proof. vm_compute. reflexivity. Qed.

Lemma good_b_ok p a b c d e x : 2 <= p -> good_b p a b c d e x = true -> good p (e, d, c, b, a) x.
Proof.
  intros P. unfold good_b, good. cbn [fval fder]. destruct (Z.eqb_spec (gval a b c d e x mod p) 0) as [V|V].
  - intros H. apply negb_true_iff, Z.eqb_neq in H. left. split; [apply Z.mod_divide; lia|].
    intros D. apply H, Z.mod_divide; [lia|exact D].
  - intros H. apply existsb_exists in H as (y & _ & Y). apply Z.eqb_eq in Y. right. split.
    + intros D. apply V, Z.mod_divide; [lia|exact D].
    + exists y. apply Z.mod_divide; [lia|]. rewrite Zminus_mod, Y, Z.sub_diag. apply Z.mod_0_l. lia.
Qed.
Ltac eqm_tac := repeat first [assumption | apply Zminus_eqm | apply Zplus_eqm | apply Zmult_eqm | reflexivity].
Ltac fold_eqm := match goal with |- ?x mod ?p = ?y mod ?p => change (eqm p x y); eqm_tac end.
Lemma good_b_mod p a b c d e x : good_b p (a mod p) (b mod p) (c mod p) (d mod p) (e mod p) x = good_b p a b c d e x.
Proof.
  assert (M : forall k, eqm p (k mod p) k) by (intros k; apply Zmod_mod).
  pose proof (M a). pose proof (M b). pose proof (M c). pose proof (M d). pose proof (M e). clear M.
  unfold good_b. 
  assert (E1 : gval (a mod p) (b mod p) (c mod p) (d mod p) (e mod p) x mod p = gval a b c d e x mod p) by (unfold gval; fold_eqm).
  assert (E2 : gder (a mod p) (b mod p) (c mod p) (d mod p) x mod p = gder a b c d x mod p) by (unfold gder; fold_eqm).
  now rewrite E1, E2.
Qed.
Lemma gdisc_mod p a b c d e : gdisc (a mod p) (b mod p) (c mod p) (d mod p) (e mod p) mod p = gdisc a b c d e mod p.
Proof.
  assert (M : forall k, eqm p (k mod p) k) by (intros k; apply Zmod_mod).
  pose proof (M a). pose proof (M b). pose proof (M c). pose proof (M d). pose proof (M e). clear M.
  unfold gdisc; fold_eqm.
Qed.
Lemma check_cases p a b c d e : check p a b c d e = true ->
  gdisc a b c d e mod p = 0 \/ good_b p e d c b a 0 = true \/ exists x, good_b p a b c d e x = true.
Proof.
  unfold check. intros H. apply orb_true_iff in H as [H|H]; [apply orb_true_iff in H as [H|H]|].
  - left. now apply Z.eqb_eq.
  - right. left. exact H.
  - right. right. apply existsb_exists in H as (x & _ & X). now exists x.
Qed.
Lemma check_good p a b c d e : 2 <= p -> check_all p = true -> ~ (p | gdisc a b c d e) ->
  good p (a, b, c, d, e) 0 \/ exists x, good p (e, d, c, b, a) x.
Proof.
  intros P H D. assert (M : forall k, In (k mod p) (range p)) by (intros k; apply in_range, Z.mod_pos_bound; lia).
  destruct (check_cases _ _ _ _ _ _ (all5_ok _ _ _ _ _ _ _ H (M a) (M b) (M c) (M d) (M e))) as [K|[K|(x & K)]].
  - exfalso. apply D, Z.mod_divide; [lia|]. rewrite <- gdisc_mod. exact K.
  - left. rewrite good_b_mod in K. apply good_b_ok; assumption.
  - right. exists x. rewrite good_b_mod in K. apply good_b_ok; assumption.
Qed.

Lemma good_sol2 p c x : prime p -> p <> 2 -> good p c x -> sol p c.
Proof.
  intros Hp P2. destruct c as [[[[c0 c1] c2] c3] c4]. intros [(D & N)|(N & y & Y)]; cbn [fval fder] in *.
  - destruct (hensel p c4 c3 c2 c1 c0 1 0 x Hp) as (f & C & _ & F); [lia| |rewrite Z.pow_1_r; exact D|].
    + split; [rewrite Z.pow_0_r; apply Z.divide_1_l|rewrite Z.pow_1_r; exact N].
    + exists f, (fun _ => 0). split; [exact C|]. split; [apply coherent_const|]. intros n. cbn [fval].
      rewrite Z.mul_0_l. apply Z.divide_sub_r; [apply Z.divide_0_r|apply F].
  - destruct (unit_square_odd p _ y Hp P2 N Y) as (f & C & F).
    exists (fun _ => x), f. split; [apply coherent_const|]. split; [exact C|exact F].
Qed.
Lemma sol_affine p a b c d e : prime p -> sol p (e, d, c, b, a) -> padic_point p a b c d e.
Proof.
  intros Hp (X & Y & C1 & C2 & T). pose proof (prime_ge_2 p Hp). exists X, (fun _ => 1), Y.
  split; [exact C1|]. split; [apply coherent_const|]. split; [exact C2|]. split.
  + intros (_ & H1). apply Z.divide_pos_le in H1; lia.
  + intros n. rewrite form_affine. apply T.
Qed.
Lemma sol_infinity p a b c d e : prime p -> sol p (a, b, c, d, e) -> padic_point p a b c d e.
Proof.
  intros Hp (X & Y & C1 & C2 & T). pose proof (prime_ge_2 p Hp). exists (fun _ => 1), X, Y.
  split; [apply coherent_const|]. split; [exact C1|]. split; [exact C2|]. split.
  + intros (H1 & _). apply Z.divide_pos_le in H1; lia.
  + intros n. rewrite form_infinity. apply T.
Qed.

Theorem good_reduction p a b c d e : prime p -> p <> 2 -> ~ (p | gdisc a b c d e) -> padic_point p a b c d e.
Proof.
  intros Hp P2 D. pose proof (prime_ge_2 p Hp) as P.
  assert (C : good p (a, b, c, d, e) 0 \/ exists x, good p (e, d, c, b, a) x).
  { destruct (Z.leb_spec p 6) as [S6|L6].
    - assert (p = 3 \/ p = 5) as [-> | ->].
      { assert (p = 3 \/ p = 4 \/ p = 5 \/ p = 6) as [H|[H|[H|H]]] by lia; auto; exfalso; subst p.
        - destruct (prime_divisors 4 Hp 2) as [H|[H|[H|H]]]; [exists 2; reflexivity|..]; lia.
        - destruct (prime_divisors 6 Hp 2) as [H|[H|[H|H]]]; [exists 3; reflexivity|..]; lia. }
      + apply check_good; [lia|exact check_3|exact D].
      + apply check_good; [lia|exact check_5|exact D].
    - right. apply good_prime7; auto. }
  destruct C as [G|(x & G)].
  - apply sol_infinity; [exact Hp|]. now apply good_sol2 with 0.
  - apply sol_affine; [exact Hp|]. now apply good_sol2 with x.
Qed.

(** ** the Hilbert symbol check *)
Lemma quick_Qp p a c e : prime p -> a <> 0 -> c * c - 4 * a * e <> 0 -> padic_point p a 0 c 0 e -> soluble_Qp p a (c * c - 4 * a * e).
Proof.
  intros Hp A D (x & z & y & CX & CZ & CY & PR & H). pose proof (prime_ge_2 p Hp) as P.
  assert (CM : forall u v, coherent p u -> coherent p v -> coherent p (fun n => u n * v n)).
  { intros u v U V n. replace (u (S n) * v (S n) - u n * v n) with ((u (S n) - u n) * v (S n) + u n * (v (S n) - v n)) by ring.
    apply Z.divide_add_r; [apply Z.divide_mul_l, U|apply Z.divide_mul_r, V]. }
  exists (fun n => 2 * y n), (fun n => z n * z n), (fun n => 2 * a * (x n * x n) + c * (z n * z n)).
  split; [apply (CM (fun _ => 2)); [apply coherent_const|exact CY]|]. split; [now apply CM|]. split.
  - intros n. pose proof (CM x x CX CX n) as X2. pose proof (CM z z CZ CZ n) as Z2. cbn beta in X2, Z2.
    replace (2 * a * (x (S n) * x (S n)) + c * (z (S n) * z (S n)) - (2 * a * (x n * x n) + c * (z n * z n))) with
      (2 * a * (x (S n) * x (S n) - x n * x n) + c * (z (S n) * z (S n) - z n * z n)) by ring.
    apply Z.divide_add_r; apply Z.divide_mul_r; assumption.
  - split.
    + assert (UNIT : forall s, coherent p s -> ~ (p | s 1%nat) -> forall n, (1 <= n)%nat -> ~ (p | s n)).
      { intros s CS N1 n N D0. apply N1. pose proof (coherent_le p s CS (n - 1) 1) as L. replace (1 + (n - 1))%nat with n in L by lia.
        rewrite Z.pow_1_r in L. replace (s 1%nat) with (s n - (s n - s 1%nat)) by ring. now apply Z.divide_sub_r. }
      destruct (Znumtheory.Zdivide_dec p (z 1%nat)) as [Z1|Z1].
      * assert (X1 : ~ (p | x 1%nat)) by tauto. destruct (pow_exceeds p (2 * a) P ltac:(lia)) as (n & N). exists n. intros (_ & D2 & D3).
        destruct n as [|n]; [apply N; exists (2 * a); rewrite Z.pow_0_r; ring|].
        pose proof (UNIT x CX X1 (S n) ltac:(lia)) as XN. apply N.
        assert (G : rel_prime (p ^ Z.of_nat (S n)) (x (S n) * x (S n))).
        { apply rel_prime_mult; apply rel_prime_sym; rewrite <- (Z.pow_1_r (x (S n))); apply rel_prime_Zpower; try lia;
            apply rel_prime_sym, prime_rel_prime; auto. }
        apply (Gauss _ (x (S n) * x (S n))); [|exact G].
        replace (x (S n) * x (S n) * (2 * a)) with (2 * a * (x (S n) * x (S n)) + c * (z (S n) * z (S n)) - c * (z (S n) * z (S n))) by ring.
        apply Z.divide_sub_r; [exact D3|apply Z.divide_mul_r; exact D2].
      * exists 1%nat. intros (_ & D2 & _). rewrite Z.pow_1_r in D2. apply (prime_mult p Hp) in D2. tauto.
    + intros n. replace (a * (2 * y n) * (2 * y n) + (c * c - 4 * a * e) * (z n * z n) * (z n * z n) -
        (2 * a * (x n * x n) + c * (z n * z n)) * (2 * a * (x n * x n) + c * (z n * z n))) with
        (4 * a * (y n * y n - quartic_form a 0 c 0 e (x n) (z n))) by (unfold quartic_form; ring).
      apply Z.divide_mul_r, H.
Qed.
Lemma quick_R a c e : a <> 0 -> real_point a 0 c 0 e -> soluble_R a (c * c - 4 * a * e).
Proof.
  intros A (x & z & y & NZ & E). exists (2 * y)%R, (z * z)%R, (2 * IZR a * (x * x) + IZR c * (z * z))%R. split.
  - intros (_ & Z2 & X2). apply NZ. assert (Z0 : (z = 0)%R) by (apply Rmult_integral in Z2; tauto). split; [|exact Z0].
    rewrite Z0 in X2. assert (A0 : (IZR a <> 0)%R) by (intros H; apply A, eq_IZR; exact H).
    assert (X0 : (IZR a * (x * x) = 0)%R) by lra. apply Rmult_integral in X0 as [X0|X0]; [contradiction|].
    apply Rmult_integral in X0. tauto.
  - rewrite minus_IZR, !mult_IZR.
    replace (IZR a * (2 * y) * (2 * y))%R with (4 * IZR a * (y * y))%R by ring. rewrite E. ring.
Qed.

(** ** the loops *)
Section L.
Variable factor : Z -> list Z -> list (list Z * Z).
Definition verdict (a b c d e : Z) (plist : list Z) (r q : Z) : Prop :=
  (r = 1 /\ real_point a b c d e /\ forall p, In p plist -> padic_point p a b c d e) \/
  (r = 0 /\ (q = 0 \/ In q plist) /\ ~ point_at q a b c d e).

Lemma all_soluble_ok a b c d e : gdisc a b c d e <> 0 -> forall l badp, Forall prime l -> (forall p, In p l -> factors_poly p (factor p)) ->
  exists r q, all_soluble factor a b c d e l badp = Ok (r, q) /\
    ((r = 1 /\ forall p, In p l -> padic_point p a b c d e) \/ (r = 0 /\ In q l /\ ~ padic_point q a b c d e)).
Proof.
  intros HD. induction l as [|p l IH]; intros badp F HF; cbn [all_soluble].
  - exists 1, badp. split; [reflexivity|]. left. split; [reflexivity|]. intros p [].
  - inversion F as [|p' l' Hp FL]. subst p' l'.
    destruct (new_qpsoluble_ok factor a b c d e p Hp (HF p (or_introl eq_refl)) HD) as (s & -> & S1 & S0). rewrite bind_Ok. destruct s.
    + destruct (IH p FL (fun q I => HF q (or_intror I))) as (r & q & -> & [(-> & H)|(-> & I & H)]).
      * exists 1, q. split; [reflexivity|]. left. split; [reflexivity|]. intros p' [<-|I]; auto.
      * exists 0, q. split; [reflexivity|]. right. split; [reflexivity|]. split; [now right|exact H].
    + exists 0, p. split; [reflexivity|]. right. split; [reflexivity|]. split; [now left|].
      destruct (S0 eq_refl) as (N & N0 & H). intros Q. exact (point_excl p a b c d e N N0 Q H).
Qed.

Lemma hilbert_quick a c e l badp : a <> 0 -> c * c - 4 * a * e <> 0 -> Forall prime l ->
  exists v q, global_hilbert a (c * c - 4 * a * e) l badp = Ok (v, q) /\
    (v = 0 \/ (v = 1 /\ (q = 0 \/ In q l) /\ ~ point_at q a 0 c 0 e)).
Proof.
  intros A D F. unfold global_hilbert. destruct (real_place a _ A D) as (r & -> & [(-> & _ & _)|(-> & HR)]); rewrite bind_Ok; cbn [Z.eqb].
  - destruct (hilbert_any_ok a _ A D l badp F) as (v & q & -> & [(-> & _)|(-> & I & H)]).
    + exists 0, q. auto.
    + exists 1, q. split; [reflexivity|]. right. split; [reflexivity|]. split; [now right|].
      rewrite Forall_forall in F. pose proof (F q I) as Hq. pose proof (prime_ge_2 q Hq). unfold point_at.
      destruct (Z.eqb_spec q 0); [lia|]. intros Q. apply H. now apply quick_Qp.
  - exists 1, 0. split; [reflexivity|]. right. split; [reflexivity|]. split; [now left|]. cbn. intros Q. apply HR. now apply quick_R.
Qed.

Theorem locallysoluble_ok a b c d e l badp : discriminant a b c d e <> 0 -> Forall prime l -> (forall p, In p l -> factors_poly p (factor p)) ->
  exists r q, locallysoluble factor a b c d e l badp = Ok (r, q) /\ verdict a b c d e l r q.
Proof.
  intros HD F HF. assert (GD : gdisc a b c d e <> 0) by (intros H; apply HD; rewrite <- gdisc_spec, H; reflexivity).
  unfold locallysoluble. destruct (Rsoluble a b c d e) eqn:RS; cbn [negb].
  2:{ exists 0, 0. split; [reflexivity|]. right. split; [reflexivity|]. split; [now left|]. cbn. intros Q.
      apply (Rsoluble_ok a b c d e HD) in Q. congruence. }
  apply (Rsoluble_ok a b c d e HD) in RS.
  assert (T : forall bp, exists r q, all_soluble factor a b c d e l bp = Ok (r, q) /\ verdict a b c d e l r q).
  { intros bp. destruct (all_soluble_ok a b c d e GD l bp F HF) as (r & q & E & [(-> & H)|(-> & I & H)]).
    - exists 1, q. split; [exact E|]. left. auto.
    - exists 0, q. split; [exact E|]. right. split; [reflexivity|]. split; [now right|].
      rewrite Forall_forall in F. pose proof (prime_ge_2 q (F q I)). unfold point_at. destruct (Z.eqb_spec q 0); [lia|exact H]. }
  destruct ((b =? 0) && (d =? 0)) eqn:BD; [|rewrite bind_Ok; cbn [Z.eqb negb]; apply T].
  apply andb_true_iff in BD as (B & D). apply Z.eqb_eq in B, D. subst b d.
  assert (A0 : a <> 0) by (intros ->; apply GD; unfold gdisc; ring).
  assert (D0 : c * c - 4 * a * e <> 0).
  { intros H. apply GD. replace (gdisc a 0 c 0 e) with (16 * a * e * ((c * c - 4 * a * e) * (c * c - 4 * a * e))) by (unfold gdisc; ring). rewrite H. ring. }
  destruct (hilbert_quick a c e l badp A0 D0 F) as (v & q & -> & [-> |(-> & I & H)]); rewrite bind_Ok; cbn [Z.eqb negb].
  - apply T.
  - exists 0, q. split; [reflexivity|]. right. auto.
Qed.
Theorem locallysoluble_ace_ok a c e l badp : discriminant a 0 c 0 e <> 0 -> Forall prime l -> (forall p, In p l -> factors_poly p (factor p)) ->
  exists r q, locallysoluble_ace factor a c e l badp = Ok (r, q) /\ verdict a 0 c 0 e l r q.
Proof.
  intros HD F HF. assert (GD : gdisc a 0 c 0 e <> 0) by (intros H; apply HD; rewrite <- gdisc_spec, H; reflexivity).
  assert (A0 : a <> 0) by (intros ->; apply GD; unfold gdisc; ring).
  assert (D0 : c * c - 4 * a * e <> 0).
  { intros H. apply GD. replace (gdisc a 0 c 0 e) with (16 * a * e * ((c * c - 4 * a * e) * (c * c - 4 * a * e))) by (unfold gdisc; ring). rewrite H. ring. }
  unfold locallysoluble_ace. cbv zeta.
  destruct (hilbert_quick a c e l badp A0 D0 F) as (v & q & -> & [-> |(-> & I & H)]); rewrite bind_Ok; cbn [Z.eqb negb].
  - now apply locallysoluble_ok.
  - exists 0, q. split; [reflexivity|]. right. auto.
Qed.

Lemma verdict_everywhere a b c d e l r q : discriminant a b c d e <> 0 -> Forall prime l ->
  In 2 l -> (forall p, prime p -> (p | discriminant a b c d e) -> In p l) -> verdict a b c d e l r q ->
  (r = 1 /\ everywhere_soluble a b c d e) \/ (r = 0 /\ (q = 0 \/ prime q) /\ ~ point_at q a b c d e /\ ~ everywhere_soluble a b c d e).
Proof.
  intros HD F L2 LD [(-> & RP & H)|(-> & I & H)].
  - left. split; [reflexivity|]. split; [exact RP|]. intros p Hp. destruct (Z.eq_dec p 2) as [->|P2]; [auto|].
    destruct (Znumtheory.Zdivide_dec p (discriminant a b c d e)) as [D|D]; [auto|].
    apply good_reduction; auto. intros G. apply D. rewrite <- gdisc_spec. now apply Z.divide_mul_r.
  - right. split; [reflexivity|]. rewrite Forall_forall in F.
    assert (Q : q = 0 \/ prime q) by (destruct I; auto). split; [exact Q|]. split; [exact H|].
    intros (RP & AP). apply H. unfold point_at. destruct (Z.eqb_spec q 0); [exact RP|]. apply AP. tauto.
Qed.
End L.
