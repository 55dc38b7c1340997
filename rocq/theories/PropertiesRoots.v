(** C80: rational and integer roots of integer polynomials *)
From Coq Require Import ZArith Lia List Bool QArith Qcanon.
From Verif Require Import Base RatModel DivPolModel DivPolProofs PointsProofs DivPolQ RootsModel RootsProofs.
Import ListNotations.
Open Scope Z_scope.

(** [factor_ok f l]: l is a factorisation of f over Z as NTL's factor promises it *)

(** roots(f): exactly the rational roots, each once, in lowest terms, increasing *)
Theorem C80_roots factor f : factor_ok f (factor f) ->
  exists l, zroots factor f = Ok l /\
    (forall n d, In (n, d) l <-> 0 < d /\ Z.gcd n d = 1 /\ peval f (zq n / zq d)%Qc = 0%Qc) /\
    Sorted.StronglySorted (fun a b => fst a * snd b < fst b * snd a) l.
Proof. exact (zroots_ok factor f). Qed.

(** introots(f): exactly the integer roots, each once, increasing *)
Theorem C80_introots factor f : factor_ok f (factor f) ->
  exists l, introots factor f = Ok l /\ (forall n, In n l <-> peval f (zq n) = 0%Qc) /\ Sorted.StronglySorted Z.lt l.
Proof. exact (introots_ok factor f). Qed.

Lemma peval_int p n : exists v, peval p (zq n) = zq v /\ v = fold_right (fun a r => a + n * r) 0 p.
Proof.
  induction p as [|a p (v & IH & Ev)]; cbn [peval fold_right]; [exists 0; now rewrite zq_0|].
  eexists. split; [|reflexivity]. now rewrite IH, <- zq_mul, <- zq_add, <- Ev.
Qed.
Lemma peval_zq p n : peval p (zq n) = 0%Qc <-> fold_right (fun a r => a + n * r) 0 p = 0.
Proof.
  destruct (peval_int p n) as (v & -> & <-). rewrite <- zq_0. split; [apply zq_inj|now intros ->].
Qed.
(** the wrappers: x^3+ax^2+bx+c, x^4+ax^3+bx^2+cx+d, and coefficients with the leading one first *)
Theorem C80_cubic factor a b c : factor_ok [c; b; a; 1] (factor [c; b; a; 1]) ->
  exists l, Introotscubic factor a b c = Ok l /\ Sorted.StronglySorted Z.lt l /\ forall x, In x l <-> x*x*x + a*x*x + b*x + c = 0.
Proof.
  intros H. destruct (introots_ok factor _ H) as (l & El & I & S). exists l. split; [exact El|]. split; [exact S|].
  intros x. rewrite I, peval_zq. cbn [fold_right].
  match goal with |- ?u = _ <-> ?v = _ => replace u with v by ring end. reflexivity.
Qed.
Theorem C80_quartic factor a b c d : factor_ok [d; c; b; a; 1] (factor [d; c; b; a; 1]) ->
  exists l, Introotsquartic factor a b c d = Ok l /\ Sorted.StronglySorted Z.lt l /\ forall x, In x l <-> x*x*x*x + a*x*x*x + b*x*x + c*x + d = 0.
Proof.
  intros H. destruct (introots_ok factor _ H) as (l & El & I & S). exists l. split; [exact El|]. split; [exact S|].
  intros x. rewrite I, peval_zq. cbn [fold_right].
  match goal with |- ?u = _ <-> ?v = _ => replace u with v by ring end. reflexivity.
Qed.
Lemma peval_app p q x : peval (p ++ q) x = (peval p x + x ^ (length p) * peval q x)%Qc.
Proof. induction p as [|a p IH]; cbn [app peval length Qcpower]; [ring|]. rewrite IH. ring. Qed.
(** the value at x of the polynomial with the given coefficients, leading one first *)
Definition horner (coeffs : list Z) (x : Qc) : Qc := fold_left (fun v c => v * x + zq c)%Qc coeffs 0%Qc.
Lemma horner_rev l x : horner l x = peval (rev l) x.
Proof.
  unfold horner. rewrite <- fold_left_rev_right. induction (rev l) as [|a r IH]; cbn [fold_right peval]; [reflexivity|]. rewrite IH. ring.
Qed.
Theorem C80_coeffs factor coeffs : factor_ok (rev coeffs) (factor (rev coeffs)) ->
  exists l, roots_coeffs factor coeffs = Ok l /\
    (forall n d, In (n, d) l <-> 0 < d /\ Z.gcd n d = 1 /\ horner coeffs (zq n / zq d)%Qc = 0%Qc) /\
    Sorted.StronglySorted (fun a b => fst a * snd b < fst b * snd a) l.
Proof.
  intros H. unfold roots_coeffs. destruct (Z.ltb_spec (Z.of_nat (length coeffs) - 1) 1) as [L|L].
  - exists []. split; [reflexivity|]. split; [|constructor]. intros n d. split; [intros []|]. intros (Hd & G & R). rewrite horner_rev in R.
    (* a constant with a root is zero and has infinitely many *)
    assert (Q : forall x, peval (rev coeffs) x = 0%Qc).
    { intros x. rewrite <- R. destruct coeffs as [|a [|b r]]; cbn [length] in L; try lia; cbn [rev app peval]; ring. }
    destruct (introots_ok factor _ H) as (l & _ & I & _). exfalso.
    assert (B : forall x, In x l -> x <= fold_right Z.max 0 l). { clear. intros x. induction l as [|y l IH]; [intros []|]. cbn [fold_right]. intros [->|J]; [lia|]. specialize (IH J). lia. }
    specialize (B (fold_right Z.max 0 l + 1)). rewrite I in B. specialize (B (Q _)). lia.
  - destruct (zroots_ok factor _ H) as (l & El & I & S). exists l. split; [exact El|]. split; [|exact S]. intros n d. rewrite I, horner_rev. reflexivity.
Qed.

(** every linear polynomial is irreducible: degrees add *)
Lemma lin_irreducible a b : b <> 0 -> irreducible [a; b].
Proof.
  intros Hb. assert (L : ld [a; b] 1 b). { split; [reflexivity|]. intros [|[|j]] Hj; try lia. unfold co. cbn. now destruct j. }
  pose proof (ld_pdeg _ _ _ L Hb) as D. split; [lia|]. intros p q H.
  destruct (pdeg_ld p) as [[Dp _]|(m & Dp & Np & Lp)]; [lia|]. destruct (pdeg_ld q) as [[Dq _]|(n & Dq & Nq & Lq)]; [lia|].
  pose proof (peq_ld _ _ _ _ H (ld_mul _ _ _ _ _ _ Lp Lq)) as L'. apply ld_pdeg in L'; [lia|]. apply Z.neq_mul_0. auto.
Qed.
(** 3(x-1)(x+1)(2x-1)^2, with roots -1, 1/2, 1 *)
Definition f0 : poly := [-3; 12; -9; -12; 12].
Definition fac0 : list (poly * Z) := [([-1; 1], 1); ([-1; 2], 2); ([1; 1], 1)].
Example C80_ex : factor_ok f0 fac0 /\ zroots (fun _ => fac0) f0 = Ok [(-1, 1); (1, 2); (1, 1)] /\ introots (fun _ => fac0) f0 = Ok [-1; 1].
Proof.
  split; [|vm_compute; auto]. split; [exists 3; split; [lia|]; intros j; do 9 (destruct j as [|j]; [reflexivity|]); cbn; destruct j; reflexivity|]. split.
  - assert (P : forall a, primitive [a; 1]) by (intros a k H; specialize (H 1%nat); cbn in H; apply Z.divide_1_r in H; exact H).
    assert (P2 : primitive [-1; 2]) by (intros k H; specialize (H 0%nat); cbn in H; apply Z.divide_opp_r in H; change (- -1) with 1 in H; now apply Z.divide_1_r in H).
    repeat apply Forall_cons; try apply Forall_nil; cbn [fst snd]; (split; [|split; [|split]]); try (apply lin_irreducible; lia); try apply P; try apply P2; try (vm_compute; reflexivity).
  - repeat constructor; intros H; (pose proof (H 0%nat) as H0; pose proof (H 1%nat) as H1); vm_compute in H0, H1; congruence.
Qed.

Print Assumptions C80_roots.
Print Assumptions C80_introots.
Print Assumptions C80_cubic.
Print Assumptions C80_quartic.
Print Assumptions C80_coeffs.
