(** C68: Rsoluble and locallysoluble of mlocsol.cc: solubility over the reals and everywhere locally. *)
From Coq Require Import ZArith Reals Lra Lia List Bool Znumtheory.
From Verif Require Import Base ConicExample LocSolModel LocSolSpec LocSolSSModel LocSolSSSpec LocSolSSFactor LocSolProofs LocSolGlobalModel LocSolGlobalSpec LocSolGlobal.
Import ListNotations.
Open Scope Z_scope.

(** For nonzero discriminant the test on the invariants decides whether there is a real point. *)
Theorem C68_Rsoluble a b c d e : discriminant a b c d e <> 0 -> (Rsoluble a b c d e = true <-> real_point a b c d e).
Proof. apply Rsoluble_ok. Qed.
Print Assumptions C68_Rsoluble.

(** For zero discriminant it does not: y^2 = -(x^2 - 1)^2 has the real point (1, 0). *)
Theorem C68_zero_disc_refuted : exists a b c d e, Rsoluble a b c d e = false /\ real_point a b c d e.
Proof.
  exists (-1), 0, 2, 0, (-1). split; [reflexivity|]. exists 1%R, 1%R, 0%R. split; [lra|]. ring.
Qed.
Print Assumptions C68_zero_disc_refuted.

(** An odd prime not dividing the discriminant is never an obstruction. *)
Theorem C68_good_prime p a b c d e : prime p -> p <> 2 -> ~ (p | discriminant a b c d e) -> padic_point p a b c d e.
Proof. intros Hp P2 D. apply good_reduction; auto. intros G. apply D. rewrite <- gdisc_spec. now apply Z.divide_mul_r. Qed.
Print Assumptions C68_good_prime.

(** Given a list of primes, locallysoluble ends; the answer 1 means points over R and over all Q_p, p in the list; with the
    answer 0, badp is 0 or in the list, and there is no point over R respectively Q_badp. *)
Theorem C68_locallysoluble factor a b c d e l badp : discriminant a b c d e <> 0 -> Forall prime l ->
  (forall p, In p l -> factors_poly p (factor p)) ->
  exists r q, locallysoluble factor a b c d e l badp = Ok (r, q) /\
   ((r = 1 /\ real_point a b c d e /\ forall p, In p l -> padic_point p a b c d e) \/
    (r = 0 /\ (q = 0 \/ In q l) /\ ~ point_at q a b c d e)).
Proof. apply locallysoluble_ok. Qed.
Print Assumptions C68_locallysoluble.

(** When the list contains 2 and the primes dividing the discriminant, the answer is right for all places. *)
Theorem C68_everywhere factor a b c d e l badp : discriminant a b c d e <> 0 -> Forall prime l ->
  (forall p, In p l -> factors_poly p (factor p)) ->
  In 2 l -> (forall p, prime p -> (p | discriminant a b c d e) -> In p l) ->
  exists r q, locallysoluble factor a b c d e l badp = Ok (r, q) /\
   ((r = 1 /\ everywhere_soluble a b c d e) \/
    (r = 0 /\ (q = 0 \/ prime q) /\ ~ point_at q a b c d e /\ ~ everywhere_soluble a b c d e)).
Proof.
  intros HD F HF L2 LD. destruct (locallysoluble_ok factor a b c d e l badp HD F HF) as (r & q & E & V).
  exists r, q. split; [exact E|]. now apply verdict_everywhere with l.
Qed.
Print Assumptions C68_everywhere.

(** The version for y^2 = a x^4 + c x^2 z^2 + e z^4 *)
Theorem C68_everywhere_ace factor a c e l badp : discriminant a 0 c 0 e <> 0 -> Forall prime l ->
  (forall p, In p l -> factors_poly p (factor p)) ->
  In 2 l -> (forall p, prime p -> (p | discriminant a 0 c 0 e) -> In p l) ->
  exists r q, locallysoluble_ace factor a c e l badp = Ok (r, q) /\
   ((r = 1 /\ everywhere_soluble a 0 c 0 e) \/
    (r = 0 /\ (q = 0 \/ prime q) /\ ~ point_at q a 0 c 0 e /\ ~ everywhere_soluble a 0 c 0 e)).
Proof.
  intros HD F HF L2 LD. destruct (locallysoluble_ace_ok factor a c e l badp HD F HF) as (r & q & E & V).
  exists r, q. split; [exact E|]. now apply verdict_everywhere with l.
Qed.
Print Assumptions C68_everywhere_ace.

(** y^2 = 2 x^4 - 34 is soluble everywhere locally; y^2 = 3 x^4 + 2 is not, because of Q_3, and y^2 = - x^4 - 1 because of R. *)
Lemma primes_2_3_17 : Forall prime [2; 3; 17].
Proof. apply Forall_forall. intros p [<-|[<-|[<-|[]]]]; apply primeb_iff; try lia; vm_compute; reflexivity. Qed.
Example C68_ex : everywhere_soluble 2 0 0 0 (-34) /\
  (forall factor, locallysoluble factor 3 0 0 0 2 [3; 2] 7 = Ok (0, 3)) /\
  (forall factor, locallysoluble factor (-1) 0 0 0 (-1) [2; 3] 7 = Ok (0, 0)).
Proof.
  split; [|split; intros factor; vm_compute; reflexivity].
  destruct (C68_everywhere factor_poly 2 0 0 0 (-34) [2; 3; 17] 7) as (r & q & E & H).
  - vm_compute. discriminate.
  - exact primes_2_3_17.
  - intros p I. apply factor_poly_ok. pose proof primes_2_3_17 as F. rewrite Forall_forall in F. now apply F.
  - now left.
  - intros p Hp D. replace (discriminant 2 0 0 0 (-34)) with (- (2 ^ 14 * (3 ^ 3 * 17 ^ 3))) in D by (vm_compute; reflexivity).
    apply (proj1 (Z.divide_opp_r _ _)) in D.
    assert (PW : forall a n, prime a -> (0 <= n) -> (p | a ^ n) -> p = a).
    { intros a n A N H. apply prime_div_prime; auto. revert H. revert n N. apply (natlike_ind (fun n => (p | a ^ n) -> (p | a))).
      - intros H. exfalso. rewrite Z.pow_0_r in H. apply Z.divide_1_r_nonneg in H; pose proof (prime_ge_2 p Hp); lia.
      - intros n N IH H. rewrite Z.pow_succ_r in H by exact N. apply prime_mult in H; [|exact Hp]. tauto. }
    pose proof primes_2_3_17 as F. inversion F as [|? ? P2 F2]; subst. inversion F2 as [|? ? P3 F3]; subst. inversion F3 as [|? ? P17 _]; subst.
    apply (prime_mult p Hp) in D as [D|D]; [left; symmetry; apply (PW 2 14); auto; lia|].
    apply (prime_mult p Hp) in D as [D|D]; [right; left; symmetry; apply (PW 3 3); auto; lia|right; right; left; symmetry; apply (PW 17 3); auto; lia].
  - assert (E2 : locallysoluble factor_poly 2 0 0 0 (-34) [2; 3; 17] 7 = Ok (1, 17)) by (vm_compute; reflexivity).
    rewrite E2 in E. injection E as <- <-. destruct H as [(_ & H)|(H & _)]; [exact H|discriminate].
Qed.
