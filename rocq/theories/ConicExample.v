(** A function meeting the contract of pdivs, for the examples. *)
From Coq Require Import ZArith Lia List Bool Znumtheory Sorted.
From Verif Require Import JacobiMath ConicSpec.
Import ListNotations.
Open Scope Z_scope.

Fixpoint pd_list (n : Z) (k : nat) (p : Z) : list Z :=
  match k with
  | O => []
  | S k => if (n mod p =? 0) && forallb (fun i => negb (p mod Z.of_nat i =? 0)) (seq 2 (Z.to_nat p - 2))
           then p :: pd_list n k (p + 1) else pd_list n k (p + 1)
  end.
Definition pdivs_example (n : Z) : list Z := pd_list n (Z.to_nat (Z.abs n)) 2.

Lemma primeb_iff p : 2 <= p -> forallb (fun i => negb (p mod Z.of_nat i =? 0)) (seq 2 (Z.to_nat p - 2)) = true <-> prime p.
Proof.
  intros P. rewrite forallb_forall. split.
  - intros H. destruct (prime_divisor_ex p) as (q & Hq & D); [lia|].
    pose proof (prime_ge_2 q Hq). pose proof (Z.divide_pos_le q p ltac:(lia) D).
    destruct (Z.eq_dec q p) as [<-|N]; [exact Hq|]. exfalso.
    assert (I : In (Z.to_nat q) (seq 2 (Z.to_nat p - 2))) by (apply in_seq; lia).
    specialize (H _ I). rewrite Z2Nat.id in H by lia. apply negb_true_iff, Z.eqb_neq in H. apply H. apply Z.mod_divide; [lia|exact D].
  - intros Hp i I. apply in_seq in I. apply negb_true_iff, Z.eqb_neq. intros E. apply Z.mod_divide in E; [|lia].
    apply prime_divisors in E; [|exact Hp]. lia.
Qed.
Lemma pd_list_ok n : n <> 0 -> forall k p, 2 <= p ->
  Sorted Z.lt (pd_list n k p) /\ Forall (Z.le p) (pd_list n k p) /\
  forall q, In q (pd_list n k p) <-> prime q /\ (q | n) /\ p <= q < p + Z.of_nat k.
Proof.
  intros N. induction k as [|k IH]; intros p P.
  - split; [constructor|]. split; [constructor|]. intros q. cbn [pd_list In]. split; [intros []|]. intros (_ & _ & H). lia.
  - destruct (IH (p + 1)) as (S1 & F1 & H1); [lia|]. cbn [pd_list].
    assert (F1' : Forall (Z.le p) (pd_list n k (p + 1))) by (eapply Forall_impl; [|exact F1]; intros x Hx; cbv beta in Hx; lia).
    destruct (n mod p =? 0) eqn:E1; [destruct (forallb _ _) eqn:E2|]; cbn [andb].
    + apply Z.eqb_eq, Z.mod_divide in E1; [|lia]. apply primeb_iff in E2; [|exact P]. split; [|split].
      * constructor; [exact S1|]. destruct (pd_list n k (p + 1)); [constructor|]. inversion F1; subst. constructor. lia.
      * constructor; [lia|exact F1'].
      * intros q. cbn [In]. rewrite H1. split.
        -- intros [<-|(A & B & C)]; [split; [exact E2|split; [exact E1|lia]]|split; [exact A|split; [exact B|lia]]].
        -- intros (A & B & C). destruct (Z.eq_dec p q) as [|]; [now left|right]. split; [exact A|split; [exact B|lia]].
    + split; [exact S1|]. split; [exact F1'|]. intros q. rewrite H1. split.
      * intros (A & B & C). split; [exact A|split; [exact B|lia]].
      * intros (A & B & C). split; [exact A|split; [exact B|]]. assert (q <> p); [|lia]. intros ->.
        apply primeb_iff in A; [|exact P]. rewrite A in E2. discriminate.
    + split; [exact S1|]. split; [exact F1'|]. intros q. rewrite H1. split.
      * intros (A & B & C). split; [exact A|split; [exact B|lia]].
      * intros (A & B & C). split; [exact A|split; [exact B|]]. assert (q <> p); [|lia]. intros ->.
        apply Z.mod_divide in B; [|lia]. rewrite B in E1. discriminate.
Qed.
Lemma pdivs_contract_met : finds_primes pdivs_example.
Proof.
  intros n N. destruct (pd_list_ok n N (Z.to_nat (Z.abs n)) 2 ltac:(lia)) as (S & _ & H). split; [exact S|].
  intros p. unfold pdivs_example. rewrite H. split; [tauto|]. intros (A & B). split; [exact A|]. split; [exact B|].
  pose proof (prime_ge_2 p A). assert (p <= Z.abs n) by (apply Z.divide_pos_le; [lia|now apply Z.divide_abs_r]). lia.
Qed.
