(** A verified trial-division primality test. *)
From Coq Require Import ZArith Lia Znumtheory Bool.
Open Scope Z_scope.

(** No d in [d0, d0 + n) divides p (n a nat). *)
Fixpoint no_div (n : nat) (d p : Z) : bool :=
  match n with
  | O => true
  | S k => negb (p mod d =? 0) && no_div k (d + 1) p
  end.

Lemma no_div_spec n d p :
  no_div n d p = true -> 0 < d -> forall e, d <= e < d + Z.of_nat n -> ~ (e | p).
Proof.
  revert d. induction n as [|n IH]; intros d H Hd e He; [lia|].
  cbn [no_div] in H. apply andb_true_iff in H as [H1 H2].
  destruct (Z.eq_dec e d) as [->|].
  - intros Hdiv. apply Z.mod_divide in Hdiv; [|lia]. rewrite Hdiv in H1. discriminate.
  - apply (IH (d + 1)); auto; lia.
Qed.

Lemma prime_of_no_small_div p :
  1 < p -> (forall d, 1 < d -> d * d <= p -> ~ (d | p)) -> prime p.
Proof.
  intros Hp H. apply prime_alt. split; auto.
  intros n Hn [k Hk].
  destruct (Z.le_gt_cases (n * n) p).
  - apply (H n); [lia|lia|exists k; lia].
  - assert (1 < k) by nia. apply (H k); [lia| |exists n; lia].
    nia.
Qed.

Lemma prime_by_trial p n :
  1 < p -> p < (Z.of_nat n + 2) * (Z.of_nat n + 2) -> no_div n 2 p = true -> prime p.
Proof.
  intros Hp Hn H. apply prime_of_no_small_div; auto.
  intros d Hd Hdd. apply (no_div_spec n 2 p H); [lia|]. nia.
Qed.

(** Same with a binary count, so that large bounds compute quickly. *)
Definition nodiv_iter (s : bool * Z) (p : Z) : bool * Z :=
  let '(b, d) := s in (b && negb (p mod d =? 0), d + 1).

Definition no_div_N (n : N) (p : Z) : bool :=
  fst (N.iter n (fun s => nodiv_iter s p) (true, 2)).

Lemma nodiv_iter_spec n p :
  let '(b, d) := N.iter n (fun s => nodiv_iter s p) (true, 2) in
  d = 2 + Z.of_N n /\ (b = true -> forall e, 2 <= e < d -> ~ (e | p)).
Proof.
  induction n as [|n IH] using N.peano_ind.
  - cbn. split; [reflexivity|]. intros; lia.
  - rewrite N.iter_succ. destruct (N.iter n _ _) as [b d]. destruct IH as [-> IH].
    cbn [nodiv_iter]. split; [lia|]. intros Hb e He.
    apply andb_true_iff in Hb as [Hb1 Hb2].
    destruct (Z.eq_dec e (2 + Z.of_N n)) as [->|].
    + intros Hd. apply Z.mod_divide in Hd; [|lia]. rewrite Hd in Hb2. discriminate.
    + apply IH; auto; lia.
Qed.

Lemma prime_by_trial_N p n :
  1 < p -> p < (Z.of_N n + 2) * (Z.of_N n + 2) -> no_div_N n p = true -> prime p.
Proof.
  intros Hp Hn H. apply prime_of_no_small_div; auto.
  intros d Hd Hdd. unfold no_div_N in H.
  pose proof (nodiv_iter_spec n p) as S.
  destruct (N.iter n _ _) as [b e]. cbn [fst] in H. destruct S as [-> S].
  apply S; auto. nia.
Qed.
