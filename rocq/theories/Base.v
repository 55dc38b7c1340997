(** Outcomes and checked machine arithmetic shared by all models.

    [res A] is the outcome of running a piece of C++ code:
    - [Ok a]      : the code returns normally with value [a];
    - [UB]        : the code executes an operation with undefined behaviour
                    (signed overflow, division by zero, bad index, bad shift,
                    read of uninitialised or freed storage, overlapping memcpy);
    - [Die]       : the code calls exit()/abort() on purpose;
    - [OutOfFuel] : the model's loop bound was too small (only in the model;
                    theorems about termination exclude it). *)
From Coq Require Import ZArith Lia List Bool.
Import ListNotations.
Open Scope Z_scope.

Inductive res (A : Type) : Type :=
| Ok (a : A)
| UB
| Die
| OutOfFuel.
Arguments Ok {A} _.
Arguments UB {A}.
Arguments Die {A}.
Arguments OutOfFuel {A}.

Definition bind {A B : Type} (m : res A) (k : A -> res B) : res B :=
  match m with
  | Ok a => k a
  | UB => UB
  | Die => Die
  | OutOfFuel => OutOfFuel
  end.

Declare Scope res_scope.
Delimit Scope res_scope with res.
Notation "x <- m ;; k" := (bind m (fun x => k))
  (at level 61, m at next level, right associativity) : res_scope.
Notation "' p <- m ;; k" := (bind m (fun p => k))
  (at level 61, p pattern, m at next level, right associativity) : res_scope.
Open Scope res_scope.

(** ** 64-bit [long] / [int64_t] *)
Definition min64 : Z := -9223372036854775808.
Definition max64 : Z := 9223372036854775807.
Definition in64 (z : Z) : Prop := min64 <= z <= max64.
Definition in64b (z : Z) : bool := (min64 <=? z) && (z <=? max64).
Definition c64 (z : Z) : res Z := if in64b z then Ok z else UB.

Definition add64 (a b : Z) : res Z := c64 (a + b).
Definition sub64 (a b : Z) : res Z := c64 (a - b).
Definition mul64 (a b : Z) : res Z := c64 (a * b).
Definition neg64 (a : Z) : res Z := c64 (- a).
(** std::abs / labs: undefined for the minimum value *)
Definition abs64 (a : Z) : res Z := c64 (Z.abs a).
(** C++ division truncates towards zero *)
Definition quot64 (a b : Z) : res Z :=
  if b =? 0 then UB else c64 (Z.quot a b).
(** a % b is undefined when a / b is *)
Definition rem64 (a b : Z) : res Z :=
  if b =? 0 then UB else if in64b (Z.quot a b) then Ok (Z.rem a b) else UB.

(** ** 32-bit [int] *)
Definition min32 : Z := -2147483648.
Definition max32 : Z := 2147483647.
Definition in32 (z : Z) : Prop := min32 <= z <= max32.
Definition in32b (z : Z) : bool := (min32 <=? z) && (z <=? max32).
Definition c32 (z : Z) : res Z := if in32b z then Ok z else UB.
Definition add32 (a b : Z) : res Z := c32 (a + b).
Definition sub32 (a b : Z) : res Z := c32 (a - b).
Definition mul32 (a b : Z) : res Z := c32 (a * b).
Definition neg32 (a : Z) : res Z := c32 (- a).
Definition quot32 (a b : Z) : res Z :=
  if b =? 0 then UB else c32 (Z.quot a b).
Definition rem32 (a b : Z) : res Z :=
  if b =? 0 then UB else if in32b (Z.quot a b) then Ok (Z.rem a b) else UB.

(** Conversion long -> int is implementation defined (wraps) in C++. *)
Definition wrap32 (z : Z) : Z := (z + 2147483648) mod 4294967296 - 2147483648.

(** ** Basic facts *)
Lemma in64b_spec z : in64b z = true <-> in64 z.
Proof. unfold in64b, in64. rewrite andb_true_iff, !Z.leb_le. tauto. Qed.

Lemma in32b_spec z : in32b z = true <-> in32 z.
Proof. unfold in32b, in32. rewrite andb_true_iff, !Z.leb_le. tauto. Qed.

Lemma c64_ok z : in64 z -> c64 z = Ok z.
Proof. intros H. unfold c64. apply in64b_spec in H. now rewrite H. Qed.

Lemma c32_ok z : in32 z -> c32 z = Ok z.
Proof. intros H. unfold c32. apply in32b_spec in H. now rewrite H. Qed.

Lemma c64_inv z r : c64 z = Ok r -> r = z /\ in64 z.
Proof.
  unfold c64. destruct (in64b z) eqn:E; intros H; inversion H; subst.
  split; auto. now apply in64b_spec.
Qed.

Lemma c32_inv z r : c32 z = Ok r -> r = z /\ in32 z.
Proof.
  unfold c32. destruct (in32b z) eqn:E; intros H; inversion H; subst.
  split; auto. now apply in32b_spec.
Qed.

Lemma add64_ok a b : in64 (a + b) -> add64 a b = Ok (a + b).
Proof. apply c64_ok. Qed.
Lemma sub64_ok a b : in64 (a - b) -> sub64 a b = Ok (a - b).
Proof. apply c64_ok. Qed.
Lemma mul64_ok a b : in64 (a * b) -> mul64 a b = Ok (a * b).
Proof. apply c64_ok. Qed.
Lemma neg64_ok a : in64 (- a) -> neg64 a = Ok (- a).
Proof. apply c64_ok. Qed.
Lemma abs64_ok a : in64 (Z.abs a) -> abs64 a = Ok (Z.abs a).
Proof. apply c64_ok. Qed.

Lemma quot_abs_le a b : b <> 0 -> Z.abs (Z.quot a b) <= Z.abs a.
Proof.
  intros Hb. rewrite <- Z.quot_abs by auto.
  rewrite Z.quot_div_nonneg by lia.
  destruct (Z.eq_dec (Z.abs b) 1) as [->|].
  - rewrite Z.div_1_r. lia.
  - destruct (Z.eq_dec a 0) as [->|]; [cbn; lia|].
    apply Z.lt_le_incl, Z.div_lt; lia.
Qed.

(** The only bad quotient is min64 / -1. *)
Lemma in64_quot a b :
  in64 a -> b <> 0 -> (a <> min64 \/ b <> -1) -> in64 (Z.quot a b).
Proof.
  intros Ha Hb Hc. pose proof (quot_abs_le a b Hb) as H.
  unfold in64, min64, max64 in *.
  destruct (Z.eq_dec a (-9223372036854775808)) as [->|]; [|lia].
  destruct Hc as [Hc|Hc]; [lia|].
  split; [lia|].
  destruct (Z.eq_dec b 1) as [->|]; [vm_compute; discriminate|].
  assert (Z.abs (Z.quot (-9223372036854775808) b) < 9223372036854775808).
  { rewrite <- Z.quot_abs by auto. rewrite Z.quot_div_nonneg by lia.
    apply Z.div_lt; lia. }
  lia.
Qed.

Lemma quot64_ok a b :
  in64 a -> b <> 0 -> (a <> min64 \/ b <> -1) -> quot64 a b = Ok (Z.quot a b).
Proof.
  intros Ha Hb Hc. unfold quot64.
  destruct (Z.eqb_spec b 0); [contradiction|].
  apply c64_ok. now apply in64_quot.
Qed.

Lemma rem64_ok a b :
  in64 a -> b <> 0 -> (a <> min64 \/ b <> -1) -> rem64 a b = Ok (Z.rem a b).
Proof.
  intros Ha Hb Hc. unfold rem64.
  destruct (Z.eqb_spec b 0); [contradiction|].
  assert (H : in64 (Z.quot a b)) by now apply in64_quot.
  apply in64b_spec in H. now rewrite H.
Qed.

Lemma in32_quot a b :
  in32 a -> b <> 0 -> (a <> min32 \/ b <> -1) -> in32 (Z.quot a b).
Proof.
  intros Ha Hb Hc. pose proof (quot_abs_le a b Hb) as H.
  unfold in32, min32, max32 in *.
  destruct (Z.eq_dec a (-2147483648)) as [->|]; [|lia].
  destruct Hc as [Hc|Hc]; [lia|].
  split; [lia|].
  destruct (Z.eq_dec b 1) as [->|]; [vm_compute; discriminate|].
  assert (Z.abs (Z.quot (-2147483648) b) < 2147483648).
  { rewrite <- Z.quot_abs by auto. rewrite Z.quot_div_nonneg by lia.
    apply Z.div_lt; lia. }
  lia.
Qed.

Lemma rem32_ok a b :
  in32 a -> b <> 0 -> (a <> min32 \/ b <> -1) -> rem32 a b = Ok (Z.rem a b).
Proof.
  intros Ha Hb Hc. unfold rem32.
  destruct (Z.eqb_spec b 0); [contradiction|].
  assert (H : in32 (Z.quot a b)) by now apply in32_quot.
  apply in32b_spec in H. now rewrite H.
Qed.

Lemma quot32_ok a b :
  in32 a -> b <> 0 -> (a <> min32 \/ b <> -1) -> quot32 a b = Ok (Z.quot a b).
Proof.
  intros Ha Hb Hc. unfold quot32.
  destruct (Z.eqb_spec b 0); [contradiction|].
  apply c32_ok. now apply in32_quot.
Qed.

Lemma bind_ok {A B} (m : res A) (k : A -> res B) b :
  bind m k = Ok b -> exists a, m = Ok a /\ k a = Ok b.
Proof. destruct m; cbn; intros H; try discriminate. eauto. Qed.

Lemma bind_Ok {A B} (a : A) (k : A -> res B) : bind (Ok a) k = k a.
Proof. reflexivity. Qed.

(** Truncated remainder facts used everywhere. *)
Lemma rem_abs_lt a b : b <> 0 -> Z.abs (Z.rem a b) < Z.abs b.
Proof. intros. apply Z.rem_bound_abs. auto. Qed.

Lemma quot_rem_eq a b : b <> 0 -> a = b * Z.quot a b + Z.rem a b.
Proof. intros. apply Z.quot_rem. auto. Qed.

Lemma rem_nonneg a b : 0 <= a -> b <> 0 -> 0 <= Z.rem a b.
Proof. intros. apply Z.rem_nonneg; auto. Qed.

Lemma rem_opp_neg a b : a <= 0 -> b <> 0 -> Z.rem a b <= 0.
Proof. intros. apply Z.rem_nonpos; auto. Qed.

(** ** Loops

    [while n step s] runs [step] at most [2^n] times.  [step] returns [inl s']
    to go round again and [inr r] to leave the loop.  If the bound is hit the
    outcome is [OutOfFuel]. *)
Section While.
  Context {S R : Type}.
  Variable step : S -> res (S + R).

  Fixpoint while_raw (n : nat) (s : S) : res (S + R) :=
    match n with
    | O => step s
    | Datatypes.S k =>
        match while_raw k s with
        | Ok (inl s') => while_raw k s'
        | other => other
        end
    end.

  Definition while (n : nat) (s : S) : res R :=
    match while_raw n s with
    | Ok (inr r) => Ok r
    | Ok (inl _) => OutOfFuel
    | UB => UB
    | Die => Die
    | OutOfFuel => OutOfFuel
    end.

  (** Total correctness rule. *)
  Lemma while_raw_total (Inv : S -> Prop) (Post : R -> Prop) (m : S -> Z) :
    (forall s, Inv s ->
       (exists r, step s = Ok (inr r) /\ Post r) \/
       (exists s', step s = Ok (inl s') /\ Inv s' /\ m s' <= m s - 1)) ->
    forall n s, Inv s ->
       (exists r, while_raw n s = Ok (inr r) /\ Post r) \/
       (exists s', while_raw n s = Ok (inl s') /\ Inv s' /\ m s' <= m s - 2 ^ Z.of_nat n).
  Proof.
    intros Hstep n. induction n as [|n IH]; intros s Hs.
    - apply Hstep, Hs.
    - cbn [while_raw].
      destruct (IH s Hs) as [(r & -> & Hr)|(s' & -> & Hs' & Hm)].
      + left. eauto.
      + destruct (IH s' Hs') as [(r & -> & Hr)|(s2 & -> & Hs2 & Hm2)].
        * left. eauto.
        * right. exists s2. repeat split; auto.
          rewrite Nat2Z.inj_succ, Z.pow_succ_r by lia. lia.
  Qed.

  Lemma while_total (Inv : S -> Prop) (Post : R -> Prop) (m : S -> Z) :
    (forall s, Inv s -> 0 <= m s) ->
    (forall s, Inv s ->
       (exists r, step s = Ok (inr r) /\ Post r) \/
       (exists s', step s = Ok (inl s') /\ Inv s' /\ m s' <= m s - 1)) ->
    forall n s, Inv s -> m s < 2 ^ Z.of_nat n ->
       exists r, while n s = Ok r /\ Post r.
  Proof.
    intros Hpos Hstep n s Hs Hm. unfold while.
    destruct (while_raw_total Inv Post m Hstep n s Hs)
      as [(r & -> & Hr)|(s' & _ & Hs' & Hm')]; [eauto|].
    specialize (Hpos s' Hs'). lia.
  Qed.

  (** Partial correctness rule (no termination argument). *)
  Lemma while_raw_partial (Inv : S -> Prop) (Post : R -> Prop) :
    (forall s s', Inv s -> step s = Ok (inl s') -> Inv s') ->
    (forall s r, Inv s -> step s = Ok (inr r) -> Post r) ->
    forall n s x, Inv s -> while_raw n s = Ok x ->
      match x with inl s' => Inv s' | inr r => Post r end.
  Proof.
    intros H1 H2 n. induction n as [|n IH]; intros s x Hs Hx; cbn [while_raw] in Hx.
    - destruct x; eauto.
    - destruct (while_raw n s) as [[s'|r]| | |] eqn:E; try discriminate.
      + apply (IH s' x); auto. apply (IH s (inl s')); auto.
      + inversion Hx; subst. apply (IH s (inr r)); auto.
  Qed.

  Lemma while_partial (Inv : S -> Prop) (Post : R -> Prop) :
    (forall s s', Inv s -> step s = Ok (inl s') -> Inv s') ->
    (forall s r, Inv s -> step s = Ok (inr r) -> Post r) ->
    forall n s r, Inv s -> while n s = Ok r -> Post r.
  Proof.
    intros H1 H2 n s r Hs Hw. unfold while in Hw.
    destruct (while_raw n s) as [[s'|r']| | |] eqn:E; try discriminate.
    inversion Hw; subst.
    apply (while_raw_partial Inv Post H1 H2 n s (inr r) Hs E).
  Qed.

  (** Unrolling once: only used to relate two loops. *)
  Lemma while_raw_diverge (Inv : S -> Prop) :
    (forall s, Inv s -> exists s', step s = Ok (inl s') /\ Inv s') ->
    forall n s, Inv s -> exists s', while_raw n s = Ok (inl s') /\ Inv s'.
  Proof.
    intros H n. induction n as [|n IH]; intros s Hs; cbn [while_raw].
    - auto.
    - destruct (IH s Hs) as (s1 & -> & H1). apply IH, H1.
  Qed.

  (** Non-termination rule: whatever the bound, it is hit. *)
  Lemma while_diverge (Inv : S -> Prop) :
    (forall s, Inv s -> exists s', step s = Ok (inl s') /\ Inv s') ->
    forall n s, Inv s -> while n s = OutOfFuel.
  Proof.
    intros H n s Hs. unfold while.
    destruct (while_raw_diverge Inv H n s Hs) as (s' & -> & _). reflexivity.
  Qed.
End While.
