(** Loops with a bound, seen from far enough: the outcome once the bound is large, the same for
    a whole family of loop bodies. *)
From Coq Require Import ZArith Lia List Relation_Operators.
From Verif Require Import Base LinModel.
Import ListNotations.
Open Scope Z_scope.
Open Scope res_scope.

Section Iter.
Context {S R : Type}.
Variable step : S -> res (S + R).
Fixpoint titer (c : nat) (s : S) : res (S + R) :=
  match c with
  | O => step s
  | Datatypes.S c => match step s with Ok (inl s') => titer c s' | o => o end
  end.
Lemma titer_split a b s : titer (Datatypes.S (a + b)) s = match titer a s with Ok (inl s') => titer b s' | o => o end.
Proof.
  revert s. induction a as [|a IH]; intros s; [reflexivity|].
  cbn [Nat.add]. change (titer (Datatypes.S (Datatypes.S (a + b))) s) with (match step s with Ok (inl s') => titer (Datatypes.S (a + b)) s' | o => o end).
  cbn [titer]. destruct (step s) as [[s'|r]| | |]; try reflexivity. rewrite <- IH. reflexivity.
Qed.
Lemma while_raw_titer n s : exists c, Datatypes.S c = (2 ^ n)%nat /\ while_raw step n s = titer c s.
Proof.
  revert s. induction n as [|n IH]; intros s.
  - exists 0%nat. split; reflexivity.
  - destruct (IH s) as (c & Ec & E). exists (Datatypes.S (c + c)). split; [cbn [Nat.pow]; lia|].
    cbn [while_raw]. rewrite E, titer_split. destruct (titer c s) as [[s'|r]| | |]; try reflexivity.
    destruct (IH s') as (c' & Ec' & E'). rewrite E'. f_equal. lia.
Qed.
Lemma titer_mono c c' s r : titer c s = Ok (inr r) -> (c <= c')%nat -> titer c' s = Ok (inr r).
Proof.
  revert c' s. induction c as [|c IH]; intros c' s H L.
  - destruct c'; [exact H|]. cbn [titer] in H |- *. now rewrite H.
  - destruct c' as [|c']; [lia|]. cbn [titer] in H |- *. destruct (step s) as [[s'|r']| | |]; try discriminate.
    + apply IH; [exact H|lia].
    + exact H.
Qed.
Lemma titer_while c n s r : titer c s = Ok (inr r) -> (c <= n)%nat -> while step n s = Ok r.
Proof.
  intros H L. unfold while. destruct (while_raw_titer n s) as (c' & E & ->).
  rewrite (titer_mono c c' s r H); [reflexivity|]. pose proof (Nat.pow_gt_lin_r 2 n). lia.
Qed.
End Iter.

Section Ev.
Context {I : Type}.
Variable ok : I -> Prop.
(** x returns r for every member of the family once the bound is large *)
Definition ev {A} (x : I -> nat -> res A) (r : A) : Prop := exists N, forall i f, ok i -> (N <= f)%nat -> x i f = Ok r.
Lemma ev_ret {A} (r : A) : ev (fun _ _ => Ok r) r.
Proof. exists 0%nat. auto. Qed.
Lemma ev_bind {A B} x (k : I -> nat -> A -> res B) a b : ev x a -> ev (fun i f => k i f a) b -> ev (fun i f => v <- x i f ;; k i f v) b.
Proof. intros [N H] [M H']. exists (Nat.max N M). intros i f Hi Hf. rewrite H by (auto; lia). apply H'; [auto|lia]. Qed.
Lemma while_ev {S R} (step : I -> nat -> S -> res (S + R)) (Rel : S -> S -> Prop) (Inv : S -> Prop) (Post : R -> Prop) :
  well_founded Rel ->
  (forall s, Inv s -> (exists r, ev (fun i f => step i f s) (inr r) /\ Post r) \/
                      (exists s', ev (fun i f => step i f s) (inl s') /\ Inv s' /\ Rel s' s)) ->
  forall s, Inv s -> exists r, ev (fun i f => while (step i f) f s) r /\ Post r.
Proof.
  intros W H s Hs.
  assert (K : exists c r, ev (fun i f => titer (step i f) c s) (inr r) /\ Post r).
  { revert Hs. induction s as [s IH] using (well_founded_ind W). intros Hs.
    destruct (H s Hs) as [(r & E & P)|(s' & E & Is & Rs)].
    - exists 0%nat, r. split; [exact E|exact P].
    - destruct (IH s' Rs Is) as (c & r & (N & E2) & P). destruct E as (M & E). exists (Datatypes.S c), r. split; [|exact P].
      exists (Nat.max N M). intros i f Hi Hf. cbn [titer]. rewrite E by (auto; lia). apply E2; [auto|lia]. }
  destruct K as (c & r & (N & E) & P). exists r. split; [|exact P].
  exists (Nat.max N c). intros i f Hi Hf. apply (titer_while _ c); [apply E; [auto|lia]|lia].
Qed.
(** loops over a range, for the whole family *)
Lemma mfold_fam {A} (Inv : nat -> A -> Prop) (g : I -> A -> nat -> res A) s n a :
  Inv s a -> (forall k a, (s <= k < s + n)%nat -> Inv k a -> exists a', (forall i, ok i -> g i a k = Ok a') /\ Inv (k + 1)%nat a') ->
  exists a', (forall i, ok i -> mfold (g i) (seq s n) a = Ok a') /\ Inv (s + n)%nat a'.
Proof.
  revert s a. induction n as [|n IH]; intros s a H0 H.
  - exists a. split; [reflexivity|]. now rewrite Nat.add_0_r.
  - destruct (H s a) as (a1 & E & H1); [lia|auto|].
    destruct (IH (Datatypes.S s) a1) as (a' & E' & H').
    + replace (Datatypes.S s) with (s + 1)%nat by lia. auto.
    + intros k b Hk. apply H. lia.
    + exists a'. split; [|replace (s + Datatypes.S n)%nat with (Datatypes.S s + n)%nat by lia; auto].
      intros i Hi. cbn [seq mfold]. rewrite E by auto. apply E'. auto.
Qed.
End Ev.
