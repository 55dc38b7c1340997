(** What class codes are, independent of the code: numbers in base 26 with digits a..z (97..122),
    most significant first, without leading a's. *)
From Coq Require Import ZArith List.
Import ListNotations.
Open Scope Z_scope.

Definition letters (l : list Z) : Prop := forall c, In c l -> 97 <= c <= 122.
Definition no_leading_a (l : list Z) : Prop := l = [97] \/ exists c r, l = c :: r /\ c <> 97.
Definition is_code (l : list Z) : Prop := letters l /\ no_leading_a l.
Fixpoint base26 (l : list Z) : Z :=
  match l with [] => 0 | c :: l => (c - 97) * 26 ^ Z.of_nat (length l) + base26 l end.
(** shorter codes first, codes of the same length alphabetically *)
Definition code_lt (l l' : list Z) : Prop :=
  (length l < length l')%nat \/
  (length l = length l' /\ exists p c c' r r', l = p ++ c :: r /\ l' = p ++ c' :: r' /\ c < c').

(** f is a permutation of 0, ..., n-1 *)
Definition permutes (f : Z -> Z) (n : Z) : Prop :=
  (forall i, 0 <= i < n -> 0 <= f i < n) /\
  (forall i j, 0 <= i < n -> 0 <= j < n -> f i = f j -> i = j) /\
  (forall k, 0 <= k < n -> exists i, 0 <= i < n /\ f i = k).
