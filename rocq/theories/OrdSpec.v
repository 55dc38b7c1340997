(** Finite sets of integers as predicates, and the sets intended by histories of list operations. *)
From Coq Require Import ZArith List.
From Verif Require Import SmatModel OrdModel.
Import ListNotations.
Open Scope Z_scope.

Definition ostep_set (P : Z -> Prop) (o : oop) : Z -> Prop :=
  match o with
  | OApp x | OPut x => fun y => y = x \/ P y
  | OPuts L => fun y => In y L \/ P y
  | ORem x => fun y => y <> x /\ P y
  | ORems L => fun y => ~ In y L /\ P y
  | ONext => P
  | OClr _ => fun _ => False
  end.
Definition orun_set (os : list oop) (P : Z -> Prop) : Z -> Prop := fold_left ostep_set os P.
Fixpoint incr (l : list Z) : Prop := match l with [] => True | x :: l => (forall y, In y l -> x < y) /\ incr l end.
(** list::put appends, so x must be the largest.  ordlist::put(x): at most one element larger
    than x.  put(L): L increasing, and an element of L larger than the whole list must differ
    from what list_array[num] holds (a left-over, when it is inside the array at all).
    remove: only what is there. *)
Definition olegal (P : Z -> Prop) (l : olist) (o : oop) : Prop :=
  match o with
  | OApp x => forall y, P y -> y < x
  | OPut x => P x \/ forall y z, P y -> P z -> x < y -> x < z -> y = z
  | OPuts L => incr L /\ ((forall y, ~ P y) \/ forall x, In x L -> (exists y, P y /\ x <= y) \/ exists z, nth_error (oarr l) (onum l) = Some (Some z) /\ z <> x)
  | ORem x => P x
  | ORems L => incr L /\ forall x, In x L -> P x
  | ONext | OClr _ => True
  end.
Fixpoint olegals (ls : nat) (P : Z -> Prop) (l : olist) (os : list oop) : Prop :=
  match os with [] => True | o :: os => olegal P l o /\ forall l', ostep ls l o = Base.Ok l' -> olegals ls (ostep_set P o) l' os end.
(** the elements in order *)
Definition holds (l : olist) (c : list Z) : Prop := incr c /\ onum l = length c /\ firstn (length c) (oarr l) = map Some c.
