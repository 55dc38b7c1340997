(** Spans of bit vectors over F_2, independent of the model. *)
From Coq Require Import ZArith List Bool.
Import ListNotations.
Open Scope Z_scope.

(** equal in the first d coordinates *)
Definition eqbits (d v w : Z) : Prop := forall i, 0 <= i < d -> Z.testbit v i = Z.testbit w i.
(** sum of the vectors chosen by bs *)
Fixpoint xsum (bs : list bool) (vs : list Z) : Z :=
  match bs, vs with b :: bs, v :: vs => if b then Z.lxor v (xsum bs vs) else xsum bs vs | _, _ => 0 end.
Definition spans (d : Z) (vs : list Z) (v : Z) : Prop := exists bs, length bs = length vs /\ eqbits d (xsum bs vs) v.
(** for each vector, whether it is outside the span of those before (done: earlier ones) *)
Fixpoint newflags (d : Z) (done vs : list Z) (rs : list bool) : Prop :=
  match vs, rs with
  | [], [] => True
  | v :: vs, r :: rs => (r = true <-> ~ spans d done v) /\ newflags d (done ++ [v]) vs rs
  | _, _ => False
  end.
