(** Classes of non-zero integers modulo squares; independent of the model. *)
From Coq Require Import ZArith List Bool.
Import ListNotations.
Open Scope Z_scope.

(** the same up to non-zero rational squares *)
Definition sqclass (a b : Z) : Prop := exists x y, x <> 0 /\ y <> 0 /\ a * x ^ 2 = b * y ^ 2.
(** product of the chosen elements *)
Fixpoint cprod (bs : list bool) (l : list Z) : Z :=
  match bs, l with b :: bs, x :: l => (if b then x else 1) * cprod bs l | _, _ => 1 end.
(** the class of n is a product of classes of L *)
Definition sgen (L : list Z) (n : Z) : Prop := exists bs, length bs = length L /\ sqclass n (cprod bs L).
(** the primes of the list dividing dd *)
Definition divprimes (ps : list Z) (dd : Z) : list Z := filter (fun p => dd mod p =? 0) ps.
(** n is, up to squares, plus or minus a product of primes of the list dividing dd *)
Definition ingroup (ps : list Z) (dd n : Z) : Prop := n <> 0 /\ sgen (-1 :: divprimes ps dd) n.
(** -1 or a prime *)
Definition signprime (s : Z) : Prop := s = -1 \/ Znumtheory.prime s.
(** the exact power of p in n is odd *)
Definition oddpow (p n : Z) : Prop := exists e, 0 <= e /\ Z.odd e = true /\ (p ^ e | n) /\ ~ (p ^ (e + 1) | n).
