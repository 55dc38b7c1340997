(** Lists of primes; independent of the model. *)
From Coq Require Import ZArith Znumtheory List Sorted.
Import ListNotations.
Open Scope Z_scope.

(** l is the list of all primes up to n in increasing order *)
Definition prime_list (n : Z) (l : list Z) : Prop := StronglySorted Z.lt l /\ forall p, In p l <-> prime p /\ p <= n.
(** primes with no prime between differ by less than 256, up to n *)
Definition gaps_small (n : Z) : Prop := forall p q, prime p -> prime q -> p < q -> q <= n -> (forall r, p < r < q -> ~ prime r) -> q - p < 256.
