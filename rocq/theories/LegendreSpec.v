(** Specification of Legendre, Jacobi and Kronecker symbols, independent of the code. *)
From Coq Require Import ZArith List Znumtheory.
Import ListNotations.
Open Scope Z_scope.

(** Legendre symbol of a modulo an odd prime p. *)
Definition legendre_symbol (a p s : Z) : Prop :=
  ((p | a) -> s = 0) /\
  (~ (p | a) -> (exists x, (p | x * x - a)) -> s = 1) /\
  (~ (p | a) -> ~ (exists x, (p | x * x - a)) -> s = -1).

(** The symbol at p = 2: 0 for a even, 1 for a = +-1 mod 8, -1 for a = +-3 mod 8. *)
Definition symbol_at_2 (a s : Z) : Prop :=
  (Z.Even a -> s = 0) /\
  (a mod 8 = 1 \/ a mod 8 = 7 -> s = 1) /\
  (a mod 8 = 3 \/ a mod 8 = 5 -> s = -1).

Definition prime_symbol (a p s : Z) : Prop :=
  (p = 2 -> symbol_at_2 a s) /\ (p <> 2 -> legendre_symbol a p s).

(** Product of the symbols over a list of primes (with multiplicity). *)
Inductive symbol_product (a : Z) : list Z -> Z -> Prop :=
| sp_nil : symbol_product a [] 1
| sp_cons p ps s t :
    prime_symbol a p s -> symbol_product a ps t -> symbol_product a (p :: ps) (s * t).

Definition prodl (ps : list Z) : Z := fold_right Z.mul 1 ps.
Definition factorisation (n : Z) (ps : list Z) : Prop := Forall prime ps /\ prodl ps = n.

(** Jacobi symbol (a/n), n odd positive. *)
Definition jacobi_symbol (a n s : Z) : Prop :=
  forall ps, factorisation n ps -> symbol_product a ps s.

(** Kronecker symbol (a/n), any n. *)
Definition kronecker_symbol (a n s : Z) : Prop :=
  (n = 0 -> (Z.abs a = 1 -> s = 1) /\ (Z.abs a <> 1 -> s = 0)) /\
  (n <> 0 -> forall ps, factorisation (Z.abs n) ps ->
     exists t, symbol_product a ps t /\
       s = (if (n <? 0) && (a <? 0) then -1 else 1) * t)%bool.
