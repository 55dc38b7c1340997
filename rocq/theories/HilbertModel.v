(** Model of hilbert.cc / hilbert.h.  All numbers are bigint (= Z); the symbol is 0 or 1, and -1
    stands for an argument 0.  % on bigint is NTL's (floor); the divisors are 4 and 8. *)
From Coq Require Import ZArith List Bool.
From Verif Require Import Base RatModel MArithModel FormsModel ConicModel.
Import ListNotations.
Open Scope Z_scope.

Definition b2z (b : bool) : Z := if b then 1 else 0.
(** omega8, hilbert.h lines 39-43 *)
Definition omega8 (u : Z) : bool := ((u - 3) mod 8 =? 0) || ((u + 3) mod 8 =? 0).

(** local_hilbert, hilbert.cc lines 32-71; alpha and beta (longs) are 0 or 1 after % 2 *)
Definition local_hilbert (a b p : Z) : res Z :=
  if a =? 0 then Ok (-1)
  else if b =? 0 then Ok (-1)
  else if p <=? 0 then
    if 0 <? a then Ok 0 else if 0 <? b then Ok 0 else Ok 1
  else
    '(u, ka) <- divide_out a p ;;
    let alpha := negb (Z.rem ka 2 =? 0) in
    '(v, kb) <- divide_out b p ;;
    let beta := negb (Z.rem kb 2 =? 0) in
    if p =? 2 then
      let ans := (u + 1) mod 4 =? 0 in
      let ans := if ans then (v + 1) mod 4 =? 0 else ans in
      let ans := if alpha then (if omega8 v then negb ans else ans) else ans in
      let ans := if beta then (if omega8 u then negb ans else ans) else ans in
      Ok (b2z ans)
    else
      let ans := alpha && beta in
      let ans := if ans then (p + 1) mod 4 =? 0 else ans in
      ans <- (if (alpha : bool) then l <- legendre_z v p ;; Ok (if l =? -1 then negb ans else ans) else Ok ans) ;;
      ans <- (if (beta : bool) then l <- legendre_z u p ;; Ok (if l =? -1 then negb ans else ans) else Ok ans) ;;
      Ok (b2z ans).

(** the loop std::any_of of lines 86-87; the value of badp on return is the last prime tried *)
Fixpoint hilbert_any (a b : Z) (plist : list Z) (badp : Z) : res (Z * Z) :=
  match plist with
  | [] => Ok (0, badp)
  | p :: plist => l <- local_hilbert a b p ;; if l =? 0 then hilbert_any a b plist p else Ok (1, p)
  end.
(** global_hilbert(a,b,plist,badp), lines 73-88: (value, badp) *)
Definition global_hilbert (a b : Z) (plist : list Z) (badp : Z) : res (Z * Z) :=
  l <- local_hilbert a b 0 ;; if l =? 0 then hilbert_any a b plist badp else Ok (1, 0).
(** global_hilbert(a,b,badp), lines 90-94 *)
Definition global_hilbert_ab (pdivs : Z -> list Z) (a b badp : Z) : res (Z * Z) :=
  global_hilbert a b (vector_union (pdivs a) (pdivs b)) badp.
(** global_hilbert(q,d,badp), lines 96-101, and with a list of primes, lines 103-106 *)
Definition global_hilbert_qd (pdivs : Z -> list Z) (q : quadratic) (d badp : Z) : res (Z * Z) :=
  let D := q_disc q in global_hilbert (qa q * d) D (vector_union (pdivs D) (pdivs d)) badp.
Definition global_hilbert_qd_plist (q : quadratic) (d : Z) (plist : list Z) (badp : Z) : res (Z * Z) :=
  global_hilbert (qa q * d) (q_disc q) plist badp.
