(** Model of libsrc/bitspace.cc and libsrc/eclib/bitspace.h.  No proofs.

    unsigned long: an integer in [0, 2^64).  Vectors gens, pivs: lists of the dim
    elements in use; an access at or beyond maxdim is undefined.  Messages are dropped. *)
From Coq Require Import ZArith List Bool.
From Verif Require Import Base LinModel.
Import ListNotations.
Open Scope Z_scope.
Open Scope res_scope.

(** the int expression 1<<i, i long: undefined for i outside 0..31; 1<<31 is the most
    negative int *)
Definition shl1 (i : Z) : res Z := if (i <? 0) || (32 <=? i) then UB else Ok (if i =? 31 then - 2 ^ 31 else 2 ^ i).
(** unsigned long to long *)
Definition ul2l (v : Z) : Z := if v <? 2 ^ 63 then v else v - 2 ^ 64.
(** testbit, bitspace.h line 58: the long a&(1<<i) is returned as an int *)
Definition testbit_ (v i : Z) : res bool := s <- shl1 i ;; Ok (negb (wrap32 (Z.land (ul2l v) s) =? 0)).

Record bitspace := Bs { bmax : Z; bgens : list Z; bpivs : list Z; bmask : Z }.
Definition bdim (b : bitspace) : nat := length (bgens b).
(** constructor, bitspace.cc lines 27-47 *)
Definition bs_new (d : Z) : bitspace := Bs (if d <? 0 then 0 else if 64 <? d then 64 else d) [] [] 0.
(** first loop of reduce, line 52 *)
Definition bs_red (b : bitspace) (start : nat) (v : Z) : res Z :=
  mfold (fun v j => p <- deref (bpivs b) j ;; t <- testbit_ v p ;; if t : bool then g <- deref (bgens b) j ;; Ok (Z.lxor v g) else Ok v)
    (seq start (bdim b - start)) v.
(** second loop of reduce, line 53 *)
Fixpoint bs_top (n : nat) (v : Z) : res Z :=
  match n with O => Ok (-1) | S j => t <- testbit_ v (Z.of_nat j) ;; if t : bool then Ok (Z.of_nat j) else bs_top j v end.
(** reduce, lines 49-55; the value of v is returned too *)
Definition bs_reduce (b : bitspace) (v : Z) (start : nat) : res (Z * Z) :=
  v <- bs_red b start v ;; j <- bs_top (Z.to_nat (bmax b)) v ;; Ok (j, v).
(** augment(v,piv), lines 57-63 *)
Definition bs_aug (b : bitspace) (v piv : Z) : res bitspace :=
  if bmax b <=? Z.of_nat (bdim b) then UB
  else s <- shl1 piv ;; Ok (Bs (bmax b) (bgens b ++ [v]) (bpivs b ++ [piv]) (Z.lor (bmask b) (s mod 2 ^ 64))).
(** augment(v), bitspace.h lines 46-52 *)
Definition bs_augment (b : bitspace) (v : Z) : res (bool * bitspace) :=
  '(j, v) <- bs_reduce b v 0 ;; if j <? 0 then Ok (false, b) else b <- bs_aug b v j ;; Ok (true, b).
(** mask, bitspace.h line 43 *)
Definition bs_mask (b : bitspace) (i : Z) : bool := negb (Z.land i (bmask b) =? 0).

(** augment(v) for each of a list of vectors; the values returned in order *)
Fixpoint bs_run (vs : list Z) (b : bitspace) : res (list bool * bitspace) :=
  match vs with
  | [] => Ok ([], b)
  | v :: vs => '(r, b) <- bs_augment b v ;; '(rs, b) <- bs_run vs b ;; Ok (r :: rs, b)
  end.
