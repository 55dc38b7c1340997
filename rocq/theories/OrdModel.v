(** Model of the classes list and ordlist of libsrc/smat_elim.cc and
    libsrc/eclib/smat_elim.h lines 33-69 (int lists in growing arrays).  No proofs.

    [None] is an indeterminate array element; reading one, or reading or writing
    outside the array, is undefined.  maxsize is the length of the array.  Sizes are
    unbounded.  A list argument L is given by its contents (its own index is
    reset before it is read).  Error messages are dropped. *)
From Coq Require Import ZArith List Bool.
From Verif Require Import Base LinModel SmatModel.
Import ListNotations.
Open Scope Z_scope.
Open Scope res_scope.

Record olist := Ol { oarr : list (option Z); onum : nat; oidx : nat }.
Definition ocap (l : olist) : nat := length (oarr l).
(** list_array[i] *)
Definition oget (l : olist) (i : Z) : res Z := if i <? 0 then UB else rdm (oarr l) (Z.to_nat i).
(** list(m), clear(m), smat_elim.cc lines 65-76 *)
Definition onew (m : nat) : olist := Ol (repeat None m) 0 0.
(** grow, lines 78-98; ls is the static member listsize *)
Definition ogrow (ls : nat) (l : olist) : olist :=
  let growth := if (ocap l =? 0)%nat then ls else (ocap l / 2 + 1)%nat in Ol (oarr l ++ repeat None growth) (onum l) (oidx l).
(** list::put, smat_elim.h lines 41-49 *)
Definition oapp (ls : nat) (l : olist) (x : Z) : res olist :=
  let l := if (ocap l <=? onum l)%nat then ogrow ls l else l in
  a <- put (oarr l) (onum l) [Some x] ;; Ok (Ol a (onum l + 1) (oidx l)).
(** next, smat_elim.h lines 52-54 *)
Definition onext (l : olist) : res (Z * olist) :=
  if (oidx l <? onum l)%nat then x <- oget l (Z.of_nat (oidx l)) ;; Ok (x, Ol (oarr l) (onum l) (oidx l + 1)) else Ok (-1, l).
(** find, lines 100-128; the loop ends within as many turns as there are elements *)
Fixpoint ofind_loop (n : nat) (l : olist) (x lb ub : Z) : res Z :=
  match n with
  | O => OutOfFuel
  | S n => y <- oget l lb ;;
      if y <? x then let i := Z.quot (ub + lb) 2 in z <- oget l i ;; if z <? x then ofind_loop n l x (i + 1) ub else ofind_loop n l x lb i
      else Ok lb
  end.
Definition ofind (l : olist) (x ub lb : Z) : res Z :=
  y <- oget l ub ;; if y <? x then Ok (ub + 1) else ofind_loop (ocap l + 1) l x lb ub.
(** ordlist::put(X), lines 130-160; memmove of num-ind elements from num-1 to num *)
Definition oput (ls : nat) (l : olist) (x : Z) : res olist :=
  let l := if (onum l =? ocap l)%nat then ogrow ls l else l in
  if (onum l =? 0)%nat then a <- put (oarr l) 0 [Some x] ;; Ok (Ol a 1 (oidx l))
  else
    ind <- ofind l x (Z.of_nat (onum l) - 1) 0 ;;
    new <- (if ind =? Z.of_nat (onum l) then Ok true else y <- oget l ind ;; Ok (negb (y =? x))) ;;
    if new : bool then
      let ind := Z.to_nat ind in
      s <- seg (oarr l) (onum l - 1) (onum l - ind) ;; a <- put (oarr l) (onum l) s ;; a <- put a ind [Some x] ;; Ok (Ol a (onum l + 1) (oidx l))
    else Ok l.
(** ordlist::put(L), lines 162-202.  out: what has been written through na *)
Fixpoint ocopy (n : nat) (l : olist) (lim : nat) (out : list Z) : res (olist * list Z) :=
  match n with
  | O => Ok (l, out)
  | S n => if (oidx l <? lim)%nat then '(x, l) <- onext l ;; ocopy n l lim (out ++ [x]) else Ok (l, out)
  end.
Definition oputs (ls : nat) (l : olist) (L : list Z) : res olist :=
  match L with
  | [] => Ok l
  | _ =>
    let l := Ol (oarr l) (onum l) 0 in
    if (onum l =? 0)%nat then l <- mfold (oput ls) L l ;; Ok (Ol (oarr l) (length L) (oidx l))
    else
      '(l, out, _) <- mfold (fun '(l, out, ind) x =>
          ind <- ofind l x (Z.of_nat (onum l) - 1) ind ;;
          y <- oget l ind ;;
          if y =? x then Ok (l, out, ind) else '(l, out) <- ocopy (onum l) l (Z.to_nat ind) out ;; Ok (l, out ++ [x], ind)) L (l, [], 0) ;;
      '(l, out) <- ocopy (onum l) l (onum l) out ;;
      a <- put (repeat None (ocap l + length L)) 0 (map Some out) ;;
      Ok (Ol a (length out) 0)
  end.
(** ordlist::remove(X), lines 204-228 *)
Definition orem (l : olist) (x : Z) : res olist :=
  ind <- ofind l x (Z.of_nat (onum l) - 1) 0 ;; y <- oget l ind ;;
  if y =? x then
    (if Z.of_nat (onum l) <=? ind then UB   (* the length passed to memmove wraps *)
     else let ind := Z.to_nat ind in s <- seg (oarr l) (ind + 1) (onum l - 1 - ind) ;; a <- put (oarr l) ind s ;; Ok (Ol a (onum l - 1) (oidx l)))
  else Ok l.
(** ordlist::remove(L), lines 230-271.  ar: position of the pointer ar; inl: an error
    return from the loop, with what was copied left in place *)
Fixpoint omove (n : nat) (l : olist) (lim ar : nat) : res (olist * nat) :=
  match n with
  | O => Ok (l, ar)
  | S n => if (oidx l <? lim)%nat then '(x, l) <- onext l ;; a <- put (oarr l) ar [Some x] ;; omove n (Ol a (onum l) (oidx l)) lim (ar + 1) else Ok (l, ar)
  end.
Fixpoint orems_loop (L : list Z) (l : olist) (ar : nat) (ind2 : Z) : res (olist + olist * nat) :=
  match L with
  | [] => Ok (inr (l, ar))
  | x :: L =>
      ind2 <- ofind l x (Z.of_nat (onum l) - 1) ind2 ;; y <- oget l ind2 ;;
      if y =? x then
        '(l, ar) <- omove (onum l) l (Z.to_nat ind2) ar ;; orems_loop L (Ol (oarr l) (onum l) (oidx l + 1)) ar ind2
      else Ok (inl l)
  end.
Definition orems (l : olist) (L : list Z) : res olist :=
  match L with
  | [] => Ok l
  | x :: L =>
      ind1 <- ofind l x (Z.of_nat (onum l) - 1) 0 ;; y <- oget l ind1 ;;
      if y =? x then
        r <- orems_loop L (Ol (oarr l) (onum l) (Z.to_nat ind1 + 1)) (Z.to_nat ind1) ind1 ;;
        match r with
        | inl l => Ok l
        | inr (l, ar) => '(l, ar) <- omove (onum l) l (onum l) ar ;; Ok (Ol (oarr l) ar 0)
        end
      else Ok l
  end.

(** ** histories *)
Inductive oop := OApp (x : Z) | OPut (x : Z) | OPuts (L : list Z) | ORem (x : Z) | ORems (L : list Z) | ONext | OClr (m : nat).
Definition ostep (ls : nat) (l : olist) (o : oop) : res olist :=
  match o with
  | OApp x => oapp ls l x | OPut x => oput ls l x | OPuts L => oputs ls l L | ORem x => orem l x | ORems L => orems l L
  | ONext => '(_, l) <- onext l ;; Ok l | OClr m => Ok (onew m)
  end.
Definition orun (ls : nat) (os : list oop) (l : olist) : res olist := mfold (ostep ls) os l.
