(** Model of libsrc/sqfdiv.cc and libsrc/eclib/sqfdiv.h.  No proofs.

    bigints are unbounded.  The vectors subgp, gens, pivs are the lists of the elements in
    use with their allocated sizes beside them; a write at or beyond the size is
    undefined.  *primebase is the argument ps of each function. *)
From Coq Require Import ZArith List Bool.
From Verif Require Import Base RatModel LinModel MArithModel BitModel.
Import ListNotations.
Open Scope Z_scope.
Open Scope res_scope.

(** sqfred(a,plist), sqfdiv.cc lines 149-158 *)
Definition sqfred (a : Z) (ps : list Z) : res Z :=
  mfold (fun ans p => v <- val_z p a ;; Ok (if Z.odd v then ans * p else ans)) ps (Z.sgn a).
(** sqfmul, lines 160-164; NTL's gcd is not negative, its quotients are rounded down *)
Definition sqfmul (a b : Z) : res Z := let g := Z.gcd a b in x <- zz_div a g ;; y <- zz_div b g ;; Ok (x * y).
(** makenum, lines 166-172 *)
Definition makenum (supp : list Z) (mask : Z) : res Z :=
  mfold (fun ans i => t <- testbit_ mask (Z.of_nat i) ;; if t : bool then s <- deref supp i ;; sqfmul ans s else Ok ans) (seq 0 (length supp)) 1.
(** setbit, bitspace.h line 59: a long is or-ed with an int *)
Definition setbit_ (a i : Z) : res Z := s <- shl1 i ;; Ok (Z.lor a s).
(** makeindex, lines 174-191; n0 is left alone (None) when n is 0 *)
Definition makeindex (supp : list Z) (n : Z) : res (Z * option Z) :=
  if n =? 0 then Ok (0, None)
  else
    '(ix, n0) <- mfold (fun '(ix, n0) i => p <- deref supp i ;;
        if p <? 0 then (if n <? 0 then ix <- setbit_ ix (Z.of_nat i) ;; Ok (ix, - n0) else Ok (ix, n0))
        else v <- val_z p n ;; if Z.odd v then ix <- setbit_ ix (Z.of_nat i) ;; Ok (ix, n0 * p) else Ok (ix, n0)) (seq 0 (length supp)) (0, 1) ;;
    Ok (ix, Some n0).
(** support, lines 195-203; pd: the value of pdivs(n) *)
Definition support_ (n : Z) (pd : list Z) : list Z := if n =? 0 then [] else -1 :: pd.

(** class sqfdiv, sqfdiv.h lines 30-48 *)
Record sqfdiv := Sq { sq_d : Z; sq_np : Z; sq_pos : bool; sq_factor : Z; sq_subgp : list Z; sq_maxnsub : Z; sq_gens : list Z; sq_pivs : list Z; sq_maxngens : Z }.
(** the int 2<<n, n long: 2^31 does not fit and becomes negative, more is undefined *)
Definition shl2 (n : Z) : res Z := if (n <? 0) || (31 <=? n) then UB else Ok (if n =? 30 then - 2 ^ 31 else 2 ^ (n + 1)).
(** constructor, lines 29-42; a negative size makes resize throw *)
Definition sq_new (dd : Z) (posd : bool) (ps : list Z) : res sqfdiv :=
  '(d, np) <- mfold (fun '(d, np) p => t <- div_z p dd ;; Ok (if t : bool then (d * p, np + 1) else (d, np))) ps (1, 0) ;;
  maxnsub <- shl2 np ;;
  if maxnsub <? 0 then Die
  else Ok (if posd then Sq d np true 0 [1; -1] maxnsub [-1] [-1] (np + 1) else Sq d np false 0 [1] maxnsub [] [] (np + 1)).
(** first loop of usediv, lines 51-63: the loop runs while e is not 1 *)
Fixpoint sq_red (ps gens pivs : list Z) (e : Z) : res Z :=
  match gens, pivs with
  | g :: gens, piv :: pivs =>
      if e =? 1 then Ok e
      else
        e <- (if piv =? -1 then Ok (Z.abs e)
              else p <- (if piv <? 0 then UB else deref ps (Z.to_nat piv)) ;; t <- div_z p e ;; if t : bool then sqfmul e g else Ok e) ;;
        sq_red ps gens pivs e
  | _, _ => Ok e
  end.
(** search for the new pivot, lines 84-89; i counts down from the number of primes;
    returns the prime and its position *)
Fixpoint sq_piv (ps : list Z) (d e : Z) (i : nat) : res (option (Z * nat)) :=
  match i with
  | O => Ok None
  | S i => p <- deref ps i ;; t <- div_z p d ;;
      if t : bool then v <- val_z p e ;; if v =? 0 then sq_piv ps d e i else Ok (Some (p, i)) else sq_piv ps d e i
  end.
(** usediv, lines 44-102 *)
Definition sq_use (ps : list Z) (s : sqfdiv) (ee : Z) : res sqfdiv :=
  e <- sqfred ee ps ;;
  e <- sq_red ps (sq_gens s) (sq_pivs s) e ;;
  if e =? 1 then Ok s
  else if sq_maxngens s <=? Z.of_nat (length (sq_gens s)) then UB
  else
    new <- mmap (fun x => sqfmul x e) (sq_subgp s) ;;
    if sq_maxnsub s <? 2 * Z.of_nat (length (sq_subgp s)) then UB
    else
      r <- sq_piv ps (sq_d s) e (length ps) ;;
      match r with
      | Some (p, i) => d <- zz_div (sq_d s) p ;;
          Ok (Sq d (sq_np s - 1) (sq_pos s) (sq_factor s + 1) (sq_subgp s ++ new) (sq_maxnsub s) (sq_gens s ++ [e]) (sq_pivs s ++ [Z.of_nat i]) (sq_maxngens s))
      | None =>
          if (e <? 0) && negb (sq_pos s)
          then Ok (Sq (sq_d s) (sq_np s) true (sq_factor s + 1) (sq_subgp s ++ new) (sq_maxnsub s) (sq_gens s ++ [e]) (sq_pivs s ++ [-1]) (sq_maxngens s))
          else Ok (Sq (sq_d s) (sq_np s) (sq_pos s) (sq_factor s) (sq_subgp s ++ new) (sq_maxnsub s) (sq_gens s) (sq_pivs s) (sq_maxngens s))
      end.
(** getdivs, lines 104-124; the vector has length 1<<np, twice that if not positive (the
    first is an int; 1<<31 would be negative and throw); writing beyond it is undefined, and
    elements not written stay 0 *)
Definition sq_divs (ps : list Z) (s : sqfdiv) : res (list Z) :=
  n <- shl1 (sq_np s) ;;
  if n <? 0 then Die
  else
    let n := if sq_pos s then n else n * 2 in
    l <- mfold (fun l p => t <- div_z p (sq_d s) ;; if t : bool then (if n <? 2 * Z.of_nat (length l) then UB else Ok (l ++ map (Z.mul p) l)) else Ok l)
           ps (if sq_pos s then [1] else [1; -1]) ;;
    Ok (l ++ repeat 0 (Z.to_nat n - length l)).
(** getsupp, lines 126-138 *)
Definition sq_supp (ps : list Z) (s : sqfdiv) (both : bool) : res (list Z) :=
  mfold (fun l p => t <- div_z p (sq_d s) ;; Ok (if t : bool then l ++ [p] else l)) ps (if negb (sq_pos s) || both then [-1] else []).
Definition sq_run (dd : Z) (posd : bool) (ps es : list Z) : res sqfdiv :=
  s <- sq_new dd posd ps ;; mfold (sq_use ps) es s.
