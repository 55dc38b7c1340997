(** Model of libsrc/cusp.cc (cusps of Gamma_0(N)) and of the expansions of
    modular symbols in libsrc/homspace.cc lines 509-534, 551-582. *)
From Coq Require Import ZArith List Bool.
From Verif Require Import Base ArithModel RatModel P1Math SymbModel.
Import ListNotations.
Open Scope Z_scope.

(** cusplist::cuspeq, cusp.cc lines 30-47 *)
Definition cuspeq (M : moddata) (plusflag : bool) (c1 c2 : rat) : res bool :=
  e <- rat_eq c1 c2 ;;
  if e then Ok true
  else
    let '(p1, q1) := c1 in let '(p2, q2) := c2 in
    g1 <- md_gcd M q1 ;; g2 <- md_gcd M q2 ;;
    if negb (g1 =? g2) then Ok false
    else
      '(_, s1, _) <- bezout_long p1 q1 ;; s1 <- mul64 s1 q2 ;;
      '(_, s2, _) <- bezout_long p2 q2 ;; s2 <- mul64 s2 q1 ;;
      qq <- mul64 q1 q2 ;; q3 <- md_gcd M qq ;;
      x <- sub64 s1 s2 ;; r <- rem64 x q3 ;;
      if (r =? 0) || negb plusflag then Ok (r =? 0)
      else x <- add64 s1 s2 ;; r <- rem64 x q3 ;; Ok (r =? 0).

(** first position of a cusp with property [f], std::find_if *)
Fixpoint find_if {A} (f : A -> res bool) (l : list A) (i : Z) : res (option Z) :=
  match l with
  | [] => Ok None
  | a :: l => b <- f a ;; if b then Ok (Some i) else find_if f l (i + 1)
  end.
(** cusplist::index, lines 49-58: result and new list *)
Definition cusp_index (M : moddata) (plusflag : bool) (l : list rat) (c : rat) : res (Z * list rat) :=
  o <- find_if (cuspeq M plusflag c) l 0 ;;
  match o with
  | Some i => Ok (1 + i, l)
  | None => Ok (Z.of_nat (length l) + 1, l ++ [c])
  end.
(** loop of cusplist::index_1, lines 69-76: 0 if not found *)
Fixpoint find_pm (M : moddata) (c mc : rat) (l : list rat) (i : Z) : res Z :=
  match l with
  | [] => Ok 0
  | a :: l =>
      b <- cuspeq M false c a ;;
      if b then Ok (i + 1)
      else b <- cuspeq M false mc a ;; if b then Ok (- (i + 1)) else find_pm M c mc l (i + 1)
  end.
(** cusplist::index_1, lines 60-81 *)
Definition cusp_index_1 (M : moddata) (l : list rat) (c : rat) : res (Z * list rat) :=
  mc <- rat_neg c ;; b <- cuspeq M false c mc ;;
  if b then Ok (0, l)
  else
    j <- find_pm M c mc l 0 ;;
    if negb (j =? 0) then Ok (j, l) else Ok (Z.of_nat (length l) + 1, l ++ [c]).
(** cusplist::index_2, lines 83-92 *)
Definition cusp_index_2 (M : moddata) (l : list rat) (c : rat) : res (Z * list rat) :=
  mc <- rat_neg c ;; b <- cuspeq M false c mc ;;
  if negb b then Ok (0, l)
  else
    o <- find_if (cuspeq M false c) l 0 ;;
    match o with
    | Some i => Ok (1 + i, l)
    | None => Ok (Z.of_nat (length l) + 1, l ++ [c])
    end.
(** a sequence of calls on the same list: all results and the final list *)
Fixpoint calls (f : list rat -> rat -> res (Z * list rat)) (l : list rat) (cs : list rat) : res (list Z * list rat) :=
  match cs with
  | [] => Ok ([], l)
  | c :: cs => '(i, l) <- f l c ;; '(is, l) <- calls f l cs ;; Ok (i :: is, l)
  end.

(** ** Expansions.  The functions add_coords, add_proj_coords and
    add_nfproj_coords run the same loop and differ in what they do with each
    M-symbol (c:d); the model returns the list of M-symbols, in order. *)
(** loop body of homspace::add_coords(v,nn,dd), lines 555-560 *)
Definition cf_step (s : Z * Z * Z * Z * list (Z * Z)) : res ((Z * Z * Z * Z * list (Z * Z)) + list (Z * Z)) :=
  let '(a, b, c, d, out) := s in
  if b =? 0 then Ok (inr out)
  else
    let f := b in
    b <- mod_long a f ;; x <- sub64 a b ;; q <- quot64 x f ;; a <- neg64 f ;;
    let e := d in
    d <- neg64 c ;; qc <- mul64 q c ;; c <- add64 qc e ;;
    Ok (inl (a, b, c, d, out ++ [(c, d)])).
(** homspace::add_coords(v,nn,dd), lines 551-561; add_proj_coords 563-573;
    add_nfproj_coords 575-585 *)
Definition cf_symbols (nn dd : Z) : res (list (Z * Z)) := while cf_step W (nn, dd, 0, 1, [(0, 1)]).

(** loop body of homspace::add_coords(vv,modsym), lines 529-533 *)
Definition ms_step (s : Z * Z * Z * Z * list (Z * Z)) : res ((Z * Z * Z * Z * list (Z * Z)) + list (Z * Z)) :=
  let '(r, s, C, D, out) := s in
  if s =? 0 then Ok (inr out)
  else
    let t := s in
    s <- mod_long r t ;; x <- sub64 r s ;; q <- quot64 x t ;; r <- neg64 t ;;
    let e := D in
    D <- neg64 C ;; qc <- mul64 q C ;; C <- add64 qc e ;;
    mD <- neg64 D ;;
    Ok (inl (r, s, C, D, out ++ [(mD, C)])).
(** homspace::add_coords(vv,modsym), lines 509-534, on the symbol {al,be} *)
Definition ms_symbols (al be : rat) : res (list (Z * Z)) :=
  let '(a, c) := be in let '(b, d) := al in
  ad <- mul64 a d ;; bc <- mul64 b c ;; de <- sub64 ad bc ;;
  '(de, b, d) <- (if de <? 0 then de <- neg64 de ;; b <- neg64 b ;; d <- neg64 d ;; Ok (de, b, d) else Ok (de, b, d)) ;;
  if de =? 1 then Ok [(c, d)]
  else
    '(_, u, v) <- bezout_long a c ;;
    bu <- mul64 b u ;; vd <- mul64 v d ;; nu <- add64 bu vd ;;
    while ms_step W (nu, de, c, u, []).
