(** Model of libsrc/moddata.cc, libsrc/symb.cc and eclib/{moddata,symb}.h: tables
    for a level N and the numbering of M-symbols (c:d) mod N.  A long is a
    checked 64-bit integer; vector accesses are checked.  The list of primes
    dividing N (pdivs(n)) is a parameter [ps], see [pfull] in P1Math. *)
From Coq Require Import ZArith List Bool.
From Verif Require Import Base ArithModel XModModel P1Math.
Import ListNotations.
Open Scope Z_scope.

Definition vget {A} (l : list A) (i : Z) : res A :=
  if (0 <=? i) && (i <? Z.of_nat (length l)) then
    match nth_error l (Z.to_nat i) with Some x => Ok x | None => UB end
  else UB.

(** level::reduce, moddata.h line 45 *)
Definition reduce (N r : Z) : res Z :=
  r <- rem64 r N ;; if r <? 0 then add64 N r else Ok r.

(** bezout_x, moddata.cc lines 55-64 *)
Definition bezx_step (s : Z * Z * Z * Z) : res ((Z * Z * Z * Z) + (Z * Z)) :=
  let '(a, b, oldx, x) := s in
  if b =? 0 then Ok (inr (a, oldx))
  else
    q <- quot64 a b ;;
    qb <- mul64 q b ;; c <- sub64 a qb ;;
    qx <- mul64 q x ;; newx <- sub64 oldx qx ;;
    Ok (inl (b, c, x, newx)).
Definition bezout_x (aa bb : Z) : res (Z * Z) :=
  '(a, oldx) <- while bezx_step W (aa, bb, 1, 0) ;;
  if a <? 0 then nx <- neg64 oldx ;; na <- neg64 a ;; Ok (na, nx) else Ok (a, oldx).

(** moddata.cc lines 102-118: make x coprime to N without changing x*i mod N *)
Definition mm_step (N m : Z) (s : Z * Z * Z) : res ((Z * Z * Z) + Z) :=
  let '(mpower, mm, mmold) := s in
  if mm =? mmold then Ok (inr mm)
  else
    mpower <- xmodmul_long m mpower N ;;
    g <- gcd_long mpower N ;;
    Ok (inl (mpower, g, mm)).
Definition adjust (N d x : Z) : res Z :=
  m <- quot64 N d ;;
  mm <- while (mm_step N m) W (m, m, 1) ;;
  q <- quot64 N mm ;;
  '(_, u, v) <- bezout_long mm q ;;
  xv <- mul64 x v ;; x <- rem64 xv mm ;;
  xq <- mul64 x q ;; x <- rem64 xq N ;;
  um <- mul64 u mm ;; s <- add64 x um ;;
  rem64 s N.

(** position of d in dlist, lines 95-96: the first index, ndivs if absent *)
Fixpoint find_div (d : Z) (dlist : list Z) (nd : Z) : Z :=
  match dlist with
  | [] => nd
  | e :: l => if e =? d then nd else find_div d l (nd + 1)
  end.

(** tables: invlist, noninvlist, noninvdlist, gcdtable, unitdivlist *)
Record tables := Tb { invlist : list Z; noninvlist : list Z; noninvdlist : list Z; gcdtable : list Z; unitdivlist : list Z }.
(** one round of the loop of moddata::moddata, lines 86-121.  The vectors
    noninvlist and noninvdlist have N-phi entries; a write beyond is UB. *)
Definition md_round (N phi : Z) (dlist : list Z) (i : Z) (T : tables) : res tables :=
  '(d, x) <- bezout_x i N ;;
  if d =? 1 then
    r <- reduce N x ;;
    Ok (Tb (invlist T ++ [r]) (noninvlist T) (noninvdlist T) (gcdtable T ++ [d]) (unitdivlist T ++ [r]))
  else
    let nnoninv := Z.of_nat (length (noninvlist T)) in
    if nnoninv <? N - phi then
      let nd := if d <? N then find_div d dlist 0 else -1 in
      g <- gcd_long x N ;;
      x <- (if negb (g =? 1) then adjust N d x else Ok x) ;;
      Ok (Tb (invlist T ++ [- nnoninv]) (noninvlist T ++ [i]) (noninvdlist T ++ [nd]) (gcdtable T ++ [d]) (unitdivlist T ++ [x]))
    else UB.
Fixpoint md_loop (N phi : Z) (dlist : list Z) (is : list Z) (T : tables) : res tables :=
  match is with
  | [] => Ok T
  | i :: is => T <- md_round N phi dlist i T ;; md_loop N phi dlist is T
  end.
Record moddata := Md { modulus : Z; dlist : list Z; phi : Z; psi : Z; nsymb : Z; nsymb1 : Z; nsymb2 : Z; tabs : tables }.
(** the constructor, lines 66-124 *)
Definition moddata_of (N : Z) (ps : list Z) : res moddata :=
  dl <- posdivs_long N ps ;;
  let ph := phi_of ps N in
  let ps' := psi_of ps N in
  let n1 := 2 * N - ph in
  T <- md_loop N ph dl (zr N) (Tb [] [] [] [] []) ;;
  Ok (Md N dl ph ps' ps' n1 (ps' - n1) T).

(** code, gcd and unitdiv, moddata.h lines 56-65 *)
Definition code (M : moddata) (r : Z) : res Z := i <- reduce (modulus M) r ;; vget (invlist (tabs M)) i.
Definition md_gcd (M : moddata) (r : Z) : res Z := i <- reduce (modulus M) r ;; vget (gcdtable (tabs M)) i.
Definition unitdiv (M : moddata) (r : Z) : res Z := i <- reduce (modulus M) r ;; vget (unitdivlist (tabs M)) i.

(** ** M-symbols: pairs (c,d) *)
(** symb::normalize, symb.cc lines 34-60 *)
Definition normalize (M : moddata) (s : Z * Z) : res (Z * Z) :=
  let '(c, d) := s in
  let n := modulus M in
  u <- unitdiv M c ;;
  cu <- xmodmul_long c u n ;; cc <- reduce n cu ;;
  du <- xmodmul_long d u n ;; dd <- reduce n du ;;
  q <- quot64 n cc ;; dd <- rem64 dd q ;;
  Ok (cc, dd).
(** symb::operator==, symb.h lines 44-45 *)
Definition symb_eq (N : Z) (s t : Z * Z) : res bool :=
  x <- xmodmul_long (fst s) (snd t) N ;; y <- xmodmul_long (fst t) (snd s) N ;;
  z <- sub64 x y ;; r <- rem64 z N ;; Ok (r =? 0).

(** symblist: the symbols and the hash table (a map; a later entry for a key
    replaces an earlier one, so lookups take the first match of [hash]) *)
Record symblist := Sl { items : list (Z * Z); hash : list ((Z * Z) * Z) }.
Fixpoint lookup (k : Z * Z) (h : list ((Z * Z) * Z)) : option Z :=
  match h with
  | [] => None
  | (k', v) :: h => if (fst k =? fst k') && (snd k =? snd k') then Some v else lookup k h
  end.
(** symblist::index, lines 112-121 *)
Definition sl_index (M : moddata) (SL : symblist) (s : Z * Z) : res Z :=
  k <- normalize M s ;;
  Ok (match lookup k (hash SL) with Some v => v | None => -1 end).
Definition count (SL : symblist) : Z := Z.of_nat (length (items SL)).
(** symblist::add, lines 92-110 (maxnum = nsymb2; the error message is not modelled) *)
Definition sl_add (M : moddata) (SL : symblist) (s : Z * Z) : res symblist :=
  i <- sl_index M SL s ;;
  if i =? -1 then
    if count SL <? nsymb2 M then
      let '(c, d) := s in
      q <- quot64 (modulus M) c ;; d' <- posmod_long d q ;;
      Ok (Sl (items SL ++ [s]) (((c, d'), count SL) :: hash SL))
    else Ok SL
  else Ok SL.
(** inner loop of symbdata::symbdata, lines 147-153, over noninvlist[1], ... *)
Fixpoint sd_inner (M : moddata) (c : Z) (ds : list Z) (SL : symblist) : res symblist :=
  match ds with
  | [] => Ok SL
  | d :: ds =>
      if count SL <? nsymb2 M then
        g <- gcd_long d c ;;
        SL <- (if g =? 1 then sl_add M SL (c, d) else Ok SL) ;;
        sd_inner M c ds SL
      else Ok SL
  end.
(** outer loop, lines 142-154, over dlist[1], ..., dlist[ndivs-2]; the starts
    stored in dstarts are not used by symblist::index and are not modelled *)
Fixpoint sd_outer (M : moddata) (cs : list Z) (SL : symblist) : res symblist :=
  match cs with
  | [] => Ok SL
  | c :: cs =>
      if count SL <? nsymb2 M then
        SL <- sd_inner M c (tl (noninvlist (tabs M))) SL ;; sd_outer M cs SL
      else Ok SL
  end.
Definition symbdata := (moddata * symblist)%type.
(** symbdata::symbdata, lines 134-161 *)
Definition symbdata_of (N : Z) (ps : list Z) : res symbdata :=
  M <- moddata_of N ps ;;
  SL <- (if 0 <? nsymb2 M then sd_outer M (removelast (tl (dlist M))) (Sl [] []) else Ok (Sl [] [])) ;;
  Ok (M, SL).

(** symbdata::index2, lines 163-186: dstarts has ndivs entries, of which only
    the bounds matter *)
Definition index2 (D : symbdata) (c d : Z) : res Z :=
  let '(M, SL) := D in
  let N := modulus M in
  kd <- code M d ;;
  if 0 <? kd then x <- xmodmul_long c kd N ;; reduce N x
  else
    kc <- code M c ;;
    if 0 <? kc then x <- xmodmul_long kc d N ;; k <- code M x ;; sub64 N k
    else
      nd <- vget (noninvdlist (tabs M)) (- kc) ;;
      _ <- vget (dlist M) nd ;;
      ind <- sl_index M SL (c, d) ;;
      add64 (nsymb1 M) ind.

(** symbdata::symbol, lines 188-192 *)
Definition symbol (D : symbdata) (i : Z) : res (Z * Z) :=
  let '(M, SL) := D in
  if i <? modulus M then Ok (i, 1)
  else if i <? nsymb1 M then d <- vget (noninvlist (tabs M)) (i - modulus M) ;; Ok (1, d)
  else vget (items SL) (i - nsymb1 M).

(** rof, rsof, sof, tof, symb.h lines 106-109 *)
Definition rof (D : symbdata) (i : Z) : res Z := '(c, d) <- symbol D i ;; index2 D d c.
Definition rsof (D : symbdata) (i : Z) : res Z := '(c, d) <- symbol D i ;; mc <- neg64 c ;; index2 D mc d.
Definition sof (D : symbdata) (i : Z) : res Z := '(c, d) <- symbol D i ;; md <- neg64 d ;; index2 D md c.
Definition tof (D : symbdata) (i : Z) : res Z := '(c, d) <- symbol D i ;; e <- sub64 c d ;; index2 D e c.
