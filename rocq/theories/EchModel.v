(** Model of the fraction-free elimination, kernels over Q, rank, characteristic
    polynomial and determinant of libsrc/mat.cc and libsrc/sub.cc.  Rows and columns
    are numbered from 0, matrices are as in LinModel.  No proofs in this file. *)
From Coq Require Import ZArith List Bool.
From Verif Require Import Base LinModel.
Import ListNotations.
Open Scope Z_scope.
Open Scope res_scope.

Section Ech.
Variable S : scal.
Notation "a +! b" := (s_add S a b) (at level 50).
Notation "a -! b" := (s_sub S a b) (at level 50).
Notation "a *! b" := (s_mul S a b) (at level 40).

(** conservative_elim, mat.cc lines 551-590: entries of row r2 from column pos on *)
Definition cons_elim (e : list Z) (nc r1 r2 pos : nat) : res (list Z) :=
  p <- deref e (r1 * nc + pos) ;; q <- deref e (r2 * nc + pos) ;;
  if (p =? 1) && (q =? 0) then Ok e
  else
    nq <- s_neg S q ;;
    let f :=
      if p =? 1 then
        if q =? 1 then fun x y => y -! x
        else if nq =? 1 then fun x y => y +! x
        else fun x y => b <- q *! x ;; y -! b
      else if nq =? 1 then fun x y => a <- p *! y ;; a +! x
      else if q =? 1 then fun x y => a <- p *! y ;; a -! x
      else if q =? 0 then fun x y => p *! y
      else fun x y => a <- p *! y ;; b <- q *! x ;; a -! b in
    row_op e nc r1 r2 pos f.
(** elim, lines 596-630: the whole row *)
Definition elim (e : list Z) (nc r1 r2 pos : nat) : res (list Z) :=
  p <- deref e (r1 * nc + pos) ;; q <- deref e (r2 * nc + pos) ;;
  if (p =? 1) && (q =? 0) then Ok e
  else
    nq <- s_neg S q ;;
    let f :=
      if p =? 1 then
        if q =? 1 then fun x y => y -! x
        else if nq =? 1 then fun x y => y +! x
        else fun x y => b <- q *! x ;; y -! b
      else if nq =? 1 then fun x y => a <- p *! y ;; a +! x
      else if q =? 1 then fun x y => a <- p *! y ;; a -! x
      else fun x y => a <- p *! y ;; b <- q *! x ;; a -! b in
    row_op e nc r1 r2 0 f.
(** clear, lines 632-640, for the row r *)
Definition clear_row (e : list Z) (nc r : nat) : res (list Z) :=
  a <- seg e (r * nc) nc ;;
  g <- mfold (fun g x => s_gcd S g x) a 0 ;;
  if 1 <? g then a <- mmap (fun x => s_div S x g) a ;; put e (r * nc) a else Ok e.
(** lcm(long,long), arith.cc 344-349, lcm(bigint,bigint), marith.h 51-52: a*(b/g).
    For int the product is taken in int here (the C++ library version of lcm for int
    differs by the sign, which abs(d) removes). *)
Definition s_lcm (a b : Z) : res Z :=
  g <- s_gcd S a b ;; if g =? 0 then Ok 0 else q <- s_div S b g ;; a *! q.
(** search for the smallest non-zero absolute value in column c, lines 675-684 *)
Fixpoint piv_min (e : list Z) (nc c : nat) (rs : list nat) (piv : Z) (rmin : nat) : res (Z * nat) :=
  match rs with
  | [] => Ok (piv, rmin)
  | r2 :: rs =>
      if piv =? 1 then Ok (piv, rmin)
      else x <- deref e (r2 * nc + c) ;; a <- s_abs S x ;;
           if (0 <? a) && ((a <? piv) || (piv =? 0)) then piv_min e nc c rs a r2 else piv_min e nc c rs piv rmin
  end.
(** division of the row r by the last pivot, lines 713-717 *)
Definition div_row (e : list Z) (nc r : nat) (last : Z) : res (list Z) :=
  if 1 <? last then a <- seg e (r * nc) nc ;; a <- mmap (fun x => s_div S x last) a ;; put e (r * nc) a else Ok e.
(** one column of the forward elimination, lines 671-729.
    State: entries, r, pcols, npcols, lastpivot *)
Definition ech0_col (nr nc : nat) (s : list Z * nat * list nat * list nat * Z) (c : nat) : res (list Z * nat * list nat * list nat * Z) :=
  let '(e, r, pc, npc, last) := s in
  x <- deref e (r * nc + c) ;; x <- s_abs S x ;;
  '(piv, rmin) <- piv_min e nc c (seq (r + 1) (nr - (r + 1))) x r ;;
  if piv =? 0 then Ok (e, r, pc, npc ++ [c], last)
  else
    e <- (if (r <? rmin)%nat then swaprows e nc r rmin else Ok e) ;;
    e <- mfold (fun e r3 => e <- cons_elim e nc r r3 c ;; div_row e nc r3 last) (seq (r + 1) (nr - (r + 1))) e ;;
    Ok (e, (r + 1)%nat, pc ++ [c], npc, piv).
(** for (long c=0; (c<nc)&&(r<nr); c++), line 669 *)
Fixpoint ech0_cols (nr nc : nat) (cs : list nat) (s : list Z * nat * list nat * list nat * Z) : res (list Z * nat * list nat * list nat * Z) :=
  match cs with
  | [] => Ok s
  | c :: cs => if (snd (fst (fst (fst s))) <? nr)%nat then s <- ech0_col nr nc s c ;; ech0_cols nr nc cs s else Ok s
  end.
(** echelon0, lines 658-796.  Result: matrix, pcols, npcols, d.  The returned matrix
    mat(rk,nc,m) keeps all the nr*nc entries of m. *)
Definition echelon0 (m : mat) : res (mat * list nat * list nat * Z) :=
  let nr := nro m in let nc := nco m in
  '(e, r, pc, npc, _) <- ech0_cols nr nc (seq 0 nc) (ents m, 0%nat, [], [], 1) ;;
  let k := (length pc + length npc)%nat in
  let npc := npc ++ seq k (nc - k) in
  let rk := length pc in
  if (0 <? length npc)%nat then
    e <- mfold (fun e r1 => clear_row e nc r1) (seq 0 rk) e ;;
    '(e, d) <- mfold (fun '(e, d) r1 =>
         e <- mfold (fun e r2 => c <- at_ pc r2 ;; elim e nc r2 r1 c) (seq (r1 + 1) (rk - (r1 + 1))) e ;;
         e <- clear_row e nc r1 ;;
         c <- at_ pc r1 ;; x <- deref e (r1 * nc + c) ;; d <- s_lcm d x ;; Ok (e, d)) (seq 0 rk) (e, 1) ;;
    d <- s_abs S d ;;
    e <- mfold (fun e r1 => c <- at_ pc r1 ;; x <- deref e (r1 * nc + c) ;; fac <- s_div S d x ;;
           a <- seg e (r1 * nc) nc ;; a <- mmap (fun x => fac *! x) a ;; put e (r1 * nc) a) (seq 0 rk) e ;;
    Ok (Mt rk nc e, pc, npc, d)
  else
    e <- mfold (fun e i => c <- at_ pc i ;; put e (i * nc) (map (fun j => if (j =? c)%nat then 1 else 0) (seq 0 nc))) (seq 0 rk) e ;;
    Ok (Mt rk nc e, pc, npc, 1).
(** kernel, sub.cc lines 86-102 (method 0) *)
Definition kernel (m : mat) : res subspace :=
  '(R, pc, npc, d) <- echelon0 m ;;
  let ny := length npc in
  b <- mfold (fun b n => c <- at_ npc n ;; mat_set b c n d) (seq 0 ny) (mat_new (nco R) ny) ;;
  b <- mfold (fun b r => i <- at_ pc r ;; mfold (fun b j => c <- at_ npc j ;; x <- mat_get R r c ;; x <- s_neg S x ;; mat_set b i j x) (seq 0 ny) b)
         (seq 0 (length pc)) b ;;
  Ok (Sub b npc d).
(** image, lines 104-111; eigenspace, lines 113-117 *)
Definition image (m : mat) : res subspace :=
  t <- transpose m ;; '(R, pc, _, d) <- echelon0 t ;; b <- transpose R ;; Ok (Sub b pc d).
Definition eigenspace (m : mat) (lambda : Z) : res subspace :=
  nl <- s_neg S lambda ;; a <- addscalar S m nl ;; kernel a.
Definition subeigenspace (m : mat) (l : Z) (s : subspace) : res subspace :=
  a <- restrict_mat S m s ;; ld <- l *! denom s ;; ss <- eigenspace a ld ;; sub_combine S s ss.

(** elimrows2, mat.cc lines 393-419 *)
Definition elimrows2 (m : mat) (r1 r2 pos : nat) (last : Z) : res mat :=
  p <- mat_get m r1 pos ;; q <- mat_get m r2 pos ;;
  e <- row_op (ents m) (nco m) r1 r2 0 (fun x y => a <- p *! y ;; b <- q *! x ;; a -! b) ;;
  divrow S (Mt (nro m) (nco m) e) r2 last.
(** search of the pivot in rank(), lines 809-817 *)
Fixpoint rank_piv (m : mat) (c : nat) (rs : list nat) (mmin : Z) (rmin : nat) : res (Z * nat) :=
  match rs with
  | [] => Ok (mmin, rmin)
  | r2 :: rs =>
      if mmin =? 1 then Ok (mmin, rmin)
      else x <- mat_get m r2 c ;; a <- s_abs S x ;;
           if negb (a =? 0) && ((a <? mmin) || (mmin =? 0)) then rank_piv m c rs a r2 else rank_piv m c rs mmin rmin
  end.
(** rank, lines 798-829.  State: matrix, r (= rk), lastpivot *)
Definition rank_col (s : mat * nat * Z) (c : nat) : res (mat * nat * Z) :=
  let '(m, r, last) := s in
  if (r <? nro m)%nat then
    x <- mat_get m r c ;; x <- s_abs S x ;;
    '(mmin, rmin) <- rank_piv m c (seq (r + 1) (nro m - (r + 1))) x r ;;
    if mmin =? 0 then Ok (m, r, last)
    else
      m <- (if (r <? rmin)%nat then e <- swaprows (ents m) (nco m) r rmin ;; Ok (Mt (nro m) (nco m) e) else Ok m) ;;
      m <- mfold (fun m r3 => elimrows2 m r r3 c last) (seq (r + 1) (nro m - (r + 1))) m ;;
      Ok (m, (r + 1)%nat, mmin)
  else Ok s.
Definition rank (m : mat) : res nat := '(_, r, _) <- mfold rank_col (seq 0 (nco m)) (m, 0%nat, 1) ;; Ok r.

(** charpoly, lines 847-863, the coefficients of x^0, ..., x^n.  For n = 0 clist[n-1] is
    outside the vector.  The final comparison only writes a message. *)
Definition charpoly (m : mat) : res (list Z) :=
  let n := nro m in
  id <- scalar_matrix n 1 ;;
  t <- trace S m ;;
  match n with
  | O => UB
  | Datatypes.S _ =>
      nt <- s_neg S t ;;
      '(_, _, cl) <- mfold (fun '(b, t, cl) i =>
          ti <- mat_scale S id t ;; d <- mat_sub S b ti ;; b <- mat_mul S m d ;;
          tr <- trace S b ;; t <- s_div S tr (Z.of_nat i) ;; nt <- s_neg S t ;; Ok (b, t, nt :: cl))
        (seq 2 (n - 1)) (m, t, [nt; 1]) ;;
      Ok cl
  end.
(** determinant, lines 865-869 *)
Definition determinant (m : mat) : res Z :=
  cl <- charpoly m ;; det <- at_ cl 0 ;; if Nat.odd (nro m) then s_neg S det else Ok det.
End Ech.
