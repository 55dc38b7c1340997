(** Model of libsrc/vec.cc, libsrc/mat.cc and libsrc/sub.cc (dense vectors,
    matrices, subspaces).  No proofs in this file.

    The three instances (int, long, bigint) have the same text; the scalar
    operations are a record [scal].  A matrix is the pair of its number of
    columns and the flat list of its entries, as in the class; iterator ranges
    are [seg] and [put], undefined outside the list; [at] throws.  Simplification:
    rows and columns are numbered from 0 here, from 1 in the class interface. *)
From Coq Require Import ZArith List Bool.
From Verif Require Import Base ArithModel XModModel MArithModel RatModel.
Import ListNotations.
Open Scope Z_scope.
Open Scope res_scope.

(** ** scalars *)
Record scal := Sc {
  s_add : Z -> Z -> res Z; s_sub : Z -> Z -> res Z; s_mul : Z -> Z -> res Z;
  s_neg : Z -> res Z; s_abs : Z -> res Z; s_div : Z -> Z -> res Z;
  s_mod : Z -> Z -> res Z;           (* mod(x,p) *)
  s_xmod : Z -> Z -> res Z;          (* xmod(x,p) *)
  s_xmm : Z -> Z -> Z -> res Z;      (* xmodmul(x,y,p) *)
  s_invx : Z -> Z -> res Z;          (* xmod(invmod(x,p),p) *)
  s_invm : Z -> Z -> res Z;          (* mod(invmod(x,p),p) *)
  s_gcd : Z -> Z -> res Z;
  s_modrat : Z -> Z -> res (bool * Z * Z)
}.
(** scalar = int (vector.h, matrix.h with SCALAR_OPTION 1); invmod(int,int) is the long version *)
Definition sc_int : scal := Sc add32 sub32 mul32 neg32 (fun a => c32 (Z.abs a)) quot32 mod_int xmod_int xmodmul_int
  (fun a p => x <- invmod_long a p ;; r <- rem64 x p ;; Ok (wrap32 r))
  (fun a p => x <- invmod_long a p ;; r <- mod_long x p ;; Ok (wrap32 r))
  (fun a b => g <- gcd_long a b ;; c32 g)
  (fun a m => '(ok, n, d) <- modrat_long a m ;; Ok (ok, wrap32 n, wrap32 d)).
(** scalar = long *)
Definition sc_long : scal := Sc add64 sub64 mul64 neg64 abs64 quot64 mod_long xmod_long xmodmul_long
  (fun a p => x <- invmod_long a p ;; xmod_long x p) (fun a p => x <- invmod_long a p ;; mod_long x p)
  gcd_long modrat_long.
(** scalar = bigint *)
Definition sc_z (xgcd : Z -> Z -> Z * Z * Z) : scal := Sc (fun a b => Ok (a + b)) (fun a b => Ok (a - b)) (fun a b => Ok (a * b)) (fun a => Ok (- a)) (fun a => Ok (Z.abs a))
  zz_div mod_z zz_mod (fun a b m => zz_mod (a * b) m)
  (fun a p => zz_mod (invmod_z xgcd a p) p) (fun a p => mod_z (invmod_z xgcd a p) p)
  (fun a b => Ok (Z.gcd a b)) (modrat_z W).

(** ** iterator ranges and loops *)
Definition at_ {A} (l : list A) (i : nat) : res A := match nth_error l i with Some x => Ok x | None => Die end.
Definition deref {A} (l : list A) (i : nat) : res A := match nth_error l i with Some x => Ok x | None => UB end.
Definition seg {A} (l : list A) (off n : nat) : res (list A) :=
  if (off + n <=? length l)%nat then Ok (firstn n (skipn off l)) else UB.
Definition put {A} (l : list A) (off : nat) (vs : list A) : res (list A) :=
  if (off + length vs <=? length l)%nat then Ok (firstn off l ++ vs ++ skipn (off + length vs) l) else UB.
Definition at_set {A} (l : list A) (i : nat) (x : A) : res (list A) :=
  if (i <? length l)%nat then put l i [x] else Die.
Fixpoint mfold {A B} (f : A -> B -> res A) (l : list B) (a : A) : res A :=
  match l with [] => Ok a | b :: l => a' <- f a b ;; mfold f l a' end.
(** std::transform with one and with two input ranges *)
Fixpoint mmap {A B} (f : A -> res B) (l : list A) : res (list B) :=
  match l with [] => Ok [] | a :: l => b <- f a ;; bs <- mmap f l ;; Ok (b :: bs) end.
Fixpoint mmap2 {A B C} (f : A -> B -> res C) (l : list A) (m : list B) : res (list C) :=
  match l, m with
  | [], _ => Ok []
  | a :: l, b :: m => c <- f a b ;; cs <- mmap2 f l m ;; Ok (c :: cs)
  | _ :: _, [] => UB
  end.
Definition zeros (n : nat) : list Z := repeat 0 n.

Section Lin.
Variable S : scal.
Notation "a +! b" := (s_add S a b) (at level 50).
Notation "a -! b" := (s_sub S a b) (at level 50).
Notation "a *! b" := (s_mul S a b) (at level 40).

(** ** vectors, vec.cc *)
(** operator+=, -=, lines 59-78: v += w, for each entry of w *)
Definition vec_add (v w : list Z) : res (list Z) := z <- mmap2 (fun wi vi => vi +! wi) w v ;; put v 0 z.
Definition vec_sub (v w : list Z) : res (list Z) := z <- mmap2 (fun wi vi => vi -! wi) w v ;; put v 0 z.
(** addmodp, lines 66-70 *)
Definition vec_addmodp (v w : list Z) (p : Z) : res (list Z) := z <- mmap2 (fun wi vi => x <- wi +! vi ;; s_mod S x p) w v ;; put v 0 z.
(** operator*=, /=, lines 80-92 *)
Definition vec_scale (v : list Z) (c : Z) : res (list Z) := mmap (fun x => x *! c) v.
Definition vec_div (v : list Z) (c : Z) : res (list Z) := mmap (fun x => s_div S x c) v.
(** slice(first,last), lines 94-100; here first from 0, last excluded *)
Definition vec_slice (v : list Z) (first last : nat) : res (list Z) := seg v first (last - first).
(** v[index], lines 102-118 *)
Definition vec_index (v : list Z) (ix : list nat) : res (list Z) := mmap (fun i => at_ v i) ix.
(** red_modp, lines 140-145 *)
Definition vec_redp (v : list Z) (p : Z) : res (list Z) := if p =? 0 then Ok v else mmap (fun x => s_mod S x p) v.
(** inner product, lines 156-159 *)
Fixpoint inner (acc : Z) (v w : list Z) : res Z :=
  match v, w with
  | [], _ => Ok acc
  | a :: v, b :: w => x <- a *! b ;; acc <- acc +! x ;; inner acc v w
  | _ :: _, [] => UB
  end.
Definition vec_dot (v w : list Z) : res Z := inner 0 v w.
(** dotmodp, lines 357-362 *)
Fixpoint innermod (p acc : Z) (v w : list Z) : res Z :=
  match v, w with
  | [], _ => Ok acc
  | a :: v, b :: w => x <- s_xmm S a b p ;; y <- acc +! x ;; acc <- s_mod S y p ;; innermod p acc v w
  | _ :: _, [] => UB
  end.
Definition dotmodp (v w : list Z) (p : Z) : res Z := innermod p 0 v w.

(** ** matrices, mat.cc: (number of rows, number of columns, entries) *)
Record mat := Mt { nro : nat; nco : nat; ents : list Z }.
(** mat(nr,nc), line 28 *)
Definition mat_new (nr nc : nat) : mat := Mt nr nc (zeros (nr * nc)).
(** operator()(i,j), set, lines 35-48, 82-85 *)
Definition mat_get (m : mat) (i j : nat) : res Z := at_ (ents m) (i * nco m + j).
Definition mat_set (m : mat) (i j : nat) (x : Z) : res mat := e <- at_set (ents m) (i * nco m + j) x ;; Ok (Mt (nro m) (nco m) e).
(** slice, lines 50-71, with both ranges given (from 0, end excluded) *)
Definition mat_slice (m : mat) (r1 r2 c1 c2 : nat) : res mat :=
  rs <- mmap (fun i => seg (ents m) (i * nco m + c1) (c2 - c1)) (seq r1 (r2 - r1)) ;;
  Ok (Mt (r2 - r1) (c2 - c1) (concat rs)).
(** setrow, setcol, row, col, lines 92-124 *)
Definition mat_setrow (m : mat) (i : nat) (v : list Z) : res mat := e <- put (ents m) (i * nco m) v ;; Ok (Mt (nro m) (nco m) e).
Definition mat_setcol (m : mat) (j : nat) (v : list Z) : res mat :=
  e <- mfold (fun e '(i, x) => put e (i * nco m + j) [x]) (combine (seq 0 (length v)) v) (ents m) ;; Ok (Mt (nro m) (nco m) e).
Definition mat_row (m : mat) (i : nat) : res (list Z) := seg (ents m) (i * nco m) (nco m).
Definition mat_col (m : mat) (j : nat) : res (list Z) := mmap (fun i => deref (ents m) (i * nco m + j)) (seq 0 (nro m)).
(** swaprows, lines 126-131 (flat list, number of columns) *)
Definition swaprows (e : list Z) (nc r1 r2 : nat) : res (list Z) :=
  a <- seg e (r1 * nc) nc ;; b <- seg e (r2 * nc) nc ;; e <- put e (r1 * nc) b ;; put e (r2 * nc) a.
(** multrow, divrow, lines 133-145 *)
Definition multrow (m : mat) (r : nat) (c : Z) : res mat :=
  if c =? 1 then Ok m
  else a <- seg (ents m) (r * nco m) (nco m) ;; a <- mmap (fun x => x *! c) a ;; mat_setrow m r a.
Definition divrow (m : mat) (r : nat) (c : Z) : res mat :=
  if (c =? 0) || (c =? 1) then Ok m
  else a <- seg (ents m) (r * nco m) (nco m) ;; a <- mmap (fun x => s_div S x c) a ;; mat_setrow m r a.
(** operator+=, -=, *=, /=, lines 174-203 *)
Definition mat_add (m n : mat) : res mat := z <- mmap2 (fun x y => x +! y) (ents n) (ents m) ;; e <- put (ents m) 0 z ;; Ok (Mt (nro m) (nco m) e).
Definition mat_sub (m n : mat) : res mat := z <- mmap2 (fun x y => y -! x) (ents n) (ents m) ;; e <- put (ents m) 0 z ;; Ok (Mt (nro m) (nco m) e).
Definition mat_scale (m : mat) (c : Z) : res mat :=
  if c =? 1 then Ok m
  else if c =? 0 then Ok (Mt (nro m) (nco m) (zeros (length (ents m))))
  else e <- mmap (fun x => x *! c) (ents m) ;; Ok (Mt (nro m) (nco m) e).
Definition mat_div (m : mat) (c : Z) : res mat :=
  if (c =? 0) || (c =? 1) then Ok m
  else e <- mmap (fun x => s_div S x c) (ents m) ;; Ok (Mt (nro m) (nco m) e).
(** operator*(mat,mat), lines 221-244; row i of the result, starting from zeros.
    When the sizes do not match the zero matrix is returned. *)
Definition mul_row (f : Z -> Z -> Z -> res Z) (m1 m2 : mat) (i : nat) : res (list Z) :=
  mfold (fun c k => a <- deref (ents m1) (i * nco m1 + k) ;; b <- seg (ents m2) (k * nco m2) (nco m2) ;; mmap2 (f a) b c)
    (seq 0 (nro m2)) (zeros (nco m2)).
Definition mul_gen (f : Z -> Z -> Z -> res Z) (m1 m2 : mat) : res mat :=
  if (nco m1 =? nro m2)%nat then
    rs <- mmap (mul_row f m1 m2) (seq 0 (nro m1)) ;; Ok (Mt (nro m1) (nco m2) (concat rs))
  else Ok (mat_new (nro m1) (nco m2)).
Definition mat_mul : mat -> mat -> res mat := mul_gen (fun a b c => x <- a *! b ;; x +! c).
(** matmulmodp, lines 1505-1528 *)
Definition matmulmodp (m1 m2 : mat) (p : Z) : res mat :=
  mul_gen (fun a b c => x <- s_xmm S a b p ;; y <- x +! c ;; s_xmod S y p) m1 m2.
(** operator*(mat,vec), lines 455-471 *)
Definition mat_vec (m : mat) (v : list Z) : res (list Z) :=
  if (nco m =? length v)%nat then mmap (fun i => a <- seg (ents m) (i * nco m) (nco m) ;; inner 0 a v) (seq 0 (nro m))
  else Ok (zeros (nro m)).
(** scalar_matrix, lines 473-478 *)
Definition scalar_matrix (n : nat) (a : Z) : res mat := mfold (fun d i => mat_set d i i a) (seq 0 n) (mat_new n n).
(** a matrix set entry by entry: for i, for j, ans.set(i,j,g(i,j)) *)
Definition mat_fill (nr nc : nat) (g : nat -> nat -> res Z) : res mat :=
  mfold (fun m i => mfold (fun m j => x <- g i j ;; mat_set m i j x) (seq 0 nc) m) (seq 0 nr) (mat_new nr nc).
(** transpose, lines 480-488 *)
Definition transpose (m : mat) : res mat := mat_fill (nco m) (nro m) (fun i j => mat_get m j i).
(** rowsubmat, submat, lines 491-530 *)
Definition rowsubmat (m : mat) (v : list nat) : res mat := mat_fill (length v) (nco m) (fun i j => r <- at_ v i ;; mat_get m r j).
Definition submat (m : mat) (iv jv : list nat) : res mat :=
  mat_fill (length iv) (length jv) (fun i j => r <- at_ iv i ;; c <- at_ jv j ;; mat_get m r c).
(** colcat, rowcat, directsum, lines 348-390 *)
Definition colcat (a b : mat) : res mat :=
  if (nro a =? nro b)%nat then
    rs <- mmap (fun i => x <- seg (ents a) (i * nco a) (nco a) ;; y <- seg (ents b) (i * nco b) (nco b) ;; Ok (x ++ y)) (seq 0 (nro a)) ;;
    Ok (Mt (nro a) (nco a + nco b) (concat rs))
  else Ok (mat_new (nro a) (nco a + nco b)).
Definition rowcat (a b : mat) : res mat :=
  if (nco a =? nco b)%nat then
    e <- put (zeros ((nro a + nro b) * nco a)) 0 (ents a) ;; e <- put e (length (ents a)) (ents b) ;; Ok (Mt (nro a + nro b) (nco a) e)
  else Ok (mat_new (nro a + nro b) (nco a)).
Definition directsum (a b : mat) : res mat :=
  x <- colcat a (mat_new (nro a) (nco b)) ;; y <- colcat (mat_new (nro b) (nco a)) b ;; rowcat x y.
(** trace, lines 836-842 *)
Definition trace (m : mat) : res Z := mfold (fun t i => x <- at_ (ents m) (i * (nco m + 1)) ;; t +! x) (seq 0 (nro m)) 0.

(** ** elimination modulo p *)
(** std::transform(mr1, mr1+n, mr2, mr2, f) on the flat list: n entries of row r1
    from column pos on, combined into row r2 *)
Definition row_op (e : list Z) (nc r1 r2 pos : nat) (f : Z -> Z -> res Z) : res (list Z) :=
  x <- seg e (r1 * nc + pos) (nc - pos) ;; y <- seg e (r2 * nc + pos) (nc - pos) ;;
  z <- mmap2 f x y ;; put e (r2 * nc + pos) z.
(** elimp, lines 902-936 *)
Definition elimp (e : list Z) (nc r1 r2 pos : nat) (pr : Z) : res (list Z) :=
  p <- deref e (r1 * nc + pos) ;; p <- s_mod S p pr ;;
  q <- deref e (r2 * nc + pos) ;; q <- s_mod S q pr ;;
  if q =? 0 then Ok e
  else
    nq <- s_neg S q ;;
    let gen x y := a <- s_xmm S p y pr ;; b <- s_xmm S q x pr ;; d <- a -! b ;; s_mod S d pr in
    let f :=
      if p =? 1 then
        if q =? 1 then fun x y => d <- y -! x ;; s_mod S d pr
        else if nq =? 1 then fun x y => d <- y +! x ;; s_mod S d pr
        else fun x y => b <- s_xmm S q x pr ;; d <- y -! b ;; s_mod S d pr
      else if nq =? 1 then fun x y => a <- s_xmm S p y pr ;; d <- a +! x ;; s_mod S d pr
      else if q =? 1 then fun x y => a <- s_xmm S p y pr ;; d <- a -! x ;; s_mod S d pr
      else gen in
    row_op e nc r1 r2 pos f.
(** elimp1, lines 938-957 *)
Definition elimp1 (e : list Z) (nc r1 r2 pos : nat) (pr : Z) : res (list Z) :=
  q <- deref e (r2 * nc + pos) ;; q <- s_mod S q pr ;;
  if q =? 0 then Ok e
  else
    nq <- s_neg S q ;;
    let f :=
      if nq =? 1 then fun x y => d <- y +! x ;; s_mod S d pr
      else if q =? 1 then fun x y => d <- y -! x ;; s_mod S d pr
      else fun x y => b <- s_xmm S q x pr ;; d <- y -! b ;; s_mod S d pr in
    row_op e nc r1 r2 pos f.
(** search for a pivot in column c below row r: loop on r2, lines 1093-1101 *)
Fixpoint piv_loop (e : list Z) (nc c : nat) (rs : list nat) (mmin : Z) (rmin : nat) : res (Z * nat) :=
  match rs with
  | [] => Ok (mmin, rmin)
  | r2 :: rs =>
      if mmin =? 0 then
        x <- deref e (r2 * nc + c) ;;
        if x =? 0 then piv_loop e nc c rs mmin rmin else piv_loop e nc c rs x r2
      else Ok (mmin, rmin)
  end.
(** scaling of a row by fac, lines 1113-1114, 1137-1138 *)
Definition scale_row (e : list Z) (nc r : nat) (fac pr : Z) : res (list Z) :=
  a <- seg e (r * nc) nc ;; a <- mmap (fun x => y <- s_xmm S fac x pr ;; s_mod S y pr) a ;; put e (r * nc) a.
(** one column of the forward elimination of echmodp, lines 1089-1119.
    State: entries, r (= rk), pcols, npcols *)
Definition ech_col (nr nc : nat) (pr : Z) (s : list Z * nat * list nat * list nat) (c : nat) : res (list Z * nat * list nat * list nat) :=
  let '(e, r, pc, npc) := s in
  x <- deref e (r * nc + c) ;;
  '(mmin, rmin) <- piv_loop e nc c (seq (r + 1) (nr - (r + 1))) x r ;;
  if mmin =? 0 then Ok (e, r, pc, npc ++ [c])
  else
    e <- (if (r <? rmin)%nat then swaprows e nc r rmin else Ok e) ;;
    fac <- s_invx S mmin pr ;;
    e <- scale_row e nc r fac pr ;;
    e <- mfold (fun e r3 => elimp1 e nc r r3 c pr) (seq (r + 1) (nr - (r + 1))) e ;;
    Ok (e, (r + 1)%nat, pc ++ [c], npc).
(** for (c=1; (c<=nc)&&(r<=nr); c++), line 1087 *)
Fixpoint ech_cols (nr nc : nat) (pr : Z) (cs : list nat) (s : list Z * nat * list nat * list nat) : res (list Z * nat * list nat * list nat) :=
  match cs with
  | [] => Ok s
  | c :: cs => if (snd (fst (fst s)) <? nr)%nat then s <- ech_col nr nc pr s c ;; ech_cols nr nc pr cs s else Ok s
  end.
(** forward elimination, lines 1079-1123 *)
Definition ech_fwd (m : mat) (pr : Z) : res (list Z * nat * list nat * list nat) :=
  let nr := nro m in let nc := nco m in
  e <- mmap (fun x => s_mod S x pr) (ents m) ;;
  '(e, r, pc, npc) <- ech_cols nr nc pr (seq 0 nc) (e, 0%nat, [], []) ;;
  let k := (length pc + length npc)%nat in
  Ok (e, r, pc, npc ++ seq k (nc - k)).
(** echmodp, lines 1077-1150.  Result: matrix, pcols, npcols (rk, ny are their lengths) *)
Definition echmodp (m : mat) (pr : Z) : res (mat * list nat * list nat) :=
  let nc := nco m in
  '(e, _, pc, npc) <- ech_fwd m pr ;;
  let rk := length pc in
  e <- (if (0 <? length npc)%nat then
          e <- mfold (fun e r1 => mfold (fun e r2 => c <- at_ pc r2 ;; elimp e nc r2 r1 c pr) (seq (r1 + 1) (rk - (r1 + 1))) e) (seq 0 rk) e ;;
          mfold (fun e r1 => c <- at_ pc r1 ;; fac <- deref e (r1 * nc + c) ;; fac <- s_invm S fac pr ;; scale_row e nc r1 fac pr) (seq 0 rk) e
        else
          mfold (fun e i => c <- at_ pc i ;; put e (i * nc) (map (fun j => if (j =? c)%nat then 1 else 0) (seq 0 nc))) (seq 0 rk) e) ;;
  R <- mat_slice (Mt (nro m) nc e) 0 rk 0 nc ;; Ok (R, pc, npc).
(** echmodp_uptri, lines 1152-1204: the same without back substitution; the row is
    scaled by mod(fac*x,pr) *)
Definition scale_row' (e : list Z) (nc r : nat) (fac pr : Z) : res (list Z) :=
  a <- seg e (r * nc) nc ;; a <- mmap (fun x => y <- fac *! x ;; s_mod S y pr) a ;; put e (r * nc) a.
Definition utri_col (nr nc : nat) (pr : Z) (s : list Z * nat * list nat * list nat) (c : nat) : res (list Z * nat * list nat * list nat) :=
  let '(e, r, pc, npc) := s in
  x <- deref e (r * nc + c) ;;
  '(mmin, rmin) <- piv_loop e nc c (seq (r + 1) (nr - (r + 1))) x r ;;
  if mmin =? 0 then Ok (e, r, pc, npc ++ [c])
  else
    e <- (if (r <? rmin)%nat then swaprows e nc r rmin else Ok e) ;;
    fac <- s_invm S mmin pr ;;
    e <- scale_row' e nc r fac pr ;;
    e <- mfold (fun e r3 => elimp1 e nc r r3 c pr) (seq (r + 1) (nr - (r + 1))) e ;;
    Ok (e, (r + 1)%nat, pc ++ [c], npc).
Fixpoint utri_cols (nr nc : nat) (pr : Z) (cs : list nat) (s : list Z * nat * list nat * list nat) : res (list Z * nat * list nat * list nat) :=
  match cs with
  | [] => Ok s
  | c :: cs => if (snd (fst (fst s)) <? nr)%nat then s <- utri_col nr nc pr s c ;; utri_cols nr nc pr cs s else Ok s
  end.
Definition echmodp_uptri (m : mat) (pr : Z) : res (mat * list nat * list nat) :=
  let nr := nro m in let nc := nco m in
  e <- mmap (fun x => s_mod S x pr) (ents m) ;;
  '(e, r, pc, npc) <- utri_cols nr nc pr (seq 0 nc) (e, 0%nat, [], []) ;;
  let k := (length pc + length npc)%nat in
  R <- mat_slice (Mt nr nc e) 0 (length pc) 0 nc ;; Ok (R, pc, npc ++ seq k (nc - k)).

(** ** subspaces, sub.cc: (basis, pivots, denominator) *)
Record subspace := Sub { basis : mat; pivs : list nat; denom : Z }.
(** oldpkernel, lines 145-162 *)
Definition oldpkernel (m : mat) (pr : Z) : res subspace :=
  '(R, pc, npc) <- echmodp m pr ;;
  let ny := length npc in
  b <- mfold (fun b n => c <- at_ npc n ;; mat_set b c n 1) (seq 0 ny) (mat_new (nco R) ny) ;;
  b <- mfold (fun b r => i <- at_ pc r ;; mfold (fun b j => c <- at_ npc j ;; x <- mat_get R r c ;; x <- s_neg S x ;; x <- s_mod S x pr ;; mat_set b i j x) (seq 0 ny) b)
         (seq 0 (length pc)) b ;;
  Ok (Sub b npc 1).
(** pkernel, lines 165-190 *)
Definition pkernel (m : mat) (pr : Z) : res subspace :=
  '(R, pc, npc) <- echmodp_uptri m pr ;;
  let ny := length npc in let rk := length pc in
  b <- mfold (fun b j =>
         jj <- at_ npc j ;;
         b <- mat_set b jj j 1 ;;
         mfold (fun b i =>
           x <- mat_get R i jj ;; t0 <- s_neg S x ;;
           t <- mfold (fun t k => tt <- at_ pc k ;; a <- mat_get R i tt ;; y <- mat_get b tt j ;; z <- s_xmm S a y pr ;; t <- t -! z ;; s_xmod S t pr)
                  (rev (seq (i + 1) (rk - (i + 1)))) t0 ;;
           t <- s_mod S t pr ;; c <- at_ pc i ;; mat_set b c j t) (rev (seq 0 rk)) b)
       (rev (seq 0 ny)) (mat_new (nco R) ny) ;;
  Ok (Sub b npc 1).

(** ** maxabs and liftmat, mat.cc *)
(** maxabs(mat), lines 1563-1568: the lambda returns max(a,|x|) but for_each drops
    the returned value, so a is never assigned *)
Definition mat_maxabs (m : mat) : res Z := mfold (fun a x => _ <- s_abs S x ;; Ok a) (ents m) 0.
(** reduce_mod_p, lines 895-900 *)
Definition mat_redp (m : mat) (p : Z) : res mat :=
  if p =? 0 then Ok m else e <- mmap (fun x => s_mod S x p) (ents m) ;; Ok (Mt (nro m) (nco m) e).
(** liftmat, lines 1530-1561.  dd0 is the value of the output parameter dd on entry.
    Result: (success, m, dd).  lim = sqrt(pr>>1), rounded down.  In the lambda the
    lcm is assigned to d, which nothing reads; dd stays 1. *)
Definition liftmat (mm : mat) (pr dd0 : Z) : res (bool * mat * Z) :=
  let lim := Z.sqrt (Z.shiftr pr 1) in
  m <- mat_redp mm pr ;;
  a <- mat_maxabs m ;;
  if a <? lim then Ok (true, m, dd0)
  else
    success <- mfold (fun ok x => ax <- s_abs S x ;;
                 if lim <? ax then '(succ, _, _) <- s_modrat S x pr ;; Ok (if succ then ok else false) else Ok ok) (ents m) true ;;
    let dd := 1 in
    e <- mmap (fun x => y <- s_xmm S dd x pr ;; s_mod S y pr) (ents m) ;;
    Ok (success, Mt (nro m) (nco m) e, dd).
(** lift(subspace), sub.cc lines 216-227 *)
Definition sub_lift (s : subspace) (pr dd0 : Z) : res (bool * subspace) :=
  '(ok, m, dd) <- liftmat (basis s) pr dd0 ;; Ok (ok, Sub m (pivs s) dd).

(** ** echelonp, mat.cc lines 965-1073 *)
(** forward elimination of column c: lines 981-1003 *)
Definition echp_col (nr nc : nat) (pr : Z) (s : list Z * nat * list nat * list nat) (c : nat) : res (list Z * nat * list nat * list nat) :=
  let '(e, r, pc, npc) := s in
  x <- at_ e (r * nc + c) ;;
  '(mmin, rmin) <- piv_loop e nc c (seq (r + 1) (nr - (r + 1))) x r ;;
  if mmin =? 0 then Ok (e, r, pc, npc ++ [c])
  else
    e <- (if (r <? rmin)%nat then swaprows e nc r rmin else Ok e) ;;
    e <- mfold (fun e r3 => elimp e nc r r3 c pr) (seq (r + 1) (nr - (r + 1))) e ;;
    Ok (e, (r + 1)%nat, pc ++ [c], npc).
Fixpoint echp_cols (nr nc : nat) (pr : Z) (cs : list nat) (s : list Z * nat * list nat * list nat) : res (list Z * nat * list nat * list nat) :=
  match cs with
  | [] => Ok s
  | c :: cs => if (snd (fst (fst s)) <? nr)%nat then s <- echp_col nr nc pr s c ;; echp_cols nr nc pr cs s else Ok s
  end.
(** Result: matrix, pcols, npcols, d.  The loop of line 1015 runs r2 from r+1 (the r left
    by the column loop, one more than the rank, in 1-based numbering), not from r1+1. *)
Definition echelonp (m : mat) (pr : Z) : res (mat * list nat * list nat * Z) :=
  let nr := nro m in let nc := nco m in
  e <- mmap (fun x => s_mod S x pr) (ents m) ;;
  '(e, r, pc, npc) <- echp_cols nr nc pr (seq 0 nc) (e, 0%nat, [], []) ;;
  let k := (length pc + length npc)%nat in
  let npc := npc ++ seq k (nc - k) in
  let rk := length pc in
  e <- (if (0 <? length npc)%nat then
          e <- mfold (fun e r1 => mfold (fun e r2 => c <- at_ pc r2 ;; elimp e nc r2 r1 c pr) (seq (r + 1) (rk - (r + 1))) e) (seq 0 rk) e ;;
          mfold (fun e r1 => c <- at_ pc r1 ;; fac <- at_ e (r1 * nc + c) ;; fac <- s_invx S fac pr ;;
                   a <- seg e (r1 * nc) nc ;; a <- mmap (fun x => s_xmm S fac x pr) a ;; put e (r1 * nc) a) (seq 0 rk) e
        else
          mfold (fun e i => c <- at_ pc i ;; put e (i * nc) (map (fun j => if (j =? c)%nat then 1 else 0) (seq 0 nc))) (seq 0 rk) e) ;;
  (* lifting, lines 1034-1059: numerators, denominators, common denominator *)
  '(nm, dm, dd) <-
    mfold (fun '(nm, dm, dd) i =>
      '(nm, dm) <- mfold (fun '(nm, dm) j => c <- at_ pc j ;; nm <- mat_set nm i c (if (i =? j)%nat then 1 else 0) ;; dm <- mat_set dm i c 1 ;; Ok (nm, dm)) (seq 0 rk) (nm, dm) ;;
      mfold (fun '(nm, dm, dd) jj =>
         x <- at_ e (i * nc + jj) ;; '(ok, n1, d1) <- s_modrat S x pr ;;
         nm <- mat_set nm i jj n1 ;; dm <- mat_set dm i jj d1 ;;
         dd <- (if ok : bool then a <- dd *! d1 ;; g <- s_gcd S dd d1 ;; s_div S a g else Ok dd) ;;
         Ok (nm, dm, dd)) npc (nm, dm, dd)) (seq 0 rk) (mat_new rk nc, mat_new rk nc, 1) ;;
  dd <- s_abs S dd ;;
  (* lines 1066-1070 *)
  e <- mfold (fun e i => mfold (fun e j => n <- mat_get nm i j ;; d <- mat_get dm i j ;; a <- dd *! n ;; x <- s_div S a d ;; at_set e (i * nc + j) x) (seq 0 nc) e) (seq 0 rk) e ;;
  Ok (Mt nr nc e, pc, npc, dd).

(** ** subspaces of subspaces, sub.cc *)
(** content, mat.cc 149-153 *)
Definition content (m : mat) : res Z := mfold (fun g x => s_gcd S g x) (ents m) 0.
(** combine, lines 39-52 *)
Definition sub_combine (s1 s2 : subspace) : res subspace :=
  d <- denom s1 *! denom s2 ;;
  b <- mat_mul (basis s1) (basis s2) ;;
  g <- content b ;;
  '(d, b) <- (if 1 <? g then d <- s_div S d g ;; b <- mat_div b g ;; Ok (d, b) else Ok (d, b)) ;;
  p <- mmap (fun i => at_ (pivs s1) i) (pivs s2) ;; Ok (Sub b p d).
(** pcombine, lines 119-126 *)
Definition sub_pcombine (s1 s2 : subspace) (pr : Z) : res subspace :=
  d <- denom s1 *! denom s2 ;;
  b <- matmulmodp (basis s1) (basis s2) pr ;;
  p <- mmap (fun i => at_ (pivs s1) i) (pivs s2) ;; Ok (Sub b p d).
(** restrict_mat, lines 71-84, prestrict, lines 129-149 (cr = 0) *)
Definition restrict_mat (M : mat) (s : subspace) : res mat :=
  if (nco (basis s) =? nro M)%nat then Ok M else A <- rowsubmat M (pivs s) ;; mat_mul A (basis s).
Definition prestrict (M : mat) (s : subspace) (pr : Z) : res mat :=
  if (nco (basis s) =? nro M)%nat then Ok M else A <- rowsubmat M (pivs s) ;; matmulmodp A (basis s) pr.
(** pimage, lines 192-198 *)
Definition pimage (m : mat) (pr : Z) : res subspace :=
  t <- transpose m ;; '(R, pc, _) <- echmodp t pr ;; b <- transpose R ;; Ok (Sub b pc 1).
(** addscalar, mat.cc: m + scalar_matrix(nro,c); peigenspace, lines 200-204 *)
Definition addscalar (m : mat) (c : Z) : res mat := d <- scalar_matrix (nro m) c ;; mat_add m d.
Definition peigenspace (m : mat) (lambda pr : Z) : res subspace :=
  nl <- s_neg S lambda ;; a <- addscalar m nl ;; pkernel a pr.
End Lin.
