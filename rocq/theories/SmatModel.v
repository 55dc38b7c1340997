(** Model of libsrc/smat.cc and libsrc/eclib/smat.h (sparse matrices).  No proofs.

    A row is the pair of arrays col[i], val[i]; [None] is an indeterminate value.
    col[i][0] is the number of entries.  Reading outside an array or an
    indeterminate value, and writing outside an array, is undefined.
    Simplifications: sizes and positions are unbounded; arrays are values (no two
    rows share storage, which the destructor requires); messages on cerr are
    dropped; the write of a position that is not kept because the sum is 0
    (lines 343, 399) is dropped. *)
From Coq Require Import ZArith List Bool.
From Verif Require Import Base LinModel SvecModel.
Import ListNotations.
Open Scope Z_scope.
Open Scope res_scope.

(** ** storage *)
Record srow := Rw { pm : list (option Z); vm : list (option Z) }.
Definition rdm (m : list (option Z)) (i : nat) : res Z := match nth_error m i with Some (Some x) => Ok x | _ => UB end.
Definition fresh (np nv : nat) : srow := Rw (repeat None np) (repeat None nv).
(** *col[i] *)
Definition rcount (r : srow) : res Z := rdm (pm r) 0.
Definition rset0 (r : srow) (n : Z) : res srow := m <- put (pm r) 0 [Some n] ;; Ok (Rw m (vm r)).
(** n entries read through the pointers col+1+off, val+off *)
Fixpoint rd (n off : nat) (r : srow) : res smap :=
  match n with
  | O => Ok []
  | S n => k <- rdm (pm r) (off + 1) ;; x <- rdm (vm r) off ;; l <- rd n (off + 1) r ;; Ok ((k, x) :: l)
  end.
Definition rread (r : srow) : res smap := d <- rcount r ;; if d <? 0 then UB else rd (Z.to_nat d) 0 r.
(** entries written through the pointers col+po, val+vo *)
Fixpoint wr (po vo : nat) (l : smap) (r : srow) : res srow :=
  match l with
  | [] => Ok r
  | (k, x) :: l => p <- put (pm r) po [Some k] ;; v <- put (vm r) vo [Some x] ;; wr (po + 1) (vo + 1) l (Rw p v)
  end.
(** new arrays of c+1 and c elements receiving l and its length *)
Definition rnew (c : nat) (l : smap) : res srow := r <- wr 1 0 l (fresh (c + 1) c) ;; rset0 r (Z.of_nat (length l)).

(** ** the class; smat(nr,nc), lines 42-59 *)
Record smat := Sm { snc : nat; srows : list srow }.
Definition snr (m : smat) : nat := length (srows m).
Definition row0 : srow := Rw [Some 0; Some 0] [Some 0].
Definition sm_new (nr nc : nat) : smat := Sm nc (repeat row0 nr).
(** row i, counted from 0 *)
Definition rowat (m : smat) (i : nat) : res srow := deref (srows m) i.
Definition setrowat (m : smat) (i : nat) (r : srow) : res smat := l <- put (srows m) i [r] ;; Ok (Sm (snc m) l).
(** copy constructor, lines 61-80 *)
Definition rcopy (r : srow) : res srow := l <- rread r ;; rnew (length l) l.
Definition sm_copy (m : smat) : res smat := l <- mmap rcopy (srows m) ;; Ok (Sm (snc m) l).
(** from a dense matrix, lines 82-105 *)
Definition sm_of_mat (m : mat) : res smat :=
  l <- mmap (fun i => e <- seg (ents m) (i * nco m) (nco m) ;; let l := of_list 1 e in rnew (length l) l) (seq 0 (nro m)) ;; Ok (Sm (nco m) l).
(** set_row, lines 119-141 *)
Definition nonzeros (l : smap) : smap := filter (fun '(_, x) => negb (x =? 0)) l.
Definition rset (r : srow) (d : nat) (l : smap) : res srow :=
  c <- rcount r ;;
  let r := if c =? Z.of_nat d then r else fresh (d + 1) d in
  r <- wr 1 0 (nonzeros l) r ;; rset0 r (Z.of_nat (length (nonzeros l))).
Definition sm_set_row (m : smat) (i : nat) (l : smap) : res smat := r <- rowat m i ;; r <- rset r (length l) l ;; setrowat m i r.
(** setrow(i, vec), lines 143-180; i from 0 here.  After reallocation coli has been
    advanced twice (lines 166 and 170) *)
Definition rsetvec (r : srow) (v : list Z) : res srow :=
  let l := of_list 1 v in let n := length l in
  c <- rcount r ;;
  if c =? Z.of_nat n then wr 1 0 l r else r <- rset0 (fresh (n + 1) n) (Z.of_nat n) ;; wr 2 0 l r.
Definition sm_setrow_vec (m : smat) (i : nat) (v : list Z) : res smat := r <- rowat m i ;; r <- rsetvec r v ;; setrowat m i r.
(** setrow(i, svec), lines 182-210; i from 0 here *)
Definition rsetsvec (r : srow) (l : smap) : res srow :=
  let d := length l in
  c <- rcount r ;;
  r <- (if c =? Z.of_nat d then Ok r else rset0 (fresh (d + 1) d) (Z.of_nat d)) ;; wr 1 0 l r.
Definition sm_setrow (m : smat) (i : nat) (v : svec) : res smat := r <- rowat m i ;; r <- rsetsvec r (sents v) ;; setrowat m i r.
(** select_rows, lines 212-222; rows from 0 here *)
Definition sm_select (m : smat) (rs : list nat) : res smat :=
  mfold (fun a '(i, r) => x <- rowat m r ;; l <- rread x ;; sm_set_row a i l) (combine (seq 0 (length rs)) rs) (sm_new (length rs) (snc m)).
(** as_mat, lines 224-238; the index into entries is not checked *)
Definition zput (e : list Z) (i : Z) (x : Z) : res (list Z) := if i <? 0 then UB else put e (Z.to_nat i) [x].
Definition sm_as_mat (m : smat) : res mat :=
  e <- mfold (fun e '(i, r) => l <- rread r ;; mfold (fun e '(k, x) => zput e (Z.of_nat i * Z.of_nat (snc m) + k - 1) x) l e)
    (combine (seq 0 (snr m)) (srows m)) (zeros (snr m * snc m)) ;;
  Ok (Mt (snr m) (snc m) e).
(** row, lines 240-250; i from 0 here *)
Definition sm_row (m : smat) (i : nat) : res svec :=
  r <- rowat m i ;; l <- rread r ;; Ok (fold_left (fun v '(k, x) => sv_set v k x) l (Sv (Z.of_nat (snc m)) [])).
(** elem, lines 252-272, by the contract of std::lower_bound: the first position not less than j *)
Fixpoint lookup (l : smap) (j : Z) : Z :=
  match l with [] => 0 | (k, x) :: l => if k <? j then lookup l j else if k =? j then x else 0 end.
Definition sm_elem (m : smat) (i j : Z) : res Z :=
  if (0 <? i) && (i <=? Z.of_nat (snr m)) && (0 <? j) && (j <=? Z.of_nat (snc m))
  then r <- rowat m (Z.to_nat (i - 1)) ;; l <- rread r ;; Ok (lookup l j)
  else Ok 0.
(** operator=, lines 275-319 *)
Definition rassign (r s : srow) : res srow :=
  l <- rread s ;; c <- rcount r ;;
  r <- (if c =? Z.of_nat (length l) then Ok r else rset0 (fresh (length l + 1) (length l)) (Z.of_nat (length l))) ;;
  r <- rset0 r (Z.of_nat (length l)) ;; wr 1 0 l r.
Definition sm_assign (al : bool) (m s : smat) : res smat :=
  if al then Ok m else
  let rs := if (snr m =? snr s)%nat then srows m else repeat row0 (snr s) in
  l <- mmap2 (fun x y => rassign x y) rs (srows s) ;; Ok (Sm (snc s) l).

Section Smat.
Variable S : scal.
(** the merging of two rows, lines 330-357 and 384-407 *)
Fixpoint rmerge (g : Z -> res Z) (h : Z -> Z -> res Z) (n : nat) (l1 l2 : smap) : res smap :=
  match n with
  | O => OutOfFuel
  | Datatypes.S n =>
      match l1, l2 with
      | (k1, x1) :: t1, (k2, x2) :: t2 =>
          if k1 <? k2 then l <- rmerge g h n t1 l2 ;; Ok ((k1, x1) :: l)
          else if k2 <? k1 then y <- g x2 ;; l <- rmerge g h n l1 t2 ;; Ok ((k2, y) :: l)
          else y <- h x1 x2 ;; l <- rmerge g h n t1 t2 ;; Ok (if y =? 0 then l else (k1, y) :: l)
      | _, [] => Ok l1
      | [], _ => mmap (fun '(k, x) => y <- g x ;; Ok (k, y)) l2
      end
  end.
Definition radd (g : Z -> res Z) (h : Z -> Z -> res Z) (r1 r2 : srow) : res srow :=
  l1 <- rread r1 ;; l2 <- rread r2 ;;
  l <- rmerge g h (Datatypes.S (length l1 + length l2)) l1 l2 ;; rnew (length l1 + length l2) l.
(** operator+=, -=, lines 321-413; the number of columns is not compared *)
Definition sm_plus (m s : smat) : res smat :=
  if (snr m =? snr s)%nat then l <- mmap2 (fun x y => radd (fun y => Ok y) (fun x y => s_add S x y) x y) (srows m) (srows s) ;; Ok (Sm (snc m) l) else Ok m.
Definition sm_minus (m s : smat) : res smat :=
  if (snr m =? snr s)%nat then l <- mmap2 (fun x y => radd (fun y => s_neg S y) (fun x y => s_sub S x y) x y) (srows m) (srows s) ;; Ok (Sm (snc m) l) else Ok m.
(** operator+= (scalar), lines 415-452; -= in smat.h lines 59-60 *)
Fixpoint rdiag (k : Z) (a : Z) (l : smap) : res smap :=
  match l with
  | [] => Ok [(k, a)]
  | (k', x) :: t =>
      if k' <? k then l' <- rdiag k a t ;; Ok ((k', x) :: l')
      else if k' =? k then y <- s_add S x a ;; Ok (if y =? 0 then t else (k, y) :: t)
      else Ok ((k, a) :: l)
  end.
Definition sm_adds (m : smat) (a : Z) : res smat :=
  if a =? 0 then Ok m
  else l <- mmap (fun '(i, r) => l <- rread r ;; l' <- rdiag (Z.of_nat i + 1) a l ;; rnew (length l + 1) l') (combine (seq 0 (snr m)) (srows m)) ;; Ok (Sm (snc m) l).
Definition sm_subs (m : smat) (a : Z) : res smat := na <- s_neg S a ;; sm_adds m na.
(** the values of a row changed in place, lines 472-506 *)
Definition rmap (f : Z -> res Z) (r : srow) : res srow :=
  l <- rread r ;; l' <- mmap (fun '(k, x) => y <- f x ;; Ok (k, y)) l ;; v <- put (vm r) 0 (map (fun '(_, x) => Some x) l') ;; Ok (Rw (pm r) v).
Definition sm_map (f : Z -> res Z) (m : smat) : res smat := l <- mmap (rmap f) (srows m) ;; Ok (Sm (snc m) l).
Definition sm_scale (m : smat) (a : Z) : res smat := sm_map (fun x => s_mul S x a) m.
Definition sm_div (m : smat) (a : Z) : res smat := sm_map (fun x => s_div S x a) m.
Definition sm_scalemod (m : smat) (a p : Z) : res smat := _ <- s_xmod S a p ;; sm_map (fun x => s_xmm S x a p) m.
(** reduce_mod_p, sub_mod_p, lines 454-470 *)
Definition sm_reduce (m : smat) (p : Z) : res smat :=
  mfold (fun m i => v <- sm_row m i ;; v <- sv_reduce S v p ;; sm_setrow m i v) (seq 0 (snr m)) m.
Definition sm_submod (m : smat) (a p : Z) : res smat := m <- sm_subs m a ;; sm_reduce m p.
(** smat*mat, lines 508-528; m(i,j) is checked *)
Definition sm_mul_mat (m : smat) (b : mat) : res mat :=
  if (snc m =? nro b)%nat
  then mat_fill (snr m) (nco b) (fun i j => r <- rowat m i ;; l <- rread r ;;
         mfold (fun s '(k, x) => y <- (if 1 <=? k then mat_get b (Z.to_nat (k - 1)) j else Die) ;; t <- s_mul S x y ;; s_add S s t) l 0)
  else Ok (Mt 0 0 []).
(** smat*svec, smat*vec, svec*smat, lines 537-582 *)
Definition sm_mul_svec (m : smat) (v : svec) : res svec :=
  if Z.of_nat (snc m) =? sd v
  then mfold (fun w i => r <- sm_row m i ;; s <- sv_dot S r v ;; Ok (if s =? 0 then w else Sv (sd w) (mset (sents w) (Z.of_nat i + 1) s))) (seq 0 (snr m)) (Sv (Z.of_nat (snr m)) [])
  else Ok (Sv 0 []).
Definition sm_mul_vec (m : smat) (v : list Z) : res (list Z) :=
  if (snc m =? length v)%nat
  then mfold (fun w i => r <- sm_row m i ;; s <- sv_dotv S r v ;; at_set w i s) (seq 0 (snr m)) (zeros (snr m))
  else Ok (zeros (snr m)).
Definition row1 (m : smat) (k : Z) : res svec := if 1 <=? k then sm_row m (Z.to_nat (k - 1)) else UB.
Definition svec_mul (v : svec) (m : smat) : res svec :=
  if sd v =? Z.of_nat (snr m)
  then mfold (fun w '(k, x) => r <- row1 m k ;; r <- sv_scale S r x ;; sv_plus S false w r) (sents v) (Sv (Z.of_nat (snc m)) [])
  else Ok (Sv (Z.of_nat (snc m)) []).
(** the same modulo p, lines 584-640; prod.add_modp is vec.cc lines 134-137 *)
Definition svec_mulmod (v : svec) (m : smat) (p : Z) : res svec :=
  w <- (if sd v =? Z.of_nat (snr m)
        then mfold (fun w '(k, c) => r <- (if 1 <=? k then rowat m (Z.to_nat (k - 1)) else UB) ;; l <- rread r ;;
               mfold (fun w '(j, x) => t <- s_xmm S c x p ;; y <- at1 w j ;; u <- s_add S y t ;; u <- s_mod S u p ;; at1_set w j u) l w) (sents v) (zeros (snc m))
        else Ok (zeros (snc m))) ;;
  Ok (sv_of_vec w).
Definition sm_mulmod_svec (m : smat) (v : svec) (p : Z) : res svec :=
  if sd v =? Z.of_nat (snc m)
  then mfold (fun w i => r <- sm_row m i ;; s <- sv_dotmodp S r v p ;; Ok (sv_set w (Z.of_nat i + 1) s)) (seq 0 (snr m)) (Sv (Z.of_nat (snr m)) [])
  else Ok (Sv (Z.of_nat (snr m)) []).
Definition sm_mulmod_vec (m : smat) (v : list Z) (p : Z) : res (list Z) :=
  if (length v =? snc m)%nat
  then mfold (fun w i => r <- sm_row m i ;; s <- sv_dotvmodp S r v p ;; at_set w i s) (seq 0 (snr m)) (zeros (snr m))
  else Ok (zeros (snr m)).
(** products, lines 642-672 *)
Definition sm_mul (a b : smat) : res smat :=
  if (snc a =? snr b)%nat
  then mfold (fun m i => r <- sm_row a i ;; v <- svec_mul r b ;; sm_setrow m i v) (seq 0 (snr a)) (sm_new (snr a) (snc b))
  else Ok (sm_new (snr a) (snc b)).
Definition sm_mulmod (a b : smat) (p : Z) : res smat :=
  if (snc a =? snr b)%nat
  then mfold (fun m i => r <- sm_row a i ;; v <- svec_mulmod r b p ;; sm_setrow m i v) (seq 0 (snr a)) (sm_new (snr a) (snc b))
  else Ok (sm_new (snr a) (snc b)).
(** ==, eqmodp, lines 729-767 *)
Fixpoint eqrows (f : smap -> smap -> res bool) (l1 l2 : list srow) : res bool :=
  match l1, l2 with
  | r1 :: l1, r2 :: l2 => a <- rread r1 ;; b <- rread r2 ;; e <- (if (length a =? length b)%nat then f a b else Ok false) ;; if e then eqrows f l1 l2 else Ok false
  | _, _ => Ok true
  end.
Definition sm_eqb (m s : smat) : res bool := if (snr m =? snr s)%nat then eqrows (fun a b => Ok (smap_eqb a b)) (srows m) (srows s) else Ok false.
Fixpoint vals_eqmod (a b : smap) (p : Z) : res bool :=
  match a, b with
  | (_, x) :: a, (_, y) :: b => t <- s_sub S x y ;; r <- s_xmod S t p ;; if r =? 0 then vals_eqmod a b p else Ok false
  | _, _ => Ok true
  end.
Fixpoint pos_eq (a b : smap) : bool :=
  match a, b with (k, _) :: a, (k', _) :: b => (k =? k') && pos_eq a b | _, _ => true end.
Definition sm_eqmodp (m s : smat) (p : Z) : res bool :=
  if (snr m =? snr s)%nat then eqrows (fun a b => if pos_eq a b then vals_eqmod a b p else Ok false) (srows m) (srows s) else Ok false.
End Smat.

(** transpose, lines 674-727 *)
Definition bump (l : list nat) (k : Z) : res (list nat) := if k <? 1 then UB else c <- deref l (Z.to_nat (k - 1)) ;; put l (Z.to_nat (k - 1)) [Datatypes.S c].
Definition sm_transpose (a : smat) : res smat :=
  wts <- mfold (fun w r => l <- rread r ;; mfold (fun w '(k, _) => bump w k) l w) (srows a) (repeat 0%nat (snc a)) ;;
  b <- mmap (fun d => rset0 (fresh (d + 1) d) (Z.of_nat d)) wts ;;
  '(b, _) <- mfold (fun '(b, aux) '(i, r) => l <- rread r ;;
      mfold (fun '(b, aux) '(k, x) =>
        if k <? 1 then UB else
        let c := Z.to_nat (k - 1) in
        n <- deref aux c ;; s <- deref b c ;; s <- wr (n + 1) n [(Z.of_nat i + 1, x)] s ;; b <- put b c [s] ;; aux <- bump aux k ;; Ok (b, aux)) l (b, aux))
    (combine (seq 0 (snr a)) (srows a)) (b, repeat 0%nat (snc a)) ;;
  Ok (Sm (snr a) b).
(** scalar_matrix, lines 889-899 *)
Definition sm_scalar (n : nat) (a : Z) : res smat := l <- mmap (fun i => r <- rset0 row0 1 ;; wr 1 0 [(Z.of_nat i + 1, a)] r) (seq 0 n) ;; Ok (Sm n l).
(** get_population, maxabs, lines 863-887; positions, not values, are tested *)
Definition sm_pop (m : smat) : res Z :=
  mfold (fun c r => l <- rread r ;; Ok (c + Z.of_nat (length (filter (fun '(k, _) => negb (k =? 0)) l)))) (srows m) 0.
Definition sm_maxabs (S : scal) (m : smat) : res Z :=
  mfold (fun c r => l <- rread r ;; mfold (fun c '(_, x) => a <- s_abs S x ;; Ok (Z.max c a)) l c) (srows m) 0.

(** ** histories: a program acting on named sparse matrices.  A constructor or a
    function result is stored with operator=; rows are counted from 0. *)
Inductive mop :=
| MNew (r nr nc : nat) | MScalar (r n : nat) (a : Z) | MOfMat (r : nat) (m : mat) | MAssign (r s : nat)
| MPlus (r s : nat) | MMinus (r s : nat) | MAddS (r : nat) (a : Z) | MSubS (r : nat) (a : Z) | MScale (r : nat) (a : Z) | MDiv (r : nat) (a : Z)
| MSetRow (r i : nat) (v : list Z) | MSetRowArr (r i : nat) (l : smap) | MSelect (r s : nat) (rs : list nat) | MTrans (r s : nat) | MMul (r s t : nat)
| MLoad (r : nat) (m : mat) | MReduce (r : nat) | MSubMod (r : nat) (a : Z) | MScaleMod (r : nat) (a : Z) | MMulMod (r s t : nat).
Definition mstore := nat -> smat.
Definition smput (st : mstore) (r : nat) (m : smat) : mstore := fun x => if (x =? r)%nat then m else st x.
Definition mstore0 : mstore := fun _ => sm_new 0 0.
Definition mstep (S : scal) (p : Z) (st : mstore) (o : mop) : res mstore :=
  let keep r m := m <- m ;; Ok (smput st r m) in
  let store r m := m <- m ;; m <- sm_assign false (st r) m ;; Ok (smput st r m) in
  match o with
  | MNew r nr nc => store r (Ok (sm_new nr nc))
  | MScalar r n a => store r (sm_scalar n a)
  | MOfMat r m => store r (sm_of_mat m)
  | MAssign r s => m <- sm_assign (r =? s)%nat (st r) (st s) ;; Ok (smput st r m)
  | MPlus r s => keep r (sm_plus S (st r) (st s))
  | MMinus r s => keep r (sm_minus S (st r) (st s))
  | MAddS r a => keep r (sm_adds S (st r) a)
  | MSubS r a => keep r (sm_subs S (st r) a)
  | MScale r a => keep r (sm_scale S (st r) a)
  | MDiv r a => keep r (sm_div S (st r) a)
  | MSetRow r i v => keep r (sm_setrow (st r) i (sv_of_vec v))
  | MSetRowArr r i l => keep r (sm_set_row (st r) i l)
  | MSelect r s rs => store r (sm_select (st s) rs)
  | MTrans r s => store r (sm_transpose (st s))
  | MMul r s t => store r (sm_mul S (st s) (st t))
  | MLoad r m => store r (m <- sm_of_mat m ;; sm_reduce S m p)
  | MReduce r => keep r (sm_reduce S (st r) p)
  | MSubMod r a => keep r (sm_submod S (st r) a p)
  | MScaleMod r a => keep r (sm_scalemod S (st r) a p)
  | MMulMod r s t => store r (sm_mulmod S (st s) (st t) p)
  end.
Definition smrun (S : scal) (p : Z) (os : list mop) (st : mstore) : res mstore := mfold (mstep S p) os st.
