(** Model of the structured elimination of libsrc/smat_elim.cc and
    libsrc/eclib/smat_elim.h (class smat_elim).  No proofs.

    A row is the list of its entries (column, value); the columns are counted from 1,
    the rows from 0.  The lists of rows of the columns are those of OrdModel, with
    their arrays.  Simplifications: sizes are unbounded; a row array always has room
    for what is written (clear_col and elim allocate d+d2 elements); the work lists L
    (class list) and the lists list_row_in, list_row_out are lists, see C28 for the
    class; an error message followed by return is the outcome [Die]; the double
    comparison active_density() < 0.2 is a parameter, applied to the numbers it is
    computed from; the dense elimination rref (FLINT or NTL) is a parameter. *)
From Coq Require Import ZArith List Bool.
From Verif Require Import Base ArithModel RatModel MArithModel LinModel SvecModel SmatModel OrdModel.
Import ListNotations.
Open Scope Z_scope.
Open Scope res_scope.

(** ** scalars: xmm, addmod of arith.h lines 169-199, marith.h lines 177-191, and invmod *)
Record esc := Ec { e_sc : scal; e_mulrem : Z -> Z -> Z -> res Z; e_inv : Z -> Z -> res Z }.
Definition ec_int : esc := Ec sc_int (fun a b m => ab <- mul64 a b ;; r <- rem64 ab m ;; Ok (wrap32 r)) (fun a p => x <- invmod_long a p ;; Ok (wrap32 x)).
Definition ec_long : esc := Ec sc_long (fun a b m => ab <- mul64 a b ;; rem64 ab m) invmod_long.
Definition ec_z (xgcd : Z -> Z -> Z * Z * Z) : esc := Ec (sc_z xgcd) (fun a b m => zz_mod (a * b) m) (fun a p => Ok (invmod_z xgcd a p)).

Definition zget {A} (l : list A) (i : Z) : res A := if i <? 0 then UB else deref l (Z.to_nat i).
Definition zset {A} (l : list A) (i : Z) (x : A) : res (list A) := if i <? 0 then UB else put l (Z.to_nat i) [x].
Definition zlen {A} (l : list A) : Z := Z.of_nat (length l).

Section Elim.
Variable E : esc.
Variable p : Z.   (* modulus *)
Definition xmm (a b : Z) : res Z :=
  if a =? 1 then Ok b else if a =? -1 then s_neg (e_sc E) b else if b =? 1 then Ok a else if b =? -1 then s_neg (e_sc E) a else e_mulrem E a b p.
Definition addmod (a b : Z) : res Z :=
  if a =? 0 then Ok b else if b =? 0 then Ok a else s <- s_add (e_sc E) a b ;; s_mod (e_sc E) s p.

(** find in the positions of a row, smatrix_elim.h lines 32-40 *)
Fixpoint rfind_loop (n : nat) (ks : list Z) (x lb ub : Z) : res Z :=
  match n with
  | O => OutOfFuel
  | S n => y <- zget ks lb ;;
      if y <? x then let i := Z.quot (ub + lb) 2 in z <- zget ks i ;; if z <? x then rfind_loop n ks x (i + 1) ub else rfind_loop n ks x lb i
      else Ok lb
  end.
Definition rfind (l : smap) (x : Z) : res Z :=
  let ks := map fst l in let ub := zlen l - 1 in
  y <- zget ks ub ;; if y <? x then Ok ub else rfind_loop (length ks + 1) ks x 0 ub.
(** find followed by the test that the column is there *)
Definition rlocate (l : smap) (x : Z) : res (Z * Z) :=
  i <- rfind l x ;; '(k, v) <- zget l i ;; if k =? x then Ok (i, v) else Die.

(** row2 += v2*row1, lines 1038-1067 (clear_col), 1182-1215 (elim).  The second result
    tells, for each entry of row1, what happens to that column of row2 *)
Inductive tag := TIn | TOut | TSame.
Fixpoint emerge (n : nat) (v2 : Z) (l1 l2 : smap) : res (smap * list tag) :=
  match n with
  | O => OutOfFuel
  | S n =>
      match l1, l2 with
      | (k1, x1) :: t1, (k2, x2) :: t2 =>
          if k1 <? k2 then y <- xmm v2 x1 ;; '(l, tg) <- emerge n v2 t1 l2 ;; Ok ((k1, y) :: l, TIn :: tg)
          else if k2 <? k1 then '(l, tg) <- emerge n v2 l1 t2 ;; Ok ((k2, x2) :: l, tg)
          else y <- xmm v2 x1 ;; z <- addmod y x2 ;; '(l, tg) <- emerge n v2 t1 t2 ;;
            Ok (if z =? 0 then (l, TOut :: tg) else ((k2, z) :: l, TSame :: tg))
      | [], _ => Ok (l2, [])
      | (k1, x1) :: t1, [] => y <- xmm v2 x1 ;; '(l, tg) <- emerge n v2 t1 [] ;; Ok ((k1, y) :: l, TIn :: tg)
      end
  end.
Definition rowadd (v2 : Z) (l1 l2 : smap) : res (smap * list tag) := emerge (length l1 + length l2 + 1) v2 l1 l2.

(** ** the state: rows, position, elim_col, elim_row[0..rank-1], column *)
Record est := Es { erows : list smap; epos : list Z; ecol : list Z; erow : list Z; ecols : list olist }.
Definition set_rows (st : est) (l : list smap) : est := Es l (epos st) (ecol st) (erow st) (ecols st).
Definition set_pos (st : est) (l : list Z) : est := Es (erows st) l (ecol st) (erow st) (ecols st).
Definition set_cols (st : est) (l : list olist) : est := Es (erows st) (epos st) (ecol st) (erow st) l.
Definition enro (st : est) : nat := length (erows st).
Definition enco (st : est) : nat := length (ecol st).
(** init, lines 273-301 *)
Definition einit (rows : list smap) (nc : nat) : res est :=
  cols <- mfold (fun cols '(r, l) => mfold (fun cols '(k, _) => c <- zget cols (k - 1) ;; c <- oapp 10 c (Z.of_nat r) ;; zset cols (k - 1) c) l cols)
    (combine (seq 0 (length rows)) rows) (repeat (onew 10) nc) ;;
  Ok (Es rows (repeat (-1) (length rows)) (repeat (-1) nc) [] cols).
(** (column+c-1)->num *)
Definition weight (st : est) (c : Z) : res Z := l <- zget (ecols st) (c - 1) ;; Ok (Z.of_nat (onum l)).

(** normalize, lines 970-981 *)
Definition normalize (st : est) (row c : Z) : res est :=
  l <- zget (erows st) row ;; '(_, x) <- rlocate l c ;;
  if x =? 1 then Ok st
  else inv <- e_inv E x p ;; l' <- mmap (fun '(k, y) => z <- xmm y inv ;; Ok (k, z)) l ;; rs <- zset (erows st) row l' ;; Ok (set_rows st rs).
(** eliminate, lines 983-989 *)
Definition eliminate (st : est) (row c : Z) : res est :=
  ec <- zset (ecol st) (c - 1) row ;; ps <- zset (epos st) row c ;;
  if (length (erow st) <? enro st)%nat then Ok (Es (erows st) ps ec (erow st ++ [row]) (ecols st)) else UB.
(** free_space, lines 1090-1093 *)
Definition free_space (st : est) (c : Z) : res est := cs <- zset (ecols st) (c - 1) (onew 0) ;; Ok (set_cols st cs).
(** check_row, lines 1095-1102; check_col, lines 1103-1107 *)
Definition check_row (st : est) (d : nat) (row2 : Z) (L : list Z) : res (est * list Z) :=
  l <- zget (erows st) row2 ;;
  if (length l <? 3)%nat then
    (if (length l =? 0)%nat then ps <- zset (epos st) row2 0 ;; Ok (set_pos st ps, L) else Ok (st, if (2 <? d)%nat then L ++ [row2] else L))
  else Ok (st, L).
Definition check_col (st : est) (c : Z) (L : list Z) : res (list Z) :=
  w <- weight st c ;; Ok (if (w =? 2) || (w =? 1) then L ++ [c] else L).
(** the updates of a column made twice in clear_col: lines 997-1007 and 1072-1083 *)
Definition col_checks (fc : bool) (M : Z) (st : est) (c : Z) (x : list Z * list Z) : res (list Z * list Z) :=
  let '(L, li) := x in
  L <- (if fc then check_col st c L else Ok L) ;;
  if M =? 0 then Ok (L, li)
  else w <- weight st c ;; li <- zset li (c - 1) (if (0 <? w) && (w <=? M) then 1 else 0) ;; Ok (L, li).
Definition on_col (st : est) (c : Z) (f : olist -> res olist) : res est :=
  l <- zget (ecols st) (c - 1) ;; l <- f l ;; cs <- zset (ecols st) (c - 1) l ;; Ok (set_cols st cs).
(** a loop over columns: change the list of the column, then look at it *)
Definition col_loop {D X} (f : D -> olist -> res olist) (g : est -> Z -> X -> res X) (ks : list (Z * D)) (s : est * X) : res (est * X) :=
  mfold (fun '(st, x) '(k, d) => st <- on_col st k (f d) ;; x <- g st k x ;; Ok (st, x)) ks s.
(** clear_col, lines 991-1088 *)
Fixpoint addtags (r : Z) (tg : list tag) (ins outs : list (list Z)) : list (list Z) * list (list Z) :=
  match tg, ins, outs with
  | t :: tg, i :: ins, o :: outs =>
      let '(ins, outs) := addtags r tg ins outs in
      (match t with TIn => i ++ [r] | _ => i end :: ins, match t with TOut => o ++ [r] | _ => o end :: outs)
  | _, _, _ => (ins, outs)
  end.
Definition clear_row (row c : Z) (l1 : smap) (fr : bool) (s : est * olist * list (list Z) * list (list Z) * list Z) : res (est * olist * list (list Z) * list (list Z) * list Z) :=
  let '(st, col0, ins, outs, L) := s in
  '(row2, col0) <- onext col0 ;;
  if row2 =? row then Ok (st, col0, ins, outs, L) else
  l2 <- zget (erows st) row2 ;;
  '(_, x) <- rlocate l2 c ;;
  v2 <- (t <- s_sub (e_sc E) p x ;; s_mod (e_sc E) t p) ;;
  '(l, tg) <- rowadd v2 l1 l2 ;;
  rs <- zset (erows st) row2 l ;;
  let '(ins, outs) := addtags row2 tg ins outs in
  '(st, L) <- (if fr then check_row (set_rows st rs) (length l2) row2 L else Ok (set_rows st rs, L)) ;;
  Ok (st, col0, ins, outs, L).
Definition clear_col (st : est) (row c : Z) (L : list Z) (fr fc : bool) (M : Z) (li : list Z) : res (est * (list Z * list Z)) :=
  col0 <- zget (ecols st) (c - 1) ;; l1 <- zget (erows st) row ;;
  if (onum col0 =? 1)%nat then col_loop (fun _ o => orem o row) (col_checks fc M) l1 (st, (L, li))
  else
    let none := repeat [] (length l1) in
    '(st, col0, ins, outs, L) <- mfold (fun s _ => clear_row row c l1 fr s) (seq 0 (onum col0)) (st, Ol (oarr col0) (onum col0) 0, none, none, L) ;;
    cs <- zset (ecols st) (c - 1) col0 ;;
    col_loop (fun '(i, o) l => l <- orem l row ;; l <- orems l o ;; oputs (onum col0) l i) (col_checks fc M)
      (combine (map fst l1) (combine ins outs)) (set_cols st cs, (L, li)).

(** the loops over a work list run at most 2^fuel times *)
Definition efuel (st : est) : nat := (2 * (enro st + enco st) + 4)%nat.
Definition pivot (st : est) (row c : Z) (L : list Z) (fr fc : bool) (M : Z) (li : list Z) : res (est * (list Z * list Z)) :=
  st <- normalize st row c ;; '(st, x) <- clear_col st row c L fr fc M li ;; st <- eliminate st row c ;; st <- free_space st c ;; Ok (st, x).

(** step0, lines 719-755 *)
Definition drop_at {A} (l : list A) (i : nat) : list A := firstn i l ++ skipn (i + 1) l.
Definition step0_row (row c : Z) (s : est * olist * list Z) : res (est * olist * list Z) :=
  let '(st, col0, L) := s in
  '(i, col0) <- onext col0 ;;
  if i =? row then Ok (st, col0, L) else
  l <- zget (erows st) i ;;
  let L := if (length l =? 2)%nat then L ++ [i] else L in
  '(ind, _) <- rlocate l c ;;
  rs <- zset (erows st) i (drop_at l (Z.to_nat ind)) ;;
  Ok (set_rows st rs, col0, L).
Definition step0_body (s : est * list Z) : res ((est * list Z) + est) :=
  let '(st, L) := s in
  match L with
  | [] => Ok (inr st)
  | row :: L =>
      l <- zget (erows st) row ;;
      match l with
      | [] => ps <- zset (epos st) row 0 ;; Ok (inl (set_pos st ps, L))
      | (c, _) :: t =>
          rs <- zset (erows st) row ((c, 1) :: t) ;;
          let st := set_rows st rs in
          col0 <- zget (ecols st) (c - 1) ;;
          '(st, col0, L) <- mfold (fun s _ => step0_row row c s) (seq 0 (onum col0)) (st, col0, L) ;;
          cs <- zset (ecols st) (c - 1) col0 ;;
          st <- eliminate (set_cols st cs) row c ;; st <- free_space st c ;; Ok (inl (st, L))
      end
  end.
(** the rows of weight less than w (and, in step2, with position -1) *)
Definition light_rows (st : est) (w : nat) (act : bool) : list Z :=
  flat_map (fun '(i, (l, q)) => if (length l <? w)%nat && (negb act || (q =? -1)) then [Z.of_nat i] else []) (combine (seq 0 (enro st)) (combine (erows st) (epos st))).
Definition step0 (st : est) : res est := while step0_body (efuel st) (st, light_rows st 2 false).

(** step1, lines 757-790 *)
Definition step1_body (s : est * list Z) : res ((est * list Z) + est) :=
  let '(st, L) := s in
  match L with
  | [] => Ok (inr st)
  | c :: L =>
      col0 <- zget (ecols st) (c - 1) ;;
      if (onum col0 <? 1)%nat then Ok (inl (st, L)) else
      '(row, col0) <- onext col0 ;;
      cs <- zset (ecols st) (c - 1) col0 ;;
      st <- normalize (set_cols st cs) row c ;;
      l <- zget (erows st) row ;;
      '(st, L) <- col_loop (fun _ o => orem o row) (fun st k L => w <- weight st k ;; Ok (if w =? 1 then L ++ [k] else L)) l (st, L) ;;
      st <- eliminate st row c ;; Ok (inl (st, L))
  end.
(** the columns whose weight satisfies f *)
Definition cols_with (f : Z -> bool) (st : est) : list Z :=
  flat_map (fun '(i, l) => if f (Z.of_nat (onum l)) then [Z.of_nat i + 1] else []) (combine (seq 0 (enco st)) (ecols st)).
Definition step1 (st : est) : res est := while step1_body (efuel st) (st, cols_with (fun w => w =? 1) st).

(** step2, lines 792-809 *)
Definition step2_body (s : est * list Z) : res ((est * list Z) + est) :=
  let '(st, L) := s in
  match L with
  | [] => Ok (inr st)
  | row :: L =>
      q <- zget (epos st) row ;;
      if q =? -1 then
        l <- zget (erows st) row ;; '(c, _) <- zget l 0 ;;
        '(st, (L, _)) <- pivot st row c L true false 0 [] ;; Ok (inl (st, L))
      else Ok (inl (st, L))
  end.
Definition step2 (st : est) : res est := while step2_body (efuel st) (st, light_rows st 3 true).

(** step3, lines 811-833; the columns are tried from the last to the first *)
Definition first_row (st : est) (c : Z) : res (est * Z) :=
  col0 <- zget (ecols st) (c - 1) ;; '(row, col0) <- onext col0 ;; cs <- zset (ecols st) (c - 1) col0 ;; Ok (set_cols st cs, row).
Definition step3_body (s : est * list Z) : res ((est * list Z) + est) :=
  let '(st, L) := s in
  match L with
  | [] => Ok (inr st)
  | c :: L =>
      w <- weight st c ;;
      if w <? 1 then Ok (inl (st, L)) else
      '(st, row) <- first_row st c ;;
      '(st, (L, _)) <- pivot st row c L false true 0 [] ;; Ok (inl (st, L))
  end.
Definition step3 (st : est) : res est := while step3_body (efuel st) (st, rev (cols_with (fun w => (w =? 2) || (w =? 1)) st)).

(** step4, lines 834-904; has_weight_one, lines 1118-1129 *)
Fixpoint weight_one (l : smap) (li : list Z) (wt : Z) : res bool :=
  match l with
  | [] => Ok (wt =? 1)
  | (k, _) :: l => x <- zget li (k - 1) ;; if 1 <? wt + x then Ok false else weight_one l li (wt + x)
  end.
Fixpoint light_col (l : smap) (li : list Z) : res Z :=
  match l with [] => Die | (k, _) :: l => x <- zget li (k - 1) ;; if x =? 1 then Ok k else light_col l li end.
Fixpoint light_row (n : nat) (r : Z) (st : est) (li : list Z) : res Z :=
  match n with
  | O => Ok (-1)
  | S n => l <- zget (erows st) r ;; b <- weight_one l li 0 ;; q <- zget (epos st) r ;; if b && (q =? -1) then Ok r else light_row n (r + 1) st li
  end.
Definition step4_body (M : Z) (s : est * list Z) : res ((est * list Z) + est) :=
  let '(st, li) := s in
  row <- light_row (enro st) 0 st li ;;
  if row =? -1 then Ok (inr st) else
  l <- zget (erows st) row ;; c <- light_col l li ;;
  '(st, (_, li)) <- pivot st row c [] false false M li ;; Ok (inl (st, li)).
(** the loop over M, from M down by Mstep to 3 *)
Fixpoint step4_loop (n : nat) (M Mstep : Z) (st : est) : res est :=
  if M <? 3 then Ok st else
  match n with
  | O => OutOfFuel
  | S n =>
      let li := map (fun l => let w := Z.of_nat (onum l) in if (0 <? w) && (w <=? M) then 1 else 0) (ecols st) in
      let nlight := fold_right Z.add 0 li in
      if (nlight =? 0) || (nlight <? Z.quot (Z.of_nat (enco st)) 2) then Ok st
      else st <- while (step4_body M) (efuel st) (st, li) ;; step4_loop n (M - Mstep) Mstep st
  end.
Definition step4 (st : est) : res est :=
  let M0 := fold_right Z.max 0 (map (fun l => Z.of_nat (onum l)) (ecols st)) in
  let s := Z.quot M0 100 in step4_loop (Z.to_nat M0) M0 (if s =? 0 then 1 else s) st.

(** n_active_cols, n_active_rows, n_active_entries, active_density, lines 1131-1170 *)
Definition active_rows (st : est) : list Z :=
  flat_map (fun '(i, (l, q)) => if (0 <? length l)%nat && (q =? -1) then [Z.of_nat i] else []) (combine (seq 0 (enro st)) (combine (erows st) (epos st))).
Definition active_cols (st : est) : list Z := cols_with (fun w => 0 <? w) st.
Definition active_entries (st : est) : Z := fold_right Z.add 0 (map (fun l => Z.of_nat (onum l)) (ecols st)).
Variable below : Z -> Z -> Z -> bool.   (* entries/cols/rows < 0.2 in double arithmetic *)
Definition low_density (st : est) : bool :=
  let n := zlen (active_cols st) in let m := zlen (active_rows st) in
  if (n =? 0) || (m =? 0) then true else below (active_entries st) n m.
(** the loop of standard, lines 906-948; true: return inside the loop *)
Fixpoint min_col (cs : list olist) (c mn best : Z) : Z :=
  match cs with
  | [] => best
  | l :: cs => let w := Z.of_nat (onum l) in if (0 <? w) && (w <? mn) then min_col cs (c + 1) w c else min_col cs (c + 1) mn best
  end.
Definition standard_body (st : est) : res (est + (est * bool)) :=
  if low_density st then
    let c := min_col (ecols st) 1 (Z.of_nat (enro st) + 1) (-1) in
    if c =? -1 then Ok (inr (st, true)) else
    '(st, row) <- first_row st c ;;
    '(st, _) <- pivot st row c [] false false 0 [] ;; Ok (inl st)
  else Ok (inr (st, false)).
(** step5dense, lines 1217-1315; rref returns the matrix and its pivotal columns (from 0) *)
Variable rref : mat -> mat * list nat.
Fixpoint skip_cols (n : nat) (rc : list Z) (j k : Z) : res Z :=
  match n with O => UB | S n => c <- zget rc j ;; if c <? k then skip_cols n rc (j + 1) k else Ok j end.
Definition dense_part (st : est) (rr rc : list Z) : res mat :=
  mfold (fun m '(i, r) => l <- zget (erows st) r ;;
      '(m, _) <- mfold (fun '(m, j) '(k, x) => j <- skip_cols (length rc + 1) rc j k ;; m <- mat_set m i (Z.to_nat j) x ;; Ok (m, j)) l (m, 0) ;; Ok m)
    (combine (seq 0 (length rr)) rr) (mat_new (length rr) (length rc)).
(** the new rows: zeros are not set, the columns come in increasing order *)
Definition put_back (st : est) (rr rc : list Z) (d : mat) : res est :=
  mfold (fun st '(i, r) =>
      l <- (if (i <? nro d)%nat then v <- mat_row d i ;; Ok (nonzeros (combine rc v)) else Ok []) ;; rs <- zset (erows st) r l ;; Ok (set_rows st rs))
    (combine (seq 0 (length rr)) rr) st.
Definition step5dense (standard : est -> res est) (st : est) : res est :=
  let rr := active_rows st in let rc := active_cols st in
  if zlen rr * zlen rc =? 0 then standard st else
  d <- dense_part st rr rc ;;
  let '(d, pc) := rref d in
  st <- put_back st rr rc d ;;
  mfold (fun st i => j <- deref pc i ;; r <- deref rr i ;; c <- deref rc j ;; st <- eliminate st r c ;; free_space st c) (seq 0 (nro d)) st.
Fixpoint standard (n : nat) (st : est) : res est :=
  '(st, fin) <- while standard_body (efuel st) st ;;
  if fin : bool then Ok st else match n with O => OutOfFuel | S n => step5dense (standard n) st end.
(** sparse_elimination, lines 314-376; standard is entered at most twice *)
Definition sparse_elimination (st : est) : res est :=
  st <- step0 st ;; st <- step1 st ;; st <- step2 st ;; st <- step3 st ;; st <- step4 st ;; standard 1 st.
(** smat::rank, lines 1317-1322 *)
Definition sm_rank (rows : list smap) (nc : nat) : res Z := st <- einit rows nc ;; st <- sparse_elimination st ;; Ok (zlen (erow st)).

(** elim, back_sub, lines 950-968: the scan of a row starts again after each elimination *)
Fixpoint back_find (l : smap) (row : Z) (st : est) : res (option (Z * Z)) :=
  match l with
  | [] => Ok None
  | (k, x) :: l => e <- zget (ecol st) (k - 1) ;; if (e =? -1) || (e =? row) then back_find l row st else Ok (Some (e, x))
  end.
Definition back_body (row : Z) (st : est) : res (est + est) :=
  l <- zget (erows st) row ;; f <- back_find l row st ;;
  match f with
  | None => Ok (inr st)
  | Some (e, x) => v2 <- s_neg (e_sc E) x ;; l1 <- zget (erows st) e ;; '(l', _) <- rowadd v2 l1 l ;; rs <- zset (erows st) row l' ;; Ok (inl (set_rows st rs))
  end.
Definition back_sub (st : est) : res est := mfold (fun st row => while (back_body row) (efuel st) st) (rev (erow st)) st.
(** old_kernel, lines 619-712 (kernel calls it, lines 378-381).  The entries of the row in
    the columns npc: the pointer stays on the last entry *)
Fixpoint skip_ents (l : smap) (k : Z) : smap :=
  match l with [] => [] | x :: t => match t with [] => l | _ => if fst x <? k then skip_ents t k else l end end.
Fixpoint ker_row (l : smap) (npc : list Z) (j : Z) : res smap :=
  match npc with
  | [] => Ok []
  | k :: npc => match skip_ents l k with
      | [] => UB
      | (k', x) :: t => let l := (k', x) :: t in
          if k' =? k then y <- s_neg (e_sc E) x ;; t <- ker_row l npc (j + 1) ;; Ok ((j, y) :: t) else ker_row l npc (j + 1)
      end
  end.
Definition ker_basis (st : est) : res (list smap * list Z * list Z) :=
  let cols := combine (seq 1 (enco st)) (ecol st) in
  let pc := flat_map (fun '(i, e) => if -1 <? e then [Z.of_nat i] else []) cols in
  let npc := flat_map (fun '(i, e) => if -1 <? e then [] else [Z.of_nat i]) cols in
  let bas := repeat [] (enco st) in
  bas <- mfold (fun b '(n, k) => zset b (k - 1) [(Z.of_nat n, 1)]) (combine (seq 1 (length npc)) npc) bas ;;
  bas <- mfold (fun b k => e <- zget (ecol st) (k - 1) ;; l <- zget (erows st) e ;; t <- ker_row l npc 1 ;; zset b (k - 1) t) pc bas ;;
  bas <- mmap (fun l => red_map (e_sc E) l p) bas ;;
  Ok (bas, pc, npc).
Definition sm_kernel (rows : list smap) (nc : nat) : res (list smap * list Z * list Z) :=
  st <- einit rows nc ;; st <- sparse_elimination st ;;
  st <- (if 0 <? Z.of_nat nc - zlen (erow st) then back_sub st else Ok st) ;; ker_basis st.
End Elim.
