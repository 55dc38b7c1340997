(** Model of libsrc/svec.cc and libsrc/eclib/svec.h (sparse vectors).  No proofs.

    map<int,scalar> is an association list with increasing keys; an iterator is
    the key of the element it points to, [None] is end().  Dereferencing or
    advancing an iterator whose element is not (or no longer) in the map is
    undefined.  Simplifications: keys and dimensions are unbounded integers;
    messages on cerr are dropped. *)
From Coq Require Import ZArith List Bool.
From Verif Require Import Base LinModel.
Import ListNotations.
Open Scope Z_scope.
Open Scope res_scope.

(** ** std::map<int,scalar> *)
Definition smap := list (Z * Z).
Fixpoint mget (m : smap) (k : Z) : option Z :=
  match m with [] => None | (k', x) :: m => if k' =? k then Some x else mget m k end.
Fixpoint mset (m : smap) (k x : Z) : smap :=
  match m with
  | [] => [(k, x)]
  | (k', y) :: m' => if k <? k' then (k, x) :: m else if k =? k' then (k, x) :: m' else (k', y) :: mset m' k x
  end.
Fixpoint mdel (m : smap) (k : Z) : smap :=
  match m with [] => [] | (k', y) :: m' => if k' =? k then m' else (k', y) :: mdel m' k end.
(** upper_bound(k) *)
Fixpoint mafter (m : smap) (k : Z) : option Z :=
  match m with [] => None | (k', _) :: m => if k <? k' then Some k' else mafter m k end.
Definition mbegin (m : smap) : option Z := match m with [] => None | (k, _) :: _ => Some k end.
(** it->second, ++it *)
Definition mderef (m : smap) (k : Z) : res Z := match mget m k with Some x => Ok x | None => UB end.
Definition mincr (m : smap) (k : Z) : res (option Z) := match mget m k with Some _ => Ok (mafter m k) | None => UB end.

(** ** the class, svec.h lines 29-37 *)
Record svec := Sv { sd : Z; sents : smap }.

Section Svec.
Variable S : scal.

(** svec(const vec&), svec.cc lines 28-37; entry number i+1 of the vector is [nth i v] *)
Fixpoint of_list (i : Z) (v : list Z) : smap :=
  match v with [] => [] | x :: v => if x =? 0 then of_list (i + 1) v else (i, x) :: of_list (i + 1) v end.
Definition sv_of_vec (v : list Z) : svec := Sv (Z.of_nat (length v)) (of_list 1 v).
(** as_vec, lines 39-45; v[i] throws when out of range, new vec(d) throws when d<0 *)
Definition at1_set (l : list Z) (i x : Z) : res (list Z) := if (1 <=? i) then at_set l (Z.to_nat (i - 1)) x else Die.
Definition sv_as_vec (v : svec) : res (list Z) :=
  if sd v <? 0 then Die else mfold (fun l '(i, x) => at1_set l i x) (sents v) (zeros (Z.to_nat (sd v))).
(** elem, set, erase, support, lines 47-76 *)
Definition sv_elem (v : svec) (i : Z) : Z := match mget (sents v) i with Some x => x | None => 0 end.
Definition sv_set (v : svec) (i a : Z) : svec := if a =? 0 then v else Sv (sd v) (mset (sents v) i a).
Definition sv_erase (v : svec) (i : Z) : svec := match mget (sents v) i with None => v | Some _ => Sv (sd v) (mdel (sents v) i) end.
Definition sv_support (v : svec) : list Z := map fst (sents v).
(** first_index, svec.h line 80: upper_bound(0)->first *)
Definition sv_first (v : svec) : res Z := match mafter (sents v) 0 with Some k => Ok k | None => UB end.
(** add, sub, lines 78-96 *)
Definition sv_add1 (v : svec) (i a : Z) : res svec :=
  if a =? 0 then Ok v
  else match mget (sents v) i with
       | None => Ok (Sv (sd v) (mset (sents v) i a))
       | Some x => sum <- s_add S x a ;;
           if sum =? 0 then Ok (Sv (sd v) (mdel (sents v) i)) else Ok (Sv (sd v) (mset (sents v) i sum))
       end.
Definition sv_sub1 (v : svec) (i a : Z) : res svec := if a =? 0 then Ok v else na <- s_neg S a ;; sv_add1 v i na.
(** add_mod_p, sub_mod_p of one entry, lines 98-116 *)
Definition sv_addmod1 (v : svec) (i aa p : Z) : res svec :=
  a <- s_mod S aa p ;;
  if a =? 0 then Ok v
  else match mget (sents v) i with
       | None => Ok (Sv (sd v) (mset (sents v) i a))
       | Some x => t <- s_add S x a ;; sum <- s_mod S t p ;;
           if sum =? 0 then Ok (Sv (sd v) (mdel (sents v) i)) else Ok (Sv (sd v) (mset (sents v) i sum))
       end.
Definition sv_submod1 (v : svec) (i a p : Z) : res svec := na <- s_neg S a ;; sv_addmod1 v i na p.

(** the loop common to operator+= (118-156), add_scalar_times (164-203),
    add_scalar_times_mod_p (239-280 and 282-328) and add_mod_p (330-368);
    [cp y] is stored where only w has an entry y, [cb x y] where both have one.
    [al]: w is the same object as *this.  [mn], [mf] are the sets ons and offs. *)
Record mst := Mst { mm : smap; mv : option Z; mw : option Z; mn : list Z; mf : list Z }.
Definition merge_step (cp : Z -> res Z) (cb : Z -> Z -> res Z) (al : bool) (w : smap) (s : mst) : res (mst + mst) :=
  let wm (m : smap) := if al then m else w in
  match mw s with
  | None => Ok (inr s)
  | Some kw =>
      y <- mderef (wm (mm s)) kw ;;
      let ins := x <- cp y ;; let m' := mset (mm s) kw x in wi <- mincr (wm m') kw ;;
                 Ok (inl (Mst m' (mv s) wi (kw :: mn s) (mf s))) in
      match mv s with
      | None => ins
      | Some kv =>
          if kv <? kw then vi <- mincr (mm s) kv ;; Ok (inl (Mst (mm s) vi (mw s) (mn s) (mf s)))
          else if kw <? kv then ins
          else x <- mderef (mm s) kv ;; sum <- cb x y ;; vi <- mincr (mm s) kv ;;
               if sum =? 0
               then let m' := mdel (mm s) kw in wi <- mincr (wm m') kw ;; Ok (inl (Mst m' vi wi (mn s) (kw :: mf s)))
               else let m' := mset (mm s) kv sum in wi <- mincr (wm m') kw ;; Ok (inl (Mst m' vi wi (mn s) (mf s)))
      end
  end.
Fixpoint merge_loop cp cb al w (n : nat) (s : mst) : res mst :=
  match n with
  | O => OutOfFuel
  | Datatypes.S n => r <- merge_step cp cb al w s ;; match r with inl s => merge_loop cp cb al w n s | inr s => Ok s end
  end.
Definition merge cp cb (al : bool) (v w : smap) : res mst :=
  merge_loop cp cb al w (Datatypes.S (length v + length w)) (Mst v (mbegin v) (mbegin (if al then v else w)) [] []).
Definition sv_merge cp cb (al : bool) (v w : svec) : res svec :=
  if sd v =? sd w then s <- merge cp cb al (sents v) (sents w) ;; Ok (Sv (sd v) (mm s)) else Ok v.

(** operator*=, lines 205-210; operator/=, lines 376-383 *)
Definition smap_map (f : Z -> res Z) (m : smap) : res smap := mmap (fun '(k, x) => y <- f x ;; Ok (k, y)) m.
Definition sv_scale (v : svec) (c : Z) : res svec := m <- smap_map (fun x => s_mul S x c) (sents v) ;; Ok (Sv (sd v) m).
Definition sv_div (v : svec) (c : Z) : res svec := m <- smap_map (fun x => s_div S x c) (sents v) ;; Ok (Sv (sd v) m).
(** unary minus, svec.h lines 117-118 *)
Definition sv_neg (v : svec) : res svec := sv_scale v (-1).
(** operator+=, -=, lines 118-162; -w is a copy, so it is never aliased *)
Definition sv_plus (al : bool) (v w : svec) : res svec := sv_merge (fun y => Ok y) (fun x y => s_add S x y) al v w.
Definition sv_minus (v w : svec) : res svec := nw <- sv_neg w ;; sv_plus false v nw.
(** operator+, - of two vectors, svec.h lines 119-134 *)
Definition sv_sum (v w : svec) : res svec := if (length (sents v) <? length (sents w))%nat then sv_plus false w v else sv_plus false v w.
Definition sv_diff (v w : svec) : res svec := nw <- sv_neg w ;; sv_sum v nw.
(** add_scalar_times, lines 164-203 *)
Definition sv_addst (al : bool) (v w : svec) (a : Z) : res svec :=
  if sd v =? sd w then
    if a =? 0 then Ok v
    else sv_merge (fun y => s_mul S a y) (fun x y => t <- s_mul S a y ;; s_add S x t) al v w
  else Ok v.
(** reduce_mod_p, lines 212-228 *)
Fixpoint red_map (m : smap) (p : Z) : res smap :=
  match m with
  | [] => Ok []
  | (k, x) :: m => a <- s_mod S x p ;; m <- red_map m p ;; Ok (if a =? 0 then m else (k, a) :: m)
  end.
Definition sv_reduce (v : svec) (p : Z) : res svec := m <- red_map (sents v) p ;; Ok (Sv (sd v) m).
(** mult_by_scalar_mod_p, lines 230-237 *)
Definition sv_scalemod (v : svec) (c p : Z) : res svec :=
  s <- s_mod S c p ;; if s =? 1 then Ok v else m <- smap_map (fun x => s_xmm S x s p) (sents v) ;; Ok (Sv (sd v) m).
(** add_scalar_times_mod_p, lines 239-280 *)
Definition sv_addstmod (al : bool) (v w : svec) (c p : Z) : res svec :=
  if sd v =? sd w then
    a <- s_mod S c p ;;
    if a =? 0 then Ok v
    else sv_merge (fun y => s_xmm S a y p) (fun x y => t <- s_xmm S a y p ;; u <- s_add S x t ;; s_xmod S u p) al v w
  else Ok v.
(** the version with ons and offs, lines 282-328 *)
Definition sv_addstmod_oo (al : bool) (v w : svec) (c p : Z) : res (svec * list Z * list Z) :=
  if sd v =? sd w then
    a <- s_mod S c p ;;
    if a =? 0 then Ok (v, [], [])
    else s <- merge (fun y => s_xmm S a y p) (fun x y => t <- s_xmm S a y p ;; u <- s_add S x t ;; s_xmod S u p) al (sents v) (sents w) ;;
         Ok (Sv (sd v) (mm s), mn s, mf s)
  else Ok (v, [], []).
(** add_mod_p, sub_mod_p of vectors, lines 330-374 *)
Definition sv_addmod (al : bool) (v w : svec) (p : Z) : res svec :=
  sv_merge (fun y => Ok y) (fun x y => u <- s_add S x y ;; s_xmod S u p) al v w.
Definition sv_submod (v w : svec) (p : Z) : res svec := nw <- sv_neg w ;; sv_addmod false v nw p.

(** operator==, svec.h lines 141-144; eqmodp and comparison with a vec, svec.cc lines 387-404 *)
Fixpoint smap_eqb (m n : smap) : bool :=
  match m, n with
  | [], [] => true
  | (k, x) :: m, (k', x') :: n => (k =? k') && (x =? x') && smap_eqb m n
  | _, _ => false
  end.
Definition sv_eqb (v w : svec) : bool := (sd v =? sd w) && smap_eqb (sents v) (sents w).
Fixpoint any_ne (m : smap) (w : svec) (p : Z) : res bool :=
  match m with
  | [] => Ok false
  | (k, x) :: m => t <- s_sub S x (sv_elem w k) ;; r <- s_xmod S t p ;; if r =? 0 then any_ne m w p else Ok true
  end.
Definition sv_eqmodp (v w : svec) (p : Z) : res bool :=
  if sd v =? sd w then
    a <- any_ne (sents v) w p ;; if a then Ok false
    else b <- any_ne (sents w) v p ;; Ok (negb b)
  else Ok false.
Definition sv_eq_vec (v : svec) (w : list Z) : bool :=
  (sd v =? Z.of_nat (length w)) && forallb (fun '(i, x) => x =? sv_elem v (Z.of_nat i + 1)) (combine (seq 0 (length w)) w).
(** dot products, lines 418-433 and 452-467; the two iterators are two suffixes of the maps *)
Fixpoint dot_loop (f : Z -> Z -> Z -> res Z) (n : nat) (m w : smap) (ans : Z) : res Z :=
  match n, m, w with
  | Datatypes.S n, (k, x) :: m', (k', y) :: w' =>
      if k <? k' then dot_loop f n m' w ans
      else if k' <? k then dot_loop f n m w' ans
      else ans <- f ans x y ;; dot_loop f n m' w' ans
  | O, _ :: _, _ :: _ => OutOfFuel
  | _, _, _ => Ok ans
  end.
Definition sv_dot (v w : svec) : res Z :=
  dot_loop (fun ans x y => t <- s_mul S x y ;; s_add S ans t) (length (sents v) + length (sents w)) (sents v) (sents w) 0.
Definition sv_dotmodp (v w : svec) (p : Z) : res Z :=
  dot_loop (fun ans x y => t <- s_xmm S x y p ;; u <- s_add S ans t ;; s_mod S u p) (length (sents v) + length (sents w)) (sents v) (sents w) 0.
(** with a dense vector, lines 435-450; w[i] throws *)
Definition at1 (l : list Z) (i : Z) : res Z := if 1 <=? i then at_ l (Z.to_nat (i - 1)) else Die.
Definition sv_dotv (v : svec) (w : list Z) : res Z :=
  mfold (fun ans '(i, x) => y <- at1 w i ;; t <- s_mul S x y ;; s_add S ans t) (sents v) 0.
Definition sv_dotvmodp (v : svec) (w : list Z) (p : Z) : res Z :=
  mfold (fun ans '(i, x) => y <- at1 w i ;; t <- s_xmm S x y p ;; u <- s_add S ans t ;; s_mod S u p) (sents v) 0.
(** content, make_primitive, lines 469-489 *)
Fixpoint content_loop (m : smap) (g : Z) : res Z :=
  match m with [] => Ok g | (_, x) :: m => g <- s_gcd S g x ;; if g =? 1 then Ok g else content_loop m g end.
Definition sv_content (v : svec) : res Z := content_loop (sents v) 0.
Definition sv_primitive (v : svec) : res (Z * svec) := c <- sv_content v ;; v <- sv_div v c ;; Ok (c, v).

(** ** histories: a program acting on named sparse vectors *)
Inductive sop :=
| OSet (r : nat) (i a : Z) | OErase (r : nat) (i : Z) | OAdd (r : nat) (i a : Z) | OSub (r : nat) (i a : Z)
| OPlus (r s : nat) | OMinus (r s : nat) | OAddSt (r s : nat) (a : Z) | OScale (r : nat) (a : Z) | OClear (r : nat) | OCopy (r s : nat)
| OAddMod1 (r : nat) (i a : Z) | OSubMod1 (r : nat) (i a : Z) | OAddMod (r s : nat) | OSubMod (r s : nat)
| OAddStMod (r s : nat) (a : Z) | OScaleMod (r : nat) (a : Z) | OReduce (r : nat).
Definition sstore := nat -> svec.
Definition sput (st : sstore) (r : nat) (v : svec) : sstore := fun x => if (x =? r)%nat then v else st x.
Definition sstep (p : Z) (st : sstore) (o : sop) : res sstore :=
  match o with
  | OSet r i a => Ok (sput st r (sv_set (st r) i a))
  | OErase r i => Ok (sput st r (sv_erase (st r) i))
  | OAdd r i a => v <- sv_add1 (st r) i a ;; Ok (sput st r v)
  | OSub r i a => v <- sv_sub1 (st r) i a ;; Ok (sput st r v)
  | OPlus r s => v <- sv_plus (r =? s)%nat (st r) (st s) ;; Ok (sput st r v)
  | OMinus r s => v <- sv_minus (st r) (st s) ;; Ok (sput st r v)
  | OAddSt r s a => v <- sv_addst (r =? s)%nat (st r) (st s) a ;; Ok (sput st r v)
  | OScale r a => v <- sv_scale (st r) a ;; Ok (sput st r v)
  | OClear r => Ok (sput st r (Sv (sd (st r)) []))
  | OCopy r s => Ok (sput st r (st s))
  | OAddMod1 r i a => v <- sv_addmod1 (st r) i a p ;; Ok (sput st r v)
  | OSubMod1 r i a => v <- sv_submod1 (st r) i a p ;; Ok (sput st r v)
  | OAddMod r s => v <- sv_addmod (r =? s)%nat (st r) (st s) p ;; Ok (sput st r v)
  | OSubMod r s => v <- sv_submod (st r) (st s) p ;; Ok (sput st r v)
  | OAddStMod r s a => v <- sv_addstmod (r =? s)%nat (st r) (st s) a p ;; Ok (sput st r v)
  | OScaleMod r a => v <- sv_scalemod (st r) a p ;; Ok (sput st r v)
  | OReduce r => v <- sv_reduce (st r) p ;; Ok (sput st r v)
  end.
Definition srun (p : Z) (os : list sop) (st : sstore) : res sstore := mfold (sstep p) os st.
End Svec.
