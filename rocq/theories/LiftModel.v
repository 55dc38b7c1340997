(** Model of liftmat and liftmats_chinese for sparse matrices, smat.cc lines 901-1000.
    No proofs.  Tracing is left out; sqrt(pr>>1) is the floor of the square root (exact in
    double precision for pr < 2^52). *)
From Coq Require Import ZArith List Bool.
From Verif Require Import Base ArithModel LinModel EchModel SvecModel SmatModel.
Import ListNotations.
Open Scope Z_scope.
Open Scope res_scope.

Section Lift.
Variable S : scal.
(** the values of all the entries, row by row *)
Definition sm_vals (m : smat) : res (list Z) := l <- mmap rread (srows m) ;; Ok (concat (map (map snd) l)).
(** lines 919-939: the flag is false when an entry could not be lifted *)
Fixpoint lift_dd (pr lim : Z) (vs : list Z) (dd : Z) : res (bool * Z) :=
  match vs with
  | [] => Ok (true, dd)
  | v :: vs =>
      a <- s_abs S v ;;
      if a <? lim then lift_dd pr lim vs dd
      else
        '(ok, n, d) <- s_modrat S v pr ;;
        ad <- s_abs S d ;;
        newdd <- s_lcm S ad dd ;;
        if (ok : bool) then lift_dd pr lim vs newdd else Ok (false, newdd)
  end.
(** liftmat, lines 901-949; [m] is the value of the output parameter before the call.
    Result: (success, m, dd) *)
Definition sm_liftmat (mm : smat) (pr : Z) (m : smat) : res (bool * smat * Z) :=
  let lim := Z.sqrt (Z.shiftr pr 1) in
  m <- sm_assign false m mm ;;
  m <- sm_reduce S m pr ;;
  ma <- sm_maxabs S m ;;
  if ma <? lim then Ok (true, m, 1)
  else
    vs <- sm_vals m ;;
    '(ok, dd) <- lift_dd pr lim vs 1 ;;
    if (ok : bool) then
      dd <- s_abs S dd ;;
      m <- sm_map (fun x => y <- s_xmm S dd x pr ;; s_mod S y pr) m ;;
      Ok (true, m, dd)
    else Ok (false, m, dd).

(** liftmats_chinese, lines 953-1000.  [bez] is bezout.  The entries of m1 and m2 are matched
    by their position in the arrays; rows of different lengths, which the code assumes away,
    are not modelled faithfully.  Result: (success, m, dd) *)
Variable bez : Z -> Z -> res (Z * Z * Z).
(** lines 964-988; d is the denominator of the last entry *)
Fixpoint chin_loop (p1 p2 md u v : Z) (v1 v2 : list Z) (dd d : Z) : res (bool * list Z * Z * Z) :=
  match v1, v2 with
  | [], _ => Ok (true, [], dd, d)
  | x1 :: v1, x2 :: v2 =>
      a <- s_xmm S v x1 p1 ;; a <- s_mul S a p2 ;;
      b <- s_xmm S u x2 p2 ;; b <- s_mul S b p1 ;;
      x <- s_add S a b ;; x <- s_mod S x md ;;
      '(ok, n, d) <- s_modrat S x md ;;
      if (ok : bool) then
        dd <- s_lcm S d dd ;;
        '(ok, xs, dd, d) <- chin_loop p1 p2 md u v v1 v2 dd d ;; Ok (ok, x :: xs, dd, d)
      else Ok (false, [x], dd, d)
  | _ :: _, [] => UB
  end.
(** the values written back; the matrix keeps the positions of m1 *)
Fixpoint refill (rs : list smap) (vs : list Z) : list smap :=
  match rs with
  | [] => []
  | r :: rs => combine (map fst r) (firstn (length r) vs) :: refill rs (skipn (length r) vs)
  end.
Definition sm_liftchin (m1 : smat) (p1 : Z) (m2 : smat) (p2 : Z) : res (bool * list smap * Z) :=
  md <- s_mul S p1 p2 ;;
  '(dd, u, v) <- bez p1 p2 ;;
  rs <- mmap rread (srows m1) ;;
  if negb (dd =? 1) then Ok (false, rs, dd)
  else
    v1 <- sm_vals m1 ;; v2 <- sm_vals m2 ;;
    '(ok, xs, dd, d) <- chin_loop p1 p2 md u v v1 v2 1 0 ;;
    if (ok : bool) then
      dd <- s_abs S dd ;;
      ys <- mmap (fun x => q <- s_div S dd d ;; y <- s_xmm S q x md ;; s_mod S y md) xs ;;
      Ok (true, refill rs ys, dd)
    else Ok (false, rs, dd).
End Lift.
