(** Model of the solver of a x^2 + b x z + c z^2 = d y^2 in libsrc/conic.cc.  No proofs.

    cancel1, cancel and the reduction of solutions are in LegModel.v.  The factorisation pdivs
    and NTL's XGCD, SqrRootMod are parameters.  REDUCE_INTERMEDIATES is defined, MORDELL_REDUCE and
    the DEBUG switches are not; output is left out.  The recursion of solve_conic_diag has the
    bound [f], which the theorems show to be sufficient.  [None] stands for the return value 0. *)
From Coq Require Import ZArith List Bool.
From Verif Require Import Base RatModel MArithModel FormsModel LegModel.
Import ListNotations.
Open Scope Z_scope.
Open Scope res_scope.

Section Conic.
Variable xgcd : Z -> Z -> Z * Z * Z.
Variable sqrrootmod : Z -> Z -> Z.
(** pdivs(n), marith.cc: the list of prime divisors *)
Variable pdivs : Z -> list Z.

(** conic_diag_reduce, lines 978-1043; the sign is 1 for positive, -1 for negative numbers *)
Definition conic_diag_reduce (a b : Z) (s : tri) : res tri :=
  let '(x, y, z) := s in
  let sa := Z.sgn a in let sb := Z.sgn b in
  let icase := if sa =? -1 then 1 else if sb =? 1 then 2 else 3 in
  let c := Z.gcd a b in
  let y := y * c in let z := z * c in
  let g := Z.gcd x c in
  a0 <- zz_div a c ;; b0 <- zz_div b c ;;
  '(x, y, z) <- (if 1 <? g then x <- zz_div x g ;; y <- zz_div y g ;; z <- zz_div z g ;; Ok (x, y, z)
                 else Ok (x, y, z)) ;;
  '(x, y, z) <-
    (if icase =? 1 then '(x, z, y) <- new_legendre_reduce xgcd c (- a0) (- b0) (x, z, y) ;; Ok (x, y, z)
     else if icase =? 2 then '(z, y, x) <- new_legendre_reduce xgcd a0 b0 (- c) (z, y, x) ;; Ok (x, y, z)
     else new_legendre_reduce xgcd c (- b0) (- a0) (x, y, z)) ;;
  Ok (x * c, y, z).

(** The lambda [test] of testlocsol, lines 522-531: no p in the list with p > 2, legendre(m,p) != 1 *)
Fixpoint test_plist (plist : list Z) (m : Z) : res bool :=
  match plist with
  | [] => Ok true
  | p :: ps =>
      if 2 <? p then l <- legendre_z m p ;; if negb (l =? 1) then Ok false else test_plist ps m
      else test_plist ps m
  end.
(** testlocsol(a,alist,b,blist,c,clist), lines 514-533 *)
Definition testlocsol3 (a : Z) (alist : list Z) (b : Z) (blist : list Z) (c : Z) (clist : list Z) : res bool :=
  if (Z.sgn a =? Z.sgn b) && (Z.sgn b =? Z.sgn c) then Ok false
  else
    t <- test_plist clist (- a * b) ;;
    if t then
      t <- test_plist alist (- b * c) ;;
      if t then test_plist blist (- a * c) else Ok false
    else Ok false.
(** the first loop of testlocsol(a,alist,b,blist), lines 553-563: state (c,clist,a0,a0list) *)
Fixpoint split_a (alist : list Z) (b c : Z) (clist : list Z) (a0 : Z) (a0list : list Z) : res (Z * list Z * Z * list Z) :=
  match alist with
  | [] => Ok (c, clist, a0, a0list)
  | p :: ps =>
      d <- div_z p b ;;
      if d then split_a ps b (c * p) (clist ++ [p]) a0 a0list
      else split_a ps b c clist (a0 * p) (a0list ++ [p])
  end.
(** the second loop, lines 564-570 *)
Fixpoint split_b (blist : list Z) (c b0 : Z) (b0list : list Z) : res (Z * list Z) :=
  match blist with
  | [] => Ok (b0, b0list)
  | p :: ps =>
      d <- div_z p c ;;
      if d then split_b ps c b0 b0list else split_b ps c (b0 * p) (b0list ++ [p])
  end.
(** testlocsol(a,alist,b,blist), lines 535-572 *)
Definition testlocsol2 (a : Z) (alist : list Z) (b : Z) (blist : list Z) : res bool :=
  if (Z.sgn a <? 0) && (Z.sgn b <? 0) then Ok false
  else
    let a0 := if Z.sgn a <? 0 then -1 else 1 in
    let b0 := if Z.sgn b <? 0 then -1 else 1 in
    '(c, clist, a0, a0list) <- split_a alist b (-1) [] a0 [] ;;
    '(b0, b0list) <- split_b blist c b0 [] ;;
    testlocsol3 a0 a0list b0 b0list c clist.

(** ** solve_conic_diag *)
(** The loop of method 1, lines 250-268; state (x0,t,newt,m11,m21,m33), result (t,m11,m21,m33). *)
Definition simon_step (a : Z) (s : Z * Z * Z * Z * Z * Z) : res (Z * Z * Z * Z * Z * Z + Z * Z * Z * Z) :=
  let '(x0, t, newt, m11, m21, m33) := s in
  if Z.abs newt <? Z.abs t then
    let temp := x0 * m11 + a * m21 in
    let m21 := m11 + x0 * m21 in
    let m11 := temp in
    x0 <- mod_z (- x0) newt ;;
    let t := newt in
    newt <- zz_div (x0 * x0 - a) t ;;
    let fac := Z.gcd (Z.gcd m11 m21) m33 in
    m11 <- zz_div m11 fac ;; m21 <- zz_div m21 fac ;; m33 <- zz_div m33 fac ;;
    Ok (inl (x0, t, newt, m11, m21, m33 * t))
  else Ok (inr (t, m11, m21, m33)).
(** The loop of method 2, lines 300-323; state (u1,v1,u2,v2,n1,n2), result (u1,v1). *)
Definition latt_step (a b x0 : Z) (s : Z * Z * Z * Z * Z * Z) : res (Z * Z * Z * Z * Z * Z + Z * Z) :=
  let '(u1, v1, u2, v2, n1, n2) := s in
  if n1 <=? n2 then Ok (inr (u1, v1))
  else
    let absa := Z.abs a in
    let '(u1, u2, v1, v2, n1, n2) := (u2, u1, v2, v1, n2, n1) in
    let dot := absa * u1 * u2 + (u1 * x0 + v1 * b) * (u2 * x0 + v2 * b) in
    alpha <- roundover dot n1 ;;
    let '(u2, v2, n2) :=
      if alpha =? 0 then (u2, v2, n2)
      else let u2 := u2 - alpha * u1 in let v2 := v2 - alpha * v1 in
           (u2, v2, absa * (u2 * u2) + (u2 * x0 + v2 * b) * (u2 * x0 + v2 * b)) in
    Ok (inl (u1, v1, u2, v2, n1, n2)).
(** The switch of lines 240-333: result (t,m11,m21,m33). *)
Definition diag_matrix (method a b x0 : Z) : res (Z * Z * Z * Z) :=
  newt <- zz_div (x0 * x0 - a) b ;;
  if method =? 0 then Ok (newt, x0, 1, newt)
  else if method =? 1 then while (simon_step a) (zfuel b) (x0, b, newt, 1, 0, 1)
  else if method =? 2 then
    let absa := Z.abs a in
    let n1 := absa + x0 * x0 in
    alpha <- roundover (b * x0) n1 ;;
    let '(u2, v2) := if alpha =? 0 then (0, 1) else (0 - alpha * 1, 1 - alpha * 0) in
    let n2 := absa * (u2 * u2) + (u2 * x0 + v2 * b) * (u2 * x0 + v2 * b) in
    '(u1, v1) <- while (latt_step a b x0) (zfuel n1) (1, 0, u2, v2, n1, n2) ;;
    let m11 := u1 * x0 + v1 * b in
    let m21 := u1 in
    t <- zz_div (m11 * m11 - a * (m21 * m21)) b ;;
    Ok (t, m11, m21, t)
  else Ok (b, 1, 0, 1).
(** The loop of method 3, lines 408-428; state (u,v,uu,vv,c,newc), result (u,v,c). *)
Definition meth3_step (a : Z) (s : Z * Z * Z * Z * Z * Z) : res (Z * Z * Z * Z * Z * Z + Z * Z * Z) :=
  let '(u, v, uu, vv, c, newc) := s in
  if negb (newc =? 0) && (Z.abs newc <? Z.abs c) then
    temp <- zz_div (u * vv + v * uu) c ;;
    v <- zz_div (v * vv + a * u * uu) c ;;
    let u := temp in
    uu <- mod_z u (Z.abs newc) ;;
    vv <- mod_z (- v) (Z.abs newc) ;;
    let c := newc in
    newc <- zz_div (vv * vv - a * uu * uu) c ;;
    Ok (inl (u, v, uu, vv, c, newc))
  else Ok (inr (u, v, c)).

(** sqfdecomp(a,a1,a2,plist,trace_fact), marith.cc lines 681-687 *)
Definition sqfdecomp_f (a : Z) : res (Z * Z * list Z) := sqfdecomp a (pdivs a).

Definition dsolver : Type := Z -> list Z -> Z -> list Z -> res (option tri).
(** solve_conic_diag_nontriv, lines 213-453 *)
Definition solve_conic_diag_nontriv (method : Z) (rec : dsolver) : dsolver := fun a aplist b bplist =>
  r <- modsqrt xgcd sqrrootmod a bplist ;;
  match r with
  | None => Ok None
  | Some x0 =>
      if method <? 3 then
        '(t, m11, m21, m33) <- diag_matrix method a b x0 ;;
        if t =? 1 then Ok (Some (m11, 1, m21))
        else
          '(t0, t1, tplist) <- sqfdecomp_f t ;;
          if t0 =? 1 then
            s <- cancel1 (m11, t1, m21) ;;
            s <- conic_diag_reduce a b s ;;
            Ok (Some s)
          else
            m33 <- zz_div m33 t1 ;;
            r <- rec a aplist t0 tplist ;;
            match r with
            | None => Ok None
            | Some (x1, y1, z1) =>
                s <- cancel1 (m11 * x1 + a * m21 * z1, m33 * y1, m21 * x1 + m11 * z1) ;;
                s <- conic_diag_reduce a b s ;;
                Ok (Some s)
            end
      else
        c <- zz_div (x0 * x0 - a) b ;;
        vv <- mod_z (- x0) c ;;
        newc <- zz_div (vv * vv - a * 1 * 1) c ;;
        '(u, v, c) <- while (meth3_step a) (zfuel c) (1, x0, 1, vv, c, newc) ;;
        '(t0, t1, tplist) <- sqfdecomp_f c ;;
        r <- rec a aplist t0 tplist ;;
        match r with
        | None => Ok None
        | Some (x1, y1, z1) =>
            s <- cancel1 (v * x1 + a * u * z1, t0 * t1 * y1, u * x1 + v * z1) ;;
            Ok (Some s)
        end
  end.
(** solve_conic_diag, lines 140-211 *)
Fixpoint solve_conic_diag (method : Z) (f : nat) (a : Z) (aplist : list Z) (b : Z) (bplist : list Z) : res (option tri) :=
  match f with
  | O => OutOfFuel
  | S f =>
      if b =? 1 then Ok (Some (1, 1, 0))
      else if a =? 1 then Ok (Some (1, 0, 1))
      else if Z.abs b <? Z.abs a then
        r <- solve_conic_diag method f b bplist a aplist ;;
        match r with None => Ok None | Some (x, z, y) => Ok (Some (x, y, z)) end
      else if - b =? 1 then Ok None
      else if b =? - a then Ok (Some (0, 1, 1))
      else if b =? a then
        r <- solve_conic_diag method f (-1) (pdivs 1) a aplist ;;
        match r with None => Ok None | Some (y, x, z) => Ok (Some (x * a, y, z)) end
      else solve_conic_diag_nontriv method (solve_conic_diag method f) a aplist b bplist
  end.

(** ** solve_conic *)
(** solve_conic(a,b,c,d,factorbase,x,y,z,method), lines 68-129.  [lll] is legendre_via_lll.  In the last
    branch the statement [zz<<=1] of line 117 changes a variable that is not used. *)
Definition solve_conic (lll : Z -> Z -> Z -> Z -> Z -> Z -> res tri) (f : nat) (a b c d : Z) (factorbase : list Z)
  (method : Z) : res (option tri) :=
  if 3 <? method then
    let use_lll := method =? 5 in
    if b =? 0 then legendre_solve xgcd sqrrootmod lll f a (- d) c factorbase use_lll
    else
      let aa := b * b - 4 * a * c in let bb := a * d in
      r <- legendre_solve xgcd sqrrootmod lll f 1 (- aa) (- bb) factorbase use_lll ;;
      match r with
      | None => Ok None
      | Some (x, z, y) => s <- cancel (x - b * z, y * a, z * (2 * a)) ;; Ok (Some s)
      end
  else
    let nondiag := negb (b =? 0) in
    let bb := a * d in
    let aa := - a * c in
    let aa := if nondiag then b * b - 4 * aa else aa in
    '(a1, a2, aplist) <- sqfdecomp aa factorbase ;;
    '(b1, b2, bplist) <- sqfdecomp bb factorbase ;;
    t <- testlocsol2 a1 aplist b1 bplist ;;
    if negb t then Ok None
    else
      r <- solve_conic_diag method f a1 aplist b1 bplist ;;
      match r with
      | None => Ok None
      | Some s =>
          '(x, y, z) <- conic_diag_reduce a1 b1 s ;;
          let x := x * (a2 * b2) in let y := y * a2 in let z := z * b2 in
          let x := if nondiag then x - b * z else x in
          let y := y * a in let z := z * a in
          s <- cancel (x, y, z) ;; Ok (Some s)
      end.
(** vector_union(a,b), templates.h lines 101-107: std::set_union, the merge of two sorted ranges *)
Fixpoint vector_union (l : list Z) : list Z -> list Z :=
  match l with
  | [] => fun m => m
  | x :: l' =>
      fix go (m : list Z) : list Z :=
        match m with
        | [] => x :: l'
        | y :: m' => if x <? y then x :: vector_union l' m else if y <? x then y :: go m' else x :: vector_union l' m'
        end
  end.
(** the wrapper solve_conic(a,b,c,d,x,y,z,method), lines 59-66 *)
Definition solve_conic_full lll (f : nat) (a b c d method : Z) : res (option tri) :=
  let fb := pdivs (2 * d) in
  let fb := vector_union fb (pdivs a) in
  let fb := vector_union fb (pdivs (if b =? 0 then c else b * b - 4 * a * c)) in
  solve_conic lll f a b c d fb method.
End Conic.
