(** Model of the group algorithms of pointsmod.cc: multiples, baby-step giant-step,
    order of a point, linear relations, merging of points, the structure of the group
    of points modulo q.  The group of points is abstract: a type with addition,
    negation, the point at infinity, an equality test and the x-coordinate (lifted to
    an integer); the coordinates are not modelled.  Integers are bigint (= Z).  The
    order stored in a pointmodq is left out: order_point always computes. *)
From Coq Require Import ZArith List Bool.
From Verif Require Import Base RatModel MArithModel.
Import ListNotations.
Open Scope Z_scope.

Record grp := Grp { el : Type; gadd : el -> el -> el; gneg : el -> el; gz : el; geq : el -> el -> bool; gx : el -> Z }.

Section Group.
Variable g : grp.
Notation "P +' Q" := (gadd g P Q) (at level 50, left associativity).
Notation "-' P" := (gneg g P) (at level 35, right associativity).
Notation "0'" := (gz g).
Definition is0 (P : el g) : bool := geq g P 0'.

(** operator* (bigint, pointmodq), pointsmod.cc lines 201-228; twice() is P + P *)
Fixpoint dbl_loop (n : positive) (Q ans : el g) : el g :=
  match n with
  | xH => ans
  | xO n' | xI n' => let Q := Q +' Q in dbl_loop n' Q (if Z.odd (Zpos n') then ans +' Q else ans)
  end.
Definition pt_mul (n : Z) (P : el g) : el g :=
  if is0 P || (n =? 0) then 0'
  else
    let r := match Z.abs n with
             | 1 => P
             | 2 => P +' P
             | Zpos m => dbl_loop m P (if Z.odd (Zpos m) then P else 0')
             | _ => 0'
             end in
    if n <? 0 then -' r else r.
Notation "n *' P" := (pt_mul n P) (at level 40).
Notation "P -' Q" := (P +' -' Q) (at level 50, left associativity).

(** my_bg_algorithm, lines 439-564; the check that the points lie on the same curve
    is left out *)
Definition MAX_BG_STEPS : Z := 3000000.
(** lines 475-490 *)
Definition bgs_step (P Q : el g) (upper : Z) (s : el g * Z) : res (el g * Z + Z) :=
  let '(H, h) := s in
  let H := H +' P in let h := h + 1 in
  if geq g H Q then Ok (inr h) else if h <=? upper then Ok (inl (H, h)) else Ok (inr (-1)).
(** lines 509-526: the table is a list, the newest entry first; the result is either
    the answer or the last multiple and the table *)
Definition baby_step (P H2 : el g) (lower nb : Z) (s : Z * el g * list (Z * Z)) :
    res (Z * el g * list (Z * Z) + (Z + el g * list (Z * Z))) :=
  let '(i, H, HT) := s in
  if i <=? nb then
    let H := H +' P in
    if geq g H H2 then Ok (inr (inl (lower + i)))
    else Ok (inl (i + 1, H, if is0 H then HT else (gx g H, i) :: HT))
  else Ok (inr (inr (H, HT))).
Fixpoint ht_find (HT : list (Z * Z)) (x : Z) : option Z :=
  match HT with [] => None | (y, i) :: HT' => if y =? x then Some i else ht_find HT' x end.
(** lines 536-563 *)
Definition giant_step (P H : el g) (HT : list (Z * Z)) (lower upper nb ng : Z) (s : Z * el g) : res (Z * el g + Z) :=
  let '(j, H2) := s in
  if j <=? ng then
    if is0 H2 then let h := lower + j * nb in Ok (inr (if h <=? upper then h else -1))
    else
      match ht_find HT (gx g H2) with
      | Some i => if geq g (i *' P) H2 then let h := lower + i + j * nb in Ok (inr (if h <=? upper then h else -1))
                  else Ok (inl (j + 1, H2 -' H))
      | None => Ok (inl (j + 1, H2 -' H))
      end
  else Ok (inr (-1)).
Definition bg_algorithm (P Q : el g) (lower upper : Z) : res Z :=
  if is0 P && negb (is0 Q) then Ok (-1)
  else if (lower =? 0) && is0 Q then Ok 0
  else if (lower <? 0) || (upper <? lower) then Ok (-1)
  else if upper - lower <? 30 then
    let H := lower *' P in
    if geq g H Q then Ok lower else while (bgs_step P Q upper) (zfuel (upper - lower)) (H, lower)
  else
    let h := 1 + Z.sqrt (upper - lower) in
    let nb := if MAX_BG_STEPS <? h then MAX_BG_STEPS else h in
    let H2 := Q -' lower *' P in
    r <- while (baby_step P H2 lower nb) (zfuel nb) (1, 0', []) ;;
    match r with
    | inl h => Ok h
    | inr (H, HT) =>
        q <- zz_div (upper - lower) nb ;;
        let ng := 1 + q in
        while (giant_step P H HT lower upper nb ng) (zfuel ng) (0, H2)
    end.

(** set_hasse_bounds, lines 645-652 *)
Definition hasse_bounds (q : Z) : Z * Z :=
  let u := Z.sqrt (4 * q) in
  let l := q + 1 - u in
  (if l <? 0 then 1 else l, q + 1 + u).

Section Oracles.
Variable pdivs : Z -> list Z.
Variable posdivs : Z -> list Z.

(** my_order_point(P,mult), lines 566-579 *)
Definition ord_step (p : Z) (s : el g * Z) : res (el g * Z + Z) :=
  let '(Q, ans) := s in if is0 Q then Ok (inr ans) else Ok (inl (p *' Q, ans * p)).
Fixpoint ord_primes (ps : list Z) (mult : Z) (P : el g) (ans : Z) : res Z :=
  match ps with
  | [] => Ok ans
  | p :: ps' =>
      '(m, _) <- divide_out mult p ;;
      ans <- while (ord_step p) (zfuel mult) (m *' P, ans) ;;
      ord_primes ps' mult P ans
  end.
Definition order_mult (P : el g) (mult : Z) : res Z :=
  if is0 P then Ok 1 else ord_primes (pdivs mult) mult P 1.
(** my_order_point(P,lower,upper), my_order_point(P), lines 581-592 *)
Definition order_bounds (P : el g) (lower upper : Z) : res Z :=
  m <- bg_algorithm P 0' lower upper ;; order_mult P m.
Definition order_point (q : Z) (P : el g) : res Z :=
  let '(l, u) := hasse_bounds q in order_bounds P l u.

(** linear_relation, lines 597-643: (m, a); sort is insertion into a sorted list *)
Fixpoint zins (x : Z) (l : list Z) : list Z :=
  match l with [] => [x] | y :: l' => if x <=? y then x :: l else y :: zins x l' end.
Definition zsort (l : list Z) : list Z := fold_right zins [] l.
Fixpoint lr_loop (P1 Q1 : el g) (gg : Z) (dl : list Z) (h a : Z) : res (Z * Z) :=
  match dl with
  | [] => Ok (h, a)
  | d :: dl' =>
      if a =? -1 then a <- bg_algorithm P1 (d *' Q1) 0 (gg - 1) ;; lr_loop P1 Q1 gg dl' d a
      else Ok (h, a)
  end.
Definition linear_relation (q : Z) (P Q : el g) : res (Z * Z) :=
  n <- order_point q P ;; m <- order_point q Q ;;
  let gg := Z.gcd n m in
  if gg =? 1 then Ok (gg, 0)
  else
    n1 <- zz_div n gg ;; m1 <- zz_div m gg ;;
    '(h, a) <- lr_loop (n1 *' P) (m1 *' Q) gg (zsort (posdivs gg)) gg (-1) ;;
    let a := a * n1 in let m := h * m1 in
    Ok (if geq g (m *' Q) (a *' P) then m else 0, a).

(** tidy_lcm, lines 657-684: (m, n, l) *)
Definition tidy_step (s : Z * Z) : res (Z * Z + Z) :=
  let '(m, gg) := s in
  if gg =? 1 then Ok (inr m) else m <- zz_div m gg ;; Ok (inl (m, Z.gcd m gg)).
Definition tidy_lcm (m n : Z) : res (Z * Z * Z) :=
  let gg := Z.gcd m n in
  l <- zz_div (m * n) gg ;;
  n' <- zz_div n gg ;;
  m <- while tidy_step (zfuel m) (m, Z.gcd m n') ;;
  n <- zz_div l m ;;
  Ok (m, n, l).

(** merge_points_1, lines 690-735: (P, ordP) *)
Definition merge1 (q : Z) (P : el g) (ordP : Z) (Q : el g) : res (el g * Z) :=
  if is0 (ordP *' Q) then Ok (P, ordP)
  else
    ordQ <- order_point q Q ;;
    r <- zz_mod ordQ ordP ;;
    if r =? 0 then Ok (Q, ordQ)
    else
      '(nP, nQ, nPQ) <- tidy_lcm ordP ordQ ;;
      x <- zz_div ordP nP ;; y <- zz_div ordQ nQ ;;
      Ok (x *' P +' y *' Q, nPQ).

(** merge_points_2, lines 746-852: (P1, n1, P2, n2, n2target).  The order of the Weil
    pairing of order n of two points (lines 815-830) is a parameter *)
Variable wpo : Z -> el g -> el g -> Z.
Definition merge2 (q : Z) (P1 : el g) (n1 : Z) (P2 : el g) (n2 n2t : Z) (Q : el g) : res (el g * Z * el g * Z * Z) :=
  let Q1 := n2 *' Q in
  if is0 Q1 then Ok (P1, n1, P2, n2, n2t)
  else
    x <- zz_div n1 n2 ;;
    if negb (is0 (x *' Q1)) then
      '(P1', n1') <- merge1 q P1 n1 Q ;;
      t <- zz_div (n2t * n1) n1' ;;
      Ok (P1', n1', (if 1 <? n2 then 0' else P2), (if 1 <? n2 then 1 else n2), t)
    else
      x <- zz_div n1 n2t ;;
      a <- bg_algorithm (n2t *' P1) (n2t *' Q) 0 x ;;
      if a =? -1 then Ok (P1, n1, P2, n2, n2t)
      else
        let Q := Q -' a *' P1 in
        if is0 Q then Ok (P1, n1, P2, n2, n2t)
        else
          let m := wpo n2t (x *' P1) Q in
          l <- lcm_z n2 m ;;
          if l =? n2 then Ok (P1, n1, P2, n2, n2t)
          else
            ordQ <- order_mult Q n2t ;;
            y <- zz_div ordQ m ;;
            let Q1 := y *' Q in
            if l =? m then Ok (P1, n1, Q1, m, n2t)
            else
              '(n2d, md, l) <- tidy_lcm n2 m ;;
              u <- zz_div n2 n2d ;; v <- zz_div m md ;;
              Ok (P1, n1, u *' P2 +' v *' Q1, l, n2t).

(** n2list, lines 857-866 *)
Definition n2list (n1 lower upper q : Z) : res (list Z) :=
  n2min <- zz_div lower n1 ;; n2max <- zz_div upper n1 ;;
  let gg := Z.gcd n1 (q - 1) in
  let n2min := if n2min * n1 <? lower then n2min + 1 else n2min in
  Ok (filter (fun n2 => if n2 =? 0 then gg =? 0 else gg mod n2 =? 0)
        (map (fun k => n2min + Z.of_nat k) (seq 0 (Z.to_nat (n2max - n2min + 1))))).

(** my_isomorphism_type, lines 901-1012.  [rnd] is the sequence of random points,
    [known] the group order when it is computed in advance, [tt T] the other point of
    order 2 found from the 2-division polynomial (lines 967-998) *)
Variable rnd : nat -> el g.
Variable tt : el g -> option (el g).
Section Iso.
Variables (q lower upper : Z) (known : bool).
Definition iso1_step (s : nat * Z * el g * Z * list Z) : res (nat * Z * el g * Z * list Z + nat * el g * Z * list Z) :=
  let '(k, n, P, ordP, ql) := s in
  if (n <=? 10) && (2 * ordP <=? upper) || negb (Z.of_nat (length ql) =? 1) then
    '(P, ordP) <- merge1 q P ordP (rnd k) ;;
    ql <- n2list ordP lower upper q ;;
    Ok (inl (S k, n + 1, P, ordP, ql))
  else Ok (inr (k, P, ordP, ql)).
(** the first generator and the list of possible indices *)
Definition iso_phase1 (f : nat) : res (nat * el g * Z * list Z) :=
  let P := rnd 0%nat in
  ordP <- (if known then order_mult P lower else order_bounds P lower upper) ;;
  ql <- n2list ordP lower upper q ;;
  while iso1_step f (1%nat, 1, P, ordP, ql).
Definition iso2_step (s : nat * el g * Z * el g * Z * Z) : res (nat * el g * Z * el g * Z * Z + el g * Z * el g * Z) :=
  let '(k, P1, n1, P2, n2, quot) := s in
  if n2 =? quot then Ok (inr (P1, n1, P2, n2))
  else
    '(P1, n1, P2, n2, quot) <- merge2 q P1 n1 P2 n2 quot (rnd k) ;;
    Ok (inl (S k, P1, n1, P2, n2, quot)).
Definition iso_phase2 (f : nat) (k : nat) (P1 : el g) (n1 quot : Z) : res (el g * Z * el g * Z) :=
  if quot =? 1 then Ok (P1, n1, 0', 1)
  else
    '(P2, n2) <- (if Z.even quot then
                    h <- zz_div n1 2 ;;
                    Ok (match tt (h *' P1) with Some T => (T, 2) | None => (0', 1) end)
                  else Ok (0', 1)) ;;
    while iso2_step f (k, P1, n1, P2, n2, quot).
End Iso.
Definition isomorphism_type (q : Z) (known : option Z) (f1 f2 : nat) : res (el g * Z * el g * Z) :=
  let '(lower, upper) := match known with Some N => (N, N) | None => hasse_bounds q end in
  '(k, P, n1, ql) <- iso_phase1 q lower upper (match known with Some _ => true | None => false end) f1 ;;
  iso_phase2 q f2 k P n1 (hd 0 ql).
End Oracles.
End Group.
