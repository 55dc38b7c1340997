(** Model of class IsogenyClass, isogs.cc lines 244-342 and 421-429, isogs.h lines 46-75,
    and of getelllist, isogs.cc lines 183-242.

    [lisog c l] stands for lisog(c,periods,l), line 38: for l = 2, 3 the functions of
    IsogModel, for other l a numerical computation with the periods; here a parameter.
    Sizes and indices are nat; output is left out. *)
From Coq Require Import ZArith List Bool Arith.
From Verif Require Import Base CurveModel.
Import ListNotations.

(** Curve::operator==, curve.h lines 90-92 *)
Definition ceqb (c d : curve) : bool :=
  (Z.eqb (a1 c) (a1 d) && Z.eqb (a2 c) (a2 d) && Z.eqb (a3 c) (a3 d) && Z.eqb (a4 c) (a4 d) && Z.eqb (a6 c) (a6 d))%bool.
Fixpoint upd {A} (l : list A) (n : nat) (x : A) : list A :=
  match l, n with [], _ => [] | _ :: l', O => x :: l' | y :: l', S k => y :: upd l' k x end.
Definition MAXNCURVES : nat := 26.
(** writing outside matij is undefined behaviour *)
Definition matset (m : list Z) (i j : nat) (l : Z) : res (list Z) :=
  if (i * MAXNCURVES + j <? length m)%nat then Ok (upd m (i * MAXNCURVES + j) l) else UB.
Definition mat_entry (m : list Z) (i j : nat) : Z := nth (i * MAXNCURVES + j) m 0%Z.

Record iclass := IC { curves : list curve; llist : list Z; ncurves : nat; fromlist : list nat; isoglist : list Z; matij : list Z }.

Section Class.
Variable lisog : curve -> Z -> list curve.

(** the constructor, lines 244-264; ncurves is not set there (0 here), grow sets it *)
Definition iclass_init (C : curve) (ells : list Z) : iclass := IC [C] ells 0%nat [0%nat] [0%Z] (repeat 0%Z (MAXNCURVES * MAXNCURVES)).

(** lines 295-305: the loop over the old curves *)
Fixpoint scan (newc : curve) (i : nat) (l : Z) (cs : list curve) (j : nat) (isnew : bool) (m : list Z) : res (bool * list Z) :=
  match cs with
  | [] => Ok (isnew, m)
  | c :: cs' =>
      if ceqb newc c then
        m1 <- matset m i j l ;;
        m2 <- matset m1 j i l ;;
        scan newc i l cs' (S j) false m2
      else scan newc i l cs' (S j) isnew m
  end.
(** lines 290-317: the body of the loop over lisogcurves *)
Definition add_one (i : nat) (l : Z) (newc : curve) (s : iclass) : res iclass :=
  '(isnew, m) <- scan newc i l (curves s) 0 true (matij s) ;;
  if (isnew : bool) then
    m1 <- matset m i (ncurves s) l ;;
    m2 <- matset m1 (ncurves s) i l ;;
    Ok (IC (curves s ++ [newc]) (llist s) (S (ncurves s)) (fromlist s ++ [i]) (isoglist s ++ [l]) m2)
  else Ok (IC (curves s) (llist s) (ncurves s) (fromlist s) (isoglist s) m).
Fixpoint add_all (i : nat) (l : Z) (cs : list curve) (s : iclass) : res iclass :=
  match cs with [] => Ok s | c :: cs' => s1 <- add_one i l c s ;; add_all i l cs' s1 end.
(** lines 272-318: the loop over llist, with lworks *)
Fixpoint ell_loop (thisc : curve) (i : nat) (ls : list Z) (s : iclass) : res (iclass * list bool) :=
  match ls with
  | [] => Ok (s, [])
  | l :: ls' =>
      let lc := lisog thisc l in
      s1 <- add_all i l lc s ;;
      '(s2, lw) <- ell_loop thisc i ls' s1 ;;
      Ok (s2, (match lc with [] => false | _ => true end) :: lw)
  end.
(** process, lines 266-330 *)
Definition process (i : nat) (s : iclass) : res iclass :=
  match nth_error (curves s) i with
  | None => UB
  | Some thisc =>
      '(s1, lworks) <- ell_loop thisc i (llist s) s ;;
      if Nat.eqb i 0 then
        let good := map fst (filter (fun p => snd p) (combine (llist s1) lworks)) in
        Ok (IC (curves s1) good (ncurves s1) (fromlist s1) (isoglist s1) (matij s1))
      else Ok s1
  end.
(** grow, lines 332-342 *)
Fixpoint grow_loop (fuel : nat) (ndone : nat) (s : iclass) : res iclass :=
  if (ndone <? ncurves s)%nat then
    match fuel with
    | O => OutOfFuel
    | S f => s1 <- process ndone s ;; grow_loop f (S ndone) s1
    end
  else Ok s.
Definition grow (fuel : nat) (s : iclass) : res iclass :=
  grow_loop fuel 0 (IC (curves s) (llist s) 1 (fromlist s) (isoglist s) (matij s)).
(** getmat, lines 421-429 *)
Definition getmat (s : iclass) : list Z :=
  flat_map (fun i => map (fun j => mat_entry (matij s) i j) (seq 0 (ncurves s))) (seq 0 (ncurves s)).
End Class.

(** comprat, lines 183-187 *)
Open Scope Z_scope.
Definition comprat (n1 d1 n2 d2 : Z) : bool := n1 * d2 =? n2 * d1.
(** getelllist, lines 189-242: [N] the conductor, [ss] the value of semistable(CR), c4 and
    the discriminant of the curve.  NTL's division of njay, djay by their gcd is exact *)
Definition getelllist (N : Z) (ss : bool) (c4 disc : Z) : list Z :=
  let ans := [2; 3; 5; 7] in
  if ss then ans
  else
    let ans := ans ++ [13] in
    let njay := c4 ^ 3 in
    let djay := disc in
    let g := Z.gcd njay djay in
    let '(njay, djay) := if g =? 1 then (njay, djay) else (njay / g, djay / g) in
    let '(njay, djay) := if djay <? 0 then (- njay, - djay) else (njay, djay) in
    if djay =? 1 then
      if (njay =? -32768) || (njay =? -121) || (njay =? -24729001) then ans ++ [11]
      else if (njay =? -9317) || (njay =? -162677523113838677) then ans ++ [37]
      else if njay =? -884736 then ans ++ [19]
      else if njay =? -884736000 then ans ++ [43]
      else if njay =? -147197952000 then ans ++ [67]
      else if njay =? -262537412640768000 then ans ++ [163]
      else ans
    else if (N mod 17 =? 0) && (comprat njay djay (-297756989) 2 || comprat njay djay (-882216989) 131072) then ans ++ [17]
    else ans.
