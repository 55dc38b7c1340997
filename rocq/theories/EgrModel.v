(** Model of the component group code, libsrc/egr.cc.  The group of points is the
    abstract group of GrpModel; has_good_reduction(p) (for p = 0: lying on the real
    identity component) and ImageInComponentGroup_Im (lines 82-164, the map to Z/n for
    type I_n by the Tate curve) are functions good p P and im_Im p n P; ComponentGroup
    is a function cg from primes to lists.  Debugging output is left out. *)
From Coq Require Import ZArith List Bool.
From Verif Require Import Base ArithModel RatModel MArithModel CurveModel TateModel TamModel GrpModel.
Import ListNotations.
Open Scope Z_scope.

(** ComponentGroups::ComponentGroup, egr.cc lines 35-51; even() of a long *)
Definition ComponentGroup (E : curvedata) (l : list (Z * reduction)) (p : Z) : list Z :=
  if p =? 0 then [conncomp E]
  else match red_find l p with
       | None => [1]
       | Some d => if (Z.rem (kcode d) 10 =? 1) && Z.even (Z.quot (kcode d - 1) 10) then [2; 2] else [c_p d]
       end.

(** v[i] = x *)
Fixpoint lset {A} (i : nat) (x : A) (l : list A) : list A :=
  match l, i with
  | [], _ => []
  | _ :: l', O => x :: l'
  | y :: l', S i' => y :: lset i' x l'
  end.

Section Egr.
Variable g : grp.
Variable good : Z -> el g -> bool.
Variable im_Im : Z -> Z -> el g -> Z.
Variable cg : Z -> list Z.
Notation "P +' Q" := (gadd g P Q) (at level 50, left associativity).
Notation "P -' Q" := (gadd g P (gneg g Q)) (at level 50, left associativity).
Notation "n *' P" := (pt_mul g n P) (at level 40).
Notation "0'" := (gz g).

(** InSameComponent, lines 55-59 *)
Definition InSameComponent (P Q : el g) (p : Z) : bool := if geq g P Q then true else good p (P -' Q).

(** ImageInComponentGroup, lines 166-207 *)
Definition ImageInComponentGroup (P : el g) (p : Z) (grp : list Z) : Z :=
  match grp with
  | [n] => if n =? 1 then 0
           else if (n =? 2) || (n =? 3) then (if good p P then 0 else 1)
           else if n =? 4 then (if good p P then 0 else if good p (2 *' P) then 2 else 1)
           else im_Im p n P
  | _ => 0
  end.

(** OrderInComponentGroup, lines 218-244 (the call of gcd is Z.gcd, see C01) *)
Definition OrderInComponentGroup (P : el g) (p : Z) (grp : list Z) : Z :=
  match grp with
  | [n] => Z.quot n (Z.gcd n (ImageInComponentGroup P p grp))
  | _ => if good p P then 1 else 2
  end.

(** gr1prime, lines 252-451.  Non-cyclic case, lines 279-358: one turn of the loop on
    k; the state is the list of points, logm and Third; None is the error return 0.
    The points Plist[0], Plist[1] are read with a default that is never used. *)
Definition pt (L : list (el g)) (i : nat) : el g := nth i L 0'.
Definition nc_turn (p : Z) (k : nat) (s : list (el g) * nat * el g) : option (list (el g) * nat * el g) :=
  let '(L, logm, Third) := s in
  let Pk := pt L k in
  let j := OrderInComponentGroup Pk p [2; 2] in
  if negb (Z.rem 2 j =? 0) then None
  else if j =? 1 then Some s
  else match logm with
       | 0%nat => Some (if Nat.ltb 0 k then lset 0 Pk (lset k (pt L 0) L) else L, 1%nat, Third)
       | 1%nat =>
           if InSameComponent Pk (pt L 0) p then Some (lset k (Pk -' pt L 0) L, logm, Third)
           else let L := if Nat.ltb 1 k then lset 1 Pk (lset k (pt L 1) L) else L in
                Some (L, 2%nat, pt L 0 +' pt L 1)
       | _ =>
           if InSameComponent Pk (pt L 0) p then Some (lset k (Pk -' pt L 0) L, logm, Third)
           else if InSameComponent Pk (pt L 1) p then Some (lset k (Pk -' pt L 1) L, logm, Third)
           else if InSameComponent Pk Third p then Some (lset k (Pk -' Third) L, logm, Third)
           else None
       end.
Fixpoint nc_loop (p : Z) (ks : list nat) (s : list (el g) * nat * el g) : option (list (el g) * nat * el g) :=
  match ks with [] => Some s | k :: ks' => match nc_turn p k s with None => None | Some s' => nc_loop p ks' s' end end.
Definition gr1_noncyclic (L : list (el g)) (p : Z) : option (list (el g) * Z) :=
  match nc_loop p (seq 0 (length L)) (L, 0%nat, 0') with
  | None => None
  | Some (L, logm, _) =>
      let L := if Nat.ltb 0 logm then lset 0 (2 *' pt L 0) L else L in
      let L := if Nat.ltb 1 logm then lset 1 (2 *' pt L 1) L else L in
      Some (L, 2 ^ Z.of_nat logm)
  end.

(** line 404 *)
Definition sub_step (p : Z) (P0 P1 : el g) : res (el g + el g) :=
  if good p P1 then Ok (inr P1) else Ok (inl (P1 -' P0)).
(** line 422 *)
Definition u_step (p CGOrder : Z) (Q0 Q1 : el g) (s : Z * el g) : res (Z * el g + Z) :=
  let '(u, Q) := s in
  if (1 <? Z.gcd u CGOrder) || negb (InSameComponent Q Q1 p) then Ok (inl (u + 1, Q +' Q0)) else Ok (inr u).
(** cyclic case, lines 402-439: P0, P1 with images of orders n0 >= n1 are replaced by a
    point of order lcm(n0,n1) and a point of good reduction; the third component is m.
    u, a, b, g are long and n0, n1, m are int, so n0*n1 (line 436) is a product of ints *)
Definition cy_pair (p CGOrder : Z) (P0 P1 : el g) (n0 n1 m : Z) : res (el g * el g * Z) :=
  if Z.rem n0 n1 =? 0 then
    P1 <- while (sub_step p P0) (zfuel CGOrder) P1 ;; Ok (P0, P1, m)
  else
    let gg := Z.gcd n0 n1 in
    let Q0 := Z.quot n0 gg *' P0 in
    let Q1 := Z.quot n1 gg *' P1 in
    u <- while (u_step p CGOrder Q0 Q1) (zfuel CGOrder) (1, Q0) ;;
    un0 <- mul64 u n0 ;;
    '(gg, a, b) <- bezout_long un0 n1 ;;
    let newP0 := (b *' P0) +' (a *' P1) in
    let P1 := (Z.quot (- un0) gg *' P0) +' (Z.quot n1 gg *' P1) in
    nn <- mul32 n0 n1 ;;
    Ok (newP0, P1, Z.quot nn gg).
(** lines 373-440: one turn of the loop on j *)
Definition cy_turn (p CGOrder : Z) (j : nat) (s : list (el g) * Z) : res (list (el g) * Z) :=
  let '(L, m) := s in
  let P0 := pt L 0 in let P1 := pt L j in
  let n0 := m in
  let n1 := OrderInComponentGroup P1 p [CGOrder] in
  if n1 =? 1 then Ok s
  else
    '(P0, P1, m) <- (if n0 <? n1 then cy_pair p CGOrder P1 P0 n1 n0 n1 else cy_pair p CGOrder P0 P1 n0 n1 m) ;;
    Ok (lset j P1 (lset 0 P0 L), m).
Fixpoint cy_loop (p CGOrder : Z) (js : list nat) (s : list (el g) * Z) : res (list (el g) * Z) :=
  match js with [] => Ok s | j :: js' => s' <- cy_turn p CGOrder j s ;; cy_loop p CGOrder js' s' end.

(** gr1prime: the new list and the index; the error returns 0 give Die *)
Definition gr1prime (L : list (el g)) (p : Z) : res (list (el g) * Z) :=
  match L with
  | [] => Ok (L, 1)
  | P0 :: _ =>
      match cg p with
      | [n] => if n =? 1 then Ok (L, 1)
               else '(L, m) <- cy_loop p n (seq 1 (length L - 1)) (L, OrderInComponentGroup P0 p [n]) ;;
                    Ok (lset 0 (m *' pt L 0) L, m)
      | _ => match gr1_noncyclic L p with None => Die | Some r => Ok r end
      end
  end.
(** grprimes, lines 456-467 (the product of ints is taken in Z) *)
Fixpoint grprimes_from (L : list (el g)) (m : Z) (ps : list Z) : res (list (el g) * Z) :=
  match ps with
  | [] => Ok (L, m)
  | p :: ps' => '(L, mp) <- gr1prime L p ;; grprimes_from L (m * mp) ps'
  end.
Definition grprimes (L : list (el g)) (ps : list Z) : res (list (el g) * Z) := grprimes_from L 1 ps.
(** egr_subgroup, lines 472-482 *)
Definition egr_subgroup (bad : list Z) (conncomp : Z) (L : list (el g)) (real_too : bool) : res (list (el g) * Z) :=
  match L with
  | [] => Ok (L, 1)
  | _ => grprimes L (if real_too && (conncomp =? 2) then bad ++ [0] else bad)
  end.

(** MapPointsToComponentGroup, lines 589-681.  m = G.size() *)
Fixpoint first_one (i : nat) (images : list (list Z)) : option nat :=
  match images with [] => None | v :: r => if nth 0 v 0 =? 1 then Some i else first_one (S i) r end.
Fixpoint resign (p : Z) (P0 : el g) (L : list (el g)) (images : list (list Z)) : list (list Z) :=
  match L, images with
  | P :: L', v :: r => (if (nth 0 v 0 =? 1) && negb (InSameComponent P0 P p) then lset 0 (-1) v else v) :: resign p P0 L' r
  | _, _ => images
  end.
Fixpoint find_coset (p : Z) (Pk : el g) (i : nat) (reps : list (el g)) : option nat :=
  match reps with [] => None | R :: reps' => if InSameComponent Pk R p then Some i else find_coset p Pk (S i) reps' end.
(** ims[coset]; a fourth coset would be read outside the vector *)
Definition ims (coset : nat) : res (list Z) :=
  match coset with 0%nat => Ok [1; 0] | 1%nat => Ok [0; 1] | 2%nat => Ok [1; 1] | _ => UB end.
Fixpoint map_nc (p : Z) (L reps : list (el g)) : res (list (list Z)) :=
  match L with
  | [] => Ok []
  | Pk :: L' =>
      if good p Pk then r <- map_nc p L' reps ;; Ok ([0; 0] :: r)
      else match find_coset p Pk 0 reps with
           | Some c => v <- ims c ;; r <- map_nc p L' reps ;; Ok (v :: r)
           | None => v <- ims (length reps) ;; r <- map_nc p L' (reps ++ [Pk]) ;; Ok (v :: r)
           end
  end.
Definition MapPoints (L : list (el g)) (p : Z) : res (list (list Z)) :=
  let G := cg p in
  let m := Z.of_nat (length G) in
  match G with
  | [n] =>
      if n =? 1 then Ok (map (fun _ => [0]) L)
      else
        let images := map (fun P => [ImageInComponentGroup P p G]) L in
        if (m =? 3) || (m =? 4) then
          Ok (match first_one 0 images with
              | None => images
              | Some i0 => firstn (S i0) images ++ resign p (pt L i0) (skipn (S i0) L) (skipn (S i0) images)
              end)
        else Ok images
  | _ => map_nc p L []
  end.

(** comp_map_image, lines 694-800; matrix rows are lists, scalars are integers (their
    overflow is not modelled), columns are counted from 0 *)
Definition ent (j : nat) (r : list Z) : Z := nth j r 0.
(** lines 745-747 *)
Definition col_min (j : nat) (m : list (list Z)) (c : Z) : Z :=
  fold_left (fun c r => if negb (ent j r =? 0) && (Z.abs (ent j r) <? Z.abs c) then ent j r else c) m c.
(** lines 748, 771-775: the first row with the entry c *)
Fixpoint find_row (j : nat) (c : Z) (i : nat) (m : list (list Z)) : option nat :=
  match m with [] => None | r :: m' => if ent j r =? c then Some i else find_row j c (S i) m' end.
Definition row_sub (q : Z) (r piv : list Z) : list Z := map (fun ab => fst ab - q * snd ab) (combine r piv).
Definition row_rem (r moduli : list Z) : list Z := map (fun ab => Z.rem (fst ab) (snd ab)) (combine r moduli).
(** lines 740-765; the row of colmin itself is left alone by the loop *)
Definition min_step (j : nat) (s : list (list Z) * Z) : res (list (list Z) * Z + list (list Z) * Z) :=
  let '(m, c) := s in
  if 1 <? Z.abs c then
    let c := col_min j m c in
    match find_row j c 0 m with
    | None => UB
    | Some imin =>
        let piv := nth imin m [] in
        Ok (inl (map (fun r => if negb (Z.rem (ent j r) c =? 0)
                               then row_sub (Z.quot (ent j r - Z.rem (ent j r) c) c) r piv else r) m, c))
    end
  else Ok (inr (m, c)).
(** lines 776-784, 792-793 *)
Fixpoint clear_rows (j : nat) (c modulus : Z) (moduli piv : list Z) (imin i : nat) (m : list (list Z)) : list (list Z) :=
  match m with
  | [] => []
  | r :: m' =>
      (if Nat.eqb i imin then row_rem (map (fun x => modulus * x) r) moduli
       else row_rem (row_sub (ent j r * c) r piv) moduli)
      :: clear_rows j c modulus moduli piv imin (S i) m'
  end.
Definition map_col (j : nat) (f : Z -> Z) (m : list (list Z)) : list (list Z) := map (fun r => lset j (f (ent j r)) r) m.
Definition comp_col (moduli : list Z) (j : nat) (s : list (list Z) * Z) : res (list (list Z) * Z) :=
  let '(m, ans) := s in
  let modulus := ent j moduli in
  if modulus =? 1 then Ok s
  else
    let m := map_col j (fun x => Z.rem x modulus) m in
    let gg := fold_left (fun gg r => if gg =? 1 then gg else Z.gcd gg (ent j r)) m 0 in
    if gg =? 0 then Ok (m, ans)
    else
      let '(m, modulus) :=
        if 1 <? gg then
          let gm := Z.gcd gg modulus in
          let '(m, modulus, gg) :=
            if 1 <? gm then
              let md := Z.quot modulus gm in (map_col j (fun x => Z.rem (Z.quot x gm) md) m, md, Z.quot gg gm)
            else (m, modulus, gg) in
          if 1 <? gg then (map_col j (fun x => Z.rem (Z.quot x gg) modulus) m, modulus) else (m, modulus)
        else (m, modulus) in
      if modulus =? 1 then Ok (m, ans)
      else
        '(m, c) <- while (min_step j) (zfuel modulus) (m, modulus) ;;
        match find_row j c 0 m with
        | None => UB
        | Some imin => Ok (clear_rows j c modulus moduli (nth imin m []) imin 0 m, ans * modulus)
        end.
Fixpoint comp_cols (moduli : list Z) (js : list nat) (s : list (list Z) * Z) : res (list (list Z) * Z) :=
  match js with [] => Ok s | j :: js' => s' <- comp_col moduli j s ;; comp_cols moduli js' s' end.
Definition comp_map_image (moduli : list Z) (image : list (list Z)) : res Z :=
  '(_, ans) <- comp_cols moduli (seq 0 (length moduli)) (image, 1) ;; Ok ans.

(** egr_index, lines 489-576, after the passage to the minimal model: the columns of
    the matrix are the components of the images at the primes ps *)
Fixpoint index_matrix (L : list (el g)) (ps : list Z) : res (list (list Z) * list Z) :=
  match ps with
  | [] => Ok (map (fun _ => []) L, [])
  | p :: ps' =>
      im <- MapPoints L p ;;
      '(m, moduli) <- index_matrix L ps' ;;
      Ok (map (fun ab => fst ab ++ snd ab) (combine im m), cg p ++ moduli)
  end.
Definition egr_index (L : list (el g)) (ps : list Z) : res Z :=
  match L with
  | [] => Ok 1
  | _ => '(m, moduli) <- index_matrix L ps ;; comp_map_image moduli m
  end.
End Egr.
