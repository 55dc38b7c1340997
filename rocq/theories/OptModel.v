(** Model of the command line scanner, class GetOpt, libsrc/GetOpt.cc and eclib/GetOpt.h.
    No proofs.

    A C string is the list of its characters without the final zero (a char is an integer);
    argv is a list of strings and argc its length.  nextchar is null or the rest of the
    string it points to.  The environment variable is not read: the ordering is a parameter.
    Messages on stderr are not modelled.  With strict, memcpy between overlapping blocks is
    undefined, as in the C standard; otherwise it moves the block. *)
From Coq Require Import ZArith List Bool.
From Verif Require Import Base.
Import ListNotations.
Open Scope Z_scope.
Open Scope res_scope.

Definition str := list Z.
(** GetOpt.h, enum OrderingEnum *)
Inductive order := Require_order | Permute | In_order.
Definition is_perm (o : order) : bool := match o with Permute => true | _ => false end.
(** the data members, with the static ones *)
Record go := Go { g_argv : list str; g_ind : Z; g_first : Z; g_last : Z; g_next : option str; g_arg : option str }.
(** constructor, lines 39-58 *)
Definition g_new (argv : list str) : go := Go argv 1 1 1 None None.
(** nargv[i] as a string; past the end there is only the null pointer *)
Definition g_at (l : list str) (i : Z) : res str := if i <? 0 then UB else match nth_error l (Z.to_nat i) with Some s => Ok s | None => UB end.
(** memcpy of n pointers inside argv *)
Definition g_copy (strict : bool) (l : list str) (d s n : Z) : res (list str) :=
  if (n <? 0) || (d <? 0) || (s <? 0) || (Z.of_nat (length l) <? d + n) || (Z.of_nat (length l) <? s + n) then UB
  else if strict && (0 <? n) && (Z.abs (d - s) <? n) then UB
  else Ok (firstn (Z.to_nat d) l ++ firstn (Z.to_nat n) (skipn (Z.to_nat s) l) ++ skipn (Z.to_nat (d + n)) l).
(** memcpy of a block into argv from another array *)
Definition g_paste (l : list str) (d : Z) (t : list str) : res (list str) :=
  if (d <? 0) || (Z.of_nat (length l) <? d + Z.of_nat (length t)) then UB
  else Ok (firstn (Z.to_nat d) l ++ t ++ skipn (Z.to_nat d + length t) l).
(** exchange, lines 60-81 *)
Definition g_exchange (strict : bool) (g : go) : res go :=
  let nn := g_last g - g_first g in
  if nn <? 0 then Die
  else if (g_first g <? 0) || (Z.of_nat (length (g_argv g)) <? g_last g) then UB
  else
    let temp := firstn (Z.to_nat nn) (skipn (Z.to_nat (g_first g)) (g_argv g)) in
    a <- g_copy strict (g_argv g) (g_first g) (g_last g) (g_ind g - g_last g) ;;
    a <- g_paste a (g_first g + g_ind g - g_last g) temp ;;
    Ok (Go a (g_ind g) (g_first g + (g_ind g - g_last g)) (g_ind g) (g_next g) (g_arg g)).
(** nargv[i][0] != '-' || nargv[i][1] == 0 *)
Definition nonopt (s : str) : bool := match s with c :: _ :: _ => negb (c =? 45) | _ => true end.
(** lines 138-141, the loop skipping non-options: the number of them in front *)
Fixpoint g_skip (l : list str) : Z := match l with s :: l => if nonopt s then 1 + g_skip l else 0 | [] => 0 end.
Definition dashes (s : str) : bool := match s with [a; b] => (a =? 45) && (b =? 45) | _ => false end.
(** lines 127-142, for PERMUTE *)
Definition g_prefix (strict : bool) (g : go) : res go :=
  g <- (if negb (g_first g =? g_last g) && negb (g_last g =? g_ind g) then g_exchange strict g
        else if negb (g_last g =? g_ind g) then Ok (Go (g_argv g) (g_ind g) (g_ind g) (g_last g) (g_next g) (g_arg g)) else Ok g) ;;
  let i := g_ind g + g_skip (skipn (Z.to_nat (g_ind g)) (g_argv g)) in
  Ok (Go (g_argv g) i (g_first g) i (g_next g) (g_arg g)).
(** lines 152-160, for the element "--" *)
Definition g_dashes (strict : bool) (g : go) : res go :=
  let argc := Z.of_nat (length (g_argv g)) in
  let g := Go (g_argv g) (g_ind g + 1) (g_first g) (g_last g) (g_next g) (g_arg g) in
  g <- (if negb (g_first g =? g_last g) && negb (g_last g =? g_ind g) then g_exchange strict g
        else if g_first g =? g_last g then Ok (Go (g_argv g) (g_ind g) (g_ind g) (g_last g) (g_next g) (g_arg g)) else Ok g) ;;
  Ok (Go (g_argv g) argc (g_first g) argc (g_next g) (g_arg g)).
(** lines 150-189: inl for a return, inr to go on with nextchar *)
Definition g_elem (strict : bool) (o : order) (g : go) : res ((Z * go) + go) :=
  let argc := Z.of_nat (length (g_argv g)) in
  dd <- (if g_ind g =? argc then Ok false else s <- g_at (g_argv g) (g_ind g) ;; Ok (dashes s)) ;;
  g <- (if (dd : bool) then g_dashes strict g else Ok g) ;;
  if g_ind g =? argc then
    Ok (inl (-1, if negb (g_first g =? g_last g) then Go (g_argv g) (g_first g) (g_first g) (g_last g) (g_next g) (g_arg g) else g))
  else
    s <- g_at (g_argv g) (g_ind g) ;;
    if nonopt s then
      match o with
      | Require_order => Ok (inl (-1, g))
      | _ => Ok (inl (0, Go (g_argv g) (g_ind g + 1) (g_first g) (g_last g) (g_next g) (Some s)))
      end
    else Ok (inr (Go (g_argv g) (g_ind g) (g_first g) (g_last g) (Some (tl s)) (g_arg g))).
Definition g_prep (strict : bool) (o : order) (g : go) : res ((Z * go) + go) :=
  g <- (if is_perm o then g_prefix strict g else Ok g) ;; g_elem strict o g.
(** strchr *)
Fixpoint strchr (s : str) (c : Z) : option str := match s with [] => None | x :: t => if x =? c then Some s else strchr t c end.
(** lines 194-253 *)
Definition g_char (opts : str) (g : go) : res (Z * go) :=
  match g_next g with
  | Some (c :: nx) =>
    let ind := if match nx with [] => true | _ => false end then g_ind g + 1 else g_ind g in
    match strchr opts c with
    | None => Ok (63, Go (g_argv g) ind (g_first g) (g_last g) (Some nx) (g_arg g))
    | Some temp =>
      if c =? 58 then Ok (63, Go (g_argv g) ind (g_first g) (g_last g) (Some nx) (g_arg g))
      else match temp with
      | _ :: 58 :: 58 :: _ =>
        match nx with
        | [] => Ok (c, Go (g_argv g) ind (g_first g) (g_last g) None None)
        | _ => Ok (c, Go (g_argv g) (ind + 1) (g_first g) (g_last g) None (Some nx))
        end
      | _ :: 58 :: _ =>
        match nx with
        | [] =>
          if ind =? Z.of_nat (length (g_argv g)) then Ok (63, Go (g_argv g) ind (g_first g) (g_last g) None (g_arg g))
          else s <- g_at (g_argv g) ind ;; Ok (c, Go (g_argv g) (ind + 1) (g_first g) (g_last g) None (Some s))
        | _ => Ok (c, Go (g_argv g) (ind + 1) (g_first g) (g_last g) None (Some nx))
        end
      | _ => Ok (c, Go (g_argv g) ind (g_first g) (g_last g) (Some nx) (g_arg g))
      end
    end
  | _ => UB
  end.
(** operator(), lines 120-255 *)
Definition g_call (strict : bool) (o : order) (opts : str) (g : go) : res (Z * go) :=
  match g_next g with
  | Some (_ :: _) => g_char opts g
  | _ => r <- g_prep strict o g ;; match r with inl p => Ok p | inr g => g_char opts g end
  end.
(** calls until EOF, as in options.h lines 88-113: the values returned with optarg *)
Inductive scans (strict : bool) (o : order) (opts : str) : go -> list (Z * option str) -> go -> Prop :=
| sc_end g g' : g_call strict o opts g = Ok (-1, g') -> scans strict o opts g [] g'
| sc_more g r g' l g'' : g_call strict o opts g = Ok (r, g') -> r <> -1 -> scans strict o opts g' l g'' -> scans strict o opts g ((r, g_arg g') :: l) g''.
(** calls before EOF one of which is undefined *)
Inductive crash (strict : bool) (o : order) (opts : str) : go -> Prop :=
| cr_now g : g_call strict o opts g = UB -> crash strict o opts g
| cr_more g r g' : g_call strict o opts g = Ok (r, g') -> r <> -1 -> crash strict o opts g' -> crash strict o opts g.
