(** Model of the search of libsrc/xsplit.cc (class form_finder) and of the data
    nodes of libsrc/xsplit_data.cc: which nodes are visited, what is stored, and
    how nodes are retired when several threads work on the tree. *)
From Coq Require Import ZArith List Bool.
From Verif Require Import PoolModel.
Import ListNotations.

(** ** what is searched and stored.  A node is the list of eigenvalues leading to
    it; the linear algebra (dimension of the eigenspace, dimension of its old
    part, basis vectors) enters as functions of the node. *)
Section Find.
Variable V : Type.
Variables (subdim dimold : list Z -> Z) (eigrange : nat -> list Z) (bp bm : list Z -> V).
Variables (targetdim limit : Z) (mindepth : nat).
Notation node := (list Z).
(** form_finder::find(data), xsplit.cc lines 483-592, without ECLIB_MULTITHREAD: the
    results stored, in order.  [k] = maxdepth - depth, so the test depth==maxdepth
    is k = 0. *)
Fixpoint seq_find (k : nat) (v : node) : list (V * V * node) :=
  if (dimold v =? subdim v)%Z then []
  else if (subdim v =? targetdim)%Z && (mindepth <? length v)%nat then [(bp v, bm v, v)]
  else match k with
       | O => []
       | S k => flat_map (fun e => let c := v ++ [e] in if (0 <? subdim c)%Z then seq_find k c else []) (eigrange (length v))
       end.
(** the same function with ECLIB_MULTITHREAD, lines 566-577: children of large
    nodes are posted, the others are searched by the same thread.  A job is a
    node with its distance to maxdepth. *)
Notation act := (act (nat * node) V V node).
Fixpoint par_find (k : nat) (v : node) : list act :=
  if (dimold v =? subdim v)%Z then []
  else if (subdim v =? targetdim)%Z && (mindepth <? length v)%nat then store _ _ _ _ (bp v) (bm v) v
  else match k with
       | O => []
       | S k => flat_map (fun e => let c := v ++ [e] in
                  if (limit <? subdim v)%Z then [Post (k, c)]
                  else if (0 <? subdim c)%Z then par_find k c else []) (eigrange (length v))
       end.
(** ff_data::operator(), xsplit_data.cc lines 75-93, without the memory management *)
Definition job (j : nat * node) : list act := let '(k, v) := j in if (0 <? subdim v)%Z then par_find k v else [].
End Find.

(** ** retiring nodes (ECLIB_MULTITHREAD).  [kind v] tells what find() does at node
    v: ends the branch (status set, or empty eigenspace), posts one job per
    eigenvalue, or searches below v in the same thread. *)
Inductive kind := Leaf | Posting (es : list Z) | Serial.
Section Retire.
Variable kd : list Z -> kind.
Notation node := (list Z).
Definition kids (v : node) : list node := match kd v with Posting es => map (fun e => v ++ [e]) es | _ => [] end.
Definition parent (v : node) : node := removelast v.
(** where a thread is inside ff_data::operator() / find() / go_up() *)
Inductive pc :=
| PIdle
| PGoDown (v : node)              (* operator(), line 78 *)
| PFind (v : node)                (* find(), line 485 *)
| PPost (v : node) (es : list Z)  (* loop of find(), lines 547-572 *)
| PStatus (v : node)              (* operator(), line 87: reads status_, subdim_ *)
| PUp (v : node)                  (* go_up(data), line 213: reads data.parent_ *)
| PLock (v : node)                (* line 217 *)
| PErase (v : node)               (* lines 227-228: reads data.eigenvalue_, deletes data *)
| PUnlock (p : node)              (* line 231 *)
| PCheck (p : node).              (* line 234: parent->complete(), parent->parent_ *)
Record ts := Ts { freed : list node; locked : list node; jobs : list node; pcs : list pc; uaf : bool (* a freed node was accessed *) }.
Definition isfreed (s : ts) (v : node) : bool := existsb (fun w => if list_eq_dec Z.eq_dec w v then true else false) (freed s).
Definition islocked (s : ts) (v : node) : bool := existsb (fun w => if list_eq_dec Z.eq_dec w v then true else false) (locked s).
(** ff_data::complete(): all children have been erased *)
Definition complete (s : ts) (v : node) : bool := forallb (isfreed s) (kids v).
Definition remove1 (v : node) (l : list node) : list node := filter (fun w => if list_eq_dec Z.eq_dec w v then false else true) l.
(** thread i moves to [q], having accessed the nodes [vs] *)
Definition move (s : ts) (i : nat) (vs : list node) (q : pc) : ts :=
  Ts (freed s) (locked s) (jobs s) (upd (pcs s) i q) (uaf s || existsb (isfreed s) vs).
Definition add_jobs (s : ts) (vs : list node) : ts := Ts (freed s) (locked s) (jobs s ++ vs) (pcs s) (uaf s).
Definition set_locked (s : ts) (l : list node) : ts := Ts (freed s) l (jobs s) (pcs s) (uaf s).
Definition free (s : ts) (v : node) : ts := Ts (v :: freed s) (locked s) (jobs s) (pcs s) (uaf s).
Inductive tstep (s : ts) (i : nat) : ts -> Prop :=
| t_take q1 v q2 : nth_error (pcs s) i = Some PIdle -> jobs s = q1 ++ v :: q2 ->
    tstep s i (move (Ts (freed s) (locked s) (q1 ++ q2) (pcs s) (uaf s)) i [] (PGoDown v))
| t_down v : nth_error (pcs s) i = Some (PGoDown v) -> tstep s i (move s i [v; parent v] (PFind v))
| t_find v : nth_error (pcs s) i = Some (PFind v) ->
    tstep s i (move s i [v; parent v] (match kd v with Posting es => PPost v es | _ => PStatus v end))
| t_post v e es : nth_error (pcs s) i = Some (PPost v (e :: es)) ->
    tstep s i (add_jobs (move s i [v] (PPost v es)) [v ++ [e]])
| t_posted v : nth_error (pcs s) i = Some (PPost v []) -> tstep s i (move s i [] (PStatus v))
| t_status v : nth_error (pcs s) i = Some (PStatus v) ->
    tstep s i (move s i [v] (match kd v with Leaf => PUp v | _ => PIdle end))
| t_up v : nth_error (pcs s) i = Some (PUp v) -> tstep s i (move s i [v] (PLock v))
| t_lock v : nth_error (pcs s) i = Some (PLock v) -> islocked s (parent v) = false ->
    tstep s i (set_locked (move s i [parent v] (PErase v)) (parent v :: locked s))
| t_erase v : nth_error (pcs s) i = Some (PErase v) ->
    tstep s i (free (move s i [v; parent v] (PUnlock (parent v))) v)
| t_unlock p : nth_error (pcs s) i = Some (PUnlock p) ->
    tstep s i (set_locked (move s i [p] (PCheck p)) (remove1 p (locked s)))
| t_check p : nth_error (pcs s) i = Some (PCheck p) ->
    tstep s i (move s i [p] (if complete s p && negb (match p with [] => true | _ => false end) then PUp p else PIdle)).
Inductive tsteps : ts -> ts -> Prop :=
| ts_refl s : tsteps s s
| ts_step s s' i s'' : tsteps s s' -> tstep s' i s'' -> tsteps s s''.
(** n threads, the children of the root have been posted (find(root), line 464) *)
Definition tinit (n : nat) : ts := Ts [] [] (kids []) (repeat PIdle n) false.
End Retire.
