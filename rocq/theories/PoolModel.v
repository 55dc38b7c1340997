(** Model of libsrc/threadpool.cc, eclib/threadpool.h and of the way the form
    search of libsrc/xsplit.cc uses it.  Interleaving semantics: one step of one
    thread at a time.

    boost::asio::io_service is modelled by its documented behaviour: a queue of
    posted handlers, a count of outstanding work (queued handlers, running
    handlers and one for the work object), and a flag [stopped].  run() returns
    at once if nothing is outstanding (setting [stopped]), otherwise it executes
    handlers until [stopped]; the flag is set by stop() and whenever the count
    becomes 0.  A handler may be taken from anywhere in the queue.  Exceptions
    thrown by handlers are not modelled. *)
From Coq Require Import ZArith List Bool.
Import ListNotations.

(** number of threads created by threadpool::start(numThreads,.), threadpool.cc
    lines 82-107, when hardware_concurrency() = hw; unsigned 32-bit arithmetic *)
Definition start_threads (numThreads hw : Z) : Z :=
  let threadCount := (if 0 <? numThreads then numThreads else hw)%Z in
  let threadCount := (if hw <? threadCount then hw else threadCount)%Z in
  ((threadCount - 1) mod 2 ^ 32)%Z.

Section Pool.
(** jobs, and what one stored result consists of *)
Variables J P M A : Type.
(** elementary actions of a thread: post a job (threadpool.h lines 57-67); the
    statements of form_finder::store, xsplit.cc lines 596-613 *)
Inductive act := Post (j : J) | Lock | PushP (x : P) | PushM (x : M) | PushA (x : A) | Inc | Unlock.
Definition store (p : P) (m : M) (a : A) : list act := [Lock; PushP p; PushM m; PushA a; Inc; Unlock].
Variable prog : J -> list act.

(** a thread inside io_service::run() *)
Inductive rst := RStart | RIdle | RBusy (j : J) (l : list act) | RExit.
(** the main thread: code before close(); work_.reset(); run(); stop(); join_all(); closed *)
Inductive mst := MCode (l : list act) | MReset | MRun (r : rst) | MStop | MJoin | MClosed.
Record st := St {
  queue : list J; nout : nat; work : bool; stopped : bool;
  owner : option nat;             (* holder of store_lock; 0 = main, i+1 = worker i *)
  gp : list P; gm : list M; ga : list A; cnt : nat;
  mainst : mst; ws : list rst;
  posted : list J; finished : list J   (* history, not read by any step *)
}.
Definition set_main (s : st) (m : mst) : st :=
  St (queue s) (nout s) (work s) (stopped s) (owner s) (gp s) (gm s) (ga s) (cnt s) m (ws s) (posted s) (finished s).
Fixpoint upd {X} (l : list X) (i : nat) (x : X) : list X :=
  match l, i with
  | [], _ => []
  | _ :: l, 0 => x :: l
  | y :: l, S i => y :: upd l i x
  end.
Definition set_w (s : st) (i : nat) (r : rst) : st :=
  St (queue s) (nout s) (work s) (stopped s) (owner s) (gp s) (gm s) (ga s) (cnt s) (mainst s) (upd (ws s) i r) (posted s) (finished s).

(** effect of an action of thread [t] on the shared state; None = blocked *)
Definition do_act (t : nat) (a : act) (s : st) : option st :=
  match a with
  | Post j => Some (St (queue s ++ [j]) (S (nout s)) (work s) (stopped s) (owner s) (gp s) (gm s) (ga s) (cnt s) (mainst s) (ws s) (posted s ++ [j]) (finished s))
  | Lock => match owner s with
            | None => Some (St (queue s) (nout s) (work s) (stopped s) (Some t) (gp s) (gm s) (ga s) (cnt s) (mainst s) (ws s) (posted s) (finished s))
            | Some _ => None
            end
  | PushP x => Some (St (queue s) (nout s) (work s) (stopped s) (owner s) (gp s ++ [x]) (gm s) (ga s) (cnt s) (mainst s) (ws s) (posted s) (finished s))
  | PushM x => Some (St (queue s) (nout s) (work s) (stopped s) (owner s) (gp s) (gm s ++ [x]) (ga s) (cnt s) (mainst s) (ws s) (posted s) (finished s))
  | PushA x => Some (St (queue s) (nout s) (work s) (stopped s) (owner s) (gp s) (gm s) (ga s ++ [x]) (cnt s) (mainst s) (ws s) (posted s) (finished s))
  | Inc => Some (St (queue s) (nout s) (work s) (stopped s) (owner s) (gp s) (gm s) (ga s) (S (cnt s)) (mainst s) (ws s) (posted s) (finished s))
  | Unlock => Some (St (queue s) (nout s) (work s) (stopped s) None (gp s) (gm s) (ga s) (cnt s) (mainst s) (ws s) (posted s) (finished s))
  end.
(** work finished: decrement the count, stop at 0 *)
Definition work_finished (s : st) : st :=
  St (queue s) (pred (nout s)) (work s) (stopped s || (pred (nout s) =? 0)%nat) (owner s) (gp s) (gm s) (ga s) (cnt s) (mainst s) (ws s) (posted s) (finished s).
Definition set_stopped (s : st) : st :=
  St (queue s) (nout s) (work s) true (owner s) (gp s) (gm s) (ga s) (cnt s) (mainst s) (ws s) (posted s) (finished s).
Definition drop_work (s : st) : st :=
  if work s then
    let s := work_finished s in
    St (queue s) (nout s) false (stopped s) (owner s) (gp s) (gm s) (ga s) (cnt s) (mainst s) (ws s) (posted s) (finished s)
  else s.
Definition set_queue (s : st) (q : list J) : st :=
  St q (nout s) (work s) (stopped s) (owner s) (gp s) (gm s) (ga s) (cnt s) (mainst s) (ws s) (posted s) (finished s).
Definition log_fin (s : st) (j : J) : st :=
  St (queue s) (nout s) (work s) (stopped s) (owner s) (gp s) (gm s) (ga s) (cnt s) (mainst s) (ws s) (posted s) (finished s ++ [j]).

(** one step of thread [t] inside run(), on the shared state and its own state *)
Inductive rstep (t : nat) : st -> rst -> st -> rst -> Prop :=
| r_none s : nout s = 0 -> rstep t s RStart (set_stopped s) RExit
| r_enter s : nout s <> 0 -> rstep t s RStart s RIdle
| r_leave s : stopped s = true -> rstep t s RIdle s RExit
| r_take s q1 j q2 : stopped s = false -> queue s = q1 ++ j :: q2 -> rstep t s RIdle (set_queue s (q1 ++ q2)) (RBusy j (prog j))
| r_act s j a l s' : do_act t a s = Some s' -> rstep t s (RBusy j (a :: l)) s' (RBusy j l)
| r_done s j : rstep t s (RBusy j []) (log_fin (work_finished s) j) RIdle.

Inductive step : st -> st -> Prop :=
| s_worker s i r s' r' : nth_error (ws s) i = Some r -> rstep (S i) s r s' r' -> step s (set_w s' i r')
| s_code s a l s' : mainst s = MCode (a :: l) -> do_act 0 a s = Some s' -> step s (set_main s' (MCode l))
| s_close s : mainst s = MCode [] -> step s (set_main s MReset)
| s_reset s : mainst s = MReset -> step s (set_main (drop_work s) (MRun RStart))
| s_run s r s' r' : mainst s = MRun r -> rstep 0 s r s' r' -> step s (set_main s' (MRun r'))
| s_ran s : mainst s = MRun RExit -> step s (set_main s MStop)
| s_stop s : mainst s = MStop -> step s (set_main (set_stopped s) MJoin)
| s_join s : mainst s = MJoin -> (forall r, In r (ws s) -> r = RExit) -> step s (set_main s MClosed).
Inductive steps : st -> st -> Prop :=
| steps_refl s : steps s s
| steps_step s s' s'' : steps s s' -> step s' s'' -> steps s s''.

(** after the constructor and start() with n worker threads, about to run [code] *)
Definition init (n : nat) (code : list act) : st :=
  St [] 1 true false None [] [] [] 0 (MCode code) (repeat RStart n) [] [].
(** a second start() after close(): new workers enter run(); then [code], then close() *)
Definition restart (n : nat) (code : list act) (s : st) : st :=
  St (queue s) (nout s) (work s) (stopped s) (owner s) (gp s) (gm s) (ga s) (cnt s) (MCode code) (repeat RStart n) (posted s) (finished s).
End Pool.
Arguments Post {J P M A}. Arguments Lock {J P M A}. Arguments PushP {J P M A}. Arguments PushM {J P M A}.
Arguments PushA {J P M A}. Arguments Inc {J P M A}. Arguments Unlock {J P M A}.
Arguments RStart {J P M A}. Arguments RIdle {J P M A}. Arguments RBusy {J P M A}. Arguments RExit {J P M A}.
Arguments MCode {J P M A}. Arguments MReset {J P M A}. Arguments MRun {J P M A}. Arguments MStop {J P M A}.
Arguments MJoin {J P M A}. Arguments MClosed {J P M A}. Arguments St {J P M A}.
Arguments queue {J P M A}. Arguments nout {J P M A}. Arguments work {J P M A}. Arguments stopped {J P M A}.
Arguments owner {J P M A}. Arguments gp {J P M A}. Arguments gm {J P M A}. Arguments ga {J P M A}.
Arguments cnt {J P M A}. Arguments mainst {J P M A}. Arguments ws {J P M A}. Arguments posted {J P M A}. Arguments finished {J P M A}.
