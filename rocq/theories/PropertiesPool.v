(** Thread pool and multithreaded search: C44 - C47, C60 *)
From Coq Require Import ZArith Lia List Bool Permutation.
From Verif Require Import PoolModel PoolProofs SearchModel SearchProofs.
Import ListNotations.

(** * C44: every job posted is executed exactly once *)
Theorem C44_exactly_once (J P M A : Type) (eq_dec : forall x y : J, {x = y} + {x <> y}) (prog : J -> list (act J P M A))
  (code : list (act J P M A)) (n : nat) (s : st J P M A) :
  steps J P M A prog (init J P M A n code) s -> mainst s = MClosed ->
  queue s = [] /\ (forall r, In r (ws s) -> r = RExit) /\ Permutation (finished s) (posted s) /\
  Permutation (posted s) (posts J P M A code ++ flat_map (fun j => posts J P M A (prog j)) (finished s)).
Proof.
  intros H Hm. destruct (closed_all _ _ _ _ prog code n s H Hm) as (Q & _ & W & F & O).
  assert (PF : Permutation (finished s) (posted s)) by exact (perm_sm eq_dec _ _ F).
  split; [exact Q|]. split; [exact W|]. split; [exact PF|]. apply (perm_sm eq_dec). intros f. rewrite sm_app, sm_flat, F. apply O.
Qed.
Print Assumptions C44_exactly_once.

(** no schedule deadlocks before close() has returned *)
Theorem C44_no_deadlock (J P M A : Type) (prog : J -> list (act J P M A)) (code : list (act J P M A))
  (Hp : forall j, wf J P M A (prog j)) (Hc : wf J P M A code) (n : nat) (s : st J P M A) (x0 : P * M * A) :
  steps J P M A prog (init J P M A n code) s -> mainst s <> MClosed -> exists s', step J P M A prog s s'.
Proof. exact (progress _ _ _ _ prog code Hp Hc n s x0). Qed.
Print Assumptions C44_no_deadlock.

(** if the jobs do not post jobs for ever, every schedule is finite *)
Theorem C44_terminates (J P M A : Type) (prog : J -> list (act J P M A)) (w : J -> nat)
  (Hw : forall j, 2 + sm (aw J P M A w) (prog j) <= w j) (s : st J P M A) :
  Acc (fun y x => step J P M A prog x y) s.
Proof. exact (terminates _ _ _ _ prog w Hw s). Qed.
Print Assumptions C44_terminates.

(** three jobs, one of them posting the two others, one worker *)
Definition ex_prog (j : nat) : list (act nat unit unit unit) := match j with 0 => [Post 1; Post 2] | _ => store _ _ _ _ tt tt tt end.
Example C44_wf_example : (forall j, wf _ _ _ _ (ex_prog j)) /\ wf nat unit unit unit [Post 0] /\
  forall j, 2 + sm (aw _ _ _ _ (fun j => match j with 0 => 20 | _ => 8 end)) (ex_prog j) <= match j with 0 => 20 | _ => 8 end.
Proof.
  split; [|split; [repeat constructor|]].
  - intros [|j]; cbn [ex_prog]; [repeat constructor|]. rewrite <- (app_nil_r (store _ _ _ _ tt tt tt)). repeat constructor.
  - intros [|j]; cbn; lia.
Qed.
(** hence close() does return, in every schedule *)
Example C44_closes_example : forall n, exists s, steps nat unit unit unit ex_prog (init _ _ _ _ n [Post 0]) s /\ mainst s = MClosed.
Proof.
  intros n. destruct C44_wf_example as (W1 & W2 & W3).
  assert (K : forall s, Acc (fun y x => step nat unit unit unit ex_prog x y) s -> steps _ _ _ _ ex_prog (init _ _ _ _ n [Post 0]) s ->
    exists s, steps nat unit unit unit ex_prog (init _ _ _ _ n [Post 0]) s /\ mainst s = MClosed).
  { intros s AC. induction AC as [s _ IH]. intros H. assert (D : mainst s = MClosed \/ mainst s <> MClosed) by (destruct (mainst s); (right; discriminate) || (left; reflexivity)).
    destruct D as [D|D]; [eauto|]. destruct (C44_no_deadlock _ _ _ _ ex_prog [Post 0] W1 W2 n s (tt, tt, tt) H D) as (s' & ST). apply (IH s' ST). eapply steps_step; eauto. }
  eapply K; [eapply C44_terminates; exact W3|constructor].
Qed.

(** * C45: restarting the pool.  False: after close() the job service stays
    stopped, start() does not reset it. *)
Theorem C45_restart_refuted : exists (s1 s2 : st nat unit unit unit),
  let prog := fun _ : nat => [] in
  steps _ _ _ _ prog (init _ _ _ _ 1 []) s1 /\ mainst s1 = MClosed /\
  steps _ _ _ _ prog (restart _ _ _ _ 1 [Post 7] s1) s2 /\ mainst s2 = MClosed /\ posted s2 = [7] /\ finished s2 = [].
Proof.
  exists (St [] 0 false true None [] [] [] 0 MClosed [RExit] [] []), (St [7] 1 false true None [] [] [] 0 MClosed [RExit] [7] []).
  cbv zeta. split; [|split; [reflexivity|split; [|auto]]].
  - (* main closes, then both threads leave run() *)
    eapply steps_step. 2: { apply s_join with (s := St [] 0 false true None [] [] [] 0 MJoin [RExit] [] []); [reflexivity|]. intros r [<-|[]]. reflexivity. }
    eapply steps_step. 2: { apply s_worker with (i := 0) (s := St [] 0 false true None [] [] [] 0 MJoin [RStart] [] []) (r := RStart) (s' := St [] 0 false true None [] [] [] 0 MJoin [RStart] [] []) (r' := RExit); [reflexivity|].
      exact (r_none _ _ _ _ _ 1 (St [] 0 false true None [] [] [] 0 MJoin [RStart] [] []) eq_refl). }
    eapply steps_step. 2: exact (s_stop _ _ _ _ _ (St [] 0 false true None [] [] [] 0 MStop [RStart] [] []) eq_refl).
    eapply steps_step. 2: exact (s_ran _ _ _ _ _ (St [] 0 false true None [] [] [] 0 (MRun RExit) [RStart] [] []) eq_refl).
    eapply steps_step. 2: exact (s_run _ _ _ _ _ (St [] 0 false true None [] [] [] 0 (MRun RStart) [RStart] [] []) RStart (St [] 0 false true None [] [] [] 0 (MRun RStart) [RStart] [] []) RExit eq_refl (r_none _ _ _ _ _ 0 (St [] 0 false true None [] [] [] 0 (MRun RStart) [RStart] [] []) eq_refl)).
    eapply steps_step. 2: exact (s_reset _ _ _ _ _ (St [] 1 true false None [] [] [] 0 MReset [RStart] [] []) eq_refl).
    eapply steps_step. 2: exact (s_close _ _ _ _ _ (St [] 1 true false None [] [] [] 0 (MCode []) [RStart] [] []) eq_refl).
    constructor.
  - eapply steps_step. 2: { apply s_join with (s := St [7] 1 false true None [] [] [] 0 MJoin [RExit] [7] []); [reflexivity|]. intros r [<-|[]]. reflexivity. }
    eapply steps_step. 2: exact (s_stop _ _ _ _ _ (St [7] 1 false true None [] [] [] 0 MStop [RExit] [7] []) eq_refl).
    eapply steps_step. 2: exact (s_ran _ _ _ _ _ (St [7] 1 false true None [] [] [] 0 (MRun RExit) [RExit] [7] []) eq_refl).
    eapply steps_step. 2: exact (s_run _ _ _ _ _ (St [7] 1 false true None [] [] [] 0 (MRun RIdle) [RExit] [7] []) RIdle (St [7] 1 false true None [] [] [] 0 (MRun RIdle) [RExit] [7] []) RExit eq_refl (r_leave _ _ _ _ _ 0 (St [7] 1 false true None [] [] [] 0 (MRun RIdle) [RExit] [7] []) eq_refl)).
    eapply steps_step. 2: exact (s_run _ _ _ _ _ (St [7] 1 false true None [] [] [] 0 (MRun RStart) [RExit] [7] []) RStart (St [7] 1 false true None [] [] [] 0 (MRun RStart) [RExit] [7] []) RIdle eq_refl (r_enter _ _ _ _ _ 0 (St [7] 1 false true None [] [] [] 0 (MRun RStart) [RExit] [7] []) (fun K : 1 = 0 => O_S 0 (eq_sym K)))).
    eapply steps_step. 2: exact (s_reset _ _ _ _ _ (St [7] 1 false true None [] [] [] 0 MReset [RExit] [7] []) eq_refl).
    eapply steps_step. 2: exact (s_close _ _ _ _ _ (St [7] 1 false true None [] [] [] 0 (MCode []) [RExit] [7] []) eq_refl).
    eapply steps_step. 2: exact (s_code _ _ _ _ _ (St [] 0 false true None [] [] [] 0 (MCode [Post 7]) [RExit] [] []) (Post 7) [] _ eq_refl eq_refl).
    eapply steps_step. 2: { apply s_worker with (i := 0) (s := St [] 0 false true None [] [] [] 0 (MCode [Post 7]) [RStart] [] []) (r := RStart) (s' := St [] 0 false true None [] [] [] 0 (MCode [Post 7]) [RStart] [] []) (r' := RExit); [reflexivity|].
      exact (r_none _ _ _ _ _ 1 (St [] 0 false true None [] [] [] 0 (MCode [Post 7]) [RStart] [] []) eq_refl). }
    constructor.
Qed.
Print Assumptions C45_restart_refuted.

(** it never works: no job is executed after the first close() has returned,
    whatever is posted and whatever the schedule *)
Theorem C45_no_job_after_close (J P M A : Type) (prog : J -> list (act J P M A)) (code code' : list (act J P M A)) (n n' : nat) (s1 s2 : st J P M A) :
  steps J P M A prog (init J P M A n code) s1 -> mainst s1 = MClosed ->
  steps J P M A prog (restart J P M A n' code' s1) s2 -> finished s2 = finished s1.
Proof.
  intros H Hm H'. pose proof (i_end _ _ _ _ _ _ _ (reach_inv _ _ _ _ prog code n s1 H)) as E. rewrite Hm in E.
  exact (proj2 (proj2 (restart_frozen _ _ _ _ prog n' code' s1 E s2 H'))).
Qed.
Print Assumptions C45_no_job_after_close.

(** * C46: retiring the nodes of the search tree *)
Definition ex_kd (v : list Z) : kind := match v with [] => Posting [5%Z] | [_] => Posting [1%Z; 2%Z] | _ => Leaf end.
Example C46_example : (forall v es, ex_kd v = Posting es -> NoDup es) /\ exists es, ex_kd [] = Posting es.
Proof.
  split; [|now exists [5%Z]]. intros v es. destruct v as [|a [|b v]]; cbn [ex_kd]; intros K; try discriminate; injection K as <-; repeat constructor; cbn; intuition discriminate.
Qed.
(** two threads finishing the two children of a node may both retire the node *)
Theorem C46_retired_once_refuted : exists s v i j,
  tsteps ex_kd (tinit ex_kd 2) s /\ v <> [] /\ i <> j /\ nth_error (pcs s) i = Some (PUp v) /\ nth_error (pcs s) j = Some (PUp v) /\ uaf s = false.
Proof.
  destruct (runs ex_kd (tinit ex_kd 2) (repeat 0 15 ++ repeat 1 8 ++ [0;1])) as [s|] eqn:E; [|vm_compute in E; discriminate].
  exists s, [5%Z], 0, 1. split; [exact (runs_steps _ _ _ _ E)|]. vm_compute in E. injection E as <-. repeat split; discriminate || reflexivity.
Qed.
Print Assumptions C46_retired_once_refuted.
(** and a freed node may be accessed: there, and by a thread that posted the
    children of its node and then reads its status *)
Theorem C46_no_access_after_free_refuted :
  (exists s, tsteps ex_kd (tinit ex_kd 2) s /\ uaf s = true) /\
  (exists s v, tsteps ex_kd (tinit ex_kd 2) s /\ nth_error (pcs s) 0 = Some (PStatus v) /\ In v (freed s)).
Proof.
  split.
  - destruct (runs ex_kd (tinit ex_kd 2) (repeat 0 15 ++ repeat 1 8 ++ [0;1] ++ [0;0;0;1])) as [s|] eqn:E; [|vm_compute in E; discriminate].
    exists s. split; [exact (runs_steps _ _ _ _ E)|]. vm_compute in E. injection E as <-. reflexivity.
  - destruct (runs ex_kd (tinit ex_kd 2) ([0;0;0;0;0;0] ++ repeat 1 9 ++ repeat 1 12)) as [s|] eqn:E; [|vm_compute in E; discriminate].
    exists s, [5%Z]. split; [exact (runs_steps _ _ _ _ E)|]. vm_compute in E. injection E as <-. split; [reflexivity|]. cbn. tauto.
Qed.
Print Assumptions C46_no_access_after_free_refuted.

(** with a single thread: never stuck, no access to a freed node, no node freed
    twice, and at the end exactly the nodes below which nothing is kept are freed *)
Theorem C46_one_thread_partial (kd : list Z -> kind) : (forall v es, kd v = Posting es -> NoDup es) -> (exists es, kd [] = Posting es) ->
  forall s, tsteps kd (tinit kd 1) s ->
  uaf s = false /\ NoDup (freed s) /\ ((jobs s = [] /\ pcs s = [PIdle]) \/ exists s', tstep kd s 0 s') /\
  (jobs s = [] -> pcs s = [PIdle] -> forall v, v <> [] -> (In v (freed s) <-> tree kd v /\ retirable kd v)).
Proof.
  intros H1 H2 s H. split; [|split; [exact (freed_nd kd H1 H2 s H)|split; [exact (one_progress kd H1 H2 s H)|exact (ended kd H1 H2 s H)]]].
  destruct (one_thread kd H1 H2 s H) as (p & made & I). exact (t_uaf _ _ _ _ I).
Qed.
Print Assumptions C46_one_thread_partial.

(** * C47: the results do not depend on the schedule (memory accesses of C46 apart) *)
Theorem C47_schedule (V : Type) (eqV : forall x y : V, {x = y} + {x <> y}) (subdim dimold : list Z -> Z) (eigrange : nat -> list Z)
  (bp bm : list Z -> V) (targetdim limit : Z) (mindepth maxdepth n : nat) (s : st (nat * list Z) V V (list Z)) (v0 : V) :
  steps _ _ _ _ (job V subdim dimold eigrange bp bm targetdim limit mindepth)
    (init _ _ _ _ n (par_find V subdim dimold eigrange bp bm targetdim limit mindepth maxdepth [])) s ->
  mainst s = MClosed ->
  length (gp s) = cnt s /\ length (gm s) = cnt s /\ length (ga s) = cnt s /\
  Permutation (combine (combine (gp s) (gm s)) (ga s)) (seq_find V subdim dimold eigrange bp bm targetdim mindepth maxdepth []).
Proof.
  intros H Hm. destruct (search_results V subdim dimold eigrange bp bm targetdim limit mindepth maxdepth n s H Hm v0) as (R & -> & -> & -> & -> & E).
  rewrite !map_length. repeat split; auto.
  assert (C : combine (combine (map (fun y : V * V * list Z => fst (fst y)) R) (map (fun y => snd (fst y)) R)) (map snd R) = R).
  { clear. induction R as [|[[a b] c] R IH]; cbn; congruence. }
  rewrite C. apply perm_sm; [|exact E]. intros x y. decide equality; [apply list_eq_dec, Z.eq_dec|decide equality].
Qed.
Print Assumptions C47_schedule.

(** and the search always ends, without deadlock *)
Theorem C47_ends (V : Type) (subdim dimold : list Z -> Z) (eigrange : nat -> list Z)
  (bp bm : list Z -> V) (targetdim limit : Z) (mindepth maxdepth n : nat) (s : st (nat * list Z) V V (list Z)) (v0 : V) :
  let jb := job V subdim dimold eigrange bp bm targetdim limit mindepth in
  steps _ _ _ _ jb (init _ _ _ _ n (par_find V subdim dimold eigrange bp bm targetdim limit mindepth maxdepth [])) s ->
  Acc (fun y x => step _ _ _ _ jb x y) s /\ (mainst s = MClosed \/ exists s', step _ _ _ _ jb s s').
Proof.
  intros jb H. split; [exact (terminates _ _ _ _ jb (jwt eigrange) (job_weight V subdim dimold eigrange bp bm targetdim limit mindepth) s)|].
  assert (D : mainst s = MClosed \/ mainst s <> MClosed) by (destruct (mainst s); (right; discriminate) || (left; reflexivity)).
  destruct D as [D|D]; [auto|]. right. refine (progress _ _ _ _ jb _ _ _ n s (v0, v0, []) H D); [intros j; apply job_wf|apply par_wf].
Qed.
Print Assumptions C47_ends.
(** a search with two results *)
Example C47_example : seq_find Z (fun v => match v with [] => 2%Z | [_] => 1%Z | _ => 0%Z end) (fun _ => 0%Z) (fun _ => [1; -1]%Z) (fun v => hd 0%Z v) (fun _ => 0%Z) 1 0 3 []
  = [(1, 0, [1]); (-1, 0, [-1])]%Z.
Proof. reflexivity. Qed.

(** * C60: number of worker threads *)
Theorem C60_threads_refuted : start_threads 0 0 = 4294967295%Z /\ start_threads 5 0 = 4294967295%Z.
Proof. split; reflexivity. Qed.
Print Assumptions C60_threads_refuted.
(** when hardware_concurrency() is known (non-zero) *)
Theorem C60_threads_partial numThreads hw : (0 <= numThreads < 2 ^ 32)%Z -> (1 <= hw < 2 ^ 32)%Z ->
  start_threads numThreads hw = ((if Z.eq_dec numThreads 0 then hw else Z.min numThreads hw) - 1)%Z /\ (0 <= start_threads numThreads hw < hw)%Z.
Proof.
  intros H1 H2. unfold start_threads. cbv zeta. destruct (Z.eq_dec numThreads 0) as [->|N].
  - cbn [Z.ltb Z.compare]. rewrite Z.ltb_irrefl, Z.mod_small by lia. lia.
  - destruct (Z.ltb_spec 0 numThreads); [|lia]. destruct (Z.ltb_spec hw numThreads); rewrite Z.mod_small by lia; lia.
Qed.
Print Assumptions C60_threads_partial.
Example C60_example : start_threads 4 8 = 3%Z. Proof. reflexivity. Qed.
