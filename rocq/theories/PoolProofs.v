(** Proofs about PoolModel: every interleaving. *)
From Coq Require Import ZArith List Bool Lia Permutation Arith.
From Verif Require Import PoolModel.
Import ListNotations.

(** ** sums over lists *)
Fixpoint sm {X} (f : X -> nat) (l : list X) : nat := match l with [] => 0 | x :: l => f x + sm f l end.
Lemma sm_app {X} (f : X -> nat) l m : sm f (l ++ m) = sm f l + sm f m.
Proof. induction l; cbn [sm app]; lia. Qed.
Lemma sm_flat {X Y} (f : Y -> nat) (g : X -> list Y) l : sm f (flat_map g l) = sm (fun x => sm f (g x)) l.
Proof. induction l; cbn [sm flat_map]; [reflexivity|]. rewrite sm_app. lia. Qed.
Lemma sm_len {X} (l : list X) : sm (fun _ => 1) l = length l.
Proof. induction l; cbn [sm length]; lia. Qed.
Lemma sm_plus {X} (f g : X -> nat) l : sm (fun x => f x + g x) l = sm f l + sm g l.
Proof. induction l; cbn [sm]; lia. Qed.
Lemma sm_ext {X} (f g : X -> nat) l : (forall x, f x = g x) -> sm f l = sm g l.
Proof. intros H. induction l; cbn [sm]; [reflexivity|]. now rewrite H, IHl. Qed.
Lemma sm_map {X Y} (f : Y -> nat) (g : X -> Y) l : sm f (map g l) = sm (fun x => f (g x)) l.
Proof. induction l; cbn [sm map]; lia. Qed.
Lemma upd_split {X} (l : list X) i x : nth_error l i = Some x -> exists l1 l2, l = l1 ++ x :: l2 /\ length l1 = i /\ forall y, upd l i y = l1 ++ y :: l2.
Proof.
  revert i. induction l as [|a l IH]; intros [|i] H; cbn in H; try discriminate.
  - injection H as ->. exists [], l. auto.
  - destruct (IH i H) as (l1 & l2 & E & L & U). exists (a :: l1), l2. split; [cbn; now f_equal|]. split; [cbn; lia|]. intros y. cbn. now rewrite U.
Qed.
Lemma sm_upd {X} (f : X -> nat) l i x y : nth_error l i = Some x -> sm f (upd l i y) + f x = sm f l + f y.
Proof. intros H. destruct (upd_split l i x H) as (l1 & l2 & E & _ & U). rewrite U, E, !sm_app. cbn [sm]. lia. Qed.
Lemma upd_length {X} (l : list X) i y : length (upd l i y) = length l.
Proof. revert i. induction l; intros [|i]; cbn; auto. Qed.
Lemma nth_upd {X} (l : list X) i j y : nth_error (upd l i y) j = if Nat.eqb i j then (match nth_error l j with Some _ => Some y | None => None end) else nth_error l j.
Proof. revert i j. induction l; intros [|i] [|j]; cbn; auto. now destruct (i =? j)%nat. Qed.
Lemma count_sm {X} (d : forall x y : X, {x = y} + {x <> y}) l x : count_occ d l x = sm (fun y => if d y x then 1 else 0) l.
Proof. induction l as [|a l IH]; cbn [count_occ sm]; [reflexivity|]. destruct (d a x); lia. Qed.
Lemma perm_sm {X} (d : forall x y : X, {x = y} + {x <> y}) (l m : list X) : (forall f, sm f l = sm f m) -> Permutation l m.
Proof. intros H. apply (Permutation_count_occ d). intros x. rewrite !count_sm. apply H. Qed.

Section Pool.
Variables J P M A : Type.
Notation act := (act J P M A).
Notation st := (st J P M A).
Notation rst := (rst J P M A).
Notation store := (store J P M A).
Variable prog : J -> list act.
Notation step := (step J P M A prog).
Notation rstep := (rstep J P M A prog).
Notation steps := (steps J P M A prog).
Notation do_act := (do_act J P M A).

(** posts and results in a list of actions *)
Fixpoint posts (l : list act) : list J := match l with [] => [] | Post j :: l => j :: posts l | _ :: l => posts l end.
Fixpoint stored (l : list act) : list (P * M * A) :=
  match l with
  | [] => []
  | Lock :: PushP p :: PushM m :: PushA a :: Inc :: Unlock :: l => (p, m, a) :: stored l
  | _ :: l => stored l
  end.
(** code made of posts and calls of store *)
Inductive wf : list act -> Prop :=
| wf_nil : wf []
| wf_post j l : wf l -> wf (Post j :: l)
| wf_store p m a l : wf l -> wf (store p m a ++ l).

Definition rrest (r : rst) : list act := match r with RBusy _ l => l | _ => [] end.
Definition mrest (m : mst J P M A) : list act := match m with MCode l => l | MRun r => rrest r | _ => [] end.
Definition rjob (r : rst) : list J := match r with RBusy j _ => [j] | _ => [] end.
Definition mjob (m : mst J P M A) : list J := match m with MRun r => rjob r | _ => [] end.
Definition busy (s : st) : list J := mjob (mainst s) ++ flat_map rjob (ws s).
Definition rests (s : st) : list (list act) := mrest (mainst s) :: map rrest (ws s).

(** ** bookkeeping of jobs *)
Section Jobs.
Variable code : list act.
Record inv (s : st) : Prop := {
  i_out : nout s = length (queue s) + length (busy s) + (if work s then 1 else 0);
  i_jobs : forall f, sm f (posted s) = sm f (queue s) + sm f (busy s) + sm f (finished s);
  i_posts : forall f, sm f (posted s) + sm (fun l => sm f (posts l)) (rests s) = sm f (posts code) + sm (fun j => sm f (posts (prog j))) (busy s ++ finished s);
  i_stop : stopped s = true -> nout s = 0;
  i_work : work s = true <-> (match mainst s with MCode _ | MReset => True | _ => False end);
  i_end : match mainst s with MRun RExit | MStop | MJoin | MClosed => stopped s = true | _ => True end;
  i_closed : mainst s = MClosed -> forall r, In r (ws s) -> r = RExit
}.
Lemma sm_repeat {X} (f : X -> nat) x n : f x = 0 -> sm f (repeat x n) = 0.
Proof. intros H. induction n; cbn [repeat sm]; lia. Qed.
Lemma inv_init n : inv (init J P M A n code).
Proof.
  assert (B : busy (init J P M A n code) = []) by (unfold busy, init; cbn; induction n; cbn; auto).
  constructor; try rewrite B; cbn [init nout queue work posted finished stopped mainst ws rests sm app length]; auto; try discriminate; try tauto.
  - intros f. unfold rests. cbn [mainst ws init sm mrest]. rewrite sm_map. rewrite (sm_repeat (fun x => sm f (posts (rrest x))) RStart n); [lia|reflexivity].
Qed.
(** what a step inside run() does to the job accounting; [w] = the other threads *)
Definition rinv (s : st) (r : rst) (ob : list J) (orst : list (list act)) : Prop :=
  nout s = length (queue s) + length (rjob r ++ ob) + (if work s then 1 else 0) /\
  (forall f, sm f (posted s) = sm f (queue s) + sm f (rjob r ++ ob) + sm f (finished s)) /\
  (forall f, sm f (posted s) + (sm f (posts (rrest r)) + sm (fun l => sm f (posts l)) orst) = sm f (posts code) + sm (fun j => sm f (posts (prog j))) ((rjob r ++ ob) ++ finished s)) /\
  (stopped s = true -> nout s = 0) /\ (r = RExit -> stopped s = true).
Lemma rstep_inv t s r s' r' ob orst : rstep t s r s' r' -> rinv s r ob orst -> rinv s' r' ob orst /\ work s' = work s /\ mainst s' = mainst s /\ ws s' = ws s /\
  (stopped s = true -> stopped s' = true) .
Proof.
  intros H (I1 & I2 & I3 & I4 & I5). destruct H as [s H|s H|s H|s q1 j q2 H HQ|s j a l s' H|s j].
  - unfold rinv. cbn [set_stopped nout queue work posted finished stopped mainst ws rjob rrest app] in *. auto 10.
  - unfold rinv. cbn [rjob rrest app] in *. repeat split; auto. discriminate.
  - unfold rinv. cbn [rjob rrest app] in *. auto 10.
  - unfold rinv. cbn [set_queue nout queue work posted finished stopped mainst ws rjob rrest app length] in *. rewrite HQ in I1, I2. rewrite !app_length in *. cbn [length] in *.
    split; [split; [lia|]; split; [|split; [|split; [auto|discriminate]]]|auto].
    + intros f. specialize (I2 f). rewrite !sm_app in *. cbn [sm] in *. lia.
    + intros f. specialize (I3 f). rewrite !sm_app in *. cbn [sm posts] in *. rewrite sm_app. lia.
  - assert (N0 : stopped s = false) by (destruct (stopped s); [specialize (I4 eq_refl); cbn [rjob app length] in I1; lia|reflexivity]).
    destruct a; cbn [do_act] in H; try (injection H as <-); try (destruct (owner s); [discriminate|injection H as <-]); unfold rinv;
      cbn [nout queue work posted finished stopped mainst ws rjob rrest app length posts] in *; (split; [|auto]); rewrite ?app_length in *; cbn [length] in *;
      (split; [lia|]; split; [intros f; specialize (I2 f); rewrite ?sm_app in *; cbn [sm] in *; lia|]; split; [intros f; specialize (I3 f); rewrite ?sm_app in *; cbn [sm] in *; rewrite ?sm_app in *; lia|]; split; [congruence|discriminate]).
  - unfold rinv. cbn [log_fin work_finished nout queue work posted finished stopped mainst ws rjob rrest app length posts sm] in *.
    split; [split; [lia|]; split; [|split; [|split; [|discriminate]]]|].
    + intros f. specialize (I2 f). rewrite !sm_app in *. cbn [sm] in *. lia.
    + intros f. specialize (I3 f). rewrite !sm_app in *. cbn [sm] in *. lia.
    + intros K. apply orb_true_iff in K. destruct K as [K|K]; [specialize (I4 K); lia|]. now apply Nat.eqb_eq in K.
    + repeat split; auto. intros ->. reflexivity.
Qed.
Lemma do_act_frame t a s s' : do_act t a s = Some s' -> mainst s' = mainst s /\ ws s' = ws s /\ work s' = work s /\ stopped s' = stopped s /\ finished s' = finished s.
Proof. destruct a; cbn [do_act]; intros H; try (injection H as <-; auto 10); destruct (owner s); [discriminate|injection H as <-; auto 10]. Qed.
Lemma step_inv s s' : step s s' -> inv s -> inv s'.
Proof.
  intros H [I1 I2 I3 I4 I5 I6 I7]. destruct H as [s i r s' r' Hr H|s a l s' Hm H|s Hm|s Hm|s r s' r' Hm H|s Hm|s Hm|s Hm HA].
  - destruct (upd_split _ _ _ Hr) as (l1 & l2 & EW & _ & U).
    assert (RI : rinv s r (mjob (mainst s) ++ flat_map rjob (l1 ++ l2)) (mrest (mainst s) :: map rrest (l1 ++ l2))).
    { unfold rinv. split; [rewrite I1; unfold busy; rewrite EW, !flat_map_app, !app_length; cbn [flat_map]; rewrite !app_length; lia|]. split.
      { intros f. rewrite (I2 f). unfold busy. rewrite EW, !flat_map_app, !sm_app. cbn [flat_map]. rewrite !sm_app. lia. } split.
      { intros f. specialize (I3 f). unfold busy, rests in I3. rewrite EW, !flat_map_app, !sm_app in I3. rewrite !sm_app, !flat_map_app. cbn [flat_map sm map] in *. rewrite ?map_app, ?sm_app in *. cbn [map sm] in *. rewrite ?sm_app in *. lia. }
      split; [exact I4|]. intros ->. inversion H. }
    destruct (rstep_inv _ _ _ _ _ _ _ H RI) as ((J1 & J2 & J3 & J4 & J5) & W & Mn & Ws & Sp).
    constructor; unfold busy, rests, set_w; cbn [nout queue work posted finished stopped mainst ws]; rewrite ?Mn, ?Ws, ?U, ?W.
    + rewrite J1, W. rewrite !flat_map_app, !app_length. cbn [flat_map]. rewrite !app_length. lia.
    + intros f. rewrite (J2 f). rewrite !flat_map_app, !sm_app. cbn [flat_map]. rewrite !sm_app. lia.
    + intros f. specialize (J3 f). rewrite !flat_map_app, !sm_app in J3. rewrite !sm_app, !flat_map_app. cbn [flat_map sm map] in *. rewrite ?map_app, ?sm_app in *. cbn [map sm] in *. rewrite ?sm_app in *. lia.
    + exact J4.
    + exact I5.
    + destruct (mainst s) as [| |[]| | |]; auto.
    + intros K. specialize (I7 K). exfalso. rewrite EW in I7. specialize (I7 r (in_elt _ _ _)). subst r. inversion H.
  - assert (N0 : stopped s = false /\ nout s <> 0). { rewrite Hm in I5. destruct I5 as [_ I5]. rewrite (I5 I) in I1. split; [|lia]. destruct (stopped s); [specialize (I4 eq_refl); lia|reflexivity]. }
    destruct (do_act_frame _ _ _ _ H) as (F1 & F2 & F3 & F4 & F5).
    destruct a; cbn [do_act] in H; try (injection H as <-); try (destruct (owner s); [discriminate|injection H as <-]);
      constructor; unfold busy, rests, set_main in *; cbn [nout queue work posted finished stopped mainst ws mjob mrest app] in *; rewrite ?Hm in *; cbn [mjob mrest app posts sm] in *; auto; try discriminate; rewrite ?app_length; cbn [length]; try lia;
      try (intros f; specialize (I2 f); rewrite ?sm_app in *; cbn [sm] in *; lia); try (intros f; specialize (I3 f); rewrite ?sm_app in *; cbn [sm] in *; lia); try (intros; destruct N0; congruence).
  - constructor; unfold busy, rests, set_main in *; cbn [nout queue work posted finished stopped mainst ws mjob mrest app] in *; rewrite ?Hm in *; auto; discriminate.
  - rewrite Hm in I5. destruct I5 as [_ I5]. specialize (I5 I). unfold drop_work. rewrite I5. rewrite I5 in I1.
    constructor; unfold busy, rests, set_main, work_finished in *; cbn [nout queue work posted finished stopped mainst ws mjob mrest app rjob rrest] in *; rewrite ?Hm in *; cbn [mjob mrest rjob rrest app] in *; auto; try discriminate.
    + lia.
    + intros K. apply orb_true_iff in K. destruct K as [K|K]; [specialize (I4 K); lia|now apply Nat.eqb_eq in K].
    + split; [discriminate|tauto].
  - assert (RI : rinv s r (flat_map rjob (ws s)) (map rrest (ws s))).
    { unfold rinv. unfold busy, rests in *. rewrite Hm in *. cbn [mjob mrest sm] in *. split; [exact I1|]. split; [exact I2|]. split; [exact I3|]. split; [exact I4|]. intros ->. exact I6. }
    destruct (rstep_inv _ _ _ _ _ _ _ H RI) as ((J1 & J2 & J3 & J4 & J5) & W & Mn & Ws & Sp).
    constructor; unfold busy, rests, set_main; cbn [nout queue work posted finished stopped mainst ws mjob mrest sm]; rewrite ?Ws, ?W; auto; try discriminate.
    + now rewrite <- W.
    + rewrite Hm in I5. exact I5.
    + destruct r'; auto.
  - constructor; unfold busy, rests, set_main in *; cbn [nout queue work posted finished stopped mainst ws mjob mrest app] in *; rewrite ?Hm in *; auto; discriminate.
  - constructor; unfold busy, rests, set_main, set_stopped in *; cbn [nout queue work posted finished stopped mainst ws mjob mrest app] in *; rewrite ?Hm in *; auto; try discriminate.
  - constructor; unfold busy, rests, set_main in *; cbn [nout queue work posted finished stopped mainst ws mjob mrest app] in *; rewrite ?Hm in *; auto.
Qed.
Lemma reach_inv n s : steps (init J P M A n code) s -> inv s.
Proof. intros H. remember (init J P M A n code) as s0 eqn:E. induction H; subst; [apply inv_init|]. eapply step_inv; eauto. Qed.
Lemma closed_all n s : steps (init J P M A n code) s -> mainst s = MClosed ->
  queue s = [] /\ busy s = [] /\ (forall r, In r (ws s) -> r = RExit) /\ (forall f, sm f (finished s) = sm f (posted s)) /\
  (forall f, sm f (posted s) = sm f (posts code) + sm (fun j => sm f (posts (prog j))) (posted s)).
Proof.
  intros H Hm. destruct (reach_inv n s H) as [I1 I2 I3 I4 I5 I6 I7]. rewrite Hm in *. specialize (I7 eq_refl). rewrite (I4 I6) in I1.
  assert (W0 : work s = false) by (destruct (work s); [exfalso; apply I5; reflexivity|reflexivity]). rewrite W0 in I1.
  assert (Q : queue s = []) by (destruct (queue s); [reflexivity|cbn in I1; lia]). assert (B : busy s = []) by (destruct (busy s); [reflexivity|cbn in I1; lia]).
  rewrite Q, B in *. split; [reflexivity|]. split; [reflexivity|]. split; [exact I7|]. cbn [sm app length] in *. split; [intros f; rewrite I2; lia|].
  intros f. specialize (I3 f). unfold rests in I3. rewrite Hm in I3. cbn [mrest sm posts] in I3.
  assert (Z0 : sm (fun l => sm f (posts l)) (map rrest (ws s)) = 0).
  { clear - I7. rewrite sm_map. induction (ws s) as [|r l IH]; cbn [sm]; [reflexivity|]. rewrite (I7 r (or_introl eq_refl)). cbn. apply IH. intros x Hx. apply I7. now right. }
  rewrite Z0 in I3. pose proof (I2 (fun j => sm f (posts (prog j)))) as I8. cbn [sm] in I8. lia.
Qed.
End Jobs.

(** ** the lists of results *)
Section Results.
Variable code : list act.
Hypothesis wprog : forall j, wf (prog j).
Hypothesis wcode : wf code.
Notation Rt := (P * M * A)%type.
Definition tstore (x : Rt) : list act := let '(p, m, a) := x in store p m a.
Record rsh (s : st) (pl : list (list Rt)) (R : list Rt) (k : nat) (x : Rt) : Prop := {
  r_len : length pl = length (rests s);
  r_own : forall t, owner s = Some t -> t < length pl;
  r_k : 1 <= k <= 5;
  r_thr : forall t l p, nth_error (rests s) t = Some l -> nth_error pl t = Some p ->
    (owner s = Some t -> exists l', wf l' /\ l = skipn k (tstore x) ++ l' /\ p = x :: stored l') /\ (owner s <> Some t -> wf l /\ p = stored l);
  r_gp : gp s = map (fun y => fst (fst y)) R ++ (if owner s then if 2 <=? k then [fst (fst x)] else [] else []);
  r_gm : gm s = map (fun y => snd (fst y)) R ++ (if owner s then if 3 <=? k then [snd (fst x)] else [] else []);
  r_ga : ga s = map snd R ++ (if owner s then if 4 <=? k then [snd x] else [] else []);
  r_cnt : cnt s = length R + (if owner s then if 5 <=? k then 1 else 0 else 0);
  r_tot : forall f, sm f R + sm (sm f) pl + sm (fun j => sm f (stored (prog j))) (queue s) = sm f (stored code) + sm (fun j => sm f (stored (prog j))) (posted s)
}.
(** exactly one thread's list of remaining actions changes *)
Definition reststep (s s' : st) (t : nat) (l l' : list act) : Prop := nth_error (rests s) t = Some l /\ rests s' = upd (rests s) t l'.
Lemma stored_store p m a l : stored (store p m a ++ l) = (p, m, a) :: stored l.
Proof. reflexivity. Qed.
Lemma act_rsh s s1 s' t a l pl R k x : rsh s pl R k x -> do_act t a s = Some s1 ->
  nth_error (rests s) t = Some (a :: l) -> rests s' = upd (rests s) t l ->
  owner s' = owner s1 -> gp s' = gp s1 -> gm s' = gm s1 -> ga s' = ga s1 -> cnt s' = cnt s1 -> queue s' = queue s1 -> posted s' = posted s1 ->
  exists pl' R' k' x', rsh s' pl' R' k' x'.
Proof.
  intros [RL RO RK RT RP RM RA RC RTOT] DA NL EU E1 E2 E3 E4 E5 E6 E7.
  assert (TL : t < length (rests s)) by (apply nth_error_Some; congruence).
  destruct (nth_error pl t) as [p|] eqn:NP; [|apply nth_error_None in NP; lia].
  assert (RL' : forall pl' : list (list Rt), length pl' = length pl -> length pl' = length (rests s')) by (intros pl' H; rewrite EU, upd_length; lia).
  destruct (RT t (a :: l) p NL NP) as [TO TN].
  assert (OD : {owner s = Some t} + {owner s <> Some t}) by (destruct (owner s) as [o|]; [destruct (Nat.eq_dec o t); [left; congruence|right; congruence]|right; discriminate]).
  destruct OD as [O|O].
  - destruct (TO O) as (l' & WL & EL & EP). clear TO TN. rewrite O in *. cbv iota in RP, RM, RA, RC. destruct x as [[xp xm] xa]. unfold tstore, store in EL. cbn [fst snd] in *.
    (* stages 1 to 4: same pending lists; stage 5 commits *)
    assert (KK : k = 1 \/ k = 2 \/ k = 3 \/ k = 4 \/ k = 5) by lia.
    assert (STAGE : forall k', S k = k' -> k' <= 5 -> owner s' = Some t -> l = skipn k' (store xp xm xa) ++ l' ->
      forall t0 l0 p0, nth_error (rests s') t0 = Some l0 -> nth_error pl t0 = Some p0 ->
        (owner s' = Some t0 -> exists l', wf l' /\ l0 = skipn k' (tstore (xp, xm, xa)) ++ l' /\ p0 = (xp, xm, xa) :: stored l') /\ (owner s' <> Some t0 -> wf l0 /\ p0 = stored l0)).
    { intros k' _ _ OS ES t0 l0 p0 H1 H2. rewrite EU, nth_upd in H1. rewrite OS. destruct (Nat.eqb_spec t t0) as [<-|NE].
      - rewrite NL in H1. injection H1 as <-. rewrite NP in H2. injection H2 as <-. split; [|congruence]. intros _. exists l'. auto.
      - split; [congruence|]. intros _. destruct (RT t0 l0 p0 H1 H2) as [_ K]. apply K. congruence. }
    destruct KK as [->|[->|[->|[->| ->]]]]; cbn [skipn app] in EL; injection EL as -> ->; cbn [do_act] in DA; injection DA as <-; cbn [owner gp gm ga cnt queue posted] in *.
    + exists pl, R, 2, (xp, xm, xa). constructor; rewrite ?E1, ?E2, ?E3, ?E4, ?E5, ?E6, ?E7, ?O; auto; try lia; cbn [fst snd Nat.leb] in *; rewrite ?RP, ?RM, ?RA, ?RC, ?app_nil_r; auto.
      * intros t0 l0 p0 H1 H2. rewrite <- O, <- E1. apply (STAGE 2); auto. now rewrite E1.
    + exists pl, R, 3, (xp, xm, xa). constructor; rewrite ?E1, ?E2, ?E3, ?E4, ?E5, ?E6, ?E7, ?O; auto; try lia; cbn [fst snd Nat.leb] in *; rewrite ?RP, ?RM, ?RA, ?RC, ?app_nil_r; auto.
      * intros t0 l0 p0 H1 H2. rewrite <- O, <- E1. apply (STAGE 3); auto. now rewrite E1.
    + exists pl, R, 4, (xp, xm, xa). constructor; rewrite ?E1, ?E2, ?E3, ?E4, ?E5, ?E6, ?E7, ?O; auto; try lia; cbn [fst snd Nat.leb] in *; rewrite ?RP, ?RM, ?RA, ?RC, ?app_nil_r; auto.
      * intros t0 l0 p0 H1 H2. rewrite <- O, <- E1. apply (STAGE 4); auto. now rewrite E1.
    + exists pl, R, 5, (xp, xm, xa). constructor; rewrite ?E1, ?E2, ?E3, ?E4, ?E5, ?E6, ?E7, ?O; auto; try lia; cbn [fst snd Nat.leb] in *; rewrite ?RP, ?RM, ?RA, ?RC, ?app_nil_r; auto.
      * intros t0 l0 p0 H1 H2. rewrite <- O, <- E1. apply (STAGE 5); auto. now rewrite E1.
    + exists (upd pl t (stored l')), (R ++ [(xp, xm, xa)]), 1, (xp, xm, xa). constructor; rewrite ?E1, ?E2, ?E3, ?E4, ?E5, ?E6, ?E7; try discriminate; try lia; cbn [fst snd Nat.leb] in *; rewrite ?map_app, ?app_length, ?RP, ?RM, ?RA, ?RC, ?app_nil_r; auto; cbn [length]; try lia.
      * rewrite upd_length. auto.
      * intros t0 l0 p0 H1 H2. split; [discriminate|]. intros _. rewrite EU, nth_upd in H1. rewrite nth_upd in H2. destruct (Nat.eqb_spec t t0) as [<-|NE].
        -- rewrite NL in H1. injection H1 as <-. rewrite NP in H2. injection H2 as <-. auto.
        -- destruct (RT t0 l0 p0 H1 H2) as [_ K]. apply K. congruence.
      * intros f. specialize (RTOT f). pose proof (sm_upd (sm f) pl t p (stored l') NP) as SU. rewrite EP in SU. rewrite sm_app. cbn [sm] in *. lia.
  - destruct (TN O) as [WF EP]. clear TO TN. inversion WF as [|j l0 WL EQ|p0 m0 a0 l0 WL EQ]; subst.
    + cbn [do_act] in DA. injection DA as <-. cbn [owner gp gm ga cnt queue posted] in *. exists pl, R, k, x. constructor; rewrite ?E1, ?E2, ?E3, ?E4, ?E5, ?E6, ?E7; auto.
      * intros t0 l0 p0 H1 H2. rewrite EU, nth_upd in H1. destruct (Nat.eqb_spec t t0) as [<-|NE]; [|exact (RT t0 l0 p0 H1 H2)].
        rewrite NL in H1. injection H1 as <-. rewrite NP in H2. injection H2 as <-. split; [contradiction|auto].
      * intros f. specialize (RTOT f). rewrite !sm_app. cbn [sm]. lia.
    + cbn [do_act] in DA. destruct (owner s) eqn:OS; [discriminate|]. injection DA as <-. cbn [owner gp gm ga cnt queue posted] in *.
      exists pl, R, 1, (p0, m0, a0). constructor; rewrite ?E1, ?E2, ?E3, ?E4, ?E5, ?E6, ?E7; auto; try lia; cbn [fst snd Nat.leb] in *; rewrite ?RP, ?RM, ?RA, ?RC, ?app_nil_r; auto.
      * intros t0. injection 1 as <-. lia.
      * intros t0 l1 p1 H1 H2. rewrite EU, nth_upd in H1. destruct (Nat.eqb_spec t t0) as [<-|NE].
        -- rewrite NL in H1. injection H1 as <-. rewrite NP in H2. injection H2 as <-. split; [|congruence]. intros _. exists l0. auto.
        -- split; [congruence|]. intros _. destruct (RT t0 l1 p1 H1 H2) as [_ K]. apply K. congruence.
Qed.
(** a thread without actions gets a new list *)
Lemma take_rsh s s' t l pl R k x : rsh s pl R k x -> nth_error (rests s) t = Some [] -> wf l -> rests s' = upd (rests s) t l ->
  owner s' = owner s -> gp s' = gp s -> gm s' = gm s -> ga s' = ga s -> cnt s' = cnt s ->
  (forall f, sm f (stored l) + sm (fun j => sm f (stored (prog j))) (queue s') + sm (fun j => sm f (stored (prog j))) (posted s) = sm (fun j => sm f (stored (prog j))) (queue s) + sm (fun j => sm f (stored (prog j))) (posted s')) ->
  rsh s' (upd pl t (stored l)) R k x.
Proof.
  intros [RL RO RK RT RP RM RA RC RTOT] NL WL EU E1 E2 E3 E4 E5 EQ.
  assert (TL : t < length (rests s)) by (apply nth_error_Some; congruence).
  destruct (nth_error pl t) as [p|] eqn:NP; [|apply nth_error_None in NP; lia].
  destruct (RT t [] p NL NP) as [TO TN].
  assert (O : owner s <> Some t).
  { intros O. destruct (TO O) as (l' & _ & EL & _). assert (KK : k = 1 \/ k = 2 \/ k = 3 \/ k = 4 \/ k = 5) by lia. destruct x as [[xp xm] xa]. destruct KK as [->|[->|[->|[->| ->]]]]; discriminate EL. }
  destruct (TN O) as [_ EP]. constructor; rewrite ?E1, ?E2, ?E3, ?E4, ?E5; auto.
  - rewrite EU, !upd_length. exact RL.
  - intros t0 Ht. rewrite upd_length. auto.
  - intros t0 l0 p0 H1 H2. rewrite EU, nth_upd in H1. rewrite nth_upd in H2. destruct (Nat.eqb_spec t t0) as [<-|NE]; [|exact (RT t0 l0 p0 H1 H2)].
    rewrite NL in H1. injection H1 as <-. rewrite NP in H2. injection H2 as <-. split; [contradiction|auto].
  - intros f. specialize (RTOT f). specialize (EQ f). pose proof (sm_upd (sm f) pl t p (stored l) NP) as SU. rewrite EP in SU. cbn [stored sm] in SU. lia.
Qed.
Lemma upd_id {X} (l : list X) i x : nth_error l i = Some x -> upd l i x = l.
Proof. intros H. destruct (upd_split l i x H) as (l1 & l2 & E & _ & U). rewrite U. now symmetry. Qed.
Lemma upd_map {X Y} (f : X -> Y) l i x : map f (upd l i x) = upd (map f l) i (f x).
Proof. revert i. induction l; intros [|i]; cbn; auto. now rewrite IHl. Qed.
Lemma same_rsh s s' pl R k x : rsh s pl R k x -> rests s' = rests s -> owner s' = owner s -> gp s' = gp s -> gm s' = gm s -> ga s' = ga s -> cnt s' = cnt s -> queue s' = queue s -> posted s' = posted s -> rsh s' pl R k x.
Proof. intros [RL RO RK RT RP RM RA RC RTOT] E0 E1 E2 E3 E4 E5 E6 E7. constructor; rewrite ?E0, ?E1, ?E2, ?E3, ?E4, ?E5, ?E6, ?E7; auto. Qed.
Definition rok (s : st) : Prop := exists pl R k x, rsh s pl R k x.
Lemma rstep_rok t s r s1 r' s' : rok s -> rstep t s r s1 r' -> nth_error (rests s) t = Some (rrest r) -> rests s' = upd (rests s) t (rrest r') ->
  owner s' = owner s1 -> gp s' = gp s1 -> gm s' = gm s1 -> ga s' = ga s1 -> cnt s' = cnt s1 -> queue s' = queue s1 -> posted s' = posted s1 -> rok s'.
Proof.
  intros (pl & R & k & x & H) ST NL EU E1 E2 E3 E4 E5 E6 E7.
  destruct ST as [s HH|s HH|s HH|s q1 j q2 HH HQ|s j a l s2 HH|s j]; cbn [rrest set_queue set_stopped log_fin work_finished owner gp gm ga cnt queue posted] in *;
    try (exists pl, R, k, x; apply (same_rsh s); auto; rewrite EU; now apply upd_id).
  - exists (upd pl t (stored (prog j))), R, k, x. apply (take_rsh s s' t (prog j) pl R k x H); auto. intros f. rewrite E6, E7, HQ. rewrite !sm_app. cbn [sm]. lia.
  - exact (act_rsh s s2 s' t a l pl R k x H HH NL EU E1 E2 E3 E4 E5 E6 E7).
Qed.
Lemma step_rok s s' : step s s' -> rok s -> rok s'.
Proof.
  intros ST H. destruct ST as [s i r s1 r' Hr ST|s a l s1 Hm ST|s Hm|s Hm|s r s1 r' Hm ST|s Hm|s Hm|s Hm HA].
  - assert (FR : mainst s1 = mainst s /\ ws s1 = ws s) by (clear - ST; inversion ST; subst; auto; apply do_act_frame in H; tauto). destruct FR as [F1 F2].
    apply (rstep_rok (S i) s r s1 r' _ H ST); auto; unfold set_w, rests; cbn [mainst ws nth_error]; auto.
    + now apply map_nth_error.
    + rewrite F1, F2. cbn [upd]. now rewrite upd_map.
  - destruct (do_act_frame _ _ _ _ ST) as (F1 & F2 & _). destruct H as (pl & R & k & x & H).
    apply (act_rsh s s1 (set_main J P M A s1 (MCode l)) 0 a l pl R k x H ST); auto; unfold rests, set_main; cbn [mainst ws nth_error]; [now rewrite Hm|now rewrite F2].
  - destruct H as (pl & R & k & x & H). exists pl, R, k, x. apply (same_rsh s); auto. unfold rests, set_main. cbn [mainst ws]. now rewrite Hm.
  - destruct H as (pl & R & k & x & H). exists pl, R, k, x. unfold drop_work. destruct (work s); (apply (same_rsh s); auto; unfold rests, set_main; cbn [mainst ws work_finished]; now rewrite Hm).
  - assert (FR : mainst s1 = mainst s /\ ws s1 = ws s) by (clear - ST; inversion ST; subst; auto; apply do_act_frame in H; tauto). destruct FR as [F1 F2].
    apply (rstep_rok 0 s r s1 r' _ H ST); auto; unfold set_main, rests; cbn [mainst ws nth_error]; [now rewrite Hm|now rewrite F2].
  - destruct H as (pl & R & k & x & H). exists pl, R, k, x. apply (same_rsh s); auto. unfold rests, set_main. cbn [mainst ws]. now rewrite Hm.
  - destruct H as (pl & R & k & x & H). exists pl, R, k, x. apply (same_rsh s); auto. unfold rests, set_main, set_stopped. cbn [mainst ws]. now rewrite Hm.
  - destruct H as (pl & R & k & x & H). exists pl, R, k, x. apply (same_rsh s); auto. unfold rests, set_main. cbn [mainst ws]. now rewrite Hm.
Qed.
Lemma reach_rok n s (x0 : Rt) : steps (init J P M A n code) s -> rok s.
Proof.
  intros H. remember (init J P M A n code) as s0 eqn:E. induction H; subst; [|eapply step_rok; eauto].
  exists (stored code :: repeat [] n), [], 1, x0. unfold init. constructor; cbn [owner gp gm ga cnt queue posted rests mainst ws mrest]; auto; try discriminate; try lia.
  - cbn. now rewrite map_length, !repeat_length.
  - intros t l p H1 H2. split; [discriminate|]. intros _. destruct t as [|t]; cbn in H1, H2.
    + injection H1 as <-. injection H2 as <-. auto.
    + apply nth_error_In in H1, H2. apply repeat_spec in H2. apply in_map_iff in H1. destruct H1 as (r & <- & Hr). apply repeat_spec in Hr. subst. cbn. split; [constructor|reflexivity].
  - intros f. cbn [sm]. rewrite sm_repeat by reflexivity. lia.
Qed.
(** access to the result lists only by the thread holding the lock *)
Lemma reach_owner n s t a l (x0 : Rt) : steps (init J P M A n code) s -> nth_error (rests s) t = Some (a :: l) ->
  match a with PushP _ | PushM _ | PushA _ | Inc | Unlock => owner s = Some t | _ => True end.
Proof.
  intros H NL. destruct (reach_rok n s x0 H) as (pl & R & k & x & [RL RO RK RT _ _ _ _ _]).
  assert (TL : t < length (rests s)) by (apply nth_error_Some; congruence).
  destruct (nth_error pl t) as [p|] eqn:NP; [|apply nth_error_None in NP; lia].
  destruct (RT t _ p NL NP) as [_ TN].
  assert (OD : {owner s = Some t} + {owner s <> Some t}) by (destruct (owner s) as [o|]; [destruct (Nat.eq_dec o t); [left; congruence|right; congruence]|right; discriminate]).
  destruct OD as [O|O]; [destruct a; auto|]. destruct (TN O) as [WF _]. inversion WF; exact I.
Qed.
Lemma closed_results n s (x0 : Rt) : steps (init J P M A n code) s -> mainst s = MClosed ->
  exists R, gp s = map (fun y => fst (fst y)) R /\ gm s = map (fun y => snd (fst y)) R /\ ga s = map snd R /\ cnt s = length R /\
  forall f, sm f R = sm f (stored code) + sm (fun j => sm f (stored (prog j))) (posted s).
Proof.
  intros H Hm. destruct (closed_all code n s H Hm) as (Q & _ & AE & _). destruct (reach_rok n s x0 H) as (pl & R & k & x & [RL RO RK RT RP RM RA RC RTOT]).
  assert (RE : forall t l, nth_error (rests s) t = Some l -> l = []).
  { unfold rests. rewrite Hm. intros [|t] l K; cbn in K; [injection K as <-; reflexivity|]. apply nth_error_In, in_map_iff in K. destruct K as (r & <- & Hr). now rewrite (AE r Hr). }
  assert (O : owner s = None).
  { destruct (owner s) as [t|] eqn:O; [|reflexivity]. exfalso. specialize (RO t eq_refl). destruct (nth_error pl t) as [p|] eqn:NP; [|apply nth_error_None in NP; lia].
    destruct (nth_error (rests s) t) as [l|] eqn:NL; [|apply nth_error_None in NL; lia]. destruct (RT t l p NL NP) as [TO _]. destruct (TO eq_refl) as (l' & _ & EL & _).
    rewrite (RE t l NL) in EL. assert (KK : k = 1 \/ k = 2 \/ k = 3 \/ k = 4 \/ k = 5) by lia. destruct x as [[xp xm] xa]. destruct KK as [->|[->|[->|[->| ->]]]]; discriminate EL. }
  rewrite O in *. rewrite !app_nil_r in *. exists R. repeat split; auto; [lia|]. intros f. specialize (RTOT f). rewrite Q in RTOT. cbn [sm] in RTOT.
  assert (Z0 : sm (sm f) pl = 0).
  { assert (F : Forall (fun p => p = []) pl).
    { apply Forall_forall. intros p Hp. apply In_nth_error in Hp. destruct Hp as (t & NP). destruct (nth_error (rests s) t) as [l|] eqn:NL.
      - destruct (RT t l p NL NP) as [_ K]. destruct K as [_ ->]; [congruence|]. now rewrite (RE t l NL).
      - apply nth_error_None in NL. assert (t < length pl) by (apply nth_error_Some; congruence). lia. }
    clear - F. induction F as [|p pl -> _ IH]; cbn [sm]; [reflexivity|]. exact IH. }
  lia.
Qed.

(** ** no deadlock *)
Lemma act_enabled n s t l (x0 : Rt) : steps (init J P M A n code) s -> nth_error (rests s) t = Some l -> l <> [] -> exists s', step s s'.
Proof.
  intros H NL NE. destruct (reach_rok n s x0 H) as (pl & R & k & x & [RL RO RK RT RP RM RA RC RTOT]).
  (* a thread that can act makes a step *)
  assert (GO : forall t a l s1, nth_error (rests s) t = Some (a :: l) -> do_act t a s = Some s1 -> exists s', step s s').
  { clear - H. intros t a l s1 NL DA. unfold rests in NL. destruct t as [|i]; cbn [nth_error] in NL.
    - injection NL as NL. destruct (mainst s) as [lm| |r| | |] eqn:Hm; cbn [mrest] in NL; try discriminate.
      + subst lm. eexists. eapply s_code; eauto.
      + destruct r as [| |j lr|]; cbn [rrest] in NL; try discriminate. subst lr. eexists. eapply s_run; [exact Hm|]. eapply r_act. exact DA.
    - rewrite nth_error_map in NL. destruct (nth_error (ws s) i) as [r|] eqn:Hr; [|discriminate]. cbn in NL. injection NL as NL. destruct r as [| |j lr|]; cbn [rrest] in NL; try discriminate. subst lr.
      eexists. eapply s_worker; [exact Hr|]. eapply r_act. exact DA. }
  destruct l as [|a l]; [congruence|]. destruct (do_act t a s) as [s1|] eqn:DA; [exact (GO t a l s1 NL DA)|].
  (* blocked: the owner of the lock can act *)
  destruct (owner s) as [o|] eqn:O; [|destruct a; cbn [do_act] in DA; try discriminate; rewrite O in DA; discriminate].
  specialize (RO o eq_refl). destruct (nth_error pl o) as [p|] eqn:NP; [|apply nth_error_None in NP; lia].
  destruct (nth_error (rests s) o) as [lo|] eqn:NLo; [|apply nth_error_None in NLo; lia]. destruct (RT o lo p NLo NP) as [TO _]. destruct (TO eq_refl) as (l' & _ & EL & _).
  assert (KK : k = 1 \/ k = 2 \/ k = 3 \/ k = 4 \/ k = 5) by lia. destruct x as [[xp xm] xa]. destruct KK as [->|[->|[->|[->| ->]]]]; cbn [tstore store skipn app] in EL; subst lo; (eapply GO; [exact NLo|reflexivity]).
Qed.
Lemma busy_enabled n s (x0 : Rt) : steps (init J P M A n code) s -> busy s <> [] -> exists s', step s s'.
Proof.
  intros H NB. unfold busy in NB.
  assert (CS : (exists j l, mainst s = MRun (RBusy j l)) \/ (exists i j l, nth_error (ws s) i = Some (RBusy j l))).
  { destruct (mjob (mainst s)) as [|j b] eqn:EM.
    - right. cbn [app] in NB. destruct (flat_map rjob (ws s)) as [|j b] eqn:EF; [congruence|]. assert (IN : In j (flat_map rjob (ws s))) by (rewrite EF; now left).
      apply in_flat_map in IN. destruct IN as (r & Hr & Hj). apply In_nth_error in Hr. destruct Hr as (i & Hi). destruct r as [| |j' l|]; cbn in Hj; try contradiction. eauto.
    - left. destruct (mainst s) as [| |r| | |]; cbn [mjob] in EM; try discriminate. destruct r as [| |j' l|]; try discriminate. eauto. }
  destruct CS as [(j & l & Hm)|(i & j & l & Hi)].
  - destruct l as [|a l]; [eexists; eapply s_run; [exact Hm|constructor]|]. apply (act_enabled n s 0 (a :: l) x0 H); [unfold rests; cbn; now rewrite Hm|discriminate].
  - destruct l as [|a l]; [eexists; eapply s_worker; [exact Hi|constructor]|]. apply (act_enabled n s (S i) (a :: l) x0 H); [unfold rests; cbn; now rewrite (map_nth_error rrest _ _ Hi)|discriminate].
Qed.
Lemma progress n s (x0 : Rt) : steps (init J P M A n code) s -> mainst s <> MClosed -> exists s', step s s'.
Proof.
  intros H NC. pose proof (reach_inv code n s H) as [I1 I2 I3 I4 I5 I6 I7]. destruct (mainst s) as [l| |r| | |] eqn:Hm; [| | | | |congruence].
  - destruct l as [|a l]; [eexists; now apply s_close|]. apply (act_enabled n s 0 (a :: l) x0 H); [unfold rests; cbn; now rewrite Hm|discriminate].
  - eexists. now apply s_reset.
  - assert (W0 : work s = false) by (destruct (work s); [exfalso; apply I5; reflexivity|reflexivity]). rewrite W0 in I1.
    destruct r as [| |j l|].
    + destruct (Nat.eq_dec (nout s) 0); eexists; (eapply s_run; [exact Hm|]); [now apply r_none|now apply r_enter].
    + destruct (stopped s) eqn:SP; [eexists; eapply s_run; [exact Hm|now apply r_leave]|]. destruct (queue s) as [|j q] eqn:Q.
      * destruct (busy s) as [|b bs] eqn:B.
        -- (* nothing outstanding, yet not stopped: excluded *)
           exfalso. cbn in I1. assert (K : forall s', steps (init J P M A n code) s' -> mainst s' = MRun RIdle -> nout s' = 0 -> stopped s' = true).
           { clear. intros s' H. remember (init J P M A n code) as s0 eqn:E0.
             assert (G : forall s', steps s0 s' -> (work s' = false -> nout s' = 0 -> mainst s' <> MRun RStart -> stopped s' = true)).
             { clear s' H. intros s' H. induction H as [|s s' s'' H IH ST].
               - subst. discriminate.
               - specialize (IH E0). subst s. pose proof (reach_inv code n s' H) as [I1 I2 I3 I4 I5 I6 I7].
                 destruct ST as [s' i r s1 r' Hr ST|s' a l s1 Hm ST|s' Hm|s' Hm|s' r s1 r' Hm ST|s' Hm|s' Hm|s' Hm HA]; unfold set_main, set_w; cbn [work nout mainst stopped]; intros W0 N0 NM; auto.
                 + assert (FR : mainst s1 = mainst s') by (clear - ST; inversion ST; subst; auto; apply do_act_frame in H; tauto). rewrite FR in NM.
                   destruct ST as [s HH|s HH|s HH|s q1 j q2 HH HQ|s j a l s2 HH|s j]; cbn [work_finished log_fin set_stopped set_queue work nout stopped] in *; auto.
                   * destruct a; cbn [do_act] in HH; try (injection HH as <-; cbn [work nout stopped] in *; auto); [discriminate|]. destruct (owner s); [discriminate|injection HH as <-; auto].
                   * rewrite N0. cbn. now rewrite orb_true_r.
                 + destruct (do_act_frame _ _ _ _ ST) as (_ & _ & F3 & F4 & _). rewrite F3 in W0. rewrite Hm in I5. destruct I5 as [_ I5]. rewrite (I5 I) in W0. discriminate.
                 + rewrite Hm in I5. destruct I5 as [_ I5]. rewrite (I5 I) in W0. discriminate.
                 + assert (FR : work s1 = work s') by (clear - ST; inversion ST; subst; auto; apply do_act_frame in H; tauto). rewrite FR in W0.
                   destruct ST as [s HH|s HH|s HH|s q1 j q2 HH HQ|s j a l s2 HH|s j]; cbn [work_finished log_fin set_stopped set_queue work nout stopped] in *; auto; try congruence.
                   * apply IH; auto. congruence.
                   * destruct (do_act_frame _ _ _ _ HH) as (_ & _ & _ & F4 & _). rewrite F4. destruct a; cbn [do_act] in HH; try (injection HH as <-); try (destruct (owner s); [discriminate|injection HH as <-]); cbn [work nout] in *; try discriminate; apply IH; auto; congruence.
                   * rewrite N0. cbn. now rewrite orb_true_r.
                 + apply IH; auto. congruence.
                 + apply IH; auto. congruence. }
             intros Hm N0. assert (W : work s' = false). { subst s0. pose proof (reach_inv code n s' H) as [_ _ _ _ I5 _ _]. rewrite Hm in I5. destruct (work s'); [exfalso; apply I5; reflexivity|reflexivity]. }
             apply (G s' H); auto. congruence. }
           rewrite (K s H Hm) in SP; [discriminate|lia].
        -- apply (busy_enabled n s x0 H). congruence.
      * eexists. eapply s_run; [exact Hm|]. apply (r_take J P M A prog 0 s [] j q); auto.
    + destruct l as [|a l]; [eexists; eapply s_run; [exact Hm|constructor]|]. apply (act_enabled n s 0 (a :: l) x0 H); [unfold rests; cbn; now rewrite Hm|discriminate].
    + eexists. now apply s_ran.
  - eexists. now apply s_stop.
  - destruct (Forall_Exists_dec (fun r : rst => r = RExit)) with (l := ws s) as [F|E].
    + intros []; [right|right|right|left]; congruence.
    + rewrite Forall_forall in F. eexists. now apply s_join.
    + apply Exists_exists in E. destruct E as (r & Hr & NE). apply In_nth_error in Hr. destruct Hr as (i & Hi). destruct r as [| |j l|]; [| | |congruence].
      * destruct (Nat.eq_dec (nout s) 0); eexists; (eapply s_worker; [exact Hi|]); [now apply r_none|now apply r_enter].
      * eexists. eapply s_worker; [exact Hi|now apply r_leave].
      * destruct l as [|a l]; [eexists; eapply s_worker; [exact Hi|constructor]|]. apply (act_enabled n s (S i) (a :: l) x0 H); [unfold rests; cbn; now rewrite (map_nth_error rrest _ _ Hi)|discriminate].
Qed.
End Results.

(** ** termination: posting is well-founded *)
Section Term.
Variable w : J -> nat.
Definition aw (a : act) : nat := match a with Post j => 1 + w j | _ => 1 end.
Hypothesis Hw : forall j, 2 + sm aw (prog j) <= w j.
Definition rw (r : rst) : nat := match r with RStart => 2 | RIdle => 1 | RBusy _ l => 2 + sm aw l | RExit => 0 end.
Definition mw (m : mst J P M A) : nat := match m with MCode l => 10 + sm aw l | MReset => 9 | MRun r => 4 + rw r | MStop => 3 | MJoin => 2 | MClosed => 0 end.
Definition mass (s : st) : nat := sm w (queue s) + mw (mainst s) + sm rw (ws s).
Lemma rstep_mass t s r s' r' : rstep t s r s' r' -> sm w (queue s') + rw r' < sm w (queue s) + rw r /\ mainst s' = mainst s /\ ws s' = ws s.
Proof.
  intros H. destruct H as [s HH|s HH|s HH|s q1 j q2 HH HQ|s j a l s' HH|s j]; cbn [rw set_stopped set_queue log_fin work_finished queue mainst ws sm]; auto; try (split; [lia|auto]).
  - rewrite HQ, !sm_app. cbn [sm]. specialize (Hw j). split; [lia|auto].
  - destruct (do_act_frame _ _ _ _ HH) as (F1 & F2 & _). split; [|auto]. destruct a; cbn [do_act] in HH; try (injection HH as <-); try (destruct (owner s); [discriminate|injection HH as <-]); cbn [queue aw]; rewrite ?sm_app; cbn [sm]; lia.
Qed.
Lemma step_mass s s' : step s s' -> mass s' < mass s.
Proof.
  intros H. unfold mass. destruct H as [s i r s1 r' Hr H|s a l s1 Hm H|s Hm|s Hm|s r s1 r' Hm H|s Hm|s Hm|s Hm HA]; unfold set_main, set_w, set_stopped, drop_work, work_finished; cbn [queue mainst ws]; rewrite ?Hm; cbn [mw rw]; try lia.
  - destruct (rstep_mass _ _ _ _ _ H) as (L & -> & ->). pose proof (sm_upd rw (ws s) i r r' Hr). lia.
  - destruct (do_act_frame _ _ _ _ H) as (F1 & -> & _). destruct a; cbn [do_act] in H; try (injection H as <-); try (destruct (owner s); [discriminate|injection H as <-]); cbn [queue aw sm]; rewrite ?sm_app; cbn [sm]; lia.
  - destruct (work s); cbn [queue mainst ws mw rw]; lia.
  - destruct (rstep_mass _ _ _ _ _ H) as (L & _ & ->). lia.
Qed.
Lemma terminates s : Acc (fun y x => step x y) s.
Proof.
  assert (K : forall n s, mass s < n -> Acc (fun y x => step x y) s); [|apply (K (S (mass s))); lia].
  induction n as [|n IH]; intros s0 L; [lia|]. constructor. intros y Hy. apply IH. pose proof (step_mass s0 y Hy). lia.
Qed.
End Term.

(** ** after close(): a second start *)
Lemma restart_frozen n code s0 : stopped s0 = true -> forall s, steps (restart J P M A n code s0) s ->
  stopped s = true /\ busy s = [] /\ finished s = finished s0.
Proof.
  intros S0 s H. remember (restart J P M A n code s0) as s1 eqn:E. induction H as [|s s' s'' H IH ST]; subst.
  - split; [exact S0|]. split; [|reflexivity]. unfold busy, restart. cbn. clear. induction n; cbn; auto.
  - destruct (IH eq_refl) as (I1 & I2 & I3). clear IH. unfold busy in I2. apply app_eq_nil in I2. destruct I2 as [I2 I4].
    assert (RS : forall t r s1 r', rstep t s' r s1 r' -> rjob r = [] -> stopped s1 = true /\ rjob r' = [] /\ finished s1 = finished s0 /\ mainst s1 = mainst s' /\ ws s1 = ws s').
    { intros t r s1 r' K RJ. destruct K; cbn [rjob set_stopped] in *; auto 10; try congruence. }
    destruct ST as [s' i r s1 r' Hr ST|s' a l s1 Hm ST|s' Hm|s' Hm|s' r s1 r' Hm ST|s' Hm|s' Hm|s' Hm HA]; unfold busy, set_main, set_w, set_stopped in *; cbn [stopped finished mainst ws mjob] in *; rewrite ?Hm in *; cbn [mjob app] in *; auto.
    + destruct (upd_split _ _ _ Hr) as (l1 & l2 & EW & _ & U). rewrite EW, flat_map_app in I4. cbn [flat_map] in I4. apply app_eq_nil in I4. destruct I4 as [I4 I5]. apply app_eq_nil in I5. destruct I5 as [I5 I6].
      destruct (RS _ _ _ _ ST I5) as (A1 & A2 & A3 & A4 & A5). rewrite A4, A5, U, flat_map_app. cbn [flat_map]. now rewrite I2, I4, A2, I6.
    + destruct (do_act_frame _ _ _ _ ST) as (F1 & F2 & F3 & F4 & F5). now rewrite F2, F4, F5.
    + unfold drop_work, work_finished. destruct (work s'); cbn [stopped finished ws rjob app]; auto. rewrite I1. auto.
    + destruct (RS _ _ _ _ ST I2) as (A1 & A2 & A3 & A4 & A5). now rewrite A5, A2.
Qed.
End Pool.
