(** Proofs about SearchModel. *)
From Coq Require Import ZArith List Bool Lia Permutation Arith.
From Verif Require Import PoolModel PoolProofs SearchModel.
Import ListNotations.

(** ** results of the parallel search *)
Section Find.
Variable V : Type.
Variables (subdim dimold : list Z -> Z) (eigrange : nat -> list Z) (bp bm : list Z -> V).
Variables (targetdim limit : Z) (mindepth : nat).
Notation node := (list Z).
Notation seq_find := (seq_find V subdim dimold eigrange bp bm targetdim mindepth).
Notation par_find := (par_find V subdim dimold eigrange bp bm targetdim limit mindepth).
Notation job := (job V subdim dimold eigrange bp bm targetdim limit mindepth).
Notation act := (act (nat * node) V V node).
Notation stored := (@stored (nat * node) V V node).
Notation posts := (@posts (nat * node) V V node).
Notation wf := (@wf (nat * node) V V node).
Lemma wf_app l m : wf l -> wf m -> wf (l ++ m).
Proof. intros H Hm. induction H as [|j l H IH|p q a l H IH]; cbn [app]; [exact Hm|constructor; exact IH|]. rewrite <- app_assoc. constructor. exact IH. Qed.
Lemma stored_app l m : wf l -> stored (l ++ m) = stored l ++ stored m.
Proof. intros H. induction H as [|j l H IH|p q a l H IH]; [reflexivity|cbn [app PoolProofs.stored]; exact IH|]. rewrite <- app_assoc. unfold store. cbn [app PoolProofs.stored]. now rewrite IH. Qed.
Lemma posts_app (l m : list act) : posts (l ++ m) = posts l ++ posts m.
Proof. induction l as [|[] l IH]; cbn [app PoolProofs.posts]; auto. now rewrite IH. Qed.
Lemma wf_flat {X} (g : X -> list act) l : (forall x, wf (g x)) -> wf (flat_map g l).
Proof. intros H. induction l; cbn [flat_map]; [constructor|]. now apply wf_app. Qed.
Lemma stored_flat {X} (g : X -> list act) l : (forall x, wf (g x)) -> stored (flat_map g l) = flat_map (fun x => stored (g x)) l.
Proof. intros H. induction l; cbn [flat_map]; [reflexivity|]. now rewrite stored_app, IHl. Qed.
Lemma posts_flat {X} (g : X -> list act) l : posts (flat_map g l) = flat_map (fun x => posts (g x)) l.
Proof. induction l; cbn [flat_map]; [reflexivity|]. now rewrite posts_app, IHl. Qed.
Lemma par_wf k : forall v, wf (par_find k v).
Proof.
  induction k as [|k IH]; intros v; cbn [SearchModel.par_find]; destruct (_ =? _)%Z; try constructor; destruct (_ && _); try (rewrite <- app_nil_r; constructor; constructor); try constructor.
  apply wf_flat. intros e. destruct (_ <? _)%Z; [repeat constructor|]. destruct (_ <? _)%Z; [apply IH|constructor].
Qed.
Lemma job_wf j : wf (job j).
Proof. destruct j as [k v]. unfold SearchModel.job. destruct (_ <? _)%Z; [apply par_wf|constructor]. Qed.
Definition jseq (j : nat * node) : list (V * V * node) := let '(k, v) := j in if (0 <? subdim v)%Z then seq_find k v else [].
(** the sequential results are those stored directly and those of the posted jobs *)
Lemma par_seq f k : forall v, sm f (seq_find k v) = sm f (stored (par_find k v)) + sm (fun j => sm f (jseq j)) (posts (par_find k v)).
Proof.
  induction k as [|k IH]; intros v; cbn [SearchModel.par_find SearchModel.seq_find]; destruct (_ =? _)%Z; cbn [sm PoolProofs.stored PoolProofs.posts]; try reflexivity; destruct (_ && _); cbn [sm PoolProofs.stored PoolProofs.posts store]; try lia.
  assert (WF : forall e, wf (if (limit <? subdim v)%Z then [Post (k, v ++ [e])] else if (0 <? subdim (v ++ [e]))%Z then par_find k (v ++ [e]) else [])).
  { intros e. destruct (_ <? _)%Z; [repeat constructor|]. destruct (_ <? _)%Z; [apply par_wf|constructor]. }
  cbv zeta. rewrite (stored_flat _ _ WF), posts_flat, !sm_flat, <- sm_plus. apply sm_ext. intros e.
  destruct (limit <? subdim v)%Z; cbn [sm PoolProofs.stored PoolProofs.posts jseq]; [lia|]. destruct (0 <? subdim (v ++ [e]))%Z; cbn [sm PoolProofs.stored PoolProofs.posts]; [apply IH|reflexivity].
Qed.
Lemma job_seq f j : sm f (jseq j) = sm f (stored (job j)) + sm (fun j => sm f (jseq j)) (posts (job j)).
Proof. destruct j as [k v]. unfold SearchModel.job, jseq at 1. destruct (_ <? _)%Z; [apply par_seq|reflexivity]. Qed.
Notation init := (init (nat * node) V V node).
Notation steps := (steps (nat * node) V V node job).
Lemma search_results k n s : steps (init n (par_find k [])) s -> mainst s = MClosed -> V ->
  exists R, gp s = map (fun y => fst (fst y)) R /\ gm s = map (fun y => snd (fst y)) R /\ ga s = map snd R /\ cnt s = length R /\
  forall f, sm f R = sm f (seq_find k []).
Proof.
  intros H Hm v0. destruct (closed_results _ _ _ _ job _ job_wf (par_wf k []) n s (v0, v0, []) H Hm) as (R & E1 & E2 & E3 & E4 & E5).
  destruct (closed_all _ _ _ _ job _ n s H Hm) as (_ & _ & _ & _ & PO). exists R. repeat split; auto. intros f. rewrite E5, (par_seq f k []). f_equal.
  specialize (PO (fun j => sm f (jseq j))).
  assert (X : sm (fun j => sm f (jseq j)) (posted s) = sm (fun j => sm f (stored (job j))) (posted s) + sm (fun j => sm (fun j => sm f (jseq j)) (posts (job j))) (posted s)).
  { rewrite <- sm_plus. apply sm_ext. intros j. apply job_seq. }
  lia.
Qed.
(** posting is well-founded *)
Fixpoint jw (k : nat) (v : node) : nat := 8 + match k with O => 0 | S k => sm (fun e => 1 + jw k (v ++ [e])) (eigrange (length v)) end.
Definition jwt (j : nat * node) : nat := jw (fst j) (snd j).
Lemma par_weight k : forall v, 2 + sm (aw _ _ _ _ jwt) (par_find k v) <= jw k v.
Proof.
  induction k as [|k IH]; intros v; cbn [SearchModel.par_find]; destruct (_ =? _)%Z; cbn [sm jw]; try lia; destruct (_ && _); cbn [sm store aw]; try lia.
  rewrite sm_flat. assert (L : forall l, sm (fun e => sm (aw _ _ _ _ jwt) (let c := v ++ [e] in if (limit <? subdim v)%Z then [Post (k, c)] else if (0 <? subdim c)%Z then par_find k c else [])) l <= sm (fun e => 1 + jw k (v ++ [e])) l).
  { induction l as [|e l IHl]; cbn [sm]; [lia|]. apply Nat.add_le_mono; [|exact IHl]. cbv zeta. destruct (_ <? _)%Z; cbn [sm aw]; [unfold jwt; cbn [fst snd]; lia|]. destruct (_ <? _)%Z; cbn [sm]; [specialize (IH (v ++ [e])); lia|lia]. }
  specialize (L (eigrange (length v))). match type of L with ?a <= ?b => match goal with |- 2 + ?c <= _ => change c with a end end. lia.
Qed.
Lemma job_weight j : 2 + sm (aw _ _ _ _ jwt) (job j) <= jwt j.
Proof. destruct j as [k v]. unfold SearchModel.job, jwt. cbn [fst snd]. destruct (_ <? _)%Z; [apply par_weight|]. destruct k; cbn [sm jw]; lia. Qed.
End Find.

(** ** retiring nodes: one thread *)
Section Retire.
Variable kd : list Z -> kind.
Notation node := (list Z).
Notation kids := (kids kd).
Hypothesis Hnd : forall v es, kd v = Posting es -> NoDup es.
Hypothesis Hroot : exists es, kd [] = Posting es.
Lemma isfreed_iff s v : isfreed s v = true <-> In v (freed s).
Proof.
  unfold isfreed. rewrite existsb_exists. split.
  - intros (w & Hw & E). destruct (list_eq_dec Z.eq_dec w v); [congruence|discriminate].
  - intros H. exists v. split; [exact H|]. destruct (list_eq_dec Z.eq_dec v v); congruence.
Qed.
Lemma complete_iff s v : complete kd s v = true <-> forall c, In c (kids v) -> In c (freed s).
Proof. unfold complete. rewrite forallb_forall. split; intros H c Hc; apply isfreed_iff, H, Hc. Qed.
Lemma kids_nd v : NoDup (kids v).
Proof.
  unfold SearchModel.kids. destruct (kd v) as [|es|] eqn:E; try constructor. apply FinFun.Injective_map_NoDup; [|exact (Hnd v es E)].
  intros a b K. apply app_inj_tail in K. tauto.
Qed.
Lemma kid_parent v c : In c (kids v) -> parent c = v /\ c <> [].
Proof.
  unfold SearchModel.kids. destruct (kd v); try contradiction. rewrite in_map_iff. intros (e & <- & _). split; [apply removelast_last|]. destruct v; discriminate.
Qed.
(** the nodes waiting: in the queue, or still to be posted by the running thread *)
Definition pend (p : pc) : list node := match p with PPost v es => map (fun e => v ++ [e]) es | PFind v | PGoDown v => kids v | _ => [] end.
(** the node the thread works on before it is retired *)
Definition cur (p : pc) : list node := match p with PGoDown v | PFind v | PPost v _ | PStatus v => [v] | _ => [] end.
(** the node being retired *)
Definition ret (p : pc) : list node := match p with PUp v | PLock v | PErase v => [v] | _ => [] end.
Definition vis (p : pc) : list node := match p with PUnlock v | PCheck v => [v] | _ => [] end.
(** a created node: the root, or a child, already posted, of a created node *)
Record tinv (s : ts) (p : pc) (made : list node) : Prop := {
  t_pc : pcs s = [p];
  t_uaf : uaf s = false;
  t_root : In [] made /\ ~ In [] (freed s) /\ ~ In [] (jobs s) /\ ~ In [] (cur p) /\ ~ In [] (ret p);
  t_up : forall v, In v made -> v <> [] -> In (parent v) made /\ In v (kids (parent v));
  t_freed : forall v, In v (freed s) -> In v made /\ forall c, In c (kids v) -> In c (freed s);
  t_fleaf : forall v, In v (freed s) -> kd v <> Serial /\ kd v <> Posting [];
  t_jobs : forall v, In v (jobs s) -> In v made /\ ~ In v (freed s) /\ ~ In v (cur p) /\ ~ In v (ret p) /\ forall c, In c (kids v) -> ~ In c made;
  t_jnd : NoDup (jobs s);
  t_cur : forall v, In v (cur p) -> In v made /\ ~ In v (freed s) /\ (p = PStatus v \/ exists a, kids v = a ++ pend p);
  t_pend : forall c, In c (pend p) -> ~ In c made;
  t_ret : forall v, In v (ret p) -> In v made /\ ~ In v (freed s) /\ (forall c, In c (kids v) -> In c (freed s)) /\ kd v <> Serial /\ kd v <> Posting [];
  t_vis : forall v, In v (vis p) -> In v made /\ ~ In v (freed s) /\ kd v <> Serial /\ kids v <> [];
  t_all : forall v c, In v made -> ~ In v (jobs s) -> In c (kids v) -> In c (pend p) \/ In c made;
  t_done : forall v, In v made -> kids v <> [] -> v <> [] -> (forall c, In c (kids v) -> In c (freed s)) -> In v (freed s) \/ In v (ret p) \/ In v (vis p);
  t_leaf : forall v, In v made -> kd v = Leaf -> In v (freed s) \/ In v (jobs s) \/ In v (cur p) \/ In v (ret p);
  t_lock : match p with PErase v => locked s = [parent v] | PUnlock v => locked s = [v] | _ => locked s = [] end
}.
Lemma alive_parent s p made v : tinv s p made -> In v made -> v <> [] -> ~ In v (freed s) -> ~ In (parent v) (freed s).
Proof. intros I H N K F. destruct (t_up _ _ _ I v H N) as [_ HK]. destruct (t_freed _ _ _ I _ F) as [_ C]. exact (K (C v HK)). Qed.
Lemma noacc s vs : (forall v, In v vs -> ~ In v (freed s)) -> existsb (isfreed s) vs = false.
Proof.
  intros H. destruct (existsb (isfreed s) vs) eqn:E; [|reflexivity]. apply existsb_exists in E. destruct E as (v & Hv & Fv). apply isfreed_iff in Fv. exfalso. exact (H v Hv Fv).
Qed.
Lemma mv_pc s q : forall p, pcs s = [p] -> upd (pcs s) 0 q = [q].
Proof. intros p ->. reflexivity. Qed.
Lemma tinv_step s p made i s' : tinv s p made -> tstep kd s i s' -> exists p' made', tinv s' p' made'.
Proof.
  intros I H. pose proof I as [A1 A2 (R1 & R2 & R3 & R4 & R5) A4 A5 A6 A7 A8 A9 A10 A11 A12 A13 A14 A15 A16].
  assert (I0 : forall q, nth_error (pcs s) i = Some q -> i = 0 /\ q = p).
  { intros q. rewrite A1. destruct i as [|[|]]; cbn; intros K; try discriminate. injection K as <-. auto. }
  destruct H as [q1 v q2 Hi HQ|v Hi|v Hi|v e es Hi|v Hi|v Hi|v Hi|v Hi HL|v Hi|v Hi|v Hi]; destruct (I0 _ Hi) as [-> <-]; clear I0 Hi; cbn [cur ret vis pend] in *.
  - (* take *)
    assert (Jv : In v (jobs s)) by (rewrite HQ; apply in_elt). destruct (A7 v Jv) as (V1 & V2 & _ & _ & V5).
    assert (ND : NoDup (q1 ++ q2) /\ ~ In v (q1 ++ q2)) by (rewrite HQ in A8; split; [exact (NoDup_remove_1 _ _ _ A8)|exact (NoDup_remove_2 _ _ _ A8)]). destruct ND as [ND NI].
    assert (SUB : forall x, In x (q1 ++ q2) -> In x (jobs s)) by (intros x Hx; rewrite HQ; apply in_app_iff in Hx; apply in_app_iff; cbn; tauto).
    assert (SUB' : forall x, In x (jobs s) -> x = v \/ In x (q1 ++ q2)) by (intros x Hx; rewrite HQ in Hx; apply in_app_iff in Hx; rewrite in_app_iff; cbn in Hx; destruct Hx as [|[|]]; auto).
    exists (PGoDown v), made. constructor; unfold move; cbn [freed locked jobs pcs uaf cur ret vis pend existsb]; auto.
    + rewrite A1. reflexivity.
    + now rewrite A2.
    + split; [auto|]. split; [auto|]. split; [intros K; exact (R3 (SUB _ K))|]. split; [intros [K|[]]; subst v; exact (R3 Jv)|tauto].
    + intros x Hx. destruct (A7 x (SUB x Hx)) as (X1 & X2 & _ & _ & X5). repeat split; auto. intros [K|[]]. subst x. contradiction.
    + intros x [<-|[]]. repeat split; auto. right. exists []. reflexivity.
    + intros x c Hx NJ Hc. destruct (list_eq_dec Z.eq_dec x v) as [->|NE]; [left; exact Hc|]. destruct (A13 x c Hx) as [[]|K]; auto. intros K. destruct (SUB' x K); contradiction.
    + intros x Hx Lx. destruct (A15 x Hx Lx) as [K|[K|[[]|[]]]]; [auto|]. destruct (SUB' x K) as [->|K']; [right; right; left; now left|auto].
  - (* go_down *)
    destruct (A9 v (or_introl eq_refl)) as (V1 & V2 & V3). assert (VN : v <> []) by (intros ->; apply R4; now left).
    exists (PFind v), made. constructor; unfold move; cbn [freed locked jobs pcs uaf cur ret vis pend]; auto.
    + rewrite A1. reflexivity.
    + rewrite A2. apply noacc. intros w [<-|[<-|[]]]; [exact V2|]. exact (alive_parent s _ made v I V1 VN V2).
    + intros w [<-|[]]. repeat split; auto. right. exists []. reflexivity.
  - (* find *)
    destruct (A9 v (or_introl eq_refl)) as (V1 & V2 & V3). assert (VN : v <> []) by (intros ->; apply R4; now left).
    assert (UA : uaf s || existsb (isfreed s) [v; parent v] = false) by (rewrite A2; apply noacc; intros w [<-|[<-|[]]]; [exact V2|]; exact (alive_parent s _ made v I V1 VN V2)).
    assert (ALT : kids v = [] -> exists p' made', tinv (move s 0 [v; parent v] (PStatus v)) p' made').
    { intros K0. exists (PStatus v), made. constructor; unfold move; cbn [freed locked jobs pcs uaf cur ret vis pend]; auto; try solve [repeat split; auto; intros []].
      - rewrite A1. reflexivity.
      - intros w [<-|[]]. repeat split; auto.
      - intros x c Hx NJ Hc. destruct (A13 x c Hx NJ Hc) as [K|K]; auto. rewrite K0 in K. destruct K. }
    destruct (kd v) as [|es|] eqn:EK; [apply ALT; unfold SearchModel.kids; now rewrite EK| |apply ALT; unfold SearchModel.kids; now rewrite EK].
    assert (KV : kids v = map (fun e => v ++ [e]) es) by (unfold SearchModel.kids; now rewrite EK).
    exists (PPost v es), made. constructor; unfold move; cbn [freed locked jobs pcs uaf cur ret vis pend]; auto; try solve [repeat split; auto; intros []].
    + rewrite A1. reflexivity.
    + intros w [<-|[]]. repeat split; auto. right. exists []. cbn. exact KV.
    + now rewrite <- KV.
    + now rewrite <- KV.
  - (* post one child *)
    destruct (A9 v (or_introl eq_refl)) as (V1 & V2 & V3). assert (VN : v <> []) by (intros ->; apply R4; now left).
    destruct V3 as [V3|(a & V3)]; [discriminate|]. cbn [map] in V3.
    assert (CI : In (v ++ [e]) (kids v)) by (rewrite V3; apply in_elt).
    assert (CN : ~ In (v ++ [e]) made) by (apply A10; now left).
    assert (CNE : v ++ [e] <> []) by (destruct v; discriminate).
    assert (NVC : v <> v ++ [e]) by (intros K; apply CN; now rewrite <- K).
    assert (FC : ~ In (v ++ [e]) (freed s)) by (intros K; apply CN; now apply A5).
    assert (JC : ~ In (v ++ [e]) (jobs s)) by (intros K; apply CN; now apply A7).
    assert (PND : NoDup (kids v)) by apply kids_nd.
    (* no child of the new child exists yet *)
    assert (KC : forall c, In c (kids (v ++ [e])) -> ~ In c ((v ++ [e]) :: made)).
    { intros c Hc [K|K]; destruct (kid_parent _ _ Hc) as [PC NC].
      - rewrite <- K in PC. unfold parent in PC. rewrite removelast_last in PC. contradiction.
      - destruct (A4 c K NC) as [P1 _]. rewrite PC in P1. contradiction. }
    exists (PPost v es), ((v ++ [e]) :: made). constructor; unfold add_jobs, move; cbn [freed locked jobs pcs uaf cur ret vis pend]; auto; try solve [repeat split; auto; intros []].
    + rewrite A1. reflexivity.
    + rewrite A2. apply noacc. intros w [<-|[]]. exact V2.
    + split; [now right|]. split; [auto|]. split; [|auto]. rewrite in_app_iff. intros [K|[K|[]]]; [contradiction|]. now apply CNE.
    + intros w [<-|Hw] NW.
      * unfold parent. rewrite removelast_last. split; [now right|exact CI].
      * destruct (A4 w Hw NW). split; [now right|auto].
    + intros w Hw. destruct (A5 w Hw). split; [now right|auto].
    + intros w Hw. apply in_app_iff in Hw. destruct Hw as [Hw|[<-|[]]].
      * destruct (A7 w Hw) as (W1 & W2 & W3 & W4 & W5). split; [now right|]. split; [auto|]. split; [auto|]. split; [auto|]. intros c Hc [K|K]; [|exact (W5 c Hc K)].
        subst c. destruct (kid_parent _ _ Hc) as [PC _]. unfold parent in PC. rewrite removelast_last in PC. apply W3. now left.
      * split; [now left|]. split; [exact FC|]. split; [intros [K|[]]; congruence|]. split; [tauto|]. exact KC.
    + rewrite <- (rev_involutive (jobs s ++ _)), rev_app_distr. apply NoDup_rev. cbn. constructor; [now rewrite <- in_rev|]. now apply NoDup_rev.
    + intros w [<-|[]]. split; [now right|]. split; [exact V2|]. right. exists (a ++ [v ++ [e]]). rewrite <- app_assoc. exact V3.
    + intros c Hc [K|K]; [|exact (A10 c (or_intror Hc) K)]. rewrite V3 in PND. apply NoDup_remove_2 in PND. apply PND. apply in_app_iff. right. now rewrite K.
    + intros w [].
    + intros w [].
    + intros x c [<-|Hx] NJ Hc.
      * exfalso. apply NJ. apply in_app_iff. right. now left.
      * destruct (A13 x c Hx) as [K|K]; auto; [intros K; apply NJ; apply in_app_iff; now left| |right; now right]. cbn in K. destruct K as [K|K]; [right; now left|now left].
    + intros x [<-|Hx] NK NX AF.
      * destruct (kids (v ++ [e])) as [|c l] eqn:EK; [congruence|]. exfalso. apply (KC c (or_introl eq_refl)). right. apply A5. apply AF. now left.
      * destruct (A14 x Hx NK NX AF) as [K|[[]|[]]]. now left.
    + intros x [<-|Hx] LX; [right; left; apply in_app_iff; right; now left|]. destruct (A15 x Hx LX) as [K|[K|[K|[]]]]; auto. right. left. apply in_app_iff. now left.
  - (* all posted *)
    destruct (A9 v (or_introl eq_refl)) as (V1 & V2 & V3).
    exists (PStatus v), made. constructor; unfold move; cbn [freed locked jobs pcs uaf cur ret vis pend existsb]; auto; try solve [repeat split; auto; intros []].
    + rewrite A1. reflexivity.
    + now rewrite A2.
    + intros w [<-|[]]. auto.
  - (* status *)
    destruct (A9 v (or_introl eq_refl)) as (V1 & V2 & V3). assert (VN : v <> []) by (intros ->; apply R4; now left).
    assert (UA : uaf s || existsb (isfreed s) [v] = false) by (rewrite A2; apply noacc; intros w [<-|[]]; exact V2).
    destruct (kd v) as [|es|] eqn:EK.
    + assert (K0 : kids v = []) by (unfold SearchModel.kids; now rewrite EK).
      exists (PUp v), made. constructor; unfold move; cbn [freed locked jobs pcs uaf cur ret vis pend]; auto; try solve [repeat split; auto; intros []].
      * rewrite A1. reflexivity.
      * intros w Hw. destruct (A7 w Hw) as (W1 & W2 & W3 & W4 & W5). auto.
      * intros w [].
      * intros w [<-|[]]. repeat split; auto; [|congruence|congruence]. rewrite K0. intros c [].
      * intros x Hx NK NX AF. destruct (A14 x Hx NK NX AF) as [K|[[]|[]]]. now left.
      * intros x Hx LX. destruct (A15 x Hx LX) as [K|[K|[K|[]]]]; auto.
    + exists PIdle, made. constructor; unfold move; cbn [freed locked jobs pcs uaf cur ret vis pend]; auto; try solve [repeat split; auto; intros []].
      * rewrite A1. reflexivity.
      * intros w Hw. destruct (A7 w Hw) as (W1 & W2 & W3 & W4 & W5). auto.
      * intros w [].
      * intros x Hx LX. destruct (A15 x Hx LX) as [K|[K|[[K|[]]|[]]]]; auto. congruence.
    + exists PIdle, made. constructor; unfold move; cbn [freed locked jobs pcs uaf cur ret vis pend]; auto; try solve [repeat split; auto; intros []].
      * rewrite A1. reflexivity.
      * intros w Hw. destruct (A7 w Hw) as (W1 & W2 & W3 & W4 & W5). auto.
      * intros w [].
      * intros x Hx LX. destruct (A15 x Hx LX) as [K|[K|[[K|[]]|[]]]]; auto. congruence.
  - (* go_up *)
    destruct (A11 v (or_introl eq_refl)) as (V1 & V2 & V3 & V4 & V5).
    exists (PLock v), made. constructor; unfold move; cbn [freed locked jobs pcs uaf cur ret vis pend]; auto; try solve [repeat split; auto; intros []].
    + rewrite A1. reflexivity.
    + rewrite A2. apply noacc. intros w [<-|[]]. exact V2.
    + intros w [].
  - (* lock the parent *)
    destruct (A11 v (or_introl eq_refl)) as (V1 & V2 & V3 & V4 & V5). assert (VN : v <> []) by (intros ->; apply R5; now left).
    exists (PErase v), made. constructor; unfold set_locked, move; cbn [freed locked jobs pcs uaf cur ret vis pend]; auto; try solve [repeat split; auto; intros []].
    + rewrite A1. reflexivity.
    + rewrite A2. apply noacc. intros w [<-|[]]. exact (alive_parent s _ made v I V1 VN V2).
    + intros w [].
    + now rewrite A16.
  - (* erase *)
    destruct (A11 v (or_introl eq_refl)) as (V1 & V2 & V3 & V4 & V5). assert (VN : v <> []) by (intros ->; apply R5; now left).
    destruct (A4 v V1 VN) as [P1 P2]. assert (PA : ~ In (parent v) (freed s)) by exact (alive_parent s _ made v I V1 VN V2).
    assert (PV : parent v <> v).
    { intros K. apply (f_equal (@length Z)) in K. unfold parent in K. assert (L : v = removelast v ++ [last v 0%Z]) by now apply app_removelast_last. apply (f_equal (@length Z)) in L. rewrite app_length in L. cbn in L. lia. }
    exists (PUnlock (parent v)), made. constructor; unfold free, move; cbn [freed locked jobs pcs uaf cur ret vis pend]; auto; try solve [repeat split; auto; intros []].
    + rewrite A1. reflexivity.
    + rewrite A2. apply noacc. intros w [<-|[<-|[]]]; auto.
    + repeat split; auto; try solve [intros []]. intros [K|K]; auto.
    + intros w [<-|Hw]; [|destruct (A5 w Hw) as [W1 W2]; split; [auto|]; intros c Hc; right; auto]. split; [auto|]. intros c Hc. right. auto.
    + intros w [<-|Hw]; auto.
    + intros w Hw. destruct (A7 w Hw) as (W1 & W2 & W3 & W4 & W5). repeat split; auto. intros [K|K]; [|auto]. apply W4. now left.
    + intros w [].
    + intros w [].
    + intros w [<-|[]]. repeat split; auto.
      * intros [K|K]; [congruence|contradiction].
      * unfold SearchModel.kids in P2. intros K. rewrite K in P2. destruct P2.
      * intros K. rewrite K in P2. destruct P2.
    + intros x Hx NK NX AF. destruct (list_eq_dec Z.eq_dec x (parent v)) as [->|NE]; [right; right; now left|].
      assert (AF' : forall c, In c (kids x) -> In c (freed s)).
      { intros c Hc. destruct (AF c Hc) as [K|K]; [|exact K]. subst c. destruct (kid_parent _ _ Hc) as [PC _]. congruence. }
      destruct (A14 x Hx NK NX AF') as [K|[[K|[]]|[]]]; left; [now right|now left].
    + intros x Hx LX. destruct (A15 x Hx LX) as [K|[K|[[]|[K|[]]]]]; [left; now right|auto|left; now left].
  - (* unlock *)
    destruct (A12 v (or_introl eq_refl)) as (V1 & V2 & V3 & V4).
    exists (PCheck v), made. constructor; unfold set_locked, move; cbn [freed locked jobs pcs uaf cur ret vis pend]; auto; try solve [repeat split; auto; intros []].
    + rewrite A1. reflexivity.
    + rewrite A2. apply noacc. intros w [<-|[]]. exact V2.
    + intros w [].
    + rewrite A16. unfold remove1. cbn. destruct (list_eq_dec Z.eq_dec v v); congruence.
  - (* check *)
    destruct (A12 v (or_introl eq_refl)) as (V1 & V2 & V3 & V4).
    assert (UA : uaf s || existsb (isfreed s) [v] = false) by (rewrite A2; apply noacc; intros w [<-|[]]; exact V2).
    destruct (complete kd s v && negb match v with [] => true | _ => false end) eqn:EC.
    + apply andb_true_iff in EC. destruct EC as [EC NV]. rewrite complete_iff in EC. assert (VN : v <> []) by (intros ->; discriminate NV).
      assert (NJ : ~ In v (jobs s)).
      { intros K. destruct (A7 v K) as (_ & _ & _ & _ & W5). destruct (kids v) as [|c l] eqn:EK; [congruence|]. apply (W5 c (or_introl eq_refl)). apply A5. apply EC. now left. }
      exists (PUp v), made. constructor; unfold move; cbn [freed locked jobs pcs uaf cur ret vis pend]; auto; try solve [repeat split; auto; intros []].
      * rewrite A1. reflexivity.
      * repeat split; auto; try solve [intros []]. intros [K|[]]. auto.
      * intros w Hw. destruct (A7 w Hw) as (W1 & W2 & W3 & W4 & W5). repeat split; auto. intros [K|[]]. subst w. contradiction.
      * intros w [].
      * intros w [<-|[]]. repeat split; auto. intros K. apply V4. unfold SearchModel.kids. now rewrite K.
      * intros w [].
      * intros x Hx NK NX AF. destruct (A14 x Hx NK NX AF) as [K|[[]|[K|[]]]]; auto. right. left. now left.
      * intros x Hx LX. destruct (A15 x Hx LX) as [K|[K|[[]|[]]]]; auto.
    + exists PIdle, made. constructor; unfold move; cbn [freed locked jobs pcs uaf cur ret vis pend]; auto; try solve [repeat split; auto; intros []].
      * rewrite A1. reflexivity.
      * intros w [].
      * intros w [].
      * intros x Hx NK NX AF. destruct (A14 x Hx NK NX AF) as [K|[[]|[K|[]]]]; auto. subst x. exfalso.
        assert (complete kd s v = true) by now apply complete_iff. rewrite H in EC. cbn [andb] in EC. destruct v; [congruence|discriminate EC].
Qed.
Lemma tinit_inv : exists made, tinv (tinit kd 1) PIdle made.
Proof.
  destruct Hroot as (es & ER). assert (NR : forall v c, In c (kids v) -> c <> []) by (intros v c Hc; now apply (kid_parent v)).
  assert (KK : forall v c, In v (kids []) -> In c (kids v) -> ~ In c ([] :: kids [])).
  { intros v c Hv Hc [K|K]; [apply (NR v c Hc); auto|]. destruct (kid_parent _ _ Hv) as [P1 N1], (kid_parent _ _ Hc) as [P2 _], (kid_parent _ _ K) as [P3 _]. congruence. }
  exists ([] :: kids []). unfold tinit. constructor; cbn [freed locked jobs pcs uaf cur ret vis pend repeat]; auto.
  - repeat split; auto; [now left|]. intros K. now apply (NR [] []).
  - intros v [<-|Hv] NV; [congruence|]. destruct (kid_parent _ _ Hv) as [-> _]. split; [now left|exact Hv].
  - intros v [].
  - intros v Hv. split; [now right|]. repeat split; auto. intros c Hc. now apply (KK v).
  - apply kids_nd.
  - intros v [].
  - intros v [].
  - intros v [].
  - intros v c [<-|Hv] NJ Hc; [right; now right|contradiction].
  - intros v [<-|Hv] NK NV AF; [congruence|]. destruct (kids v) as [|c l]; [congruence|]. destruct (AF c (or_introl eq_refl)).
  - intros v [<-|Hv] LV; [congruence|auto].
Qed.
Lemma one_thread s : tsteps kd (tinit kd 1) s -> exists p made, tinv s p made.
Proof.
  intros H. remember (tinit kd 1) as s0 eqn:E. induction H as [|s s' i s'' H IH ST]; subst.
  - destruct tinit_inv as (made & I). eauto.
  - destruct (IH eq_refl) as (p & made & I). eapply tinv_step; eauto.
Qed.
End Retire.

(** ** at the end of a run with one thread *)
Section End.
Variable kd : list Z -> kind.
Notation node := (list Z).
Notation kids := (kids kd).
Hypothesis Hnd : forall v es, kd v = Posting es -> NoDup es.
Hypothesis Hroot : exists es, kd [] = Posting es.
(** nodes of the tree *)
Inductive tree : node -> Prop :=
| tree_root : tree []
| tree_kid v es e : tree v -> kd v = Posting es -> In e es -> tree (v ++ [e]).
(** nodes below which nothing remains to be kept *)
Inductive retirable : node -> Prop :=
| ret_leaf v : kd v = Leaf -> retirable v
| ret_kids v es : kd v = Posting es -> es <> [] -> (forall e, In e es -> retirable (v ++ [e])) -> retirable v.
Lemma in_kids v c : In c (kids v) <-> exists es e, kd v = Posting es /\ In e es /\ c = v ++ [e].
Proof.
  unfold SearchModel.kids. destruct (kd v) as [|es|]; [split; [intros []|intros (? & ? & ? & _); discriminate]| |split; [intros []|intros (? & ? & ? & _); discriminate]].
  rewrite in_map_iff. split; [intros (e & <- & H); eauto 6|]. intros (es' & e & K & H & ->). injection K as <-. eauto.
Qed.
Lemma freed_nd s : tsteps kd (tinit kd 1) s -> NoDup (freed s).
Proof.
  intros H. remember (tinit kd 1) as s0 eqn:E. revert E. induction H as [|s s' i s'' H IH ST]; intros E; subst; [constructor|].
  specialize (IH eq_refl). destruct (one_thread kd Hnd Hroot s' H) as (p & made & I).
  destruct ST as [q1 v q2 Hi HQ|v Hi|v Hi|v e es Hi|v Hi|v Hi|v Hi|v Hi HL|v Hi|v Hi|v Hi]; unfold move, add_jobs, set_locked, free; cbn [freed]; auto.
  constructor; [|exact IH]. rewrite (t_pc _ _ _ _ I) in Hi. destruct i as [|[|]]; try discriminate. injection Hi as ->.
  apply (t_ret _ _ _ _ I). now left.
Qed.
Lemma ended s : tsteps kd (tinit kd 1) s -> jobs s = [] -> pcs s = [PIdle] ->
  forall v, v <> [] -> (In v (freed s) <-> tree v /\ retirable v).
Proof.
  intros H HJ HP v NV. destruct (one_thread kd Hnd Hroot s H) as (p & made & I). pose proof (t_pc _ _ _ _ I) as E. rewrite HP in E. injection E as <-.
  destruct I as [A1 A2 (R1 & R2 & R3 & R4 & R5) A4 A5 A6 A7 A8 A9 A10 A11 A12 A13 A14 A15 A16]. cbn [cur ret vis pend] in *.
  assert (MT : forall n v, length v = n -> In v made -> tree v).
  { induction n as [|n IH]; intros w L Hw; [destruct w; [constructor|discriminate]|]. assert (NW : w <> []) by (intros ->; discriminate).
    destruct (A4 w Hw NW) as [P1 P2]. apply in_kids in P2. destruct P2 as (es & e & K1 & K2 & K3). rewrite K3. econstructor; eauto. apply IH; [|exact P1].
    rewrite K3, app_length in L. cbn in L. lia. }
  assert (TM : forall v, tree v -> In v made).
  { intros w T. induction T as [|w es e T IH K HI]; [exact R1|]. destruct (A13 w (w ++ [e]) IH) as [[]|X]; auto; [now rewrite HJ|]. apply in_kids. eauto. }
  split.
  - (* freed nodes *)
    intros F. split; [apply (MT _ v eq_refl), A5, F|].
    (* the children of freed nodes are freed: induction needs a bound on the depth *)
    assert (D : exists d, forall w, In w (freed s) -> length w <= d).
    { clear. induction (freed s) as [|a l [d IH]]; [exists 0; intros w []|]. exists (max d (length a)). intros w [<-|Hw]; [lia|]. specialize (IH w Hw). lia. }
    destruct D as (d & D). remember (S d - length v) as m eqn:EM. revert v NV F EM. induction m as [|m IH]; intros v NV F EM; [specialize (D v F); lia|].
    destruct (A6 v F) as [N1 N2]. destruct (kd v) as [|es|] eqn:EK; [now apply ret_leaf| |congruence].
    apply (ret_kids v es EK); [congruence|]. intros e He. assert (FC : In (v ++ [e]) (freed s)) by (apply (proj2 (A5 v F)), in_kids; eauto).
    apply IH; [destruct v; discriminate|exact FC|]. rewrite app_length. cbn [length]. lia.
  - intros [T R]. revert T NV. induction R as [v EK|v es EK NE HR IH]; intros T NV.
    + destruct (A15 v (TM v T) EK) as [K|[K|[[]|[]]]]; [exact K|]. rewrite HJ in K. destruct K.
    + destruct (A14 v (TM v T)) as [K|[[]|[]]]; auto.
      * intros K. destruct es as [|e es]; [congruence|]. assert (X : In (v ++ [e]) (kids v)) by (apply in_kids; exists (e :: es), e; split; [exact EK|split; [now left|reflexivity]]). rewrite K in X. destruct X.
      * intros c Hc. apply in_kids in Hc. destruct Hc as (es' & e & K1 & K2 & ->). rewrite EK in K1. injection K1 as <-. apply IH; auto; [econstructor; eauto|destruct v; discriminate].
Qed.
(** one thread is never stuck *)
Lemma one_progress s : tsteps kd (tinit kd 1) s -> (jobs s = [] /\ pcs s = [PIdle]) \/ exists s', tstep kd s 0 s'.
Proof.
  intros H. destruct (one_thread kd Hnd Hroot s H) as (p & made & I). pose proof (t_pc _ _ _ _ I) as E. pose proof (t_lock _ _ _ _ I) as L.
  assert (N0 : nth_error (pcs s) 0 = Some p) by now rewrite E.
  destruct p as [|v|v|v [|e es]|v|v|v|v|v|v]; try (right; eexists; econstructor; exact N0).
  - destruct (jobs s) as [|v q] eqn:EJ; [left; auto|]. right. eexists. apply (t_take kd s 0 [] v q); auto.
  - right. eexists. apply (SearchModel.t_lock kd s 0 v); auto. unfold islocked. now rewrite L.
Qed.
End End.

(** ** executing a schedule *)
Definition run1 (kd : list Z -> kind) (s : ts) (i : nat) : option ts :=
  match nth_error (pcs s) i with
  | Some PIdle => match jobs s with v :: q => Some (move (Ts (freed s) (locked s) q (pcs s) (uaf s)) i [] (PGoDown v)) | [] => None end
  | Some (PGoDown v) => Some (move s i [v; parent v] (PFind v))
  | Some (PFind v) => Some (move s i [v; parent v] (match kd v with Posting es => PPost v es | _ => PStatus v end))
  | Some (PPost v (e :: es)) => Some (add_jobs (move s i [v] (PPost v es)) [v ++ [e]])
  | Some (PPost v []) => Some (move s i [] (PStatus v))
  | Some (PStatus v) => Some (move s i [v] (match kd v with Leaf => PUp v | _ => PIdle end))
  | Some (PUp v) => Some (move s i [v] (PLock v))
  | Some (PLock v) => if islocked s (parent v) then None else Some (set_locked (move s i [parent v] (PErase v)) (parent v :: locked s))
  | Some (PErase v) => Some (free (move s i [v; parent v] (PUnlock (parent v))) v)
  | Some (PUnlock p) => Some (set_locked (move s i [p] (PCheck p)) (remove1 p (locked s)))
  | Some (PCheck p) => Some (move s i [p] (if complete kd s p && negb (match p with [] => true | _ => false end) then PUp p else PIdle))
  | None => None
  end.
Lemma run1_step kd s i s' : run1 kd s i = Some s' -> tstep kd s i s'.
Proof.
  unfold run1. destruct (nth_error (pcs s) i) as [p|] eqn:E; [|discriminate]. destruct p as [|v|v|v [|e es]|v|v|v|v|v|v]; try (intros K; injection K as <-; econstructor; exact E).
  - destruct (jobs s) as [|v q] eqn:EJ; [discriminate|]. intros K; injection K as <-. now apply (t_take kd s i [] v q).
  - destruct (islocked s (parent v)) eqn:L; [discriminate|]. intros K; injection K as <-. now apply (SearchModel.t_lock kd s i v).
Qed.
Fixpoint runs (kd : list Z -> kind) (s : ts) (l : list nat) : option ts :=
  match l with [] => Some s | i :: l => match run1 kd s i with Some s' => runs kd s' l | None => None end end.
Lemma tsteps_cons kd s s1 i s2 : tstep kd s i s1 -> tsteps kd s1 s2 -> tsteps kd s s2.
Proof. intros H K. induction K as [s1|s1 s2 j s3 K IH ST]; [eapply ts_step; [constructor|exact H]|eapply ts_step; [exact (IH H)|exact ST]]. Qed.
Lemma runs_steps kd l : forall s s', runs kd s l = Some s' -> tsteps kd s s'.
Proof.
  induction l as [|i l IH]; intros s s'; cbn [runs]; [intros K; injection K as <-; constructor|]. destruct (run1 kd s i) as [s1|] eqn:E; [|discriminate].
  intros K. eapply tsteps_cons; [apply run1_step; exact E|now apply IH].
Qed.
