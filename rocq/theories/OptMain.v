(** Calls until EOF produce the meaning of the arguments and the permuted argv. *)
From Coq Require Import ZArith Lia List Bool Permutation.
From Verif Require Import Base OptModel OptSpec OptProofs.
Import ListNotations.
Open Scope Z_scope.
Open Scope res_scope.

Notation len l := (Z.of_nat (length l)).
Lemma firstn_app_l {A} (a b : list A) n : n = length a -> firstn n (a ++ b) = a.
Proof. intros ->. rewrite firstn_app, Nat.sub_diag, firstn_all, firstn_O, app_nil_r. reflexivity. Qed.
Lemma skipn_app_l {A} (a b : list A) n : n = length a -> skipn n (a ++ b) = b.
Proof. intros ->. rewrite skipn_app, Nat.sub_diag, skipn_all. reflexivity. Qed.
Lemma skipn_twice {A} (l : list A) : forall a b, skipn a (skipn b l) = skipn (b + a) l.
Proof. intros a b. revert l. induction b as [|b IH]; intros l; cbn [Nat.add]; auto. destruct l; [rewrite !skipn_nil; auto|]. cbn [skipn]. apply IH. Qed.
Lemma len_app {A} (a b : list A) : len (a ++ b) = len a + len b.
Proof. rewrite app_length. lia. Qed.
Lemma len_cons {A} (x : A) (b : list A) : len (x :: b) = 1 + len b.
Proof. cbn [length]. lia. Qed.
Lemma g_at_ok (a b : list str) x i : i = len a -> g_at (a ++ x :: b) i = Ok x.
Proof. intros ->. unfold g_at. destruct (Z.ltb_spec (len a) 0); [lia|]. rewrite Nat2Z.id, nth_error_app2, Nat.sub_diag by lia. reflexivity. Qed.

Section Run.
Variables (strict : bool) (o : order) (opts : str) (prog : str).
Notation scan := (scans strict o opts).
Notation call := (g_call strict o opts).

(** argv is the program, finished options, operands, new options, and the rest *)
Definition inv (g : go) (O P N rest : list str) : Prop :=
  g_argv g = prog :: O ++ P ++ N ++ rest /\ g_ind g = 1 + len O + len P + len N /\
  ((P = [] /\ g_first g = g_last g /\ 0 <= g_first g <= g_ind g) \/ (P <> [] /\ o = Permute /\ g_first g = 1 + len O /\ g_last g = 1 + len O + len P)).

Lemma exchange_ok g O P N rest : g_argv g = prog :: O ++ P ++ N ++ rest -> g_ind g = 1 + len O + len P + len N -> g_first g = 1 + len O -> g_last g = 1 + len O + len P -> (strict = true -> len N <= len P) ->
  g_exchange strict g = Ok (Go (prog :: O ++ N ++ P ++ rest) (g_ind g) (1 + len O + len N) (g_ind g) (g_next g) (g_arg g)).
Proof.
  intros E1 E2 E3 E4 S. unfold g_exchange. rewrite E1, E2, E3, E4. assert (L : len (prog :: O ++ P ++ N ++ rest) = 1 + len O + len P + len N + len rest) by (rewrite len_cons, !len_app; lia). rewrite L.
  destruct (Z.ltb_spec (1 + len O + len P - (1 + len O)) 0); [lia|]. destruct (Z.ltb_spec (1 + len O) 0); [lia|]. destruct (Z.ltb_spec (1 + len O + len P + len N + len rest) (1 + len O + len P)); [lia|]. cbn [orb].
  replace (1 + len O + len P - (1 + len O)) with (len P) by lia. replace (1 + len O + len P + len N - (1 + len O + len P)) with (len N) by lia. replace (1 + len O + (1 + len O + len P + len N) - (1 + len O + len P)) with (1 + len O + len N) by lia.
  unfold g_copy. rewrite L. destruct (Z.ltb_spec (len N) 0); [lia|]. destruct (Z.ltb_spec (1 + len O) 0); [lia|]. destruct (Z.ltb_spec (1 + len O + len P) 0); [lia|]. destruct (Z.ltb_spec (1 + len O + len P + len N + len rest) (1 + len O + len N)); [lia|]. destruct (Z.ltb_spec (1 + len O + len P + len N + len rest) (1 + len O + len P + len N)); [lia|]. cbn [orb].
  replace (strict && (0 <? len N) && (Z.abs (1 + len O - (1 + len O + len P)) <? len N)) with false.
  2:{ symmetry. destruct strict; auto. cbn [andb]. specialize (S eq_refl). destruct (Z.ltb_spec (Z.abs (1 + len O - (1 + len O + len P))) (len N)); [lia|]. apply andb_false_r. }
  rewrite bind_Ok'. change (prog :: O ++ P ++ N ++ rest) with ((prog :: O) ++ P ++ N ++ rest). replace (Z.to_nat (1 + len O)) with (length (prog :: O)) by (cbn [length]; lia).
  rewrite (firstn_app_l (prog :: O) _ _ eq_refl), (skipn_app_l (prog :: O) _ _ eq_refl), !Nat2Z.id, (firstn_app_l P _ _ eq_refl). replace (Z.to_nat (1 + len O + len P)) with (length ((prog :: O) ++ P)) by (rewrite app_length; cbn [length]; lia). rewrite (app_assoc (prog :: O) P), (skipn_app_l ((prog :: O) ++ P) _ _ eq_refl), (firstn_app_l N _ _ eq_refl).
  set (X := skipn (Z.to_nat (1 + len O + len N)) (((prog :: O) ++ P) ++ N ++ rest)). assert (LX : length X = (length P + length rest)%nat) by (unfold X; rewrite skipn_length, !app_length; cbn [length]; lia).
  unfold g_paste. rewrite (app_assoc (prog :: O) N X). assert (LA : len (((prog :: O) ++ N) ++ X) = 1 + len O + len N + len P + len rest) by (rewrite !len_app, LX, len_cons; lia). rewrite LA. destruct (Z.ltb_spec (1 + len O + len N) 0); [lia|]. destruct (Z.ltb_spec (1 + len O + len N + len P + len rest) (1 + len O + len N + len P)); [lia|]. cbn [orb]. rewrite bind_Ok'.
  replace (Z.to_nat (1 + len O + len N)) with (length ((prog :: O) ++ N)) by (rewrite app_length; cbn [length]; lia). rewrite (firstn_app_l ((prog :: O) ++ N) _ _ eq_refl). f_equal.
  assert (R : skipn (length ((prog :: O) ++ N) + length P) (((prog :: O) ++ N) ++ X) = rest). { rewrite skipn_app. rewrite skipn_all2 by lia. cbn [app]. replace (length ((prog :: O) ++ N) + length P - length ((prog :: O) ++ N))%nat with (length P) by lia. unfold X. rewrite skipn_twice. rewrite (app_assoc ((prog :: O) ++ P)). apply skipn_app_l. rewrite !app_length. cbn [length]. lia. }
  rewrite R. cbn [app]. rewrite <- app_assoc. f_equal.
Qed.
(** the state after the exchange, and after the skip *)
Definition st (O P rest : list str) (k : Z) nx ar : go := Go (prog :: O ++ P ++ rest) (1 + len O + len P + k) (1 + len O) (1 + len O + len P + k) nx ar.
Lemma prefix_ok g O P N rest : o = Permute -> inv g O P N rest -> (strict = true -> P = [] \/ len N <= len P) -> g_prefix strict g = Ok (st (O ++ N) P rest (g_skip rest) (g_next g) (g_arg g)).
Proof.
  intros Ho (E1 & E2 & E3) S. unfold g_prefix.
  assert (X : exists la, (if negb (g_first g =? g_last g) && negb (g_last g =? g_ind g) then g_exchange strict g else if negb (g_last g =? g_ind g) then Ok (Go (g_argv g) (g_ind g) (g_ind g) (g_last g) (g_next g) (g_arg g)) else Ok g) = Ok (Go (prog :: (O ++ N) ++ P ++ rest) (g_ind g) (1 + len (O ++ N)) la (g_next g) (g_arg g))).
  { destruct E3 as [(-> & E3 & E4)|(NP & _ & E3 & E4)].
    - destruct (Z.eqb_spec (g_first g) (g_last g)); [|contradiction]. cbn [negb andb app]. rewrite <- app_assoc. cbn [app length] in *. destruct (Z.eqb_spec (g_last g) (g_ind g)) as [El|El]; cbn [negb]; exists (g_last g).
      + destruct g as [a i f l x y]. cbn [g_argv g_ind g_first g_last g_next g_arg] in *. rewrite len_app. do 2 f_equal; [auto|lia].
      + rewrite E1. f_equal. f_equal. rewrite len_app. lia.
    - assert (0 < len P) by (destruct P; [contradiction|cbn [length]; lia]). destruct (Z.eqb_spec (g_first g) (g_last g)); [lia|]. destruct (Z.eqb_spec (g_last g) (g_ind g)) as [El|El]; cbn [negb andb].
      + exists (g_last g). assert (N = []) by (destruct N; auto; cbn [length] in E2; lia). subst N. rewrite app_nil_r. cbn [app] in E1. destruct g as [a i f l x y]. cbn [g_argv g_ind g_first g_last g_next g_arg] in *. do 2 f_equal; auto.
      + exists (g_ind g). rewrite (exchange_ok g O P N rest); auto; [|intros T; destruct (S T); auto; contradiction]. rewrite <- app_assoc, len_app. do 2 f_equal. lia. }
  destruct X as (la & ->). rewrite bind_Ok'. cbn [g_argv g_ind g_first g_next g_arg]. unfold st. rewrite E2. rewrite len_app.
  assert (R : skipn (Z.to_nat (1 + len O + len P + len N)) (prog :: (O ++ N) ++ P ++ rest) = rest). { change (prog :: (O ++ N) ++ P ++ rest) with ((prog :: O ++ N) ++ P ++ rest). rewrite app_assoc. apply skipn_app_l. rewrite app_length. cbn [length]. rewrite app_length. lia. }
  rewrite R. f_equal. f_equal; lia.
Qed.
(** one operand after the other *)
Lemma call_operand g O P N s rest : o = Permute -> (g_next g = None \/ g_next g = Some []) -> nonopt s = true -> inv g O P N (s :: rest) -> (strict = true -> P = [] \/ len N <= len P) ->
  let g1 := Go (prog :: (O ++ N) ++ (P ++ [s]) ++ rest) (1 + len (O ++ N) + len (P ++ [s])) (1 + len (O ++ N)) (1 + len (O ++ N) + len (P ++ [s])) (g_next g) (g_arg g) in
  inv g1 (O ++ N) (P ++ [s]) [] rest /\ call g = call g1.
Proof.
  intros Ho Hn Hs Hi S g1. assert (I1 : inv g1 (O ++ N) (P ++ [s]) [] rest). { unfold inv, g1. cbn [g_argv g_ind g_first g_last]. split; auto. split; [cbn [length]; lia|]. right. split; [destruct P; discriminate|]. auto. }
  split; auto. assert (E : g_prefix strict g = g_prefix strict g1). { rewrite (prefix_ok g O P N (s :: rest)), (prefix_ok g1 (O ++ N) (P ++ [s]) [] rest); auto; [|intros _; right; cbn [length]; lia]. unfold st, g1. cbn [g_next g_arg g_skip]. rewrite Hs, app_nil_r, !len_app. cbn [length]. f_equal. f_equal; try lia. rewrite <- !app_assoc. reflexivity. }
  unfold g_call. change (g_next g1) with (g_next g). destruct Hn as [-> | ->]; unfold g_prep; rewrite Ho; cbn [is_perm]; rewrite E; reflexivity.
Qed.
(** the element after the skip *)
Lemma g_skip_opt s rest : nonopt s = false -> g_skip (s :: rest) = 0. Proof. intros E. cbn [g_skip]. rewrite E. reflexivity. Qed.
(** the state in which an element is looked at: no new options after operands *)
Lemma elem_state g O P N rest : inv g O P N rest -> (strict = true -> P = [] \/ len N <= len P) -> g_skip rest = 0 \/ o <> Permute ->
  exists g1, (if is_perm o then g_prefix strict g else Ok g) = Ok g1 /\ inv g1 (O ++ N) P [] rest /\ g_next g1 = g_next g /\ g_arg g1 = g_arg g /\ (o = Permute -> g_last g1 = g_ind g1).
Proof.
  intros Hi S Hk. destruct (match o with Permute => true | _ => false end) eqn:Ho.
  - assert (Ho' : o = Permute) by (destruct o; auto; discriminate). rewrite Ho'. cbn [is_perm]. rewrite (prefix_ok g O P N rest); auto. eexists; split; [reflexivity|]. destruct Hk as [->|]; [|contradiction]. split; [|split; [reflexivity|split; [reflexivity|reflexivity]]]. destruct Hi as (E1 & E2 & E3). unfold inv, st. cbn [g_argv g_ind g_first g_last app]. split; auto. split; [cbn [length]; lia|]. destruct P as [|x P]; [left; cbn [length]; split; auto; split; lia|right; split; [discriminate|]]. split; auto. split; auto. lia.
  - assert (Ho' : o <> Permute) by (destruct o; discriminate). exists g. replace (is_perm o) with false by (destruct o; auto; discriminate). split; auto. split; [|split; auto; split; auto; contradiction]. destruct Hi as (E1 & E2 & [(-> & E3)|(_ & X & _)]); [|contradiction]. split; [rewrite E1; cbn [app]; rewrite <- app_assoc; auto|]. split; [rewrite len_app; cbn [length] in *; lia|]. left. auto.
Qed.
Lemma dashes_t s : dashes s = true <-> s = [45; 45].
Proof. destruct s as [|a [|b [|c s]]]; cbn [dashes]; split; try discriminate; [intros H; apply andb_true_iff in H; destruct H as (H1 & H2); apply Z.eqb_eq in H1, H2; subst; auto|intros [= -> ->]; auto]. Qed.
Lemma inv_len g O P N rest : inv g O P N rest -> len (g_argv g) = 1 + len O + len P + len N + len rest.
Proof. intros (E & _). rewrite E, len_cons, !len_app. lia. Qed.
Lemma inv_at g O P N s rest : inv g O P N (s :: rest) -> g_at (g_argv g) (g_ind g) = Ok s.
Proof. intros (E & E2 & _). rewrite E. change (prog :: O ++ P ++ N ++ s :: rest) with ((prog :: O) ++ P ++ N ++ s :: rest). rewrite !app_assoc. apply g_at_ok. rewrite !len_app, len_cons. lia. Qed.
Lemma inv_at_next g O P N e s rest : inv g O P N (e :: s :: rest) -> g_at (g_argv g) (g_ind g + 1) = Ok s.
Proof. intros (E & E2 & _). rewrite E. replace (prog :: O ++ P ++ N ++ e :: s :: rest) with (((prog :: O) ++ P ++ N ++ [e]) ++ s :: rest) by (cbn [app]; f_equal; rewrite <- !app_assoc; reflexivity). apply g_at_ok. rewrite !len_app, !len_cons. cbn [length]. lia. Qed.
(** what is reached at the end *)
Definition final (g : go) (O R : list str) : Prop := g_argv g = prog :: O ++ R /\ g_ind g = 1 + len O.
Definition goal (g : go) (evs : list event) (O R : list str) : Prop := exists l g', scan g l g' /\ Forall2 told evs l /\ final g' O R.
Lemma goal_more g r g1 e evs O R : call g = Ok (r, g1) -> r <> -1 -> told e (r, g_arg g1) -> goal g1 evs O R -> goal g (e :: evs) O R.
Proof. intros C N T (l & g' & S & F & Fi). exists ((r, g_arg g1) :: l), g'. split; [eapply sc_more; eauto|]. split; auto. Qed.
Lemma goal_eq g g1 evs O R : call g = call g1 -> goal g1 evs O R -> goal g evs O R.
Proof. intros C (l & g' & S & F & Fi). exists l, g'. split; auto. inversion S; subst; [apply sc_end; congruence|eapply sc_more; eauto; congruence]. Qed.
Lemma call_prep g : g_next g = None \/ g_next g = Some [] -> call g = (r <- g_prep strict o g ;; match r with inl p => Ok p | inr g => g_char opts g end).
Proof. intros [H|H]; unfold g_call; rewrite H; reflexivity. Qed.

Hypothesis Hopts : ~ In (-1) opts.
(** at EOF *)
Lemma eof_end g O P N : inv g O P N [] -> g_next g = None \/ g_next g = Some [] -> (strict = true -> P = [] \/ len N <= len P) -> goal g [] (O ++ N) P.
Proof.
  intros Hi Hn S. destruct (elem_state g O P N [] Hi S (or_introl eq_refl)) as (g1 & E & I1 & N1 & A1 & _). exists []. eexists. split; [apply sc_end; rewrite call_prep by auto; unfold g_prep; rewrite E, bind_Ok'; unfold g_elem|].
  - rewrite (inv_len _ _ _ _ _ I1). destruct I1 as (B1 & B2 & B3). rewrite B2. cbn [length]. replace (1 + len (O ++ N) + len P + Z.of_nat 0 =? 1 + len (O ++ N) + len P + Z.of_nat 0 + Z.of_nat 0) with true by (symmetry; apply Z.eqb_eq; lia). rewrite !bind_Ok'. rewrite B2. cbn [length]. replace (1 + len (O ++ N) + len P + Z.of_nat 0 =? 1 + len (O ++ N) + len P + Z.of_nat 0 + Z.of_nat 0) with true by (symmetry; apply Z.eqb_eq; lia). reflexivity.
  - split; auto. destruct I1 as (B1 & B2 & [(-> & B3 & _)|(NP & _ & B3 & B4)]).
    + destruct (Z.eqb_spec (g_first g1) (g_last g1)); [|contradiction]. cbn [negb]. split; [rewrite B1; cbn [app]; rewrite !app_nil_r; auto|]. cbn [length] in B2. lia.
    + assert (0 < len P) by (destruct P; [contradiction|cbn [length]; lia]). destruct (Z.eqb_spec (g_first g1) (g_last g1)); [lia|]. cbn [negb]. split; cbn [g_argv g_ind]; auto. rewrite B1. cbn [app]. rewrite app_nil_r. auto.
Qed.
(** "--" *)
Lemma eof_dash g O P N rest : inv g O P N ([45; 45] :: rest) -> g_next g = None \/ g_next g = Some [] -> (strict = true -> P = [] \/ len N <= len P) -> goal g [] (O ++ N ++ [[45; 45]]) (P ++ rest).
Proof.
  intros Hi Hn S. destruct (elem_state g O P N _ Hi S (or_introl eq_refl)) as (g1 & E & I1 & N1 & A1 & _). set (ON := O ++ N) in *. pose proof (inv_len _ _ _ _ _ I1) as L1. rewrite len_cons in L1. cbn [length] in L1. pose proof (inv_at _ _ _ _ _ _ I1) as At. destruct I1 as (B1 & B2 & B3). cbn [length app] in B1, B2.
  assert (D : exists g2, g_dashes strict g1 = Ok g2 /\ g_argv g2 = prog :: (ON ++ [[45; 45]]) ++ P ++ rest /\ g_ind g2 = len (g_argv g1) /\ g_last g2 = len (g_argv g1) /\ g_first g2 = 2 + len ON).
  { unfold g_dashes. cbn [g_argv g_ind g_first g_last g_next g_arg]. destruct B3 as [(-> & B3 & B4)|(NP & Hop & B3 & B4)].
    - destruct (Z.eqb_spec (g_first g1) (g_last g1)); [|contradiction]. cbn [negb andb]. rewrite bind_Ok'. cbn [g_argv g_ind g_first g_last]. eexists; split; [reflexivity|]. cbn [g_argv g_ind g_first g_last length] in *. split; [rewrite B1, <- app_assoc; auto|]. split; auto. split; auto. lia.
    - assert (0 < len P) by (destruct P; [contradiction|cbn [length]; lia]). destruct (Z.eqb_spec (g_first g1) (g_last g1)); [lia|]. destruct (Z.eqb_spec (g_last g1) (g_ind g1 + 1)); [lia|]. cbn [negb andb].
      rewrite (exchange_ok _ ON P [[45; 45]] rest); cbn [g_argv g_ind g_first g_last g_next g_arg]; [|rewrite B1; auto|cbn [length]; lia|lia|lia|cbn [length]; lia]. rewrite bind_Ok'. eexists; split; [reflexivity|]. cbn [g_argv g_ind g_first g_last]. split; [rewrite <- app_assoc; auto|]. split; auto. split; auto. cbn [length]. lia. }
  destruct D as (g2 & D & D1 & D2 & D3 & D4). exists []. eexists. split; [apply sc_end; rewrite call_prep by auto; unfold g_prep; rewrite E, bind_Ok'; unfold g_elem|].
  - replace (g_ind g1 =? len (g_argv g1)) with false by (symmetry; apply Z.eqb_neq; lia). rewrite At, !bind_Ok'. cbn [dashes Z.eqb Pos.eqb andb]. rewrite D, bind_Ok', D2, Z.eqb_refl. reflexivity.
  - split; auto. unfold ON in *. destruct (Z.eqb_spec (g_first g2) (g_last g2)) as [Q|Q]; cbn [negb].
    + split; [rewrite D1, !app_assoc; auto|]. rewrite D2. rewrite !len_app in *. cbn [length] in *. lia.
    + split; cbn [g_argv g_ind]; [rewrite D1, !app_assoc; auto|]. rewrite D4, !len_app. cbn [length]. lia.
Qed.
(** an element which is not an option and is not skipped *)
Lemma elem_other g O N s rest : o <> Permute -> inv g O [] N (s :: rest) -> g_next g = None \/ g_next g = Some [] -> nonopt s = true ->
  call g = match o with Require_order => Ok (-1, g) | _ => Ok (0, Go (g_argv g) (g_ind g + 1) (g_first g) (g_last g) (g_next g) (Some s)) end.
Proof.
  intros Ho Hi Hn Hs. rewrite call_prep by auto. unfold g_prep. replace (is_perm o) with false by (destruct o; auto; contradiction). rewrite bind_Ok'. unfold g_elem. pose proof (inv_at _ _ _ _ _ _ Hi) as At. rewrite At. pose proof (inv_len _ _ _ _ _ Hi) as L. destruct Hi as (B1 & B2 & _). cbn [length] in L, B2. replace (g_ind g =? len (g_argv g)) with false by (symmetry; apply Z.eqb_neq; lia). rewrite !bind_Ok'. replace (dashes s) with false. 2:{ symmetry. destruct (dashes s) eqn:D; auto. apply dashes_t in D. subst. discriminate. }
  cbv iota. rewrite bind_Ok'. replace (g_ind g =? len (g_argv g)) with false by (symmetry; apply Z.eqb_neq; lia). rewrite At, bind_Ok', Hs. destruct o; [reflexivity|contradiction|reflexivity].
Qed.
(** an option element *)
Lemma elem_option g O P N c t rest : c :: t <> [45] -> inv g O P N ((45 :: c :: t) :: rest) -> g_next g = None \/ g_next g = Some [] -> (strict = true -> P = [] \/ len N <= len P) ->
  exists g1, call g = call g1 /\ inv g1 (O ++ N) P [] ((45 :: c :: t) :: rest) /\ g_next g1 = Some (c :: t).
Proof.
  intros Nd Hi Hn S. assert (No : nonopt (45 :: c :: t) = false) by (cbn [nonopt Z.eqb Pos.eqb negb]; auto). destruct (elem_state g O P N _ Hi S (or_introl (g_skip_opt _ _ No))) as (g1 & E & I1 & N1 & A1 & _).
  exists (Go (g_argv g1) (g_ind g1) (g_first g1) (g_last g1) (Some (c :: t)) (g_arg g1)). split; [|split; [destruct I1 as (B1 & B2 & B3); split; [exact B1|]; split; [exact B2|exact B3]|auto]].
  rewrite call_prep by auto. unfold g_prep. rewrite E, bind_Ok'. unfold g_elem. pose proof (inv_at _ _ _ _ _ _ I1) as At. rewrite At. pose proof (inv_len _ _ _ _ _ I1) as L. destruct I1 as (B1 & B2 & _). cbn [length] in L, B2. replace (g_ind g1 =? len (g_argv g1)) with false by (symmetry; apply Z.eqb_neq; lia). rewrite !bind_Ok'. replace (dashes (45 :: c :: t)) with false. 2:{ symmetry. destruct (dashes (45 :: c :: t)) eqn:D; auto. apply dashes_t in D. congruence. }
  cbv iota. rewrite bind_Ok'. replace (g_ind g1 =? len (g_argv g1)) with false by (symmetry; apply Z.eqb_neq; lia). rewrite At, bind_Ok', No, bind_Ok'. reflexivity.
Qed.
End Run.
