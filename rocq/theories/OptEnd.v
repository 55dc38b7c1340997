(** Letters of an option element, and the whole scan. *)
From Coq Require Import ZArith Lia List Bool Permutation.
From Verif Require Import Base OptModel OptSpec OptProofs OptMain.
Import ListNotations.
Open Scope Z_scope.
Open Scope res_scope.

Lemma match58 {A} (x : Z) (a b : A) : x <> 58 -> match x with 58 => a | _ => b end = b.
Proof. intros N. repeat (match goal with |- match ?z with _ => _ end = _ => destruct z end; auto). contradiction. Qed.
Lemma match58l {A} (p : list Z) (a b : A) : match p with 58 :: _ => False | _ => True end -> match p with 58 :: _ => a | _ => b end = b.
Proof. destruct p as [|x p]; auto. intros H. repeat (match goal with |- match ?z with _ => _ end = _ => is_var z; destruct z end; auto). contradiction. Qed.
Lemma okind_in opts c k : okind opts c k -> In c opts.
Proof. intros (_ & pre & post & -> & _). apply in_app_iff. right. left. auto. Qed.
Section Char.
Variables (strict : bool) (o : order) (opts : str) (prog : str).
Notation call := (g_call strict o opts).
Notation inv := (inv o prog).
Definition endp (t : str) : bool := match t with [] => true | _ => false end.
Definition step1 (g : go) (t : str) nx ar : go := Go (g_argv g) (if endp t then g_ind g + 1 else g_ind g) (g_first g) (g_last g) nx ar.
Lemma call_char g c t : g_next g = Some (c :: t) -> call g = g_char opts g.
Proof. intros H. unfold g_call. rewrite H. reflexivity. Qed.
Lemma char_unknown g c t : g_next g = Some (c :: t) -> (forall k, ~ okind opts c k) -> call g = Ok (63, step1 g t (Some t) (g_arg g)).
Proof.
  intros H K. rewrite (call_char g c t H). unfold g_char. rewrite H. destruct (strchr opts c) as [tm|] eqn:E; [|destruct t; reflexivity]. destruct (Z.eqb_spec c 58) as [|N]; [destruct t; reflexivity|]. exfalso. destruct (okind_dec opts c) as [_|(k & Hk)]; [|exact (K k Hk)].
  apply strchr_some in E. destruct E as (pre & post & E & Np & _). assert (W : exists k, okind opts c k); [|destruct W as (k & Hk); exact (K k Hk)]. 
  assert (C : forall x : Z, x = 58 \/ forall (A : Prop) (B : A), match x with 58 => False | _ => A end). { intros x. destruct (Z.eq_dec x 58) as [|Nx]; auto. right. intros A B. rewrite match58; auto. }
  destruct post as [|x post]; [exists Plain; split; auto; exists pre, []; auto|]. destruct (C x) as [->|Cx]; [|exists Plain; split; auto; exists pre, (x :: post); split; auto; split; auto; exact (Cx True I)]. destruct post as [|y post]; [exists Required; split; auto; exists pre, [58]; auto|]. destruct (C y) as [->|Cy]; [exists Optional|exists Required]; (split; auto); [exists pre, (58 :: 58 :: post)|exists pre, (58 :: y :: post)]; (split; auto); split; auto; exact (Cy True I).
Qed.
Lemma char_known g c t k : g_next g = Some (c :: t) -> okind opts c k -> call g =
  match k with
  | Plain => Ok (c, step1 g t (Some t) (g_arg g))
  | Optional => if endp t then Ok (c, step1 g t None None) else Ok (c, Go (g_argv g) (g_ind g + 1) (g_first g) (g_last g) None (Some t))
  | Required => if endp t then (if g_ind g + 1 =? len (g_argv g) then Ok (63, step1 g t None (g_arg g)) else s <- g_at (g_argv g) (g_ind g + 1) ;; Ok (c, Go (g_argv g) (g_ind g + 1 + 1) (g_first g) (g_last g) None (Some s)))
                else Ok (c, Go (g_argv g) (g_ind g + 1) (g_first g) (g_last g) None (Some t))
  end.
Proof.
  intros H (N & pre & post & E & Np & M). rewrite (call_char g c t H). unfold g_char. rewrite H, E, (strchr_in pre c post Np). destruct (Z.eqb_spec c 58); [contradiction|]. destruct k.
  - destruct post as [|x post]; [destruct t; reflexivity|]. destruct (Z.eq_dec x 58) as [->|Nx]; [contradiction|]. rewrite match58 by auto. destruct t; reflexivity.
  - destruct post as [|x post]; [contradiction|]. destruct (Z.eq_dec x 58) as [->|Nx]; [|rewrite match58 in M by auto; contradiction]. destruct post as [|y post]; [destruct t; reflexivity|]. destruct (Z.eq_dec y 58) as [->|Ny]; [contradiction|]. rewrite match58 by auto. destruct t; reflexivity.
  - destruct post as [|x post]; [contradiction|]. destruct (Z.eq_dec x 58) as [->|Nx]; [|rewrite match58 in M by auto; contradiction]. destruct post as [|y post]; [contradiction|]. destruct (Z.eq_dec y 58) as [->|Ny]; [|rewrite match58 in M by auto; contradiction]. destruct t; reflexivity.
Qed.
Lemma inv_keep g O P N rest nx ar : inv g O P N rest -> inv (Go (g_argv g) (g_ind g) (g_first g) (g_last g) nx ar) O P N rest.
Proof. intros (A & B & C). exact (conj A (conj B C)). Qed.
Lemma inv_adv g O P N s rest nx ar : inv g O P N (s :: rest) -> inv (Go (g_argv g) (g_ind g + 1) (g_first g) (g_last g) nx ar) O P (N ++ [s]) rest.
Proof.
  intros (A & B & C). split; [cbn [g_argv]; rewrite A, <- (app_assoc N); reflexivity|]. split; [cbn [g_ind]; rewrite len_app; cbn [length]; lia|]. cbn [g_first g_last g_ind]. destruct C as [(X & Y & Z0)|C]; [left; split; auto; split; auto; lia|right; exact C].
Qed.
Lemma opt_head l e x o' r : parses Collect opts None l e (x :: o') r -> isoption x.
Proof.
  intros H. remember (x :: o') as ox eqn:E. remember None as cl eqn:Ec. revert Ec x o' E. induction H; intros Ec x' o'' E; try discriminate.
  - injection E as <- <-. exists 45, []. auto.
  - eapply IHparses; eauto.
  - injection E as <- <-. exists c, t. auto.
Qed.
Hypothesis Hopts : ~ In (-1) opts.
Definition cond0 (P N l o' r : list str) : Prop := strict = true -> o = Permute -> (P = [] /\ l = o' ++ r) \/ (N = [] /\ o' = []).
Definition cond1 (P l o' r : list str) : Prop := strict = true -> o = Permute -> P = [] /\ l = o' ++ r.
Notation goal := (goal strict o opts prog).
Lemma cond_fit g O P N l o' r rest : inv g O P N rest -> cond0 P N l o' r -> strict = true -> P = [] \/ len N <= len P.
Proof. intros (_ & _ & [(-> & _)|(_ & Ho & _)]) C S; auto. destruct (C S Ho) as [(-> & _)|(-> & _)]; [auto|right; cbn [length]; lia]. Qed.
Theorem scan_main cl l e o' r : parses (omode o) opts cl l e o' r ->
  match cl with
  | Some (c :: t) => forall g O P N s, inv g O P N (s :: l) -> g_next g = Some (c :: t) -> cond1 P l o' r -> goal g e (O ++ N ++ s :: o') (P ++ r)
  | _ => forall g O P N, inv g O P N l -> g_next g = None \/ g_next g = Some [] -> cond0 P N l o' r -> goal g e (O ++ N ++ o') (P ++ r)
  end.
Proof.
  induction 1 as [|l|s l Hm Hs|s l e o' r Hm Hs Hp IH|s l e o' r Hm Hs Hp IH|c t l e o' r Nd Hp IH|l e o' r Hp IH|c t l e o' r K Hp IH|c t l e o' r K Hp IH|c t l e o' r K Nt Hp IH|c l e o' r K Hp IH|c a l e o' r K Hp IH|c e o' r K Hp IH].
  - intros g O P N Hi Hn C. rewrite !app_nil_r. apply eof_end; auto. eapply cond_fit; eauto.
  - intros g O P N Hi Hn C. apply eof_dash; auto. eapply cond_fit; eauto.
  - intros g O P N Hi Hn C. assert (Ho : o = Require_order) by (destruct o; auto; discriminate). assert (Np : o <> Permute) by (rewrite Ho; discriminate). destruct Hi as (A & B & D). assert (P = []) by (destruct D as [(-> & _)|(_ & X & _)]; auto; contradiction). subst P.
    assert (Hi : inv g O [] N (s :: l)) by exact (conj A (conj B D)). apply nonopt_t in Hs. pose proof (elem_other strict o opts prog g O N s l Np Hi Hn Hs) as E. exists [], g. split; [apply sc_end; rewrite E, Ho; auto|]. split; auto. split; [rewrite A; cbn [app]; rewrite app_nil_r, <- app_assoc; auto|]. rewrite app_nil_r, len_app. cbn [length] in B. lia.
  - intros g O P N Hi Hn C. assert (Ho : o = Permute) by (destruct o; auto; discriminate). apply nonopt_t in Hs. destruct (call_operand strict o opts prog g O P N s l Ho Hn Hs Hi (cond_fit _ _ _ _ _ _ _ _ Hi C)) as (I1 & E). set (g1 := Go _ _ _ _ _ _) in I1, E. apply (goal_eq _ _ _ _ _ g1 _ _ _ E).
    assert (G : goal g1 e ((O ++ N) ++ [] ++ o') ((P ++ [s]) ++ r)). { apply IH; auto. intros S _. right. split; auto. destruct (C S Ho) as [(-> & Q)|(_ & Q)]; auto. destruct o' as [|x o']; auto. exfalso. injection Q as <- _. rewrite Hm in Hp. apply opt_head in Hp. apply nonopt_t in Hs. contradiction. }
    cbn [app] in G. rewrite <- !app_assoc in G. exact G.
  - intros g O P N Hi Hn C. assert (Ho : o = In_order) by (destruct o; auto; discriminate). assert (Np : o <> Permute) by (rewrite Ho; discriminate). assert (P = []) by (destruct Hi as (_ & _ & [(-> & _)|(_ & X & _)]); auto; contradiction). subst P. apply nonopt_t in Hs. pose proof (elem_other strict o opts prog g O N s l Np Hi Hn Hs) as E. rewrite Ho in E at 2.
    eapply goal_more; [exact E|lia|reflexivity|]. assert (G : goal (Go (g_argv g) (g_ind g + 1) (g_first g) (g_last g) (g_next g) (Some s)) e (O ++ (N ++ [s]) ++ o') ([] ++ r)) by (apply IH; [apply inv_adv; auto|auto|intros _ Q; contradiction]). rewrite <- (app_assoc N) in G. exact G.
  - intros g O P N Hi Hn C. destruct (elem_option strict o opts prog g O P N c t l Nd Hi Hn (cond_fit _ _ _ _ _ _ _ _ Hi C)) as (g1 & E & I1 & N1). apply (goal_eq _ _ _ _ _ g1 _ _ _ E). assert (G : goal g1 e ((O ++ N) ++ [] ++ (45 :: c :: t) :: o') (P ++ r)). { apply IH; auto. intros S Ho. destruct (C S Ho) as [(-> & Q)|(_ & Q)]; [|discriminate]. split; auto. injection Q as Q. auto. } cbn [app] in G. rewrite <- !app_assoc in G. exact G.
  - exact IH.
  - intros g O P N s Hi Hn C. eapply goal_more; [apply (char_unknown g c t Hn K)|lia|reflexivity|]. unfold step1. destruct t as [|d t]; cbn [endp].
    + assert (G : goal (Go (g_argv g) (g_ind g + 1) (g_first g) (g_last g) (Some []) (g_arg g)) e (O ++ (N ++ [s]) ++ o') (P ++ r)) by (apply IH; [apply inv_adv; auto|auto|intros S Ho; left; apply C; auto]). rewrite <- (app_assoc N) in G. exact G.
    + apply IH; [apply inv_keep; auto|auto|auto].
  - intros g O P N s Hi Hn C. eapply goal_more; [apply (char_known g c t Plain Hn K)|intros ->; apply Hopts, (okind_in _ _ _ K)|reflexivity|]. unfold step1. destruct t as [|d t]; cbn [endp].
    + assert (G : goal (Go (g_argv g) (g_ind g + 1) (g_first g) (g_last g) (Some []) (g_arg g)) e (O ++ (N ++ [s]) ++ o') (P ++ r)) by (apply IH; [apply inv_adv; auto|auto|intros S Ho; left; apply C; auto]). rewrite <- (app_assoc N) in G. exact G.
    + apply IH; [apply inv_keep; auto|auto|auto].
  - intros g O P N s Hi Hn C. assert (E : call g = Ok (c, Go (g_argv g) (g_ind g + 1) (g_first g) (g_last g) None (Some t))). { destruct K as [K|K]; rewrite (char_known g c t _ Hn K); destruct t; try contradiction; reflexivity. }
    eapply goal_more; [exact E|intros ->; apply Hopts; destruct K as [K|K]; exact (okind_in _ _ _ K)|reflexivity|]. assert (G : goal (Go (g_argv g) (g_ind g + 1) (g_first g) (g_last g) None (Some t)) e (O ++ (N ++ [s]) ++ o') (P ++ r)) by (apply IH; [apply inv_adv; auto|auto|intros S Ho; left; apply C; auto]). rewrite <- (app_assoc N) in G. exact G.
  - intros g O P N s Hi Hn C. eapply goal_more; [apply (char_known g c [] Optional Hn K)|intros ->; apply Hopts, (okind_in _ _ _ K)|reflexivity|]. assert (G : goal (Go (g_argv g) (g_ind g + 1) (g_first g) (g_last g) None None) e (O ++ (N ++ [s]) ++ o') (P ++ r)) by (apply IH; [apply inv_adv; auto|auto|intros S Ho; left; apply C; auto]). rewrite <- (app_assoc N) in G. exact G.
  - intros g O P N s Hi Hn C. pose proof (inv_len _ _ _ _ _ _ _ Hi) as L. rewrite !len_cons in L. assert (E : call g = Ok (c, Go (g_argv g) (g_ind g + 1 + 1) (g_first g) (g_last g) None (Some a))). { rewrite (char_known g c [] _ Hn K). cbn [endp]. rewrite (inv_at_next _ _ _ _ _ _ _ _ _ Hi). destruct Hi as (_ & B & _). destruct (Z.eqb_spec (g_ind g + 1) (len (g_argv g))); [lia|reflexivity]. }
    eapply goal_more; [exact E|intros ->; apply Hopts, (okind_in _ _ _ K)|reflexivity|].
    assert (G : goal (Go (g_argv g) (g_ind g + 1 + 1) (g_first g) (g_last g) None (Some a)) e (O ++ ((N ++ [s]) ++ [a]) ++ o') (P ++ r)). { apply IH; [|auto|intros S Ho; destruct (C S Ho) as (-> & Q); left; split; auto; injection Q; auto]. apply (inv_adv (Go (g_argv g) (g_ind g + 1) (g_first g) (g_last g) None None)). apply inv_adv. auto. }
    rewrite <- !app_assoc in G. exact G.
  - intros g O P N s Hi Hn C. pose proof (inv_len _ _ _ _ _ _ _ Hi) as L. rewrite len_cons in L. assert (E : call g = Ok (63, step1 g [] None (g_arg g))). { rewrite (char_known g c [] _ Hn K). cbn [endp]. destruct Hi as (_ & B & _). cbn [length] in L. destruct (Z.eqb_spec (g_ind g + 1) (len (g_argv g))); [reflexivity|lia]. }
    eapply goal_more; [exact E|lia|reflexivity|]. assert (G : goal (Go (g_argv g) (g_ind g + 1) (g_first g) (g_last g) None (g_arg g)) e (O ++ (N ++ [s]) ++ o') (P ++ r)) by (apply IH; [apply inv_adv; auto|auto|intros S Ho; left; apply C; auto]). rewrite <- (app_assoc N) in G. exact G.
Qed.
End Char.
(** with memcpy undefined for overlapping blocks: the same, or undefined *)
Definition ubor {A} (a b : res A) : Prop := a = UB \/ a = b.
Lemma ubor_refl {A} (a : res A) : ubor a a. Proof. right. reflexivity. Qed.
Lemma ubor_bind {A B} (a b : res A) (f f' : A -> res B) : ubor a b -> (forall x, ubor (f x) (f' x)) -> ubor (bind a f) (bind b f').
Proof. intros [-> | ->] H; [left; reflexivity|]. destruct b; try (right; reflexivity). apply H. Qed.
Lemma ubor_copy l d s n : ubor (g_copy true l d s n) (g_copy false l d s n).
Proof. unfold g_copy. destruct (_ || _ || _ || _ || _); [apply ubor_refl|]. cbn [andb]. destruct (_ && _); [left; reflexivity|apply ubor_refl]. Qed.
Lemma ubor_exchange g : ubor (g_exchange true g) (g_exchange false g).
Proof. unfold g_exchange. destruct (_ <? 0); [apply ubor_refl|]. destruct (_ || _); [apply ubor_refl|]. apply ubor_bind; [apply ubor_copy|intros; apply ubor_refl]. Qed.
Lemma ubor_call o opts g : ubor (g_call true o opts g) (g_call false o opts g).
Proof.
  unfold g_call. destruct (g_next g) as [[|c t]|]; [|apply ubor_refl|]; (apply ubor_bind; [|intros; apply ubor_refl]); unfold g_prep; (apply ubor_bind; [destruct (is_perm o); [|apply ubor_refl]; unfold g_prefix; apply ubor_bind; [|intros; apply ubor_refl]; destruct (_ && _); [apply ubor_exchange|apply ubor_refl]|]); intros g1; unfold g_elem; (apply ubor_bind; [apply ubor_refl|]); intros dd; (apply ubor_bind; [|intros; apply ubor_refl]); destruct dd; try apply ubor_refl; unfold g_dashes; (apply ubor_bind; [|intros; apply ubor_refl]); destruct (_ && _); [apply ubor_exchange|apply ubor_refl|apply ubor_exchange|apply ubor_refl].
Qed.
Lemma strict_or o opts g l g' : scans false o opts g l g' -> scans true o opts g l g' \/ crash true o opts g.
Proof.
  induction 1 as [g g' E|g r g' l g'' E N S IH]; destruct (ubor_call o opts g) as [U|U]; try (right; apply cr_now, U); rewrite E in U.
  - left. apply sc_end, U.
  - destruct IH as [IH|IH]; [left; eapply sc_more; eauto|right; eapply cr_more; eauto].
Qed.
Lemma new_inv o prog args : inv o prog (g_new (prog :: args)) [] [] [] args.
Proof. split; [reflexivity|]. split; [reflexivity|]. left. cbn [g_first g_last g_ind g_new]. split; auto. split; auto. lia. Qed.
