(** The scanner follows the meaning of the arguments. *)
From Coq Require Import ZArith Lia List Bool Permutation.
From Verif Require Import Base OptModel OptSpec.
Import ListNotations.
Open Scope Z_scope.
Open Scope res_scope.

Definition omode (o : order) : mode := match o with Require_order => Stop | Permute => Collect | In_order => Report end.
Lemma bind_Ok' {A B} (a : A) (f : A -> res B) : bind (Ok a) f = f a. Proof. reflexivity. Qed.
Lemma nonopt_t s : nonopt s = true <-> ~ isoption s.
Proof.
  unfold isoption. destruct s as [|c [|d t]]; cbn [nonopt].
  - split; auto. intros _ (c & t & E). discriminate.
  - split; auto. intros _ (c' & t & E). discriminate.
  - destruct (Z.eqb_spec c 45) as [->|n]; cbn [negb]; split; auto; try discriminate.
    + intros H. destruct H. eauto.
    + intros _ (c' & t' & E). congruence.
Qed.
Lemma nonopt_f s : nonopt s = false <-> isoption s.
Proof.
  unfold isoption. destruct s as [|c [|d t]]; cbn [nonopt]; try (split; [discriminate|intros (c' & t' & E); discriminate]). destruct (Z.eqb_spec c 45) as [->|n]; cbn [negb]; split; eauto; try discriminate. intros (c' & t' & E). congruence.
Qed.
Lemma isoption_dec s : isoption s \/ ~ isoption s.
Proof. destruct (nonopt s) eqn:E; [right; apply nonopt_t, E|left; apply nonopt_f, E]. Qed.
(** strchr *)
Lemma strchr_some s c t : strchr s c = Some t -> exists pre post, s = pre ++ c :: post /\ ~ In c pre /\ t = c :: post.
Proof.
  induction s as [|x s IH]; cbn [strchr]; [discriminate|]. destruct (Z.eqb_spec x c) as [->|n].
  - intros [= <-]. exists [], s. cbn [app In]. tauto.
  - intros E. destruct (IH E) as (pre & post & -> & N & ->). exists (x :: pre), post. split; auto. split; auto. intros [|]; auto.
Qed.
Lemma strchr_in pre c post : ~ In c pre -> strchr (pre ++ c :: post) c = Some (c :: post).
Proof. induction pre as [|x pre IH]; cbn [app strchr In]; intros N; [rewrite Z.eqb_refl; auto|]. destruct (Z.eqb_spec x c); [tauto|]. apply IH. tauto. Qed.
Lemma strchr_none s c : strchr s c = None -> ~ In c s.
Proof. induction s as [|x s IH]; cbn [strchr In]; auto. destruct (Z.eqb_spec x c); [discriminate|]. intros E [|]; auto. apply IH; auto. Qed.
Lemma okind_dec opts c : (forall k, ~ okind opts c k) \/ exists k, okind opts c k.
Proof.
  destruct (Z.eq_dec c 58) as [->|N]; [left; intros k (H & _); contradiction|]. destruct (strchr opts c) as [t|] eqn:E.
  - right. apply strchr_some in E. destruct E as (pre & post & -> & Np & _). assert (W : exists k, match k with Plain => match post with 58 :: _ => False | _ => True end | Required => match post with 58 :: 58 :: _ => False | 58 :: _ => True | _ => False end | Optional => match post with 58 :: 58 :: _ => True | _ => False end end).
    { assert (C : forall x : Z, x = 58 \/ forall (A : Prop) (B : A), match x with 58 => False | _ => A end). { intros x. destruct (Z.eq_dec x 58) as [|Nx]; auto. right. intros A B. repeat (match goal with |- match ?z with _ => _ end => destruct z end; auto). }
      destruct post as [|x post]; [exists Plain; exact I|]. destruct (C x) as [->|Cx]; [|exists Plain; exact (Cx True I)]. destruct post as [|y post]; [exists Required; exact I|]. destruct (C y) as [->|Cy]; [exists Optional; exact I|exists Required; exact (Cy True I)]. }
    destruct W as (k & W). exists k. split; auto. exists pre, post. auto.
  - left. intros k (_ & pre & post & -> & _). apply strchr_none in E. apply E, in_app_iff. right. left. auto.
Qed.
(** every list of arguments has a meaning *)
Fixpoint size (l : list (list Z)) : nat := match l with [] => 0 | s :: l => S (length s + size l) end.
Lemma parses_total md opts : forall n cl l, (size l + match cl with None => 0 | Some s => S (length s) end <= n)%nat -> exists e o r, parses md opts cl l e o r.
Proof.
  induction n as [|n IH]; intros cl l H.
  - destruct cl; cbv iota beta in H; [exfalso; lia|]. destruct l; [|cbn [size] in H; lia]. do 3 eexists. constructor.
  - destruct cl as [[|c t]|]; cbv iota beta in H.
    + destruct (IH None l) as (e & o & r & P); [cbn [length] in H; cbv iota beta; lia|]. do 3 eexists. apply ps_done, P.
    + cbn [length] in H. destruct (okind_dec opts c) as [K|(k & K)]; [|destruct k].
      * destruct (IH (Some t) l ltac:(cbv iota beta; lia)) as (e & o & r & P). do 3 eexists. apply ps_unknown; eauto.
      * destruct (IH (Some t) l ltac:(cbv iota beta; lia)) as (e & o & r & P). do 3 eexists. apply ps_plain; eauto.
      * destruct t as [|d t].
        -- destruct l as [|a l]; [destruct (IH None [] ltac:(cbn [size]; cbv iota beta; lia)) as (e & o & r & P); do 3 eexists; apply ps_missing; eauto|]. cbn [size] in H. destruct (IH None l ltac:(cbv iota beta; lia)) as (e & o & r & P). do 3 eexists. apply ps_next; eauto.
        -- destruct (IH None l ltac:(cbv iota beta; lia)) as (e & o & r & P). do 3 eexists. apply ps_inside; [left; auto|discriminate|eauto].
      * destruct (IH None l ltac:(cbv iota beta; lia)) as (e & o & r & P). destruct t as [|d t]; do 3 eexists; [apply ps_absent; eauto|]. apply ps_inside; [right; auto|discriminate|eauto].
    + destruct l as [|s l]; [do 3 eexists; constructor|]. cbn [size] in H. destruct (isoption_dec s) as [(c & t & ->)|N].
      * destruct (list_eq_dec Z.eq_dec (c :: t) [45]) as [E|E]; [rewrite E; do 3 eexists; apply ps_dash|]. cbn [length] in H. destruct (IH (Some (c :: t)) l) as (e & o & r & P); [cbn [length]; cbv iota beta; lia|]. do 3 eexists. apply ps_option; eauto.
      * destruct md; [do 3 eexists; apply ps_stop; auto| |]; (destruct (IH None l ltac:(cbv iota beta; lia)) as (e & o & r & P)); do 3 eexists; [apply ps_operand; eauto|apply ps_report; eauto].
Qed.
Lemma parses_perm md opts cl l e o r : parses md opts cl l e o r -> Permutation l (o ++ r).
Proof.
  induction 1; cbn [app]; auto.
  - apply Permutation_cons_app. auto.
Qed.
(** the meaning is unique *)
Lemma okind_fun opts c k k' : okind opts c k -> okind opts c k' -> k = k'.
Proof.
  intros (_ & pre & post & E & N & M) (_ & pre' & post' & E' & N' & M'). assert (post = post'). { pose proof (strchr_in pre c post N) as S. pose proof (strchr_in pre' c post' N') as S'. rewrite <- E in S. rewrite <- E' in S'. rewrite S in S'. congruence. } subst post'. destruct k, k'; auto; exfalso; clear - M M'; destruct post as [|x [|y post]]; try contradiction; repeat match goal with H : context [match ?z with _ => _ end] |- _ => is_var z; destruct z; try contradiction end.
Qed.
Lemma parses_det md opts cl l e o r : parses md opts cl l e o r -> forall e' o' r', parses md opts cl l e' o' r' -> e = e' /\ o = o' /\ r = r'.
Proof.
  assert (Dd : isoption [45; 45]) by (exists 45, []; auto). assert (Op : forall c t, isoption (45 :: c :: t)) by (intros c t; exists c, t; auto).
  induction 1; intros e' o' r' Q; inversion Q; subst; try tauto; try congruence; try (exfalso; match goal with H : ~ isoption _ |- _ => apply H; auto; fail end);
    try (match goal with H : okind ?o ?c ?a, H' : okind ?o ?c ?b |- _ => pose proof (okind_fun _ _ _ _ H H'); discriminate end);
    try (exfalso; match goal with H : forall k, ~ okind _ _ k, H' : okind _ _ _ |- _ => exact (H _ H') end);
    try (exfalso; match goal with H : forall k, ~ okind _ _ k, H' : _ \/ _ |- _ => destruct H' as [H'|H']; exact (H _ H') end);
    try (exfalso; match goal with H : okind _ _ ?k, H' : _ \/ _ |- _ => destruct H' as [H'|H']; pose proof (okind_fun _ _ _ _ H H'); discriminate end);
    match goal with IH : forall e' o' r', parses _ _ _ _ e' o' r' -> _, H : parses _ _ _ _ _ _ _ |- _ => destruct (IH _ _ _ H) as (-> & -> & ->); auto end.
Qed.
