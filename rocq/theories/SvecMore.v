(** Proofs about SvecModel: conversions, comparison with dense vectors, products with
    dense vectors, content, and the sets ons and offs. *)
From Coq Require Import ZArith Znumtheory Lia List Bool Sorted.
From Verif Require Import Base ArithProofs LinModel LinSpec LinProofs LinElim LinAlg SvecModel SvecSpec SvecProofs SvecOps SvecMod.
Import ListNotations.
Open Scope Z_scope.

(** the entry at position k >= 1 of a list *)
Definition vat (v : list Z) (k : Z) : Z := if 1 <=? k then nth (Z.to_nat (k - 1)) v 0 else 0.
Lemma vat_nth v i : vat v (Z.of_nat i + 1) = nth i v 0.
Proof. unfold vat. destruct (Z.leb_spec 1 (Z.of_nat i + 1)); [|lia]. f_equal. lia. Qed.
Lemma of_list_In i v k x : In (k, x) (of_list i v) -> i <= k < i + Z.of_nat (length v) /\ x <> 0.
Proof.
  revert i. induction v as [|y v IH]; intros i; cbn [of_list length]; [intros []|].
  destruct (Z.eqb_spec y 0); [intros H; apply IH in H; lia|]. intros [E|H]; [injection E as <- <-; lia|]. apply IH in H. lia.
Qed.
Lemma of_list_sorted i v : msorted (of_list i v).
Proof.
  revert i. induction v as [|y v IH]; intros i; cbn [of_list]; [constructor|].
  destruct (_ =? _); auto. apply msorted_cons. split; auto. intros k' z H. apply of_list_In in H. lia.
Qed.
Lemma of_list_canon i v : canon (of_list i v).
Proof. intros k H. apply mget_In, of_list_In in H. lia. Qed.
Lemma of_list_val i v k : mval (of_list i v) k = if i <=? k then nth (Z.to_nat (k - i)) v 0 else 0.
Proof.
  revert i. induction v as [|y v IH]; intros i; cbn [of_list].
  - unfold mval. cbn [mget]. destruct (_ <=? _); auto. destruct (Z.to_nat _); auto.
  - destruct (Z.eq_dec i k) as [<-|N].
    + rewrite Z.leb_refl, Z.sub_diag. cbn [Z.to_nat nth]. destruct (Z.eqb_spec y 0).
      * subst y. rewrite IH. destruct (Z.leb_spec (i + 1) i); [lia|auto].
      * rewrite mval_cons, Z.eqb_refl. auto.
    + transitivity (mval (of_list (i + 1) v) k).
      * destruct (_ =? _); auto. rewrite mval_cons. destruct (Z.eqb_spec i k); [lia|auto].
      * rewrite IH. destruct (Z.leb_spec (i + 1) k), (Z.leb_spec i k); try lia; auto.
        replace (Z.to_nat (k - i)) with (Datatypes.S (Z.to_nat (k - (i + 1)))) by lia. reflexivity.
Qed.
Lemma sv_of_vec_ok v : good (sv_of_vec v) /\ canon (sents (sv_of_vec v)) /\ inrange (length v) (sents (sv_of_vec v)) /\ den (sv_of_vec v) (Z.of_nat (length v), vat v).
Proof.
  unfold sv_of_vec. split; [apply of_list_sorted|]. split; [apply of_list_canon|]. split.
  - intros k x H. apply mget_In, of_list_In in H. lia.
  - split; auto. intros k. cbn [snd sents]. apply of_list_val.
Qed.
(** as_vec *)
Lemma as_fold m : forall l, msorted m -> inrange (length l) m -> exists l', mfold (fun l '(i, x) => at1_set l i x) m l = Ok l' /\ length l' = length l /\
  forall i, (i < length l)%nat -> nth i l' 0 = match mget m (Z.of_nat i + 1) with Some x => x | None => nth i l 0 end.
Proof.
  induction m as [|(k, x) m IH]; intros l Sm R; cbn [mfold].
  - exists l. auto.
  - assert (Rk : 1 <= k <= Z.of_nat (length l)) by (apply (R k x); cbn [mget]; rewrite Z.eqb_refl; auto).
    unfold at1_set at 1. destruct (Z.leb_spec 1 k); [|lia]. unfold at_set. destruct (Nat.ltb_spec (Z.to_nat (k - 1)) (length l)); [|lia].
    destruct (put_ok 0 l (Z.to_nat (k - 1)) [x]) as (l1 & -> & L1 & P1); [cbn [length]; lia|]. rewrite bind_Ok.
    pose proof (inrange_tail _ _ _ _ Sm R) as Rt. apply msorted_cons in Sm. destruct Sm as (Sm & F).
    destruct (IH l1) as (l' & -> & L' & P'); auto; [rewrite L1; auto|]. exists l'. split; auto. split; [congruence|]. intros i Hi. rewrite P' by lia.
    cbn [mget]. destruct P1 as (P1 & P2). cbn [length] in *. destruct (Z.eqb_spec k (Z.of_nat i + 1)).
    + rewrite mget_above by (intros a b Hab; apply F in Hab; lia). rewrite P1 by lia.
      replace (i - Z.to_nat (k - 1))%nat with 0%nat by lia. reflexivity.
    + destruct (mget m _); auto. apply P2. lia.
Qed.
Lemma sv_as_vec_ok v n d : good v -> den v (Z.of_nat n, d) -> inrange n (sents v) ->
  exists l, sv_as_vec v = Ok l /\ length l = n /\ forall i, (i < n)%nat -> nth i l 0 = d (Z.of_nat i + 1).
Proof.
  intros G (D1 & D2) R. cbn [fst snd] in *. unfold sv_as_vec. rewrite D1. destruct (Z.ltb_spec (Z.of_nat n) 0); [lia|]. rewrite Nat2Z.id.
  unfold zeros. destruct (as_fold (sents v) (repeat 0 n)) as (l & -> & L & P); auto; [rewrite repeat_length; auto|]. rewrite repeat_length in *.
  exists l. split; auto. split; auto. intros i Hi. rewrite P by auto. rewrite <- D2. unfold mval. destruct (mget _ _); auto. apply nth_repeat.
Qed.
(** comparison with a dense vector *)
Lemma sv_eq_vec_ok v w d : den v d -> (sv_eq_vec v w = true <-> fst d = Z.of_nat (length w) /\ forall i, (i < length w)%nat -> nth i w 0 = snd d (Z.of_nat i + 1)).
Proof.
  intros (D1 & D2). unfold sv_eq_vec. rewrite andb_true_iff, Z.eqb_eq, D1, forallb_forall. split; intros (H & H'); (split; [auto|]).
  - intros i Hi. rewrite <- D2. specialize (H' (i, nth i w 0)). change (mval (sents v)) with (sv_elem v). symmetry. symmetry. apply Z.eqb_eq, H'.
    assert (E : nth i (combine (seq 0 (length w)) w) (0%nat, 0) = (i, nth i w 0)) by (rewrite combine_nth by (rewrite seq_length; auto); rewrite seq_nth by auto; reflexivity).
    rewrite <- E. apply nth_In. rewrite combine_length, seq_length. lia.
  - intros (i, x) Hx. apply Z.eqb_eq. change (sv_elem v) with (mval (sents v)). rewrite D2.
    destruct (In_nth _ _ (0%nat, 0) Hx) as (j & Hj & E). rewrite combine_length, seq_length, Nat.min_id in Hj. rewrite combine_nth in E by (rewrite seq_length; auto). rewrite seq_nth in E by auto.
    injection E as <- <-. apply (H' j Hj).
Qed.
Section More.
Variable S : scal.
Lemma at1_ok w k : 1 <= k <= Z.of_nat (length w) -> at1 w k = Ok (vat w k).
Proof. intros H. unfold at1, vat. destruct (Z.leb_spec 1 k); [|lia]. apply at_ok. lia. Qed.
Lemma at1_inv w k x : at1 w k = Ok x -> 1 <= k <= Z.of_nat (length w) /\ x = vat w k.
Proof. unfold at1, vat. destruct (Z.leb_spec 1 k); [|discriminate]. intros E. apply (at_inv 0) in E. destruct E; split; [lia|auto]. Qed.
Lemma dotv_fold (X : exact S) w m : forall a r, mfold (fun ans '(i, x) => bind (at1 w i) (fun y => bind (s_mul S x y) (fun t => s_add S ans t))) m a = Ok r -> r = a + lprod m (vat w).
Proof.
  induction m as [|(k, x) m IH]; intros a r; cbn [mfold lprod]; intros E; [injection E; lia|]. inv E. inv E0. apply at1_inv in E1. destruct E1 as (_ & ->).
  inv E0. apply (ex_mul _ X) in E1. apply (ex_add _ X) in E0. apply IH in E. lia.
Qed.
Lemma sv_dotv_inv (X : exact S) v w r : sv_dotv S v w = Ok r -> good v -> inrange (length w) (sents v) ->
  r = sumn (length w) (fun i => mval (sents v) (Z.of_nat i + 1) * nth i w 0).
Proof.
  intros H G R. apply dotv_fold in H; auto. rewrite H, Z.add_0_l. rewrite (lprod_sumn (length w)) by auto. apply sumn_ext. intros i Hi. rewrite vat_nth. reflexivity.
Qed.
Lemma sv_dotv_tot (T : total S) v w : good v -> inrange (length w) (sents v) -> exists r, sv_dotv S v w = Ok r.
Proof.
  intros G R. unfold sv_dotv. unfold good in G. generalize 0. induction (sents v) as [|(k, x) m IH]; intros a; cbn [mfold]; eauto.
  rewrite at1_ok by (apply (R k x); cbn [mget]; rewrite Z.eqb_refl; auto). rewrite bind_Ok, (to_mul _ T), bind_Ok, (to_add _ T), bind_Ok. apply IH.
  - apply msorted_cons in G. tauto.
  - eapply inrange_tail; eauto.
Qed.
Lemma sv_dotvmodp_ok D p (M : modok S D p) v w : good v -> reds p (sents v) -> (forall i, (i < length w)%nat -> Z.abs (nth i w 0) < p) -> inrange (length w) (sents v) ->
  exists r, sv_dotvmodp S v w p = Ok r /\ cent p r /\ cong p r (sumn (length w) (fun i => mval (sents v) (Z.of_nat i + 1) * nth i w 0)).
Proof.
  intros G Rv Rw R. rewrite (sumn_ext _ _ (fun i => mval (sents v) (Z.of_nat i + 1) * vat w (Z.of_nat i + 1))) by (intros i Hi; rewrite vat_nth; reflexivity).
  rewrite <- (lprod_sumn (length w) (sents v) (vat w)) by auto. unfold sv_dotvmodp. unfold good in G.
  assert (Q : forall m a, msorted m -> reds p m -> inrange (length w) m -> cent p a -> exists r, mfold (fun ans '(i, x) => bind (at1 w i) (fun y => bind (s_xmm S x y p) (fun t => bind (s_add S ans t) (fun u => s_mod S u p)))) m a = Ok r /\
    cent p r /\ cong p r (a + lprod m (vat w))).
  { clear - M Rw. induction m as [|(k, x) m IH]; intros a Sm Rm Ri Ca; cbn [mfold lprod].
    - exists a. split; auto. split; auto. apply cong_eq. lia.
    - assert (Rk : 1 <= k <= Z.of_nat (length w)) by (apply (Ri k x); cbn [mget]; rewrite Z.eqb_refl; auto).
      assert (Lx : Z.abs x < p) by (apply (Rm k x); cbn [mget]; rewrite Z.eqb_refl; auto).
      assert (Ly : Z.abs (vat w k) < p) by (unfold vat; destruct (Z.leb_spec 1 k); [apply Rw; lia|lia]).
      pose proof (cl _ _ _ M a Ca) as La.
      rewrite at1_ok by auto. rewrite bind_Ok. destruct (mo_xmm _ _ _ M x (vat w k)) as (t & -> & Ct & Lt); auto. rewrite bind_Ok. rewrite (mo_add _ _ _ M) by auto. rewrite bind_Ok.
      destruct (mo_mod _ _ _ M (a + t)) as (b & -> & Cb & Bb); [apply (mo_D _ _ _ M); lia|]. rewrite bind_Ok.
      destruct (IH b) as (r & E & Cr & Kr); auto.
      + apply msorted_cons in Sm. tauto.
      + apply msorted_cons in Sm. destruct Sm as (Sm & F). intros k' z H. apply (Rm k'). cbn [mget]. destruct (Z.eqb_spec k k'); auto. apply mget_In, F in H. lia.
      + eapply inrange_tail; eauto.
      + exists r. split; auto. split; auto. eapply cong_trans; [exact Kr|]. rewrite Z.add_assoc. apply cong_add; [|apply cong_refl].
        eapply cong_trans; [exact Cb|]. apply cong_add; auto using cong_refl. }
  destruct (Q (sents v) 0) as (r & E & C & K); auto; [apply (cent0 _ _ _ M)|]. exists r. rewrite Z.add_0_l in K. auto.
Qed.
(** content *)
Hypothesis EG : forall a b g, s_gcd S a b = Ok g -> g = Z.gcd a b.
Lemma content_loop_inv m : forall g c, content_loop S m g = Ok c -> 0 <= g -> 0 <= c /\ (c | g) /\ (forall k x, In (k, x) m -> (c | x)) /\
  (forall h, (h | g) -> (forall k x, In (k, x) m -> (h | x)) -> (h | c)).
Proof.
  induction m as [|(k, x) m IH]; intros g c; cbn [content_loop]; intros E Hg.
  - injection E as <-. split; auto. split; [apply Z.divide_refl|]. split; [intros ? ? []|auto].
  - inv E. apply EG in E0. pose proof (Z.gcd_nonneg g x). destruct (Z.eqb_spec x0 1).
    + injection E as <-. subst x0. rewrite e in *. split; [lia|]. split; [apply Z.divide_1_l|]. split; [intros; apply Z.divide_1_l|].
      intros h H1 H2. rewrite <- e. apply Z.gcd_greatest; auto. eapply H2; left; eauto.
    + apply IH in E; [|lia]. destruct E as (P & D1 & D2 & D3). split; auto. subst x0. split; [eapply Z.divide_trans; [exact D1|apply Z.gcd_divide_l]|].
      split.
      * intros k' y [E|H']; [injection E as <- <-; eapply Z.divide_trans; [exact D1|apply Z.gcd_divide_r]|eauto].
      * intros h H1 H2. apply D3; [apply Z.gcd_greatest; auto; eapply H2; left; eauto|]. intros; eapply H2; right; eauto.
Qed.
Lemma sv_content_inv v c d : sv_content S v = Ok c -> good v -> den v d -> 0 <= c /\ (forall k, (c | snd d k)) /\ (forall h, (forall k, (h | snd d k)) -> (h | c)).
Proof.
  intros E G (D1 & D2). apply content_loop_inv in E; [|lia]. destruct E as (P & _ & H1 & H2). split; auto. split.
  - intros k. rewrite <- D2. unfold mval. destruct (mget (sents v) k) eqn:E; [apply mget_In in E; eauto|apply Z.divide_0_r].
  - intros h H. apply H2; [apply Z.divide_0_r|]. intros k x Hx. apply In_mget in Hx; auto. specialize (H k). rewrite <- D2 in H. unfold mval in H. rewrite Hx in H. auto.
Qed.
Lemma sv_primitive_inv (X : exact S) v c r d : sv_primitive S v = Ok (c, r) -> good v -> den v d ->
  0 <= c /\ (forall k, (c | snd d k)) /\ (forall h, (forall k, (h | snd d k)) -> (h | c)) /\ good r /\ sd r = fst d /\ (forall k, c * mval (sents r) k = snd d k).
Proof.
  intros E G De. unfold sv_primitive in E. inv E. pose proof (sv_content_inv _ _ _ E0 G De) as (P & C1 & C2). inv E. injection E as -> ->.
  split; auto. split; auto. split; auto. unfold sv_div in E1. inv E1. injection E1 as <-. pose proof (smap_map_sorted _ _ _ E G) as SS. apply smap_map_inv in E. destruct E as (_ & E).
  split; auto. split; [apply De|]. intros k. cbn [sents]. destruct De as (D1 & D2). specialize (C1 k). rewrite <- D2 in *. specialize (E k). unfold mval in *. destruct (mget (sents v) k).
  - destruct E as (y & E & ->). apply (ex_div _ X _ _ _ E C1).
  - rewrite E. lia.
Qed.
(** make_primitive: the result has content 1 *)
Lemma prim_one (f g : Z -> Z) c : (forall h, (forall k, (h | f k)) -> (h | c)) -> c <> 0 -> (forall k, c * g k = f k) -> 0 <= c -> forall h, (forall k, (h | g k)) -> (h | 1).
Proof.
  intros H N E P h Hh. assert (D : (c * h | c)).
  { apply H. intros k. rewrite <- E. destruct (Hh k) as [q ->]. exists q. ring. }
  destruct D as [q Hq]. exists q. assert (c * (q * h - 1) = 0) by lia. apply Z.mul_eq_0 in H0. lia.
Qed.
Lemma sv_primitive_tot (T : total S) (TG : forall a b, s_gcd S a b = Ok (Z.gcd a b)) v d : good v -> den v d -> (exists k, snd d k <> 0) -> exists c r, sv_primitive S v = Ok (c, r) /\ 0 < c.
Proof.
  intros G De (k0 & N). unfold sv_primitive. assert (E : exists c, sv_content S v = Ok c).
  { unfold sv_content. generalize 0. induction (sents v) as [|(k, x) m IH]; intros g; cbn [content_loop]; eauto. rewrite TG, bind_Ok. destruct (_ =? _); eauto. }
  destruct E as (c & E). rewrite E, bind_Ok. pose proof (sv_content_inv _ _ _ E G De) as (P & C1 & C2).
  assert (c <> 0) by (intros ->; apply N; specialize (C1 k0); apply Z.divide_0_l in C1; auto).
  unfold sv_div. destruct (smap_map_ok (fun x => s_div S x c) (sents v)) as (m & ->); auto.
  { intros k x Hx. destruct (to_div _ T x c) as (y & -> & _); eauto. specialize (C1 k). destruct De as (_ & D2). rewrite <- D2 in C1. unfold mval in C1. rewrite Hx in C1. auto. }
  rewrite !bind_Ok. exists c, (Sv (sd v) m). split; auto. lia.
Qed.
End More.
(** ons and offs *)
Section OnsOffs.
Variables (S : scal) (D : Z -> Prop) (p : Z).
Hypothesis M : modok S D p.
Lemma sv_addstmod_oo_ok v w c dv dw : good v -> good w -> reds p (sents v) -> reds p (sents w) -> denp p v dv -> denp p w dw -> D c ->
  exists r on off, sv_addstmod_oo S false v w c p = Ok (r, on, off) /\ okm p r (dbin (fun x y => x + c * y) dv dw) /\
    (forall k, In k on <-> cong p (snd dv k) 0 /\ ~ cong p (snd (dbin (fun x y => x + c * y) dv dw) k) 0) /\
    (forall k, In k off <-> ~ cong p (snd dv k) 0 /\ cong p (snd (dbin (fun x y => x + c * y) dv dw) k) 0).
Proof.
  intros Gv Gw Rv Rw Dv Dw Dc.
  destruct (sv_addstmod_mod S D p M false v w c dv dw) as (r & E & O); auto; [discriminate|].
  assert (PRE : forall u d k, reds p (sents u) -> denp p u d -> (mget (sents u) k = None <-> cong p (snd d k) 0)).
  { intros u d k R (D1 & D2). split.
    - intros H. specialize (D2 k). unfold mval in D2. rewrite H in D2. apply cong_sym; auto.
    - intros H. destruct (mget (sents u) k) eqn:G; auto. exfalso. destruct (R _ _ G) as (L & N). apply (small_nz p z); auto. specialize (D2 k). unfold mval in D2. rewrite G in D2. eapply cong_trans; eauto. }
  assert (NIL : r = v -> exists r0 on off, Ok (v, [], []) = Ok (r0, on, off) /\ okm p r0 (dbin (fun x y => x + c * y) dv dw) /\
    (forall k, In k on <-> cong p (snd dv k) 0 /\ ~ cong p (snd (dbin (fun x y => x + c * y) dv dw) k) 0) /\
    (forall k, In k off <-> ~ cong p (snd dv k) 0 /\ cong p (snd (dbin (fun x y => x + c * y) dv dw) k) 0)).
  { intros ->. exists v, [], []. split; auto. split; auto. destruct O as (O1 & O2 & O3).
    split; intros k; cbn [In]; rewrite <- (PRE v dv k), <- (PRE v _ k O2 O3) by auto; tauto. }
  unfold sv_addstmod_oo. unfold sv_addstmod in E. destruct (Z.eqb_spec (sd v) (sd w)) as [Ed|Ed]; [|injection E as <-; auto].
  destruct (s_mod S c p) as [a| | |]; try discriminate. rewrite !bind_Ok in *. destruct (a =? 0); [injection E as <-; auto|]. clear NIL.
  unfold sv_merge in E. rewrite Ed, Z.eqb_refl in E.
  destruct (merge_main (fun y => s_xmm S a y p) (fun x y => bind (s_xmm S a y p) (fun t => bind (s_add S x t) (fun u => s_xmod S u p))) (sents v) (sents w) Gv Gw) as [(s & Es & _ & _ & On & Off)|(_ & Bad)].
  2:{ inv E. exfalso. eapply Bad; eauto. }
  rewrite Es in *. cbn [bind] in *. injection E as <-. rewrite Ed. exists (Sv (sd w) (mm s)), (mn s), (mf s). split; auto. split; auto. destruct O as (O1 & O2 & O3).
  split; intros k; rewrite <- (PRE v dv k), <- (PRE _ _ k O2 O3) by auto; cbn [sents]; auto.
Qed.
End OnsOffs.
