(** Proofs about SmatModel, sixth part: operations modulo p. *)
From Coq Require Import ZArith Znumtheory Lia List Bool Sorted.
From Verif Require Import Base LinModel LinSpec LinProofs LinAlg LinElim LinKer SvecModel SvecSpec SvecProofs SvecOps SvecMod SvecMore SmatModel SmatProofs SmatOps SmatMat SmatArith SmatMore.
Import ListNotations.
Open Scope Z_scope.
Open Scope res_scope.
Section Modp.
Variables (S : scal) (D : Z -> Prop) (p : Z).
Hypothesis M : modok S D p.
(** entries congruent to those of e, small and non-zero *)
Definition repp (m : smat) (nr nc : nat) (e : nat -> nat -> Z) : Prop :=
  exists e', rep True m nr nc e' /\ forall i j, (i < nr)%nat -> (j < nc)%nat -> cong p (e' i j) (e i j) /\ Z.abs (e' i j) < p.
Definition svrepp (v : svec) (n : nat) (f : nat -> Z) : Prop := exists f', svrep True v n f' /\ forall j, (j < n)%nat -> cong p (f' j) (f j) /\ Z.abs (f' j) < p.
Lemma lrow_In (c : Prop) n f l k x : lrow c n f l -> In (k, x) l -> 1 <= k <= Z.of_nat n /\ x = f (Z.to_nat (k - 1)) /\ mget l k = Some x.
Proof.
  intros (A & B & C & E) H. pose proof (B k x H). split; auto. pose proof (In_mget l k x A H) as G. split; auto. rewrite <- E by lia. replace (Z.of_nat (Z.to_nat (k - 1)) + 1) with k by lia. unfold mval. rewrite G. reflexivity.
Qed.
Lemma lrow_reds n f l : lrow True n f l -> (forall j, (j < n)%nat -> Z.abs (f j) < p) -> reds p l.
Proof.
  intros H B k x G. pose proof (mget_In _ _ _ G) as Hi. destruct (lrow_In _ _ _ _ _ _ H Hi) as (Hk & E & _). split; [rewrite E; apply B; lia|]. intros ->. destruct H as (_ & _ & C & _). exact (C Logic.I k G).
Qed.
Lemma okm_svrepp v n f r d : svrep True v n f -> okm p r (Z.of_nat n, d) -> inr n (sents r) -> (forall j, (j < n)%nat -> cong p (d (Z.of_nat j + 1)) (f j)) -> svrepp r n f.
Proof.
  intros (V1 & V2) (G & R & (E1 & E2)) I C. exists (fun j => mval (sents r) (Z.of_nat j + 1)). split.
  - split; [exact E1|]. split; [exact G|]. split; [exact I|]. split; [intros _; eapply (reds_canon p); eauto|auto].
  - intros j Hj. split; [eapply cong_trans; [apply E2|apply C, Hj]|]. apply (reds_val S D p M); auto.
Qed.
Lemma repp_row m nr nc e i : repp m nr nc e -> (i < nr)%nat -> exists l f', sm_row m i = Ok (Sv (Z.of_nat nc) l) /\ lrow True nc f' l /\ (forall j, (j < nc)%nat -> cong p (f' j) (e i j) /\ Z.abs (f' j) < p).
Proof. intros (e' & R & H) Hi. destruct (sm_row_ok _ _ _ _ _ i R Hi) as (l & E & Hl). exists l, (e' i). auto. Qed.
Lemma red_row (c : Prop) n f l : lrow c n f l -> (forall j, (j < n)%nat -> D (f j)) -> exists l', red_map S l p = Ok l' /\ lrow True n (fun j => mval l' (Z.of_nat j + 1)) l' /\ forall j, (j < n)%nat -> cong p (mval l' (Z.of_nat j + 1)) (f j) /\ Z.abs (mval l' (Z.of_nat j + 1)) < p.
Proof.
  intros H HD. destruct (red_map_ok S D p M l) as (l' & E & S' & R' & C' & I').
  - intros k x G. pose proof (mget_In _ _ _ G) as Hi. destruct (lrow_In _ _ _ _ _ _ H Hi) as (Hk & -> & _). apply HD. lia.
  - apply H.
  - exists l'. split; auto. split.
    + split; [exact S'|]. split; [intros k x Hk; apply I' in Hk; destruct Hk as (y & Hy); destruct H as (_ & B & _); apply (B k y Hy)|]. split; [intros _; eapply (reds_canon p); eauto|auto].
    + intros j Hj. split; [destruct H as (_ & _ & _ & V); rewrite <- V by auto; apply C'|]. apply (reds_val S D p M (Sv 0 l')). exact R'.
Qed.
(** reduce_mod_p *)
Lemma sm_reduce_ok (c : Prop) m nr nc e : rep c m nr nc e -> (forall i j, (i < nr)%nat -> (j < nc)%nat -> D (e i j)) -> exists m', sm_reduce S m p = Ok m' /\ repp m' nr nc e.
Proof.
  intros R HD. unfold sm_reduce, snr. rewrite (proj1 (proj2 R)).
  set (Inv := fun (n : nat) (m : smat) => exists e', rep c m nr nc e' /\ forall i, (i < nr)%nat -> if (i <? n)%nat then (exists l, rowok (nth i (srows m) row0) l /\ lrow True nc (e' i) l) /\ forall j, (j < nc)%nat -> cong p (e' i j) (e i j) /\ Z.abs (e' i j) < p else e' i = e i).
  refine (oc_tot True _ _ (oc_impl _ _ _ _ (oc_mfold_seq True Inv _ nr 0%nat m _ _) _) Logic.I).
  - exists e. split; [exact R|]. intros i _. reflexivity.
  - intros i m1 Hi (e1 & R1 & H1). pose proof (H1 i ltac:(lia)) as Hrow. destruct (Nat.ltb_spec i i); [lia|].
    destruct (sm_row_ok _ _ _ _ _ i R1 ltac:(lia)) as (l & -> & Hl). rewrite bind_Ok. unfold sv_reduce. cbn [sents sd]. rewrite Hrow in Hl.
    destruct (red_row _ _ _ _ Hl) as (l' & -> & Hl' & C'); [intros j Hj; apply HD; lia|]. rewrite !bind_Ok.
    destruct (rep_row _ _ _ _ _ i R1 ltac:(lia)) as (l0 & E1 & E2 & _ & _). unfold sm_setrow. rewrite E1, bind_Ok. cbn [sents].
    destruct (simr_ok _ _ _ _ (rsetsvec_sim _ l0 l' E2) eq_refl) as (r & -> & Hr). rewrite bind_Ok. unfold setrowat. destruct R1 as (A1 & B1 & C1).
    destruct (put_ok row0 (srows m1) i [r]) as (rs & -> & L & O1 & O2); [cbn [length]; lia|]. rewrite bind_Ok. cbn [oc].
    exists (fun a b => if (a =? i)%nat then mval l' (Z.of_nat b + 1) else e1 a b). split.
    + split; [exact A1|]. split; [cbn [srows]; lia|]. intros a Ha. cbn [srows]. destruct (Nat.eqb_spec a i) as [->|n].
      * rewrite O1 by (cbn [length]; lia). rewrite Nat.sub_diag. exists l'. split; auto. eapply lrow_ext; [exact Hl'|auto|auto].
      * rewrite O2 by (cbn [length]; lia). apply C1, Ha.
    + intros a Ha. cbn [srows]. destruct (Nat.eqb_spec a i) as [->|n].
      * destruct (Nat.ltb_spec i (Datatypes.S i)); [|lia]. split; [|exact C']. exists l'. rewrite O1 by (cbn [length]; lia). rewrite Nat.sub_diag. auto.
      * specialize (H1 a Ha). rewrite O2 by (cbn [length]; lia). destruct (Nat.ltb_spec a i), (Nat.ltb_spec a (Datatypes.S i)); auto; lia.
  - intros m1 (e1 & (A1 & B1 & C1) & H1). exists e1. split.
    + split; [exact A1|]. split; [exact B1|]. intros i Hi. specialize (H1 i Hi). cbn [Nat.add] in H1. destruct (Nat.ltb_spec i nr); [|lia]. destruct H1 as (H1 & _). exact H1.
    + intros i j Hi Hj. specialize (H1 i Hi). cbn [Nat.add] in H1. destruct (Nat.ltb_spec i nr); [|lia]. apply H1, Hj.
Qed.
Lemma sm_submod_ok m nr nc e a : repp m nr nc e -> (nr <= nc)%nat -> Z.abs a < p -> exists m', sm_submod S m a p = Ok m' /\ repp m' nr nc (fun i j => e i j - (if (i =? j)%nat then a else 0)).
Proof.
  intros (e' & R & H) Hn Ha. unfold sm_submod, sm_subs. rewrite (mo_neg _ _ _ M a Ha), bind_Ok.
  destruct (oc_tot True _ _ (sm_adds_gen S True True m nr nc e' (- a) R Hn ltac:(intros i j Hi Hj; rewrite (mo_add _ _ _ M) by (try apply H; auto; lia); reflexivity)) Logic.I) as (m1 & -> & R1). rewrite bind_Ok.
  destruct (sm_reduce_ok _ _ _ _ _ R1) as (m2 & -> & (e2 & R2 & H2)).
  - intros i j Hi Hj. apply (mo_D _ _ _ M). destruct (H i j Hi Hj). destruct (_ =? _)%nat; lia.
  - eexists; split; [reflexivity|]. exists e2. split; auto. intros i j Hi Hj. destruct (H2 i j Hi Hj) as (C2 & B2). split; auto. eapply cong_trans; [exact C2|]. cbn beta. destruct (H i j Hi Hj) as (C & _).
    destruct (_ =? _)%nat; [apply cong_add; [exact C|apply cong_refl]|]. rewrite Z.add_0_r, Z.sub_0_r. exact C.
Qed.
Lemma xmm_nz x a y : Z.abs x < p -> ~ cong p a 0 -> cong p y (x * a) -> y = 0 -> x = 0.
Proof.
  intros Hx Ha C ->. apply cong_sym in C. destruct (Z.eq_dec x 0) as [|n]; auto. exfalso. destruct C as [j Hj]. assert (Pd : (p | x * a)) by (exists j; lia). apply prime_mult in Pd; [|apply (mo_prime _ _ _ M)]. destruct Pd as [Pd|Pd].
  - apply (small_nz p x); auto. destruct Pd as [i Hi]. exists i. lia.
  - apply Ha. destruct Pd as [i Hi]. exists i. lia.
Qed.
Lemma sm_scalemod_ok m nr nc e a : repp m nr nc e -> Z.abs a < p -> ~ cong p a 0 -> exists m', sm_scalemod S m a p = Ok m' /\ repp m' nr nc (fun i j => a * e i j).
Proof.
  intros (e' & R & H) Ha Ha0. unfold sm_scalemod. destruct (mo_xmod _ _ _ M a) as (r & -> & _); [apply (mo_D _ _ _ M); lia|]. rewrite bind_Ok. pose proof (p_pos _ _ _ M) as Pp.
  pose proof (sm_map_ok True True True (fun x => s_xmm S x a p) (fun x y => Z.abs x < p /\ cong p y (x * a) /\ Z.abs y < p) m nr nc e' R) as Q.
  assert (Q0 : oc True (sm_map (fun x => s_xmm S x a p) m) (fun r => rep True r nr nc (dread r) /\ forall i j, (i < nr)%nat -> (j < nc)%nat -> Z.abs (e' i j) < p /\ cong p (dread r i j) (e' i j * a) /\ Z.abs (dread r i j) < p)).
  { apply Q; auto.
    - split; [lia|]. split; [apply cong_refl|lia].
    - intros _ x (X1 & X2 & X3). eapply xmm_nz; eauto.
    - intros i l k x Hi _ Hl Hk. destruct (lrow_In _ _ _ _ _ _ Hl Hk) as (Hr & -> & _). destruct (H i (Z.to_nat (k - 1)) Hi ltac:(lia)) as (_ & B). destruct (mo_xmm _ _ _ M (e' i (Z.to_nat (k - 1))) a B Ha) as (y & -> & C & L). cbn [oc]. auto. }
  destruct (oc_tot _ _ _ Q0 Logic.I) as (m' & -> & R' & H'). eexists; split; [reflexivity|]. exists (dread m'). split; auto. intros i j Hi Hj. destruct (H' i j Hi Hj) as (_ & C & B). split; auto. eapply cong_trans; [exact C|]. rewrite Z.mul_comm. apply cong_mul; [apply cong_refl|apply H; auto].
Qed.
Lemma cong_sumn n f g : (forall i, (i < n)%nat -> cong p (f i) (g i)) -> cong p (sumn n f) (sumn n g).
Proof. intros H. induction n; cbn [sumn]; [apply cong_refl|]. apply cong_add; [apply IHn; intros; apply H; lia|apply H; lia]. Qed.
(** products modulo p *)
Lemma sm_mulmod_vec_ok m nr nc e v : repp m nr nc e -> length v = nc -> (forall i, (i < nc)%nat -> Z.abs (nth i v 0) < p) ->
  exists w, sm_mulmod_vec S m v p = Ok w /\ length w = nr /\ forall i, (i < nr)%nat -> cent p (nth i w 0) /\ cong p (nth i w 0) (sumn nc (fun k => e i k * nth k v 0)).
Proof.
  intros R L Hv. pose proof R as (e' & R' & _). unfold sm_mulmod_vec, snr. rewrite (proj1 R'), (proj1 (proj2 R')), L, Nat.eqb_refl.
  refine (oc_tot True _ _ (oc_impl _ _ _ _ (oc_mfold_seq True (fun k w => length w = nr /\ forall i, (i < k)%nat -> cent p (nth i w 0) /\ cong p (nth i w 0) (sumn nc (fun k => e i k * nth k v 0))) _ nr 0%nat (zeros nr) _ _) _) Logic.I).
  - split; [apply repeat_length|intros; lia].
  - intros i w Hi (Lw & Hw). destruct (repp_row _ _ _ _ i R ltac:(lia)) as (l & f' & -> & Hl & Hf). rewrite bind_Ok.
    destruct (sv_dotvmodp_ok S D p M (Sv (Z.of_nat nc) l) v) as (z & -> & Cz & Gz).
    + apply Hl.
    + eapply lrow_reds; [exact Hl|intros; apply Hf; auto].
    + rewrite L. exact Hv.
    + rewrite L. eapply lrow_inrange; eauto.
    + rewrite bind_Ok. destruct (at_set_ok w i z) as (w' & -> & L' & H1 & H2); [lia|]. cbn [oc]. split; [lia|]. intros j Hj. destruct (Nat.eq_dec j i) as [->|n].
      * rewrite H1. split; auto. eapply cong_trans; [exact Gz|]. rewrite L. apply cong_sumn. intros k Hk. destruct Hl as (_ & _ & _ & V). cbn [sents]. rewrite V by auto. apply cong_mul; [apply Hf; auto|apply cong_refl].
      * rewrite H2 by auto. apply Hw. lia.
  - intros w (Lw & Hw). split; auto.
Qed.
Lemma svrepp_push w i s n f : (forall j, (j < i)%nat -> f j = f j) -> sd w = n -> (exists f', lrow True i f' (sents w) /\ forall j, (j < i)%nat -> cong p (f' j) (f j) /\ Z.abs (f' j) < p) -> cong p s (f i) -> Z.abs s < p ->
  sd (sv_set w (Z.of_nat i + 1) s) = n /\ exists f', lrow True (Datatypes.S i) f' (sents (sv_set w (Z.of_nat i + 1) s)) /\ forall j, (j < Datatypes.S i)%nat -> cong p (f' j) (f j) /\ Z.abs (f' j) < p.
Proof.
  intros _ Hd (f' & (A & B & C & V) & H) Cs Bs. unfold sv_set. assert (Bl : mval (sents w) (Z.of_nat i + 1) = 0) by (eapply mval_out; [exact B|lia]).
  destruct (Z.eqb_spec s 0) as [->|n0]; cbn [sd sents]; (split; [exact Hd|]); exists (fun j => if (j =? i)%nat then s else f' j) || exists (fun j => if (j =? i)%nat then 0 else f' j).
  - split; [split; [exact A|]; split; [intros k x Hk; apply B in Hk; lia|]; split; [auto|]|].
    + intros j Hj. destruct (Nat.eqb_spec j i) as [->|]; [exact Bl|apply V; lia].
    + intros j Hj. destruct (Nat.eqb_spec j i) as [->|]; [auto|apply H; lia].
  - split; [split; [apply mset_sorted, A|]; split; [intros k x Hk; apply In_mset in Hk; destruct Hk as [->|Hk]; [lia|apply B in Hk; lia]|]; split; [intros _; apply canon_mset; auto|]|].
    + intros j Hj. rewrite mval_mset. destruct (Z.eqb_spec (Z.of_nat i + 1) (Z.of_nat j + 1)), (Nat.eqb_spec j i); try lia. apply V. lia.
    + intros j Hj. destruct (Nat.eqb_spec j i) as [->|]; [auto|apply H; lia].
Qed.
Lemma sm_mulmod_svec_ok m nr nc e v f : repp m nr nc e -> svrepp v nc f -> exists w, sm_mulmod_svec S m v p = Ok w /\ svrepp w nr (fun i => sumn nc (fun k => e i k * f k)).
Proof.
  intros R (g & (L & Hv) & Hg). pose proof R as (e' & R' & _). unfold sm_mulmod_svec, snr. rewrite (proj1 R'), (proj1 (proj2 R')), L, Z.eqb_refl.
  set (h := fun i => sumn nc (fun k => e i k * f k)).
  refine (oc_tot True _ _ (oc_impl _ _ _ _ (oc_mfold_seq True (fun i w => sd w = Z.of_nat nr /\ exists f', lrow True i f' (sents w) /\ forall j, (j < i)%nat -> cong p (f' j) (h j) /\ Z.abs (f' j) < p) _ nr 0%nat (Sv (Z.of_nat nr) []) _ _) _) Logic.I).
  - split; [reflexivity|]. exists (fun _ => 0). split; [apply lrow_nil|intros; lia].
  - intros i w Hi (Lw & Hw). destruct (repp_row _ _ _ _ i R ltac:(lia)) as (l & f' & -> & Hl & Hf). rewrite bind_Ok.
    destruct (sv_dotmodp_ok S D p M (Sv (Z.of_nat nc) l) v nc) as (z & -> & Cz & Gz).
    + apply Hl.
    + apply Hv.
    + eapply lrow_reds; [exact Hl|intros; apply Hf; auto].
    + eapply lrow_reds; [exact Hv|intros; apply Hg; auto].
    + eapply lrow_inrange; eauto.
    + rewrite bind_Ok. cbn [oc]. apply svrepp_push; auto; [|apply (cl _ _ _ M z Cz)]. eapply cong_trans; [exact Gz|]. apply cong_sumn. intros k Hk. destruct Hl as (_ & _ & _ & V). destruct Hv as (_ & _ & _ & V'). cbn [sents]. rewrite V, V' by auto. apply cong_mul; [apply Hf; auto|apply Hg; auto].
  - intros w (Lw & f' & Hw & Hf). exists f'. split; [split; auto|auto].
Qed.
Lemma at1_set_ok w k x : 1 <= k <= Z.of_nat (length w) -> exists w', at1_set w k x = Ok w' /\ length w' = length w /\ forall j, (j < length w)%nat -> nth j w' 0 = if Z.of_nat j + 1 =? k then x else nth j w 0.
Proof.
  intros Hk. unfold at1_set. destruct (Z.leb_spec 1 k); [|lia]. destruct (at_set_ok w (Z.to_nat (k - 1)) x) as (w' & -> & L & H1 & H2); [lia|]. exists w'. split; auto. split; auto. intros j Hj. destruct (Z.eqb_spec (Z.of_nat j + 1) k).
  - replace j with (Z.to_nat (k - 1)) by lia. exact H1.
  - apply H2. lia.
Qed.
Lemma addrow_ok c nc f l : Z.abs c < p -> msorted l -> inr nc l -> (forall k x, In (k, x) l -> Z.abs x < p) -> forall w, length w = nc -> (forall j, (j < nc)%nat -> cent p (nth j w 0)) -> (forall j, (j < nc)%nat -> cong p (mval l (Z.of_nat j + 1)) (f j)) ->
  exists w', mfold (fun w '(j, x) => bind (s_xmm S c x p) (fun t => bind (at1 w j) (fun y => bind (s_add S y t) (fun u => bind (s_mod S u p) (fun u => at1_set w j u))))) l w = Ok w' /\ length w' = nc /\
    forall j, (j < nc)%nat -> cent p (nth j w' 0) /\ cong p (nth j w' 0) (nth j w 0 + c * f j).
Proof.
  intros Hc Hs Hi Hb w Lw Cw Hf.
  assert (G : exists w', mfold (fun w '(j, x) => bind (s_xmm S c x p) (fun t => bind (at1 w j) (fun y => bind (s_add S y t) (fun u => bind (s_mod S u p) (fun u => at1_set w j u))))) l w = Ok w' /\ length w' = nc /\
    forall j, (j < nc)%nat -> cent p (nth j w' 0) /\ cong p (nth j w' 0) (nth j w 0 + c * mval l (Z.of_nat j + 1))).
  { clear Hf f. revert w Lw Cw. induction l as [|(k, x) l IH]; intros w Lw Cw; cbn [mfold].
    - exists w. split; auto. split; auto. intros j Hj. split; auto. rewrite mval_nil, Z.mul_0_r, Z.add_0_r. apply cong_refl.
    - apply msorted_cons in Hs. destruct Hs as (Hs & Ha). apply inr_cons in Hi. destruct Hi as (Hk & Hi).
      destruct (mo_xmm _ _ _ M c x Hc) as (t & -> & Ct & Lt); [apply (Hb k x); left; auto|]. rewrite bind_Ok. rewrite at1_ok by lia. rewrite bind_Ok.
      assert (Vk : vat w k = nth (Z.to_nat (k - 1)) w 0) by (replace k with (Z.of_nat (Z.to_nat (k - 1)) + 1) at 1 by lia; apply vat_nth).
      assert (Cv : cent p (vat w k)) by (rewrite Vk; apply Cw; lia). pose proof (cl _ _ _ M _ Cv) as Lv. rewrite (mo_add _ _ _ M) by auto. rewrite bind_Ok.
      destruct (mo_mod _ _ _ M (vat w k + t)) as (u & -> & Cu & Bu); [apply (mo_D _ _ _ M); lia|]. rewrite bind_Ok.
      destruct (at1_set_ok w k u) as (w1 & -> & L1 & H1); [lia|]. rewrite bind_Ok.
      destruct (IH Hs Hi ltac:(intros; eapply Hb; right; eauto) w1) as (w' & E & L' & H'); [lia| |].
      + intros j Hj. rewrite H1 by lia. destruct (_ =? _); auto.
      + exists w'. split; auto. split; auto. intros j Hj. destruct (H' j Hj) as (H2 & H3). split; auto. eapply cong_trans; [exact H3|]. rewrite H1, mval_cons by lia. rewrite (Z.eqb_sym k). destruct (Z.eqb_spec (Z.of_nat j + 1) k) as [e|n]; [|apply cong_refl].
        rewrite e. rewrite (mval_above l k Ha), Z.mul_0_r, Z.add_0_r. eapply cong_trans; [exact Cu|]. rewrite Vk. replace (Z.to_nat (k - 1)) with j by lia. apply cong_add; [apply cong_refl|exact Ct]. }
  destruct G as (w' & E & L' & H). exists w'. split; auto. split; auto. intros j Hj. destruct (H j Hj) as (H1 & H2). split; auto. eapply cong_trans; [exact H2|]. apply cong_add; [apply cong_refl|]. apply cong_mul; [apply cong_refl|apply Hf, Hj].
Qed.
Lemma svec_mulmod_ok m nr nc e v f : repp m nr nc e -> svrepp v nr f -> exists w, svec_mulmod S v m p = Ok w /\ svrepp w nc (fun j => sumn nr (fun k => f k * e k j)).
Proof.
  intros (e' & R & He) (g & (L & Hv) & Hg). unfold svec_mulmod, snr. rewrite (proj1 R), (proj1 (proj2 R)), L, Z.eqb_refl. pose proof Hv as (A & B & C & V).
  assert (Bv : forall k x, In (k, x) (sents v) -> Z.abs x < p) by (intros k x Hk; destruct (lrow_In _ _ _ _ _ _ Hv Hk) as (Hr & -> & _); apply Hg; lia).
  assert (G : exists w, mfold (fun w '(k, c) => bind (if 1 <=? k then rowat m (Z.to_nat (k - 1)) else UB) (fun r => bind (rread r) (fun l =>
      mfold (fun w '(j, x) => bind (s_xmm S c x p) (fun t => bind (at1 w j) (fun y => bind (s_add S y t) (fun u => bind (s_mod S u p) (fun u => at1_set w j u))))) l w))) (sents v) (zeros nc) = Ok w /\ length w = nc /\
      forall j, (j < nc)%nat -> cent p (nth j w 0) /\ cong p (nth j w 0) (nth j (zeros nc) 0 + lprod (sents v) (fun k => e (Z.to_nat (k - 1)) j))).
  { assert (Z1 : length (zeros nc) = nc) by apply repeat_length. assert (Z2 : forall j, (j < nc)%nat -> cent p (nth j (zeros nc) 0)) by (intros j _; unfold zeros; rewrite nth_repeat; apply (cent0 _ _ _ M)).
    revert Z1 Z2. generalize (zeros nc) as w0. clear Hv C V L Hg. induction (sents v) as [|(k, c) t IH]; intros w0 L0 C0; cbn [mfold lprod].
    - exists w0. split; auto. split; auto. intros j Hj. split; auto. rewrite Z.add_0_r. apply cong_refl.
    - apply msorted_cons in A. destruct A as (A & _). apply inr_cons in B. destruct B as (Hk & B). destruct (Z.leb_spec 1 k); [|lia].
      destruct (rep_row _ _ _ _ _ (Z.to_nat (k - 1)) R) as (l & -> & _ & E & Hl); [lia|]. rewrite bind_Ok, E, bind_Ok. pose proof Hl as (A1 & B1 & C1 & V1).
      destruct (addrow_ok c nc (e (Z.to_nat (k - 1))) l) with (w := w0) as (w1 & -> & L1 & H1); auto.
      + apply (Bv k c). left; auto.
      + intros k' x Hx. destruct (lrow_In _ _ _ _ _ _ Hl Hx) as (Hr & -> & _). apply He; lia.
      + intros j Hj. rewrite V1 by auto. apply He; auto; lia.
      + rewrite bind_Ok. destruct (IH A B ltac:(intros; eapply Bv; right; eauto) w1 L1) as (w & E' & Lw & Hw); [intros j Hj; apply H1, Hj|]. exists w. split; auto. split; auto. intros j Hj. destruct (Hw j Hj) as (W1 & W2). split; auto. eapply cong_trans; [exact W2|].
        rewrite Z.add_assoc. apply cong_add; [apply H1, Hj|apply cong_refl]. }
  destruct G as (w & -> & Lw & Hw). rewrite bind_Ok. eexists; split; [reflexivity|]. exists (fun j => nth j w 0). split.
  - split; [cbn [sv_of_vec sd]; rewrite Lw; reflexivity|]. cbn [sv_of_vec sents]. rewrite <- Lw. apply lrow_of_list.
  - intros j Hj. destruct (Hw j Hj) as (W1 & W2). split; [|apply (cl _ _ _ M _ W1)]. eapply cong_trans; [exact W2|]. unfold zeros. rewrite nth_repeat, Z.add_0_l, (lprod_sumn nr); auto; [|apply inr_inrange; auto].
    apply cong_sumn. intros k Hk. rewrite V by auto. replace (Z.to_nat (Z.of_nat k + 1 - 1)) with k by lia. apply cong_mul; [apply Hg, Hk|apply cong_refl].
Qed.
Lemma sm_mulmod_ok a b nr n nc ea eb : repp a nr n ea -> repp b n nc eb -> exists r, sm_mulmod S a b p = Ok r /\ repp r nr nc (fun i j => sumn n (fun k => ea i k * eb k j)).
Proof.
  intros Ra Rb. pose proof Ra as (ea' & Ra' & _). pose proof Rb as (eb' & Rb' & _). unfold sm_mulmod, snr. rewrite (proj1 Ra'), (proj1 (proj2 Rb')), (proj1 (proj2 Ra')), (proj1 Rb'), Nat.eqb_refl.
  set (h := fun i j => sumn n (fun k => ea i k * eb k j)).
  refine (oc_tot True _ _ (oc_impl _ _ _ _ (oc_mfold_seq True (fun i m => exists e', rep True m nr nc e' /\ forall a b, (a < i)%nat -> (b < nc)%nat -> cong p (e' a b) (h a b) /\ Z.abs (e' a b) < p) _ nr 0%nat (sm_new nr nc) _ _) _) Logic.I).
  - exists (fun _ _ => 0). split; [apply rep_new|intros; lia].
  - intros i m Hi (e' & R & H). destruct (repp_row _ _ _ _ i Ra ltac:(lia)) as (l & f' & -> & Hl & Hf). rewrite bind_Ok.
    destruct (svec_mulmod_ok b n nc eb (Sv (Z.of_nat n) l) (ea i) Rb) as (v & -> & (g & (V1 & V2) & Hg)); [exists f'; split; [split; [reflexivity|exact Hl]|exact Hf]|]. rewrite bind_Ok.
    destruct (sm_setrow_ok True m nr nc e' i g v R ltac:(lia) V2) as (m' & -> & R'). cbn [oc]. eexists; split; [exact R'|]. intros x y Hx Hy. cbn beta. destruct (Nat.eqb_spec x i) as [->|n0]; [apply Hg, Hy|apply H; auto; lia].
  - intros m (e' & R & H). exists e'. split; auto.
Qed.
(** eqmodp *)
Lemma reds_tl k x m : msorted ((k, x) :: m) -> reds p ((k, x) :: m) -> Z.abs x < p /\ x <> 0 /\ reds p m.
Proof.
  intros A R. apply msorted_cons in A. destruct A as (A & F). assert (G : mget ((k, x) :: m) k = Some x) by (cbn [mget]; rewrite Z.eqb_refl; reflexivity). destruct (R k x G). split; auto. split; auto.
  intros k' x' G'. apply (R k'). cbn [mget]. destruct (Z.eqb_spec k k') as [<-|]; auto. apply mget_In, F in G'. lia.
Qed.
Lemma hd_above k x (m m' : smap) : msorted ((k, x) :: m) -> reds p ((k, x) :: m) -> (forall k' y, In (k', y) m' -> k < k') -> ~ cong p (mval ((k, x) :: m) k) (mval m' k).
Proof.
  intros A R H C. rewrite (mval_above m' k H), mval_cons, Z.eqb_refl in C. destruct (reds_tl _ _ _ A R) as (B & N & _). exact (small_nz p x B N C).
Qed.
Lemma eqmod_pos a : forall b, msorted a -> msorted b -> reds p a -> reds p b -> (forall k, cong p (mval a k) (mval b k)) -> length a = length b /\ pos_eq a b = true.
Proof.
  induction a as [|(k, x) a IH]; intros [|(k', y) b] Sa Sb Ra Rb H.
  - auto.
  - exfalso. apply (hd_above k' y b []); auto; [intros ? ? []|apply cong_sym, H].
  - exfalso. apply (hd_above k x a []); auto. intros ? ? [].
  - pose proof Sa as Sa'. pose proof Sb as Sb'. apply msorted_cons in Sa'. apply msorted_cons in Sb'. destruct Sa' as (Sa' & Fa), Sb' as (Sb' & Fb).
    destruct (Z.lt_trichotomy k k') as [L|[->|L]].
    + exfalso. apply (hd_above k x a ((k', y) :: b)); auto. intros k0 y0 Hi. apply in_inv in Hi. destruct Hi as [Hi|Hi]; [injection Hi; lia|]. apply Fb in Hi. lia.
    + destruct (IH b Sa' Sb') as (E1 & E2); [eapply reds_tl; eauto..| |].
      * intros k0. pose proof (H k0) as H0. rewrite !mval_cons in H0. destruct (Z.eqb_spec k' k0) as [Ek|Ek]; [rewrite <- Ek; rewrite !mval_above by auto; apply cong_refl|exact H0].
      * cbn [length pos_eq]. rewrite Z.eqb_refl, E1, E2. auto.
    + exfalso. apply (hd_above k' y b ((k, x) :: a)); auto; [|apply cong_sym, H]. intros k0 y0 Hi. apply in_inv in Hi. destruct Hi as [Hi|Hi]; [injection Hi; lia|]. apply Fa in Hi. lia.
Qed.
Lemma vals_eqmod_ok a : forall b, msorted a -> msorted b -> reds p a -> reds p b -> length a = length b -> pos_eq a b = true ->
  exists r, vals_eqmod S a b p = Ok r /\ (r = true <-> forall k, cong p (mval a k) (mval b k)).
Proof.
  induction a as [|(k, x) a IH]; intros [|(k', y) b] Sa Sb Ra Rb L H; cbn [length] in L; try lia; cbn [vals_eqmod].
  - exists true. split; auto. split; auto. intros _ k. apply cong_refl.
  - cbn [pos_eq] in H. apply andb_true_iff in H. destruct H as (E & H). apply Z.eqb_eq in E. subst k'.
    destruct (reds_tl _ _ _ Sa Ra) as (Bx & Nx & Ra'). destruct (reds_tl _ _ _ Sb Rb) as (By & Ny & Rb'). apply msorted_cons in Sa. apply msorted_cons in Sb. destruct Sa as (Sa & Fa), Sb as (Sb & Fb).
    rewrite (mo_sub _ _ _ M) by auto. rewrite bind_Ok. destruct (mo_xmod _ _ _ M (x - y)) as (r & -> & Cr & Lr); [apply (mo_D _ _ _ M); lia|]. rewrite bind_Ok.
    assert (Q : r = 0 <-> cong p x y).
    { split.
      - intros ->. apply cong_sym in Cr. destruct Cr as [j Hj]. exists j. lia.
      - intros [j Hj]. destruct (Z.eq_dec r 0); auto. exfalso. apply (small_nz p r); auto. eapply cong_trans; [exact Cr|]. exists j. lia. }
    destruct (Z.eqb_spec r 0) as [Z0|Z0].
    + destruct (IH b Sa Sb Ra' Rb' ltac:(lia) H) as (q & -> & Hq). exists q. split; auto. rewrite Hq. split; intros G0 k0; pose proof (G0 k0) as G.
      * rewrite !mval_cons. destruct (k =? k0); auto. apply Q, Z0.
      * rewrite !mval_cons in G. destruct (Z.eqb_spec k k0) as [Ek|Ek]; [rewrite <- Ek; rewrite !mval_above by auto; apply cong_refl|exact G].
    + exists false. split; auto. split; [discriminate|]. intros G. exfalso. apply Z0, Q. specialize (G k). rewrite !mval_cons, !Z.eqb_refl in G. exact G.
Qed.
Lemma lrow_congs (c c' : Prop) nc f g l l' : lrow c nc f l -> lrow c' nc g l' -> ((forall k, cong p (mval l k) (mval l' k)) <-> forall j, (j < nc)%nat -> cong p (f j) (g j)).
Proof.
  intros (A & B & _ & V) (A' & B' & _ & V'). split.
  - intros H j Hj. rewrite <- V, <- V' by auto. apply H.
  - intros H k. destruct (Z_le_dec 1 k) as [L|L]; [destruct (Z_le_dec k (Z.of_nat nc)) as [L2|L2]|].
    + replace k with (Z.of_nat (Z.to_nat (k - 1)) + 1) by lia. rewrite V, V' by lia. apply H. lia.
    + rewrite (mval_out nc l), (mval_out nc l') by (auto; lia). apply cong_refl.
    + rewrite (mval_out nc l), (mval_out nc l') by (auto; lia). apply cong_refl.
Qed.
Lemma sm_eqmodp_ok m s nr nr' nc e e' : repp m nr nc e -> repp s nr' nc e' -> exists b, sm_eqmodp S m s p = Ok b /\ (b = true <-> nr = nr' /\ forall i j, (i < nr)%nat -> (j < nc)%nat -> cong p (e i j) (e' i j)).
Proof.
  intros (f & R & H) (f' & R' & H'). destruct (rep_list _ _ _ _ _ R) as (L & EL & HL). destruct (rep_list _ _ _ _ _ R') as (L' & EL' & HL').
  pose proof R as (A & B & _). pose proof R' as (A' & B' & _). unfold sm_eqmodp, snr. rewrite B, B'. destruct (Nat.eqb_spec nr nr') as [<-|n].
  - destruct (eqrows_ok (fun a b => if pos_eq a b then vals_eqmod S a b p else Ok false) (fun i => forall j, (j < nc)%nat -> cong p (f i j) (f' i j)) (srows m) (srows s) L L') as (b & Eb & Hb); [lia..| |].
    + rewrite B. intros i Hi. destruct (HL i Hi) as (H1 & H2). destruct (HL' i Hi) as (H3 & H4). split; auto. split; auto.
      pose proof (lrow_congs _ _ _ _ _ _ _ H2 H4) as Q. assert (R1 : reds p (nth i L [])) by (eapply lrow_reds; [exact H2|intros; apply H; auto]). assert (R2 : reds p (nth i L' [])) by (eapply lrow_reds; [exact H4|intros; apply H'; auto]).
      pose proof (eqmod_pos _ _ (proj1 H2) (proj1 H4) R1 R2) as P. destruct (Nat.eqb_spec (length (nth i L [])) (length (nth i L' []))) as [E|E]; [destruct (pos_eq _ _) eqn:Ep|].
      * destruct (vals_eqmod_ok _ _ (proj1 H2) (proj1 H4) R1 R2 E Ep) as (r & -> & Hr). exists r. split; auto. rewrite Hr. exact Q.
      * exists false. split; auto. split; [discriminate|]. intros F. destruct (P (proj2 Q F)). congruence.
      * exists false. split; auto. split; [discriminate|]. intros F. destruct (P (proj2 Q F)). congruence.
    + exists b. split; auto. rewrite Hb, B. split.
      * intros F. split; auto. intros i j Hi Hj. eapply cong_trans; [apply cong_sym, H; auto|]. eapply cong_trans; [apply F; auto|apply H'; auto].
      * intros (_ & F) i Hi j Hj. eapply cong_trans; [apply H; auto|]. eapply cong_trans; [apply F; auto|apply cong_sym, H'; auto].
  - exists false. split; auto. split; [discriminate|tauto].
Qed.
End Modp.
