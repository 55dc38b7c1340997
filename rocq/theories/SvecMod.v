(** Proofs about SvecModel: arithmetic modulo p, products, conversions. *)
From Coq Require Import ZArith Znumtheory Lia List Bool Sorted.
From Verif Require Import Base ArithProofs LinModel LinSpec LinProofs LinElim LinAlg SvecModel SvecSpec SvecProofs SvecOps.
Import ListNotations.
Open Scope Z_scope.

Section Mod.
Variables (S : scal) (D : Z -> Prop) (p : Z).
Hypothesis M : modok S D p.
Hypothesis NEG : forall a, Z.abs a < p -> s_mul S a (-1) = Ok (- a).

(** entries are non-zero and smaller than p *)
Definition reds (m : smap) : Prop := forall k x, mget m k = Some x -> Z.abs x < p /\ x <> 0.
Definition denp (v : svec) (d : dvec) : Prop := sd v = fst d /\ forall k, cong p (mval (sents v) k) (snd d k).
Definition okm (r : svec) (d : dvec) : Prop := good r /\ reds (sents r) /\ denp r d.

Lemma small_nz x : Z.abs x < p -> x <> 0 -> ~ cong p x 0.
Proof. intros H N [k Hk]. assert (k = 0) by nia. lia. Qed.
Lemma reds_mset m k x : reds m -> Z.abs x < p -> x <> 0 -> reds (mset m k x).
Proof. intros C H N k' x'. rewrite mget_mset. destruct (_ =? _); [intros [= <-]; auto|apply C]. Qed.
Lemma reds_mdel m k : msorted m -> reds m -> reds (mdel m k).
Proof. intros H C k' x'. rewrite mget_mdel by auto. destruct (_ =? _); [discriminate|apply C]. Qed.
Lemma reds_canon m : reds m -> canon m.
Proof. intros H k E. apply H in E. lia. Qed.
Lemma denp_mset v i a d c : denp v d -> cong p a c -> denp (Sv (sd v) (mset (sents v) i a)) (fst d, dset (snd d) i c).
Proof.
  intros (D1 & D2) H. split; cbn [fst snd sd sents]; auto. intros k. rewrite mval_mset. unfold dset. rewrite (Z.eqb_sym i k). destruct (_ =? _); auto.
Qed.
Lemma denp_mdel v i d c : good v -> denp v d -> cong p 0 c -> denp (Sv (sd v) (mdel (sents v) i)) (fst d, dset (snd d) i c).
Proof.
  intros G (D1 & D2) H. split; cbn [fst snd sd sents]; auto. intros k. rewrite mval_mdel by auto. unfold dset. rewrite (Z.eqb_sym i k). destruct (_ =? _); auto.
Qed.
Lemma denp_same v i d c : denp v d -> cong p (snd d i) c -> denp v (fst d, dset (snd d) i c).
Proof.
  intros (D1 & D2) H. split; cbn [fst snd]; auto. intros k. unfold dset. destruct (Z.eqb_spec k i); subst; auto. eapply cong_trans; eauto.
Qed.
Lemma reds_val v k : reds (sents v) -> Z.abs (mval (sents v) k) < p.
Proof. intros H. unfold mval. destruct (mget _ _) eqn:E; [apply (H _ _ E)|]. pose proof (p_pos _ _ _ M). lia. Qed.

Lemma sv_set_mod v i a d : good v -> reds (sents v) -> denp v d -> Z.abs a < p -> a <> 0 \/ cong p (snd d i) 0 -> okm (sv_set v i a) (fst d, dset (snd d) i a).
Proof.
  intros G R De Ha H. unfold sv_set. destruct (Z.eqb_spec a 0).
  - split; auto. split; auto. apply denp_same; auto. destruct H; [congruence|subst; auto].
  - split; [apply mset_sorted; auto|]. split; [apply reds_mset; auto|]. apply denp_mset; auto using cong_refl.
Qed.
Lemma sv_erase_mod v i d : good v -> reds (sents v) -> denp v d -> okm (sv_erase v i) (fst d, dset (snd d) i 0).
Proof.
  intros G R De. unfold sv_erase. destruct (mget (sents v) i) eqn:E.
  - split; [apply mdel_sorted; auto|]. split; [apply reds_mdel; auto|]. apply denp_mdel; auto using cong_refl.
  - split; auto. split; auto. apply denp_same; auto. destruct De as (_ & De). specialize (De i). unfold mval in De. rewrite E in De. apply cong_sym; auto.
Qed.
Lemma sv_addmod1_mod v i a d : good v -> reds (sents v) -> denp v d -> D a ->
  exists r, sv_addmod1 S v i a p = Ok r /\ okm r (fst d, dset (snd d) i (snd d i + a)).
Proof.
  intros G R De Da. pose proof De as (De1 & De2). unfold sv_addmod1. destruct (mo_mod _ _ _ M a Da) as (b & -> & Cb & Bb). rewrite bind_Ok.
  pose proof (cl _ _ _ M b Bb) as Lb.
  destruct (Z.eqb_spec b 0).
  { eexists; split; [reflexivity|]. split; auto. split; auto. apply denp_same; auto. subst b. replace (snd d i) with (snd d i + 0) at 1 by lia. apply cong_add; auto using cong_refl. }
  specialize (De2 i). unfold mval in De2. destruct (mget (sents v) i) as [z|] eqn:E.
  - destruct (R _ _ E) as (Lz & Nz). rewrite (mo_add _ _ _ M z b) by auto. rewrite bind_Ok.
    destruct (mo_mod _ _ _ M (z + b)) as (s & -> & Cs & Bs); [apply (mo_D _ _ _ M); lia|]. rewrite bind_Ok. pose proof (cl _ _ _ M s Bs) as Ls.
    assert (Q : cong p s (snd d i + a)) by (eapply cong_trans; [exact Cs|apply cong_add; auto]).
    destruct (Z.eqb_spec s 0); eexists; (split; [reflexivity|]).
    + split; [apply mdel_sorted; auto|]. split; [apply reds_mdel; auto|]. apply denp_mdel; auto. subst s; auto.
    + split; [apply mset_sorted; auto|]. split; [apply reds_mset; auto|]. apply denp_mset; auto.
  - eexists; split; [reflexivity|]. split; [apply mset_sorted; auto|]. split; [apply reds_mset; auto|]. apply denp_mset; auto.
    replace b with (0 + b) by lia. apply cong_add; auto.
Qed.
Lemma sv_submod1_mod v i a d : good v -> reds (sents v) -> denp v d -> Z.abs a < p ->
  exists r, sv_submod1 S v i a p = Ok r /\ okm r (fst d, dset (snd d) i (snd d i - a)).
Proof.
  intros G R De Ha. unfold sv_submod1. rewrite (mo_neg _ _ _ M) by auto. rewrite bind_Ok. replace (snd d i - a) with (snd d i + - a) by lia.
  apply sv_addmod1_mod; auto. apply (mo_D _ _ _ M). lia.
Qed.
(** the merging loop with residues *)
Lemma sv_merge_mod cp cb (g : Z -> Z -> Z) (al : bool) v w dv dw : good v -> good w -> reds (sents v) -> reds (sents w) -> denp v dv -> denp w dw -> (al = true -> w = v) ->
  (forall y, Z.abs y < p -> y <> 0 -> exists r, cp y = Ok r /\ cong p r (g 0 y) /\ Z.abs r < p /\ r <> 0) ->
  (forall x y, Z.abs x < p -> Z.abs y < p -> exists r, cb x y = Ok r /\ cong p r (g x y) /\ Z.abs r < p) ->
  (forall x, g x 0 = x) -> (forall a b x y, cong p a b -> cong p x y -> cong p (g a x) (g b y)) ->
  (al = true -> sd v = sd w -> forall x, Z.abs x < p -> x <> 0 -> cb x x <> Ok 0) ->
  exists r, sv_merge cp cb al v w = Ok r /\ okm r (dbin g dv dw) /\
    (sd v = sd w -> forall s, merge cp cb al (sents v) (sents w) = Ok s -> r = Sv (sd v) (mm s)).
Proof.
  intros Gv Gw Rv Rw (D1 & D2) (D3 & D4) Al Hp Hb H0 Hg Ha. unfold sv_merge, dbin. rewrite <- D1, <- D3.
  destruct (Z.eqb_spec (sd v) (sd w)) as [Ed|Ed].
  2:{ eexists; split; [reflexivity|]. split; [split; [auto|split; [auto|split; auto]]|]. congruence. }
  assert (G : exists s, merge cp cb al (sents v) (sents w) = Ok s /\ msorted (mm s) /\ forall k, mspec cp cb (sents v) (sents w) k (mget (mm s) k)).
  { destruct al.
    - rewrite (Al eq_refl) in *. destruct (merge_alias cp cb (sents v) (sents v) Gv) as [(s & E' & G1 & G2)|((k & x & G & N) & _)]; eauto.
      exfalso. destruct (Rv _ _ G) as (Lx & Nx). destruct (Hb x x) as (r & E & _ & _); auto. apply (Ha eq_refl eq_refl x Lx Nx). rewrite E. f_equal. auto.
    - destruct (merge_main cp cb (sents v) (sents w) Gv Gw) as [(s & E' & G1 & G2 & _)|((k & y & G & [(_ & N)|(x & Gx & N)]) & _)]; eauto; exfalso; destruct (Rw _ _ G) as (Ly & Ny).
      + destruct (Hp y) as (r & E & _); auto. eapply N; eauto.
      + destruct (Rv _ _ Gx). destruct (Hb x y) as (r & E & _); auto. eapply N; eauto. }
  destruct G as (s & -> & G1 & G2). rewrite bind_Ok. eexists; split; [reflexivity|]. split; [|intros _ s' [= <-]; reflexivity]. split; auto. split.
  - intros k x Hk. cbn [sents] in Hk. specialize (G2 k). rewrite Hk in G2. unfold mspec in G2. destruct (mget (sents v) k) eqn:Ev, (mget (sents w) k) eqn:Ew.
    + destruct G2 as (r & E & Q). destruct (Rv _ _ Ev), (Rw _ _ Ew). destruct (Hb z z0) as (r' & E' & _ & L); auto. rewrite E in E'. injection E' as <-. destruct (Z.eqb_spec r 0); [discriminate|]. injection Q as <-. auto.
    + injection G2 as <-. apply (Rv _ _ Ev).
    + destruct G2 as (r & E & Q). destruct (Rw _ _ Ew). destruct (Hp z) as (r' & E' & _ & L & L'); auto. rewrite E in E'. injection E' as <-. injection Q as <-. auto.
    + discriminate.
  - split; cbn [fst snd sd sents]; auto. intros k. specialize (G2 k). unfold mspec in G2.
    eapply cong_trans; [|apply Hg; [apply D2|apply D4]]. unfold mval. destruct (mget (sents v) k) eqn:Ev, (mget (sents w) k) eqn:Ew.
    + destruct G2 as (r & E & Q). destruct (Rv _ _ Ev), (Rw _ _ Ew). destruct (Hb z z0) as (r' & E' & C & L); auto. rewrite E in E'. injection E' as <-. rewrite Q. destruct (Z.eqb_spec r 0); [subst r; auto|auto].
    + rewrite G2, H0. apply cong_refl.
    + destruct G2 as (r & E & Q). destruct (Rw _ _ Ew). destruct (Hp z) as (r' & E' & C & L & L'); auto. rewrite E in E'. injection E' as <-. rewrite Q. auto.
    + rewrite G2, H0. apply cong_refl.
Qed.
Lemma addmod_cb x y : Z.abs x < p -> Z.abs y < p -> exists r, (bind (s_add S x y) (fun u => s_xmod S u p)) = Ok r /\ cong p r (x + y) /\ Z.abs r < p.
Proof.
  intros Hx Hy. rewrite (mo_add _ _ _ M) by auto. rewrite bind_Ok. apply (mo_xmod _ _ _ M), (mo_D _ _ _ M). lia.
Qed.
Lemma sv_addmod_mod (al : bool) v w dv dw : good v -> good w -> reds (sents v) -> reds (sents w) -> denp v dv -> denp w dw -> (al = true -> w = v /\ p <> 2) ->
  exists r, sv_addmod S al v w p = Ok r /\ okm r (dbin (fun x y => x + y) dv dw).
Proof.
  intros Gv Gw Rv Rw Dv Dw Al. unfold sv_addmod.
  destruct (sv_merge_mod (fun y => Ok y) (fun x y => bind (s_add S x y) (fun u => s_xmod S u p)) (fun x y => x + y) al v w dv dw) as (r & -> & H & _); auto.
  - apply Al.
  - intros y Hy Ny. exists y. split; auto. split; [apply cong_eq; lia|auto].
  - intros; apply addmod_cb; auto.
  - intros; lia.
  - intros; apply cong_add; auto.
  - intros E _ x Hx Nx Q. destruct (Al E) as (_ & P2). destruct (addmod_cb x x Hx Hx) as (r & E' & C & _). rewrite Q in E'. injection E' as <-.
    pose proof (mo_prime _ _ _ M) as Pr. apply cong_sym in C. destruct C as [k Hk]. assert (Pd : (p | 2 * x)) by (exists k; lia).
    apply prime_mult in Pd; auto. pose proof (p_pos _ _ _ M). destruct Pd as [Pd|Pd].
    + apply Z.divide_pos_le in Pd; lia.
    + destruct Pd as [j Hj]. assert (j = 0) by nia. lia.
  - eauto.
Qed.
Lemma sv_neg_mod w d : good w -> reds (sents w) -> denp w d -> exists r, sv_neg S w = Ok r /\ okm r (fst d, fun k => - snd d k).
Proof.
  intros G R (D1 & D2). unfold sv_neg, sv_scale. destruct (smap_map_ok (fun x => s_mul S x (-1)) (sents w)) as (m & E); auto.
  { intros k x Hx. rewrite NEG by apply (R _ _ Hx). eauto. }
  rewrite E, bind_Ok. eexists; split; [reflexivity|]. pose proof (smap_map_sorted _ _ _ E G) as SS. apply smap_map_inv in E. destruct E as (_ & E).
  split; auto. split; [|split; cbn [fst snd sd sents]; auto].
  - intros k x Hx. cbn [sents] in Hx. specialize (E k). destruct (mget (sents w) k) eqn:Ew; [|congruence]. destruct E as (y & E & E'). destruct (R _ _ Ew). rewrite NEG in E by auto. injection E as <-. assert (x = - z) by congruence. subst. lia.
  - intros k. specialize (E k). eapply cong_trans; [|apply cong_opp, D2]. unfold mval. destruct (mget (sents w) k) eqn:Ew.
    + destruct E as (y & E & E'). destruct (R _ _ Ew). rewrite NEG in E by auto. injection E as <-. rewrite E'. apply cong_refl.
    + rewrite E. apply cong_refl.
Qed.
Lemma sv_submod_mod v w dv dw : good v -> good w -> reds (sents v) -> reds (sents w) -> denp v dv -> denp w dw ->
  exists r, sv_submod S v w p = Ok r /\ okm r (dbin (fun x y => x - y) dv dw).
Proof.
  intros Gv Gw Rv Rw Dv Dw. unfold sv_submod. destruct (sv_neg_mod w dw) as (nw & -> & G & R & De); auto. rewrite bind_Ok.
  destruct (sv_addmod_mod false v nw dv (fst dw, fun k => - snd dw k)) as (r & -> & Q1 & Q2 & Q3); auto; [discriminate|].
  eexists; split; [reflexivity|]. split; [exact Q1|]. split; [exact Q2|]. exact Q3.
Qed.
Lemma sv_scalemod_mod v c d : good v -> reds (sents v) -> denp v d -> D c -> ~ cong p c 0 -> exists r, sv_scalemod S v c p = Ok r /\ okm r (fst d, fun k => c * snd d k).
Proof.
  intros G R (D1 & D2) Dc Nc. unfold sv_scalemod. destruct (mo_mod _ _ _ M c Dc) as (s & -> & Cs & Bs). rewrite bind_Ok. pose proof (cl _ _ _ M s Bs) as Ls.
  destruct (Z.eqb_spec s 1).
  { eexists; split; [reflexivity|]. split; auto. split; auto. split; auto. cbn [snd]. intros k. eapply cong_trans; [apply D2|].
    replace (snd d k) with (s * snd d k) at 1 by (subst s; lia). apply cong_mul; auto using cong_refl. }
  destruct (smap_map_ok (fun x => s_xmm S x s p) (sents v)) as (m & E); auto.
  { intros k x Hx. destruct (mo_xmm _ _ _ M x s) as (r & E & _); auto; [apply (R _ _ Hx)|eauto]. }
  rewrite E, bind_Ok. eexists; split; [reflexivity|]. pose proof (smap_map_sorted _ _ _ E G) as SS. apply smap_map_inv in E. destruct E as (_ & E).
  split; auto. split; [|split; cbn [fst snd sd sents]; auto].
  - intros k x Hx. cbn [sents] in Hx. specialize (E k). destruct (mget (sents v) k) eqn:Ew; [|congruence]. destruct E as (y & E & E'). destruct (R _ _ Ew) as (Lz & Nz).
    destruct (mo_xmm _ _ _ M z s) as (r & E'' & C & L); auto. rewrite E in E''. injection E'' as <-. assert (x = y) by congruence. subst y. split; auto. intros ->.
    apply cong_sym in C. destruct C as [j Hj]. assert (Pd : (p | z * s)) by (exists j; lia). apply prime_mult in Pd; [|apply (mo_prime _ _ _ M)]. destruct Pd as [Pd|Pd].
    + apply (small_nz z); auto. destruct Pd as [i Hi]. exists i. lia.
    + apply Nc. eapply cong_trans; [apply cong_sym, Cs|]. destruct Pd as [i Hi]. exists i. lia.
  - intros k. specialize (E k). unfold mval in D2. specialize (D2 k). unfold mval. destruct (mget (sents v) k) eqn:Ew.
    + destruct E as (y & E & E'). destruct (R _ _ Ew) as (Lz & Nz). destruct (mo_xmm _ _ _ M z s) as (r & E'' & C & L); auto. rewrite E in E''. injection E'' as <-. rewrite E'.
      eapply cong_trans; [exact C|]. rewrite Z.mul_comm. apply cong_mul; auto.
    + rewrite E. replace 0 with (s * 0) by lia. apply cong_mul; auto.
Qed.
Lemma sv_addstmod_mod (al : bool) v w c dv dw : good v -> good w -> reds (sents v) -> reds (sents w) -> denp v dv -> denp w dw -> D c -> (al = true -> w = v /\ ~ cong p (1 + c) 0) ->
  exists r, sv_addstmod S al v w c p = Ok r /\ okm r (dbin (fun x y => x + c * y) dv dw).
Proof.
  intros Gv Gw Rv Rw Dv Dw Dc Al. unfold sv_addstmod. destruct (Z.eqb_spec (sd v) (sd w)) as [Ed|Ed].
  2:{ eexists; split; [reflexivity|]. split; auto. split; auto. unfold dbin. destruct Dv as (D1 & D2), Dw as (D3 & D4). destruct (Z.eqb_spec (fst dv) (fst dw)); [congruence|split; auto]. }
  destruct (mo_mod _ _ _ M c Dc) as (a & -> & Ca & Ba). rewrite bind_Ok. pose proof (cl _ _ _ M a Ba) as La. destruct (Z.eqb_spec a 0) as [Za|Za].
  { eexists; split; [reflexivity|]. split; auto. split; auto. unfold dbin. destruct Dv as (D1 & D2), Dw as (D3 & D4). destruct (Z.eqb_spec (fst dv) (fst dw)); [|split; auto].
    split; cbn [fst snd]; auto. intros k. eapply cong_trans; [apply D2|]. replace (snd dv k) with (snd dv k + a * snd dw k) at 1 by (subst a; lia).
    apply cong_add; [apply cong_refl|apply cong_mul; auto using cong_refl]. }
  assert (CB : forall x y, Z.abs x < p -> Z.abs y < p -> exists r, (bind (s_xmm S a y p) (fun t => bind (s_add S x t) (fun u => s_xmod S u p))) = Ok r /\ cong p r (x + c * y) /\ Z.abs r < p).
  { intros x y Hx Hy. destruct (mo_xmm _ _ _ M a y) as (t & -> & Ct & Lt); auto. rewrite bind_Ok. destruct (addmod_cb x t) as (r & -> & Cr & Lr); auto. exists r. split; auto. split; auto.
    eapply cong_trans; [exact Cr|]. apply cong_add; [apply cong_refl|]. eapply cong_trans; [exact Ct|]. apply cong_mul; auto using cong_refl. }
  destruct (sv_merge_mod (fun y => s_xmm S a y p) (fun x y => bind (s_xmm S a y p) (fun t => bind (s_add S x t) (fun u => s_xmod S u p))) (fun x y => x + c * y) al v w dv dw) as (r & -> & H & _); auto.
  - apply Al.
  - intros y Hy Ny. destruct (mo_xmm _ _ _ M a y) as (t & -> & Ct & Lt); auto. exists t. split; auto. split; [|split; auto].
    + replace (0 + c * y) with (c * y) by lia. eapply cong_trans; [exact Ct|]. apply cong_mul; auto using cong_refl.
    + intros ->. apply cong_sym in Ct. destruct Ct as [j Hj]. assert (Pd : (p | a * y)) by (exists j; lia). apply prime_mult in Pd; [|apply (mo_prime _ _ _ M)]. destruct Pd as [[i Hi]|[i Hi]]; [apply (small_nz a)|apply (small_nz y)]; auto; exists i; lia.
  - intros; lia.
  - intros; apply cong_add; auto. apply cong_mul; auto using cong_refl.
  - intros E _ x Hx Nx Q. destruct (Al E) as (_ & P2). destruct (CB x x Hx Hx) as (r & E' & C & _). rewrite Q in E'. injection E' as <-.
    apply cong_sym in C. destruct C as [k Hk]. assert (Pd : (p | (1 + c) * x)) by (exists k; lia).
    apply prime_mult in Pd; [|apply (mo_prime _ _ _ M)]. destruct Pd as [[i Hi]|[i Hi]].
    + apply P2. exists i. lia.
    + apply (small_nz x); auto. exists i. lia.
  - eauto.
Qed.
Lemma red_map_ok m : (forall k x, mget m k = Some x -> D x) -> msorted m -> exists m', red_map S m p = Ok m' /\ msorted m' /\ reds m' /\
  (forall k, cong p (mval m' k) (mval m k)) /\ (forall k x, In (k, x) m' -> exists y, In (k, y) m).
Proof.
  induction m as [|(k, x) m IH]; cbn [red_map]; intros H Sm.
  - eexists; split; [reflexivity|]. split; auto. split; [intros ? ?; discriminate|]. split; [intros; apply cong_refl|auto].
    intros ? ? [].
  - apply msorted_cons in Sm. destruct Sm as (Sm & F).
    destruct (mo_mod _ _ _ M x) as (a & -> & Ca & Ba). { apply (H k). cbn [mget]. rewrite Z.eqb_refl. auto. }
    rewrite bind_Ok. destruct IH as (m' & -> & S' & R' & C' & I'); auto.
    { intros k' x' G. apply (H k'). cbn [mget]. destruct (Z.eqb_spec k k'); auto. apply mget_In, F in G. lia. }
    rewrite bind_Ok. pose proof (cl _ _ _ M a Ba) as La.
    assert (F' : forall k' y, In (k', y) m' -> k < k') by (intros k' y Hy; apply I' in Hy; destruct Hy as (z & Hz); eauto).
    destruct (Z.eqb_spec a 0); eexists; (split; [reflexivity|]).
    + split; auto. split; auto. split.
      * intros k'. unfold mval at 2. cbn [mget]. destruct (Z.eqb_spec k k') as [<-|]; [|apply C']. unfold mval. rewrite mget_above by auto. subst a. auto.
      * intros k' y Hy. apply I' in Hy. destruct Hy as (z & Hz). exists z. right; auto.
    + split; [apply msorted_cons; auto|]. split; [|split].
      * intros k' y. cbn [mget]. destruct (_ =? _); [intros [= <-]; auto|apply R'].
      * intros k'. unfold mval. cbn [mget]. destruct (Z.eqb_spec k k'); auto. apply C'.
      * intros k' y [E|Hy]; [injection E as <- <-; exists x; left; auto|]. apply I' in Hy. destruct Hy as (z & Hz). exists z. right; auto.
Qed.
Lemma sv_reduce_ok v : good v -> (forall k x, mget (sents v) k = Some x -> D x) -> exists r, sv_reduce S v p = Ok r /\ okm r (sd v, mval (sents v)).
Proof.
  intros G H. unfold sv_reduce. destruct (red_map_ok (sents v)) as (m & -> & S' & R' & C' & _); auto. rewrite bind_Ok. eexists; split; [reflexivity|].
  split; auto. split; auto. split; auto.
Qed.

(** ** histories modulo p *)
Definition agreep (st : sstore) (d : dstore) : Prop := forall r, denp (st r) (d r).
Definition redss (st : sstore) : Prop := forall r, good (st r) /\ reds (sents (st r)).
Lemma agreep_put st d r v dv : agreep st d -> redss st -> okm v dv -> agreep (sput st r v) (dput d r dv) /\ redss (sput st r v).
Proof. intros A R (H1 & H2 & H3). split; intros x; unfold sput, dput; destruct (_ =? _)%nat; auto. Qed.
Lemma denp_ext v d d' : denp v d -> fst d = fst d' -> (forall k, snd d k = snd d' k) -> denp v d'.
Proof. intros (H1 & H2) E1 E2. split; [congruence|]. intros k. rewrite <- E2. auto. Qed.
Lemma sstep_mod st d o : agreep st d -> redss st -> legalp D p d o -> exists st', sstep S p st o = Ok st' /\ agreep st' (dstep d o) /\ redss st'.
Proof.
  intros A R L. pose proof (fun r => proj1 (R r)) as G. pose proof (fun r => proj2 (R r)) as Rd. destruct o; cbn [sstep dstep legalp] in *; try tauto.
  - destruct L as (L1 & L2). eexists; split; [reflexivity|]. apply agreep_put; auto. apply sv_set_mod; auto.
  - eexists; split; [reflexivity|]. apply agreep_put; auto. apply sv_erase_mod; auto.
  - eexists; split; [reflexivity|]. apply agreep_put; auto. split; [constructor|]. split; [intros ? ?; discriminate|]. split; [apply A|]. intros. apply cong_refl.
  - eexists; split; [reflexivity|]. apply agreep_put; auto. split; auto.
  - destruct (sv_addmod1_mod (st r) i a (d r)) as (v & -> & O); auto. rewrite bind_Ok. eexists; split; [reflexivity|]. apply agreep_put; auto.
  - destruct (sv_submod1_mod (st r) i a (d r)) as (v & -> & O); auto. rewrite bind_Ok. eexists; split; [reflexivity|]. apply agreep_put; auto.
  - destruct (sv_addmod_mod (r =? s)%nat (st r) (st s) (d r) (d s)) as (v & -> & O); auto; [intros Q; apply Nat.eqb_eq in Q; subst; split; tauto|]. rewrite bind_Ok. eexists; split; [reflexivity|]. apply agreep_put; auto.
  - destruct (sv_submod_mod (st r) (st s) (d r) (d s)) as (v & -> & O); auto. rewrite bind_Ok. eexists; split; [reflexivity|]. apply agreep_put; auto.
  - destruct (sv_addstmod_mod (r =? s)%nat (st r) (st s) a (d r) (d s)) as (v & -> & O); auto; [tauto|intros Q; apply Nat.eqb_eq in Q; subst; split; tauto|]. rewrite bind_Ok. eexists; split; [reflexivity|]. apply agreep_put; auto.
  - destruct (sv_scalemod_mod (st r) a (d r)) as (v & -> & O); auto; try tauto. rewrite bind_Ok. eexists; split; [reflexivity|]. apply agreep_put; auto.
  - destruct (sv_reduce_ok (st r)) as (v & -> & O1 & O2 & O3 & O4); auto. { intros k x Hx. apply (mo_D _ _ _ M). destruct (Rd _ _ _ Hx). lia. }
    rewrite bind_Ok. eexists; split; [reflexivity|]. cbn [fst snd] in *. split; intros x; unfold sput; destruct (Nat.eqb_spec x r); auto; subst x.
    split; [rewrite O3; apply A|]. intros k. eapply cong_trans; [apply O4|apply A].
Qed.
Lemma srun_mod os st d : agreep st d -> redss st -> legalsp D p d os -> exists st', srun S p os st = Ok st' /\ agreep st' (drun os d) /\ redss st'.
Proof.
  revert st d. induction os as [|o os IH]; cbn [srun mfold legalsp]; intros st d A R L; [exists st; auto|].
  destruct L as (L1 & L2). destruct (sstep_mod st d o A R L1) as (st1 & E & A1 & R1). rewrite E, bind_Ok. apply IH; auto.
Qed.
(** eqmodp *)
Lemma any_ne_ok m w : msorted m -> reds m -> reds (sents w) -> exists b, any_ne S m w p = Ok b /\
  (b = false <-> forall k x, mget m k = Some x -> cong p x (mval (sents w) k)).
Proof.
  intros Sm Rm Rw. induction m as [|(k, x) m IH]; cbn [any_ne].
  - exists false. split; auto. split; auto. intros _ k x. discriminate.
  - apply msorted_cons in Sm. destruct Sm as (Sm & F). assert (Lx : Z.abs x < p) by (apply (Rm k); cbn [mget]; rewrite Z.eqb_refl; auto).
    change (sv_elem w k) with (mval (sents w) k). pose proof (reds_val w k Rw) as Lw.
    rewrite (mo_sub _ _ _ M) by auto. rewrite bind_Ok. destruct (mo_xmod _ _ _ M (x - mval (sents w) k)) as (r & -> & Cr & Lr); [apply (mo_D _ _ _ M); lia|].
    rewrite bind_Ok. assert (Q : r = 0 <-> cong p x (mval (sents w) k)).
    { split.
      - intros ->. apply cong_sym in Cr. destruct Cr as [j Hj]. exists j. lia.
      - intros [j Hj]. destruct (Z.eq_dec r 0); auto. exfalso. apply (small_nz r); auto. eapply cong_trans; [exact Cr|]. exists j. lia. }
    destruct (Z.eqb_spec r 0) as [Z0|Z0].
    + destruct IH as (b & -> & Hb); auto. { intros k' x' G. apply (Rm k'). cbn [mget]. destruct (Z.eqb_spec k k'); auto. apply mget_In, F in G. lia. }
      exists b. split; auto. rewrite Hb. split.
      * intros H k' x'. cbn [mget]. destruct (Z.eqb_spec k k') as [<-|]; [intros [= <-]; apply Q; auto|apply H].
      * intros H k' x' G. apply (H k' x'). cbn [mget]. destruct (Z.eqb_spec k k'); auto. apply mget_In, F in G. lia.
    + exists true. split; auto. split; [discriminate|]. intros H. exfalso. apply Z0, Q, (H k). cbn [mget]. rewrite Z.eqb_refl. auto.
Qed.
Lemma sv_eqmodp_ok v w dv dw : good v -> good w -> reds (sents v) -> reds (sents w) -> denp v dv -> denp w dw ->
  exists b, sv_eqmodp S v w p = Ok b /\ (b = true <-> fst dv = fst dw /\ forall k, cong p (snd dv k) (snd dw k)).
Proof.
  intros Gv Gw Rv Rw (D1 & D2) (D3 & D4). unfold sv_eqmodp. destruct (Z.eqb_spec (sd v) (sd w)) as [Ed|Ed].
  2:{ exists false. split; auto. split; [discriminate|]. intros (? & _). congruence. }
  assert (V : (forall k, cong p (snd dv k) (snd dw k)) <-> forall k, cong p (mval (sents v) k) (mval (sents w) k)).
  { split; intros H k.
    - eapply cong_trans; [apply D2|]. eapply cong_trans; [apply H|]. apply cong_sym, D4.
    - eapply cong_trans; [apply cong_sym, D2|]. eapply cong_trans; [apply H|]. apply D4. }
  destruct (any_ne_ok (sents v) w Gv Rv Rw) as (a & -> & Ha). rewrite bind_Ok. destruct a.
  { exists false. split; auto. split; [discriminate|]. intros (_ & H). rewrite V in H. exfalso. enough (true = false) by discriminate. apply Ha. intros k x G. specialize (H k). unfold mval at 1 in H. rewrite G in H. auto. }
  destruct (any_ne_ok (sents w) v Gw Rw Rv) as (b & -> & Hb). rewrite bind_Ok. exists (negb b). split; auto. destruct b; cbn [negb].
  - split; [discriminate|]. intros (_ & H). rewrite V in H. exfalso. enough (true = false) by discriminate. apply Hb. intros k x G. specialize (H k). unfold mval at 2 in H. rewrite G in H. apply cong_sym; auto.
  - split; auto. intros _. split; [congruence|]. rewrite V. intros k. unfold mval. destruct (mget (sents v) k) eqn:Ev.
    + apply (proj1 Ha eq_refl k z Ev).
    + destruct (mget (sents w) k) eqn:Ew; [|apply cong_refl]. pose proof (proj1 Hb eq_refl k z Ew) as Q. unfold mval in Q. rewrite Ev in Q. apply cong_sym; auto.
Qed.
End Mod.

(** ** products, conversions *)
Definition inrange (n : nat) (m : smap) : Prop := forall k x, mget m k = Some x -> 1 <= k <= Z.of_nat n.
Fixpoint lprod (m : smap) (g : Z -> Z) : Z := match m with [] => 0 | (k, x) :: m => x * g k + lprod m g end.
Lemma lprod_sumn n m g : msorted m -> inrange n m -> lprod m g = sumn n (fun i => mval m (Z.of_nat i + 1) * g (Z.of_nat i + 1)).
Proof.
  induction m as [|(k, x) m IH]; intros Sm R; cbn [lprod].
  - rewrite (sumn_ext n _ (fun _ => 0)) by reflexivity. rewrite sumn_0. reflexivity.
  - apply msorted_cons in Sm. destruct Sm as (Sm & F). rewrite IH; auto.
    2:{ intros k' y G. apply (R k' y). cbn [mget]. destruct (Z.eqb_spec k k'); auto. apply mget_In, F in G. lia. }
    assert (Rk : 1 <= k <= Z.of_nat n) by (apply (R k x); cbn [mget]; rewrite Z.eqb_refl; auto).
    replace k with (Z.of_nat (Z.to_nat (k - 1)) + 1) at 1 by lia.
    rewrite <- (sumn_dlt n (Z.to_nat (k - 1)) (fun i => x * g (Z.of_nat i + 1))) by lia.
    rewrite <- sumn_add. apply sumn_ext. intros i Hi. unfold mval. cbn [mget].
    unfold dlt. destruct (Nat.eqb_spec i (Z.to_nat (k - 1))).
    + replace (Z.of_nat i + 1) with k by lia. rewrite Z.eqb_refl. rewrite mget_above by eauto. ring.
    + destruct (Z.eqb_spec k (Z.of_nat i + 1)); [lia|]. ring.
Qed.
Lemma inrange_tail n k x m : msorted ((k, x) :: m) -> inrange n ((k, x) :: m) -> inrange n m.
Proof.
  intros Sm R. apply msorted_cons in Sm. destruct Sm as (Sm & F). intros k' y G. apply (R k' y). cbn [mget]. destruct (Z.eqb_spec k k'); auto. apply mget_In, F in G. lia.
Qed.
Lemma lprod_ext m g h : (forall k x, In (k, x) m -> g k = h k) -> lprod m g = lprod m h.
Proof. induction m as [|(k, x) m IH]; cbn [lprod]; intros H; auto. rewrite IH by (intros; eapply H; right; eauto). rewrite (H k x) by (left; auto). reflexivity. Qed.
Lemma lprod_0 m : lprod m (fun _ => 0) = 0.
Proof. induction m as [|(k, x) m IH]; cbn [lprod]; lia. Qed.
Lemma mval_cons k x m k' : mval ((k, x) :: m) k' = if k =? k' then x else mval m k'.
Proof. unfold mval. cbn [mget]. destruct (_ =? _); auto. Qed.
(** the two-iterator loop, with the order relation R between the accumulator and the sum *)
Lemma dot_loop_inv f (R : Z -> Z -> Prop) : (forall a s x y b, R a s -> f a x y = Ok b -> R b (s + x * y)) ->
  forall n m w ans s r, msorted m -> msorted w -> R ans s -> dot_loop f n m w ans = Ok r -> R r (s + lprod m (mval w)).
Proof.
  intros Hf. induction n; intros m w ans s r Sm Sw H E.
  - destruct m as [|(k, x) m]; [|destruct w as [|(k', y) w]]; cbn [dot_loop] in E; try discriminate; injection E as <-.
    + cbn [lprod]. rewrite Z.add_0_r. auto.
    + rewrite (lprod_ext _ _ (fun _ => 0)) by reflexivity. rewrite lprod_0, Z.add_0_r. auto.
  - destruct m as [|(k, x) m]; [|destruct w as [|(k', y) w]]; cbn [dot_loop] in E.
    + injection E as <-. cbn [lprod]. rewrite Z.add_0_r. auto.
    + injection E as <-. rewrite (lprod_ext _ _ (fun _ => 0)) by reflexivity. rewrite lprod_0, Z.add_0_r. auto.
    + pose proof Sm as Sm'. pose proof Sw as Sw'. apply msorted_cons in Sm. destruct Sm as (Sm & Fm). apply msorted_cons in Sw. destruct Sw as (Sw & Fw).
      destruct (Z.ltb_spec k k'); [|destruct (Z.ltb_spec k' k)].
      * eapply IHn in E; eauto. cbn [lprod]. rewrite mval_cons. destruct (Z.eqb_spec k' k); [lia|]. unfold mval at 1. rewrite mget_above by (intros a b Hab; apply Fw in Hab; lia).
        replace (s + (x * 0 + lprod m (mval ((k', y) :: w)))) with (s + lprod m (mval ((k', y) :: w))) by ring. exact E.
      * eapply IHn in E; eauto. rewrite (lprod_ext ((k, x) :: m) (mval ((k', y) :: w)) (mval w)); auto.
        intros a b [Q|Q]; [injection Q as <- <-|apply Fm in Q]; rewrite mval_cons; (destruct (Z.eqb_spec k' a) || destruct (Z.eqb_spec k' k)); auto; lia.
      * assert (k = k') by lia. subst k'. inv E. pose proof (Hf _ _ _ _ _ H E0) as H'. eapply IHn in E; eauto. cbn [lprod]. rewrite mval_cons, Z.eqb_refl.
        rewrite (lprod_ext m (mval ((k, y) :: w)) (mval w)); [rewrite Z.add_assoc; exact E|].
        intros a b Q. apply Fm in Q. rewrite mval_cons. destruct (Z.eqb_spec k a); [lia|auto].
Qed.
Lemma dot_loop_tot f (P : Z -> Prop) : (forall a x y, P a -> exists b, f a x y = Ok b /\ P b) ->
  forall n m w ans, P ans -> (length m + length w <= n)%nat -> exists r, dot_loop f n m w ans = Ok r.
Proof.
  intros Hf. induction n; intros m w ans H L.
  - destruct m as [|(k, x) m]; cbn [dot_loop]; [eauto|cbn [length] in L; lia].
  - destruct m as [|(k, x) m]; [|destruct w as [|(k', y) w]]; cbn [dot_loop]; eauto. cbn [length] in L.
    destruct (k <? k'); [apply IHn; auto; cbn [length]; lia|]. destruct (k' <? k); [apply IHn; auto; cbn [length]; lia|].
    destruct (Hf ans x y H) as (b & -> & Pb). rewrite bind_Ok. apply IHn; auto. lia.
Qed.
Lemma dot_loop_tot2 f (Q : Z -> Prop) (P : Z -> Prop) : (forall a x y, P a -> Q x -> Q y -> exists b, f a x y = Ok b /\ P b) ->
  forall n m w ans, (forall k x, In (k, x) m -> Q x) -> (forall k x, In (k, x) w -> Q x) -> P ans -> (length m + length w <= n)%nat -> exists r, dot_loop f n m w ans = Ok r /\ P r.
Proof.
  intros Hf. induction n; intros m w ans Qm Qw H L.
  - destruct m as [|(k, x) m]; cbn [dot_loop]; [eauto|cbn [length] in L; lia].
  - destruct m as [|(k, x) m]; [|destruct w as [|(k', y) w]]; cbn [dot_loop]; eauto. cbn [length] in L.
    destruct (k <? k'); [apply IHn; auto; [intros; eapply Qm; right; eauto|cbn [length]; lia]|]. destruct (k' <? k); [apply IHn; auto; [intros; eapply Qw; right; eauto|cbn [length]; lia]|].
    destruct (Hf ans x y H) as (b & -> & Pb); [eapply Qm; left; eauto|eapply Qw; left; eauto|]. rewrite bind_Ok. apply IHn; auto; try lia; intros; [eapply Qm; right; eauto|eapply Qw; right; eauto].
Qed.
Section Dots.
Variable S : scal.
Lemma sv_dot_inv (X : exact S) v w r n : sv_dot S v w = Ok r -> good v -> good w -> inrange n (sents v) ->
  r = sumn n (fun i => mval (sents v) (Z.of_nat i + 1) * mval (sents w) (Z.of_nat i + 1)).
Proof.
  intros H Gv Gw R. unfold sv_dot in H. eapply (dot_loop_inv _ (fun a s => a = s)) with (s := 0) in H; auto.
  - rewrite H, Z.add_0_l. apply lprod_sumn; auto.
  - intros a s x y b -> E. inv E. apply (ex_mul _ X) in E0. apply (ex_add _ X) in E. lia.
Qed.
Lemma sv_dot_tot (T : total S) v w : exists r, sv_dot S v w = Ok r.
Proof.
  unfold sv_dot. apply dot_loop_tot with (P := fun _ => True); auto. intros a x y _. rewrite (to_mul _ T), bind_Ok, (to_add _ T). eauto.
Qed.
Lemma sv_dotmodp_ok D p (M : modok S D p) v w n : good v -> good w -> reds p (sents v) -> reds p (sents w) -> inrange n (sents v) ->
  exists r, sv_dotmodp S v w p = Ok r /\ cent p r /\ cong p r (sumn n (fun i => mval (sents v) (Z.of_nat i + 1) * mval (sents w) (Z.of_nat i + 1))).
Proof.
  intros Gv Gw Rv Rw R. unfold sv_dotmodp.
  assert (F : forall a x y, cent p a -> Z.abs x < p -> Z.abs y < p -> exists b, (bind (s_xmm S x y p) (fun t => bind (s_add S a t) (fun u => s_mod S u p))) = Ok b /\ cong p b (a + x * y) /\ cent p b).
  { intros a x y Ca Lx Ly. pose proof (cl _ _ _ M a Ca). destruct (mo_xmm _ _ _ M x y) as (t & -> & Ct & Lt); auto. rewrite bind_Ok. rewrite (mo_add _ _ _ M) by auto. rewrite bind_Ok.
    destruct (mo_mod _ _ _ M (a + t)) as (b & -> & Cb & Bb); [apply (mo_D _ _ _ M); lia|]. exists b. split; auto. split; auto. eapply cong_trans; [exact Cb|]. apply cong_add; auto using cong_refl. }
  destruct (dot_loop_tot2 (fun ans x y => bind (s_xmm S x y p) (fun t => bind (s_add S ans t) (fun u => s_mod S u p))) (fun x => Z.abs x < p) (cent p)) with (n := (length (sents v) + length (sents w))%nat) (m := sents v) (w := sents w) (ans := 0) as (r & E & Cr); auto.
  - intros a x y Ha Hx Hy. destruct (F a x y Ha Hx Hy) as (b & E & _ & Hb). eauto.
  - intros k x Hx. apply In_mget in Hx; auto. apply (Rv _ _ Hx).
  - intros k x Hx. apply In_mget in Hx; auto. apply (Rw _ _ Hx).
  - apply (cent0 _ _ _ M).
  - rewrite E. exists r. split; auto. split; auto. rewrite <- lprod_sumn by auto.
    (* the relation is kept by the loop because every entry met is a residue *)
    assert (G : forall n m w0 ans s, msorted m -> msorted w0 -> (forall k x, In (k, x) m -> Z.abs x < p) -> (forall k x, In (k, x) w0 -> Z.abs x < p) -> cent p ans -> cong p ans s ->
      forall r, dot_loop (fun ans x y => bind (s_xmm S x y p) (fun t => bind (s_add S ans t) (fun u => s_mod S u p))) n m w0 ans = Ok r -> cong p r (s + lprod m (mval w0))).
    { clear - F. induction n; intros m w ans s Sm Sw Qm Qw Ca H r E.
      - destruct m as [|(k, x) m]; [|destruct w as [|(k', y) w]]; cbn [dot_loop] in E; try discriminate; injection E as <-.
        + cbn [lprod]. rewrite Z.add_0_r. auto.
        + rewrite (lprod_ext _ _ (fun _ => 0)) by reflexivity. rewrite lprod_0, Z.add_0_r. auto.
      - destruct m as [|(k, x) m]; [|destruct w as [|(k', y) w]]; cbn [dot_loop] in E.
        + injection E as <-. cbn [lprod]. rewrite Z.add_0_r. auto.
        + injection E as <-. rewrite (lprod_ext _ _ (fun _ => 0)) by reflexivity. rewrite lprod_0, Z.add_0_r. auto.
        + pose proof Sm as Sm'. pose proof Sw as Sw'. apply msorted_cons in Sm. destruct Sm as (Sm & Fm). apply msorted_cons in Sw. destruct Sw as (Sw & Fw).
          destruct (Z.ltb_spec k k'); [|destruct (Z.ltb_spec k' k)].
          * eapply IHn in E; eauto; [|intros; eapply Qm; right; eauto]. cbn [lprod]. rewrite mval_cons. destruct (Z.eqb_spec k' k); [lia|]. unfold mval at 1. rewrite mget_above by (intros a b Hab; apply Fw in Hab; lia).
            replace (s + (x * 0 + lprod m (mval ((k', y) :: w)))) with (s + lprod m (mval ((k', y) :: w))) by ring. exact E.
          * eapply IHn in E; eauto; [|intros; eapply Qw; right; eauto]. rewrite (lprod_ext ((k, x) :: m) (mval ((k', y) :: w)) (mval w)); auto.
            intros a b [Q|Q]; [injection Q as <- <-|apply Fm in Q]; rewrite mval_cons; (destruct (Z.eqb_spec k' a) || destruct (Z.eqb_spec k' k)); auto; lia.
          * assert (k = k') by lia. subst k'. destruct (F ans x y Ca) as (b & Eb & Cb & Bb); [eapply Qm; left; eauto|eapply Qw; left; eauto|]. rewrite Eb, bind_Ok in E.
            eapply (IHn m w b (s + x * y)) in E; auto; [|intros; eapply Qm; right; eauto|intros; eapply Qw; right; eauto|eapply cong_trans; [exact Cb|apply cong_add; auto using cong_refl]].
            cbn [lprod]. rewrite mval_cons, Z.eqb_refl. rewrite (lprod_ext m (mval ((k, y) :: w)) (mval w)); [rewrite Z.add_assoc; exact E|].
            intros a c Q. apply Fm in Q. rewrite mval_cons. destruct (Z.eqb_spec k a); [lia|auto]. }
    rewrite <- (Z.add_0_l (lprod _ _)).
    refine (G _ _ _ 0 0 Gv Gw _ _ (cent0 _ _ _ M) (cong_refl _ _) r E); [intros k x Hx; apply In_mget in Hx; auto; apply (Rv _ _ Hx)|intros k x Hx; apply In_mget in Hx; auto; apply (Rw _ _ Hx)].
Qed.
End Dots.
