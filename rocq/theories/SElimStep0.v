(** init and step 0 of SElimModel. *)
From Coq Require Import ZArith Znumtheory Lia List Bool.
From Verif Require Import Base ArithModel RatModel MArithModel LinModel LinSpec LinProofs SvecModel SmatModel OrdModel OrdSpec OrdProofs OrdMore SElimModel SElimRow SElimInv SElimPivot SElimSteps.
Import ListNotations.
Open Scope Z_scope.
Open Scope res_scope.

Lemma oapp_idx ls l x l' : oapp ls l x = Ok l' -> oidx l' = oidx l.
Proof.
  unfold oapp. set (l0 := if (ocap l <=? onum l)%nat then ogrow ls l else l). assert (E0 : oidx l0 = oidx l) by (unfold l0; destruct (_ <=? _)%nat; reflexivity). rewrite <- E0.
  destruct (put _ _ _); cbn [bind]; intros H; try discriminate. injection H as <-. reflexivity.
Qed.
Lemma mfold_combine {A B} (d : B) (f : A -> nat * B -> res A) l : forall s a, mfold f (combine (seq s (length l)) l) a = mfold (fun a i => f a (i, nth (i - s) l d)) (seq s (length l)) a.
Proof.
  intros s a. assert (G : forall l' s0 a, (forall i, (i < length l')%nat -> nth i l' d = nth (s0 + i - s) l d) -> (s <= s0)%nat -> mfold f (combine (seq s0 (length l')) l') a = mfold (fun a i => f a (i, nth (i - s) l d)) (seq s0 (length l')) a).
  { induction l' as [|x l' IH]; intros s0 a0 H Hs; cbn [length seq combine mfold]; auto. specialize (H 0%nat ltac:(cbn; lia)) as H0. cbn [nth] in H0. rewrite Nat.add_0_r in H0. rewrite <- H0. destruct (f a0 (s0, x)) as [a1| | |]; cbn [bind]; auto. apply IH; [|lia].
    intros i Hi. specialize (H (S i) ltac:(cbn; lia)). cbn [nth] in H. rewrite H. f_equal. lia. }
  apply G; [intros i Hi; f_equal; lia|lia].
Qed.
Section Step0.
Variables (E : esc) (p : Z) (V : Z -> Prop) (nr nc : nat) (A0 : nat -> nat -> Z).
Hypothesis M : emod E p V.
Let P : prime p := em_prime _ _ _ M.
Notation wf := (wfrow p V nc).
Notation invx := (inv p V nr nc A0).
Notation inv := (invx nc).
Notation core := (core p V nr nc A0).
Notation cleared := (cleared p V nr nc).
Notation mu := (mu nr).

(** ** init *)
Definition colsof (rows : list smap) (k : nat) (cs : list olist) : Prop := length cs = nc /\ forall c, (c < nc)%nat -> oidx (nth c cs (onew 0)) = 0%nat /\
  opost (nth c cs (onew 0)) (fun y => exists i, y = Z.of_nat i /\ (i < k)%nat /\ In (ck c) (keys (nth i rows nil))).
Lemma init_row (r : nat) l : forall cs (Q : nat -> Z -> Prop), incr (keys l) -> (forall k, In k (keys l) -> 1 <= k <= Z.of_nat nc) -> length cs = nc ->
  (forall c, (c < nc)%nat -> oidx (nth c cs (onew 0)) = 0%nat /\ opost (nth c cs (onew 0)) (Q c)) -> (forall c y, In (ck c) (keys l) -> Q c y -> y < Z.of_nat r) ->
  exists cs', mfold (fun cols '(k, _) => c <- zget cols (k - 1) ;; c <- oapp 10 c (Z.of_nat r) ;; zset cols (k - 1) c) l cs = Ok cs' /\ length cs' = nc /\
    (forall c, (c < nc)%nat -> oidx (nth c cs' (onew 0)) = 0%nat /\ opost (nth c cs' (onew 0)) (fun y => Q c y \/ (y = Z.of_nat r /\ In (ck c) (keys l)))).
Proof.
  induction l as [|(k, x) l IH]; intros cs Q Il Hk Lc Hc Hq; cbn [mfold].
  - exists cs. split; [reflexivity|]. split; auto. intros c Hlc. destruct (Hc c Hlc) as (H1 & o & H2 & H3). split; auto. exists o. split; auto. intros y. rewrite H3. cbn. tauto.
  - pose proof (Hk k (or_introl eq_refl)) as Rk. assert (exists d, k = ck d /\ (d < nc)%nat) as (d & -> & Ld) by (exists (Z.to_nat (k - 1)); unfold ck; lia). rewrite (zget_ck (onew 0)) by lia. rewrite bind_Ok.
    destruct (Hc d Ld) as (X0 & o & Ho & Mo). destruct (oapp_ok 10 ltac:(lia) _ o (Z.of_nat r) Ho) as (o' & Eo & Ho'); [intros y Hy; apply (Hq d); [left; auto|apply Mo, Hy]|]. pose proof (oapp_idx _ _ _ _ Eo) as X1. rewrite Eo, bind_Ok. rewrite zset_ck by lia. cbn [bind].
    destruct Il as (I1 & I2). fold (keys l) in I1, I2. cbn [fst] in I1. assert (Nd : forall c, In (ck c) (keys l) -> c <> d) by (intros c H ->; apply I1 in H; lia).
    destruct (IH (upd cs d o') (fun c y => Q c y \/ (c = d /\ y = Z.of_nat r)) I2) as (cs' & -> & L' & H').
    + intros k Hk'. apply Hk. right; auto.
    + rewrite upd_len. auto.
    + intros c Hlc. destruct (Nat.eq_dec c d) as [->|N]; [rewrite upd_same by lia; split; [congruence|]; exists (o ++ [Z.of_nat r]); split; auto; intros y; rewrite in_app_iff, Mo; cbn; intuition|]. rewrite upd_other by auto. destruct (Hc c Hlc) as (H1 & o1 & H2 & H3). split; auto. exists o1. split; auto. intros y. rewrite H3. tauto.
    + intros c y Hcl [H|(-> & _)]; [apply (Hq c); [right; auto|auto]|exfalso; apply (Nd d Hcl); auto].
    + exists cs'. split; auto. split; auto. intros c Hlc. destruct (H' c Hlc) as (H1 & o1 & H2 & H3). split; auto. exists o1. split; auto. intros y. rewrite H3. cbn [keys map In fst]. fold (keys l). split.
      * intros [[H|(-> & H)]|(-> & H)]; auto.
      * intros [H|(-> & [H|H])]; auto. apply ck_inj in H. left. right. auto.
Qed.
Lemma nth_repeat' {A} (x d : A) n i : (i < n)%nat -> nth i (repeat x n) d = x.
Proof. revert i. induction n; intros [|i] H; cbn; auto; try lia. apply IHn. lia. Qed.
Lemma einit_ok (rows : list smap) : length rows = nr -> (forall i, wf (nth i rows nil)) -> eqspan p nc nr A0 nr (fun i j => lookup (nth i rows nil) (ck j)) ->
  exists st, einit rows nc = Ok st /\ inv [] st /\ (forall i, (i < nr)%nat -> act st i).
Proof.
  intros Lr W S. unfold einit. rewrite (mfold_combine (nil : smap)).
  match goal with |- exists st, bind ?x _ = _ /\ _ => assert (exists cs, x = Ok cs /\ colsof rows (0 + length rows) cs) as (cs & Ecs & Lcs & Hcs); [apply mfold_seq|] end.
  - split; [apply repeat_length|]. intros c Lc. rewrite nth_repeat' by auto. split; [reflexivity|]. exists []. split; [apply onew_holds|]. intros y. split; [intros []|]. intros (i & _ & H & _). lia.
  - intros k a Hk (La & Ha). rewrite Nat.sub_0_r. destruct (init_row k (nth k rows nil) a (fun c y => exists i, y = Z.of_nat i /\ (i < k)%nat /\ In (ck c) (keys (nth i rows nil)))) as (cs & Ecs & L' & H'); auto.
    + apply W.
    + intros k0 H. apply (key_range p V nc _ _ (W k) H).
    + intros c y _ (i & -> & H & _). lia.
    + exists cs. split; [exact Ecs|]. split; auto. intros c Lc. destruct (H' c Lc) as (H1 & o & H2 & H3). split; auto. exists o. split; auto. intros y. rewrite H3. split.
      * intros [(i & -> & Hi & Hh)|(-> & Hh)]; [exists i|exists k]; repeat split; auto; lia.
      * intros (i & -> & Hi & Hh). destruct (Nat.eq_dec i k) as [->|N]; [right; auto|left; exists i; repeat split; auto; lia].
  - cbn [Nat.add] in *. rewrite Ecs, bind_Ok. clear Ecs. eexists. split; [reflexivity|]. set (st := Es rows _ _ _ _).
    assert (Ac : forall i, (i < nr)%nat -> act st i) by (intros i Hi; unfold act, po, st; cbn; apply nth_repeat'; rewrite <- Lr in Hi; exact Hi). assert (Cc : forall c, (c < nc)%nat -> ce st c = -1) by (intros c Hc; unfold ce, st; cbn; apply nth_repeat'; auto).
    split; auto. constructor; auto.
    + constructor; auto.
      * exact (eq_trans (repeat_length _ _) Lr).
      * apply repeat_length.
      * constructor.
      * constructor.
      * intros r c [].
      * intros [|x pv1] r c pv2 H; discriminate.
    + intros c Lc. destruct (Hcs c Lc) as (_ & o & Ho & Mo). exists o. split; [exact Ho|]. intros y. rewrite Mo. unfold colset. rewrite Lr. split; intros (i & -> & Hi); exists i; split; auto; split; try tauto. split; [apply Ac; tauto|apply Hi].
    + intros c Lc _ _. apply (Hcs c Lc).
Qed.

(** ** step 0 *)
Definition linv0 (st1 : est) (r c : nat) (cl0 : list Z) (arr : list (option Z)) (num : nat) (L0 : list Z) (k : nat) (s : est * olist * list Z) : Prop :=
  let '(st, col0, L) := s in
  (col0 = Ol arr num k /\ length (erows st) = nr /\ epos st = epos st1 /\ ecol st = ecol st1 /\ erow st = erow st1 /\ ecols st = ecols st1) /\
  (forall i, (i = r \/ ~ In (Z.of_nat i) (firstn k cl0)) -> rw st i = rw st1 i) /\
  (forall i, i <> r -> In (Z.of_nat i) (firstn k cl0) -> wf (rw st i) /\ length (rw st i) = (length (rw st1 i) - 1)%nat /\ forall j, lookup (rw st i) j = if ck c =? j then 0 else lookup (rw st1 i) j) /\
  exists xs, L = L0 ++ xs /\ NoDup xs /\ (length xs <= k)%nat /\ (forall i, In (Z.of_nat i) xs <-> In (Z.of_nat i) (firstn k cl0) /\ i <> r /\ length (rw st1 i) = 2%nat) /\ Forall (fun x => exists i, x = Z.of_nat i) xs.
Lemma step0_row_ok ex pv st1 r c cl0 L0 k s : invx ex pv st1 -> holds (cl st1 c) cl0 -> (forall y, In y cl0 <-> colset nr st1 c y) -> (k < length cl0)%nat -> linv0 st1 r c cl0 (oarr (cl st1 c)) (onum (cl st1 c)) L0 k s ->
  exists s', step0_row (Z.of_nat r) (ck c) s = Ok s' /\ linv0 st1 r c cl0 (oarr (cl st1 c)) (onum (cl st1 c)) L0 (k + 1) s'.
Proof.
  intros I Hl Ml Lk HI. pose proof (i_core _ _ _ _ _ _ _ _ I) as K. destruct s as ((st & col0) & L). cbn [linv0] in HI. destruct HI as ((-> & N1 & N2 & N3 & N4 & N5) & R1 & R2 & xs & -> & Dx & Lx & Hx & Fx).
  pose proof Hl as (Ic & Nc & _). unfold step0_row. rewrite (onext_at (Ol (oarr (cl st1 c)) (onum (cl st1 c)) k) cl0 k) by auto. cbn [oarr onum]. rewrite bind_Ok.
  pose proof (firstn_succ 0 cl0 k Lk) as Fs. pose proof (firstn_incr cl0 k Ic Lk) as Fi. pose proof (nth_In cl0 0 Lk) as Hy. apply Ml in Hy. destruct Hy as (i & Ey & Li & Ai & Hi). rewrite Ey in *.
  assert (Fn : ~ In (Z.of_nat i) (firstn k cl0)) by (intros H; apply Fi in H; lia).
  destruct (Z.eqb_spec (Z.of_nat i) (Z.of_nat r)) as [Er|Er].
  - apply Nat2Z.inj in Er. subst i. eexists. split; [reflexivity|]. cbn [linv0]. rewrite Fs. split; [auto 7|]. split; [|split].
    + intros j [H|H]; apply R1; auto. right. intros H'. apply H, in_or_app. auto.
    + intros j Hj H. apply R2; auto. apply in_app_or in H. destruct H as [|[H|[]]]; auto. apply Nat2Z.inj in H. congruence.
    + exists xs. split; auto. split; auto. split; [lia|]. split; auto. intros j. rewrite Hx, in_app_iff. cbn [In]. split; [tauto|]. intros ([H|[H|[]]] & H'); auto. apply Nat2Z.inj in H. destruct H'. congruence.
  - assert (Ni : i <> r) by congruence. rewrite (zget_nat (nil : smap)) by lia. fold (rw st i). rewrite bind_Ok. rewrite (R1 i) by auto. pose proof (k_row _ _ _ _ _ _ _ K i) as Wi.
    destruct (rlocate_ok (rw st1 i) (ck c) (proj1 Wi) Hi) as (t & -> & Lt & Et). rewrite bind_Ok. rewrite zset_nat by lia. rewrite bind_Ok. rewrite Nat2Z.id. destruct (drop_ok p V nc (rw st1 i) t Wi Lt) as (Wd & Ld & Kd). rewrite Et in Kd.
    eexists. split; [reflexivity|]. cbn [linv0]. rewrite Fs. set (st2 := set_rows st _). assert (Ri : rw st2 i = drop_at (rw st1 i) t) by (unfold rw, st2; cbn; apply upd_same; lia). assert (Ro : forall j, j <> i -> rw st2 j = rw st j) by (intros j Hj; unfold rw, st2; cbn; apply upd_other; auto).
    split; [unfold st2; cbn; rewrite upd_len; auto 7|]. split; [|split].
    + intros j Hj. assert (Nj : j <> i) by (intros ->; destruct Hj as [|Hj]; [auto|apply Hj, in_or_app; right; left; auto]). rewrite Ro by auto. apply R1. destruct Hj as [|Hj]; auto. right. intros H. apply Hj, in_or_app. auto.
    + intros j Hj H. destruct (Nat.eq_dec j i) as [->|Nj]; [rewrite Ri; auto|]. rewrite Ro by auto. apply R2; auto. apply in_app_or in H. destruct H as [|[H|[]]]; auto. apply Nat2Z.inj in H. congruence.
    + destruct (Nat.eqb_spec (length (rw st1 i)) 2) as [E2|E2].
      * exists (xs ++ [Z.of_nat i]). rewrite app_assoc. split; auto. split; [|split; [rewrite app_length; cbn; lia|split]].
        -- rewrite <- (rev_involutive (xs ++ _)). apply NoDup_rev. rewrite rev_app_distr. cbn. constructor; [rewrite <- in_rev; intros H; apply Hx in H; tauto|apply NoDup_rev, Dx].
        -- intros j. rewrite !in_app_iff, Hx. cbn [In]. split; [intros [H|[H|[]]]; [tauto|]|]. { apply Nat2Z.inj in H. subst j. auto. } intros ([H|[H|[]]] & H'); [tauto|auto].
        -- apply Forall_app. split; auto. constructor; [exists i; auto|constructor].
      * exists xs. split; auto. split; auto. split; [lia|]. split; auto. intros j. rewrite Hx, in_app_iff. cbn [In]. split; [tauto|]. intros ([H|[H|[]]] & H'); auto. apply Nat2Z.inj in H. subst j. tauto.
Qed.
Definition inv0 (st : est) (L : list Z) : Prop := exists pv, inv pv st /\ NoDup L /\ (forall x, In x L <-> exists i, x = Z.of_nat i /\ (i < nr)%nat /\ act st i /\ (length (rw st i) < 2)%nat).
Lemma eliminate_cols st r c cs st3 : eliminate (set_cols st cs) r c = Ok st3 -> forall cs', eliminate (set_cols st cs') r c = Ok (set_cols st3 cs').
Proof.
  unfold eliminate. cbn [set_cols ecol epos erow erows ecols]. destruct (zset (ecol st) _ _) as [ec| | |]; cbn [bind]; try discriminate. destruct (zset (epos st) _ _) as [ps| | |]; cbn [bind]; try discriminate. unfold enro. cbn [erows set_cols].
  destruct (_ <? _)%nat; [|discriminate]. intros H cs'. injection H as <-. reflexivity.
Qed.
Lemma upd_upd {A} (l : list A) i x y : upd (upd l i x) i y = upd l i y.
Proof.
  revert i. induction l as [|a l IH]; intros [|i]; cbn; f_equal; auto.
Qed.
Lemma V1 l x c : wf [(c, x)] -> l = [(c, 1)] -> wf l.
Proof. intros (_ & F) ->. split; [cbn; split; [intros ? []|exact Logic.I]|]. intros k y [H|[]]. injection H as <- <-. destruct (F c x (or_introl eq_refl)) as (H & _). split; auto. split; [apply (em_1 _ _ _ M)|]. intros H1. unfold cong in H1. rewrite Z.sub_0_r in H1. apply Z.divide_1_r in H1. destruct P. lia. Qed.
Lemma lookup_one c x k : lookup [(c, x)] k = if c =? k then x else 0.
Proof. rewrite lookup_cons by (cbn; split; [intros ? []|exact Logic.I]). destruct (c =? k); auto. Qed.
Lemma step0_body_ok st x L : inv0 st (x :: L) -> exists st' L', step0_body (st, x :: L) = Ok (inl (st', L')) /\ inv0 st' L' /\
  ((mu st' = mu st /\ (length L' <= length L)%nat) \/ (mu st' <= mu st - 1 /\ (length L' <= length L + (nr + nc))%nat)).
Proof.
  intros (pv & I & ND & HL). pose proof (i_core _ _ _ _ _ _ _ _ I) as K. destruct (proj1 (HL x) (or_introl eq_refl)) as (r & -> & Lr & Ar & Wr). inversion ND as [|? ? Nr ND']; subst.
  unfold step0_body. rewrite (zget_nat (nil : smap)) by (rewrite (k_nr _ _ _ _ _ _ _ K); auto). fold (rw st r). rewrite bind_Ok. destruct (rw st r) as [|(k, x) t] eqn:Er.
  - rewrite zset_nat by (rewrite (k_np _ _ _ _ _ _ _ K); auto). rewrite bind_Ok. eexists _, L. split; [reflexivity|]. split; [|left; split; [reflexivity|auto]]. exists pv. split; [apply inv_zero; auto|]. split; auto.
    set (st' := set_pos _ _). assert (Pr : po st' r = 0) by (unfold po, st'; cbn; apply upd_same; rewrite (k_np _ _ _ _ _ _ _ K); auto). assert (Po : forall j, j <> r -> po st' j = po st j) by (intros j Hj; unfold po, st'; cbn; apply upd_other; auto).
    intros y. split.
    + intros Hy. destruct (proj1 (HL y) (or_intror Hy)) as (i & -> & Li & Ai & Wi). assert (i <> r) by (intros ->; auto). exists i. split; auto. split; auto. split; [unfold act; rewrite Po; auto|exact Wi].
    + intros (i & -> & Li & Ai & Wi). assert (Nir : i <> r) by (intros ->; unfold act in Ai; lia). destruct (proj2 (HL (Z.of_nat i))) as [H|H]; auto; [exists i; split; auto; split; auto; split; [unfold act in *; rewrite <- Po; auto|exact Wi]|]. apply Nat2Z.inj in H. congruence.
  - destruct t as [|? t]; [|cbn in Wr; lia]. rewrite zset_nat by (rewrite (k_nr _ _ _ _ _ _ _ K); auto). rewrite bind_Ok. assert (Wx : wf [(k, x)]) by (rewrite <- Er; apply K). destruct (has_range p V nr nc A0 pv st r k K) as (c & -> & Lc & Hc); [rewrite Er; left; auto|].
    assert (Cx : ~ cong p x 0) by (apply (proj2 Wx (ck c) x); left; auto). assert (Vx : V x) by (apply (proj2 Wx (ck c) x); left; auto). destruct (em_inv _ _ _ M x Vx Cx) as (u & _ & _ & Cu).
    set (l' := [(ck c, 1)]). set (st1 := set_rows st (upd (erows st) r l')).
    assert (W1 : wf l') by (apply (V1 _ x (ck c)); auto).
    destruct (inv_scale p V nr nc A0 nc pv st r l' u x I Lr Ar ltac:(rewrite Er; discriminate) ltac:(rewrite Z.mul_comm; exact Cu) W1 ltac:(rewrite Er; reflexivity)) as (I1 & Rr & Ro).
    { intros j. rewrite Er. unfold l'. rewrite !lookup_one. destruct (ck c =? j); [rewrite Z.mul_comm; apply cong_sym, Cu|apply cong_eq; ring]. }
    fold st1 in I1, Rr, Ro |- *. cbn zeta. pose proof (i_core _ _ _ _ _ _ _ _ I1) as K1. rewrite (zget_ck (onew 0)) by (rewrite (i_ncs _ _ _ _ _ _ _ _ I1); auto). fold (cl st1 c). rewrite bind_Ok.
    assert (A1 : forall i, act st1 i <-> act st i) by reflexivity. assert (H1 : has st1 r c) by (unfold has; rewrite Rr; left; auto).
    assert (Len1 : forall i, length (rw st1 i) = length (rw st i)) by (intros i; destruct (Nat.eq_dec i r) as [->|N]; [rewrite Rr, Er; reflexivity|rewrite Ro; auto]).
    assert (Cc : ce st1 c = -1). { destruct (k_ce _ _ _ _ _ _ _ K1 c Lc) as [|H]; auto. exfalso. apply (act_free _ _ _ _ _ _ _ _ _ K1 Lr Ar H1 H). }
    pose proof (i_idx _ _ _ _ _ _ _ _ I1 c Lc ltac:(lia) Cc) as X0. destruct (i_col _ _ _ _ _ _ _ _ I1 c Lc) as (cl0 & Hl & Ml). pose proof Hl as (Ic & Nc & _). pose proof (colset_len nr st1 c cl0 Ic (fun y => proj1 (Ml y))) as Cn.
    destruct (mfold_seq (linv0 st1 r c cl0 (oarr (cl st1 c)) (onum (cl st1 c)) L) (fun s _ => step0_row (Z.of_nat r) (ck c) s) 0 (onum (cl st1 c)) (st1, cl st1 c, L)) as (s & -> & HI).
    { cbn [linv0 firstn]. split; [|split; [auto|split; [intros i _ []|]]].
      - split; [rewrite <- X0; destruct (cl st1 c); reflexivity|]. split; [apply K1|auto 6].
      - exists []. rewrite app_nil_r. split; auto. split; [constructor|]. split; [auto|]. split; [intros i; cbn; tauto|constructor]. }
    { intros j s Hj HI. apply (step0_row_ok nc pv st1 r c cl0 L j s I1 Hl Ml); [lia|exact HI]. }
    cbn [Nat.add] in HI. destruct s as ((st2 & col0) & L'). cbn [linv0] in HI. rewrite Nc, firstn_all in HI. destruct HI as ((-> & N1 & N2 & N3 & N4 & N5) & R1 & R2 & xs & EL & Dx & Lx & Hx & Fx). rewrite bind_Ok.
    assert (Nco : length (ecols st2) = nc) by (rewrite N5; apply I1). rewrite zset_ck by lia. rewrite bind_Ok.
    assert (Hin : forall i, In (Z.of_nat i) cl0 <-> (i < nr)%nat /\ act st1 i /\ has st1 i c) by (intros i; rewrite Ml; apply colset_nat).
    assert (A2 : forall i, act st2 i <-> act st1 i) by (intros i; unfold act, po; rewrite N2; reflexivity).
    assert (W2 : forall i, wf (rw st2 i)). { intros i. destruct (Nat.eq_dec i r) as [->|N]; [rewrite R1 by auto; apply K1|]. destruct (in_dec Z.eq_dec (Z.of_nat i) cl0) as [H|H]; [apply (R2 i N H)|rewrite R1 by auto; apply K1]. }
    assert (L2 : forall i d, i <> r -> act st1 i -> (i < nr)%nat -> cong p (se st2 i d) (if (c =? d)%nat then 0 else se st1 i d)).
    { intros i d Ni Ai Li. unfold se. destruct (in_dec Z.eq_dec (Z.of_nat i) cl0) as [H|H].
      - destruct (R2 i Ni H) as (_ & _ & ->). destruct (Nat.eqb_spec c d) as [->|Nd]; [rewrite Z.eqb_refl; apply cong_refl|]. destruct (Z.eqb_spec (ck c) (ck d)) as [e|_]; [apply ck_inj in e; congruence|apply cong_refl].
      - rewrite R1 by auto. destruct (Nat.eqb_spec c d) as [->|Nd]; [|apply cong_refl]. apply (hasnt_se _ _ _ _ _ _ _ _ _ K1). intros Hh. apply H, Hin. auto. }
    assert (Se1 : forall d, se st1 r d = if (c =? d)%nat then 1 else 0). { intros d. unfold se. rewrite Rr. unfold l'. rewrite lookup_one. destruct (Nat.eqb_spec c d) as [->|Nd]; [rewrite Z.eqb_refl; auto|]. destruct (Z.eqb_spec (ck c) (ck d)) as [e|_]; auto. apply ck_inj in e; congruence. }
    set (cs' := upd (ecols st2) c (onew 0)).
    assert (D : cleared false st1 (set_cols st2 cs') r c).
    { constructor; auto.
      - cbn. rewrite N1. symmetry. apply K1.
      - cbn. rewrite N2. auto.
      - cbn. unfold cs'. rewrite upd_len. auto.
      - apply R1. auto.
      - intros i Hi. change (rw st2 i = rw st1 i). apply R1. right. intros H. apply Hin in H. destruct H as (H & H' & _). destruct Hi; [auto|lia].
      - intros i Ni Ai. destruct (Nat.lt_ge_cases i nr) as [Li|Li]; [|exists 0; intros j; change (cong p (se st2 i j) (se st1 i j + 0 * se st1 r j)); rewrite Z.mul_0_l, Z.add_0_r; unfold se; rewrite R1; [apply cong_refl|right; intros H; apply Hin in H; lia]].
        exists (- se st1 i c). intros j. change (cong p (se st2 i j) (se st1 i j + - se st1 i c * se st1 r j)). eapply cong_trans; [apply L2; auto|]. rewrite Se1. apply cong_eq. destruct (Nat.eqb_spec c j) as [->|]; ring.
      - intros i Li Ni Ai H. change (has st2 i c) in H. apply (proj1 (has_iff p V nc _ _ (W2 i)) H). pose proof (L2 i c Ni Ai Li) as H'. rewrite Nat.eqb_refl in H'. exact H'.
      - intros i. left. unfold po. cbn. rewrite N2. reflexivity.
      - discriminate.
      - intros d Ld. unfold cl. cbn. unfold cs'. destruct (Nat.eq_dec d c) as [->|Nd].
        + rewrite upd_same by lia. exists []. split; [apply onew_holds|]. intros y. split; [intros []|]. intros (i & _ & Li & Ni & Ai & H). change (has st2 i c) in H. apply (proj1 (has_iff p V nc _ _ (W2 i)) H). pose proof (L2 i c Ni Ai Li) as H'. rewrite Nat.eqb_refl in H'. exact H'.
        + rewrite upd_other by auto. rewrite N5. destruct (i_col _ _ _ _ _ _ _ _ I1 d Ld) as (ld & Hd & Md). exists ld. split; [exact Hd|]. intros y. rewrite Md.
          assert (HH : forall i, i <> r -> act st1 i -> (i < nr)%nat -> (has st2 i d <-> has st1 i d)). { intros i Ni Ai Li. unfold has. rewrite (has_iff p V nc _ _ (W2 i)), (has_iff p V nc _ _ (k_row _ _ _ _ _ _ _ K1 i)). pose proof (L2 i d Ni Ai Li) as H'. destruct (Nat.eqb_spec c d) as [|_]; [congruence|]. unfold se in H'. split; intros Hn Hz; apply Hn; [eapply cong_trans; [exact H'|exact Hz]|eapply cong_trans; [apply cong_sym, H'|exact Hz]]. }
          split; [intros (i & -> & Li & Ai & Hi)|intros (i & -> & Li & Ni & Ai & Hi)]; exists i.
          * assert (Ni : i <> r). { intros ->. unfold has in Hi. rewrite Rr in Hi. destruct Hi as [Hi|[]]. apply ck_inj in Hi. congruence. } split; auto. split; auto. split; auto. split; auto. apply HH; auto.
          * split; auto. split; auto. split; auto. apply HH; auto.
      - intros d Ld Nd Cd. unfold cl. cbn. unfold cs'. rewrite upd_other by auto. rewrite N5. apply (i_idx _ _ _ _ _ _ _ _ I1 d Ld ltac:(lia) Cd). }
    destruct (finish p V nr nc A0 nc false pv st1 (set_cols st2 cs') r c I1 Lr Ar Lc H1) as (st3 & st4 & E3 & _ & E4 & I4 & R3 & R4 & P3 & P4 & NA); [unfold se; rewrite Rr; unfold l'; rewrite lookup_one, Z.eqb_refl; apply cong_refl|exact D|].
    rewrite (eliminate_cols _ _ _ _ _ E3). rewrite bind_Ok. assert (E4' : free_space (set_cols st3 (upd (ecols st2) c (Ol (oarr (cl st1 c)) (length cl0) (length cl0)))) (ck c) = Ok st4).
    { assert (Ec : ecols st3 = cs'). { unfold eliminate in E3. destruct (zset _ _ _); cbn [bind] in E3; try discriminate. destruct (zset _ _ _); cbn [bind] in E3; try discriminate. destruct (_ <? _)%nat; [|discriminate]. injection E3 as <-. reflexivity. }
      rewrite <- E4. unfold free_space. cbn [set_cols ecols]. rewrite Ec. unfold cs'. rewrite !zset_ck by (rewrite ?upd_len; lia). rewrite !bind_Ok, !upd_upd. reflexivity. }
    rewrite E4', bind_Ok. exists st4, L'. split; [reflexivity|]. split; [|right; split; [rewrite (mu_snoc p V nr nc A0 pv r c st1 st4 K1 (i_core _ _ _ _ _ _ _ _ I4)); unfold mu; cbn; lia|rewrite EL, app_length; lia]].
    assert (A4 : forall i, i <> r -> (act st4 i <-> act st i)). { intros i Ni. unfold act. rewrite P4, P3 by auto. change (po st2 i = -1 <-> po st i = -1). unfold po. rewrite N2. reflexivity. }
    assert (R4' : forall i, rw st4 i = rw st2 i) by (intros i; apply rw_erows; rewrite R4; reflexivity).
    exists (pv ++ [(r, c)]). split; auto. subst L'. split.
    + assert (Dj : forall y, In y L -> In y xs -> False). { intros y Hy Hy'. destruct (proj1 (HL y) (or_intror Hy)) as (i & -> & Li & Ai & Wi). apply Hx in Hy'. rewrite Len1 in Hy'. lia. }
      clear - ND' Dx Dj. induction L as [|a L IH]; cbn; auto. inversion ND'; subst. constructor; [rewrite in_app_iff; intros [H|H]; [auto|apply (Dj a); [left; auto|auto]]|apply IH; auto; intros y H H'; apply (Dj y); [right; auto|auto]].
    + assert (Len2 : forall i, i <> r -> (i < nr)%nat -> act st i -> ((length (rw st2 i) < 2)%nat <-> (length (rw st i) < 2)%nat \/ (In (Z.of_nat i) cl0 /\ length (rw st1 i) = 2%nat))).
      { intros i Ni Li Ai. rewrite <- Len1. destruct (in_dec Z.eq_dec (Z.of_nat i) cl0) as [H|H].
        - destruct (R2 i Ni H) as (_ & -> & _). assert (1 <= length (rw st1 i))%nat by (apply Hin in H; destruct H as (_ & _ & H); unfold has in H; destruct (rw st1 i); [destruct H|cbn; lia]). split; [intros Hlt; assert (Ho : (length (rw st1 i) < 2)%nat \/ length (rw st1 i) = 2%nat) by lia; tauto|intros [Ho|(_ & Ho)]; lia].
        - rewrite R1 by auto. tauto. }
      intros y. rewrite in_app_iff. split.
      * intros [Hy|Hy].
        -- destruct (proj1 (HL y) (or_intror Hy)) as (i & -> & Li & Ai & Wi). assert (Ni : i <> r) by (intros ->; auto). exists i. split; auto. split; auto. split; [apply A4; auto|]. rewrite R4'. apply Len2; auto.
        -- rewrite Forall_forall in Fx. destruct (Fx y Hy) as (i & ->). apply Hx in Hy. destruct Hy as (Hy & Ni & H2). pose proof (proj1 (Hin i) Hy) as (Li & Ai & _). exists i. split; auto. split; auto. split; [apply A4; auto|]. rewrite R4'. apply Len2; auto.
      * intros (i & -> & Li & Ai & Wi). assert (Ni : i <> r). { intros ->. apply NA. unfold act in *. rewrite <- P4. auto. } apply A4 in Ai; auto. rewrite R4' in Wi. apply Len2 in Wi; auto. destruct Wi as [Wi|(Wi & H2)]; [left|right; apply Hx; auto].
        destruct (proj2 (HL (Z.of_nat i))) as [H|H]; auto; [exists i; auto|]. apply Nat2Z.inj in H. congruence.
Qed.
Lemma step0_ok pv st : inv pv st -> (forall i, (i < nr)%nat -> act st i) -> exists st', step0 st = Ok st' /\ exists pv', inv pv' st' /\ heavy nr st'.
Proof.
  intros I HA. pose proof (i_core _ _ _ _ _ _ _ _ I) as K. pose proof (k_nr _ _ _ _ _ _ _ K) as N1. pose proof (k_np _ _ _ _ _ _ _ K) as N2.
  destruct (while_inv p V nr nc A0 step0_body inv0) with (st := st) (L := light_rows st 2 false) as (st' & Es & (pv' & I' & _ & H')).
  - intros s L (q & Iq & _). eauto.
  - reflexivity.
  - apply step0_body_ok.
  - exists pv. split; auto. split.
    + unfold light_rows. assert (G : forall n s l, NoDup (flat_map (fun '(i, (l, q)) => if (length (l : smap) <? 2)%nat && (negb false || (q =? -1)) then [Z.of_nat i] else []) (combine (seq s n) l)) /\ forall y, In y (flat_map (fun '(i, (l, q)) => if (length (l : smap) <? 2)%nat && (negb false || (q =? -1)) then [Z.of_nat i] else []) (combine (seq s n) l)) -> Z.of_nat s <= y).
      { induction n as [|n IH]; intros s [|(l, q) ls]; cbn [seq combine flat_map]; try (split; [constructor|intros y []]). destruct (IH (S s) ls) as (H1 & H2). destruct (_ && _); cbn [app]; split; auto.
        - constructor; auto. intros H. apply H2 in H. lia.
        - intros y [<-|H]; [lia|]. apply H2 in H. lia.
        - intros y H. apply H2 in H. lia. }
      apply G.
    + intros x. rewrite (light_rows_in nr) by auto. split; intros (i & -> & Li & H); exists i; split; auto; split; auto; [split; [auto|apply H]|]. split; [apply H|discriminate].
  - pose proof (light_rows_len nr st 2 false N1 N2). lia.
  - exists st'. split; [exact Es|]. exists pv'. split; auto. intros i Li Ai En. apply (H' (Z.of_nat i)). exists i. rewrite En. cbn. split; [auto|]. split; [auto|]. split; [auto|lia].
Qed.
End Step0.
