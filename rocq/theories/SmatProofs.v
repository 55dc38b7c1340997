(** Proofs about SmatModel, first part: every operation on storage behaves as the same
    operation on lists of (position, value) pairs, and stays inside the arrays. *)
From Coq Require Import ZArith Lia List Bool.
From Verif Require Import Base LinModel LinProofs LinAlg SvecModel SmatModel.
Import ListNotations.
Open Scope Z_scope.
Open Scope res_scope.

(** ** simulation *)
Definition simr {A B} (R : A -> B -> Prop) (x : res A) (y : res B) : Prop :=
  match y with Ok b => exists a, x = Ok a /\ R a b | UB => x = UB | Die => x = Die | OutOfFuel => x = OutOfFuel end.
Lemma simr_Ok {A B} (R : A -> B -> Prop) a b : R a b -> simr R (Ok a) (Ok b).
Proof. cbn. eauto. Qed.
Lemma simr_bind {A B A' B'} (R : A -> B -> Prop) (Q : A' -> B' -> Prop) x y f g :
  simr R x y -> (forall a b, R a b -> simr Q (f a) (g b)) -> simr Q (bind x f) (bind y g).
Proof. intros H F. destruct y; cbn [simr bind] in *; [destruct H as (a0 & -> & H); cbn [bind]; auto|subst x; reflexivity..]. Qed.
Lemma simr_eq {A B} (Q : A -> B -> Prop) {C} (x : res C) f g : (forall c, simr Q (f c) (g c)) -> simr Q (bind x f) (bind x g).
Proof. intros H. destruct x; cbn [simr bind]; auto. Qed.
Lemma simr_mmap {A B A' B'} (R : A -> B -> Prop) (Q : A' -> B' -> Prop) f g l L :
  Forall2 R l L -> (forall a b, R a b -> simr Q (f a) (g b)) -> simr (Forall2 Q) (mmap f l) (mmap g L).
Proof.
  intros H F. induction H; cbn [mmap]; [apply simr_Ok; constructor|].
  apply simr_bind with (R := Q); auto. intros a b Hab. apply simr_bind with (R := Forall2 Q); auto. intros. apply simr_Ok. constructor; auto.
Qed.
Lemma simr_mmap2 {A B A' B' A'' B''} (R : A -> B -> Prop) (R' : A' -> B' -> Prop) (Q : A'' -> B'' -> Prop) f g l L l' L' :
  Forall2 R l L -> Forall2 R' l' L' -> (forall a b a' b', R a b -> R' a' b' -> simr Q (f a a') (g b b')) -> simr (Forall2 Q) (mmap2 f l l') (mmap2 g L L').
Proof.
  intros H. revert l' L'. induction H; cbn [mmap2]; intros l'' L'' H' F; [apply simr_Ok; constructor|].
  destruct H'; [reflexivity|].
  apply simr_bind with (R := Q); auto. intros a b Hab. apply simr_bind with (R := Forall2 Q); auto. intros. apply simr_Ok. constructor; auto.
Qed.
Lemma simr_mfold {A B C D} (Q : A -> B -> Prop) (R : C -> D -> Prop) f g l L : Forall2 R l L -> (forall a b c d, Q a b -> R c d -> simr Q (f a c) (g b d)) ->
  forall a b, Q a b -> simr Q (mfold f l a) (mfold g L b).
Proof.
  intros H F. induction H; cbn [mfold]; intros a b Hab; [apply simr_Ok; auto|]. apply simr_bind with (R := Q); auto.
Qed.
Lemma simr_mfold_eq {A B C} (Q : A -> B -> Prop) f g (l : list C) : (forall a b c, Q a b -> simr Q (f a c) (g b c)) ->
  forall a b, Q a b -> simr Q (mfold f l a) (mfold g l b).
Proof. intros F. apply (simr_mfold Q (fun c d => c = d)); [induction l; constructor; auto|]. intros a b c d H <-. auto. Qed.
Lemma simr_impl {A B} (R Q : A -> B -> Prop) x y : simr R x y -> (forall a b, R a b -> Q a b) -> simr Q x y.
Proof. intros H F. destruct y; cbn [simr] in *; auto. destruct H as (a0 & -> & H). eauto. Qed.
Lemma simr_refl {A} (x : res A) : simr eq x x.
Proof. destruct x; cbn; eauto. Qed.
Lemma simr_inv {A B} (R : A -> B -> Prop) x y a : simr R x y -> x = Ok a -> exists b, y = Ok b /\ R a b.
Proof. intros H ->. destruct y; cbn [simr] in H; try discriminate. destruct H as (? & [= <-] & H). eauto. Qed.
Lemma simr_ok {A B} (R : A -> B -> Prop) x y b : simr R x y -> y = Ok b -> exists a, x = Ok a /\ R a b.
Proof. intros H ->. exact H. Qed.

(** ** one row *)
Definition rowok (r : srow) (l : smap) : Prop := exists xp xv,
  pm r = Some (Z.of_nat (length l)) :: map (fun q => Some (fst q)) l ++ xp /\ vm r = map (fun q => Some (snd q)) l ++ xv.
Lemma rdm_nth m i x : nth_error m i = Some (Some x) -> rdm m i = Ok x.
Proof. unfold rdm. intros ->. reflexivity. Qed.
Lemma rcount_ok r l : rowok r l -> rcount r = Ok (Z.of_nat (length l)).
Proof. intros (xp & xv & H & _). unfold rcount, rdm. rewrite H. reflexivity. Qed.
Lemma rd_ok l : forall off r p0 v0 xp xv, pm r = p0 ++ map (fun q => Some (fst q)) l ++ xp -> vm r = v0 ++ map (fun q => Some (snd q)) l ++ xv -> length p0 = (off + 1)%nat -> length v0 = off ->
  rd (length l) off r = Ok l.
Proof.
  induction l as [|(k, x) l IH]; intros off r p0 v0 xp xv Hp Hv Lp Lv; cbn [length rd]; auto.
  rewrite (rdm_nth (pm r) (off + 1) k) by (rewrite Hp, nth_error_app2 by lia; rewrite Lp, Nat.sub_diag; reflexivity). rewrite bind_Ok.
  rewrite (rdm_nth (vm r) off x) by (rewrite Hv, nth_error_app2 by lia; rewrite Lv, Nat.sub_diag; reflexivity). rewrite bind_Ok.
  rewrite (IH (off + 1)%nat r (p0 ++ [Some k]) (v0 ++ [Some x]) xp xv); [reflexivity|rewrite Hp; cbn [map fst]; rewrite <- app_assoc; reflexivity|rewrite Hv; cbn [map snd]; rewrite <- app_assoc; reflexivity|rewrite app_length; cbn [length]; lia|rewrite app_length; cbn [length]; lia].
Qed.
Lemma rread_ok r l : rowok r l -> rread r = Ok l.
Proof.
  intros H. unfold rread. rewrite (rcount_ok r l H), bind_Ok. destruct (Z.ltb_spec (Z.of_nat (length l)) 0); [lia|]. rewrite Nat2Z.id.
  destruct H as (xp & xv & Hp & Hv). eapply (rd_ok l 0 r [Some (Z.of_nat (length l))] [] xp xv); auto.
Qed.
Lemma put_app {A} (a b : list A) x y : put (a ++ x :: b) (length a) [y] = Ok (a ++ y :: b).
Proof.
  unfold put. rewrite app_length. cbn [length]. destruct (Nat.leb_spec (length a + 1) (length a + Datatypes.S (length b))); [|lia].
  f_equal. rewrite firstn_app, Nat.sub_diag, firstn_all, app_nil_r. cbn [firstn]. f_equal. cbn [app]. f_equal.
  rewrite skipn_app. rewrite skipn_all2 by lia. replace (length a + 1 - length a)%nat with 1%nat by lia. reflexivity.
Qed.
Lemma put_fail {A} (a : list A) n y : (length a <= n)%nat -> put a n [y] = UB.
Proof. intros H. unfold put. cbn [length]. destruct (Nat.leb_spec (n + 1) (length a)); [lia|reflexivity]. Qed.
Lemma wr_ok l : forall po vo r p0 p1 v0 v1, pm r = p0 ++ p1 -> vm r = v0 ++ v1 -> length p0 = po -> length v0 = vo -> (length l <= length p1)%nat -> (length l <= length v1)%nat ->
  wr po vo l r = Ok (Rw (p0 ++ map (fun q => Some (fst q)) l ++ skipn (length l) p1) (v0 ++ map (fun q => Some (snd q)) l ++ skipn (length l) v1)).
Proof.
  induction l as [|(k, x) l IH]; intros po vo r p0 p1 v0 v1 Hp Hv Lp Lv L1 L2; cbn [wr length].
  - cbn [map app skipn]. rewrite <- Hp, <- Hv. destruct r; reflexivity.
  - cbn [length] in L1, L2. destruct p1 as [|a p1]; [cbn [length] in L1; lia|]. destruct v1 as [|b v1]; [cbn [length] in L2; lia|].
    rewrite Hp, <- Lp, put_app, bind_Ok. rewrite Hv, <- Lv, put_app, bind_Ok.
    rewrite (IH (length p0 + 1)%nat (length v0 + 1)%nat _ (p0 ++ [Some k]) p1 (v0 ++ [Some x]) v1); cbn [pm vm]; try (rewrite <- app_assoc; reflexivity); try (rewrite app_length; cbn [length]; lia); try (cbn [length] in *; lia).
    cbn [map fst snd skipn]. rewrite <- !app_assoc. reflexivity.
Qed.
(** what is written to new or to sufficiently large arrays *)
Lemma wr_row l r c : (exists p v, pm r = Some c :: p /\ vm r = v /\ (length l <= length p)%nat /\ (length l <= length v)%nat) ->
  exists r' xp xv, wr 1 0 l r = Ok r' /\ pm r' = Some c :: map (fun q => Some (fst q)) l ++ xp /\ vm r' = map (fun q => Some (snd q)) l ++ xv.
Proof.
  intros (p & v & Hp & Hv & L1 & L2). rewrite (wr_ok l 1 0 r [Some c] p [] v); auto. eexists _, _, _. split; [reflexivity|]. cbn [pm vm app]. auto.
Qed.
Lemma wr_row' l r : (exists a p v, pm r = a :: p /\ vm r = v /\ (length l <= length p)%nat /\ (length l <= length v)%nat) ->
  exists r' a xp xv, wr 1 0 l r = Ok r' /\ pm r' = a :: map (fun q => Some (fst q)) l ++ xp /\ vm r' = map (fun q => Some (snd q)) l ++ xv.
Proof.
  intros (a & p & v & Hp & Hv & L1 & L2). rewrite (wr_ok l 1 0 r [a] p [] v); auto. eexists _, _, _, _. split; [reflexivity|]. cbn [pm vm app]. eauto.
Qed.
Lemma rset0_ok r a p n : pm r = a :: p -> rset0 r n = Ok (Rw (Some n :: p) (vm r)).
Proof. intros H. unfold rset0. rewrite H. change (a :: p) with ([] ++ a :: p). change 0%nat with (@length (option Z) []) at 1. rewrite put_app, bind_Ok. reflexivity. Qed.
Lemma rnew_ok c l : (length l <= c)%nat -> exists r, rnew c l = Ok r /\ rowok r l.
Proof.
  intros H. unfold rnew, fresh. destruct (wr_row' l (Rw (repeat None (c + 1)) (repeat None c))) as (r' & a & xp & xv & E & Hp & Hv).
  { rewrite Nat.add_1_r. cbn [pm vm repeat]. eexists _, _, _. split; [reflexivity|]. split; [reflexivity|]. rewrite repeat_length. auto. }
  rewrite E, bind_Ok. rewrite (rset0_ok _ _ _ _ Hp). eexists; split; [reflexivity|]. exists xp, xv. cbn [pm vm]. auto.
Qed.
Lemma rnew_sim c l : (length l <= c)%nat -> simr rowok (rnew c l) (Ok l).
Proof. intros H. destruct (rnew_ok c l H) as (r & -> & Q). apply simr_Ok, Q. Qed.
Lemma rread_sim r l : rowok r l -> simr eq (rread r) (Ok l).
Proof. intros H. rewrite (rread_ok r l H). apply simr_Ok. reflexivity. Qed.
Lemma rcopy_sim r l : rowok r l -> simr rowok (rcopy r) (Ok l).
Proof. intros H. unfold rcopy. rewrite (rread_ok r l H), bind_Ok. apply rnew_sim. auto. Qed.
Lemma row0_ok : rowok row0 [].
Proof. exists [Some 0], [Some 0]. split; reflexivity. Qed.
Lemma nonzeros_len l : (length (nonzeros l) <= length l)%nat.
Proof. unfold nonzeros. induction l as [|(k, x) l IH]; cbn [filter length]; auto. destruct (negb _); cbn [length]; lia. Qed.
Lemma rset_sim r l0 l : rowok r l0 -> simr rowok (rset r (length l) l) (Ok (nonzeros l)).
Proof.
  intros H. unfold rset. rewrite (rcount_ok r l0 H), bind_Ok. pose proof (nonzeros_len l) as NL. destruct H as (xp & xv & Hp & Hv).
  destruct (wr_row' (nonzeros l) (if Z.of_nat (length l0) =? Z.of_nat (length l) then r else fresh (length l + 1) (length l))) as (r' & a & xp' & xv' & E & Hp' & Hv').
  { destruct (Z.eqb_spec (Z.of_nat (length l0)) (Z.of_nat (length l))).
    - rewrite Hp, Hv. eexists _, _, _. split; [reflexivity|]. split; [reflexivity|]. rewrite !app_length, !map_length. lia.
    - unfold fresh. rewrite Nat.add_1_r. cbn [pm vm repeat]. eexists _, _, _. split; [reflexivity|]. split; [reflexivity|]. rewrite repeat_length. lia. }
  rewrite E, bind_Ok. rewrite (rset0_ok _ _ _ _ Hp'). apply simr_Ok. exists xp', xv'. auto.
Qed.
Lemma rsetsvec_sim r l0 l : rowok r l0 -> simr rowok (rsetsvec r l) (Ok l).
Proof.
  intros H. unfold rsetsvec. rewrite (rcount_ok r l0 H), bind_Ok. destruct H as (xp & xv & Hp & Hv).
  destruct (Z.eqb_spec (Z.of_nat (length l0)) (Z.of_nat (length l))) as [e|n].
  - rewrite bind_Ok. destruct (wr_row l r (Z.of_nat (length l0))) as (r' & xp' & xv' & E & Hp' & Hv').
    { eexists _, _. split; [exact Hp|]. split; [exact Hv|]. rewrite !app_length, !map_length. lia. }
    rewrite E. apply simr_Ok. exists xp', xv'. rewrite Hp', e. auto.
  - unfold fresh. rewrite Nat.add_1_r. cbn [repeat]. rewrite (rset0_ok _ None (repeat None (length l))) by reflexivity. rewrite bind_Ok. cbn [vm].
    destruct (wr_row l (Rw (Some (Z.of_nat (length l)) :: repeat None (length l)) (repeat None (length l))) (Z.of_nat (length l))) as (r' & xp' & xv' & E & Hp' & Hv').
    { eexists _, _. split; [reflexivity|]. split; [reflexivity|]. cbn [pm vm]. rewrite repeat_length. lia. }
    rewrite E. apply simr_Ok. exists xp', xv'. auto.
Qed.
Lemma rassign_sim r s l0 l : rowok r l0 -> rowok s l -> simr rowok (rassign r s) (Ok l).
Proof.
  intros H Hs. unfold rassign. rewrite (rread_ok s l Hs), bind_Ok. rewrite (rcount_ok r l0 H), bind_Ok. destruct H as (xp & xv & Hp & Hv).
  destruct (Z.eqb_spec (Z.of_nat (length l0)) (Z.of_nat (length l))) as [e|n].
  - rewrite bind_Ok. rewrite (rset0_ok _ _ _ _ Hp), bind_Ok.
    destruct (wr_row l (Rw (Some (Z.of_nat (length l)) :: map (fun q => Some (fst q)) l0 ++ xp) (vm r)) (Z.of_nat (length l))) as (r' & xp' & xv' & E & Hp' & Hv').
    { eexists _, _. split; [reflexivity|]. split; [exact Hv|]. cbn [pm vm]. rewrite !app_length, !map_length. lia. }
    rewrite E. apply simr_Ok. exists xp', xv'. auto.
  - unfold fresh. rewrite Nat.add_1_r. cbn [repeat]. rewrite (rset0_ok _ None (repeat None (length l))) by reflexivity. rewrite bind_Ok. cbn [vm].
    rewrite (rset0_ok _ (Some (Z.of_nat (length l))) (repeat None (length l))) by reflexivity. rewrite bind_Ok. cbn [vm].
    destruct (wr_row l (Rw (Some (Z.of_nat (length l)) :: repeat None (length l)) (repeat None (length l))) (Z.of_nat (length l))) as (r' & xp' & xv' & E & Hp' & Hv').
    { eexists _, _. split; [reflexivity|]. split; [reflexivity|]. cbn [pm vm]. rewrite repeat_length. lia. }
    rewrite E. apply simr_Ok. exists xp', xv'. auto.
Qed.
Lemma mmap_len {A B} (f : A -> res B) l l' : mmap f l = Ok l' -> length l' = length l.
Proof.
  revert l'. induction l as [|a l IH]; cbn [mmap]; intros l' H; [injection H as <-; auto|]. inv H. inv H. injection H as <-. cbn [length]. f_equal. auto.
Qed.
Lemma rmap_sim f r l : rowok r l -> simr rowok (rmap f r) (smap_map f l).
Proof.
  intros H. unfold rmap. rewrite (rread_ok r l H), bind_Ok. unfold smap_map. destruct (mmap _ l) as [l'| | |] eqn:E; cbn [bind simr]; auto.
  pose proof (mmap_len _ _ _ E) as L. destruct H as (xp & xv & Hp & Hv).
  assert (K : map fst l' = map fst l).
  { clear -E. revert l' E. induction l as [|(k, x) l IH]; cbn [mmap]; intros l' E; [injection E as <-; auto|]. inv E. inv E0. injection E0 as <-. inv E. injection E as <-. cbn [map fst]. f_equal. auto. }
  rewrite Hv. unfold put. rewrite map_length, app_length, map_length. destruct (Nat.leb_spec (0 + length l') (length l + length xv)); [|lia]. cbn [bind firstn app]. eexists; split; [reflexivity|].
  exists xp, xv. cbn [pm vm]. split.
  - rewrite Hp, L. f_equal. f_equal. rewrite <- !(map_map fst Some). congruence.
  - f_equal; [apply map_ext; intros (?, ?); reflexivity|]. rewrite skipn_app, skipn_all2 by (rewrite map_length; lia). rewrite map_length. replace (0 + length l' - length l)%nat with 0%nat by lia. reflexivity.
Qed.
Section Rows.
Variable S : scal.
Lemma rmerge_len g h n : forall l1 l2 l, rmerge g h n l1 l2 = Ok l -> (length l <= length l1 + length l2)%nat.
Proof.
  induction n; cbn [rmerge]; [discriminate|]. intros [|(k1, x1) t1] [|(k2, x2) t2] l H; try (injection H as <-; cbn [length]; lia).
  - apply mmap_len in H. rewrite H. cbn [length]. lia.
  - destruct (k1 <? k2).
    + inv H. injection H as <-. apply IHn in E. cbn [length] in *. lia.
    + destruct (k2 <? k1).
      * inv H. inv H. injection H as <-. apply IHn in E0. cbn [length] in *. lia.
      * inv H. inv H. injection H as <-. apply IHn in E0. destruct (_ =? _); cbn [length] in *; lia.
Qed.
Lemma radd_sim g h r1 r2 l1 l2 : rowok r1 l1 -> rowok r2 l2 -> simr rowok (radd g h r1 r2) (rmerge g h (Datatypes.S (length l1 + length l2)) l1 l2).
Proof.
  intros H1 H2. unfold radd. rewrite (rread_ok r1 l1 H1), bind_Ok, (rread_ok r2 l2 H2), bind_Ok.
  destruct (rmerge _ _ _ l1 l2) as [l| | |] eqn:E; cbn [bind simr]; auto. apply rmerge_len in E. apply rnew_ok, E.
Qed.
Lemma rdiag_len k a l l' : rdiag S k a l = Ok l' -> (length l' <= length l + 1)%nat.
Proof.
  revert l'. induction l as [|(k', x) t IH]; cbn [rdiag]; intros l' H; [injection H as <-; cbn [length]; lia|].
  destruct (_ <? _).
  - inv H. injection H as <-. apply IH in E. cbn [length]. lia.
  - destruct (_ =? _).
    + inv H. injection H as <-. destruct (_ =? _); cbn [length]; lia.
    + injection H as <-. cbn [length]. lia.
Qed.
End Rows.
