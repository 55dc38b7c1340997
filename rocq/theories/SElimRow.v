(** Rows of SElimModel: values modulo p, search, addition, normalisation. *)
From Coq Require Import ZArith Znumtheory Lia List Bool.
From Verif Require Import Base ArithModel RatModel MArithModel LinModel LinSpec LinProofs LinAlg SvecModel SmatModel OrdModel OrdSpec OrdProofs OrdMore SElimModel.
Import ListNotations.
Open Scope Z_scope.
Open Scope res_scope.

(** what the scalar operations must do on the values V *)
Record emod (E : esc) (p : Z) (V : Z -> Prop) : Prop := {
  em_prime : prime p;
  em_1 : V 1;
  em_xmm : forall a b, V a -> V b -> exists r, xmm E p a b = Ok r /\ V r /\ cong p r (a * b);
  em_add : forall a b, V a -> V b -> ~ cong p a 0 -> ~ cong p b 0 -> exists r, addmod E p a b = Ok r /\ V r /\ cong p r (a + b) /\ (cong p r 0 -> r = 0);
  em_inv : forall a, V a -> ~ cong p a 0 -> exists x, e_inv E a p = Ok x /\ V x /\ cong p (a * x) 1;
  em_v2 : forall x, V x -> exists r, bind (s_sub (e_sc E) p x) (fun t => s_mod (e_sc E) t p) = Ok r /\ V r /\ cong p r (- x);
  em_neg : forall x, V x -> s_neg (e_sc E) x = Ok (- x) /\ V (- x);
  em_mod : forall x, V x -> exists r, s_mod (e_sc E) x p = Ok r /\ cong p r x /\ cent p r
}.

Lemma zget_nth {A} (d : A) l i : 0 <= i < zlen l -> zget l i = Ok (nth (Z.to_nat i) l d).
Proof.
  unfold zlen, zget, deref. intros H. destruct (Z.ltb_spec i 0); [lia|]. rewrite (nth_error_nth' l d) by lia. reflexivity.
Qed.
Lemma zget_nat {A} (d : A) l i : (i < length l)%nat -> zget l (Z.of_nat i) = Ok (nth i l d).
Proof. intros H. rewrite (zget_nth d) by (unfold zlen; lia). rewrite Nat2Z.id. reflexivity. Qed.
Fixpoint upd {A} (l : list A) (i : nat) (x : A) : list A :=
  match l, i with [], _ => [] | _ :: l, O => x :: l | y :: l, S i => y :: upd l i x end.
Lemma upd_len {A} (l : list A) i x : length (upd l i x) = length l.
Proof. revert i. induction l as [|y l IH]; intros [|i]; cbn; auto. Qed.
Lemma upd_same {A} (d : A) l i x : (i < length l)%nat -> nth i (upd l i x) d = x.
Proof. revert i. induction l as [|y l IH]; intros [|i] H; cbn in *; try lia; auto. apply IH. lia. Qed.
Lemma upd_other {A} (d : A) l i j x : i <> j -> nth j (upd l i x) d = nth j l d.
Proof. revert i j. induction l as [|y l IH]; intros [|i] [|j] H; cbn; auto; congruence. Qed.
Lemma upd_put {A} (l : list A) i x : (i < length l)%nat -> put l i [x] = Ok (upd l i x).
Proof.
  intros H. unfold put. cbn [length]. destruct (Nat.leb_spec (i + 1) (length l)); [|lia]. f_equal. revert i H H0. induction l as [|y l IH]; intros [|i] H H0; cbn [length] in *; try lia; cbn [firstn app upd].
  - reflexivity.
  - f_equal. replace (S i + 1)%nat with (S (i + 1)) by lia. cbn [skipn]. apply IH; lia.
Qed.
Lemma zset_upd {A} (l : list A) i x : 0 <= i < zlen l -> zset l i x = Ok (upd l (Z.to_nat i) x).
Proof. unfold zset, zlen. intros H. destruct (Z.ltb_spec i 0); [lia|]. apply upd_put. lia. Qed.
Lemma zset_nat {A} (l : list A) i x : (i < length l)%nat -> zset l (Z.of_nat i) x = Ok (upd l i x).
Proof. intros H. rewrite zset_upd by (unfold zlen; lia). rewrite Nat2Z.id. reflexivity. Qed.

Definition keys (l : smap) : list Z := map fst l.
Section Row.
Variables (E : esc) (p : Z) (V : Z -> Prop) (nc : nat).
Hypothesis M : emod E p V.
Let P : prime p := em_prime _ _ _ M.
Definition wfrow (l : smap) : Prop := incr (keys l) /\ forall k x, In (k, x) l -> 1 <= k <= Z.of_nat nc /\ V x /\ ~ cong p x 0.

Lemma lookup_notin l k : incr (keys l) -> ~ In k (keys l) -> lookup l k = 0.
Proof.
  induction l as [|(k', x) l IH]; cbn; intros I H; auto. destruct I as (I1 & I2). destruct (Z.ltb_spec k' k); [apply IH; auto|]. destruct (Z.eqb_spec k' k); [exfalso; auto|auto].
Qed.
Lemma lookup_in l k x : incr (keys l) -> In (k, x) l -> lookup l k = x.
Proof.
  induction l as [|(k', y) l IH]; cbn; intros I H; [destruct H|]. destruct I as (I1 & I2). destruct H as [H|H].
  - injection H as -> ->. rewrite Z.ltb_irrefl, Z.eqb_refl. reflexivity.
  - assert (k' < k) by (apply I1, in_map_iff; exists (k, x); auto). destruct (Z.ltb_spec k' k); [auto|lia].
Qed.
Lemma in_keys l k : In k (keys l) <-> exists x, In (k, x) l.
Proof. unfold keys. rewrite in_map_iff. split; [intros ((k', x) & <- & H); exists x; auto|intros (x & H); exists (k, x); auto]. Qed.
Lemma has_iff l k : wfrow l -> (In k (keys l) <-> ~ cong p (lookup l k) 0).
Proof.
  intros (I & W). split.
  - intros H. apply in_keys in H. destruct H as (x & H). rewrite (lookup_in l k x I H). apply (W k x H).
  - intros H. destruct (in_dec Z.eq_dec k (keys l)) as [|N]; auto. exfalso. apply H. rewrite lookup_notin by auto. apply cong_refl.
Qed.
Lemma hasnt_iff l k : wfrow l -> (~ In k (keys l) <-> cong p (lookup l k) 0).
Proof.
  intros W. rewrite (has_iff l k W). destruct (Zdivide_dec p (lookup l k - 0)) as [D|D]; fold (cong p (lookup l k) 0) in D; tauto.
Qed.
Lemma key_range l k : wfrow l -> In k (keys l) -> 1 <= k <= Z.of_nat nc.
Proof. intros (I & W) H. apply in_keys in H. destruct H as (x & H). apply (W k x H). Qed.
Lemma wfrow_nil : wfrow [].
Proof. split; [exact Logic.I|]. intros k x []. Qed.
Lemma wfrow_tl a l : wfrow (a :: l) -> wfrow l.
Proof. destruct a as (k, x). intros ((I1 & I2) & W). split; auto. intros; apply W; right; auto. Qed.
Lemma lookup_V l k : wfrow l -> In k (keys l) -> V (lookup l k).
Proof. intros (I & W) H. apply in_keys in H. destruct H as (x & H). rewrite (lookup_in l k x I H). apply (W k x H). Qed.
Lemma lookup_cons k' x l k : incr (keys ((k', x) :: l)) -> lookup ((k', x) :: l) k = if k' =? k then x else lookup l k.
Proof.
  intros (I1 & I2). cbn. destruct (Z.eqb_spec k' k) as [->|N].
  - rewrite Z.ltb_irrefl. reflexivity.
  - destruct (Z.ltb_spec k' k); auto. symmetry. apply lookup_notin; auto. intros H'. apply I1 in H'. cbn in H'. lia.
Qed.
(** find *)
Lemma rfind_loop_eq n ks x : forall lb ub, rfind_loop n ks x lb ub = ofind_loop n (Ol (map Some ks) (length ks) 0) x lb ub.
Proof.
  assert (G : forall i, zget ks i = oget (Ol (map Some ks) (length ks) 0) i).
  { intros i. unfold zget, oget, rdm, deref. cbn [oarr]. destruct (i <? 0); auto. rewrite nth_error_map. destruct (nth_error ks (Z.to_nat i)); reflexivity. }
  induction n as [|n IH]; intros lb ub; cbn [rfind_loop ofind_loop]; auto. rewrite G. destruct (oget _ lb); cbn [bind]; auto. destruct (_ <? _); auto. rewrite G. destruct (oget _ _); cbn [bind]; auto. destruct (_ <? _); auto.
Qed.
Lemma rfind_ok l k : incr (keys l) -> In k (keys l) -> exists i, rfind l k = Ok (Z.of_nat i) /\ (i < length l)%nat /\ nth i (keys l) 0 = k.
Proof.
  intros I H. unfold rfind. fold (keys l). set (ks := keys l) in *. assert (Lk : length ks = length l) by apply map_length. unfold zlen.
  assert (P0 : (0 < length ks)%nat) by (destruct ks; [destruct H|cbn; lia]). set (o := Ol (map Some ks) (length ks) 0).
  assert (Ho : holds o ks) by (split; [auto|]; split; [reflexivity|]; cbn [oarr o]; rewrite firstn_all2 by (rewrite map_length; lia); reflexivity).
  pose proof (holds_cells _ _ Ho) as (Hc & Lc).
  assert (Em : nth (length l - 1) ks 0 <? k = false).
  { apply Z.ltb_ge. apply (In_nth _ _ 0) in H. destruct H as (j & Hj & <-). destruct (Nat.eq_dec j (length l - 1)) as [->|]; [lia|]. apply Z.lt_le_incl. apply incr_nth; auto. lia. }
  rewrite (zget_nth 0) by (unfold zlen; lia). cbn [bind]. replace (Z.to_nat (Z.of_nat (length l) - 1)) with (length l - 1)%nat by lia. rewrite Em.
  rewrite rfind_loop_eq. destruct (ofind_loop_ok o ks k 0 (length ks) I Hc ltac:(lia) (length ks + 1) 0 (Z.of_nat (length l) - 1)) as (i & Ei & R); try lia.
  { apply Z.ltb_ge in Em. replace (Z.to_nat (Z.of_nat (length l) - 1)) with (length l - 1)%nat by lia. exact Em. }
  fold o. rewrite Ei.
  cbn beta in R. destruct R as (R1 & R2 & R3). exists (Z.to_nat i). rewrite Z2Nat.id by lia. split; auto.
  pose proof (proj1 (found_iff ks k (Z.to_nat i) I ltac:(lia) ltac:(intros j Hj; apply R2; lia) ltac:(intros j Hj; apply R3; lia)) H). lia.
Qed.
Lemma rlocate_ok l k : incr (keys l) -> In k (keys l) -> exists i, rlocate l k = Ok (Z.of_nat i, lookup l k) /\ (i < length l)%nat /\ nth i (keys l) 0 = k.
Proof.
  intros I H. destruct (rfind_ok l k I H) as (i & Ei & Li & Hk). unfold rlocate. rewrite Ei. cbn [bind]. rewrite (zget_nat (0, 0)) by auto. cbn [bind].
  assert (In (nth i l (0, 0)) l) by (apply nth_In; auto). destruct (nth i l (0, 0)) as (k', v) eqn:En. unfold keys in Hk. change 0 with (fst (0, 0)) in Hk. rewrite map_nth, En in Hk. cbn in Hk. subst k'.
  rewrite Z.eqb_refl. exists i. rewrite (lookup_in l k v I H0). split; auto. split; auto. unfold keys. change 0 with (fst (0, 0)). rewrite map_nth, En. reflexivity.
Qed.
Lemma ncong_mul a b : ~ cong p a 0 -> ~ cong p b 0 -> ~ cong p (a * b) 0.
Proof.
  unfold cong. rewrite !Z.sub_0_r. intros A B H. apply prime_mult in H; [|exact P]. tauto.
Qed.
Lemma ncong_cong a b : cong p a b -> ~ cong p b 0 -> ~ cong p a 0.
Proof. intros H N C. apply N. apply (cong_trans p b a 0); auto. apply cong_sym; auto. Qed.
(** row2 += v2*row1 *)
Definition tagok (k2 kl : list Z) (e : Z * Z) (t : tag) : Prop :=
  match t with TIn => ~ In (fst e) k2 /\ In (fst e) kl | TOut => In (fst e) k2 /\ ~ In (fst e) kl | TSame => In (fst e) k2 /\ In (fst e) kl end.
Lemma Forall2_in {A B} (R R' : A -> B -> Prop) l m : (forall a b, In a l -> R a b -> R' a b) -> Forall2 R l m -> Forall2 R' l m.
Proof. intros H F. induction F; constructor; [apply H; [left; auto|auto]|]. apply IHF. intros; apply H; [right; auto|auto]. Qed.
Lemma key_cons (k y : Z) (l : smap) (k0 : Z) : k < k0 -> (In k0 (keys l) <-> In k0 (keys ((k, y) :: l))).
Proof. intros H. cbn. split; [auto|]. intros [->|]; auto. lia. Qed.
Lemma tagok_ext k2 kl k2' kl' e t : (In (fst e) k2 <-> In (fst e) k2') -> (In (fst e) kl <-> In (fst e) kl') -> tagok k2 kl e t -> tagok k2' kl' e t.
Proof. intros H1 H2. destruct t; cbn; tauto. Qed.
Lemma emerge_ok v2 : V v2 -> ~ cong p v2 0 -> forall n l1 l2, wfrow l1 -> wfrow l2 -> (length l1 + length l2 < n)%nat ->
  exists l tg, emerge E p n v2 l1 l2 = Ok (l, tg) /\ wfrow l /\ (forall k, cong p (lookup l k) (v2 * lookup l1 k + lookup l2 k)) /\
    (forall k, In k (keys l) -> In k (keys l1) \/ In k (keys l2)) /\ Forall2 (tagok (keys l2) (keys l)) l1 tg.
Proof.
  intros Vv Nv. induction n as [|n IH]; intros l1 l2 W1 W2 Hn; [lia|]. cbn [emerge].
  destruct l1 as [|(k1, x1) t1].
  { exists l2, []. split; [destruct l2; reflexivity|]. split; [exact W2|]. split; [intros k; apply cong_eq; cbn; lia|]. split; [auto|constructor]. }
  pose proof (wfrow_tl _ _ W1) as WT1. pose proof W1 as (I1 & F1). destruct (F1 k1 x1 (or_introl eq_refl)) as (K1 & V1 & N1). pose proof I1 as (I1a & I1b). cbn [map fst] in I1a.
  destruct (em_xmm _ _ _ M v2 x1 Vv V1) as (y & Ey & Vy & Cy). assert (Ny : ~ cong p y 0) by (eapply ncong_cong; [exact Cy|apply ncong_mul; auto]).
  destruct l2 as [|(k2, x2) t2].
  - rewrite Ey. cbn [bind]. destruct (IH t1 [] WT1 W2 ltac:(cbn in *; lia)) as (l & tg & -> & Wl & Cl & Kl & Tl). cbn [bind]. exists ((k1, y) :: l), (TIn :: tg). split; [reflexivity|].
    assert (Ik : incr (keys ((k1, y) :: l))). { split; [|apply Wl]. intros z Hz. apply Kl in Hz. destruct Hz as [Hz|[]]. apply I1a, Hz. }
    split; [|split; [|split]].
    + split; auto. intros k x [H|H]; [injection H as <- <-; auto|apply Wl, H].
    + intros k. rewrite !lookup_cons by auto. cbn [lookup]. specialize (Cl k). cbn [lookup] in Cl. destruct (k1 =? k); [|exact Cl]. rewrite Z.add_0_r. exact Cy.
    + intros k [<-|H]; [left; left; reflexivity|]. apply Kl in H. destruct H; [left; right; auto|right; auto].
    + constructor; [cbn; tauto|]. eapply Forall2_in; [|exact Tl]. intros e t He. apply tagok_ext; [tauto|]. apply key_cons. apply I1a, in_map, He.
  - pose proof (wfrow_tl _ _ W2) as WT2. pose proof W2 as (I2 & F2). destruct (F2 k2 x2 (or_introl eq_refl)) as (K2 & V2 & N2). pose proof I2 as (I2a & I2b). cbn [map fst] in I2a.
    destruct (Z.ltb_spec k1 k2) as [L12|L12]; [|destruct (Z.ltb_spec k2 k1) as [L21|L21]].
    + rewrite Ey. cbn [bind]. destruct (IH t1 ((k2, x2) :: t2) WT1 W2 ltac:(cbn in *; lia)) as (l & tg & -> & Wl & Cl & Kl & Tl). cbn [bind]. exists ((k1, y) :: l), (TIn :: tg). split; [reflexivity|].
      assert (Ik : incr (keys ((k1, y) :: l))). { split; [|apply Wl]. intros z Hz. apply Kl in Hz. cbn [fst]. destruct Hz as [Hz|[<-|Hz]]; [apply I1a, Hz|exact L12|apply I2a in Hz; cbn in Hz; lia]. }
      split; [|split; [|split]].
      * split; auto. intros k x [H|H]; [injection H as <- <-; auto|apply Wl, H].
      * intros k. rewrite (lookup_cons k1 y), (lookup_cons k1 x1) by auto. specialize (Cl k). destruct (Z.eqb_spec k1 k) as [<-|]; [|exact Cl].
        rewrite (lookup_notin ((k2, x2) :: t2)) by first [exact I2|intros [H|H]; [cbn in H; lia|apply I2a in H; cbn in H; lia]]. rewrite Z.add_0_r. exact Cy.
      * intros k [<-|H]; [left; left; reflexivity|]. apply Kl in H. destruct H; [left; right; auto|right; auto].
      * constructor; [cbn; split; [intros [H|H]; [lia|apply I2a in H; cbn in H; lia]|auto]|]. eapply Forall2_in; [|exact Tl]. intros e t He. apply tagok_ext; [tauto|]. apply key_cons. apply I1a, in_map, He.
    + destruct (IH ((k1, x1) :: t1) t2 W1 WT2 ltac:(cbn in *; lia)) as (l & tg & -> & Wl & Cl & Kl & Tl). cbn [bind]. exists ((k2, x2) :: l), tg. split; [reflexivity|].
      assert (Ik : incr (keys ((k2, x2) :: l))). { split; [|apply Wl]. intros z Hz. apply Kl in Hz. cbn [fst]. destruct Hz as [[<-|Hz]|Hz]; [exact L21|apply I1a in Hz; cbn in Hz; lia|apply I2a, Hz]. }
      split; [|split; [|split]].
      * split; auto. intros k x [H|H]; [injection H as <- <-; auto|apply Wl, H].
      * intros k. rewrite (lookup_cons k2 x2 l), (lookup_cons k2 x2 t2) by auto. specialize (Cl k). destruct (Z.eqb_spec k2 k) as [<-|]; [|exact Cl].
        rewrite (lookup_notin ((k1, x1) :: t1)) by first [exact I1|intros [H|H]; [cbn in H; lia|apply I1a in H; cbn in H; lia]]. apply cong_eq. lia.
      * intros k [<-|H]; [right; left; reflexivity|]. apply Kl in H. destruct H; [left; auto|right; right; auto].
      * eapply Forall2_in; [|exact Tl]. intros e t He. assert (k2 < fst e) by (destruct He as [<-|He]; [exact L21|]; assert (k1 < fst e) by (apply I1a, in_map, He); lia).
        apply tagok_ext; apply key_cons; auto.
    + assert (k1 = k2) by lia. subst k2. rewrite Ey. cbn [bind]. destruct (em_add _ _ _ M y x2 Vy V2 Ny N2) as (z & Ez & Vz & Cz & Zz). rewrite Ez. cbn [bind].
      destruct (IH t1 t2 WT1 WT2 ltac:(cbn in *; lia)) as (l & tg & -> & Wl & Cl & Kl & Tl). cbn [bind].
      assert (Lk : forall u, In u (keys l) -> k1 < u). { intros u Hu. apply Kl in Hu. destruct Hu as [Hu|Hu]; [apply I1a, Hu|apply I2a, Hu]. }
      assert (Cz' : cong p z (v2 * x1 + x2)) by (eapply cong_trans; [exact Cz|apply cong_add; [exact Cy|apply cong_refl]]).
      destruct (Z.eqb_spec z 0) as [Z0|Z0].
      * exists l, (TOut :: tg). split; [reflexivity|]. split; [exact Wl|]. split; [|split].
        -- intros k. rewrite (lookup_cons k1 x1), (lookup_cons k1 x2) by auto. destruct (Z.eqb_spec k1 k) as [<-|]; [|apply Cl]. rewrite lookup_notin by first [apply Wl|intros H; apply Lk in H; lia]. rewrite <- Z0. exact Cz'.
        -- intros k H. apply Kl in H. destruct H; [left|right]; right; auto.
        -- constructor; [cbn; split; [auto|intros H; apply Lk in H; lia]|]. eapply Forall2_in; [|exact Tl]. intros e t He. apply tagok_ext; [apply key_cons, I1a, in_map, He|tauto].
      * exists ((k1, z) :: l), (TSame :: tg). split; [reflexivity|]. assert (Ik : incr (keys ((k1, z) :: l))) by (split; [exact Lk|apply Wl]). split; [|split; [|split]].
        -- split; auto. intros k x [H|H]; [injection H as <- <-; split; [auto|]; split; [auto|]; intros H; apply Z0, Zz, H|apply Wl, H].
        -- intros k. rewrite (lookup_cons k1 z), (lookup_cons k1 x1), (lookup_cons k1 x2) by auto. destruct (Z.eqb_spec k1 k) as [<-|]; [exact Cz'|apply Cl].
        -- intros k [<-|H]; [left; left; reflexivity|]. apply Kl in H. destruct H; [left|right]; right; auto.
        -- constructor; [cbn; auto|]. eapply Forall2_in; [|exact Tl]. intros e t He. apply tagok_ext; apply key_cons, I1a, in_map, He.
Qed.
(** row2 += v2*row1 with v2 = minus the entry of row2 in column c, where row1 has 1 *)
Definition merged (l1 : smap) (c : Z) (l2 l : smap) : Prop := wfrow l /\ forall k, cong p (lookup l k) (lookup l2 k - lookup l2 c * lookup l1 k).
Lemma rowadd_ok v2 l1 l2 : V v2 -> ~ cong p v2 0 -> wfrow l1 -> wfrow l2 -> exists l tg, rowadd E p v2 l1 l2 = Ok (l, tg) /\ wfrow l /\
  (forall k, cong p (lookup l k) (v2 * lookup l1 k + lookup l2 k)) /\ Forall2 (tagok (keys l2) (keys l)) l1 tg.
Proof.
  intros Vv Nv W1 W2. unfold rowadd. destruct (emerge_ok v2 Vv Nv (length l1 + length l2 + 1) l1 l2 W1 W2 ltac:(lia)) as (l & tg & H1 & H2 & H3 & _ & H5). exists l, tg. auto.
Qed.
(** a row with all values multiplied by inv *)
Lemma scale_ok inv l : V inv -> ~ cong p inv 0 -> wfrow l -> exists l', mmap (fun '(k, y) => bind (xmm E p y inv) (fun z => Ok (k, z))) l = Ok l' /\ wfrow l' /\ keys l' = keys l /\ forall k, cong p (lookup l' k) (inv * lookup l k).
Proof.
  intros Vi Ni. induction l as [|(k, y) l IH]; intros W; cbn [mmap].
  - exists []. split; auto. split; [apply wfrow_nil|]. split; auto. intros k. apply cong_eq. cbn. lia.
  - pose proof W as (I & F). destruct (F k y (or_introl eq_refl)) as (K & Vy & Ny). destruct (em_xmm _ _ _ M y inv Vy Vi) as (z & Ez & Vz & Cz). rewrite Ez. cbn [bind].
    destruct (IH (wfrow_tl _ _ W)) as (l' & -> & W' & K' & C'). cbn [bind]. exists ((k, z) :: l'). split; auto. assert (KE : keys ((k, z) :: l') = keys ((k, y) :: l)) by (cbn; f_equal; exact K').
    assert (I' : incr (keys ((k, z) :: l'))) by (rewrite KE; exact I). split; [|split; [exact KE|]].
    + split; auto. intros k0 x [H|H]; [injection H as <- <-; split; [auto|]; split; [auto|]; eapply ncong_cong; [exact Cz|]; apply ncong_mul; auto|apply W', H].
    + intros k0. rewrite (lookup_cons k z), (lookup_cons k y) by auto. destruct (k =? k0); [|apply C']. rewrite (Z.mul_comm inv). exact Cz.
Qed.
(** deleting an entry *)
Lemma drop_ok l i : wfrow l -> (i < length l)%nat -> wfrow (drop_at l i) /\ length (drop_at l i) = (length l - 1)%nat /\ (forall k, lookup (drop_at l i) k = if nth i (keys l) 0 =? k then 0 else lookup l k).
Proof.
  revert i. induction l as [|(k, y) l IH]; intros i W Hi; [cbn in Hi; lia|]. destruct i as [|i].
  - unfold drop_at. cbn [firstn skipn app keys map nth Nat.add fst]. pose proof (wfrow_tl _ _ W) as W'. split; [exact W'|]. split; [cbn; lia|]. intros k0. rewrite (lookup_cons k y) by apply W. cbn [fst]. destruct (Z.eqb_spec k k0) as [<-|]; auto.
    apply lookup_notin; [apply W'|]. destruct W as ((I1 & _) & _). intros H. apply I1 in H. cbn in H. lia.
  - destruct (IH i (wfrow_tl _ _ W) ltac:(cbn in Hi; lia)) as (W' & L' & K'). unfold drop_at in *. replace (S i + 1)%nat with (S (i + 1)) by lia. cbn [firstn skipn app]. set (t := firstn i l ++ skipn (i + 1) l) in *.
    assert (Sub : forall u, In u t -> In u l). { intros u Hu. unfold t in Hu. apply in_app_or in Hu. destruct Hu as [Hu|Hu]; [rewrite <- (firstn_skipn i l)|rewrite <- (firstn_skipn (i + 1) l)]; apply in_or_app; auto. }
    pose proof W as ((I1 & I2) & F). assert (I' : incr (keys ((k, y) :: t))). { split; [|apply W']. intros u Hu. cbn [fst]. apply in_keys in Hu. destruct Hu as (x & Hu). apply (I1 u). apply in_keys. exists x. apply Sub, Hu. }
    split; [|split].
    + split; auto. intros k0 x [H|H]; [apply F; left; auto|apply W', H].
    + cbn [length] in *. lia.
    + intros k0. rewrite (lookup_cons k y t), (lookup_cons k y l) by (auto; apply W). cbn [keys map nth]. fold (keys l). rewrite K'. destruct (Z.eqb_spec k k0) as [<-|]; auto.
      destruct (Z.eqb_spec (nth i (keys l) 0) k) as [e|]; auto. exfalso. assert (In k (keys l)) by (rewrite <- e; apply nth_In; unfold keys; rewrite map_length; cbn in Hi; lia). apply I1 in H. cbn in H. lia.
Qed.
End Row.
