(** The loops of LLLModel: step3 and lll_reduce. *)
From Coq Require Import ZArith Lia List Bool Relation_Operators Wellfounded.
From Verif Require Import Base ArithProofs LinModel LinSpec LinProofs LLLModel LLLSpec LLLDet LLLForms LLLLoop LLLProofs LLLPos.
Import ListNotations.
Open Scope Z_scope.
Open Scope res_scope.

Section Main.
Variables n m : nat.
Variable g : list Z.
Hypothesis Hg : length g = m.
Hypothesis Gpos : forall t, (t < m)%nat -> 0 < nth t g 0.
Notation N := (minor (G m g)).
Notation D := (gdet (G m g)).
Notation rep := (rep n m g).
Notation exactd := (exact_division (@Ok Z)).
Notation elem := (elem m n).
Variable b0 : list (list Z).

(** the vectors before vector k are reduced *)
Definition red (k : nat) (lam : list (list Z)) (d : list Z) : Prop :=
  (forall i j, (j < i)%nat -> (i < k - 1)%nat -> 2 * Z.abs (le_ lam i j) <= nth (S j) d 0) /\
  (forall i, (S i < k - 1)%nat -> 3 * (nth (S i) d 0 * nth (S i) d 0) <= 4 * (nth (S (S i)) d 0 * nth i d 0 + le_ lam (S i) i * le_ lam (S i) i)).
Definition msr (kmax : nat) (d : list Z) : Z := sumn (S kmax) (fun i => nth i d 0).
Definition prog kmax (k0 : nat) (d0 : list Z) (k : nat) (d : list Z) : Prop := msr kmax d < msr kmax d0 \/ (msr kmax d = msr kmax d0 /\ k = k0).
Definition inv3 kmax k0 d0 (st : nat * list (list Z) * list (list Z) * list Z) : Prop :=
  let '(k, b, lam, d) := st in rep kmax b lam d /\ (2 <= k <= kmax)%nat /\ red k lam d /\ elem (cu b0) (cu b) /\ prog kmax k0 d0 k d.
Definition post3 kmax k0 d0 (st : nat * list (list Z) * list (list Z) * list Z) : Prop :=
  let '(k, b, lam, d) := st in rep kmax b lam d /\ (3 <= k <= S kmax)%nat /\ red k lam d /\ elem (cu b0) (cu b) /\ prog kmax (S k0) d0 k d.

Lemma msr_nonneg kmax b lam d : rep kmax b lam d -> 0 <= msr kmax d.
Proof.
  intros R. apply sumn_nonneg. intros i Hi. rewrite (r_D _ _ _ _ _ _ _ R) by lia. apply Z.lt_le_incl, (r_pos _ _ _ _ _ _ _ R). lia.
Qed.
Lemma msr_lt kmax d d' k : (k <= kmax)%nat -> (forall l, l <> k -> nth l d' 0 = nth l d 0) -> nth k d' 0 < nth k d 0 -> msr kmax d' < msr kmax d.
Proof.
  intros Hk H1 H2. unfold msr.
  rewrite (sumn_ext (S kmax) (fun i => nth i d' 0) (fun i => nth i d 0 + dlt i k * (nth k d' 0 - nth k d 0))).
  - rewrite sumn_add, (sumn_dlt (S kmax) k (fun _ => nth k d' 0 - nth k d 0)) by lia. lia.
  - intros i _. unfold dlt. destruct (Nat.eqb_spec i k) as [->|Ni]; [ring|rewrite H1 by auto; ring].
Qed.
Definition dof (st : nat * list (list Z) * list (list Z) * list Z) : list Z := snd st.
Definition rel3 kmax (s' s : nat * list (list Z) * list (list Z) * list Z) : Prop := (Z.to_nat (msr kmax (dof s')) < Z.to_nat (msr kmax (dof s)))%nat.
Lemma rel3_wf kmax : well_founded (rel3 kmax).
Proof. apply (wf_inverse_image _ nat lt (fun s => Z.to_nat (msr kmax (dof s)))). apply Wf_nat.lt_wf. Qed.

Lemma step3_ok kmax k0 d0 st : inv3 kmax k0 d0 st -> exists r, ev exactd (fun dv f => step3 dv f kmax st) r /\ post3 kmax k0 d0 r.
Proof.
  intros H. unfold step3.
  apply (while_ev exactd (fun dv _ => step3_body dv kmax) (rel3 kmax) (inv3 kmax k0 d0) (post3 kmax k0 d0)); [apply rel3_wf| |exact H].
  clear st H. intros [[[k b] lam] d] (R & Hk & Rd & El & Pg).
  destruct (redi_ok n m g Hg kmax b lam d k (k - 1) R ltac:(lia) ltac:(lia)) as (b1 & lam1 & E1 & R1 & El1 & A1 & B1 & C1).
  pose proof R1 as [Hb Hl Hd Hkn P HD HN].
  assert (Rd1 : red k lam1 d).
  { destruct Rd as (Ra & Rb). split.
    - intros i j Hj Hi. rewrite A1 by lia. auto.
    - intros i Hi. rewrite A1 by lia. auto. }
  destruct (Z.ltb_spec (4 * (nth k d 0 * nth (k - 2) d 0 + le_ lam1 (k - 1) (k - 2) * le_ lam1 (k - 1) (k - 2))) (3 * (nth (k - 1) d 0 * nth (k - 1) d 0))) as [Hlt|Hge].
  - right.
    destruct (swapi_ok n m g Hg kmax b1 lam1 d k R1 ltac:(lia)) as (b2 & lam2 & d2 & E2 & R2 & El2 & A2 & B2 & C2).
    pose proof (r_D _ _ _ _ _ _ _ R2 (k - 1)%nat ltac:(lia)) as D2. pose proof (r_pos _ _ _ _ _ _ _ R2 (k - 1)%nat ltac:(lia)) as P2.
    pose proof (HD (k - 1)%nat ltac:(lia)) as D1. pose proof (P (k - 1)%nat ltac:(lia)) as P1.
    assert (Lt : nth (k - 1) d2 0 < nth (k - 1) d 0) by nia.
    assert (M : msr kmax d2 < msr kmax d) by (apply (msr_lt kmax d d2 (k - 1)); auto; lia).
    eexists. split; [|split].
    + exists 0%nat. intros dv f Hdv _. unfold step3_body. rewrite E1, bind_Ok. rewrite !(deref_ok 0 d) by lia. rewrite !bind_Ok.
      rewrite (lget_ok n) by (auto; lia). rewrite !bind_Ok.
      rewrite (proj2 (Z.ltb_lt _ _) Hlt).
      rewrite (E2 dv Hdv), bind_Ok. reflexivity.
    + split; [exact R2|]. split; [destruct (Nat.ltb_spec (k - 1) 2); lia|]. split; [|split].
      * destruct Rd1 as (Ra & Rb). split.
        -- intros i j Hj Hi. assert (i < k - 2)%nat by (destruct (Nat.ltb_spec (k - 1) 2); lia). rewrite A2, B2 by lia. apply Ra; lia.
        -- intros i Hi. assert (S i < k - 2)%nat by (destruct (Nat.ltb_spec (k - 1) 2); lia). rewrite A2, !B2 by lia. apply Rb; lia.
      * apply (elem_trans _ _ _ (cu b)); [exact El|]. apply (elem_trans _ _ _ (cu b1)); [exact El1|exact El2].
      * left. destruct Pg as [Pg|(Pg & _)]; lia.
    + unfold rel3, dof. cbn [snd]. pose proof (msr_nonneg kmax b2 lam2 d2 R2). lia.
  - left.
    destruct (mfold_rev_seq (fun l (st : list (list Z) * list (list Z)) => let '(x, y) := st in rep kmax x y d /\ elem (cu b0) (cu x) /\
        (forall i j, (i <> k - 1)%nat -> le_ y i j = le_ lam1 i j) /\ le_ y (k - 1) (k - 2) = le_ lam1 (k - 1) (k - 2) /\
        (forall j, (l <= S j)%nat -> (j < k - 1)%nat -> 2 * Z.abs (le_ y (k - 1) j) <= nth (S j) d 0))
      (fun '(b, lam) l => redi k l b lam d) 1 (k - 2) (b1, lam1)) as ([b2 lam2] & E2 & R2 & El2 & A2 & B2 & C2).
    { split; [exact R1|]. split; [apply (elem_trans _ _ _ (cu b)); [exact El|exact El1]|]. split; [auto|]. split; [auto|].
      intros j Hj Hj'. assert (j = (k - 2)%nat) by lia. subst j. replace (k - 1 - 1)%nat with (k - 2)%nat in C1 by lia. replace (S (k - 2)) with (k - 1)%nat by lia. exact C1. }
    { intros l [x y] Hl' (Rx & Ex & Ax & Bx & Cx).
      destruct (redi_ok n m g Hg kmax x y d k l Rx ltac:(lia) ltac:(lia)) as (x' & y' & E' & R' & El' & A' & B' & C').
      exists (x', y'). split; [exact E'|]. split; [exact R'|]. split; [apply (elem_trans _ _ _ (cu x)); [exact Ex|exact El']|]. split; [|split].
      - intros i j Hi. rewrite A' by auto. auto.
      - rewrite B' by lia. exact Bx.
      - intros j Hj Hj'. destruct (Nat.eq_dec (S j) l) as [<-|Nj].
        + replace (S j - 1)%nat with j in C' by lia. exact C'.
        + rewrite B' by lia. apply Cx; lia. }
    eexists. split.
    + exists 0%nat. intros dv f Hdv _. unfold step3_body. rewrite E1, bind_Ok. rewrite !(deref_ok 0 d) by lia. rewrite !bind_Ok.
      rewrite (lget_ok n) by (auto; lia). rewrite !bind_Ok.
      rewrite (proj2 (Z.ltb_ge _ _) Hge).
      rewrite E2, bind_Ok. reflexivity.
    + split; [exact R2|]. split; [lia|]. split; [|split; [exact El2|]].
      * destruct Rd1 as (Ra & Rb). split.
        -- intros i j Hj Hi. destruct (Nat.eq_dec i (k - 1)) as [->|Ni]; [apply C2; lia|]. rewrite A2 by auto. apply Ra; lia.
        -- intros i Hi. destruct (Nat.eq_dec (S i) (k - 1)) as [Ei|Ni].
           ++ assert (i = (k - 2)%nat) by lia. subst i. rewrite Ei. replace (S (k - 1)) with k by lia. rewrite B2. lia.
           ++ rewrite A2 by auto. apply Rb; lia.
      * destruct Pg as [Pg|(Pg & ->)]; [left; lia|right; auto].
Qed.

(** ** the main loop *)
Notation state := (nat * nat * list (list Z) * list (list Z) * list Z)%type.
Definition invm (st : state) : Prop :=
  let '(k, kmax, b, lam, d) := st in rep kmax b lam d /\ (1 <= kmax)%nat /\ (2 <= k <= S kmax)%nat /\ red k lam d /\ elem (cu b0) (cu b).
Definition postm (r : list (list Z) * bool) : Prop :=
  let '(b, fl) := r in elem (cu b0) (cu b) /\ bshape n m g b /\
    if fl then exists lam d, rep n b lam d /\ red (S n) lam d else exists k, (k < n)%nat /\ pos _ (G m g) (vc b) k /\ D (vc b) (S k) = 0.
Definition key (s : state) : nat * (nat * nat) :=
  let '(k, kmax, b, lam, d) := s in ((n - kmax)%nat, (Z.to_nat (msr kmax d), (n + 1 - k)%nat)).
Definition relm (s' s : state) : Prop := slexprod nat (nat * nat) lt (slexprod nat nat lt lt) (key s') (key s).
Lemma relm_wf : well_founded relm.
Proof.
  apply (wf_inverse_image _ _ (slexprod nat (nat * nat) lt (slexprod nat nat lt lt)) key).
  apply wf_slexprod; [apply Wf_nat.lt_wf|]. apply wf_slexprod; apply Wf_nat.lt_wf.
Qed.
Lemma main_ok st : invm st -> exists r, ev exactd (fun dv f => while (main_body dv f n) f st) r /\ postm r.
Proof.
  intros H. apply (while_ev exactd (fun dv f => main_body dv f n) relm invm postm); [apply relm_wf| |exact H].
  clear st H. intros [[[[k kmax] b] lam] d] (R & Hkm & Hk & Rd & El).
  pose proof (r_k _ _ _ _ _ _ _ R) as Hkn.
  destruct (Nat.ltb_spec n k) as [Hnk|Hnk].
  - left. exists (b, true). split.
    + exists 0%nat. intros dv f _ _. unfold main_body. destruct (Nat.ltb_spec n k); [reflexivity|lia].
    + split; [exact El|]. split; [apply R|]. assert (kmax = n) by lia. assert (k = S n) by lia. subst. exists lam, d. auto.
  - assert (K : exists r, (forall dv, exactd dv -> (if (kmax <? k)%nat then new_row dv b lam d k else Ok (Some (lam, d))) = Ok r) /\
        match r with
        | None => exists k, (k < n)%nat /\ pos _ (G m g) (vc b) k /\ D (vc b) (S k) = 0
        | Some (lam', d') => let km := if (kmax <? k)%nat then k else kmax in rep km b lam' d' /\ (2 <= k <= km)%nat /\ red k lam' d' /\ ((kmax < k)%nat \/ d' = d /\ km = kmax)
        end).
    { destruct (Nat.ltb_spec kmax k) as [Hlt|Hge].
      - destruct (new_row_ok n m g Hg kmax b lam d k R ltac:(lia) ltac:(lia)) as (r & E & Hr). exists r. split; [exact E|].
        destruct r as [(lam', d')|].
        + destruct Hr as (Nz & Sl & Ld & A & B & C & F).
          assert (Kk : k = S kmax) by lia. clear Hlt.
          destruct R as [Hb Hl Hd Hk' P HD HN].
          assert (Pk : 0 < D (vc b) k).
          { destruct (N_nonneg m g Gpos (vc b) kmax kmax (vc b kmax) P ltac:(lia)) as (NN & _).
            rewrite <- gdetS, <- Kk in NN. lia. }
          split; [|split; [lia|split; [|auto]]].
          * constructor; auto; try lia.
            -- intros l Hl'. destruct (Nat.eq_dec l k) as [->|Nl]; [exact Pk|apply P; lia].
            -- intros l Hl'. destruct (Nat.eq_dec l k) as [->|Nl]; [exact C|]. rewrite B by auto. apply HD. lia.
            -- intros i j Hij. destruct (Nat.eq_dec i (k - 1)) as [->|Ni]; [apply F; lia|]. rewrite A by lia. apply HN. lia.
          * destruct Rd as (Ra & Rb). split.
            -- intros i j Hj Hi. rewrite A, B by lia. apply Ra; lia.
            -- intros i Hi. rewrite A, !B by lia. apply Rb; lia.
          * left. lia.
        + exists kmax. replace (S kmax) with k by lia. split; [lia|]. split; [apply R|exact Hr].
      - exists (Some (lam, d)). split; [reflexivity|]. split; [exact R|]. split; [lia|]. split; [exact Rd|right; auto]. }
    destruct K as (r & E & Hr). destruct r as [(lam1, d1)|].
    + destruct Hr as (R1 & Hk1 & Rd1 & Kd). set (km := if (kmax <? k)%nat then k else kmax) in *.
      destruct (step3_ok km k d1 (k, b, lam1, d1)) as ([[[k2 b2] lam2] d2] & (N3 & E3) & R2 & Hk2 & Rd2 & El2 & Pg).
      { split; [exact R1|]. split; [exact Hk1|]. split; [exact Rd1|]. split; [exact El|]. right; auto. }
      right. exists (k2, km, b2, lam2, d2). split; [|split].
      * exists N3. intros dv f Hdv Hf. unfold main_body. destruct (Nat.ltb_spec n k); [lia|].
        rewrite (E dv Hdv), bind_Ok. fold km. rewrite (E3 dv f Hdv Hf), bind_Ok. reflexivity.
      * split; [exact R2|]. split; [unfold km; destruct (kmax <? k)%nat; lia|]. split; [lia|]. split; [exact Rd2|exact El2].
      * unfold relm, key. pose proof (r_k _ _ _ _ _ _ _ R1) as Hkm1. destruct Kd as [Kd|(-> & Ekm)].
        -- assert (km = k) by (unfold km; destruct (Nat.ltb_spec kmax k); lia). left. lia.
        -- rewrite Ekm in *. right. pose proof (msr_nonneg kmax b2 lam2 d2 R2). destruct Pg as [Pg|(Pg & ->)].
           ++ left. lia.
           ++ rewrite Pg. right. lia.
    + left. exists (b, false). split.
      * exists 0%nat. intros dv f Hdv _. unfold main_body. destruct (Nat.ltb_spec n k); [lia|]. rewrite (E dv Hdv), bind_Ok. reflexivity.
      * split; [exact El|]. split; [apply R|exact Hr].
Qed.

Lemma lll_ok : bshape n m g b0 -> (1 <= n)%nat -> G m g (vc b0 0) (vc b0 0) <> 0 ->
  exists r, ev exactd (fun dv f => lll_reduce dv f n b0) r /\ postm r.
Proof.
  intros Hb Hn Nz. unfold lll_reduce.
  destruct (put_ok 0 (zeros (n + 1)) 0 [1]) as (d1 & E1 & L1 & A1 & B1); [unfold zeros; rewrite repeat_length; cbn [length]; lia|].
  unfold zeros in L1. rewrite repeat_length in L1. cbn [length] in *.
  pose proof (sdot_ok n m g Hg b0 1 1 Hb ltac:(lia) ltac:(lia)) as Es. cbn [Nat.sub] in Es.
  set (u := G m g (vc b0 0) (vc b0 0)) in *.
  destruct (put_ok 0 d1 1 [u]) as (d2 & E2 & L2 & A2 & B2); [cbn [length]; lia|]. cbn [length] in *.
  destruct (main_ok (2%nat, 1%nat, b0, repeat (zeros n) n, d2)) as (r & (M & E) & Hr).
  - assert (D1 : D (vc b0) 1 = u) by (rewrite gdetS, minor0; reflexivity).
    assert (Pu : 0 < u).
    { assert (0 <= u); [|lia]. apply sumn_nonneg. intros t Ht. specialize (Gpos t Ht). nia. }
    split; [|split; [lia|split; [lia|split]]].
    + constructor; auto.
      * split; [apply repeat_length|]. intros i Hi. rewrite (nth_indep _ _ (zeros n)) by (rewrite repeat_length; lia). rewrite nth_repeat. apply repeat_length.
      * lia.
      * intros [|[|l]] Hl; [rewrite gdet0; lia|rewrite D1; exact Pu|lia].
      * intros [|[|l]] Hl; [|rewrite A2, D1 by lia; reflexivity|lia]. rewrite B2, A1, gdet0 by lia. reflexivity.
      * intros; lia.
    + split; intros; lia.
    + apply elem_refl.
  - exists r. split; [|exact Hr]. exists M. intros dv f Hdv Hf. rewrite E1, bind_Ok, Es, bind_Ok, E2, bind_Ok. apply E; auto.
Qed.
(** a zero first vector *)
Lemma lll_zero : bshape n m g b0 -> (1 <= n)%nat -> G m g (vc b0 0) (vc b0 0) = 0 -> (forall y, G m g y (vc b0 0) = 0) ->
  ev exactd (fun dv f => lll_reduce dv f n b0) (b0, (n =? 1)%nat).
Proof.
  intros Hb Hn Z0 Z1. exists 1%nat. intros dv f Hdv Hf. unfold lll_reduce.
  destruct (put_ok 0 (zeros (n + 1)) 0 [1]) as (d1 & -> & L1 & A1 & B1); [unfold zeros; rewrite repeat_length; cbn [length]; lia|].
  unfold zeros in L1. rewrite repeat_length in L1. cbn [length] in *. rewrite bind_Ok.
  rewrite (sdot_ok n m g Hg b0 1 1 Hb) by lia. rewrite bind_Ok. cbn [Nat.sub]. rewrite Z0.
  destruct (put_ok 0 d1 1 [0]) as (d2 & -> & L2 & A2 & B2); [cbn [length]; lia|]. cbn [length] in *. rewrite bind_Ok.
  apply (titer_while _ 0%nat); [|lia]. cbn [titer]. unfold main_body.
  destruct (Nat.ltb_spec n 2) as [H|H].
  { assert (n = 1%nat) by lia. destruct (Nat.eqb_spec n 1); [reflexivity|lia]. }
  change (1 <? 2)%nat with true. cbv iota.
  assert (Sh : lshape n (repeat (zeros n) n)).
  { split; [apply repeat_length|]. intros i Hi. rewrite (nth_indep _ _ (zeros n)) by (rewrite repeat_length; lia). rewrite nth_repeat. apply repeat_length. }
  assert (NR : new_row dv b0 (repeat (zeros n) n) d2 2 = Ok None).
  { unfold new_row. cbn [seq mfold]. cbn [row_step]. unfold row_entry at 1. rewrite (sdot_ok n m g Hg b0 2 1 Hb) by lia.
    rewrite bind_Ok. cbn [Nat.sub seq mfold]. rewrite Z1, bind_Ok. cbn [Nat.ltb Nat.leb].
    destruct (lset_ok n (repeat (zeros n) n) 1 0 0 Sh ltac:(lia) ltac:(lia)) as (l1 & -> & S1 & E1 & O1). rewrite !bind_Ok.
    cbn [row_step]. unfold row_entry. rewrite (sdot_ok n m g Hg b0 2 2 Hb) by lia. rewrite bind_Ok. cbn [Nat.sub seq mfold].
    rewrite !(deref_ok 0 d2) by lia. rewrite !bind_Ok. rewrite !(lget_ok n) by (auto; lia). rewrite !bind_Ok, E1.
    rewrite A2 by lia. rewrite B2, A1 by lia. cbn [Nat.sub nth].
    replace (0 * G m g (vc b0 1) (vc b0 1) - 0 * 0) with (0 * 1) by ring. rewrite (Hdv 0 1) by lia. rewrite !bind_Ok.
    cbn [Nat.ltb Nat.leb]. reflexivity. }
  rewrite NR, bind_Ok. destruct (Nat.eqb_spec n 1); [lia|reflexivity].
Qed.
End Main.
