(** The functions of LLLModel keep the integer Gram-Schmidt data: redi, swapi, new_row. *)
From Coq Require Import ZArith Lia List Bool.
From Verif Require Import Base ArithProofs RatModel MArithModel MArithProofs LinModel LinSpec LinProofs LLLModel LLLSpec LLLDet LLLForms LLLLoop.
Import ListNotations.
Open Scope Z_scope.
Open Scope res_scope.

(** ** elementary changes of a list of vectors *)
Section Elem.
Variables m n : nat.
Definition comb (u : nat -> nat -> Z) (c : nat -> Z) (t : nat) : Z := sumn n (fun i => c i * u i t).
Definition elem1 (u u' : nat -> nat -> Z) : Prop :=
  exists phi : (nat -> Z) -> nat -> Z, (forall c t, (t < m)%nat -> comb u' c t = comb u (phi c) t) /\
    (forall c, (forall i, (i < n)%nat -> phi c i = 0) -> forall i, (i < n)%nat -> c i = 0).
Definition elem (u u' : nat -> nat -> Z) : Prop := elem1 u u' /\ elem1 u' u.
Lemma elem_refl u : elem u u.
Proof. split; (exists (fun c => c); split; auto). Qed.
Lemma elem1_trans u v w : elem1 u v -> elem1 v w -> elem1 u w.
Proof.
  intros (f & Hf & Kf) (g & Hg & Kg). exists (fun c => f (g c)). split.
  - intros c t Ht. now rewrite Hg, Hf.
  - intros c H. apply Kg, Kf, H.
Qed.
Lemma elem_trans u v w : elem u v -> elem v w -> elem u w.
Proof. intros (A & B) (C & D). split; eapply elem1_trans; eauto. Qed.
Lemma elem1_add u u' k j q : (k < n)%nat -> (j < n)%nat -> k <> j ->
  (forall i t, i <> k -> u' i t = u i t) -> (forall t, (t < m)%nat -> u' k t = u k t - q * u j t) -> elem1 u u'.
Proof.
  intros Hk Hj Nkj H1 H2. exists (fun c i => c i - q * c k * dlt i j). split.
  - intros c t Ht. unfold comb.
    rewrite (sumn_ext n (fun i => c i * u' i t) (fun i => c i * u i t - dlt i k * (q * c k * u j t))).
    2:{ intros i Hi. unfold dlt. destruct (Nat.eqb_spec i k) as [->|Ni]; [rewrite H2 by auto; ring|rewrite H1 by auto; ring]. }
    rewrite sumn_sub, (sumn_dlt n k (fun _ => q * c k * u j t)) by auto.
    rewrite (sumn_ext n (fun i => (c i - q * c k * dlt i j) * u i t) (fun i => c i * u i t - dlt i j * (q * c k * u i t))) by (intros; ring).
    rewrite sumn_sub, (sumn_dlt n j (fun i => q * c k * u i t)) by auto. reflexivity.
  - intros c H i Hi. assert (Ck : c k = 0).
    { specialize (H k Hk). unfold dlt in H. destruct (Nat.eqb_spec k j); [contradiction|lia]. }
    specialize (H i Hi). rewrite Ck in H. lia.
Qed.
Lemma elem_add u u' k j q : (k < n)%nat -> (j < n)%nat -> k <> j ->
  (forall i t, i <> k -> u' i t = u i t) -> (forall t, (t < m)%nat -> u' k t = u k t - q * u j t) -> elem u u'.
Proof.
  intros Hk Hj Nkj H1 H2. split; [apply (elem1_add u u' k j q); auto|].
  apply (elem1_add u' u k j (- q)); auto.
  - intros. symmetry. auto.
  - intros t Ht. rewrite H2, (H1 j) by auto. ring.
Qed.
Definition sw (a i : nat) : nat := if Nat.eqb i a then S a else if Nat.eqb i (S a) then a else i.
Lemma sumn_sw f a : (S a < n)%nat -> sumn n (fun i => f (sw a i)) = sumn n f.
Proof.
  intros H. rewrite (sumn_ext n (fun i => f (sw a i)) (fun i => f i + dlt i a * (f (S a) - f a) + dlt i (S a) * (f a - f (S a)))).
  - rewrite !sumn_add, (sumn_dlt n a (fun _ => f (S a) - f a)), (sumn_dlt n (S a) (fun _ => f a - f (S a))) by lia. ring.
  - intros i Hi. unfold sw, dlt. destruct (Nat.eqb_spec i a) as [->|Na].
    + destruct (Nat.eqb_spec a (S a)); [lia|ring].
    + destruct (Nat.eqb_spec i (S a)) as [->|Nb]; ring.
Qed.
Lemma elem1_swap u u' a : (S a < n)%nat -> (forall i t, u' i t = u (sw a i) t) -> elem1 u u'.
Proof.
  intros H Hu. exists (fun c i => c (sw a i)).
  assert (SS : forall i, sw a (sw a i) = i).
  { intros i. unfold sw. destruct (Nat.eqb_spec i a) as [->|Na].
    - destruct (Nat.eqb_spec (S a) a); [lia|]. now rewrite Nat.eqb_refl.
    - destruct (Nat.eqb_spec i (S a)) as [->|Nb]; [now rewrite Nat.eqb_refl|].
      destruct (Nat.eqb_spec i a); [lia|]. destruct (Nat.eqb_spec i (S a)); [lia|reflexivity]. }
  split.
  - intros c t Ht. unfold comb. rewrite <- (sumn_sw (fun i => c (sw a i) * u i t) a) by auto.
    apply sumn_ext. intros i Hi. now rewrite Hu, SS.
  - intros c Hc i Hi. rewrite <- (SS i). apply Hc. unfold sw.
    destruct (Nat.eqb_spec i a); [lia|]. destruct (Nat.eqb_spec i (S a)); lia.
Qed.
Lemma elem_swap u u' a : (S a < n)%nat -> (forall i t, u' i t = u (sw a i) t) -> elem u u'.
Proof.
  intros H Hu. split; [apply (elem1_swap u u' a); auto|]. apply (elem1_swap u' u a); auto.
  intros i t. rewrite Hu. f_equal. unfold sw. destruct (Nat.eqb_spec i a) as [->|Na].
    - destruct (Nat.eqb_spec (S a) a); [lia|]. now rewrite Nat.eqb_refl.
    - destruct (Nat.eqb_spec i (S a)) as [->|Nb]; [now rewrite Nat.eqb_refl|].
      destruct (Nat.eqb_spec i a); [lia|]. destruct (Nat.eqb_spec i (S a)); [lia|reflexivity].
Qed.
End Elem.

(** ** two-dimensional arrays *)
Definition lshape (n : nat) (lam : list (list Z)) : Prop := length lam = n /\ forall i, (i < n)%nat -> length (nth i lam []) = n.
Definition le_ (lam : list (list Z)) (i j : nat) : Z := nth j (nth i lam []) 0.
Lemma lget_ok n lam i j : lshape n lam -> (i < n)%nat -> (j < n)%nat -> lget lam i j = Ok (le_ lam i j).
Proof.
  intros (L & R) Hi Hj. unfold lget. rewrite (deref_ok []) by lia. rewrite bind_Ok.
  apply deref_ok. rewrite R; auto.
Qed.
Lemma lset_ok n lam i j x : lshape n lam -> (i < n)%nat -> (j < n)%nat ->
  exists lam', lset lam i j x = Ok lam' /\ lshape n lam' /\ le_ lam' i j = x /\ forall i' j', (i' <> i \/ j' <> j) -> le_ lam' i' j' = le_ lam i' j'.
Proof.
  intros (L & R) Hi Hj. unfold lset. rewrite (deref_ok []) by lia. rewrite bind_Ok.
  destruct (put_ok 0 (nth i lam []) j [x]) as (r & -> & Lr & I1 & I2); [rewrite R by auto; cbn [length]; lia|]. rewrite bind_Ok.
  destruct (put_ok [] lam i [r]) as (lam' & -> & Ll & J1 & J2); [cbn [length]; lia|]. cbn [length] in *.
  assert (Ei : nth i lam' [] = r) by (rewrite J1 by lia; now rewrite Nat.sub_diag).
  assert (Eo : forall i', i' <> i -> nth i' lam' [] = nth i' lam []) by (intros; apply J2; lia).
  exists lam'. split; [reflexivity|]. split; [split; [lia|]|split].
  - intros i' Hi'. destruct (Nat.eq_dec i' i) as [->|N]; [rewrite Ei, Lr; auto|rewrite Eo; auto].
  - unfold le_. rewrite Ei, I1 by lia. now rewrite Nat.sub_diag.
  - intros i' j' H. unfold le_. destruct (Nat.eq_dec i' i) as [->|N]; [|now rewrite Eo].
    rewrite Ei. apply I2. lia.
Qed.

Section Main.
Variables n m : nat.
Variable g : list Z.
Hypothesis Hg : length g = m.
Definition G (x y : list Z) : Z := sumn m (fun t => nth t g 0 * nth t x 0 * nth t y 0).
Lemma Gsym x y : G x y = G y x.
Proof. apply sumn_ext. intros. ring. Qed.
Notation N := (minor G).
Notation D := (gdet G).
Definition vc (b : list (list Z)) (i : nat) : list Z := nth (S i) b [].
Definition bshape (b : list (list Z)) : Prop := length b = S n /\ nth 0 b [] = g /\ forall i, (i < n)%nat -> length (vc b i) = m.
Definition cu (b : list (list Z)) (i t : nat) : Z := nth t (vc b i) 0.

Lemma sdot_ok b i j : bshape b -> (1 <= i <= n)%nat -> (1 <= j <= n)%nat -> sdot b i j = Ok (G (vc b (i - 1)) (vc b (j - 1))).
Proof.
  intros (L & H0 & H1) Hi Hj. unfold sdot. rewrite !(deref_ok []) by lia. rewrite !bind_Ok, H0, Hg.
  pose proof (H1 (i - 1)%nat ltac:(lia)) as Li. pose proof (H1 (j - 1)%nat ltac:(lia)) as Lj. unfold vc in *.
  replace (S (i - 1)) with i in * by lia. replace (S (j - 1)) with j in * by lia.
  destruct (mfold_seq (fun k a => a = sumn k (fun t => nth t g 0 * nth t (nth i b []) 0 * nth t (nth j b []) 0))
    (fun ans k => x <- at_ g k ;; y <- at_ (nth i b []) k ;; z <- at_ (nth j b []) k ;; Ok (ans + x * y * z)) 0 m 0) as (a & E & Ha).
  - reflexivity.
  - intros k a Hk ->. rewrite !(at_ok 0) by lia. rewrite !bind_Ok. eexists. split; [reflexivity|].
    rewrite Nat.add_1_r. cbn [sumn]. reflexivity.
  - rewrite E, Ha. reflexivity.
Qed.
Lemma vsub_ok v q w : length v = m -> length w = m -> exists v', vsub v q w = Ok v' /\ length v' = m /\ forall t, nth t v' 0 = nth t v 0 - q * nth t w 0.
Proof.
  intros Lv Lw. unfold vsub.
  destruct (mmap2_ok 0 0 0 (fun x y z => z = y - q * x) (fun wi vi => Ok (vi - q * wi)) w v) as (z & -> & Lz & Hz); [lia|eauto|].
  rewrite bind_Ok. destruct (put_ok 0 v 0 z) as (v' & -> & Lv' & I1 & I2); [lia|].
  exists v'. split; [reflexivity|]. split; [lia|]. intros t. destruct (Nat.lt_ge_cases t m) as [H|H].
  - rewrite I1, Nat.sub_0_r by lia. apply Hz. lia.
  - rewrite !nth_overflow by lia. ring.
Qed.
Lemma lin_vsub v' v q w : (forall t, nth t v' 0 = nth t v 0 - q * nth t w 0) -> lin _ G v' v q w.
Proof.
  intros H z. unfold G. rewrite <- sumn_mul, <- sumn_sub. apply sumn_ext. intros t _. rewrite H. ring.
Qed.

(** the integral Gram-Schmidt data of the first kmax vectors *)
Record rep (kmax : nat) (b lam : list (list Z)) (d : list Z) : Prop := Rep {
  r_b : bshape b; r_l : lshape n lam; r_d : length d = S n; r_k : (kmax <= n)%nat;
  r_pos : pos _ G (vc b) kmax;
  r_D : forall l, (l <= kmax)%nat -> nth l d 0 = D (vc b) l;
  r_N : forall i j, (j < i < kmax)%nat -> le_ lam i j = N (vc b) j (vc b i) (vc b j) }.

Lemma redi_ok kmax b lam d k l : rep kmax b lam d -> (1 <= l < k)%nat -> (k <= kmax)%nat ->
  exists b' lam', redi k l b lam d = Ok (b', lam') /\ rep kmax b' lam' d /\ elem m n (cu b) (cu b') /\
    (forall i j, (i <> k - 1)%nat -> le_ lam' i j = le_ lam i j) /\
    (forall j, (l <= j)%nat -> le_ lam' (k - 1) j = le_ lam (k - 1) j) /\
    2 * Z.abs (le_ lam' (k - 1) (l - 1)) <= nth l d 0.
Proof.
  intros [Hb Hl Hd Hk P HD HN] Hlk Hkk. unfold redi.
  rewrite (lget_ok n) by (auto; lia). rewrite bind_Ok, (deref_ok 0) by lia. rewrite bind_Ok.
  assert (Pl : 0 < nth l d 0) by (rewrite HD by lia; apply P; lia).
  destruct (roundover_ok (le_ lam (k - 1) (l - 1)) (nth l d 0) Pl) as (q & -> & Hq). rewrite bind_Ok.
  destruct (Z.eqb_spec q 0) as [->|Nq].
  - exists b, lam. split; [reflexivity|]. split; [constructor; auto|]. split; [apply elem_refl|].
    split; [auto|]. split; [auto|]. lia.
  - destruct Hb as (Lb & B0 & B1). rewrite !(deref_ok []) by lia. rewrite !bind_Ok.
    pose proof (B1 (k - 1)%nat ltac:(lia)) as Lk. pose proof (B1 (l - 1)%nat ltac:(lia)) as Ll. unfold vc in Lk, Ll.
    replace (S (k - 1)) with k in Lk by lia. replace (S (l - 1)) with l in Ll by lia.
    destruct (vsub_ok (nth k b []) q (nth l b []) Lk Ll) as (bk & -> & Lbk & Ebk). rewrite bind_Ok.
    destruct (put_ok [] b k [bk]) as (b' & -> & Lb' & I1 & I2); [cbn [length]; lia|]. rewrite bind_Ok. cbn [length] in *.
    rewrite bind_Ok.
    destruct (lset_ok n lam (k - 1) (l - 1) (le_ lam (k - 1) (l - 1) - q * nth l d 0)) as (la & -> & Sa & Ea & Oa); [auto|lia|lia|]. rewrite bind_Ok.
    destruct (mfold_seq (fun i x => lshape n x /\ (forall a c, (a <> k - 1)%nat -> le_ x a c = le_ la a c) /\
                (forall c, (i - 1 <= c)%nat -> le_ x (k - 1) c = le_ la (k - 1) c) /\
                (forall c, (c < i - 1)%nat -> le_ x (k - 1) c = le_ la (k - 1) c - q * le_ la (l - 1) c))
      (fun lam i => x <- lget lam (k - 1) (i - 1) ;; y <- lget lam (l - 1) (i - 1) ;; lset lam (k - 1) (i - 1) (x - q * y)) 1 (l - 1) la)
      as (lam' & E & Sl & O1 & O2 & O3).
    { split; [auto|]. split; [auto|]. split; [auto|]. intros; lia. }
    { intros i x Hi (Sx & X1 & X2 & X3). rewrite !(lget_ok n) by (auto; lia). rewrite !bind_Ok.
      destruct (lset_ok n x (k - 1) (i - 1) (le_ x (k - 1) (i - 1) - q * le_ x (l - 1) (i - 1))) as (x' & -> & S' & E' & O'); [auto|lia|lia|].
      exists x'. split; [reflexivity|]. split; [auto|]. split; [|split].
      - intros a c Hac. rewrite O' by auto. auto.
      - intros c Hc. rewrite O' by lia. apply X2. lia.
      - intros c Hc. destruct (Nat.eq_dec c (i - 1)) as [->|Nc].
        + rewrite E', X2, X1 by lia. reflexivity.
        + rewrite O' by lia. apply X3. lia. }
    rewrite E, bind_Ok. replace (1 + (l - 1))%nat with l in * by lia.
    assert (Vo : forall i, i <> (k - 1)%nat -> vc b' i = vc b i) by (intros i Hi; unfold vc; apply I2; lia).
    assert (Vk : vc b' (k - 1) = bk).
    { unfold vc. replace (S (k - 1)) with k by lia. rewrite I1 by lia. now rewrite Nat.sub_diag. }
    assert (Lk' : lin _ G (vc b' (k - 1)) (vc b (k - 1)) q (vc b (l - 1))).
    { rewrite Vk. unfold vc. replace (S (k - 1)) with k by lia. replace (S (l - 1)) with l by lia. now apply lin_vsub. }
    assert (F := redi_forms _ G Gsym (vc b) (vc b') (k - 1) (l - 1) q ltac:(lia) Vo Lk' kmax P).
    assert (A : forall i j, (i <> k - 1)%nat -> le_ lam' i j = le_ lam i j).
    { intros i j Hi. rewrite O1 by auto. apply Oa. lia. }
    assert (B : forall j, (l <= j)%nat -> le_ lam' (k - 1) j = le_ lam (k - 1) j).
    { intros j Hj. rewrite O2 by lia. apply Oa. lia. }
    assert (C : le_ lam' (k - 1) (l - 1) = le_ lam (k - 1) (l - 1) - q * nth l d 0) by (rewrite O2 by lia; apply Ea).
    exists b', lam'. split; [reflexivity|]. split; [|split; [|split; [exact A|split; [exact B|rewrite C; lia]]]].
    + constructor; auto.
      * split; [lia|]. split; [rewrite <- B0; apply I2; lia|]. intros i Hi.
        destruct (Nat.eq_dec i (k - 1)) as [->|Ni]; [now rewrite Vk|rewrite Vo; auto].
      * intros x Hx. rewrite (proj1 (F x ltac:(lia))). auto.
      * intros x Hx. rewrite (proj1 (F x ltac:(lia))). auto.
      * intros i j Hij. rewrite (proj2 (F j ltac:(lia))).
        destruct (Nat.eq_dec i (k - 1)) as [->|Ni].
        -- rewrite (Vo j) by lia. rewrite (N_lin _ G (vc b) kmax P j _ _ _ _ (vc b j) ltac:(lia) Lk'). rewrite <- HN by lia.
           destruct (Nat.lt_ge_cases j (l - 1)) as [H|H].
           ++ rewrite O3 by lia. rewrite !Oa by lia. rewrite (HN (l - 1)%nat j) by lia. reflexivity.
           ++ destruct (Nat.eq_dec j (l - 1)) as [->|Nj].
              ** rewrite C. rewrite <- (gdetS G (vc b)). replace (S (l - 1)) with l by lia. rewrite HD by lia. reflexivity.
              ** rewrite B by lia. rewrite (N_rad _ G (vc b) kmax P) by lia. ring.
        -- rewrite A, (Vo i), HN by auto. destruct (Nat.eq_dec j (k - 1)) as [->|Nj]; [|now rewrite Vo].
           rewrite (N_lin_r _ G Gsym (vc b) kmax (k - 1) _ _ _ _ (vc b i) P ltac:(lia) Lk'), (N_rad_r _ G Gsym (vc b) kmax (k - 1) (l - 1)) by (auto; lia). ring.
    + apply (elem_add m n _ _ (k - 1) (l - 1) q); try lia.
      * intros i t Hi. unfold cu. now rewrite Vo.
      * intros t Ht. unfold cu. rewrite Vk, Ebk. unfold vc. replace (S (k - 1)) with k by lia. replace (S (l - 1)) with l by lia. reflexivity.
Qed.

Notation exactd := (exact_division (@Ok Z)).
Lemma exact_use dv x y z : exactd dv -> y <> 0 -> y * z = x -> dv x y = Ok z.
Proof. intros H Hy <-. rewrite Z.mul_comm. now apply H. Qed.

Lemma swapi_ok kmax b lam d k : rep kmax b lam d -> (2 <= k <= kmax)%nat ->
  exists b' lam' d', (forall dv, exactd dv -> swapi dv k kmax b lam d = Ok (b', lam', d')) /\ rep kmax b' lam' d' /\
    elem m n (cu b) (cu b') /\
    (forall i j, (i < k - 2)%nat -> le_ lam' i j = le_ lam i j) /\
    (forall l, (l <> k - 1)%nat -> nth l d' 0 = nth l d 0) /\
    nth (k - 1) d 0 * nth (k - 1) d' 0 = nth (k - 2) d 0 * nth k d 0 + le_ lam (k - 1) (k - 2) * le_ lam (k - 1) (k - 2).
Proof.
  intros [Hb Hl Hd Hk P HD HN] Hkk.
  destruct Hb as (Lb & B0 & B1).
  destruct (put_ok [] b (k - 1) [nth k b []]) as (b1 & Eb1 & Lb1 & I1 & I2); [cbn [length]; lia|]. cbn [length] in *.
  destruct (put_ok [] b1 k [nth (k - 1) b []]) as (b' & Eb2 & Lb2 & J1 & J2); [cbn [length]; lia|]. cbn [length] in *.
  destruct (mfold_seq (fun j x => lshape n x /\ (forall i c, (i <> k - 1 -> i <> k - 2 -> le_ x i c = le_ lam i c)%nat) /\
        (forall c, (j - 1 <= c)%nat -> le_ x (k - 1) c = le_ lam (k - 1) c /\ le_ x (k - 2) c = le_ lam (k - 2) c) /\
        (forall c, (c < j - 1)%nat -> le_ x (k - 1) c = le_ lam (k - 2) c /\ le_ x (k - 2) c = le_ lam (k - 1) c))
     (fun lam j => t <- lget lam (k - 1) (j - 1) ;; s <- lget lam (k - 2) (j - 1) ;;
                             lam <- lset lam (k - 1) (j - 1) s ;; lset lam (k - 2) (j - 1) t) 1 (k - 2) lam) as (l1 & El1 & S1 & A1 & A2 & A3).
  { split; [auto|]. split; [auto|]. split; [auto|]. intros; lia. }
  { intros j x Hj (Sx & X1 & X2 & X3). rewrite !(lget_ok n) by (auto; lia). rewrite !bind_Ok.
    destruct (lset_ok n x (k - 1) (j - 1) (le_ x (k - 2) (j - 1))) as (x1 & -> & Sx1 & Ex1 & Ox1); [auto|lia|lia|]. rewrite bind_Ok.
    destruct (lset_ok n x1 (k - 2) (j - 1) (le_ x (k - 1) (j - 1))) as (x2 & -> & Sx2 & Ex2 & Ox2); [auto|lia|lia|].
    exists x2. split; [reflexivity|]. split; [auto|]. split; [|split].
    - intros i c Hi1 Hi2. rewrite Ox2, Ox1 by auto. auto.
    - intros c Hc. rewrite !Ox2, !Ox1 by lia. apply X2. lia.
    - intros c Hc. destruct (Nat.eq_dec c (j - 1)) as [->|Nc].
      + rewrite Ox2, Ex1, Ex2 by lia. destruct (X2 (j - 1)%nat ltac:(lia)). auto.
      + rewrite !Ox2, !Ox1 by lia. apply X3. lia. }
  replace (1 + (k - 2))%nat with (k - 1)%nat in * by lia.
  assert (Ela : le_ l1 (k - 1) (k - 2) = le_ lam (k - 1) (k - 2)) by (apply A2; lia).
  assert (K1 : S (k - 1) = k) by lia. assert (K2 : S (k - 2) = (k - 1)%nat) by lia.
  assert (Va : vc b' (k - 2) = vc b (k - 1)).
  { unfold vc. rewrite K1, K2, J2 by lia. rewrite I1 by lia. now rewrite Nat.sub_diag. }
  assert (Vb : vc b' (k - 1) = vc b (k - 2)).
  { unfold vc. rewrite K1, K2, J1 by lia. now rewrite Nat.sub_diag. }
  assert (Vo : forall i, (i <> k - 2 -> i <> k - 1 -> vc b' i = vc b i)%nat).
  { intros i H1 H2. unfold vc. rewrite J2, I2 by lia. reflexivity. }
  assert (Vb' : vc b' (S (k - 2)) = vc b (k - 2)) by (rewrite K2; exact Vb).
  assert (Va' : vc b' (k - 2) = vc b (S (k - 2))) by (rewrite K2; exact Va).
  assert (Vo' : forall i, i <> (k - 2)%nat -> i <> S (k - 2) -> vc b' i = vc b i) by (rewrite K2; exact Vo).
  assert (Hak : (S (S (k - 2)) <= kmax)%nat) by lia.
  pose proof (swap_bb _ G Gsym (vc b) (k - 2) kmax P Hak) as BB.
  pose proof (swap_Da _ G (vc b) (vc b') (k - 2) kmax Hak Vo' Va') as EDa.
  pose proof (fun x => swap_la _ G Gsym (vc b) (vc b') (k - 2) kmax P Hak Vo' Va' x) as LA.
  pose proof (fun x => swap_lb _ G Gsym (vc b) (vc b') (k - 2) kmax P Hak Vo' Va' x) as LB.
  pose proof (swap_high _ G Gsym (vc b) (vc b') (k - 2) kmax P Hak Vo' Va' Vb') as HI.
  pose proof (swap_low _ G (vc b) (vc b') (k - 2) kmax Hak Vo') as LO.
  pose proof (swap_pos _ G Gsym (vc b) (vc b') (k - 2) kmax P Hak Vo' Va' Vb') as P'.
  rewrite K2, K1 in *.
  assert (Dk : nth k d 0 = D (vc b) k) by (apply HD; lia).
  assert (Dk1 : nth (k - 1) d 0 = D (vc b) (k - 1)) by (apply HD; lia).
  assert (Dk2 : nth (k - 2) d 0 = D (vc b) (k - 2)) by (apply HD; lia).
  assert (La : le_ lam (k - 1) (k - 2) = N (vc b) (k - 2) (vc b (k - 1)) (vc b (k - 2))) by (apply HN; lia).
  pose proof (P k ltac:(lia)) as Pk. pose proof (P (k - 1)%nat ltac:(lia)) as Pk1.
  set (bb := N (vc b) (k - 2) (vc b (k - 1)) (vc b (k - 1))) in *.
  set (la := N (vc b) (k - 2) (vc b (k - 1)) (vc b (k - 2))) in *.
  destruct (mfold_fam (fun dv => exactd dv) (fun i x => lshape n x /\ (forall r c, (c <> k - 1 -> c <> k - 2 -> le_ x r c = le_ l1 r c)%nat) /\
        (forall r c, (r < k \/ i - 1 <= r)%nat -> le_ x r c = le_ l1 r c) /\
        (forall r, (k <= r < i - 1)%nat -> le_ x r (k - 1) = N (vc b') (k - 1) (vc b r) (vc b (k - 2)) /\ le_ x r (k - 2) = N (vc b) (k - 2) (vc b r) (vc b (k - 1))))
     (fun dv lam i => t <- lget lam (i - 1) (k - 1) ;; s <- lget lam (i - 1) (k - 2) ;;
                             x <- dv (D (vc b) k * s - la * t) (D (vc b) (k - 1)) ;; lam <- lset lam (i - 1) (k - 1) x ;;
                             x <- lget lam (i - 1) (k - 1) ;;
                             y <- dv (bb * t + la * x) (D (vc b) k) ;; lset lam (i - 1) (k - 2) y) (k + 1) (kmax - k) l1) as (l2 & El2 & S2 & C0 & C1 & C2).
  { split; [auto|]. split; [auto|]. split; [auto|]. intros; lia. }
  { intros i x Hi (Sx & X0 & X1 & X2).
    assert (T : le_ x (i - 1) (k - 1) = N (vc b) (k - 1) (vc b (i - 1)) (vc b (k - 1))).
    { rewrite X1, A1 by lia. apply HN. lia. }
    assert (Sg : le_ x (i - 1) (k - 2) = N (vc b) (k - 2) (vc b (i - 1)) (vc b (k - 2))).
    { rewrite X1, A1 by lia. apply HN. lia. }
    set (xx := N (vc b') (k - 1) (vc b (i - 1)) (vc b (k - 2))).
    set (yy := N (vc b) (k - 2) (vc b (i - 1)) (vc b (k - 1))).
    destruct (lset_ok n x (i - 1) (k - 1) xx) as (x1 & E1 & Sx1 & Ex1 & Ox1); [auto|lia|lia|].
    destruct (lset_ok n x1 (i - 1) (k - 2) yy) as (x2 & E2 & Sx2 & Ex2 & Ox2); [auto|lia|lia|].
    exists x2. split; [|split; [auto|split; [|split]]].
    - intros dv Hdv. rewrite !(lget_ok n) by (auto; lia). rewrite !bind_Ok, T, Sg.
      rewrite (exact_use dv _ _ xx Hdv) by (auto; try lia; apply LA). rewrite bind_Ok, E1, bind_Ok.
      rewrite (lget_ok n) by (auto; lia). rewrite bind_Ok, Ex1.
      rewrite (exact_use dv _ _ yy Hdv) by (auto; try lia; apply LB). rewrite bind_Ok. exact E2.
    - intros r c H1 H2. rewrite Ox2, Ox1 by lia. auto.
    - intros r c H. rewrite Ox2, Ox1 by lia. apply X1. lia.
    - intros r H. destruct (Nat.eq_dec r (i - 1)) as [->|Nr].
      + rewrite Ox2 by lia. rewrite Ex1, Ex2. auto.
      + rewrite !Ox2, !Ox1 by lia. apply X2. lia. }
  destruct (put_ok 0 d (k - 1) [bb]) as (d' & Ed' & Ld' & Q1 & Q2); [cbn [length]; lia|]. cbn [length] in *.
  assert (Edk : nth (k - 1) d' 0 = bb) by (rewrite Q1 by lia; now rewrite Nat.sub_diag).
  exists b', l2, d'. split; [|split; [|split; [|split; [|split]]]].
  - intros dv Hdv. unfold swapi. rewrite !(deref_ok 0 d) by lia. rewrite !bind_Ok. rewrite !(deref_ok [] b) by lia. rewrite !bind_Ok.
    rewrite Eb1, bind_Ok, Eb2, bind_Ok, El1, bind_Ok. rewrite (lget_ok n) by (auto; lia). rewrite bind_Ok.
    rewrite bind_Ok, Ela, La, Dk, Dk1, Dk2.
    rewrite (exact_use dv _ _ bb Hdv) by (auto; lia). rewrite bind_Ok, (El2 dv Hdv), bind_Ok, Ed'. reflexivity.
  - constructor; auto; try lia.
    + split; [lia|]. split; [rewrite <- B0, J2, I2 by lia; reflexivity|]. intros i Hi.
      destruct (Nat.eq_dec i (k - 2)) as [->|N2]; [rewrite Va; apply B1; lia|].
      destruct (Nat.eq_dec i (k - 1)) as [->|N1]; [rewrite Vb; apply B1; lia|]. rewrite Vo; auto.
    + intros l Hl'. destruct (Nat.eq_dec l (k - 1)) as [->|Nl].
      * rewrite Edk. symmetry. exact EDa.
      * rewrite Q2, HD by lia. symmetry. destruct (Nat.lt_ge_cases l (k - 1)) as [H|H].
        -- apply (LO l (vc b 0%nat) (vc b 0%nat)). lia.
        -- apply (HI l); lia.
    + intros i j Hij. destruct (Nat.lt_ge_cases i k) as [Hi|Hi].
      * rewrite C1 by lia. destruct (Nat.eq_dec i (k - 1)) as [->|N1].
        -- destruct (Nat.eq_dec j (k - 2)) as [->|N2].
           ++ rewrite Ela, La, Va, Vb. rewrite (proj2 (LO _ _ _ (le_n _))).
              apply (N_sym _ G Gsym (vc b) kmax P). lia.
           ++ rewrite (proj1 (A3 j ltac:(lia))), HN by lia. rewrite Vb, (Vo j) by lia. symmetry. apply LO. lia.
        -- destruct (Nat.eq_dec i (k - 2)) as [->|N2].
           ++ rewrite (proj2 (A3 j ltac:(lia))), HN by lia. rewrite Va, (Vo j) by lia. symmetry. apply LO. lia.
           ++ rewrite A1, HN, (Vo i), (Vo j) by lia. symmetry. apply LO. lia.
      * rewrite (Vo i) by lia. destruct (Nat.eq_dec j (k - 1)) as [->|N1].
        -- rewrite (proj1 (C2 i ltac:(lia))). now rewrite Vb.
        -- destruct (Nat.eq_dec j (k - 2)) as [->|N2].
           ++ rewrite (proj2 (C2 i ltac:(lia))), Va. symmetry. apply LO. lia.
           ++ rewrite C0, A1, HN, (Vo j) by lia. symmetry. destruct (Nat.lt_ge_cases j (k - 2)) as [H|H].
              ** apply LO. lia.
              ** apply (HI j); lia.
  - apply (elem_swap m n _ _ (k - 2)); [lia|]. intros i t. unfold cu, sw.
    destruct (Nat.eqb_spec i (k - 2)) as [->|N2]; [rewrite K2, Va; reflexivity|]. rewrite K2.
    destruct (Nat.eqb_spec i (k - 1)) as [->|N1]; [rewrite Vb; reflexivity|]. rewrite Vo; auto.
  - intros i j Hi. rewrite C1, A1 by lia. reflexivity.
  - intros l Hl'. apply Q2. lia.
  - rewrite Edk, Dk, Dk1, Dk2, La. exact BB.
Qed.

(** ** a new row *)
Lemma row_entry_ok kmax b lam d k j : rep kmax b lam d -> k = S kmax -> (k <= n)%nat -> (1 <= j <= k)%nat ->
  (forall c, (c < j - 1)%nat -> le_ lam (k - 1) c = N (vc b) c (vc b (k - 1)) (vc b c)) ->
  forall dv, exactd dv -> row_entry dv b lam d k j = Ok (N (vc b) (j - 1) (vc b (k - 1)) (vc b (j - 1))).
Proof.
  intros [Hb Hl Hd Hk P HD HN] -> Hkn Hj Hrow dv Hdv. unfold row_entry. rewrite sdot_ok by (auto; lia). rewrite bind_Ok.
  destruct (mfold_seq (fun i u => u = N (vc b) (i - 1) (vc b (S kmax - 1)) (vc b (j - 1)))
    (fun u i => di <- deref d i ;; x <- lget lam (S kmax - 1) (i - 1) ;; y <- lget lam (j - 1) (i - 1) ;;
                    dp <- deref d (i - 1) ;; dv (di * u - x * y) dp) 1 (j - 1) (G (vc b (S kmax - 1)) (vc b (j - 1)))) as (u & E & Hu).
  - symmetry. apply minor0.
  - intros i u Hi ->. rewrite !(deref_ok 0) by lia. rewrite bind_Ok. rewrite !(lget_ok n) by (auto; lia). rewrite !bind_Ok.
    eexists. split; [|reflexivity].
    rewrite (Hrow (i - 1)%nat) by lia. rewrite !HD by lia.
    assert (Ey : le_ lam (j - 1) (i - 1) = N (vc b) (i - 1) (vc b (i - 1)) (vc b (j - 1))).
    { rewrite (N_sym _ G Gsym (vc b) kmax P) by lia. destruct (Nat.eq_dec j (S kmax)) as [->|Nj]; [apply Hrow; lia|apply HN; lia]. }
    rewrite Ey. apply exact_use; [auto|pose proof (P (i - 1)%nat ltac:(lia)); lia|].
    pose proof (pos_rec _ G (vc b) kmax (i - 1) (vc b (S kmax - 1)) (vc b (j - 1)) P ltac:(lia)) as R.
    replace (S (i - 1)) with i in R by lia. replace (i + 1 - 1)%nat with i by lia. exact R.
  - rewrite E, Hu. replace (1 + (j - 1) - 1)%nat with (j - 1)%nat by lia. reflexivity.
Qed.
Lemma rep_set kmax b lam lam' d : rep kmax b lam d -> lshape n lam' -> (forall i j, (i < kmax)%nat -> le_ lam' i j = le_ lam i j) -> rep kmax b lam' d.
Proof. intros [Hb Hl Hd Hk P HD HN] S E. constructor; auto. intros i j H. rewrite E by lia. auto. Qed.
Lemma new_row_ok kmax b lam d k : rep kmax b lam d -> k = S kmax -> (k <= n)%nat ->
  exists r, (forall dv, exactd dv -> new_row dv b lam d k = Ok r) /\
    match r with
    | None => D (vc b) k = 0
    | Some (lam', d') => D (vc b) k <> 0 /\ lshape n lam' /\ length d' = S n /\
        (forall i j, (i < kmax)%nat -> le_ lam' i j = le_ lam i j) /\ (forall l, l <> k -> nth l d' 0 = nth l d 0) /\
        nth k d' 0 = D (vc b) k /\ (forall c, (c < k - 1)%nat -> le_ lam' (k - 1) c = N (vc b) c (vc b (k - 1)) (vc b c))
    end.
Proof.
  intros R Ek Hk. unfold new_row.
  destruct (mfold_fam (fun dv => exactd dv) (fun j st => match st with
      | None => (k < j)%nat /\ D (vc b) k = 0
      | Some (lam', d') => lshape n lam' /\ length d' = S n /\ rep kmax b lam' d' /\ ((j <= k)%nat -> d' = d) /\ ((k < j)%nat -> nth k d' 0 = D (vc b) k /\ D (vc b) k <> 0) /\
         (forall i j, (i < kmax)%nat -> le_ lam' i j = le_ lam i j) /\ (forall l, l <> k -> nth l d' 0 = nth l d 0) /\
         (forall c, (c < j - 1)%nat -> (c < k - 1)%nat -> le_ lam' (k - 1) c = N (vc b) c (vc b (k - 1)) (vc b c)) end)
     (fun dv => row_step dv b k) 1 k (Some (lam, d))) as (r & E & Hr).
  - split; [apply R|]. split; [apply R|]. split; [exact R|]. split; [auto|]. split; [lia|]. split; [auto|]. split; [auto|]. intros; lia.
  - intros j [(x, y)|] Hj; [|intros (H & _); lia].
    intros (Sx & Ly & Rx & Y1 & Y2 & X1 & Y3 & X2).
    specialize (Y1 ltac:(lia)). subst y.
    pose proof (row_entry_ok kmax b x d k j Rx Ek Hk ltac:(lia) (fun c H => X2 c H ltac:(lia))) as U.
    cbn [row_step].
    destruct (Nat.ltb_spec j k) as [Hjk|Hjk].
    + destruct (lset_ok n x (k - 1) (j - 1) (N (vc b) (j - 1) (vc b (k - 1)) (vc b (j - 1)))) as (x1 & E1 & Sx1 & Ex1 & Ox1); [auto|lia|lia|].
      exists (Some (x1, d)). split; [intros dv Hdv; rewrite (U dv Hdv), bind_Ok, E1; reflexivity|].
      assert (X1' : forall i c, (i < kmax)%nat -> le_ x1 i c = le_ lam i c) by (intros; rewrite Ox1 by lia; auto).
      split; [auto|]. split; [auto|]. split; [apply (rep_set kmax b x); auto; intros; apply Ox1; lia|]. split; [auto|]. split; [lia|]. split; [auto|]. split; [auto|].
      intros c Hc Hc'. destruct (Nat.eq_dec c (j - 1)) as [->|Nc]; [exact Ex1|]. rewrite Ox1 by lia. apply X2; lia.
    + assert (j = k) by lia. subst j.
      assert (EU : N (vc b) (k - 1) (vc b (k - 1)) (vc b (k - 1)) = D (vc b) k) by (rewrite <- gdetS; f_equal; lia).
      rewrite EU in U. destruct (Z.eqb_spec (D (vc b) k) 0) as [E0|N0].
      * exists None. split; [intros dv Hdv; rewrite (U dv Hdv), bind_Ok; destruct (Z.eqb_spec (D (vc b) k) 0); [reflexivity|contradiction]|]. split; [lia|auto].
      * destruct (put_ok 0 d k [D (vc b) k]) as (d' & Ed' & Ld' & Q1 & Q2); [cbn [length]; lia|]. cbn [length] in *.
        exists (Some (x, d')). split.
        { intros dv Hdv. rewrite (U dv Hdv), bind_Ok. destruct (Z.eqb_spec (D (vc b) k) 0); [contradiction|]. rewrite Ed'. reflexivity. }
        split; [auto|]. split; [lia|]. split; [|split; [lia|split; [|split; [auto|split; [intros; apply Q2; lia|intros; apply X2; lia]]]]].
        -- destruct Rx as [Hb Hl Hd Hkk P HD HN]. constructor; auto; [lia|]. intros l Hl'. rewrite Q2 by lia. auto.
        -- intros _. split; [|auto]. rewrite Q1 by lia. now rewrite Nat.sub_diag.
  - exists r. split; [exact E|]. destruct r as [(x, y)|].
    + destruct Hr as (Sx & Ly & Rx & Y1 & Y2 & X1 & Y3 & X2). destruct (Y2 ltac:(lia)). repeat (split; [auto|]). intros c Hc. apply X2; lia.
    + apply Hr.
Qed.
End Main.
