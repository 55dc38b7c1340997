(** Proofs about LinModel: list primitives, spans, elimination modulo p. *)
From Coq Require Import ZArith Znumtheory Lia List Bool Sorted Permutation.
From Verif Require Import Base ArithModel ArithProofs XModModel XModProofs MArithModel MArithProofs LinModel LinSpec.
Import ListNotations.
Open Scope Z_scope.

(** ** lists *)
Lemma nth_firstn' {A} (d : A) n l k : (k < n)%nat -> nth k (firstn n l) d = nth k l d.
Proof. revert l k. induction n; intros [|x l] [|k] H; cbn [firstn nth]; try lia; auto. apply IHn; lia. Qed.
Lemma nth_skipn' {A} (d : A) n l k : nth k (skipn n l) d = nth (n + k) l d.
Proof. revert l k. induction n; intros [|x l] k; cbn [skipn nth Nat.add]; auto. destruct k; auto. Qed.

Lemma seg_ok {A} (d : A) l off n : (off + n <= length l)%nat ->
  exists v, seg l off n = Ok v /\ length v = n /\ forall k, (k < n)%nat -> nth k v d = nth (off + k) l d.
Proof.
  intros H. unfold seg. destruct (Nat.leb_spec (off + n) (length l)); [|lia].
  eexists; split; [reflexivity|]. split.
  - rewrite firstn_length, skipn_length. lia.
  - intros k Hk. rewrite nth_firstn' by lia. apply nth_skipn'.
Qed.
Lemma seg_inv {A} (d : A) l off n v : seg l off n = Ok v ->
  (off + n <= length l)%nat /\ length v = n /\ forall k, (k < n)%nat -> nth k v d = nth (off + k) l d.
Proof.
  intros H. assert (L : (off + n <= length l)%nat) by (unfold seg in H; destruct (Nat.leb_spec (off + n) (length l)); [lia|discriminate]).
  destruct (seg_ok d l off n L) as (v' & E & E'). rewrite H in E. injection E as <-. auto.
Qed.
Lemma put_ok {A} (d : A) l off vs : (off + length vs <= length l)%nat ->
  exists l', put l off vs = Ok l' /\ length l' = length l /\
    (forall k, (off <= k < off + length vs)%nat -> nth k l' d = nth (k - off) vs d) /\
    (forall k, (k < off \/ off + length vs <= k)%nat -> nth k l' d = nth k l d).
Proof.
  intros H. unfold put. destruct (Nat.leb_spec (off + length vs) (length l)); [|lia].
  eexists; split; [reflexivity|]. repeat split.
  - rewrite !app_length, firstn_length, skipn_length. lia.
  - intros k Hk. rewrite app_nth2; rewrite firstn_length; [|lia]. rewrite app_nth1 by lia. f_equal. lia.
  - intros k [Hk|Hk].
    + rewrite app_nth1 by (rewrite firstn_length; lia). apply nth_firstn'; lia.
    + rewrite app_nth2; rewrite firstn_length; [|lia]. rewrite app_nth2 by lia. rewrite nth_skipn'. f_equal. lia.
Qed.
Lemma put_inv {A} (d : A) l off vs l' : put l off vs = Ok l' ->
  (off + length vs <= length l)%nat /\ length l' = length l /\
    (forall k, (off <= k < off + length vs)%nat -> nth k l' d = nth (k - off) vs d) /\
    (forall k, (k < off \/ off + length vs <= k)%nat -> nth k l' d = nth k l d).
Proof.
  intros H. assert (L : (off + length vs <= length l)%nat) by (unfold put in H; destruct (Nat.leb_spec (off + length vs) (length l)); [lia|discriminate]).
  destruct (put_ok d l off vs L) as (v' & E & E'). rewrite H in E. injection E as <-. auto.
Qed.
Lemma deref_ok {A} (d : A) l i : (i < length l)%nat -> deref l i = Ok (nth i l d).
Proof. intros H. unfold deref. rewrite (nth_error_nth' l d H). reflexivity. Qed.
Lemma at_ok {A} (d : A) l i : (i < length l)%nat -> at_ l i = Ok (nth i l d).
Proof. intros H. unfold at_. rewrite (nth_error_nth' l d H). reflexivity. Qed.
Lemma deref_inv {A} (d : A) l i x : deref l i = Ok x -> (i < length l)%nat /\ x = nth i l d.
Proof.
  unfold deref. destruct (nth_error l i) eqn:E; [|discriminate]. intros [= <-]. split.
  - apply nth_error_Some. congruence.
  - symmetry. apply nth_error_nth, E.
Qed.
Lemma at_inv {A} (d : A) l i x : at_ l i = Ok x -> (i < length l)%nat /\ x = nth i l d.
Proof.
  unfold at_. destruct (nth_error l i) eqn:E; [|discriminate]. intros [= <-]. split.
  - apply nth_error_Some. congruence.
  - symmetry. apply nth_error_nth, E.
Qed.

Lemma mmap_ok {A B} (da : A) (db : B) (R : A -> B -> Prop) f l :
  (forall k, (k < length l)%nat -> exists b, f (nth k l da) = Ok b /\ R (nth k l da) b) ->
  exists l', mmap f l = Ok l' /\ length l' = length l /\ forall k, (k < length l)%nat -> R (nth k l da) (nth k l' db).
Proof.
  induction l as [|a l IH]; intros H.
  - exists []. repeat split; auto. intros k Hk; cbn in Hk; lia.
  - destruct (H 0%nat) as (b & Hb & Rb); [cbn; lia|]. cbn [nth] in Hb, Rb.
    destruct IH as (l' & E & Hl & HR).
    { intros k Hk. apply (H (Datatypes.S k)). cbn [length]; lia. }
    exists (b :: l'). cbn [mmap]. rewrite Hb, bind_Ok, E, bind_Ok. repeat split; auto.
    + cbn [length]. lia.
    + intros [|k] Hk; cbn [nth]; auto. apply HR. cbn [length] in Hk; lia.
Qed.
Lemma mmap_inv {A B} (da : A) (db : B) f l l' : mmap f l = Ok l' ->
  length l' = length l /\ forall k, (k < length l)%nat -> f (nth k l da) = Ok (nth k l' db).
Proof.
  revert l'. induction l as [|a l IH]; cbn [mmap]; intros l' H.
  - injection H as <-. split; auto. cbn; lia.
  - apply bind_ok in H. destruct H as (b & Hb & H). apply bind_ok in H. destruct H as (bs & Hbs & H).
    injection H as <-. destruct (IH _ Hbs) as (L & E). split; [cbn [length]; lia|].
    intros [|k] Hk; cbn [nth]; auto. apply E. cbn [length] in Hk; lia.
Qed.
Lemma mmap2_ok {A B C} (da : A) (db : B) (dc : C) (R : A -> B -> C -> Prop) f l m :
  (length l <= length m)%nat ->
  (forall k, (k < length l)%nat -> exists c, f (nth k l da) (nth k m db) = Ok c /\ R (nth k l da) (nth k m db) c) ->
  exists n, mmap2 f l m = Ok n /\ length n = length l /\ forall k, (k < length l)%nat -> R (nth k l da) (nth k m db) (nth k n dc).
Proof.
  revert m. induction l as [|a l IH]; intros m L H.
  - exists []. repeat split; auto. intros k Hk; cbn in Hk; lia.
  - destruct m as [|b m]; [cbn in L; lia|]. cbn [length] in L.
    destruct (H 0%nat) as (c & Hc & Rc); [cbn; lia|]. cbn [nth] in Hc, Rc.
    destruct (IH m) as (n & E & Hn & HR); [lia| |].
    { intros k Hk. apply (H (Datatypes.S k)). cbn [length]; lia. }
    exists (c :: n). cbn [mmap2]. rewrite Hc, bind_Ok, E, bind_Ok. repeat split; auto.
    + cbn [length]. lia.
    + intros [|k] Hk; cbn [nth]; auto. apply HR. cbn [length] in Hk; lia.
Qed.
Lemma mmap2_inv {A B C} (da : A) (db : B) (dc : C) f l m n : mmap2 f l m = Ok n ->
  (length l <= length m)%nat /\ length n = length l /\ forall k, (k < length l)%nat -> f (nth k l da) (nth k m db) = Ok (nth k n dc).
Proof.
  revert m n. induction l as [|a l IH]; cbn [mmap2]; intros m n H.
  - injection H as <-. repeat split; auto; cbn; lia.
  - destruct m as [|b m]; [discriminate|].
    apply bind_ok in H. destruct H as (c & Hc & H). apply bind_ok in H. destruct H as (cs & Hcs & H).
    injection H as <-. destruct (IH _ _ Hcs) as (L & L' & E). repeat split; [cbn [length]; lia|cbn [length]; lia|].
    intros [|k] Hk; cbn [nth]; auto. apply E. cbn [length] in Hk; lia.
Qed.
(** a loop for (k=s; k<s+n; k++) with an invariant *)
Lemma mfold_seq {A} (Inv : nat -> A -> Prop) f s n a :
  Inv s a -> (forall k a, (s <= k < s + n)%nat -> Inv k a -> exists a', f a k = Ok a' /\ Inv (k + 1)%nat a') ->
  exists a', mfold f (seq s n) a = Ok a' /\ Inv (s + n)%nat a'.
Proof.
  revert s a. induction n; intros s a H0 H; cbn [seq mfold].
  - exists a. rewrite Nat.add_0_r. auto.
  - destruct (H s a) as (a1 & E & H1); [lia|auto|]. rewrite E, bind_Ok.
    destruct (IHn (Datatypes.S s) a1) as (a' & E' & H').
    + replace (Datatypes.S s) with (s + 1)%nat by lia. auto.
    + intros k b Hk. apply H. lia.
    + exists a'. rewrite E'. split; auto. replace (s + Datatypes.S n)%nat with (Datatypes.S s + n)%nat by lia. auto.
Qed.
Lemma mfold_seq_inv {A} (Inv : nat -> A -> Prop) f s n a a' :
  mfold f (seq s n) a = Ok a' ->
  Inv s a -> (forall k a a', (s <= k < s + n)%nat -> Inv k a -> f a k = Ok a' -> Inv (k + 1)%nat a') ->
  Inv (s + n)%nat a'.
Proof.
  revert s a. induction n; intros s a E H0 H; cbn [seq mfold] in E.
  - injection E as <-. rewrite Nat.add_0_r. auto.
  - apply bind_ok in E. destruct E as (a1 & E1 & E). replace (s + Datatypes.S n)%nat with (Datatypes.S s + n)%nat by lia.
    apply (IHn (Datatypes.S s) a1); auto.
    + replace (Datatypes.S s) with (s + 1)%nat by lia. apply (H s a); auto. lia.
    + intros k b b' Hk. apply H. lia.
Qed.
(** the same downwards: for (k=s+n-1; k>=s; k--); Inv k holds before k-1 is handled *)
Lemma mfold_rev_seq {A} (Inv : nat -> A -> Prop) f s n a :
  Inv (s + n)%nat a -> (forall k a, (s <= k < s + n)%nat -> Inv (k + 1)%nat a -> exists a', f a k = Ok a' /\ Inv k a') ->
  exists a', mfold f (rev (seq s n)) a = Ok a' /\ Inv s a'.
Proof.
  revert a. induction n; intros a H0 H.
  - exists a. cbn [seq rev mfold]. rewrite Nat.add_0_r in H0. auto.
  - rewrite seq_S, rev_app_distr. cbn [rev app mfold].
    destruct (H (s + n)%nat a) as (a1 & E & H1); [lia| |].
    { replace (s + n + 1)%nat with (s + Datatypes.S n)%nat by lia. auto. }
    rewrite E, bind_Ok. apply IHn; auto. intros k b Hk. apply H. lia.
Qed.

(** ** flat matrices *)
Definition ent (nc : nat) (e : list Z) (i j : nat) : Z := nth (i * nc + j) e 0.
Lemma idx_lt nr nc i j : (i < nr)%nat -> (j < nc)%nat -> (i * nc + j < nr * nc)%nat.
Proof. intros. nia. Qed.
Lemma idx_row nc i j k : (j < nc)%nat -> (k * nc <= i * nc + j < k * nc + nc)%nat -> i = k.
Proof. intros. nia. Qed.
Lemma idx_out nc i k : i <> k -> forall j, (j < nc)%nat -> (i * nc + j < k * nc \/ k * nc + nc <= i * nc + j)%nat.
Proof. intros. assert (i < k \/ k < i)%nat as [|] by lia; nia. Qed.

(** n entries of row r written from column c on *)
Lemma put_row nr nc e r c vs : length e = (nr * nc)%nat -> (r < nr)%nat -> (c + length vs <= nc)%nat ->
  exists e', put e (r * nc + c) vs = Ok e' /\ length e' = (nr * nc)%nat /\
   (forall i j, (i < nr)%nat -> (j < nc)%nat -> i <> r \/ (j < c)%nat \/ (c + length vs <= j)%nat -> ent nc e' i j = ent nc e i j) /\
   (forall j, (c <= j < c + length vs)%nat -> ent nc e' r j = nth (j - c) vs 0).
Proof.
  intros L Hr Hc. assert (r * nc + nc <= nr * nc)%nat by (clear - Hr; nia).
  destruct (put_ok 0 e (r * nc + c) vs ltac:(lia)) as (e' & E & L' & H1 & H2).
  exists e'. split; auto. split; [lia|]. split.
  - intros i j Hi Hj Ho. unfold ent. apply H2. destruct Ho as [Ho|[Ho|Ho]].
    + pose proof (idx_out nc i r Ho j Hj). lia.
    + destruct (Nat.eq_dec i r) as [->|Hn]; [lia|]. pose proof (idx_out nc i r Hn j Hj). lia.
    + destruct (Nat.eq_dec i r) as [->|Hn]; [lia|]. pose proof (idx_out nc i r Hn j Hj). lia.
  - intros j Hj. unfold ent. rewrite H1 by lia. f_equal. lia.
Qed.
Lemma seg_row nr nc e r c n : length e = (nr * nc)%nat -> (r < nr)%nat -> (c + n <= nc)%nat ->
  exists v, seg e (r * nc + c) n = Ok v /\ length v = n /\ forall k, (k < n)%nat -> nth k v 0 = ent nc e r (c + k).
Proof.
  intros L Hr Hc. assert (r * nc + nc <= nr * nc)%nat by (clear - Hr; nia).
  destruct (seg_ok 0 e (r * nc + c) n ltac:(lia)) as (v & E & Lv & Hv).
  exists v. repeat split; auto. intros k Hk. rewrite Hv by auto. unfold ent. f_equal. lia.
Qed.
Lemma deref_ent nr nc e r c : length e = (nr * nc)%nat -> (r < nr)%nat -> (c < nc)%nat -> deref e (r * nc + c) = Ok (ent nc e r c).
Proof. intros L Hr Hc. apply deref_ok. rewrite L. apply idx_lt; auto. Qed.
Lemma at_ent nr nc e r c : length e = (nr * nc)%nat -> (r < nr)%nat -> (c < nc)%nat -> at_ e (r * nc + c) = Ok (ent nc e r c).
Proof. intros L Hr Hc. apply at_ok. rewrite L. apply idx_lt; auto. Qed.

Lemma row_op_ok (R : Z -> Z -> Z -> Prop) nr nc e r1 r2 pos f :
  length e = (nr * nc)%nat -> (r1 < nr)%nat -> (r2 < nr)%nat -> (pos <= nc)%nat ->
  (forall j, (pos <= j < nc)%nat -> exists z, f (ent nc e r1 j) (ent nc e r2 j) = Ok z /\ R (ent nc e r1 j) (ent nc e r2 j) z) ->
  exists e', row_op e nc r1 r2 pos f = Ok e' /\ length e' = (nr * nc)%nat /\
   (forall i j, (i < nr)%nat -> (j < nc)%nat -> i <> r2 \/ (j < pos)%nat -> ent nc e' i j = ent nc e i j) /\
   (forall j, (pos <= j < nc)%nat -> R (ent nc e r1 j) (ent nc e r2 j) (ent nc e' r2 j)).
Proof.
  intros L H1 H2 Hp Hf. unfold row_op.
  destruct (seg_row nr nc e r1 pos (nc - pos) L H1 ltac:(lia)) as (x & -> & Lx & Hx).
  destruct (seg_row nr nc e r2 pos (nc - pos) L H2 ltac:(lia)) as (y & -> & Ly & Hy).
  rewrite !bind_Ok.
  destruct (mmap2_ok 0 0 0 R f x y) as (z & -> & Lz & Hz); [lia| |].
  { intros k Hk. rewrite Hx, Hy by lia. apply Hf. lia. }
  rewrite bind_Ok.
  destruct (put_row nr nc e r2 pos z L H2 ltac:(lia)) as (e' & -> & L' & Ha & Hb).
  exists e'. repeat split; auto.
  - intros i j Hi Hj Ho. apply Ha; auto. tauto.
  - intros j Hj. rewrite Hb by lia. specialize (Hz (j - pos)%nat ltac:(lia)).
    rewrite Hx, Hy in Hz by lia. replace (pos + (j - pos))%nat with j in Hz by lia. auto.
Qed.
Lemma swaprows_ok nr nc e r1 r2 : length e = (nr * nc)%nat -> (r1 < nr)%nat -> (r2 < nr)%nat -> r1 <> r2 ->
  exists e', swaprows e nc r1 r2 = Ok e' /\ length e' = (nr * nc)%nat /\
   (forall i j, (i < nr)%nat -> (j < nc)%nat -> i <> r1 -> i <> r2 -> ent nc e' i j = ent nc e i j) /\
   (forall j, (j < nc)%nat -> ent nc e' r1 j = ent nc e r2 j /\ ent nc e' r2 j = ent nc e r1 j).
Proof.
  intros L H1 H2 Hn. unfold swaprows. rewrite <- (Nat.add_0_r (r1 * nc)), <- (Nat.add_0_r (r2 * nc)).
  destruct (seg_row nr nc e r1 0 nc L H1 ltac:(lia)) as (a & -> & La & Ha).
  destruct (seg_row nr nc e r2 0 nc L H2 ltac:(lia)) as (b & -> & Lb & Hb).
  rewrite !bind_Ok.
  destruct (put_row nr nc e r1 0 b L H1 ltac:(lia)) as (e1 & -> & L1 & Ho1 & Hi1). rewrite bind_Ok.
  destruct (put_row nr nc e1 r2 0 a L1 H2 ltac:(lia)) as (e2 & -> & L2 & Ho2 & Hi2).
  exists e2. repeat split; auto.
  - intros i j Hi Hj Ha1 Ha2. rewrite Ho2, Ho1; auto.
  - rewrite Ho2, Hi1 by (auto; lia). rewrite Nat.sub_0_r. apply Hb; auto.
  - rewrite Hi2 by lia. rewrite Nat.sub_0_r. apply Ha; auto.
Qed.

(** ** sums and congruences *)
Lemma sumn_ext n f g : (forall i, (i < n)%nat -> f i = g i) -> sumn n f = sumn n g.
Proof. induction n; cbn [sumn]; intros H; [auto|]. rewrite IHn, H by auto with arith. auto. Qed.
Lemma sumn_0 n : sumn n (fun _ => 0) = 0.
Proof. induction n; cbn [sumn]; lia. Qed.
Lemma sumn_add n f g : sumn n (fun i => f i + g i) = sumn n f + sumn n g.
Proof. induction n; cbn [sumn]; lia. Qed.
Lemma sumn_sub n f g : sumn n (fun i => f i - g i) = sumn n f - sumn n g.
Proof. induction n; cbn [sumn]; lia. Qed.
Lemma sumn_mul n k f : sumn n (fun i => k * f i) = k * sumn n f.
Proof. induction n; cbn [sumn]; lia. Qed.
Lemma sumn_mul_r n k f : sumn n (fun i => f i * k) = sumn n f * k.
Proof. induction n; cbn [sumn]; lia. Qed.
Lemma sumn_swap n m f : sumn n (fun i => sumn m (f i)) = sumn m (fun j => sumn n (fun i => f i j)).
Proof. induction n; cbn [sumn]; [symmetry; apply sumn_0|]. rewrite IHn, <- sumn_add. auto. Qed.
Definition dlt (i j : nat) : Z := if Nat.eqb i j then 1 else 0.
Lemma sumn_dlt n k f : (k < n)%nat -> sumn n (fun i => dlt i k * f i) = f k.
Proof.
  induction n; intros H; [lia|]. cbn [sumn]. unfold dlt at 2. destruct (Nat.eqb_spec n k) as [<-|Hn].
  - rewrite (sumn_ext n _ (fun _ => 0)); [rewrite sumn_0; lia|].
    intros i Hi. unfold dlt. destruct (Nat.eqb_spec i n); lia.
  - rewrite IHn by lia. lia.
Qed.
Lemma cong_refl p a : cong p a a.
Proof. exists 0. lia. Qed.
Lemma cong_eq p a b : a = b -> cong p a b.
Proof. intros ->. apply cong_refl. Qed.
Lemma cong_sym p a b : cong p a b -> cong p b a.
Proof. intros [k H]. exists (- k). lia. Qed.
Lemma cong_trans p a b c : cong p a b -> cong p b c -> cong p a c.
Proof. intros [k H] [l H']. exists (k + l). lia. Qed.
Lemma cong_add p a b c d : cong p a b -> cong p c d -> cong p (a + c) (b + d).
Proof. intros [k H] [l H']. exists (k + l). lia. Qed.
Lemma cong_sub p a b c d : cong p a b -> cong p c d -> cong p (a - c) (b - d).
Proof. intros [k H] [l H']. exists (k - l). lia. Qed.
Lemma cong_opp p a b : cong p a b -> cong p (- a) (- b).
Proof. intros [k H]. exists (- k). lia. Qed.
Lemma cong_mul p a b c d : cong p a b -> cong p c d -> cong p (a * c) (b * d).
Proof. intros [k H] [l H']. exists (k * c + b * l). replace (a * c - b * d) with ((a - b) * c + b * (c - d)) by ring. rewrite H, H'. ring. Qed.
Lemma cong_sumn p n f g : (forall i, (i < n)%nat -> cong p (f i) (g i)) -> cong p (sumn n f) (sumn n g).
Proof. induction n; cbn [sumn]; intros H; [apply cong_refl|]. apply cong_add; auto. Qed.
Lemma cent_unique p a b : 0 < p -> cent p a -> cent p b -> cong p a b -> a = b.
Proof. intros Hp Ha Hb H. unfold cent in *. destruct H as [k H].
  assert (k = 0) as -> by nia. lia. Qed.
Lemma cent_lt p a : 1 < p -> cent p a -> Z.abs a < p.
Proof. unfold cent. lia. Qed.

(** ** spans *)
Section Span.
Variables (p : Z) (nc : nat).
Notation insp := (inspan p nc).
Lemma span_row n A i : (i < n)%nat -> insp n A (A i).
Proof.
  intros H. exists (fun k => dlt k i). intros j _.
  rewrite (sumn_dlt n i (fun k => A k j)) by auto. apply cong_refl.
Qed.
Lemma span_cong n A v w : (forall j, (j < nc)%nat -> cong p (v j) (w j)) -> insp n A w -> insp n A v.
Proof. intros H [c Hc]. exists c. intros j Hj. eapply cong_trans; eauto. Qed.
Lemma span_lin n A v w a b : insp n A v -> insp n A w -> insp n A (fun j => a * v j + b * w j).
Proof.
  intros [c Hc] [d Hd]. exists (fun i => a * c i + b * d i). intros j Hj.
  rewrite (sumn_ext n _ (fun i => a * (c i * A i j) + b * (d i * A i j))) by (intros; ring).
  rewrite sumn_add, !sumn_mul. apply cong_add; apply cong_mul; auto using cong_refl.
Qed.
Lemma span_zero n A : insp n A (fun _ => 0).
Proof. exists (fun _ => 0). intros j _. rewrite (sumn_ext n _ (fun _ => 0)) by (intros; ring). rewrite sumn_0. apply cong_refl. Qed.
Lemma span_sum n A m (c : nat -> Z) B : (forall i, (i < m)%nat -> insp n A (B i)) -> insp n A (fun j => sumn m (fun i => c i * B i j)).
Proof.
  induction m; intros H; cbn [sumn]; [apply span_zero|].
  eapply span_cong; [|apply (span_lin n A (fun j => sumn m (fun i => c i * B i j)) (B m) 1 (c m))]; auto.
  intros j _. apply cong_eq. ring.
Qed.
Lemma span_incl n A m B : (forall i, (i < m)%nat -> insp n A (B i)) -> forall v, insp m B v -> insp n A v.
Proof. intros H v [c Hc]. eapply span_cong; [exact Hc|]. apply span_sum; auto. Qed.
Lemma eqspan_rows n A m B : (forall i, (i < m)%nat -> insp n A (B i)) -> (forall i, (i < n)%nat -> insp m B (A i)) -> eqspan p nc n A m B.
Proof. intros H1 H2 v. split; apply span_incl; auto. Qed.
Lemma eqspan_refl n A : eqspan p nc n A n A.
Proof. intros v. tauto. Qed.
Lemma eqspan_sym n A m B : eqspan p nc n A m B -> eqspan p nc m B n A.
Proof. intros H v. specialize (H v). tauto. Qed.
Lemma eqspan_trans n A m B k C : eqspan p nc n A m B -> eqspan p nc m B k C -> eqspan p nc n A k C.
Proof. intros H1 H2 v. rewrite (H1 v). apply H2. Qed.
Lemma eqspan_cong n A B : (forall i j, (i < n)%nat -> (j < nc)%nat -> cong p (A i j) (B i j)) -> eqspan p nc n A n B.
Proof.
  intros H. apply eqspan_rows; intros i Hi.
  - eapply span_cong; [|apply span_row, Hi]. intros j Hj. apply cong_sym; auto.
  - eapply span_cong; [|apply span_row, Hi]. intros j Hj. apply H; auto.
Qed.
(** row r becomes u * row r + k * row s, s <> r, u invertible *)
Lemma eqspan_rowop n A B r s u u' k : (r < n)%nat -> (s < n)%nat -> r <> s -> cong p (u * u') 1 ->
  (forall i j, (i < n)%nat -> (j < nc)%nat -> i <> r -> cong p (B i j) (A i j)) ->
  (forall j, (j < nc)%nat -> cong p (B r j) (u * A r j + k * A s j)) ->
  eqspan p nc n A n B.
Proof.
  intros Hr Hs Hn Hu Ho Hrow. apply eqspan_rows; intros i Hi.
  - destruct (Nat.eq_dec i r) as [->|Hi'].
    + eapply span_cong; [exact Hrow|]. apply span_lin; apply span_row; auto.
    + eapply span_cong; [|apply span_row, Hi]. auto.
  - destruct (Nat.eq_dec i r) as [->|Hi'].
    + apply (span_cong _ _ _ (fun j => u' * B r j + (- (u' * k)) * B s j)); [|apply span_lin; apply span_row; auto].
      intros j Hj. apply cong_sym.
      eapply cong_trans; [apply cong_add; [apply cong_mul; [apply cong_refl|apply Hrow, Hj]|apply cong_mul; [apply cong_refl|apply Ho; auto]]|].
      replace (u' * (u * A r j + k * A s j) + - (u' * k) * A s j) with (u * u' * A r j) by ring.
      replace (A r j) with (1 * A r j) at 2 by ring. apply cong_mul; auto using cong_refl.
    + eapply span_cong; [|apply span_row, Hi]. intros j Hj. apply cong_sym; auto.
Qed.
Lemma eqspan_scale n A B r u u' : (r < n)%nat -> cong p (u * u') 1 ->
  (forall i j, (i < n)%nat -> (j < nc)%nat -> i <> r -> cong p (B i j) (A i j)) ->
  (forall j, (j < nc)%nat -> cong p (B r j) (u * A r j)) ->
  eqspan p nc n A n B.
Proof.
  intros Hr Hu Ho Hrow. apply eqspan_rows; intros i Hi.
  - destruct (Nat.eq_dec i r) as [->|Hi'].
    + apply (span_cong _ _ _ (fun j => u * A r j + 0 * A r j)); [|apply span_lin; apply span_row; auto].
      intros j Hj. eapply cong_trans; [apply Hrow, Hj|]. apply cong_eq. ring.
    + eapply span_cong; [|apply span_row, Hi]. auto.
  - destruct (Nat.eq_dec i r) as [->|Hi'].
    + apply (span_cong _ _ _ (fun j => u' * B r j + 0 * B r j)); [|apply span_lin; apply span_row; auto].
      intros j Hj. apply cong_sym.
      eapply cong_trans; [apply cong_add; [apply cong_mul; [apply cong_refl|apply Hrow, Hj]|apply cong_refl]|].
      replace (u' * (u * A r j) + 0 * B r j) with (u * u' * A r j) by ring.
      replace (A r j) with (1 * A r j) at 2 by ring. apply cong_mul; auto using cong_refl.
    + eapply span_cong; [|apply span_row, Hi]. intros j Hj. apply cong_sym; auto.
Qed.
Lemma eqspan_swap n A B r s : (r < n)%nat -> (s < n)%nat ->
  (forall i j, (i < n)%nat -> (j < nc)%nat -> i <> r -> i <> s -> cong p (B i j) (A i j)) ->
  (forall j, (j < nc)%nat -> cong p (B r j) (A s j) /\ cong p (B s j) (A r j)) ->
  eqspan p nc n A n B.
Proof.
  intros Hr Hs Ho Hrs. apply eqspan_rows; intros i Hi.
  - destruct (Nat.eq_dec i r) as [->|H1]; [|destruct (Nat.eq_dec i s) as [->|H2]].
    + eapply span_cong; [intros j Hj; apply (proj1 (Hrs j Hj))|]. apply span_row; auto.
    + eapply span_cong; [intros j Hj; apply (proj2 (Hrs j Hj))|]. apply span_row; auto.
    + eapply span_cong; [|apply span_row, Hi]. auto.
  - destruct (Nat.eq_dec i r) as [->|H1]; [|destruct (Nat.eq_dec i s) as [->|H2]].
    + eapply span_cong; [intros j Hj; apply cong_sym, (proj2 (Hrs j Hj))|]. apply span_row; auto.
    + eapply span_cong; [intros j Hj; apply cong_sym, (proj1 (Hrs j Hj))|]. apply span_row; auto.
    + eapply span_cong; [|apply span_row, Hi]. intros j Hj. apply cong_sym; auto.
Qed.
(** zero rows at the end do not count *)
Lemma eqspan_drop n A m : (m <= n)%nat -> (forall i j, (m <= i < n)%nat -> (j < nc)%nat -> cong p (A i j) 0) -> eqspan p nc n A m A.
Proof.
  intros Hm H. apply eqspan_rows; intros i Hi.
  - apply span_row; lia.
  - destruct (lt_dec i m); [apply span_row; auto|].
    eapply span_cong; [|apply span_zero]. intros j Hj. apply H; auto. lia.
Qed.
(** a unitriangular square matrix spans everything *)
Lemma tri_span A : (forall i, (i < nc)%nat -> cong p (A i i) 1) -> (forall i j, (i < nc)%nat -> (j < i)%nat -> cong p (A i j) 0) ->
  forall v, insp nc A v.
Proof.
  intros H1 H0. assert (G : forall d k v, (d + k = nc)%nat -> (forall j, (j < k)%nat -> cong p (v j) 0) -> insp nc A v).
  { induction d; intros k v E Hv.
    - eapply span_cong; [|apply span_zero]. intros j Hj. apply Hv. lia.
    - assert (G : insp nc A (fun j => v j - v k * A k j)).
      { apply (IHd (Datatypes.S k)); [lia|]. intros j Hj. destruct (Nat.eq_dec j k) as [->|].
        - eapply cong_trans; [apply cong_sub; [apply cong_refl|apply cong_mul; [apply cong_refl|apply H1; lia]]|]. apply cong_eq. ring.
        - eapply cong_trans; [apply cong_sub; [apply Hv; lia|apply cong_mul; [apply cong_refl|apply H0; lia]]|]. apply cong_eq. ring. }
      apply (span_cong _ _ _ (fun j => 1 * (v j - v k * A k j) + v k * A k j)).
      + intros j _. apply cong_eq. ring.
      + apply span_lin; auto. apply span_row. lia. }
  intros v. apply (G nc 0%nat); [lia|]. intros j Hj; lia.
Qed.
(** equal row spaces have equal kernels *)
Lemma eqspan_ker n A m B x : eqspan p nc n A m B -> inker p nc n A x -> inker p nc m B x.
Proof.
  intros E H i Hi. destruct (proj2 (E (B i)) (span_row m B i Hi)) as [c Hc].
  eapply cong_trans; [apply cong_sumn; intros j Hj; apply cong_mul; [apply Hc, Hj|apply cong_refl]|].
  rewrite (sumn_ext nc _ (fun j => sumn n (fun i0 => c i0 * (A i0 j * x j)))).
  2:{ intros j _. rewrite <- sumn_mul_r. apply sumn_ext. intros; ring. }
  rewrite <- sumn_swap. rewrite (sumn_ext n _ (fun i0 => c i0 * sumn nc (fun j => A i0 j * x j))) by (intros; apply sumn_mul).
  eapply cong_trans; [apply cong_sumn; intros k Hk; apply cong_mul; [apply cong_refl|apply H, Hk]|].
  rewrite (sumn_ext n _ (fun _ => 0)) by (intros; ring). rewrite sumn_0. apply cong_refl.
Qed.
End Span.
