(** comp_map_image computes the order of the image (egr.cc 694-800). *)
From Coq Require Import ZArith Znumtheory List Bool Lia FinFun.
From Verif Require Import Base MArithModel MArithProofs EgrModel EgrSpec.
Import ListNotations.
Open Scope Z_scope.

(** lset *)
Lemma lset_len {A} i (x : A) l : length (lset i x l) = length l.
Proof. revert i. induction l as [|y l IH]; intros [|i]; cbn; auto. Qed.
Lemma lset_nth {A} i j (x d : A) l : (i < length l)%nat -> nth j (lset i x l) d = if Nat.eqb j i then x else nth j l d.
Proof.
  revert i j. induction l as [|y l IH]; intros [|i] [|j] H; cbn in H |- *; try lia; auto. apply IH. lia.
Qed.
Lemma lset_nth_ne {A} i j (x d : A) l : j <> i -> nth j (lset i x l) d = nth j l d.
Proof. revert i j. induction l as [|y l IH]; intros [|i] [|j] H; cbn; auto; try lia. Qed.

(** the values taken by the combinations of the rows *)
Definition vec := nat -> Z.
Definition inV (rows : list (list Z)) (v : vec) : Prop := exists cs, forall j, v j = cmb cs rows j.

Fixpoint padd (a b : list Z) : list Z :=
  match a, b with [], _ => b | _, [] => a | x :: a', y :: b' => (x + y) :: padd a' b' end.
Lemma cmb_nil rows j : cmb [] rows j = 0. Proof. destruct rows; reflexivity. Qed.
Lemma cmb_padd a : forall b rows j, cmb (padd a b) rows j = cmb a rows j + cmb b rows j.
Proof.
  induction a as [|x a IH]; intros b rows j; [rewrite cmb_nil; cbn; lia|].
  destruct b as [|y b]; [rewrite cmb_nil; cbn [padd]; lia|]. destruct rows as [|r rows]; cbn [padd cmb]; [lia|]. rewrite IH. ring.
Qed.
Lemma cmb_scale k a : forall rows j, cmb (map (Z.mul k) a) rows j = k * cmb a rows j.
Proof. induction a as [|x a IH]; intros [|r rows] j; cbn [map cmb]; try lia. rewrite IH. ring. Qed.

Lemma inV_add rows u v : inV rows u -> inV rows v -> inV rows (fun j => u j + v j).
Proof. intros [a A] [b B]. exists (padd a b). intros j. rewrite cmb_padd, A, B. reflexivity. Qed.
Lemma inV_scale rows k u : inV rows u -> inV rows (fun j => k * u j).
Proof. intros [a A]. exists (map (Z.mul k) a). intros j. rewrite cmb_scale, A. reflexivity. Qed.
Lemma inV_ext rows u v : (forall j, u j = v j) -> inV rows u -> inV rows v.
Proof. intros E [a A]. exists a. intros j. rewrite <- E. apply A. Qed.
Lemma inV_0 rows : inV rows (fun _ => 0).
Proof. exists []. intros j. rewrite cmb_nil. reflexivity. Qed.
Lemma inV_sub rows u v k : inV rows u -> inV rows v -> inV rows (fun j => u j - k * v j).
Proof.
  intros A B. apply (inV_ext _ (fun j => u j + (- k) * v j)); [intros; ring|]. apply (inV_add _ u (fun j => (- k) * v j)); [exact A|]. apply (inV_scale _ (- k) v B).
Qed.
Lemma inV_row rows r : In r rows -> inV rows (fun j => nth j r 0).
Proof.
  induction rows as [|s rows IH]; intros I; [contradiction|]. destruct I as [->|I].
  - exists [1]. intros j. cbn [cmb]. lia.
  - destruct (IH I) as [cs H]. exists (0 :: cs). intros j. cbn [cmb]. rewrite H. lia.
Qed.
(** induction over the combinations *)
Lemma inV_ind rows (H : vec -> Prop) : (forall u v, (forall j, u j = v j) -> H u -> H v) -> H (fun _ => 0) ->
  (forall u v, H u -> H v -> H (fun j => u j + v j)) -> (forall k u, H u -> H (fun j => k * u j)) ->
  (forall r, In r rows -> H (fun j => nth j r 0)) -> forall v, inV rows v -> H v.
Proof.
  intros E Z0 AD SC RW v [cs Hv]. apply (E (cmb cs rows)); [intros; symmetry; apply Hv|]. clear Hv v.
  revert cs. induction rows as [|r rows IH]; intros [|c cs]; cbn [cmb]; try exact Z0.
  apply (AD (fun j => c * nth j r 0) (cmb cs rows)); [apply (SC c (fun j => nth j r 0)); apply RW; left; reflexivity|].
  apply IH. intros s I. apply RW. right. exact I.
Qed.

Section Cols.
Variable mods : list Z.
Hypothesis MP : forall j, (j < length mods)%nat -> 1 <= nth j mods 0.
Notation np := (length mods).
Notation md j := (nth j mods 0).

(** agreement in the columns from k on *)
Definition sameF (k : nat) (u v : vec) : Prop := forall j, (k <= j < np)%nat -> (md j | u j - v j).
Lemma sameF_refl k u : sameF k u u. Proof. intros j _. rewrite Z.sub_diag. apply Z.divide_0_r. Qed.
Lemma sameF_sym k u v : sameF k u v -> sameF k v u.
Proof. intros H j J. replace (v j - u j) with (- (u j - v j)) by ring. apply Z.divide_opp_r, H, J. Qed.
Lemma sameF_trans k u v w : sameF k u v -> sameF k v w -> sameF k u w.
Proof. intros A B j J. replace (u j - w j) with ((u j - v j) + (v j - w j)) by ring. apply Z.divide_add_r; [apply A|apply B]; exact J. Qed.

Definition vord (k : nat) (rows : list (list Z)) (N : Z) : Prop :=
  exists R : list vec, Z.of_nat (length R) = N /\ Forall (inV rows) R /\
    ForallOrdPairs (fun u v => ~ sameF k u v) R /\ forall v, inV rows v -> exists r, In r R /\ sameF k v r.

Lemma vord_end rows : vord np rows 1.
Proof.
  exists [fun _ => 0]. split; [reflexivity|]. split; [repeat constructor; apply inV_0|]. split; [repeat constructor|].
  intros v _. exists (fun _ => 0). split; [left; reflexivity|]. intros j J. lia.
Qed.

(** c times column k of the second matrix is column k of the first *)
Definition rel (c : Z) (k : nat) (u v : vec) : Prop := (md k | u k - c * v k) /\ sameF (S k) u v.
Definition eqv (c : Z) (k : nat) (rows rows1 : list (list Z)) : Prop :=
  (forall u, inV rows u -> exists v, inV rows1 v /\ rel c k u v) /\
  (forall v, inV rows1 v -> exists u, inV rows u /\ rel c k u v).

Lemma rel_ext c k u v u' v' : (forall j, u j = u' j) -> (forall j, v j = v' j) -> rel c k u v -> rel c k u' v'.
Proof. intros E F [A B]. split; [rewrite <- E, <- F; exact A|]. intros j J. rewrite <- E, <- F. apply B, J. Qed.
Lemma rel_add c k u v u' v' : rel c k u v -> rel c k u' v' -> rel c k (fun j => u j + u' j) (fun j => v j + v' j).
Proof.
  intros [A B] [A' B']. split.
  - replace (u k + u' k - c * (v k + v' k)) with ((u k - c * v k) + (u' k - c * v' k)) by ring. apply Z.divide_add_r; assumption.
  - intros j J. replace (u j + u' j - (v j + v' j)) with ((u j - v j) + (u' j - v' j)) by ring. apply Z.divide_add_r; [apply B|apply B']; exact J.
Qed.
Lemma rel_scale c k t u v : rel c k u v -> rel c k (fun j => t * u j) (fun j => t * v j).
Proof.
  intros [A B]. split.
  - replace (t * u k - c * (t * v k)) with (t * (u k - c * v k)) by ring. apply Z.divide_mul_r, A.
  - intros j J. replace (t * u j - t * v j) with (t * (u j - v j)) by ring. apply Z.divide_mul_r, B, J.
Qed.
Lemma rel_0 c k : rel c k (fun _ => 0) (fun _ => 0).
Proof. split; [rewrite Z.mul_0_r; apply Z.divide_0_r|apply sameF_refl]. Qed.

(** it is enough to look at the rows *)
Lemma eqv_rows c k rows rows1 :
  (forall r, In r rows -> exists v, inV rows1 v /\ rel c k (fun j => nth j r 0) v) ->
  (forall r, In r rows1 -> exists u, inV rows u /\ rel c k u (fun j => nth j r 0)) -> eqv c k rows rows1.
Proof.
  intros A B. split.
  - apply inV_ind; auto.
    + intros u v E (w & W & RW). exists w. split; [exact W|]. apply (rel_ext c k u w); auto.
    + exists (fun _ => 0). split; [apply inV_0|apply rel_0].
    + intros u v (w & W & RW) (w' & W' & RW'). exists (fun j => w j + w' j). split; [apply inV_add; assumption|apply rel_add; assumption].
    + intros t u (w & W & RW). exists (fun j => t * w j). split; [apply inV_scale; assumption|apply rel_scale; assumption].
  - apply inV_ind; auto.
    + intros u v E (w & W & RW). exists w. split; [exact W|]. apply (rel_ext c k w u); auto.
    + exists (fun _ => 0). split; [apply inV_0|apply rel_0].
    + intros u v (w & W & RW) (w' & W' & RW'). exists (fun j => w j + w' j). split; [apply inV_add; assumption|apply rel_add; assumption].
    + intros t u (w & W & RW). exists (fun j => t * w j). split; [apply inV_scale; assumption|apply rel_scale; assumption].
Qed.
Lemma eqv_trans c d k A B C : (eqv c k A B) -> eqv d k B C ->
  eqv (c * d) k A C.
Proof.
  intros [P Q] [P' Q']. split.
  - intros u U. destruct (P u U) as (v & V & [R1 R2]). destruct (P' v V) as (w & W & [R3 R4]). exists w. split; [exact W|].
    split; [|apply (sameF_trans _ _ v); assumption].
    replace (u k - c * d * w k) with ((u k - c * v k) + c * (v k - d * w k)) by ring. apply Z.divide_add_r; [exact R1|apply Z.divide_mul_r, R3].
  - intros w W. destruct (Q' w W) as (v & V & [R3 R4]). destruct (Q v V) as (u & U & [R1 R2]). exists u. split; [exact U|].
    split; [|apply (sameF_trans _ _ v); assumption].
    replace (u k - c * d * w k) with ((u k - c * v k) + c * (v k - d * w k)) by ring. apply Z.divide_add_r; [exact R1|apply Z.divide_mul_r, R3].
Qed.
Lemma eqv_refl k A : eqv 1 k A A.
Proof. split; intros u U; exists u; (split; [exact U|]); (split; [rewrite Z.mul_1_l, Z.sub_diag; apply Z.divide_0_r|apply sameF_refl]). Qed.

(** pairs *)
Lemma FOP_map {A B} (f : A -> B) (R : A -> A -> Prop) (R' : B -> B -> Prop) l : (forall x y, R x y -> R' (f x) (f y)) ->
  ForallOrdPairs R l -> ForallOrdPairs R' (map f l).
Proof.
  intros H F. induction F as [|x l F1 F IH]; cbn; constructor; [|exact IH].
  apply Forall_forall. intros y I. apply in_map_iff in I. destruct I as (z & <- & I). apply H. exact (proj1 (Forall_forall _ _) F1 z I).
Qed.
Lemma FOP_app {A} (R : A -> A -> Prop) l l' : ForallOrdPairs R l -> ForallOrdPairs R l' -> (forall x y, In x l -> In y l' -> R x y) ->
  ForallOrdPairs R (l ++ l').
Proof.
  intros F F' H. induction F as [|x l F1 F IH]; cbn; [exact F'|]. constructor.
  - apply Forall_app. split; [exact F1|]. apply Forall_forall. intros y I. apply H; [left; reflexivity|exact I].
  - apply IH. intros a b IA IB. apply H; [right; exact IA|exact IB].
Qed.

(** Forall with an existential gives a list *)
Lemma Forall_choose {A B} (P : A -> B -> Prop) l : (forall x, In x l -> exists y, P x y) -> exists l', Forall2 P l l'.
Proof.
  induction l as [|x l IH]; intros H; [exists []; constructor|]. destruct (H x (or_introl eq_refl)) as [y Y].
  destruct IH as [l' L']; [intros z I; apply H; right; exact I|]. exists (y :: l'). constructor; assumption.
Qed.
Lemma Forall2_in_r {A B} (P : A -> B -> Prop) l l' y : Forall2 P l l' -> In y l' -> exists x, In x l /\ P x y.
Proof. induction 1 as [|a b l l' H F IH]; intros I; [contradiction|]. destruct I as [->|I]; [exists a; cbn; auto|]. destruct (IH I) as (x & X & Y). exists x. cbn; auto. Qed.
Lemma Forall2_in_l {A B} (P : A -> B -> Prop) l l' x : Forall2 P l l' -> In x l -> exists y, In y l' /\ P x y.
Proof. induction 1 as [|a b l l' H F IH]; intros I; [contradiction|]. destruct I as [->|I]; [exists b; cbn; auto|]. destruct (IH I) as (y & X & Y). exists y. cbn; auto. Qed.
Lemma F2_length {A B} (P : A -> B -> Prop) l l' : Forall2 P l l' -> length l = length l'.
Proof. induction 1; cbn; congruence. Qed.
Lemma FOP_Forall2 {A B} (P : A -> B -> Prop) (R : A -> A -> Prop) (R' : B -> B -> Prop) l l' :
  (forall x x' y y', P x y -> P x' y' -> R x x' -> R' y y') -> Forall2 P l l' -> ForallOrdPairs R l -> ForallOrdPairs R' l'.
Proof.
  intros H F. induction F as [|a b l l' Hab F IH]; intros O; constructor; inversion_clear O as [|? ? F1 O'].
  - apply Forall_forall. intros y I. destruct (Forall2_in_r _ _ _ _ F I) as (x & IX & Pxy). apply (H a x); auto. exact (proj1 (Forall_forall _ _) F1 x IX).
  - auto.
Qed.

(** the order multiplies: e generates the projection to column k, of order m *)
Lemma vord_step k rows rows' e m N : (k < np)%nat -> 1 <= m -> vord (S k) rows' N -> inV rows e ->
  (forall t, (md k | t * e k) <-> (m | t)) ->
  (forall u, inV rows u -> exists t, (md k | u k - t * e k)) ->
  (forall v, inV rows' v -> exists u, inV rows u /\ (md k | u k) /\ sameF (S k) u v) ->
  (forall u, inV rows u -> (md k | u k) -> exists v, inV rows' v /\ sameF (S k) u v) ->
  vord k rows (N * m).
Proof.
  intros K M (R & RL & RV & RP & RC) EV EO EG UP DN.
  destruct (Forall_choose (fun v u => inV rows u /\ (md k | u k) /\ sameF (S k) u v) R) as [R1 F1].
  { intros v I. apply UP. exact (proj1 (Forall_forall _ _) RV v I). }
  assert (P1 : ForallOrdPairs (fun u v => ~ sameF (S k) u v) R1).
  { refine (FOP_Forall2 _ _ _ _ _ _ F1 RP). intros x x' y y' (_ & _ & A) (_ & _ & B) NS HS. apply NS.
    exact (sameF_trans _ _ _ _ (sameF_sym _ _ _ A) (sameF_trans _ _ _ _ HS B)). }
  set (blk := fun t : Z => map (fun u : vec => fun j => u j + t * e j) R1).
  set (R2 := flat_map blk (map Z.of_nat (seq 0 (Z.to_nat m)))).
  assert (TS : forall t, In t (map Z.of_nat (seq 0 (Z.to_nat m))) <-> 0 <= t < m).
  { intros t. rewrite in_map_iff. split.
    - intros (x & <- & I). apply in_seq in I. lia.
    - intros H. exists (Z.to_nat t). split; [lia|]. apply in_seq. lia. }
  assert (DK : forall u, In u R1 -> (md k | u k)).
  { intros u I. destruct (Forall2_in_r _ _ _ _ F1 I) as (x & _ & (_ & D & _)). exact D. }
  exists R2. split; [|split; [|split]].
  - unfold R2. assert (LB : forall ts, Z.of_nat (length (flat_map blk ts)) = Z.of_nat (length R) * Z.of_nat (length ts)).
    { induction ts as [|t ts IH]; cbn; [lia|]. rewrite app_length. unfold blk at 1. rewrite map_length, <- (F2_length _ _ _ F1). lia. }
    rewrite LB, map_length, seq_length, RL. rewrite Z2Nat.id by lia. reflexivity.
  - apply Forall_forall. intros w I. apply in_flat_map in I. destruct I as (t & _ & I). unfold blk in I. rewrite in_map_iff in I. destruct I as (u & <- & I).
    destruct (Forall2_in_r _ _ _ _ F1 I) as (x & _ & (U & _)). apply inV_add; [exact U|]. apply inV_scale, EV.
  - unfold R2. assert (GEN : forall ts, NoDup ts -> (forall t, In t ts -> 0 <= t < m) -> ForallOrdPairs (fun u v => ~ sameF k u v) (flat_map blk ts)).
    { induction ts as [|t ts IH]; intros ND TT; cbn; [constructor|]. inversion_clear ND as [|? ? NI ND']. apply FOP_app.
      - unfold blk. apply (FOP_map _ (fun u v => ~ sameF (S k) u v)); [|exact P1]. intros u v NS HS. apply NS. intros j J.
        specialize (HS j ltac:(lia)). replace (u j - v j) with (u j + t * e j - (v j + t * e j)) by ring. exact HS.
      - apply IH; [exact ND'|]. intros t' I. apply TT. right. exact I.
      - intros x y IX IY. unfold blk in IX. rewrite in_map_iff in IX. destruct IX as (u & <- & IU). apply in_flat_map in IY. destruct IY as (t' & IT' & IY).
        unfold blk in IY. rewrite in_map_iff in IY. destruct IY as (v & <- & IV). intros HS. specialize (HS k ltac:(lia)).
        assert (D : (md k | (t - t') * e k)).
        { replace ((t - t') * e k) with ((u k + t * e k - (v k + t' * e k)) + (v k - u k)) by ring. apply Z.divide_add_r; [exact HS|].
          apply Z.divide_sub_r; apply DK; assumption. }
        apply EO in D. pose proof (TT t (or_introl eq_refl)) as T1. pose proof (TT t' (or_intror IT')) as T2.
        assert (t = t'). { destruct D as [q D]. clear - D T1 T2 M. assert (q = 0) by nia. subst q. lia. }
        subst t'. contradiction. }
    apply GEN; [|intros t I; apply TS; exact I].
    apply Injective_map_NoDup; [intros x y H; lia|apply seq_NoDup].
  - intros u U. destruct (EG u U) as [t D].
    set (t0 := t mod m). assert (T0 : 0 <= t0 < m) by (apply Z.mod_pos_bound; lia).
    assert (D0 : (md k | u k - t0 * e k)).
    { replace (u k - t0 * e k) with ((u k - t * e k) + (t - t0) * e k) by ring. apply Z.divide_add_r; [exact D|]. apply EO.
      exists (t / m). unfold t0. rewrite Z.mod_eq by lia. ring. }
    destruct (DN (fun j => u j - t0 * e j) (inV_sub _ _ _ _ U EV) D0) as (v & V & HS).
    destruct (RC v V) as (r & IR & SR). destruct (Forall2_in_l _ _ _ _ F1 IR) as (w & IW & (WV & WD & WS)).
    exists (fun j => w j + t0 * e j). split.
    + apply in_flat_map. exists t0. split; [apply TS; exact T0|]. unfold blk. apply in_map_iff. exists w. split; [reflexivity|exact IW].
    + intros j J. destruct (Nat.eq_dec j k) as [->|JK].
      * replace (u k - (w k + t0 * e k)) with ((u k - t0 * e k) - w k) by ring. apply Z.divide_sub_r; assumption.
      * assert (JJ : (S k <= j < np)%nat) by lia.
        replace (u j - (w j + t0 * e j)) with ((u j - t0 * e j - v j) + ((v j - r j) - (w j - r j))) by ring.
        apply Z.divide_add_r; [apply (HS j JJ)|]. apply Z.divide_sub_r; [apply SR; exact JJ|apply WS; exact JJ].
Qed.

Definition wf (rows : list (list Z)) : Prop := Forall (fun r => length r = np) rows.
Lemma wf_in rows r : wf rows -> In r rows -> length r = np.
Proof. intros W I. exact (proj1 (Forall_forall _ _) W r I). Qed.
Lemma nth_out r j : length r = np -> (np <= j)%nat -> nth j r 0 = 0.
Proof. intros L J. apply nth_overflow. lia. Qed.

Lemma map_col_wf k f rows : wf rows -> wf (map_col k f rows).
Proof. intros W. apply Forall_forall. intros r I. apply in_map_iff in I. destruct I as (s & <- & I). rewrite lset_len. exact (wf_in _ _ W I). Qed.
Lemma map_col_ent k f rows r : (k < np)%nat -> wf rows -> In r (map_col k f rows) -> exists s, In s rows /\ ent k r = f (ent k s).
Proof.
  intros K W I. apply in_map_iff in I. destruct I as (s & <- & I). exists s. split; [exact I|]. unfold ent at 1.
  rewrite lset_nth by (rewrite (wf_in _ _ W I); exact K). rewrite Nat.eqb_refl. reflexivity.
Qed.
Lemma map_col_in k f rows s : (k < np)%nat -> wf rows -> In s rows -> exists r, In r (map_col k f rows) /\ ent k r = f (ent k s).
Proof.
  intros K W I. exists (lset k (f (ent k s)) s). split; [apply in_map_iff; exists s; auto|]. unfold ent at 1.
  rewrite lset_nth by (rewrite (wf_in _ _ W I); exact K). rewrite Nat.eqb_refl. reflexivity.
Qed.
Lemma map_col_eqv c k f rows : (k < np)%nat -> wf rows -> (forall r, In r rows -> (md k | ent k r - c * f (ent k r))) -> eqv c k rows (map_col k f rows).
Proof.
  intros K W H.
  assert (RR : forall r, In r rows -> rel c k (fun j => nth j r 0) (fun j => nth j (lset k (f (ent k r)) r) 0)).
  { intros r I. split.
    - rewrite lset_nth by (rewrite (wf_in _ _ W I); exact K). rewrite Nat.eqb_refl. exact (H r I).
    - intros j J. rewrite lset_nth_ne by lia. rewrite Z.sub_diag. apply Z.divide_0_r. }
  apply eqv_rows.
  - intros r I. exists (fun j => nth j (lset k (f (ent k r)) r) 0). split; [|exact (RR r I)]. apply inV_row. apply in_map_iff. exists r. auto.
  - intros r I. apply in_map_iff in I. destruct I as (s & <- & I). exists (fun j => nth j s 0). split; [apply inV_row; exact I|exact (RR s I)].
Qed.

Lemma row_sub_len q r piv : length r = np -> length piv = np -> length (row_sub q r piv) = np.
Proof. intros A B. unfold row_sub. rewrite map_length, combine_length. lia. Qed.
Lemma row_sub_nth q r piv j : length r = np -> length piv = np -> nth j (row_sub q r piv) 0 = nth j r 0 - q * nth j piv 0.
Proof.
  intros A B. destruct (Nat.lt_ge_cases j np) as [J|J].
  - unfold row_sub. rewrite (nth_indep _ 0 (fst (0, 0) - q * snd (0, 0))) by (rewrite map_length, combine_length; lia).
    rewrite (map_nth (fun ab => fst ab - q * snd ab) (combine r piv) (0, 0) j), combine_nth by lia. reflexivity.
  - rewrite !nth_out by (try apply row_sub_len; assumption). lia.
Qed.
Lemma row_rem_len r : length r = np -> length (row_rem r mods) = np.
Proof. intros A. unfold row_rem. rewrite map_length, combine_length. lia. Qed.
Lemma row_rem_nth r j : length r = np -> (j < np)%nat -> (md j | nth j (row_rem r mods) 0 - nth j r 0).
Proof.
  intros A J. unfold row_rem. rewrite (nth_indep (map (fun ab => Z.rem (fst ab) (snd ab)) (combine r mods)) 0 (Z.rem (fst (0, 0)) (snd (0, 0)))) by (rewrite map_length, combine_length; lia).
  rewrite (map_nth (fun ab => Z.rem (fst ab) (snd ab)) (combine r mods) (0, 0) j), combine_nth by lia. cbn [fst snd]. exists (- Z.quot (nth j r 0) (md j)).
  pose proof (Z.quot_rem' (nth j r 0) (md j)). lia.
Qed.

Definition subs (b : list Z -> bool) (q : list Z -> Z) (piv : list Z) (rows : list (list Z)) : list (list Z) :=
  map (fun r => if b r then row_sub (q r) r piv else r) rows.
Lemma subs_wf b q piv rows : wf rows -> In piv rows -> wf (subs b q piv rows).
Proof.
  intros W IP. apply Forall_forall. intros r I. apply in_map_iff in I. destruct I as (s & <- & I).
  destruct (b s); [apply row_sub_len|]; apply (wf_in _ _ W); assumption.
Qed.
Lemma subs_eqv k b q piv rows : wf rows -> In piv rows -> b piv = false -> eqv 1 k rows (subs b q piv rows).
Proof.
  intros W IP BP.
  assert (EQ : forall u v : vec, (forall j, u j = v j) -> rel 1 k u v).
  { intros u v H. split; [rewrite H, Z.mul_1_l, Z.sub_diag; apply Z.divide_0_r|]. intros j _. rewrite H, Z.sub_diag. apply Z.divide_0_r. }
  assert (IP1 : In piv (subs b q piv rows)) by (apply in_map_iff; exists piv; rewrite BP; auto).
  apply eqv_rows.
  - intros r I. set (r1 := if b r then row_sub (q r) r piv else r).
    assert (I1 : In r1 (subs b q piv rows)) by (apply in_map_iff; exists r; auto).
    exists (fun j => nth j r1 0 - (- (if b r then q r else 0)) * nth j piv 0). split; [apply (inV_sub _ (fun j => nth j r1 0) (fun j => nth j piv 0)); apply inV_row; assumption|].
    apply EQ. intros j. unfold r1. destruct (b r); [rewrite row_sub_nth by (apply (wf_in _ _ W); assumption)|]; ring.
  - intros r I. apply in_map_iff in I. destruct I as (s & <- & I).
    exists (fun j => nth j s 0 - (if b s then q s else 0) * nth j piv 0). split; [apply (inV_sub _ (fun j => nth j s 0) (fun j => nth j piv 0)); apply inV_row; assumption|].
    apply EQ. intros j. destruct (b s); [rewrite row_sub_nth by (apply (wf_in _ _ W); assumption)|]; ring.
Qed.

(** the least entry *)
Lemma col_min_ok k rows : forall c, c <> 0 ->
  let c' := col_min k rows c in c' <> 0 /\ Z.abs c' <= Z.abs c /\ (c' = c \/ exists r, In r rows /\ ent k r = c') /\
  forall r, In r rows -> ent k r <> 0 -> Z.abs c' <= Z.abs (ent k r).
Proof.
  unfold col_min. induction rows as [|r rows IH]; intros c C; cbn [fold_left].
  - repeat split; auto; [lia|]. intros r [].
  - set (c1 := if negb (ent k r =? 0) && (Z.abs (ent k r) <? Z.abs c) then ent k r else c).
    assert (C1 : c1 <> 0 /\ Z.abs c1 <= Z.abs c /\ (c1 = c \/ c1 = ent k r) /\ (ent k r <> 0 -> Z.abs c1 <= Z.abs (ent k r))).
    { unfold c1. destruct (Z.eqb_spec (ent k r) 0); cbn [negb andb]; [repeat split; auto; lia|].
      destruct (Z.ltb_spec (Z.abs (ent k r)) (Z.abs c)); repeat split; auto; lia. }
    destruct C1 as (N1 & L1 & E1 & M1). destruct (IH c1 N1) as (A & B & D & F). repeat split; [exact A|lia| |].
    + destruct D as [D|(s & I & D)]; [|right; exists s; cbn; auto]. rewrite D. destruct E1 as [E1|E1]; [left; exact E1|right; exists r; cbn; auto].
    + intros s [->|I] NZ; [specialize (M1 NZ); lia|exact (F s I NZ)].
Qed.
Lemma find_row_ok k c rows : forall i, (exists r, In r rows /\ ent k r = c) ->
  exists n, find_row k c i rows = Some (i + n)%nat /\ (n < length rows)%nat /\ In (nth n rows []) rows /\ ent k (nth n rows []) = c.
Proof.
  induction rows as [|r rows IH]; intros i (s & I & E); [contradiction|]. cbn [find_row].
  destruct (Z.eqb_spec (ent k r) c) as [H|H].
  - exists 0%nat. rewrite Nat.add_0_r. cbn. repeat split; auto. lia.
  - destruct I as [->|I]; [contradiction|]. destruct (IH (S i) ltac:(eauto)) as (n & A & B & D & F).
    exists (S n). replace (i + S n)%nat with (S i + n)%nat by lia. cbn [nth length In]. repeat split; auto. lia.
Qed.

Definition colgcd1 (k : nat) (rows : list (list Z)) : Prop := forall d, (forall r, In r rows -> (d | ent k r)) -> (d | 1).
Lemma min_loop_ok k rows modulus : (k < np)%nat -> wf rows -> 2 <= modulus -> colgcd1 k rows -> (forall r, In r rows -> Z.abs (ent k r) < modulus) ->
  exists m c, while (min_step k) (zfuel modulus) (rows, modulus) = Ok (m, c) /\ wf m /\ eqv 1 k rows m /\ Z.abs c = 1 /\ exists r, In r m /\ ent k r = c.
Proof.
  intros K W M G1 LT.
  destruct (while_total (min_step k)
    (fun s => wf (fst s) /\ eqv 1 k rows (fst s) /\ colgcd1 k (fst s) /\ snd s <> 0 /\
       ((exists r, In r (fst s) /\ ent k r <> 0 /\ Z.abs (ent k r) < Z.abs (snd s)) \/ (Z.abs (snd s) = 1 /\ exists r, In r (fst s) /\ ent k r = snd s)))
    (fun s => wf (fst s) /\ eqv 1 k rows (fst s) /\ Z.abs (snd s) = 1 /\ exists r, In r (fst s) /\ ent k r = snd s)
    (fun s => Z.abs (snd s))) with (n := zfuel modulus) (s := (rows, modulus)) as ([m c] & E & P).
  - intros s _. lia.
  - intros [m c] (Wm & EQ & GC & NZ & ALT). cbn [fst snd] in *. cbn [min_step].
    destruct (Z.ltb_spec 1 (Z.abs c)) as [H|H].
    + right. destruct ALT as [(r0 & I0 & NZ0 & LT0)|[A _]]; [|lia].
      destruct (col_min_ok k m c NZ) as (C1 & C2 & C3 & C4). set (c' := col_min k m c) in *.
      assert (LTc : Z.abs c' < Z.abs c) by (specialize (C4 r0 I0 NZ0); lia).
      destruct C3 as [C3|C3]; [rewrite C3 in LTc; lia|].
      destruct (find_row_ok k c' m 0 C3) as (n & FR & NL & NI & NE). rewrite FR. cbn [Nat.add].
      set (piv := nth n m []) in *. set (b := fun r => negb (Z.rem (ent k r) c' =? 0)).
      set (q := fun r => Z.quot (ent k r - Z.rem (ent k r) c') c').
      assert (BP : b piv = false) by (unfold b; rewrite NE, Z.rem_same by exact C1; reflexivity).
      exists (subs b q piv m, c'). split; [reflexivity|]. cbn [fst snd].
      assert (IP1 : In piv (subs b q piv m)) by (apply in_map_iff; exists piv; rewrite BP; auto).
      assert (ES : forall r, In r m -> exists r1, In r1 (subs b q piv m) /\ ent k r1 = Z.rem (ent k r) c' \/ (In r (subs b q piv m) /\ Z.rem (ent k r) c' = 0)).
      { intros r I. destruct (b r) eqn:Br.
        - exists (row_sub (q r) r piv). left. split; [apply in_map_iff; exists r; rewrite Br; auto|]. unfold ent at 1.
          rewrite row_sub_nth by (apply (wf_in _ _ Wm); assumption). fold (ent k r). fold (ent k piv). rewrite NE. unfold q.
          pose proof (Z.quot_rem' (ent k r) c') as QR. replace (ent k r - Z.rem (ent k r) c') with (Z.quot (ent k r) c' * c') by lia.
          rewrite Z.quot_mul by exact C1. lia.
        - exists r. right. split; [apply in_map_iff; exists r; rewrite Br; auto|]. unfold b in Br. apply negb_false_iff, Z.eqb_eq in Br. exact Br. }
      split; [|lia]. split; [apply subs_wf; assumption|]. split; [apply (eqv_trans 1 1 k rows m); [exact EQ|apply subs_eqv; assumption]|].
      assert (GC' : colgcd1 k (subs b q piv m)).
      { intros d D. apply GC. intros r I. pose proof (D piv IP1) as DP. rewrite NE in DP.
        destruct (ES r I) as (r1 & [[I1 E1]|[I1 E1]]).
        - pose proof (D r1 I1) as D1. rewrite E1 in D1. rewrite (Z.quot_rem' (ent k r) c'). apply Z.divide_add_r; [apply Z.divide_mul_l; exact DP|exact D1].
        - exact (D r I1). }
      split; [exact GC'|]. split; [exact C1|].
      destruct (Z.eq_dec (Z.abs c') 1) as [A1|A1]; [right; split; [exact A1|exists piv; auto]|left].
      (* some row is not divisible *)
      destruct (Exists_dec (fun r => Z.rem (ent k r) c' <> 0) m ltac:(intros r; destruct (Z.eq_dec (Z.rem (ent k r) c') 0); [right; lia|left; lia])) as [EX|NEX].
      * apply Exists_exists in EX. destruct EX as (r & I & NR). destruct (ES r I) as (r1 & [[I1 E1]|[_ E1]]); [|contradiction].
        exists r1. split; [exact I1|]. rewrite E1. split; [exact NR|]. apply Z.rem_bound_abs. exact C1.
      * exfalso. assert (D : (c' | 1)).
        { apply GC. intros r I. destruct (Z.eq_dec (Z.rem (ent k r) c') 0) as [R0|R0]; [apply Z.rem_divide; assumption|].
          exfalso. apply NEX. apply Exists_exists. eauto. }
        apply Z.divide_1_r in D. lia.
    + left. exists (m, c). split; [reflexivity|]. cbn [fst snd]. split; [exact Wm|]. split; [exact EQ|].
      destruct ALT as [(r0 & I0 & NZ0 & LT0)|A]; [lia|exact A].
  - cbn [fst snd]. split; [exact W|]. split; [apply eqv_refl|]. split; [exact G1|]. split; [lia|]. left.
    destruct (Exists_dec (fun r => ent k r <> 0) rows ltac:(intros r; destruct (Z.eq_dec (ent k r) 0); [right; lia|left; lia])) as [EX|NEX].
    + apply Exists_exists in EX. destruct EX as (r & I & NR). exists r. repeat split; auto. specialize (LT r I). lia.
    + exfalso. assert (D : (2 | 1)); [|apply Z.divide_1_r in D; lia]. apply G1. intros r I. destruct (Z.eq_dec (ent k r) 0) as [->|NZ]; [apply Z.divide_0_r|].
      exfalso. apply NEX. apply Exists_exists. eauto.
  - cbn [snd]. pose proof (zfuel_gt modulus). lia.
  - cbn [fst snd] in P. destruct P as (P1 & P2 & P3 & P4). exists m, c. auto.
Qed.

(** clearing the column *)
Section Clear.
Variables (k : nat) (c modulus : Z) (piv : list Z) (imin : nat).
Notation clr := (clear_rows k c modulus mods piv imin).
Definition cl_row (r : list Z) : list Z := row_rem (row_sub (ent k r * c) r piv) mods.
Definition cl_piv : list Z := row_rem (map (fun x => modulus * x) piv) mods.
Lemma clear_in rows : forall i, (forall n, (i + n)%nat = imin -> (n < length rows)%nat -> nth n rows [] = piv) ->
  forall x, In x (clr i rows) -> (exists r, In r rows /\ x = cl_row r) \/ x = cl_piv.
Proof.
  induction rows as [|r rows IH]; intros i H x I; [contradiction|]. cbn [clear_rows] in I. destruct I as [I|I].
  - destruct (Nat.eqb_spec i imin) as [E|E].
    + right. rewrite <- I. specialize (H 0%nat ltac:(lia) ltac:(cbn; lia)). cbn in H. subst r. reflexivity.
    + left. exists r. cbn; auto.
  - destruct (IH (S i)) with (x := x) as [(s & IS & E)|E]; auto; [|left; exists s; cbn; auto].
    intros n N L. specialize (H (S n) ltac:(lia) ltac:(cbn; lia)). exact H.
Qed.
Lemma clear_row_in rows : forall i, (forall n, (i + n)%nat = imin -> (n < length rows)%nat -> nth n rows [] = piv) ->
  forall r, In r rows -> In (cl_row r) (clr i rows) \/ r = piv.
Proof.
  induction rows as [|r rows IH]; intros i H s I; [contradiction|]. cbn [clear_rows]. destruct I as [->|I].
  - destruct (Nat.eqb_spec i imin) as [E|E]; [right|left; left; reflexivity]. specialize (H 0%nat ltac:(lia) ltac:(cbn; lia)). exact H.
  - destruct (IH (S i)) with (r := s) as [A|A]; auto; [|left; right; exact A].
    intros n N L. specialize (H (S n) ltac:(lia) ltac:(cbn; lia)). exact H.
Qed.
Lemma clear_piv_in rows : forall i n, (i + n)%nat = imin -> (n < length rows)%nat -> nth n rows [] = piv -> In cl_piv (clr i rows).
Proof.
  induction rows as [|r rows IH]; intros i n N L E; [cbn in L; lia|]. cbn [clear_rows]. destruct n as [|n].
  - left. replace i with imin by lia. rewrite Nat.eqb_refl. cbn in E. subst r. reflexivity.
  - right. apply (IH (S i) n); cbn in *; auto; lia.
Qed.
Lemma clear_wf rows : forall i, wf rows -> length piv = np -> wf (clr i rows).
Proof.
  induction rows as [|r rows IH]; intros i W LP; cbn [clear_rows]; [constructor|]. inversion_clear W as [|? ? L W']. constructor; [|apply IH; assumption].
  destruct (Nat.eqb i imin); apply row_rem_len; [rewrite map_length; exact L|apply row_sub_len; assumption].
Qed.
End Clear.

Lemma cl_row_same k c piv r : length r = np -> length piv = np -> sameF (S k) (fun j => nth j (cl_row k c piv r) 0) (fun j => nth j r 0 - ent k r * c * nth j piv 0).
Proof.
  intros A B j J. unfold cl_row. rewrite <- (row_sub_nth (ent k r * c) r piv j A B). apply row_rem_nth; [apply row_sub_len; assumption|lia].
Qed.
Lemma cl_piv_same k modulus piv : length piv = np -> sameF (S k) (fun j => nth j (cl_piv modulus piv) 0) (fun j => modulus * nth j piv 0).
Proof.
  intros A j J. unfold cl_piv. assert (L : length (map (fun x => modulus * x) piv) = np) by (rewrite map_length; exact A).
  pose proof (row_rem_nth _ j L ltac:(lia)) as H.
  replace (modulus * nth j piv 0) with (nth j (map (fun x => modulus * x) piv) 0); [exact H|].
  rewrite (nth_indep _ 0 (modulus * 0)) by lia. apply (map_nth (fun x => modulus * x)).
Qed.

Lemma skip_ok c k A B N : (k < np)%nat -> eqv c k A B -> (forall v, inV B v -> (md k | c * v k)) -> vord (S k) B N -> vord k A N.
Proof.
  intros K [E1 E2] H VB. rewrite <- (Z.mul_1_r N). apply (vord_step k A B (fun _ => 0) 1); auto; try lia.
  - apply inV_0.
  - intros t. rewrite Z.mul_0_r. split; intros _; [apply Z.divide_1_l|apply Z.divide_0_r].
  - intros u U. exists 0. destruct (E1 u U) as (v & V & [R _]). replace (u k - 0 * 0) with ((u k - c * v k) + c * v k) by ring.
    apply Z.divide_add_r; [exact R|exact (H v V)].
  - intros v V. destruct (E2 v V) as (u & U & [R S1]). exists u. repeat split; auto.
    replace (u k) with ((u k - c * v k) + c * v k) by ring. apply Z.divide_add_r; [exact R|exact (H v V)].
  - intros u U D. destruct (E1 u U) as (v & V & [R S1]). exists v. auto.
Qed.

Lemma clear_ok k A B gm g' m c imin N : (k < np)%nat -> wf B -> eqv (gm * g') k A B -> 1 <= gm -> 1 <= m -> md k = gm * m -> rel_prime g' m ->
  Z.abs c = 1 -> (imin < length B)%nat -> In (nth imin B []) B -> ent k (nth imin B []) = c ->
  vord (S k) (clear_rows k c m mods (nth imin B []) imin 0 B) N -> vord k A (N * m).
Proof.
  intros K WB [E1 E2] GM M MD RP C1 IM IP EP VC. set (piv := nth imin B []) in *.
  pose proof (wf_in _ _ WB IP) as LP. assert (CC : c * c = 1) by (clear - C1; destruct (Z.abs_eq_or_opp c) as [F|F]; rewrite F in C1; nia).
  assert (HN : forall n, (0 + n)%nat = imin -> (n < length B)%nat -> nth n B [] = piv) by (intros n <- _; reflexivity).
  destruct (E2 _ (inV_row B piv IP)) as (e & EV & [ER ES]). fold (ent k piv) in ER. rewrite EP in ER.
  assert (DC : forall t, (md k | gm * g' * t) <-> (m | t)).
  { intros t. rewrite MD. split.
    - intros D. replace (gm * g' * t) with (gm * (g' * t)) in D by ring. apply Z.mul_divide_cancel_l in D; [|lia].
      apply Gauss with g'; [exact D|apply rel_prime_sym; exact RP].
    - intros [s ->]. exists (g' * s). ring. }
  (* every combination, cleared *)
  assert (CL : forall v, inV B v -> exists w, inV (clear_rows k c m mods piv imin 0 B) w /\ sameF (S k) (fun j => v j - v k * c * nth j piv 0) w).
  { apply inV_ind.
    - intros u v H (w & W & S). exists w. split; [exact W|]. intros j J. rewrite <- !H. apply S. exact J.
    - exists (fun _ => 0). split; [apply inV_0|]. intros j _. exists 0. ring.
    - intros u v (w & W & S) (w' & W' & S'). exists (fun j => w j + w' j). split; [apply inV_add; assumption|]. intros j J.
      replace (u j + v j - (u k + v k) * c * nth j piv 0 - (w j + w' j)) with ((u j - u k * c * nth j piv 0 - w j) + (v j - v k * c * nth j piv 0 - w' j)) by ring.
      apply Z.divide_add_r; [apply S|apply S']; exact J.
    - intros t u (w & W & S). exists (fun j => t * w j). split; [apply inV_scale; assumption|]. intros j J.
      replace (t * u j - t * u k * c * nth j piv 0 - t * w j) with (t * (u j - u k * c * nth j piv 0 - w j)) by ring. apply Z.divide_mul_r, S, J.
    - intros r I. destruct (clear_row_in k c m piv imin B 0 HN r I) as [IR| ->].
      + exists (fun j => nth j (cl_row k c piv r) 0). split; [apply inV_row; exact IR|]. apply sameF_sym. apply cl_row_same; [exact (wf_in _ _ WB I)|exact LP].
      + exists (fun _ => 0). split; [apply inV_0|]. intros j _. fold (ent k piv). rewrite EP, CC. exists 0. ring. }
  apply (vord_step k A (clear_rows k c m mods piv imin 0 B) e m); auto.
  - intros t. rewrite <- (DC t). split; intros D.
    + replace (gm * g' * t) with (c * (t * e k - t * (e k - gm * g' * c))).
      * apply Z.divide_mul_r. apply Z.divide_sub_r; [exact D|apply Z.divide_mul_r, ER].
      * transitivity (gm * g' * t * (c * c)); [ring|rewrite CC; ring].
    + replace (t * e k) with (t * (e k - gm * g' * c) + c * (gm * g' * t)) by ring. apply Z.divide_add_r; apply Z.divide_mul_r; assumption.
  - intros u U. destruct (E1 u U) as (v & V & [R _]). exists (v k * c).
    replace (u k - v k * c * e k) with ((u k - gm * g' * v k) - v k * c * (e k - gm * g' * c)).
    + apply Z.divide_sub_r; [exact R|apply Z.divide_mul_r, ER].
    + transitivity (u k - v k * c * e k + gm * g' * v k * (c * c - 1)); [ring|rewrite CC; ring].
  - assert (UPB : forall v, inV (clear_rows k c m mods piv imin 0 B) v -> exists b, inV B b /\ (m | b k) /\ sameF (S k) b v).
    { apply inV_ind.
      - intros u v H (b & Bb & D & S). exists b. repeat split; auto. intros j J. rewrite <- H. apply S, J.
      - exists (fun _ => 0). repeat split; [apply inV_0|apply Z.divide_0_r|apply sameF_refl].
      - intros u v (b & Bb & D & S) (b' & Bb' & D' & S'). exists (fun j => b j + b' j). repeat split; [apply inV_add; assumption|apply Z.divide_add_r; assumption|].
        intros j J. replace (b j + b' j - (u j + v j)) with ((b j - u j) + (b' j - v j)) by ring. apply Z.divide_add_r; [apply S|apply S']; exact J.
      - intros t u (b & Bb & D & S). exists (fun j => t * b j). repeat split; [apply inV_scale; assumption|apply Z.divide_mul_r; assumption|].
        intros j J. replace (t * b j - t * u j) with (t * (b j - u j)) by ring. apply Z.divide_mul_r, S, J.
      - intros x I. destruct (clear_in k c m piv imin B 0 HN x I) as [(r & IR & ->)| ->].
        + exists (fun j => nth j r 0 - ent k r * c * nth j piv 0). repeat split.
          * apply (inV_sub _ (fun j => nth j r 0) (fun j => nth j piv 0)); apply inV_row; assumption.
          * fold (ent k piv). fold (ent k r). rewrite EP. replace (ent k r - ent k r * c * c) with (ent k r * (1 - c * c)) by ring. rewrite CC. exists 0. ring.
          * apply sameF_sym. apply cl_row_same; [exact (wf_in _ _ WB IR)|exact LP].
        + exists (fun j => m * nth j piv 0). repeat split.
          * apply (inV_scale _ m (fun j => nth j piv 0)). apply inV_row, IP.
          * apply Z.divide_factor_l.
          * apply sameF_sym. apply cl_piv_same, LP. }
    intros v V. destruct (UPB v V) as (b & Bb & D & S). destruct (E2 b Bb) as (u & U & [R S']). exists u. repeat split; auto.
    + replace (u k) with ((u k - gm * g' * b k) + gm * g' * b k) by ring. apply Z.divide_add_r; [exact R|apply DC, D].
    + exact (sameF_trans _ _ _ _ S' S).
  - intros u U D. destruct (E1 u U) as (v & V & [R S]).
    assert (DV : (m | v k)).
    { apply DC. replace (gm * g' * v k) with (u k - (u k - gm * g' * v k)) by ring. apply Z.divide_sub_r; assumption. }
    destruct DV as [s DV]. destruct (CL v V) as (w & W & SW).
    pose proof (clear_piv_in k c m piv imin B 0 imin eq_refl IM eq_refl) as IPV.
    exists (fun j => w j + (s * c) * nth j (cl_piv m piv) 0). split.
    + apply inV_add; [exact W|]. apply (inV_scale _ (s * c) (fun j => nth j (cl_piv m piv) 0)). apply inV_row, IPV.
    + intros j J. pose proof (S j J) as D1. pose proof (SW j J) as D2. pose proof (cl_piv_same k m piv LP j J) as D3.
      cbn beta in D2, D3. rewrite DV in D2.
      replace (u j - (w j + s * c * nth j (cl_piv m piv) 0)) with
        ((u j - v j) + (v j - s * m * c * nth j piv 0 - w j) - s * c * (nth j (cl_piv m piv) 0 - m * nth j piv 0)) by ring.
      apply Z.divide_sub_r; [apply Z.divide_add_r; assumption|apply Z.divide_mul_r, D3].
Qed.

(** the gcd of the column *)
Lemma fold_gcd k rows : forall g0, 0 <= g0 ->
  let g1 := fold_left (fun gg r => if gg =? 1 then gg else Z.gcd gg (ent k r)) rows g0 in
  0 <= g1 /\ (g1 | g0) /\ (forall r, In r rows -> (g1 | ent k r)) /\ (forall d, (d | g0) -> (forall r, In r rows -> (d | ent k r)) -> (d | g1)).
Proof.
  induction rows as [|r rows IH]; intros g0 G0; cbn [fold_left]; [repeat split; auto; [apply Z.divide_refl|intros r []]|].
  set (g1 := if g0 =? 1 then g0 else Z.gcd g0 (ent k r)).
  assert (G1 : 0 <= g1 /\ (g1 | g0) /\ (g1 | ent k r) /\ (forall d, (d | g0) -> (d | ent k r) -> (d | g1))).
  { unfold g1. destruct (Z.eqb_spec g0 1) as [->|_].
    - repeat split; auto; apply Z.divide_1_l.
    - repeat split; [apply Z.gcd_nonneg|apply Z.gcd_divide_l|apply Z.gcd_divide_r|intros; apply Z.gcd_greatest; assumption]. }
  destruct G1 as (A & B & C & D). destruct (IH g1 A) as (A' & B' & C' & D'). repeat split; auto.
  - exact (Z.divide_trans _ _ _ B' B).
  - intros s [->|I]; [exact (Z.divide_trans _ _ _ B' C)|exact (C' s I)].
  - intros d H1 H2. apply D'; [apply D; [exact H1|apply H2; left; reflexivity]|]. intros s I. apply H2. right. exact I.
Qed.

Lemma comp_col_ok k rows ans : (k < np)%nat -> wf rows ->
  exists rows' a, comp_col mods k (rows, ans) = Ok (rows', ans * a) /\ wf rows' /\ 1 <= a /\ forall N, vord (S k) rows' N -> vord k rows (N * a).
Proof.
  intros K W. unfold comp_col. change (ent k mods) with (md k). pose proof (MP k K) as M1.
  destruct (Z.eqb_spec (md k) 1) as [E1|E1].
  { exists rows, 1. rewrite Z.mul_1_r. repeat split; auto; [lia|]. intros N V. rewrite Z.mul_1_r.
    apply (skip_ok 1 k rows rows N K (eqv_refl k rows)); [|exact V]. intros v _. rewrite E1. apply Z.divide_1_l. }
  set (m1 := map_col k (fun x => Z.rem x (md k)) rows). pose proof (map_col_wf k (fun x => Z.rem x (md k)) rows W) as W1. fold m1 in W1.
  assert (Q1 : eqv 1 k rows m1).
  { apply map_col_eqv; [exact K|exact W|]. intros r _. exists (Z.quot (ent k r) (md k)). pose proof (Z.quot_rem' (ent k r) (md k)). lia. }
  assert (LT : forall r, In r m1 -> Z.abs (ent k r) < md k).
  { intros r I. destruct (map_col_ent k _ rows r K W I) as (s & _ & ->). pose proof (Z.rem_bound_abs (ent k s) (md k) ltac:(lia)). lia. }
  clearbody m1. destruct (fold_gcd k m1 0 ltac:(lia)) as (G0 & _ & GD & GG).
  set (gg := fold_left _ m1 0) in *. clearbody gg.
  destruct (Z.eqb_spec gg 0) as [->|GN].
  { exists m1, 1. rewrite Z.mul_1_r. split; [reflexivity|]. split; [exact W1|]. split; [lia|]. intros N V. rewrite Z.mul_1_r.
    apply (skip_ok 1 k rows m1 N K Q1); [|exact V].
    apply inV_ind; intros.
    - rewrite <- H. exact H0.
    - apply Z.divide_0_r.
    - rewrite Z.mul_add_distr_l. apply Z.divide_add_r; assumption.
    - replace (1 * (k0 * u k)) with (k0 * (1 * u k)) by ring. apply Z.divide_mul_r. assumption.
    - specialize (GD r H). fold (ent k r). apply Z.divide_0_l in GD. rewrite GD. apply Z.divide_0_r. }
  (* scaling *)
  assert (NZE : exists r, In r m1 /\ ent k r <> 0).
  { destruct (Exists_dec (fun r => ent k r <> 0) m1 ltac:(intros r; destruct (Z.eq_dec (ent k r) 0); [right; lia|left; lia])) as [EX|NEX].
    - apply Exists_exists in EX. exact EX.
    - exfalso. apply GN. apply Z.divide_0_l. apply GG; [apply Z.divide_refl|]. intros r I. destruct (Z.eq_dec (ent k r) 0) as [->|NZ]; [apply Z.divide_refl|].
      exfalso. apply NEX. apply Exists_exists. eauto. }
  assert (GLT : gg < md k).
  { destruct NZE as (r & I & NZ). specialize (LT r I). specialize (GD r I). apply Z.divide_abs_r in GD. apply Z.divide_pos_le in GD; lia. }
  set (gm := Z.gcd gg (md k)). assert (GMP : 1 <= gm). { unfold gm. pose proof (Z.gcd_nonneg gg (md k)). assert (GNZ : Z.gcd gg (md k) <> 0); [intros F; apply Z.gcd_eq_0_l in F|]; lia. }
  destruct (Z.gcd_divide_l gg (md k)) as [g' G']. destruct (Z.gcd_divide_r gg (md k)) as [m M']. fold gm in G', M'.
  assert (RP : rel_prime g' m).
  { apply Zgcd_1_rel_prime. assert (H : Z.gcd (g' * gm) (m * gm) = Z.gcd g' m * gm) by (rewrite Z.gcd_mul_mono_r_nonneg by lia; reflexivity).
    rewrite <- G', <- M' in H. fold gm in H. clear - H GMP. nia. }
  assert (M2 : 2 <= m). { assert (gm <= gg) by (apply Z.divide_pos_le; [lia|apply Z.gcd_divide_l]). clear - H GLT M' GMP M1. nia. }
  assert (GP' : 1 <= g') by (clear - G' GMP GN G0; nia).
  assert (CG1 : forall B, wf B -> (forall s, In s m1 -> exists r, In r B /\ ent k s = gg * ent k r) -> colgcd1 k B).
  { intros B WB H d D. assert (DG : (gg * d | gg)). { apply GG; [apply Z.divide_0_r|]. intros s I. destruct (H s I) as (r & IR & ->). apply Z.mul_divide_mono_l, D, IR. }
    rewrite <- (Z.mul_1_r gg) in DG at 2. apply Z.mul_divide_cancel_l in DG; [exact DG|exact GN]. }
  set (SC := if 1 <? gg then _ else (m1, md k)).
  assert (HB : exists B, SC = (B, m) /\ wf B /\ eqv (gm * g') k rows B /\ colgcd1 k B /\ forall r, In r B -> Z.abs (ent k r) < m).
  { unfold SC. clear SC. destruct (Z.ltb_spec 1 gg) as [GT|GE].
    2: { assert (G1e : gg = 1) by lia. assert (GM1 : gm = 1) by (unfold gm; rewrite G1e; apply Z.gcd_1_l). exists m1. replace m with (md k) by (rewrite M', GM1; ring). split; [reflexivity|].
         split; [exact W1|]. split; [replace (gm * g') with 1 by (rewrite <- G1e, G'; ring); exact Q1|]. split; [|exact LT].
         apply CG1; [exact W1|]. intros s I. exists s. split; [exact I|rewrite G1e; ring]. }
    assert (QD : forall a x, 0 < a -> (a | x) -> exists y, x = a * y /\ Z.quot x a = y).
    { intros a x A [y ->]. exists y. split; [ring|]. apply Z.quot_mul. lia. }
    fold gm.
    assert (ST1 : exists B1, (if 1 <? gm then (map_col k (fun x => Z.rem (Z.quot x gm) (Z.quot (md k) gm)) m1, Z.quot (md k) gm, Z.quot gg gm) else (m1, md k, gg)) = (B1, m, g')
                  /\ wf B1 /\ eqv gm k m1 B1 /\ (forall r, In r B1 -> Z.abs (ent k r) < m /\ (g' | ent k r)) /\ (forall s, In s m1 -> exists r, In r B1 /\ ent k s = gm * ent k r)).
    { destruct (Z.ltb_spec 1 gm) as [T|T].
      - replace (Z.quot (md k) gm) with m by (rewrite M'; symmetry; apply Z.quot_mul; lia). replace (Z.quot gg gm) with g' by (rewrite G'; symmetry; apply Z.quot_mul; lia).
        assert (EX : forall s, In s m1 -> exists y, ent k s = gm * y /\ Z.rem (Z.quot (ent k s) gm) m = y /\ Z.abs y < m /\ (g' | y)).
        { intros s I. specialize (GD s I). specialize (LT s I). destruct (QD gm (ent k s)) as (y & Y1 & Y2); [lia|apply Z.divide_trans with gg; [apply Z.gcd_divide_l|exact GD]|].
          exists y. split; [exact Y1|]. assert (AY : Z.abs y < m). { rewrite Y1, M' in LT. rewrite Z.abs_mul in LT. clear - LT GMP. nia. }
          split; [rewrite Y2; apply Z.rem_small_iff; lia|]. split; [exact AY|]. rewrite Y1, G' in GD. rewrite (Z.mul_comm g') in GD. apply Z.mul_divide_cancel_l in GD; [exact GD|lia]. }
        eexists. split; [reflexivity|]. split; [apply map_col_wf; exact W1|]. split; [|split].
        + apply map_col_eqv; [exact K|exact W1|]. intros s I. destruct (EX s I) as (y & Y1 & Y2 & _). rewrite Y2, Y1, Z.sub_diag. apply Z.divide_0_r.
        + intros r I. destruct (map_col_ent k _ m1 r K W1 I) as (s & IS & ->). destruct (EX s IS) as (y & _ & Y2 & Y3 & Y4). rewrite Y2. auto.
        + intros s I. destruct (map_col_in k (fun x => Z.rem (Z.quot x gm) m) m1 s K W1 I) as (r & IR & ER). exists r. split; [exact IR|].
          destruct (EX s I) as (y & Y1 & Y2 & _). rewrite ER, Y2. exact Y1.
      - assert (gm = 1) by lia. exists m1. replace m with (md k) by (rewrite M', H; ring). replace g' with gg by (rewrite G', H; ring). split; [reflexivity|].
        split; [exact W1|]. rewrite H. split; [apply eqv_refl|]. split; [intros r I; split; [apply LT; exact I|apply GD; exact I]|].
        intros s I. exists s. split; [exact I|ring]. }
    destruct ST1 as (B1 & -> & WB1 & EB1 & LB1 & CB1). cbn [fst snd].
    assert (ERB : eqv gm k rows B1). { replace gm with (1 * gm) by ring. apply (eqv_trans 1 gm k rows m1); assumption. }
    destruct (Z.ltb_spec 1 g') as [T|T].
    - assert (EX : forall s, In s B1 -> exists y, ent k s = g' * y /\ Z.rem (Z.quot (ent k s) g') m = y /\ Z.abs y < m).
      { intros s I. destruct (LB1 s I) as [L D]. destruct (QD g' (ent k s) ltac:(lia) D) as (y & Y1 & Y2). exists y. split; [exact Y1|].
        assert (AY : Z.abs y < m) by (rewrite Y1, Z.abs_mul in L; clear - L GP'; nia). split; [rewrite Y2; apply Z.rem_small_iff; lia|exact AY]. }
      eexists. split; [reflexivity|]. split; [apply map_col_wf; exact WB1|]. split; [|split].
      + apply (eqv_trans gm g' k rows B1); [exact ERB|]. apply map_col_eqv; [exact K|exact WB1|]. intros s I. destruct (EX s I) as (y & Y1 & Y2 & _). rewrite Y2, Y1, Z.sub_diag. apply Z.divide_0_r.
      + apply CG1; [apply map_col_wf; exact WB1|]. intros s I. destruct (CB1 s I) as (t & IT & ET).
        destruct (map_col_in k (fun x => Z.rem (Z.quot x g') m) B1 t K WB1 IT) as (r & IR & ER). exists r. split; [exact IR|].
        destruct (EX t IT) as (y & Y1 & Y2 & _). rewrite ER, Y2, ET, Y1, G'. ring.
      + intros r I. destruct (map_col_ent k _ B1 r K WB1 I) as (s & IS & ->). destruct (EX s IS) as (y & _ & Y2 & Y3). rewrite Y2. exact Y3.
    - assert (g' = 1) by lia. exists B1. split; [reflexivity|]. split; [exact WB1|]. split; [rewrite H, Z.mul_1_r; exact ERB|]. split; [|intros r I; apply LB1; exact I].
      apply CG1; [exact WB1|]. intros s I. destruct (CB1 s I) as (t & IT & ET). exists t. split; [exact IT|]. rewrite ET, G', H. ring. }
  clearbody SC. destruct HB as (B & -> & WB & EB & CB & LB).
  destruct (Z.eqb_spec m 1) as [F|_]; [lia|].
  destruct (min_loop_ok k B m K WB M2 CB LB) as (m3 & c & WE & W3 & E3 & C3 & EX3). rewrite WE, bind_Ok.
  destruct (find_row_ok k c m3 0 EX3) as (imin & FR & IL & II & IE). rewrite FR. cbn [Nat.add].
  exists (clear_rows k c m mods (nth imin m3 []) imin 0 m3), m. split; [reflexivity|]. split; [apply clear_wf; [exact W3|exact (wf_in _ _ W3 II)]|]. split; [lia|].
  intros N V. apply (clear_ok k rows m3 gm g' m c imin N); auto; try lia.
  replace (gm * g') with (gm * g' * 1) by ring. apply (eqv_trans (gm * g') 1 k rows B); assumption.
Qed.

Lemma comp_cols_ok n : forall k rows ans, (k + n)%nat = np -> wf rows ->
  exists rows' a, comp_cols mods (seq k n) (rows, ans) = Ok (rows', ans * a) /\ 1 <= a /\ vord k rows a.
Proof.
  induction n as [|n IH]; intros k rows ans K W.
  - exists rows, 1. cbn [seq comp_cols]. rewrite Z.mul_1_r. replace k with np by lia. repeat split; [lia|apply vord_end].
  - cbn [seq comp_cols]. destruct (comp_col_ok k rows ans ltac:(lia) W) as (rows1 & a1 & -> & W1 & A1 & V1). rewrite bind_Ok.
    destruct (IH (S k) rows1 (ans * a1) ltac:(lia) W1) as (rows2 & a2 & -> & A2 & V2). exists rows2, (a2 * a1).
    split; [do 2 f_equal; ring|]. split; [clear - A1 A2; nia|]. apply V1, V2.
Qed.
End Cols.

Theorem comp_map_image_ok mods rows : (forall j, (j < length mods)%nat -> 1 <= nth j mods 0) ->
  (forall r, In r rows -> length r = length mods) ->
  exists N, comp_map_image mods rows = Ok N /\ image_order mods rows N.
Proof.
  intros MP W. destruct (comp_cols_ok mods MP (length mods) 0 rows 1 eq_refl (proj2 (Forall_forall _ _) W)) as (rows' & a & E & A & V).
  exists a. unfold comp_map_image. rewrite E, bind_Ok. split; [f_equal; ring|].
  destruct V as (R & RL & RV & RP & RC).
  destruct (Forall_choose (fun v cs => forall j, v j = cmb cs rows j) R) as [R' F].
  { intros v I. exact (proj1 (Forall_forall _ _) RV v I). }
  exists R'. split; [rewrite <- (F2_length _ _ _ F); exact RL|]. split.
  - refine (FOP_Forall2 _ _ _ _ _ _ F RP). intros u u' c c' H H' NS S. apply NS. intros j J. rewrite H, H'. apply S. lia.
  - intros cs. destruct (RC (cmb cs rows)) as (r & IR & S); [exists cs; reflexivity|].
    destruct (Forall2_in_l _ _ _ _ F IR) as (c & IC & H). exists c. split; [exact IC|]. intros j J. rewrite <- H. apply S. lia.
Qed.
