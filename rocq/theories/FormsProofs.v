(** Proofs about 2x2 matrices and binary forms. *)
From Coq Require Import ZArith Lia List Bool.
From Verif Require Import Base RatModel MArithModel MArithProofs FormsModel.
Import ListNotations.
Open Scope Z_scope.

(** ** Matrices *)
Lemma um_eq a b c d a' b' c' d' : a = a' -> b = b' -> c = c' -> d = d' -> Um a b c d = Um a' b' c' d'.
Proof. congruence. Qed.

Ltac um := intros; unfold um_mul, um_det, um_xshift, um_yshift, um_negate, um_seminegate,
  um_invert, um_id in *; cbn [m11 m12 m21 m22] in *.

Lemma um_mul_assoc a b c : um_mul a (um_mul b c) = um_mul (um_mul a b) c.
Proof. um. apply um_eq; ring. Qed.
Lemma um_mul_id_l a : um_mul um_id a = a.
Proof. um. destruct a as [p q r s]; cbn [m11 m12 m21 m22]. apply um_eq; ring. Qed.
Lemma um_mul_id_r a : um_mul a um_id = a.
Proof. um. destruct a as [p q r s]; cbn [m11 m12 m21 m22]. apply um_eq; ring. Qed.
Lemma um_det_mul a b : um_det (um_mul a b) = um_det a * um_det b.
Proof. um. ring. Qed.
Lemma um_xshift_mul a m : um_xshift a m = um_mul m (Um 1 a 0 1).
Proof. um. apply um_eq; ring. Qed.
Lemma um_yshift_mul a m : um_yshift a m = um_mul m (Um 1 0 a 1).
Proof. um. apply um_eq; ring. Qed.
Lemma um_negate_mul m : um_negate m = um_mul m (Um (-1) 0 0 (-1)).
Proof. um. apply um_eq; ring. Qed.
Lemma um_seminegate_mul m : um_seminegate m = um_mul m (Um 1 0 0 (-1)).
Proof. um. apply um_eq; ring. Qed.
Lemma um_invert_mul m : um_invert m = um_mul m (Um 0 (-1) 1 0).
Proof. um. apply um_eq; ring. Qed.
Lemma um_inverse_mul m : um_mul (fst (um_inverse m)) m = Um (um_det m) 0 0 (um_det m) /\
  um_mul m (fst (um_inverse m)) = Um (um_det m) 0 0 (um_det m).
Proof. unfold um_inverse. cbn [fst]. um. split; apply um_eq; ring. Qed.

(** ** Quadratics *)
Lemma q_eq a b c a' b' c' : a = a' -> b = b' -> c = c' -> Qd a b c = Qd a' b' c'.
Proof. congruence. Qed.
Ltac qd := intros; unfold q_transform, q_xshift, q_yshift, q_invert, q_eval, q_disc, um_mul, um_det, um_id in *;
  cbn [qa qb qc m11 m12 m21 m22] in *.
Lemma q_transform_eval m q x z :
  q_eval (q_transform m q) x z = q_eval q (m11 m * x + m12 m * z) (m21 m * x + m22 m * z).
Proof. qd. ring. Qed.
Lemma q_transform_mul m n q : q_transform n (q_transform m q) = q_transform (um_mul m n) q.
Proof. qd. apply q_eq; ring. Qed.
Lemma q_transform_id q : q_transform um_id q = q.
Proof. qd. destruct q as [a b c]; cbn [qa qb qc]. apply q_eq; ring. Qed.
Lemma q_disc_transform m q : q_disc (q_transform m q) = um_det m * um_det m * q_disc q.
Proof. qd. ring. Qed.
Lemma q_xshift_tr a q : q_xshift a q = q_transform (Um 1 a 0 1) q.
Proof. qd. apply q_eq; ring. Qed.
Lemma q_yshift_tr a q : q_yshift a q = q_transform (Um 1 0 a 1) q.
Proof. qd. apply q_eq; ring. Qed.
Lemma q_invert_tr q : q_invert q = q_transform (Um 0 (-1) 1 0) q.
Proof. qd. apply q_eq; ring. Qed.

(** reduce on positive definite forms *)
Definition qred_inv (q0 : quadratic) (m0 : unimod) (s : quadratic * unimod) : Prop :=
  0 < qa (fst s) /\ - qa (fst s) <= qb (fst s) < qa (fst s) /\
  exists M, um_det M = 1 /\ fst s = q_transform M q0 /\ snd s = um_mul m0 M.

Lemma q_disc_unim M q : um_det M = 1 -> q_disc (q_transform M q) = q_disc q.
Proof. intros H. rewrite q_disc_transform, H. ring. Qed.

Lemma posdef_c q : 0 < qa q -> q_disc q < 0 -> 0 < qc q.
Proof. unfold q_disc. intros. nia. Qed.

Lemma shift_inv q0 m0 q m : 0 < qa q -> (exists M, um_det M = 1 /\ q = q_transform M q0 /\ m = um_mul m0 M) ->
  exists a, roundover (- qb q) (2 * qa q) = Ok a /\
  qred_inv q0 m0 (q_xshift a q, um_xshift a m) /\ qa (q_xshift a q) = qa q.
Proof.
  intros Ha (M & D & Eq & Em). destruct (roundover_ok (- qb q) (2 * qa q)) as (a & E & H); [lia|].
  exists a. split; [exact E|]. split; [|reflexivity]. unfold qred_inv. cbn [fst snd].
  split; [exact Ha|]. split; [unfold q_xshift; cbn [qa qb]; lia|].
  exists (um_mul M (Um 1 a 0 1)). split; [rewrite um_det_mul, D; unfold um_det; cbn [m11 m12 m21 m22]; ring|].
  rewrite q_xshift_tr, um_xshift_mul, Eq, Em, q_transform_mul, um_mul_assoc. auto.
Qed.

Lemma q_reduce_ok q m : 0 < qa q -> q_disc q < 0 ->
  exists q' m', q_reduce q m = Ok (q', m') /\ 0 < qa q' /\ - qa q' <= qb q' < qa q' /\ qa q' <= qc q' /\
  exists M, um_det M = 1 /\ q' = q_transform M q /\ m' = um_mul m M.
Proof.
  intros Ha HD. unfold q_reduce. destruct (Z.ltb_spec (qa q) 0); [lia|].
  destruct (shift_inv q m q m Ha) as (a & -> & I & EA).
  { exists um_id. split; [reflexivity|]. now rewrite q_transform_id, um_mul_id_r. }
  rewrite bind_Ok.
  edestruct (while_total qred_step (qred_inv q m)
     (fun r => qred_inv q m r /\ qa (fst r) <= qc (fst r)) (fun s => qa (fst s)))
     with (n := zfuel (qa q)) (s := (q_xshift a q, um_xshift a m)) as ([q' m'] & -> & H1 & H2).
  - intros s (H0 & _). lia.
  - intros [q1 m1] Hi. unfold qred_step. destruct (Z.leb_spec (qa q1) (qc q1)) as [L|L].
    + left. eexists. split; [reflexivity|]. auto.
    + right. destruct Hi as (P1 & P2 & M & D & Eq & Em). cbn [fst snd] in *.
      assert (0 < qc q1). { apply posdef_c; auto. rewrite Eq, q_disc_unim; auto. }
      destruct (shift_inv q m (q_invert q1) (um_invert m1)) as (b & E & I' & EA').
      { cbn [q_invert qa]. lia. }
      { exists (um_mul M (Um 0 (-1) 1 0)). split; [rewrite um_det_mul, D; unfold um_det; cbn [m11 m12 m21 m22]; ring|].
        rewrite q_invert_tr, um_invert_mul, Eq, Em, q_transform_mul, um_mul_assoc. auto. }
      rewrite E. eexists. split; [reflexivity|]. split; [exact I'|]. cbn [fst].
      rewrite EA'. cbn [q_invert qa]. lia.
  - exact I.
  - cbn [fst]. rewrite EA. pose proof (zfuel_gt (qa q)). lia.
  - destruct H1 as (P1 & P2 & M & D & Eq & Em). cbn [fst snd] in *.
    exists q', m'. split; [reflexivity|]. do 3 (split; [auto|]). exists M. auto.
Qed.

Lemma q_resultant_bezout q1 q2 : q_resultant q1 q2 =
  (qa q1 * qc q2 - qa q2 * qc q1) * (qa q1 * qc q2 - qa q2 * qc q1)
  - (qa q1 * qb q2 - qa q2 * qb q1) * (qb q1 * qc q2 - qb q2 * qc q1).
Proof. unfold q_resultant. ring. Qed.

(** ** Cubics *)
Lemma c_eq a b c d a' b' c' d' : a = a' -> b = b' -> c = c' -> d = d' -> Cb a b c d = Cb a' b' c' d'.
Proof. congruence. Qed.
Ltac cbf := intros; unfold c_transform, c_xshift, c_yshift, c_invert, c_negate, c_seminegate, c_eval, c_disc,
  p_semi, q_semi, r_semi, um_mul, um_det, um_id in *; cbn [ca cb cc cd m11 m12 m21 m22] in *; cbv zeta in *.
Lemma c_transform_eval m f x z :
  c_eval (c_transform m f) x z = c_eval f (m11 m * x + m12 m * z) (m21 m * x + m22 m * z).
Proof. cbf. ring. Qed.
Lemma c_transform_mul m n f : c_transform n (c_transform m f) = c_transform (um_mul m n) f.
Proof. cbf. apply c_eq; ring. Qed.
Lemma c_transform_id f : c_transform um_id f = f.
Proof. cbf. destruct f as [a b c d]; cbn [ca cb cc cd]. apply c_eq; ring. Qed.
Lemma c_disc_transform m f : c_disc (c_transform m f) = um_det m ^ 6 * c_disc f.
Proof. cbf. ring. Qed.
Lemma c_xshift_tr a f : c_xshift a f = c_transform (Um 1 a 0 1) f.
Proof. cbf. apply c_eq; ring. Qed.
Lemma c_yshift_tr a f : c_yshift a f = c_transform (Um 1 0 a 1) f.
Proof. cbf. apply c_eq; ring. Qed.
(** unimod::invert multiplies by (0,-1;1,0), cubic::invert substitutes its negative. *)
Lemma c_invert_tr f : c_invert f = c_transform (Um 0 1 (-1) 0) f.
Proof. cbf. apply c_eq; ring. Qed.
Lemma c_negate_tr f : c_negate f = c_transform (Um (-1) 0 0 (-1)) f.
Proof. cbf. apply c_eq; ring. Qed.
Lemma c_seminegate_tr f : c_seminegate f = c_transform (Um 1 0 0 (-1)) f.
Proof. cbf. apply c_eq; ring. Qed.

(** The Hessian is a covariant. *)
Definition hessian (f : cubic) : quadratic := Qd (p_semi f) (q_semi f) (r_semi f).
Lemma hessian_transform m f : um_det m = 1 -> hessian (c_transform m f) = q_transform m (hessian f).
Proof.
  intros D. assert (E : hessian (c_transform m f) =
    let h := q_transform m (hessian f) in let d := um_det m * um_det m in
    Qd (d * qa h) (d * qb h) (d * qc h)).
  { cbv zeta. unfold hessian. cbf. unfold q_transform, q_eval. cbn [qa qb qc]. apply q_eq; ring. }
  rewrite E. cbv zeta. rewrite D. destruct (q_transform m (hessian f)) as [a b c]; cbn [qa qb qc]. apply q_eq; ring.
Qed.
Lemma hessian_disc f : q_disc (hessian f) = -3 * c_disc f.
Proof. unfold hessian, q_disc. cbn [qa qb qc]. cbf. ring. Qed.
Lemma hessian_pos f : 0 < c_disc f -> 0 < p_semi f.
Proof.
  intros D.
  assert (S : 4 * p_semi f ^ 3 = (2 * cb f ^ 3 + 27 * ca f ^ 2 * cd f - 9 * ca f * cb f * cc f) ^ 2
     + 27 * c_disc f * ca f ^ 2) by (cbf; ring).
  pose proof (hessian_disc f) as H. unfold q_disc, hessian in H. cbn [qa qb qc] in H.
  remember (p_semi f) as P. clear HeqP.
  assert (P <> 0). { intros ->. clear - H D. nia. }
  assert (0 <= 4 * P ^ 3).
  { rewrite S. apply Z.add_nonneg_nonneg; [apply Z.pow_even_nonneg; now exists 1|].
    apply Z.mul_nonneg_nonneg; [lia|]. apply Z.pow_even_nonneg. now exists 1. }
  clear - H0 H1. replace (4 * P ^ 3) with (4 * P * (P * P)) in H1 by ring. nia.
Qed.

(** ** max_element and normalise *)
Lemma c_lt_irrefl f : c_lt f f = false.
Proof. unfold c_lt. now rewrite !Z.ltb_irrefl. Qed.
Lemma c_lt_antisym f g : c_lt f g = false -> c_lt g f = false -> f = g.
Proof.
  destruct f as [a b c d], g as [a' b' c' d']. unfold c_lt. cbn [ca cb cc cd].
  destruct (Z.ltb_spec a a'), (Z.ltb_spec a' a); try discriminate; try lia.
  destruct (Z.ltb_spec b b'), (Z.ltb_spec b' b); try discriminate; try lia.
  destruct (Z.ltb_spec c c'), (Z.ltb_spec c' c); try discriminate; try lia.
  destruct (Z.ltb_spec d d'), (Z.ltb_spec d' d); try discriminate; try lia.
  intros. apply c_eq; lia.
Qed.
Lemma c_lt_trans_false f g h : c_lt f g = false -> c_lt g h = false -> c_lt f h = false.
Proof.
  destruct f as [a b c d], g as [a' b' c' d'], h as [a2 b2 c2 d2]. unfold c_lt. cbn [ca cb cc cd].
  destruct (Z.ltb_spec a a'), (Z.ltb_spec a' a), (Z.ltb_spec a' a2), (Z.ltb_spec a2 a'),
    (Z.ltb_spec a a2), (Z.ltb_spec a2 a); try discriminate; try lia; auto.
  destruct (Z.ltb_spec b b'), (Z.ltb_spec b' b), (Z.ltb_spec b' b2), (Z.ltb_spec b2 b'),
    (Z.ltb_spec b b2), (Z.ltb_spec b2 b); try discriminate; try lia; auto.
  destruct (Z.ltb_spec c c'), (Z.ltb_spec c' c), (Z.ltb_spec c' c2), (Z.ltb_spec c2 c'),
    (Z.ltb_spec c c2), (Z.ltb_spec c2 c); try discriminate; try lia; auto.

Qed.
Lemma c_lt_asym f g : c_lt f g = true -> c_lt g f = false.
Proof.
  intros H. destruct (c_lt g f) eqn:E; auto. exfalso.
  destruct f as [a b c d], g as [a' b' c' d']. unfold c_lt in *. cbn [ca cb cc cd] in *.
  destruct (Z.ltb_spec a a'), (Z.ltb_spec a' a); try discriminate; try lia.
  destruct (Z.ltb_spec b b'), (Z.ltb_spec b' b); try discriminate; try lia.
  destruct (Z.ltb_spec c c'), (Z.ltb_spec c' c); try discriminate; try lia.
Qed.
Lemma pick_max_spec l best : let r := pick_max l best in
  In r (best :: l) /\ forall x, In x (best :: l) -> c_lt (fst r) (fst x) = false.
Proof.
  cbv zeta. revert best. induction l as [|y l IH]; intros best; cbn [pick_max fold_left].
  - split; [left; reflexivity|]. intros x [<-|[]]. apply c_lt_irrefl.
  - unfold pick_max in IH. destruct (c_lt (fst best) (fst y)) eqn:E.
    + destruct (IH y) as [I M]. split; [right; exact I|].
      intros x [<-|[<-|X]].
      * apply (c_lt_trans_false _ (fst y)); [apply M; left; reflexivity|]. now apply c_lt_asym.
      * apply M. left. reflexivity.
      * apply M. right. exact X.
    + destruct (IH best) as [I M]. split.
      * destruct I as [<-|I]; [left; reflexivity|right; right; exact I].
      * intros x [<-|[<-|X]].
        -- apply M. left. reflexivity.
        -- apply (c_lt_trans_false _ (fst best)); [apply M; left; reflexivity|exact E].
        -- apply M. right. exact X.
Qed.

(** The explicit automorphism groups. *)
Definition group (n : nat) : list unimod :=
  if (n =? 4)%nat then [um_id; auto4; Um (-1) 0 0 (-1); Um 0 1 (-1) 0]
  else if (n =? 6)%nat then [um_id; auto6; Um 0 1 (-1) (-1); Um (-1) 0 0 (-1); Um (-1) (-1) 1 0; Um 0 (-1) 1 1]
  else [um_id; auto2].
Definition aut_of (n : nat) : unimod :=
  if (n =? 4)%nat then auto4 else if (n =? 6)%nat then auto6 else auto2.
Lemma nautos_cases f : nautos f = 2%nat \/ nautos f = 4%nat \/ nautos f = 6%nat.
Proof.
  unfold nautos. destruct (c_disc f <? 0), (j_c1 f =? 0), (j_c4 f =? 0), (j_c2 f =? 0), (p_semi f =? r_semi f),
    (q_semi f =? 0), (q_semi f =? r_semi f); auto.
Qed.
Lemma candidates n f : (n = 2 \/ n = 4 \/ n = 6)%nat ->
  (f, um_id) :: aut_list (n - 1) (aut_of n) f um_id = map (fun A => (c_transform A f, A)) (group n).
Proof.
  intros [->|[->| ->]]; cbn [Nat.sub aut_list group aut_of Nat.eqb map];
    rewrite ?c_transform_mul, c_transform_id; reflexivity.
Qed.
Lemma group_det n A : In A (group n) -> um_det A = 1.
Proof.
  unfold group. destruct (n =? 4)%nat, (n =? 6)%nat; cbn [In]; intros H;
    repeat (destruct H as [<-|H]; [reflexivity|]); destruct H.
Qed.
Lemma group_closed n A B : In A (group n) -> In B (group n) -> In (um_mul A B) (group n).
Proof.
  unfold group. destruct (n =? 4)%nat, (n =? 6)%nat; cbn [In]; intros HA HB;
  repeat (destruct HA as [<-|HA]; [repeat (destruct HB as [<-|HB]; [vm_compute; tauto|]); destruct HB|]); destruct HA.
Qed.
Lemma group_inv n A : In A (group n) -> exists B, In B (group n) /\ um_mul A B = um_id.
Proof.
  unfold group. destruct (n =? 4)%nat, (n =? 6)%nat; cbn [In]; intros HA;
  repeat (destruct HA as [<-|HA]; [first
   [ exists um_id; split; [vm_compute; tauto|reflexivity]
   | exists auto2; split; [vm_compute; tauto|reflexivity]
   | exists auto4; split; [vm_compute; tauto|reflexivity]
   | exists auto6; split; [vm_compute; tauto|reflexivity]
   | exists (Um 0 1 (-1) 0); split; [vm_compute; tauto|reflexivity]
   | exists (Um 0 1 (-1) (-1)); split; [vm_compute; tauto|reflexivity]
   | exists (Um (-1) (-1) 1 0); split; [vm_compute; tauto|reflexivity]
   | exists (Um 0 (-1) 1 1); split; [vm_compute; tauto|reflexivity] ]|]); destruct HA.
Qed.

Lemma normalise_spec f m : exists A, In A (group (nautos f)) /\
  c_normalise f m = (c_transform A f, um_mul m A) /\
  forall B, In B (group (nautos f)) -> c_lt (c_transform A f) (c_transform B f) = false.
Proof.
  unfold c_normalise. fold (aut_of (nautos f)).
  pose proof (pick_max_spec (aut_list (nautos f - 1) (aut_of (nautos f)) f um_id) (f, um_id)) as S.
  cbv zeta in S. rewrite (candidates (nautos f) f (nautos_cases f)) in S.
  destruct (pick_max _ _) as [g pow]. destruct S as [I M]. apply in_map_iff in I as (A & EA & IA).
  injection EA as <- <-. exists A. split; [exact IA|]. split; [reflexivity|].
  intros B IB. apply (M (c_transform B f, B)). apply in_map_iff. exists B. auto.
Qed.

Lemma normalise_unique f g m m' : nautos f = nautos g ->
  (exists A, In A (group (nautos f)) /\ g = c_transform A f) ->
  fst (c_normalise f m) = fst (c_normalise g m').
Proof.
  intros N (A & IA & ->).
  destruct (normalise_spec f m) as (X & IX & -> & MX).
  destruct (normalise_spec (c_transform A f) m') as (Y & IY & -> & MY).
  cbn [fst]. rewrite <- N in *. apply c_lt_antisym.
  - rewrite c_transform_mul. apply MX. apply group_closed; auto.
  - destruct (group_inv _ A IA) as (A' & IA' & E).
    specialize (MY (um_mul A' X)). rewrite (c_transform_mul A (um_mul A' X)) in MY.
    rewrite um_mul_assoc, E, um_mul_id_l in MY. apply MY. apply group_closed; auto.
Qed.

(** ** Reduced positive definite forms *)
Definition qreduced (q : quadratic) : Prop :=
  0 < qa q /\ ((- qa q <= qb q < qa q /\ qa q < qc q) \/ (0 <= qb q <= qa q /\ qa q = qc q)).

Lemma sq_form x z : (x <> 0 \/ z <> 0) -> 1 <= x * x - Z.abs (x * z) + z * z.
Proof.
  intros H. rewrite Z.abs_mul. rewrite <- (Z.abs_square x), <- (Z.abs_square z).
  assert (0 < Z.abs x \/ 0 < Z.abs z) by lia.
  pose proof (Z.abs_nonneg x). pose proof (Z.abs_nonneg z).
  remember (Z.abs x) as u. remember (Z.abs z) as v. clear - H0 H1 H2.
  destruct (Z.eq_dec u 0) as [->|]; [nia|]. destruct (Z.eq_dec v 0) as [->|]; [nia|].
  assert (u * v <= u * u \/ u * v <= v * v) by nia. nia.
Qed.

Lemma qreduced_lower q x z : qreduced q ->
  qa q * (x * x - Z.abs (x * z) + z * z) + (qc q - qa q) * (z * z) <= q_eval q x z.
Proof.
  intros (Hp & H). unfold q_eval.
  assert (- (qa q) <= qb q <= qa q) by (destruct H as [H|H]; lia).
  assert (- (qa q * Z.abs (x * z)) <= qb q * x * z).
  { replace (qb q * x * z) with (qb q * (x * z)) by ring. clear - H0 Hp.
    destruct (Z.abs_spec (x * z)) as [[? ->]|[? ->]]; nia. }
  lia.
Qed.

Lemma qreduced_min q x z : qreduced q -> (x <> 0 \/ z <> 0) -> qa q <= q_eval q x z.
Proof.
  intros R H. pose proof (qreduced_lower q x z R). pose proof (sq_form x z H).
  destruct R as (Hp & R). assert (qa q <= qc q) by (destruct R; lia).
  assert (0 <= (qc q - qa q) * (z * z)) by (apply Z.mul_nonneg_nonneg; [lia|apply Z.square_nonneg]).
  remember (x * x - Z.abs (x * z) + z * z) as w. clear - H0 H1 H2 H3 Hp. nia.
Qed.

Lemma um_inverse_left M : um_det M = 1 -> um_mul M (Um (m22 M) (- m12 M) (- m21 M) (m11 M)) = um_id.
Proof.
  intros D. um. apply um_eq; lia.
Qed.

Lemma qreduced_a q M : qreduced q -> qreduced (q_transform M q) -> um_det M = 1 ->
  qa (q_transform M q) = qa q.
Proof.
  intros R R' D.
  assert (L1 : qa q <= qa (q_transform M q)).
  { unfold q_transform. cbn [qa]. apply qreduced_min; auto.
    destruct (Z.eq_dec (m11 M) 0); [|auto]. right. intros E. unfold um_det in D. rewrite e, E in D. lia. }
  assert (L2 : qa (q_transform M q) <= qa q).
  { set (N := Um (m22 M) (- m12 M) (- m21 M) (m11 M)).
    assert (E : q_transform N (q_transform M q) = q).
    { rewrite q_transform_mul. unfold N. rewrite um_inverse_left by auto. apply q_transform_id. }
    assert (X : qa (q_transform N (q_transform M q)) = qa q) by now rewrite E.
    rewrite <- X. change (qa (q_transform M q) <= q_eval (q_transform M q) (m22 M) (- m21 M)).
    apply qreduced_min; auto.
    destruct (Z.eq_dec (m22 M) 0); [|auto]. right. intros E2. unfold um_det in D.
    assert (m21 M = 0) by lia. rewrite e, H in D. lia. }
  lia.
Qed.

Lemma qreduced_strict q M : qreduced q -> qa q < qc q -> um_det M = 1 -> qa (q_transform M q) = qa q ->
  m21 M = 0 /\ (m11 M = 1 /\ m22 M = 1 \/ m11 M = -1 /\ m22 M = -1).
Proof.
  intros R L D E. assert (Z0 : m21 M = 0).
  { destruct (Z.eq_dec (m21 M) 0) as [|N]; auto. exfalso. cbn [q_transform qa] in E.
    pose proof (qreduced_lower q (m11 M) (m21 M) R) as LO. pose proof (sq_form (m11 M) (m21 M) (or_intror N)) as S.
    rewrite E in LO. destruct R as (Hp & _).
    remember (m11 M * m11 M - Z.abs (m11 M * m21 M) + m21 M * m21 M) as w. clear Heqw.
    assert (1 <= m21 M * m21 M) by nia. clear - LO S Hp L H. nia. }
  split; auto. unfold um_det in D. rewrite Z0 in D.
  assert (m11 M * m22 M = 1) by lia. clear - H.
  assert (m11 M = 1 \/ m11 M = -1) as [E|E] by (apply Z.mul_eq_1 with (m := m22 M); exact H);
    rewrite E in *; lia.
Qed.

(** Uniqueness of the reduced form, and the matrices carrying it to itself. *)
Lemma qreduced_unique q M : qreduced q -> qreduced (q_transform M q) -> um_det M = 1 ->
  q_transform M q = q.
Proof.
  intros R R' D. pose proof (qreduced_a q M R R' D) as EA.
  destruct (Z.eq_dec (qc q) (qa q)) as [Ec|Nc]; destruct (Z.eq_dec (qc (q_transform M q)) (qa q)) as [Ec'|Nc'].
  - assert (DD : q_disc (q_transform M q) = q_disc q) by now apply q_disc_unim.
    destruct R as (Hp & R), R' as (Hp' & R').
    unfold q_disc in DD. rewrite EA, Ec, Ec' in DD. destruct (q_transform M q) as [a b c], q as [a0 b0 c0].
    cbn [qa qb qc] in *. destruct R as [R|R]; [lia|]. destruct R' as [R'|R']; [lia|].
    apply q_eq; try lia. clear - DD R R'. nia.
  - exfalso. set (N := Um (m22 M) (- m12 M) (- m21 M) (m11 M)).
    assert (E : q_transform N (q_transform M q) = q).
    { rewrite q_transform_mul. unfold N. rewrite um_inverse_left by auto. apply q_transform_id. }
    assert (DN : um_det N = 1). { unfold N, um_det in *. cbn [m11 m12 m21 m22]. lia. }
    clearbody N. remember (q_transform M q) as q' eqn:Hq'. clear Hq'.
    destruct (qreduced_strict q' N) as (Z0 & S); auto.
    { destruct R' as (Hp' & R'). rewrite EA in *. destruct R'; lia. }
    { rewrite E. auto. }
    assert (E' : q_transform N q' = q) by exact E.
    apply (f_equal qc) in E' as E1. apply (f_equal qb) in E'. cbn [q_transform qb qc] in E', E1.
    unfold q_eval in E1. rewrite Z0 in E'. destruct R as (Hp & R), R' as (Hp' & R'). rewrite EA in *.
    remember (m12 N) as k. clear Heqk. remember (qb q') as b'. remember (qc q') as c'.
    destruct R as [R|R]; [lia|]. destruct R' as [R'|R']; [|lia].
    destruct S as [[S1 S2]|[S1 S2]]; rewrite S1, S2 in E'; rewrite S2 in E1.
    + assert (qb q = b' + 2 * qa q * k) by lia.
      assert (k = 0 \/ k = 1) as [->| ->] by (clear - H R R' Hp; nia); lia.
    + assert (qb q = b' - 2 * qa q * k) by lia.
      assert (k = 0 \/ k = -1) as [->| ->] by (clear - H R R' Hp; nia); lia.
  - exfalso. destruct (qreduced_strict q M) as (Z0 & S); auto.
    { destruct R as (Hp & R). destruct R; lia. }
    destruct R as (Hp & R), R' as (Hp' & R'). rewrite EA in *.
    destruct R as [R|R]; [|lia]. destruct R' as [R'|R']; [lia|].
    cbn [q_transform qb qc] in *. unfold q_eval in Ec'. rewrite Z0 in *. destruct R' as [R' _].
    remember (m12 M) as k. clear Heqk.
    destruct S as [[S1 S2]|[S1 S2]]; rewrite S1, S2 in R'; rewrite S2 in Ec'.
    + assert (k = 0 \/ k = 1) as [->| ->] by (clear - R R' Hp; nia); lia.
    + assert (k = 0 \/ k = -1) as [->| ->] by (clear - R R' Hp; nia); lia.
  - destruct (qreduced_strict q M) as (Z0 & S); auto.
    { destruct R as (Hp & R). destruct R; lia. }
    destruct R as (Hp & R), R' as (Hp' & R'). rewrite EA in *.
    destruct R as [[R _]|R]; [|lia]. destruct R' as [[R' _]|R']; [|lia].
    cbn [q_transform qb qc] in R'. rewrite Z0 in R'.
    assert (k0 : m12 M = 0).
    { remember (m12 M) as k. clear Heqk. destruct S as [[S1 S2]|[S1 S2]]; rewrite S1, S2 in R'; clear - R R' Hp; nia. }
    unfold q_transform, q_eval. rewrite k0, Z0. destruct q as [a b c]; cbn [qa qb qc].
    destruct S as [[S1 S2]|[S1 S2]]; rewrite S1, S2; apply q_eq; ring.
Qed.

Lemma unit_vec a c : a * a + c * c = 1 ->
  (a = 1 /\ c = 0) \/ (a = -1 /\ c = 0) \/ (a = 0 /\ c = 1) \/ (a = 0 /\ c = -1).
Proof. intros. assert (-1 <= a <= 1) by nia. assert (-1 <= c <= 1) by nia. nia. Qed.
Lemma hex_vec a c : a * a + a * c + c * c = 1 ->
  (a = 1 /\ c = 0) \/ (a = -1 /\ c = 0) \/ (a = 0 /\ c = 1) \/ (a = 0 /\ c = -1) \/
  (a = 1 /\ c = -1) \/ (a = -1 /\ c = 1).
Proof. intros. assert (-1 <= a <= 1) by nia. assert (-1 <= c <= 1) by nia. nia. Qed.

Definition qautos (q : quadratic) : nat :=
  if qa q =? qc q then if qb q =? 0 then 4 else if qb q =? qc q then 6 else 2 else 2.

Lemma qautos_complete q M : qreduced q -> um_det M = 1 -> q_transform M q = q -> In M (group (qautos q)).
Proof.
  intros R D E. unfold qautos. destruct (Z.eqb_spec (qa q) (qc q)) as [Ec|Nc].
  - destruct q as [P Q R0]. destruct R as (Hp & R). cbn [qa qb qc] in *. subst R0.
    destruct R as [R|R]; [lia|]. destruct R as [R _].
    assert (E1 := f_equal qa E). assert (E3 := f_equal qc E). assert (E2 := f_equal qb E).
    cbn [q_transform qa qb qc] in E1, E2, E3. unfold q_eval in E1, E3. cbn [qa qb qc] in *.
    destruct M as [a b c d]. unfold um_det in D. cbn [m11 m12 m21 m22] in *.
    destruct (Z.eqb_spec Q 0) as [->|N0].
    + assert (U1 : a * a + c * c = 1) by (clear - E1 Hp; nia).
      assert (U2 : b * b + d * d = 1) by (clear - E3 Hp; nia).
      apply unit_vec in U1. apply unit_vec in U2. clear E E1 E2 E3.
      destruct U1 as [[-> ->]|[[-> ->]|[[-> ->]|[-> ->]]]], U2 as [[-> ->]|[[-> ->]|[[-> ->]|[-> ->]]]];
        try lia; vm_compute; tauto.
    + destruct (Z.eqb_spec Q P) as [->|N1].
      * assert (U1 : a * a + a * c + c * c = 1) by (clear - E1 Hp; nia).
        assert (U2 : b * b + b * d + d * d = 1) by (clear - E3 Hp; nia).
        assert (U3 : 2 * (a * b + c * d) + (a * d + b * c) = 1) by (clear - E2 Hp; nia).
        apply hex_vec in U1. apply hex_vec in U2. clear E E1 E2 E3.
        destruct U1 as [[-> ->]|[[-> ->]|[[-> ->]|[[-> ->]|[[-> ->]|[-> ->]]]]]],
          U2 as [[-> ->]|[[-> ->]|[[-> ->]|[[-> ->]|[[-> ->]|[-> ->]]]]]];
        try lia; vm_compute; tauto.
      * assert (V : forall x y, P * (x * x) + Q * x * y + P * (y * y) = P -> x * y = 0 /\ x * x + y * y = 1).
        { intros x y H. assert (Hne : x <> 0 \/ y <> 0).
          { destruct (Z.eq_dec x 0); [|auto]. right. intros ->. subst. lia. }
          pose proof (sq_form x y Hne) as S.
          assert (x * y = 0).
          { destruct (Z.eq_dec (x * y) 0) as [|NZ]; auto. exfalso.
            assert (- (P * Z.abs (x * y)) < Q * (x * y)).
            { clear - NZ R N1 Hp. destruct (Z.abs_spec (x * y)) as [[? ->]|[? ->]]; nia. }
            replace (Q * x * y) with (Q * (x * y)) in H by ring.
            remember (x * x) as X. remember (y * y) as Y. remember (Z.abs (x * y)) as w.
            clear - H H0 S Hp. nia. }
          split; auto. replace (Q * x * y) with (Q * (x * y)) in H by ring. rewrite H0 in H. clear - H Hp. nia. }
        destruct (V a c E1) as [_ U1]. destruct (V b d E3) as [_ U2].
        apply unit_vec in U1. apply unit_vec in U2. clear E E1 E3 V.
        destruct U1 as [[-> ->]|[[-> ->]|[[-> ->]|[-> ->]]]], U2 as [[-> ->]|[[-> ->]|[[-> ->]|[-> ->]]]];
          try lia; vm_compute; tauto.
  - destruct (qreduced_strict q M) as (Z0 & S); auto.
    { destruct R as (Hp & R). destruct R; lia. } { now rewrite E. }
    apply (f_equal qb) in E. cbn [q_transform qb] in E. rewrite Z0 in E. destruct R as (Hp & R).
    destruct M as [a b c d]. cbn [m11 m12 m21 m22] in *. subst c.
    assert (b = 0). { destruct S as [[-> ->]|[-> ->]]; clear - E Hp; nia. }
    subst b. destruct S as [[-> ->]|[-> ->]]; vm_compute; tauto.
Qed.

(** ** hess_reduce *)
Definition upto_sign (e m : unimod) : Prop := e = m \/ e = um_negate m.
Definition hinv (f0 : cubic) (s : cubic * unimod) : Prop :=
  exists e, upto_sign e (snd s) /\ um_det e = 1 /\ fst s = c_transform e f0.

Lemma um_negate_mul_l m A : um_mul (um_negate m) A = um_negate (um_mul m A).
Proof. um. apply um_eq; ring. Qed.
Lemma um_negate_mul_r m A : um_mul m (um_negate A) = um_negate (um_mul m A).
Proof. um. apply um_eq; ring. Qed.
Lemma um_negate_negate m : um_negate (um_negate m) = m.
Proof. destruct m as [p q r t]. um. apply um_eq; ring. Qed.
Lemma um_det_negate m : um_det (um_negate m) = um_det m.
Proof. um. ring. Qed.
Lemma upto_sign_det e m : upto_sign e m -> um_det e = um_det m.
Proof. intros [->| ->]; [reflexivity|apply um_det_negate]. Qed.
Lemma upto_sign_mul e m A B : upto_sign e m -> upto_sign A B -> upto_sign (um_mul e A) (um_mul m B).
Proof.
  intros [->| ->] [->| ->]; rewrite ?um_negate_mul_l, ?um_negate_mul_r, ?um_negate_negate; unfold upto_sign; auto.
Qed.
Lemma hinv_mul' f0 f m A B : hinv f0 (f, m) -> um_det A = 1 -> upto_sign A B ->
  hinv f0 (c_transform A f, um_mul m B).
Proof.
  intros (e & S & D & E) DA SA. cbn [fst snd] in *. exists (um_mul e A). cbn [fst snd].
  split; [now apply upto_sign_mul|]. split; [rewrite um_det_mul, D, DA; reflexivity|].
  rewrite E. apply c_transform_mul.
Qed.
Lemma hinv_mul f0 f m A : hinv f0 (f, m) -> um_det A = 1 -> hinv f0 (c_transform A f, um_mul m A).
Proof. intros H D. apply hinv_mul'; auto. now left. Qed.
Lemma hinv_disc f0 f m : hinv f0 (f, m) -> c_disc f = c_disc f0.
Proof. intros (e & _ & D & E). cbn [fst snd] in *. rewrite E, c_disc_transform, D. ring. Qed.
Lemma hinv_xshift f0 f m k : hinv f0 (f, m) -> hinv f0 (c_xshift k f, um_xshift k m).
Proof.
  intros H. rewrite c_xshift_tr, um_xshift_mul. apply hinv_mul; auto.
  unfold um_det; cbn [m11 m12 m21 m22]; ring.
Qed.
Lemma hinv_invert f0 f m : hinv f0 (f, m) -> hinv f0 (c_invert f, um_invert m).
Proof. intros H. rewrite c_invert_tr, um_invert_mul. apply hinv_mul'; auto. now right. Qed.

Lemma p_xshift k f : p_semi (c_xshift k f) = p_semi f.
Proof. cbf. ring. Qed.
Lemma q_xshift' k f : q_semi (c_xshift k f) = q_semi f + 2 * k * p_semi f.
Proof. cbf. ring. Qed.
Lemma r_xshift' k f : r_semi (c_xshift k f) = r_semi f + k * q_semi f + k * k * p_semi f.
Proof. cbf. ring. Qed.
Lemma p_invert f : p_semi (c_invert f) = r_semi f.
Proof. cbf. ring. Qed.
Lemma q_invert' f : q_semi (c_invert f) = - q_semi f.
Proof. cbf. ring. Qed.
Lemma r_invert' f : r_semi (c_invert f) = p_semi f.
Proof. cbf. ring. Qed.

Lemma hess_loop_ok f0 : 0 < c_disc f0 ->
  exists f m, while hess_step (zfuel (p_semi f0)) (f0, um_id) = Ok (f, m) /\ hinv f0 (f, m) /\
    - p_semi f <= q_semi f < p_semi f /\ p_semi f <= r_semi f.
Proof.
  intros D.
  set (mu := fun s : cubic * unimod => 2 * p_semi (fst s) +
     (if (- p_semi (fst s) <=? q_semi (fst s)) && (q_semi (fst s) <? p_semi (fst s)) then 0 else 1)).
  edestruct (while_total hess_step (hinv f0)
    (fun r => hinv f0 r /\ - p_semi (fst r) <= q_semi (fst r) < p_semi (fst r) /\ p_semi (fst r) <= r_semi (fst r))
    mu) with (n := zfuel (p_semi f0)) (s := (f0, um_id)) as ([f m] & E & H).
  - intros [f m] H. unfold mu. cbn [fst]. assert (0 < p_semi f) by (apply hessian_pos; rewrite (hinv_disc _ _ _ H); auto).
    match goal with |- context [if ?b then _ else _] => destruct b end; lia.
  - intros [f m] H. assert (Df : 0 < c_disc f) by (rewrite (hinv_disc _ _ _ H); auto).
    pose proof (hessian_pos f Df) as Hp.
    unfold hess_step. destruct (roundover_ok (- q_semi f) (2 * p_semi f)) as (k & -> & Hk); [lia|].
    rewrite bind_Ok.
    assert (Q : - p_semi f <= q_semi f + 2 * k * p_semi f < p_semi f) by lia.
    assert (K0 : k = 0 <-> - p_semi f <= q_semi f < p_semi f).
    { split; [intros ->; lia|]. intros. clear - Q H0 Hp. nia. }
    destruct (Z.eqb_spec k 0) as [->|Nk].
    + assert (QQ : - p_semi f <= q_semi f < p_semi f) by (apply K0; reflexivity).
      destruct (Z.ltb_spec (r_semi f) (p_semi f)) as [L|L].
      * right. eexists. split; [reflexivity|]. split; [now apply hinv_invert|].
        unfold mu. cbn [fst]. rewrite p_invert. repeat match goal with |- context [if ?b then _ else _] => destruct b end; lia.
      * left. eexists. split; [reflexivity|]. cbn [fst]. auto.
    + right.
      assert (F : (- p_semi f <=? q_semi f) && (q_semi f <? p_semi f) = false).
      { apply andb_false_iff. destruct (Z.leb_spec (- p_semi f) (q_semi f)); [|auto].
        destruct (Z.ltb_spec (q_semi f) (p_semi f)); [|auto]. exfalso. apply Nk, K0. lia. }
      destruct (Z.ltb_spec (r_semi (c_xshift k f)) (p_semi (c_xshift k f))) as [L|L].
      * eexists. split; [reflexivity|]. split; [now apply hinv_invert, hinv_xshift|].
        unfold mu. cbn [fst]. rewrite F. cbv iota. rewrite p_invert. rewrite p_xshift in L. match goal with |- context [if ?b then _ else _] => destruct b end; lia.
      * eexists. split; [reflexivity|]. split; [now apply hinv_xshift|].
        unfold mu. cbn [fst]. rewrite F. cbv iota. rewrite p_xshift, q_xshift'.
        destruct (Z.leb_spec (- p_semi f) (q_semi f + 2 * k * p_semi f)); [|lia].
        destruct (Z.ltb_spec (q_semi f + 2 * k * p_semi f) (p_semi f)); [|lia]. cbn [andb]. lia.
  - exists um_id. split; [now left|]. split; [reflexivity|]. cbn [fst snd]. now rewrite c_transform_id.
  - unfold mu. cbn [fst]. pose proof (zfuel_gt (p_semi f0)). pose proof (hessian_pos f0 D).
    match goal with |- context [if ?b then _ else _] => destruct b end; lia.
  - exists f, m. split; [exact E|]. exact H.
Qed.

Lemma nautos_hessian f : 0 < c_disc f -> nautos f = qautos (hessian f).
Proof.
  intros D. unfold nautos, qautos, hessian. cbn [qa qb qc]. destruct (Z.ltb_spec (c_disc f) 0); [lia|reflexivity].
Qed.

Lemma group_hessian q A : In A (group (qautos q)) -> q_transform A q = q.
Proof.
  unfold qautos. destruct q as [P Q R]; cbn [qa qb qc].
  destruct (Z.eqb_spec P R) as [->|]; [destruct (Z.eqb_spec Q 0) as [->|];
    [|destruct (Z.eqb_spec Q R) as [->|]]|];
  cbn [group Nat.eqb In]; intros H; repeat (destruct H as [<-|H]; [unfold q_transform, q_eval, um_id, auto2, auto4, auto6;
    cbn [qa qb qc m11 m12 m21 m22]; apply q_eq; ring|]); destruct H.
Qed.

(** The full statement for hess_reduce, including the form it normalises. *)
Lemma hess_reduce_ok' f : 0 < c_disc f ->
  exists f1 m1 A, hess_reduce f = Ok (c_transform A f1, um_mul m1 A) /\ hinv f (f1, m1) /\
    qreduced (hessian f1) /\ In A (group (nautos f1)) /\
    fst (c_normalise f1 m1) = c_transform A f1.
Proof.
  intros D. destruct (hess_loop_ok f D) as (g & m & E & H & Q & R).
  unfold hess_reduce. rewrite E, bind_Ok.
  assert (Dg : 0 < c_disc g) by (rewrite (hinv_disc _ _ _ H); auto).
  pose proof (hessian_pos g Dg) as Hp.
  destruct (Z.eqb_spec (p_semi g) (r_semi g)) as [Ep|Np]; [destruct (Z.ltb_spec (q_semi g) 0)|]; cbn [andb].
  - destruct (normalise_spec (c_invert g) (um_invert m)) as (A & IA & EN & _).
    rewrite EN. exists (c_invert g), (um_invert m), A. split; [reflexivity|].
    split; [now apply hinv_invert|]. split; [|split; [auto|now rewrite EN]].
    unfold qreduced, hessian. cbn [qa qb qc]. rewrite p_invert, q_invert', r_invert'. split; [lia|]. right. lia.
  - destruct (normalise_spec g m) as (A & IA & EN & _).
    rewrite EN. exists g, m, A. split; [reflexivity|].
    split; [auto|]. split; [|split; [auto|now rewrite EN]].
    unfold qreduced, hessian. cbn [qa qb qc]. split; [lia|]. right. lia.
  - destruct (normalise_spec g m) as (A & IA & EN & _).
    rewrite EN. exists g, m, A. split; [reflexivity|].
    split; [auto|]. split; [|split; [auto|now rewrite EN]].
    unfold qreduced, hessian. cbn [qa qb qc]. split; [lia|]. left. lia.
Qed.

Lemma hess_reduce_ok f : 0 < c_disc f ->
  exists g m, hess_reduce f = Ok (g, m) /\ um_det m = 1 /\
    (g = c_transform m f \/ g = c_transform (um_negate m) f) /\
    c_disc g = c_disc f /\ qreduced (hessian g).
Proof.
  intros D. destruct (hess_reduce_ok' f D) as (f1 & m1 & A & E & H & R & IA & _).
  assert (D1 : 0 < c_disc f1) by (rewrite (hinv_disc _ _ _ H); auto).
  pose proof (hinv_mul f f1 m1 A H (group_det _ _ IA)) as H2.
  eexists _, _. split; [exact E|]. destruct (H2) as (e & S & HD & HE). cbn [fst snd] in S, HE.
  split; [now rewrite <- (upto_sign_det _ _ S)|].
  split; [destruct S as [<-| <-]; auto|].
  split; [apply (hinv_disc f _ _ H2)|].
  rewrite hessian_transform by (now apply group_det in IA).
  rewrite nautos_hessian in IA by auto. rewrite group_hessian; auto.
Qed.

Lemma hess_reduce_ok_e f : 0 < c_disc f ->
  exists g m e, hess_reduce f = Ok (g, m) /\ um_det e = 1 /\ g = c_transform e f.
Proof.
  intros D. destruct (hess_reduce_ok f D) as (g & m & E & Dm & [T|T] & _).
  - exists g, m, m. auto.
  - exists g, m, (um_negate m). rewrite um_det_negate. auto.
Qed.

(** Two equivalent cubics have the same reduced form. *)
Lemma hess_reduce_equiv f g M : 0 < c_disc f -> um_det M = 1 -> g = c_transform M f ->
  exists h m n, hess_reduce f = Ok (h, m) /\ hess_reduce g = Ok (h, n).
Proof.
  intros D DM Eg.
  assert (Dg : 0 < c_disc g) by (rewrite Eg, c_disc_transform, DM; lia).
  destruct (hess_reduce_ok' f D) as (f1 & m1' & A & E & (m1 & _ & H1 & H2) & R & IA & NA).
  destruct (hess_reduce_ok' g Dg) as (g1 & n1' & B & E' & (n1 & _ & H1' & H2') & R' & IB & NB).
  cbn [fst snd] in *.
  (* g1 = f1 o N *)
  set (inv := fun U => Um (m22 U) (- m12 U) (- m21 U) (m11 U)).
  set (N := um_mul (inv m1) (um_mul M n1)).
  assert (Inv1 : um_mul m1 (inv m1) = um_id) by (now apply um_inverse_left).
  assert (DI : um_det (inv m1) = 1). { unfold inv, um_det in *. cbn [m11 m12 m21 m22]. lia. }
  assert (EN : g1 = c_transform N f1).
  { rewrite H2', Eg, H2. unfold N. rewrite !c_transform_mul. f_equal.
    rewrite um_mul_assoc, Inv1, um_mul_id_l. reflexivity. }
  assert (DN : um_det N = 1) by (unfold N; rewrite !um_det_mul, DI, DM, H1'; reflexivity).
  assert (D1 : 0 < c_disc f1) by (rewrite H2, c_disc_transform, H1; lia).
  assert (D2 : 0 < c_disc g1) by (rewrite EN, c_disc_transform, DN; lia).
  assert (EH : hessian g1 = q_transform N (hessian f1)) by (rewrite EN; now apply hessian_transform).
  assert (EH' : q_transform N (hessian f1) = hessian f1).
  { apply qreduced_unique; auto. now rewrite <- EH. }
  assert (IN : In N (group (nautos f1))).
  { rewrite nautos_hessian by auto. apply qautos_complete; auto. }
  assert (NE : nautos f1 = nautos g1).
  { rewrite !nautos_hessian by auto. rewrite EH, EH'. reflexivity. }
  pose proof (normalise_unique f1 g1 m1' n1' NE (ex_intro _ N (conj IN EN))) as U.
  rewrite NA, NB in U. rewrite <- U in E'. eauto 6.
Qed.

Lemma c_eqb_eq f g : c_eqb f g = true <-> f = g.
Proof.
  unfold c_eqb. rewrite !andb_true_iff, !Z.eqb_eq. destruct f as [a b c d], g as [a' b' c' d']; cbn [ca cb cc cd].
  split; [intros (((-> & ->) & ->) & ->); reflexivity|intros E; injection E; auto].
Qed.

Definition sl2_rel (f g : cubic) : Prop := exists M, um_det M = 1 /\ g = c_transform M f.

Lemma sl2_equivalent_pos_ok f g : 0 < c_disc f ->
  exists b, sl2_equivalent_pos f g = Ok b /\ (b = true <-> sl2_rel f g).
Proof.
  intros D. unfold sl2_equivalent_pos. destruct (c_eqb f g) eqn:E1.
  { exists true. split; [reflexivity|]. split; [|auto]. intros _. apply c_eqb_eq in E1. subst.
    exists um_id. split; [reflexivity|]. now rewrite c_transform_id. }
  destruct (c_eqb (c_negate f) g) eqn:E2.
  { exists true. split; [reflexivity|]. split; [|auto]. intros _. apply c_eqb_eq in E2. subst.
    rewrite c_negate_tr. eexists. split; [|reflexivity]. reflexivity. }
  assert (DN : c_disc (c_negate f) = c_disc f) by (clear; cbf; ring).
  rewrite DN. destruct (Z.eqb_spec (c_disc f) (c_disc g)) as [ED|ND]; cbn [negb].
  - destruct (hess_reduce_ok_e (c_negate f)) as (f' & m' & m & Ef & Dm & Tf); [lia|].
    destruct (hess_reduce_ok_e g) as (g' & n' & n & Eg & Dn & Tg); [lia|].
    rewrite Ef, bind_Ok, Eg, bind_Ok. eexists. split; [reflexivity|]. rewrite c_eqb_eq. split.
    + intros E3. rewrite E3 in Tf. rewrite Tf in Tg. rewrite c_negate_tr, c_transform_mul in Tg.
      set (inv := Um (m22 n) (- m12 n) (- m21 n) (m11 n)).
      exists (um_mul (um_mul (Um (-1) 0 0 (-1)) m) inv). split.
      * rewrite !um_det_mul, Dm. unfold inv, um_det in *. cbn [m11 m12 m21 m22]. lia.
      * rewrite <- c_transform_mul, Tg, c_transform_mul. unfold inv.
        rewrite um_inverse_left by auto. now rewrite c_transform_id.
    + intros (M & DM & EM).
      assert (EM' : g = c_transform (um_mul (Um (-1) 0 0 (-1)) M) (c_negate f)).
      { rewrite EM, c_negate_tr, c_transform_mul, um_mul_assoc. f_equal.
        replace (um_mul (Um (-1) 0 0 (-1)) (Um (-1) 0 0 (-1))) with um_id by reflexivity.
        now rewrite um_mul_id_l. }
      assert (DM' : um_det (um_mul (Um (-1) 0 0 (-1)) M) = 1) by (rewrite um_det_mul, DM; reflexivity).
      destruct (hess_reduce_equiv (c_negate f) g _ ltac:(lia) DM' EM')
        as (h & m2 & n2 & X & Y). rewrite Ef in X. rewrite Eg in Y. congruence.
  - exists false. split; [reflexivity|]. split; [discriminate|]. intros (M & DM & EM). exfalso. apply ND.
    rewrite EM, c_disc_transform, DM. ring.
Qed.

Definition gl2_rel (f g : cubic) : Prop := exists M, (um_det M = 1 \/ um_det M = -1) /\ g = c_transform M f.

Lemma gl2_equivalent_pos_ok f g : 0 < c_disc f ->
  exists b, gl2_equivalent_pos f g = Ok b /\ (b = true <-> gl2_rel f g).
Proof.
  intros D. unfold gl2_equivalent_pos. destruct (sl2_equivalent_pos_ok f g D) as (b & -> & Hb).
  rewrite bind_Ok. set (J := Um (-1) 0 0 1).
  assert (JJ : um_mul J J = um_id) by reflexivity.
  destruct (sl2_equivalent_pos_ok f (c_transform J g) D) as (b' & E' & Hb').
  assert (K : sl2_rel f (c_transform J g) <-> exists M, um_det M = -1 /\ g = c_transform M f).
  { split.
    - intros (M & DM & EM). exists (um_mul M J). split; [rewrite um_det_mul, DM; reflexivity|].
      rewrite <- c_transform_mul, <- EM, c_transform_mul, JJ. now rewrite c_transform_id.
    - intros (M & DM & EM). exists (um_mul M J). split; [rewrite um_det_mul, DM; reflexivity|].
      rewrite EM. apply c_transform_mul. }
  destruct b.
  - exists true. split; [reflexivity|]. split; [|auto]. intros _. destruct (proj1 Hb eq_refl) as (M & DM & EM).
    exists M. auto.
  - exists b'. split; [exact E'|]. rewrite Hb', K. split.
    + intros (M & DM & EM). exists M. auto.
    + intros (M & [DM|DM] & EM); [|exists M; auto]. exfalso.
      assert (false = true) by (apply Hb; exists M; auto). discriminate.
Qed.

(** Evaluation determines the coefficients. *)
Lemma c_eval_inj f g : (forall x z, c_eval f x z = c_eval g x z) -> f = g.
Proof.
  intros H. pose proof (H 1 0). pose proof (H 0 1). pose proof (H 1 1). pose proof (H 1 (-1)).
  unfold c_eval in *. destruct f as [a b c d], g as [a' b' c' d']; cbn [ca cb cc cd] in *. apply c_eq; lia.
Qed.

(** ** Quartics *)
Lemma r_eq a b c d e a' b' c' d' e' : a = a' -> b = b' -> c = c' -> d = d' -> e = e' ->
  Qt a b c d e = Qt a' b' c' d' e'.
Proof. congruence. Qed.
Ltac qtf := intros; unfold r_transform, r_xshift, r_zshift, r_invert, r_eval, II, JJ, r_disc, um_mul, um_det, um_id in *;
  cbn [ra rb rc rd re m11 m12 m21 m22] in *; cbv zeta in *.
Lemma r_transform_eval m g x z :
  r_eval (r_transform m g) x z = r_eval g (m11 m * x + m12 m * z) (m21 m * x + m22 m * z).
Proof. qtf. ring. Qed.
Lemma r_transform_mul m n g : r_transform n (r_transform m g) = r_transform (um_mul m n) g.
Proof. qtf. apply r_eq; ring. Qed.
Lemma r_xshift_tr a g : r_xshift a g = r_transform (Um 1 a 0 1) g.
Proof. qtf. apply r_eq; ring. Qed.
Lemma r_zshift_tr a g : r_zshift a g = r_transform (Um 1 0 a 1) g.
Proof. qtf. apply r_eq; ring. Qed.
Lemma r_invert_tr g : r_invert g = r_transform (Um 0 (-1) 1 0) g.
Proof. qtf. apply r_eq; ring. Qed.
Lemma II_transform m g : II (r_transform m g) = um_det m ^ 4 * II g.
Proof. qtf. ring. Qed.
Lemma JJ_transform m g : JJ (r_transform m g) = um_det m ^ 6 * JJ g.
Proof. qtf. ring. Qed.
Lemma r_disc_transform m g : r_disc (r_transform m g) = um_det m ^ 12 * r_disc g.
Proof.
  unfold r_disc. rewrite II_transform, JJ_transform. ring.
Qed.
Lemma r_syzygy g : - H_inv g ^ 3 + 48 * ra g ^ 2 * II g * H_inv g - 64 * ra g ^ 3 * JJ g - 27 * R_inv g ^ 2 = 0.
Proof. unfold H_inv, R_inv, II, JJ. ring. Qed.
Lemma r_doubleup_inv g : II (r_doubleup g) = 16 * II g /\ JJ (r_doubleup g) = 64 * JJ g /\
  r_disc (r_doubleup g) = 4096 * r_disc g.
Proof. unfold r_disc, II, JJ, r_doubleup. cbn [ra rb rc rd re]. repeat split; ring. Qed.
Lemma r_check_ok g m x : r_check g m x = true <-> x = r_transform m g.
Proof.
  unfold r_check. cbv zeta. rewrite !andb_true_iff, !Z.eqb_eq. destruct (r_transform m g) as [a b c d e], x as [a' b' c' d' e'].
  cbn [ra rb rc rd re]. split; [intros ((((-> & ->) & ->) & ->) & ->); reflexivity|]. intros E. injection E. auto 10.
Qed.
Lemma r_scaled_eval m g : m00 m <> 0 ->
  (let h := r_transform (sm m) g in let u2 := m00 m * m00 m in
   (u2 | ra h) /\ (u2 | rb h) /\ (u2 | rc h) /\ (u2 | rd h) /\ (u2 | re h)) ->
  forall x z, (m00 m * m00 m) * r_eval (r_transform_scaled m g) x z =
    r_eval g (m11 (sm m) * x + m12 (sm m) * z) (m21 (sm m) * x + m22 (sm m) * z).
Proof.
  cbv zeta. intros Hm (Da & Db & Dc & Dd & De) x z. rewrite <- r_transform_eval.
  unfold r_transform_scaled. cbv zeta. set (u2 := m00 m * m00 m) in *. assert (0 < u2) by (unfold u2; nia).
  set (h := r_transform (sm m) g) in *. clearbody h u2.
  destruct (Z.ltb_spec 1 u2).
  - unfold r_eval. cbn [ra rb rc rd re].
    destruct Da as [a Ea], Db as [b Eb], Dc as [c Ec], Dd as [d Ed], De as [e Ee].
    rewrite Ea, Eb, Ec, Ed, Ee, !Z.div_mul by lia. ring.
  - replace u2 with 1 by lia. ring.
Qed.

