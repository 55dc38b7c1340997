(** Proofs about EchModel: forward elimination of echelon0 (Bareiss). *)
From Coq Require Import ZArith Znumtheory Lia List Bool Sorted Permutation.
From Verif Require Import Base LinModel LinSpec LinProofs LinElim LinKer LinAlg Bareiss EchModel.
Import ListNotations.
Open Scope Z_scope.

(** ** rational spans *)
Section QSpan.
Variable nc : nat.
Lemma qspan_ext n A B v : (forall i j, (i < n)%nat -> (j < nc)%nat -> A i j = B i j) -> qspan nc n A v -> qspan nc n B v.
Proof.
  intros H (e & c & He & E). exists e, c. split; auto. intros j Hj. rewrite E by auto. apply sumn_ext. intros i Hi. rewrite H; auto.
Qed.
Lemma qspan_row n A i : (i < n)%nat -> qspan nc n A (A i).
Proof.
  intros Hi. exists 1, (fun k => dlt k i). split; [lia|]. intros j _. rewrite (sumn_dlt n i (fun k => A k j)) by auto. lia.
Qed.
Lemma qspan_0 n A : qspan nc n A (fun _ => 0).
Proof. exists 1, (fun _ => 0). split; [lia|]. intros j _. rewrite (sumn_ext n _ (fun _ => 0)) by (intros; ring). rewrite sumn_0. lia. Qed.
Lemma qspan_comb n A u v w d a b : d <> 0 -> (forall j, (j < nc)%nat -> d * w j = a * u j + b * v j) ->
  qspan nc n A u -> qspan nc n A v -> qspan nc n A w.
Proof.
  intros Hd H (e1 & c1 & H1 & E1) (e2 & c2 & H2 & E2).
  exists (d * (e1 * e2)), (fun i => a * e2 * c1 i + b * e1 * c2 i). split.
  - intros Z0. apply Z.mul_eq_0 in Z0. destruct Z0 as [|Z0]; auto. apply Z.mul_eq_0 in Z0. tauto.
  - intros j Hj. rewrite (sumn_ext n _ (fun i => (a * e2) * (c1 i * A i j) + (b * e1) * (c2 i * A i j))) by (intros; ring).
    rewrite sumn_add, !sumn_mul, <- E1, <- E2 by auto.
    replace (d * (e1 * e2) * w j) with (e1 * e2 * (d * w j)) by ring. rewrite H by auto. ring.
Qed.
Lemma qspan_lin n A m B d c w : d <> 0 -> (forall k, (k < m)%nat -> qspan nc n A (B k)) ->
  (forall j, (j < nc)%nat -> d * w j = sumn m (fun k => c k * B k j)) -> qspan nc n A w.
Proof.
  intros Hd HB H.
  assert (G : forall m', (m' <= m)%nat -> qspan nc n A (fun j => sumn m' (fun k => c k * B k j))).
  { induction m' as [|m' IH]; intros L; cbn [sumn]; [apply qspan_0|].
    apply (qspan_comb n A (fun j => sumn m' (fun k => c k * B k j)) (B m') _ 1 1 (c m')); [lia| |apply IH; lia|apply HB; lia].
    intros j _. ring. }
  apply (qspan_comb n A (fun j => sumn m (fun k => c k * B k j)) (fun _ => 0) w d 1 0 Hd); auto using qspan_0.
  intros j Hj. rewrite H by auto. ring.
Qed.
Lemma qspan_trans n A m B v : (forall k, (k < m)%nat -> qspan nc n A (B k)) -> qspan nc m B v -> qspan nc n A v.
Proof. intros HB (e & c & He & E). apply (qspan_lin n A m B e c v He HB E). Qed.
Lemma eqq_rows n A m B : (forall k, (k < n)%nat -> qspan nc m B (A k)) -> (forall k, (k < m)%nat -> qspan nc n A (B k)) -> eqq nc n A m B.
Proof. intros H1 H2 v. split; intros H; eapply qspan_trans; eauto. Qed.
Lemma eqq_refl n A : eqq nc n A n A.
Proof. intros v. tauto. Qed.
Lemma eqq_sym n A m B : eqq nc n A m B -> eqq nc m B n A.
Proof. intros H v. split; apply H. Qed.
Lemma eqq_trans n A m B k C : eqq nc n A m B -> eqq nc m B k C -> eqq nc n A k C.
Proof. intros H1 H2 v. split; intros H; [apply H2, H1, H|apply H1, H2, H]. Qed.
(** v is, up to a factor, a row *)
Lemma qspan_mult n A i v d a : (i < n)%nat -> d <> 0 -> (forall j, (j < nc)%nat -> d * v j = a * A i j) -> qspan nc n A v.
Proof.
  intros Hi Hd H. apply (qspan_comb n A (A i) (fun _ => 0) v d a 0 Hd); auto using qspan_0, qspan_row. intros j Hj. rewrite H by auto. ring.
Qed.
Lemma qspan_two n A i k v d a b : (i < n)%nat -> (k < n)%nat -> d <> 0 -> (forall j, (j < nc)%nat -> d * v j = a * A i j + b * A k j) -> qspan nc n A v.
Proof. intros Hi Hk Hd H. apply (qspan_comb n A (A i) (A k) v d a b Hd); auto using qspan_row. Qed.
(** dropping zero rows *)
Lemma eqq_drop n m A : (m <= n)%nat -> (forall i j, (m <= i < n)%nat -> (j < nc)%nat -> A i j = 0) -> eqq nc n A m A.
Proof.
  intros L H. apply eqq_rows; intros k Hk.
  - destruct (Nat.lt_ge_cases k m); [apply qspan_row; auto|].
    exists 1, (fun _ => 0). split; [lia|]. intros j Hj. rewrite H by lia. rewrite (sumn_ext m _ (fun _ => 0)) by (intros; ring). rewrite sumn_0. lia.
  - apply qspan_row. lia.
Qed.
(** the row r is changed into a combination with another row, with a nonzero multiplier *)
Lemma eqq_op n A B r k a b d : (r < n)%nat -> (k < n)%nat -> k <> r -> a <> 0 -> d <> 0 ->
  (forall i j, (i < n)%nat -> (j < nc)%nat -> i <> r -> B i j = A i j) ->
  (forall j, (j < nc)%nat -> d * B r j = a * A r j + b * A k j) -> eqq nc n A n B.
Proof.
  intros Hr Hk N Ha Hd Ho Hop. apply eqq_rows; intros i Hi.
  - destruct (Nat.eq_dec i r) as [->|].
    + apply (qspan_two n B r k (A r) a d (- b)); auto. intros j Hj. rewrite (Ho k) by auto. rewrite Hop by auto. ring.
    + apply (qspan_mult n B i (A i) 1 1); auto; [lia|]. intros j Hj. rewrite Ho by auto. ring.
  - destruct (Nat.eq_dec i r) as [->|].
    + apply (qspan_two n A r k (B r) d a b); auto.
    + apply (qspan_mult n A i (B i) 1 1); auto; [lia|]. intros j Hj. rewrite Ho by auto. ring.
Qed.
Lemma eqq_scale n A B r a d : (r < n)%nat -> a <> 0 -> d <> 0 ->
  (forall i j, (i < n)%nat -> (j < nc)%nat -> i <> r -> B i j = A i j) ->
  (forall j, (j < nc)%nat -> d * B r j = a * A r j) -> eqq nc n A n B.
Proof.
  intros Hr Ha Hd Ho Hop. apply eqq_rows; intros i Hi.
  - destruct (Nat.eq_dec i r) as [->|].
    + apply (qspan_mult n B r (A r) a d); auto. intros j Hj. rewrite Hop by auto. ring.
    + apply (qspan_mult n B i (A i) 1 1); auto; [lia|]. intros j Hj. rewrite Ho by auto. ring.
  - destruct (Nat.eq_dec i r) as [->|].
    + apply (qspan_mult n A r (B r) d a); auto.
    + apply (qspan_mult n A i (B i) 1 1); auto; [lia|]. intros j Hj. rewrite Ho by auto. ring.
Qed.
Lemma eqq_ker n A m B x : eqq nc n A m B -> (forall i, (i < n)%nat -> sumn nc (fun j => A i j * x j) = 0) -> forall i, (i < m)%nat -> sumn nc (fun j => B i j * x j) = 0.
Proof.
  intros E H i Hi. destruct (proj2 (E (B i)) (qspan_row m B i Hi)) as (e & c & He & G).
  assert (K : e * sumn nc (fun j => B i j * x j) = 0).
  { rewrite <- sumn_mul. rewrite (sumn_ext nc _ (fun j => sumn n (fun k => c k * (A k j * x j)))).
    - rewrite sumn_swap. rewrite (sumn_ext n _ (fun _ => 0)); [apply sumn_0|]. intros k Hk. rewrite sumn_mul, H by auto. ring.
    - intros j Hj. rewrite Z.mul_assoc, G by auto. rewrite <- sumn_mul_r. apply sumn_ext. intros; ring. }
  apply Z.mul_eq_0 in K. tauto.
Qed.
End QSpan.

(** ** the scalars with exact divisions only *)
Definition sc_x : scal := Sc (fun a b => Ok (a + b)) (fun a b => Ok (a - b)) (fun a b => Ok (a * b)) (fun a => Ok (- a)) (fun a => Ok (Z.abs a))
  (fun a b => if (b =? 0) || negb (a mod b =? 0) then UB else Ok (a / b))
  (fun _ _ => UB) (fun _ _ => UB) (fun _ _ _ => UB) (fun _ _ => UB) (fun _ _ => UB)
  (fun a b => Ok (Z.gcd a b)) (fun _ _ => UB).
Lemma x_div a b : b <> 0 -> (b | a) -> exists c, s_div sc_x a b = Ok c /\ b * c = a.
Proof.
  intros Hb [k ->]. cbn [s_div sc_x]. rewrite Z.mod_mul by auto. destruct (Z.eqb_spec b 0); [contradiction|]. cbn. exists k. split; [|ring].
  rewrite Z.div_mul by auto. reflexivity.
Qed.
Lemma x_div_inv a b c : s_div sc_x a b = Ok c -> b <> 0 /\ b * c = a.
Proof.
  cbn [s_div sc_x]. destruct (Z.eqb_spec b 0); cbn; [discriminate|]. destruct (Z.eqb_spec (a mod b) 0) as [E|]; cbn; [|discriminate].
  intros H; injection H as <-. split; auto. symmetry. apply Z.div_exact; auto.
Qed.

(** ** steps on the flat list *)
Section Steps.
Variables (nr nc : nat).
Lemma op_cases p q x y : (forall f, f = (if p =? 1 then if q =? 1 then fun x y => s_sub sc_x y x else if - q =? 1 then fun x y => s_add sc_x y x else fun x y => bind (s_mul sc_x q x) (fun b => s_sub sc_x y b)
      else if - q =? 1 then fun x y => bind (s_mul sc_x p y) (fun a => s_add sc_x a x)
      else if q =? 1 then fun x y => bind (s_mul sc_x p y) (fun a => s_sub sc_x a x)
      else fun x y => bind (s_mul sc_x p y) (fun a => bind (s_mul sc_x q x) (fun b => s_sub sc_x a b))) -> f x y = Ok (p * y - q * x)).
Proof.
  intros f ->. cbn [s_add s_sub s_mul sc_x].
  destruct (Z.eqb_spec p 1) as [->|]; [destruct (Z.eqb_spec q 1) as [->|]; [|destruct (Z.eqb_spec (- q) 1)]|destruct (Z.eqb_spec (- q) 1); [|destruct (Z.eqb_spec q 1) as [->|]]];
    rewrite ?bind_Ok; f_equal; try ring.
  - assert (q = -1) as -> by lia. ring.
  - assert (q = -1) as -> by lia. ring.
Qed.
Lemma cons_elim_ok e r1 r2 c : length e = (nr * nc)%nat -> (r1 < nr)%nat -> (r2 < nr)%nat -> (c < nc)%nat ->
  exists e', cons_elim sc_x e nc r1 r2 c = Ok e' /\ length e' = (nr * nc)%nat /\
    (forall i j, (i < nr)%nat -> (j < nc)%nat -> i <> r2 \/ (j < c)%nat -> ent nc e' i j = ent nc e i j) /\
    (forall j, (c <= j < nc)%nat -> ent nc e' r2 j = ent nc e r1 c * ent nc e r2 j - ent nc e r2 c * ent nc e r1 j).
Proof.
  intros L H1 H2 Hc. unfold cons_elim. rewrite !(deref_ent nr nc) by auto. rewrite !bind_Ok.
  set (p := ent nc e r1 c). set (q := ent nc e r2 c).
  destruct ((p =? 1) && (q =? 0)) eqn:E.
  - apply andb_prop in E. destruct E as (E1 & E2). apply Z.eqb_eq in E1, E2. exists e. sp; auto. intros j Hj. rewrite E1, E2. ring.
  - cbn [s_neg sc_x]. rewrite bind_Ok.
    destruct (row_op_ok (fun x y z => z = p * y - q * x) nr nc e r1 r2 c
      (if p =? 1 then if q =? 1 then fun x y => s_sub sc_x y x else if - q =? 1 then fun x y => s_add sc_x y x else fun x y => bind (s_mul sc_x q x) (fun b => s_sub sc_x y b)
      else if - q =? 1 then fun x y => bind (s_mul sc_x p y) (fun a => s_add sc_x a x)
      else if q =? 1 then fun x y => bind (s_mul sc_x p y) (fun a => s_sub sc_x a x)
      else if q =? 0 then fun x y => s_mul sc_x p y
      else fun x y => bind (s_mul sc_x p y) (fun a => bind (s_mul sc_x q x) (fun b => s_sub sc_x a b)))) as (e' & E' & L' & Ho & Hr); auto; try lia.
    { intros j Hj. generalize (ent nc e r1 j) (ent nc e r2 j). intros x y. exists (p * y - q * x). split; auto.
      destruct (Z.eqb_spec q 0) as [Q0|].
      - rewrite Q0. cbn. destruct (Z.eqb_spec p 1) as [->|]; f_equal; ring.
      - apply (op_cases p q x y). reflexivity. }
    exists e'. auto.
Qed.
Lemma elim_ok e r1 r2 c : length e = (nr * nc)%nat -> (r1 < nr)%nat -> (r2 < nr)%nat -> (c < nc)%nat ->
  exists e', elim sc_x e nc r1 r2 c = Ok e' /\ length e' = (nr * nc)%nat /\
    (forall i j, (i < nr)%nat -> (j < nc)%nat -> i <> r2 -> ent nc e' i j = ent nc e i j) /\
    (forall j, (j < nc)%nat -> ent nc e' r2 j = ent nc e r1 c * ent nc e r2 j - ent nc e r2 c * ent nc e r1 j).
Proof.
  intros L H1 H2 Hc. unfold elim. rewrite !(deref_ent nr nc) by auto. rewrite !bind_Ok.
  set (p := ent nc e r1 c). set (q := ent nc e r2 c).
  destruct ((p =? 1) && (q =? 0)) eqn:E.
  - apply andb_prop in E. destruct E as (E1 & E2). apply Z.eqb_eq in E1, E2. exists e. sp; auto. intros j Hj. rewrite E1, E2. ring.
  - cbn [s_neg sc_x]. rewrite bind_Ok.
    match goal with |- context[row_op e nc r1 r2 0 ?f] => destruct (row_op_ok (fun x y z => z = p * y - q * x) nr nc e r1 r2 0 f) as (e' & E' & L' & Ho & Hr) end; auto; try lia.
    { intros j Hj. generalize (ent nc e r1 j) (ent nc e r2 j). intros x y. exists (p * y - q * x). split; auto. apply (op_cases p q x y). reflexivity. }
    exists e'. sp; auto. intros j Hj. apply Hr. lia.
Qed.
(** a row divided exactly *)
Lemma map_row e r f (R : Z -> Z -> Prop) : length e = (nr * nc)%nat -> (r < nr)%nat -> (forall j, (j < nc)%nat -> exists y, f (ent nc e r j) = Ok y /\ R (ent nc e r j) y) ->
  exists e', bind (seg e (r * nc) nc) (fun a => bind (mmap f a) (fun a => put e (r * nc) a)) = Ok e' /\ length e' = (nr * nc)%nat /\
    (forall i j, (i < nr)%nat -> (j < nc)%nat -> i <> r -> ent nc e' i j = ent nc e i j) /\ (forall j, (j < nc)%nat -> R (ent nc e r j) (ent nc e' r j)).
Proof.
  intros L Hr Hf. rewrite <- (Nat.add_0_r (r * nc)). destruct (seg_row nr nc e r 0 nc L Hr ltac:(lia)) as (a & -> & La & Ha). rewrite bind_Ok.
  destruct (mmap_ok 0 0 R f a) as (b & -> & Lb & Hb). { intros k Hk. rewrite Ha by lia. apply Hf. lia. }
  rewrite bind_Ok. destruct (put_row nr nc e r 0 b L Hr ltac:(lia)) as (e' & -> & L' & Ho & Hi). exists e'. sp; auto.
  intros j Hj. rewrite Hi by lia. rewrite Nat.sub_0_r. specialize (Hb j ltac:(lia)). rewrite Ha in Hb by lia. exact Hb.
Qed.
Lemma div_row_ok e r d : length e = (nr * nc)%nat -> (r < nr)%nat -> 1 <= d -> (forall j, (j < nc)%nat -> (d | ent nc e r j)) ->
  exists e', div_row sc_x e nc r d = Ok e' /\ length e' = (nr * nc)%nat /\
    (forall i j, (i < nr)%nat -> (j < nc)%nat -> i <> r -> ent nc e' i j = ent nc e i j) /\ (forall j, (j < nc)%nat -> d * ent nc e' r j = ent nc e r j).
Proof.
  intros L Hr Hd H. unfold div_row. destruct (Z.ltb_spec 1 d).
  - apply (map_row e r (fun x => s_div sc_x x d) (fun x y => d * y = x)); auto. intros j Hj. apply x_div; auto. lia.
  - assert (d = 1) as -> by lia. exists e. sp; auto. intros. ring.
Qed.
Lemma gcd_fold l : forall g, exists h, mfold (fun g x => s_gcd sc_x g x) l g = Ok h /\ (h | g) /\ (forall x, In x l -> (h | x)) /\ (0 <= g -> 0 <= h) /\ (h = 0 -> g = 0 /\ forall x, In x l -> x = 0).
Proof.
  induction l as [|a l IH]; intros g; cbn [mfold].
  - exists g. sp; auto. { exists 1. ring. } { intros x []. } intros ->. split; auto. intros x [].
  - change (s_gcd sc_x g a) with (Ok (Z.gcd g a)). rewrite bind_Ok. destruct (IH (Z.gcd g a)) as (h & -> & D1 & D2 & P & N). exists h. sp; auto.
    + eapply Z.divide_trans; [exact D1|apply Z.gcd_divide_l].
    + intros x [->|Hx]; auto. eapply Z.divide_trans; [exact D1|apply Z.gcd_divide_r].
    + intros _. apply P. apply Z.gcd_nonneg.
    + intros E. destruct (N E) as (G & Z0). apply Z.gcd_eq_0 in G. split; [tauto|]. intros x [->|Hx]; auto. tauto.
Qed.
Lemma clear_row_ok e r : length e = (nr * nc)%nat -> (r < nr)%nat ->
  exists e' g, clear_row sc_x e nc r = Ok e' /\ length e' = (nr * nc)%nat /\ 1 <= g /\
    (forall i j, (i < nr)%nat -> (j < nc)%nat -> i <> r -> ent nc e' i j = ent nc e i j) /\ (forall j, (j < nc)%nat -> g * ent nc e' r j = ent nc e r j).
Proof.
  intros L Hr. unfold clear_row.
  destruct (seg_row nr nc e r 0 nc L Hr ltac:(lia)) as (a & Ea & La & Ha). rewrite Nat.add_0_r in Ea.
  destruct (gcd_fold a 0) as (g & Eg & _ & Dg & Pg & _). specialize (Pg ltac:(lia)).
  destruct (Z.ltb_spec 1 g) as [G1|G1].
  - destruct (map_row e r (fun x => s_div sc_x x g) (fun x y => g * y = x)) as (e' & E' & L' & Ho & Hd); auto.
    { intros j Hj. apply x_div; [lia|]. apply Dg. replace j with (0 + j)%nat by lia. rewrite <- Ha by auto. apply nth_In. lia. }
    exists e', g. rewrite Ea in *. rewrite bind_Ok in *. rewrite Eg, bind_Ok. destruct (Z.ltb_spec 1 g); [|lia]. sp; auto; lia.
  - exists e, 1. rewrite Ea, bind_Ok, Eg, bind_Ok. destruct (Z.ltb_spec 1 g); [lia|]. sp; auto; [lia|]. intros. ring.
Qed.
Lemma piv_min_ok e c : length e = (nr * nc)%nat -> (c < nc)%nat ->
  forall rs x r, (forall i, In i rs -> (i < nr)%nat) -> Z.abs (ent nc e r c) = x -> (r < nr)%nat ->
  exists y s, piv_min sc_x e nc c rs x r = Ok (y, s) /\ (s < nr)%nat /\ Z.abs (ent nc e s c) = y /\ (s = r \/ In s rs) /\
    (y = 0 -> x = 0 /\ forall i, In i rs -> ent nc e i c = 0).
Proof.
  intros L Hc. induction rs as [|a rs IH]; intros x r Hrs Hx Hr; cbn [piv_min].
  - exists x, r. sp; auto. intros Hy; split; auto. intros i [].
  - destruct (Z.eqb_spec x 1) as [E|E]. { exists x, r. sp; auto. lia. }
    rewrite (deref_ent nr nc e a c) by (auto; apply Hrs; cbn; auto). rewrite bind_Ok. cbn [s_abs sc_x]. rewrite bind_Ok.
    destruct ((0 <? Z.abs (ent nc e a c)) && ((Z.abs (ent nc e a c) <? x) || (x =? 0))) eqn:T.
    + destruct (IH (Z.abs (ent nc e a c)) a) as (y & s & -> & Hs & Hy & Hin & H0); auto. { intros i Hi. apply Hrs. cbn; auto. } { apply Hrs; cbn; auto. }
      exists y, s. sp; auto. { destruct Hin as [->|]; cbn; auto. }
      intros Hy0. destruct (H0 Hy0). apply andb_prop in T. destruct T as (T & _). apply Z.ltb_lt in T. lia.
    + destruct (IH x r) as (y & s & -> & Hs & Hy & Hin & H0); auto. { intros i Hi. apply Hrs. cbn; auto. }
      exists y, s. sp; auto. { destruct Hin; cbn; auto. }
      intros Hy0. destruct (H0 Hy0) as (X0 & H1). split; auto. intros i [->|Hi]; auto.
      rewrite X0, Z.eqb_refl, orb_true_r, andb_true_r in T. apply Z.ltb_ge in T. lia.
Qed.
End Steps.

(** ** the state of the forward elimination *)
Section Bar.
Variables (nr nc : nat) (A : nat -> nat -> Z).
Record bar (c : nat) (E : nat -> nat -> Z) (r : nat) (pc npc : list nat) (last : Z) : Prop := Bar {
  b_len : r = length pc; b_r : (r <= nr)%nat; b_c : (c <= nc)%nat; b_spl : splits c pc npc;
  b_piv : forall i, (i < r)%nat -> E i (nth i pc 0%nat) <> 0 /\ forall j, (j < nth i pc 0)%nat -> E i j = 0;
  b_bel : forall i j, (r <= i < nr)%nat -> (j < c)%nat -> E i j = 0;
  b_span : eqq nc nr A nr E;
  b_det : exists (sg : nat -> nat) s e0 (C : nat -> nat -> Z), s * s = 1 /\ e0 <> 0 /\
    let D := zdet r (fun i t => A (sg i) (nth t pc 0%nat)) in
    D <> 0 /\ last = Z.abs D /\
    forall i j, (r <= i < nr)%nat -> (j < nc)%nat -> e0 * E i j = e0 * s * D * A (sg i) j + sumn r (fun t => C i t * A (sg t) j)
}.
Lemma bar_last c E r pc npc last : bar c E r pc npc last -> 1 <= last.
Proof. intros B. destruct (b_det _ _ _ _ _ _ B) as (sg & s & e0 & C & _ & _ & HD & -> & _). lia. Qed.
Lemma bar_init : bar 0 A 0 [] [] 1.
Proof.
  constructor; auto; try (intros; lia).
  - unfold splits; sp; cbn; auto using SSorted_nil.
  - apply eqq_refl.
  - exists (fun i => i), 1, 1, (fun _ _ => 0). cbn zeta. rewrite zdet0. sp; auto; try lia. intros. cbn [sumn]. ring.
Qed.
Lemma bar_skip c E r pc npc last : bar c E r pc npc last -> (c < nc)%nat -> (forall i, (r <= i < nr)%nat -> E i c = 0) -> bar (c + 1) E r pc (npc ++ [c]) last.
Proof.
  intros [L R Cc SPL PIV BEL SP DET] Hc Z0. constructor; auto; try lia.
  - apply splits_snoc2; auto.
  - intros i j Hi Hj. destruct (Nat.eq_dec j c) as [->|]; auto. apply BEL; lia.
Qed.
Lemma bar_ext c E E' r pc npc last : bar c E r pc npc last -> (forall i j, (i < nr)%nat -> (j < nc)%nat -> E' i j = E i j) -> bar c E' r pc npc last.
Proof.
  intros [L R Cc SPL PIV BEL SP DET] H.
  assert (PCB : forall i, (i < r)%nat -> (nth i pc 0 < c)%nat). { intros i Hi. eapply splits_pc; [exact SPL|]. apply nth_In. lia. }
  constructor; auto.
  - intros i Hi. specialize (PCB i Hi). split; [rewrite H by lia; apply PIV; auto|]. intros j Hj. rewrite H by lia. apply PIV; auto.
  - intros i j Hi Hj. rewrite H by lia. auto.
  - eapply eqq_trans; [exact SP|]. intros v. split; apply qspan_ext; intros; rewrite H; auto.
  - destruct DET as (sg & s & e0 & C & S1 & E0 & DET). exists sg, s, e0, C. cbn zeta in *. destruct DET as (D0 & DL & K). sp; auto. intros i j Hi Hj. rewrite H by lia. auto.
Qed.
Lemma bar_swap c E E' r pc npc last rm : bar c E r pc npc last -> (r < rm < nr)%nat ->
  (forall i j, (i < nr)%nat -> (j < nc)%nat -> i <> r -> i <> rm -> E' i j = E i j) ->
  (forall j, (j < nc)%nat -> E' r j = E rm j /\ E' rm j = E r j) -> bar c E' r pc npc last.
Proof.
  intros [L R Cc SPL PIV BEL SP DET] Hrm H1 H2.
  assert (PCB : forall i, (i < r)%nat -> (nth i pc 0 < c)%nat). { intros i Hi. eapply splits_pc; [exact SPL|]. apply nth_In. lia. }
  constructor; auto.
  - intros i Hi. specialize (PCB i Hi). split; [rewrite H1 by lia; apply PIV; auto|]. intros j Hj. rewrite H1 by lia. apply PIV; auto.
  - intros i j Hi Hj. destruct (Nat.eq_dec i r) as [->|]; [rewrite (proj1 (H2 j ltac:(lia))); apply BEL; lia|].
    destruct (Nat.eq_dec i rm) as [->|]; [rewrite (proj2 (H2 j ltac:(lia))); apply BEL; lia|]. rewrite H1 by lia. auto.
  - eapply eqq_trans; [exact SP|]. apply eqq_rows; intros i Hi.
    + destruct (Nat.eq_dec i r) as [->|]; [|destruct (Nat.eq_dec i rm) as [->|]].
      * apply (qspan_mult nc nr E' rm (E r) 1 1); try lia. intros j Hj. rewrite (proj2 (H2 j Hj)). ring.
      * apply (qspan_mult nc nr E' r (E rm) 1 1); try lia. intros j Hj. rewrite (proj1 (H2 j Hj)). ring.
      * apply (qspan_mult nc nr E' i (E i) 1 1); try lia. intros j Hj. rewrite H1 by auto. ring.
    + destruct (Nat.eq_dec i r) as [->|]; [|destruct (Nat.eq_dec i rm) as [->|]].
      * apply (qspan_mult nc nr E rm (E' r) 1 1); try lia. intros j Hj. rewrite (proj1 (H2 j Hj)). ring.
      * apply (qspan_mult nc nr E r (E' rm) 1 1); try lia. intros j Hj. rewrite (proj2 (H2 j Hj)). ring.
      * apply (qspan_mult nc nr E i (E' i) 1 1); try lia. intros j Hj. rewrite H1 by auto. ring.
  - destruct DET as (sg & s & e0 & C & S1 & E0 & DET). cbn zeta in DET. destruct DET as (D0 & DL & K).
    set (tw := fun i : nat => if (i =? r)%nat then rm else if (i =? rm)%nat then r else i).
    assert (TW : forall i, (i < r)%nat -> tw i = i). { intros i Hi. unfold tw. destruct (Nat.eqb_spec i r); [lia|]. destruct (Nat.eqb_spec i rm); lia. }
    assert (DE : zdet r (fun i t => A (sg (tw i)) (nth t pc 0%nat)) = zdet r (fun i t => A (sg i) (nth t pc 0%nat))).
    { apply zdet_ext. intros i j Hi Hj. rewrite TW by auto. auto. }
    exists (fun i => sg (tw i)), s, e0, (fun i t => C (tw i) t). cbn zeta. rewrite DE. sp; auto.
    intros i j Hi Hj. rewrite (sumn_ext r _ (fun t => C (tw i) t * A (sg t) j)) by (intros t Ht; rewrite (TW t) by auto; auto).
    assert (TB : (r <= tw i < nr)%nat). { unfold tw. destruct (Nat.eqb_spec i r); [lia|]. destruct (Nat.eqb_spec i rm); lia. }
    rewrite <- K by auto. f_equal. unfold tw. destruct (Nat.eqb_spec i r) as [->|]; [apply H2; auto|]. destruct (Nat.eqb_spec i rm) as [->|]; [apply H2; auto|]. apply H1; auto; lia.
Qed.
Lemma bar_div c E r pc npc last i j : bar c E r pc npc last -> (c < nc)%nat -> (r < i < nr)%nat -> (j < nc)%nat ->
  (last | E r c * E i j - E i c * E r j).
Proof.
  intros [L R Cc SPL PIV BEL SP DET] Hc Hi Hj.
  assert (PCB : forall i, (i < r)%nat -> (nth i pc 0 < c)%nat). { intros k Hk. eapply splits_pc; [exact SPL|]. apply nth_In. lia. }
  destruct DET as (sg & s & e0 & C & S1 & E0 & DET). cbn zeta in DET. destruct DET as (D0 & DL & K).
  set (kap := fun b : nat => if (b <? r)%nat then nth b pc 0%nat else if (b =? r)%nat then c else j).
  set (rho := fun a : nat => if (a <? r)%nat then sg a else if (a =? r)%nat then sg r else sg i).
  assert (KL : forall b, (b < r)%nat -> kap b = nth b pc 0%nat). { intros b Hb. unfold kap. destruct (Nat.ltb_spec b r); [auto|lia]. }
  assert (RL : forall b, (b < r)%nat -> rho b = sg b). { intros b Hb. unfold rho. destruct (Nat.ltb_spec b r); [auto|lia]. }
  assert (KB : forall b, (kap b < nc)%nat). { intros b. unfold kap. destruct (Nat.ltb_spec b r) as [Hb|]; [specialize (PCB b Hb); lia|]. destruct (Nat.eqb_spec b r); lia. }
  assert (Rr : rho r = sg r). { unfold rho. destruct (Nat.ltb_spec r r); [lia|]. rewrite Nat.eqb_refl. auto. }
  assert (Rs : rho (Datatypes.S r) = sg i). { unfold rho. destruct (Nat.ltb_spec (Datatypes.S r) r); [lia|]. destruct (Nat.eqb_spec (Datatypes.S r) r); [lia|auto]. }
  assert (Kr : kap r = c). { unfold kap. destruct (Nat.ltb_spec r r); [lia|]. rewrite Nat.eqb_refl. auto. }
  assert (Ks : kap (Datatypes.S r) = j). { unfold kap. destruct (Nat.ltb_spec (Datatypes.S r) r); [lia|]. destruct (Nat.eqb_spec (Datatypes.S r) r); [lia|auto]. }
  set (M := fun a b => A (rho a) (kap b)).
  assert (DE : zdet r M = zdet r (fun i t => A (sg i) (nth t pc 0%nat))).
  { apply zdet_ext. intros a b Ha Hb. unfold M. rewrite RL, KL by auto. auto. }
  pose proof (@zdet_sylvester r M e0 s (fun t => C r t) (fun t => C i t) (fun b => E r (kap b)) (fun b => E i (kap b)) E0) as Y.
  rewrite DE in Y. specialize (Y D0 S1).
  assert (Y' : zdet r (fun i0 t : nat => A (sg i0) (nth t pc 0%nat)) * zdet (Datatypes.S (Datatypes.S r)) M = E r (kap r) * E i (kap (Datatypes.S r)) - E r (kap (Datatypes.S r)) * E i (kap r)).
  { apply Y.
    - intros b _. unfold M. rewrite Rr, K by (auto; lia). f_equal. apply sumn_ext. intros t Ht. rewrite RL by auto. auto.
    - intros b _. unfold M. rewrite Rs, K by (auto; lia). f_equal. apply sumn_ext. intros t Ht. rewrite RL by auto. auto.
    - intros b Hb. rewrite KL by auto. apply BEL; [lia|]. apply PCB; auto.
    - intros b Hb. rewrite KL by auto. apply BEL; [lia|]. apply PCB; auto. }
  rewrite Kr, Ks in Y'. rewrite DL. apply Z.divide_abs_l. exists (zdet (Datatypes.S (Datatypes.S r)) M). transitivity (E r c * E i j - E r j * E i c); [ring|]. symmetry. rewrite Z.mul_comm. exact Y'.
Qed.
Lemma bar_elim c E E' r pc npc last : bar c E r pc npc last -> (c < nc)%nat -> (r < nr)%nat -> E r c <> 0 ->
  (forall i j, (i <= r)%nat -> (j < nc)%nat -> E' i j = E i j) ->
  (forall i j, (r < i < nr)%nat -> (j < nc)%nat -> last * E' i j = E r c * E i j - E i c * E r j) ->
  bar (c + 1) E' (r + 1) (pc ++ [c]) npc (Z.abs (E r c)).
Proof.
  intros B Hc Hr Hp H1 H2. pose proof (bar_last _ _ _ _ _ _ B) as LP. destruct B as [L R Cc SPL PIV BEL SP DET].
  assert (PCB : forall i, (i < r)%nat -> (nth i pc 0 < c)%nat). { intros i Hi. eapply splits_pc; [exact SPL|]. apply nth_In. lia. }
  constructor; auto; try lia.
  - rewrite app_length. cbn [length]. lia.
  - apply splits_snoc1; auto.
  - intros i Hi. destruct (Nat.eq_dec i r) as [E1|].
    + rewrite E1, L, nth_snoc_eq, <- L. split; [rewrite H1 by lia; auto|]. intros j Hj. rewrite H1 by lia. apply BEL; lia.
    + assert (Hi' : (i < r)%nat) by lia. specialize (PCB i Hi'). rewrite nth_snoc_lt by lia.
      split; [rewrite H1 by lia; apply PIV; auto|]. intros j Hj. rewrite H1 by lia. apply PIV; auto.
  - intros i j Hi Hj. assert (last * E' i j = 0); [|nia]. rewrite H2 by lia. destruct (Nat.eq_dec j c) as [->|]; [ring|].
    rewrite (BEL i j), (BEL r j) by lia. ring.
  - eapply eqq_trans; [exact SP|]. apply eqq_rows; intros i Hi.
    + destruct (Nat.le_gt_cases i r).
      * apply (qspan_mult nc nr E' i (E i) 1 1); try lia. intros j Hj. rewrite H1 by auto. ring.
      * apply (qspan_two nc nr E' i r (E i) (E r c) last (E i c)); try lia. intros j Hj. rewrite (H1 r j), H2 by lia. ring.
    + destruct (Nat.le_gt_cases i r).
      * apply (qspan_mult nc nr E i (E' i) 1 1); try lia. intros j Hj. rewrite H1 by auto. ring.
      * apply (qspan_two nc nr E i r (E' i) last (E r c) (- E i c)); try lia. intros j Hj. rewrite H2 by lia. ring.
  - destruct DET as (sg & s & e0 & C & S1 & E0 & DET). cbn zeta in DET. destruct DET as (D0 & DL & K).
    set (M := fun i t => A (sg i) (nth t (pc ++ [c]) 0%nat)).
    assert (DE : zdet r M = zdet r (fun i t => A (sg i) (nth t pc 0%nat))).
    { apply zdet_ext. intros a b Ha Hb. unfold M. rewrite nth_snoc_lt by lia. auto. }
    assert (PC1 : forall b, (b <= r)%nat -> (nth b (pc ++ [c]) 0 < c + 1)%nat).
    { intros b Hb. destruct (Nat.eq_dec b r) as [->|]; [rewrite L, nth_snoc_eq; lia|]. rewrite nth_snoc_lt by lia. specialize (PCB b ltac:(lia)). lia. }
    pose proof (@zdet_pivot r M e0 s (fun t => C r t) (fun b => E r (nth b (pc ++ [c]) 0%nat)) E0) as Y. rewrite DE in Y. specialize (Y D0 S1).
    assert (Y' : zdet (Datatypes.S r) M = s * E r (nth r (pc ++ [c]) 0%nat)).
    { apply Y.
      - intros b Hb. unfold M. pose proof (PC1 b Hb). rewrite K by lia. reflexivity.
      - intros b Hb. rewrite nth_snoc_lt by lia. apply BEL; [lia|]. apply PCB; auto. }
    clear Y. assert (Er : nth r (pc ++ [c]) 0%nat = c) by (rewrite L; apply nth_snoc_eq). rewrite Er in Y'.
    replace (r + 1)%nat with (Datatypes.S r) by lia.
    set (D := zdet r (fun i t => A (sg i) (nth t pc 0%nat))) in *.
    assert (SS : s = 1 \/ s = -1). { assert ((s - 1) * (s + 1) = 0) as F by lia. apply Z.mul_eq_0 in F. lia. }
    exists sg, (Z.sgn D), (e0 * last), (fun i t => if (t =? r)%nat then - E i c * e0 * s * D else E r c * C i t - E i c * C r t).
    cbn zeta. fold M. rewrite Y'. sp.
    + destruct (Z.lt_total D 0) as [G|[G|G]]; [rewrite Z.sgn_neg by auto; auto|contradiction|rewrite Z.sgn_pos by auto; auto].
    + intros Z0. apply Z.mul_eq_0 in Z0. lia.
    + intros Z0. apply Z.mul_eq_0 in Z0. lia.
    + destruct SS as [-> | ->]; lia.
    + intros i j Hi Hj. cbn [sumn]. rewrite Nat.eqb_refl.
      rewrite (sumn_ext r _ (fun t => E r c * (C i t * A (sg t) j) + (- E i c) * (C r t * A (sg t) j))).
      2:{ intros t Ht. destruct (Nat.eqb_spec t r); [lia|]. ring. }
      rewrite sumn_add, !sumn_mul. pose proof (K i j ltac:(lia) Hj) as Ki. pose proof (K r j ltac:(lia) Hj) as Kr.
      assert (GD : Z.sgn D * last = D) by (rewrite DL; rewrite Z.mul_comm; apply Z.abs_sgn).
      replace (e0 * last * E' i j) with (e0 * (last * E' i j)) by ring. rewrite H2 by lia.
      replace (e0 * last * Z.sgn D * (s * E r c) * A (sg i) j) with (e0 * (Z.sgn D * last) * s * E r c * A (sg i) j) by ring. rewrite GD.
      replace (e0 * (E r c * E i j - E i c * E r j)) with (E r c * (e0 * E i j) - E i c * (e0 * E r j)) by ring. rewrite Ki, Kr. ring.
Qed.
Lemma bar_fill c E r pc npc last : bar c E r pc npc last -> (c = nc \/ r = nr)%nat ->
  bar nc E r pc (npc ++ seq (length pc + length npc) (nc - (length pc + length npc))) last.
Proof.
  intros B H. pose proof (splits_len _ _ _ (b_spl _ _ _ _ _ _ B)) as El. rewrite El. destruct B as [L R Cc SPL PIV BEL SP DET]. constructor; auto.
  - replace nc with (c + (nc - c))%nat at 1 by lia. apply splits_fill; auto.
  - intros i j Hi Hj. destruct H as [->| ->]; [|lia]. auto.
Qed.

(** ** the forward elimination *)
Lemma ech0_rows e c r last : length e = (nr * nc)%nat -> (r < nr)%nat -> (c < nc)%nat -> 1 <= last ->
  (forall i j, (r <= i < nr)%nat -> (j < c)%nat -> ent nc e i j = 0) ->
  (forall i j, (r < i < nr)%nat -> (j < nc)%nat -> (last | ent nc e r c * ent nc e i j - ent nc e i c * ent nc e r j)) ->
  exists e', mfold (fun e r3 => bind (cons_elim sc_x e nc r r3 c) (fun e => div_row sc_x e nc r3 last)) (seq (r + 1) (nr - (r + 1))) e = Ok e' /\
    length e' = (nr * nc)%nat /\ (forall i j, (i <= r)%nat -> (j < nc)%nat -> ent nc e' i j = ent nc e i j) /\
    (forall i j, (r < i < nr)%nat -> (j < nc)%nat -> last * ent nc e' i j = ent nc e r c * ent nc e i j - ent nc e i c * ent nc e r j).
Proof.
  intros L Hr Hc HL Z0 DV.
  destruct (mfold_seq (fun k e' => length e' = (nr * nc)%nat /\ (forall i j, (i <= r \/ k <= i < nr)%nat -> (j < nc)%nat -> ent nc e' i j = ent nc e i j) /\
      (forall i j, (r < i < k)%nat -> (j < nc)%nat -> last * ent nc e' i j = ent nc e r c * ent nc e i j - ent nc e i c * ent nc e r j))
    (fun e r3 => bind (cons_elim sc_x e nc r r3 c) (fun e => div_row sc_x e nc r3 last)) (r + 1) (nr - (r + 1)) e) as (e' & E' & L' & K1 & K2).
  - sp; auto. intros; lia.
  - intros k e1 Hk (L1 & I1 & I2).
    destruct (cons_elim_ok nr nc e1 r k c) as (e2 & -> & L2 & O2 & N2); auto; try lia. rewrite bind_Ok.
    assert (RW : forall j, (j < nc)%nat -> ent nc e2 k j = ent nc e r c * ent nc e k j - ent nc e k c * ent nc e r j).
    { intros j Hj. destruct (Nat.lt_ge_cases j c).
      - rewrite O2 by lia. rewrite I1 by lia. rewrite (Z0 k j), (Z0 r j) by lia. ring.
      - rewrite N2 by lia. rewrite !I1 by lia. ring. }
    destruct (div_row_ok nr nc e2 k last) as (e3 & -> & L3 & O3 & N3); auto; try lia. { intros j Hj. rewrite RW by auto. apply DV; lia. }
    exists e3. sp; auto.
    + intros i j Hi Hj. rewrite O3, O2 by lia. apply I1; lia.
    + intros i j Hi Hj. destruct (Nat.eq_dec i k) as [->|]; [rewrite N3 by auto; auto|]. rewrite O3, O2 by lia. apply I2; lia.
  - exists e'. sp; auto. intros i j Hi Hj. apply K2; lia.
Qed.
Lemma ech0_col_ok e c r pc npc last : length e = (nr * nc)%nat -> bar c (ent nc e) r pc npc last -> (c < nc)%nat -> (r < nr)%nat ->
  exists e' r' pc' npc' last', ech0_col sc_x nr nc (e, r, pc, npc, last) c = Ok (e', r', pc', npc', last') /\ length e' = (nr * nc)%nat /\
    bar (c + 1) (ent nc e') r' pc' npc' last'.
Proof.
  intros L B Hc Hr. unfold ech0_col. rewrite (deref_ent nr nc) by auto. rewrite bind_Ok. cbn [s_abs sc_x]. rewrite bind_Ok.
  destruct (piv_min_ok nr nc e c L Hc (seq (r + 1) (nr - (r + 1))) (Z.abs (ent nc e r c)) r) as (y & rm & -> & Hm & Hy & Hin & H0); auto.
  { intros i Hi. apply in_seq in Hi. lia. }
  rewrite bind_Ok. destruct (Z.eqb_spec y 0) as [Y0|Y0].
  - exists e, r, pc, (npc ++ [c]), last. sp; auto. apply bar_skip; auto. intros i Hi. destruct (H0 Y0) as (X0 & X1).
    destruct (Nat.eq_dec i r) as [->|]; [lia|]. apply X1. apply in_seq. lia.
  - assert (HH : exists e1, (if (r <? rm)%nat then swaprows e nc r rm else Ok e) = Ok e1 /\ length e1 = (nr * nc)%nat /\ bar c (ent nc e1) r pc npc last /\ Z.abs (ent nc e1 r c) = y).
    { destruct (Nat.ltb_spec r rm).
      - destruct (swaprows_ok nr nc e r rm) as (e1 & -> & L1 & O1 & S1); auto; try lia. exists e1. sp; auto.
        + eapply bar_swap; [exact B| |exact O1|exact S1]. lia.
        + rewrite (proj1 (S1 c Hc)). auto.
      - assert (rm = r) as ->. { destruct Hin as [|Hin]; auto. apply in_seq in Hin. lia. } exists e. auto. }
    destruct HH as (e1 & -> & L1 & B1 & P1). rewrite bind_Ok.
    destruct (ech0_rows e1 c r last) as (e2 & -> & L2 & K1 & K2); auto.
    { eapply bar_last; eauto. } { apply (b_bel _ _ _ _ _ _ B1). } { intros i j Hi Hj. eapply bar_div; eauto. }
    rewrite bind_Ok. exists e2, (r + 1)%nat, (pc ++ [c]), npc, y. sp; auto. rewrite <- P1. eapply bar_elim; eauto. lia.
Qed.
Lemma ech0_cols_ok : forall n e c r pc npc last, length e = (nr * nc)%nat -> bar c (ent nc e) r pc npc last -> (c + n = nc)%nat ->
  exists e' r' pc' npc' last' c', ech0_cols sc_x nr nc (seq c n) (e, r, pc, npc, last) = Ok (e', r', pc', npc', last') /\ length e' = (nr * nc)%nat /\
    bar c' (ent nc e') r' pc' npc' last' /\ (c' = nc \/ r' = nr).
Proof.
  induction n as [|n IH]; intros e c r pc npc last L B Hn; cbn [seq ech0_cols fst snd].
  - exists e, r, pc, npc, last, c. sp; auto. left; lia.
  - destruct (Nat.ltb_spec r nr) as [Hr|Hr].
    + destruct (ech0_col_ok e c r pc npc last L B) as (e1 & r1 & pc1 & npc1 & l1 & -> & L1 & B1); auto; try lia. rewrite bind_Ok.
      replace (Datatypes.S c) with (c + 1)%nat by lia. apply IH; auto. lia.
    + exists e, r, pc, npc, last, c. sp; auto. pose proof (b_r _ _ _ _ _ _ B). right; lia.
Qed.
End Bar.
