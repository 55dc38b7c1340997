(** The type and the Tamagawa number described by TateSpec do not depend on the
    model: two models of a curve in the normal forms of TateSpec have the same ones. *)
From Coq Require Import ZArith Znumtheory Lia List Bool.
From Verif Require Import Base MinimalProofs CurveModel CurveProofs TateSpec TateArith TateShift TateStar TateLoop.
Import ListNotations.
Open Scope Z_scope.

Definition dv (p k x : Z) : Prop := 0 <= k /\ (p ^ k | x).
Lemma dv_mul p j k x y : dv p j x -> dv p k y -> dv p (j + k) (x * y).
Proof.
  intros [J [u ->]] [K [v ->]]. split; [lia|]. exists (u * v). rewrite Z.pow_add_r by lia. ring.
Qed.
Lemma dv_any p x : dv p 0 x.
Proof. split; [lia|]. exists x. rewrite Z.pow_0_r. ring. Qed.
Lemma dv_le p j k x : dv p k x -> 0 <= j <= k -> dv p j x.
Proof. intros [K H] J. split; [lia|]. apply ple with k; assumption. Qed.
Lemma dv_add p k x y : dv p k x -> dv p k y -> dv p k (x + y).
Proof. intros [K H] [_ H']. split; [exact K|]. apply Z.divide_add_r; assumption. Qed.
Lemma dv_sub p k x y : dv p k x -> dv p k y -> dv p k (x - y).
Proof. intros [K H] [_ H']. split; [exact K|]. apply Z.divide_sub_r; assumption. Qed.
Lemma dv_opp p k x : dv p k x -> dv p k (- x).
Proof. intros [K H]. split; [exact K|]. apply Z.divide_opp_r. exact H. Qed.
Lemma dv_2 p k x : dv p k x -> dv p (k + k) (x ^ 2).
Proof. intros H. replace (x ^ 2) with (x * x) by ring. apply dv_mul; exact H. Qed.
Lemma dv_3 p k x : dv p k x -> dv p (k + k + k) (x ^ 3).
Proof. intros H. replace (x ^ 3) with (x * x * x) by ring. repeat apply dv_mul; exact H. Qed.
Lemma dv1 p x : (p | x) <-> dv p 1 x.
Proof. unfold dv. rewrite Z.pow_1_r. split; [intros H; split; [lia|exact H]|tauto]. Qed.
Lemma dvk p k x : 0 <= k -> (p ^ k | x) <-> dv p k x.
Proof. intros K. unfold dv. tauto. Qed.

Ltac dvm p e :=
  lazymatch e with
  | ?a * ?b => let x := dvm p a in let y := dvm p b in constr:(dv_mul _ _ _ _ _ x y)
  | ?a ^ 2 => let x := dvm p a in constr:(dv_2 _ _ _ x)
  | ?a ^ 3 => let x := dvm p a in constr:(dv_3 _ _ _ x)
  | - ?a => let x := dvm p a in constr:(dv_opp _ _ _ x)
  | _ => match goal with H : dv p _ e |- _ => constr:(H) | _ => constr:(dv_any p e) end
  end.
Ltac dvs :=
  lazymatch goal with
  | |- dv _ _ (_ + _) => apply dv_add; dvs
  | |- dv _ _ (_ - _) => apply dv_sub; dvs
  | |- dv ?p ?k ?e => let H := dvm p e in apply (dv_le _ _ _ _ H); lia
  end.

Section P.
Variable p : Z.
Hypothesis P : prime p.
Notation dvp := (dv p).

Lemma dv_sqrt k x : 0 <= k -> dvp (2 * k) (x ^ 2) -> dvp k x.
Proof. intros K [_ H]. split; [exact K|]. apply (pow_root p x 2 k); auto. lia. Qed.
Lemma dv_sqrt1 k x : 0 <= k -> dvp (2 * k + 1) (x ^ 2) -> dvp (k + 1) x.
Proof.
  intros K H. assert (H0 : dvp k x) by (apply dv_sqrt; [exact K|]; apply dv_le with (2 * k + 1); [exact H|lia]).
  destruct H0 as [_ [y ->]]. destruct H as [_ H].
  replace ((y * p ^ k) ^ 2) with (p ^ k * p ^ k * (y * y)) in H by ring. rewrite pow_2k1 in H by exact K.
  apply pscale in H; [|apply Z.neq_mul_0; split; apply pk0; auto]. apply psq in H; [|exact P]. destruct H as [z ->].
  split; [lia|]. exists z. rewrite Z.pow_add_r, Z.pow_1_r by lia. ring.
Qed.
Lemma dv_cancel k u x : ~ (p | u) -> dvp k (u * x) -> dvp k x.
Proof. intros N [K H]. split; [exact K|]. apply pcancel_pow with u; assumption. Qed.
Lemma dv_pk k x : 0 <= k -> dvp k x -> exists y, x = p ^ k * y.
Proof. intros _ [_ [y ->]]. exists y. ring. Qed.
Lemma dv_scale j k x : 0 <= j -> 0 <= k -> dvp (j + k) (p ^ j * x) <-> dvp k x.
Proof.
  intros J K. unfold dv. rewrite Z.pow_add_r by lia. rewrite pscale by (apply pk0; auto). intuition lia.
Qed.

Definition rel (c c' : curve) : Prop := exists r s t, c' = tr_rst r s t c.
Lemma rel_sym c c' : rel c c' -> rel c' c.
Proof.
  intros (r & s & t & ->). exists (- r), (- s), (- t + r * s). rewrite tr_comp.
  rewrite <- (tr_id c) at 1. f_equal; ring.
Qed.

Definition base (c : curve) : Prop := dvp 1 (a3 c) /\ dvp 1 (a4 c) /\ dvp 1 (a6 c).
Definition S1 (c : curve) : Prop := base c /\ dvp 1 (sb2 c).
Definition S2 (c : curve) : Prop := S1 c /\ dvp 2 (a6 c).
Definition S3 (c : curve) : Prop := S2 c /\ dvp 3 (sb8 c).
Definition S4 (c : curve) : Prop := S3 c /\ dvp 3 (sb6 c).
Definition star (c : curve) : Prop := dvp 1 (a1 c) /\ dvp 1 (a2 c) /\ dvp 2 (a3 c) /\ dvp 2 (a4 c) /\ dvp 3 (a6 c).

(** the equations of a change of coordinates *)
Lemma tr_eqs r s t c c' : c' = tr_rst r s t c ->
  a1 c' = a1 c + 2 * s /\ a2 c' = a2 c - s * a1 c + 3 * r - s ^ 2 /\ a3 c' = a3 c + r * a1 c + 2 * t /\
  a4 c' = a4 c - s * a3 c + 2 * r * a2 c - t * a1 c - r * s * a1 c + 3 * r ^ 2 - 2 * s * t /\
  a6 c' = a6 c + r * a4 c + r ^ 2 * a2 c + r ^ 3 - t * a3 c - t ^ 2 - r * t * a1 c /\
  sb2 c' = sb2 c + 12 * r /\ sb4 c' = sb4 c + r * sb2 c + 6 * r ^ 2 /\
  sb6 c' = sb6 c + 2 * r * sb4 c + r ^ 2 * sb2 c + 4 * r ^ 3 /\
  sb8 c' = sb8 c + 3 * r * sb6 c + 3 * r ^ 2 * sb4 c + r ^ 3 * sb2 c + 3 * r ^ 2 * r ^ 2.
Proof.
  intros ->. rewrite sb2_tr, sb4_tr, sb6_tr. unfold tr_rst. cbn [a1 a2 a3 a4 a6]. repeat split; try ring.
  unfold sb8, sb6, sb4, sb2. cbn [a1 a2 a3 a4 a6]. ring.
Qed.

Lemma base_b c : base c -> dvp 1 (sb4 c) /\ dvp 1 (sb6 c).
Proof. intros (H3 & H4 & H6). unfold sb4, sb6. split; dvs. Qed.

Lemma p1 x : dvp 1 (x ^ 2) -> dvp 1 x.
Proof. intros H. rewrite <- dv1 in *. apply psq; [exact P|]. replace (x * x) with (x ^ 2) by ring. exact H. Qed.
Lemma p1' x : dvp 1 (x ^ 3) -> dvp 1 x.
Proof. intros H. rewrite <- dv1 in *. apply (prime_pow_div p x 3 P); [lia|exact H]. Qed.
Lemma pm x y : dvp 1 (x * y) -> dvp 1 x \/ dvp 1 y.
Proof. rewrite <- !dv1. apply prime_mult. exact P. Qed.

(** the singular point is (0,0) in both models *)
Lemma base_rt r s t c c' : c' = tr_rst r s t c -> base c -> base c' -> dvp 1 r /\ dvp 1 t.
Proof.
  intros E B B'. destruct (base_b c B) as [K4 K6]. destruct (base_b c' B') as [K4' K6'].
  destruct (tr_eqs r s t c c' E) as (_ & _ & E3 & E4 & E6 & _ & F4 & F6 & _).
  destruct B as (H3 & H4 & H6). destruct B' as (H3' & H4' & H6').
  assert (R : dvp 1 r).
  { assert (Q1 : dvp 1 (r * (sb2 c + 6 * r))).
    { replace (r * (sb2 c + 6 * r)) with (sb4 c' - sb4 c) by (rewrite F4; ring). dvs. }
    assert (Q2 : dvp 1 (r ^ 2 * (sb2 c + 4 * r))).
    { replace (r ^ 2 * (sb2 c + 4 * r)) with (sb6 c' - sb6 c - 2 * r * sb4 c) by (rewrite F6; ring). dvs. }
    apply pm in Q1 as [Q1|Q1]; [exact Q1|]. apply pm in Q2 as [Q2|Q2]; [apply p1; exact Q2|].
    assert (Q3 : dvp 1 (2 * r)).
    { replace (2 * r) with ((sb2 c + 6 * r) - (sb2 c + 4 * r)) by ring. apply dv_sub; assumption. }
    apply pm in Q3 as [Q3|Q3]; [|exact Q3].
    (* p = 2: a1 is even *)
    assert (B2 : dvp 1 (sb2 c)) by (replace (sb2 c) with ((sb2 c + 4 * r) - 2 * 2 * r) by ring; apply dv_sub; [exact Q2|dvs]).
    assert (A1 : dvp 1 (a1 c)).
    { apply p1. replace (a1 c ^ 2) with (sb2 c - 2 * 2 * a2 c) by (unfold sb2; ring). dvs. }
    apply p1. replace (r ^ 2) with (a4 c' - a4 c + s * a3 c - 2 * r * a2 c + t * a1 c + r * s * a1 c - 2 * r ^ 2 + 2 * s * t) by (rewrite E4; ring). dvs. }
  split; [exact R|]. apply p1.
  replace (t ^ 2) with (a6 c + r * a4 c + r ^ 2 * a2 c + r ^ 3 - t * a3 c - r * t * a1 c - a6 c') by (rewrite E6; ring). dvs.
Qed.

(** ** Types II, III, IV *)
Lemma inv0 c c' : rel c c' -> base c -> base c' -> dvp 1 (sb2 c) -> dvp 1 (sb2 c').
Proof.
  intros (r & s & t & E) B B' H. destruct (base_rt r s t c c' E B B') as [R T].
  destruct (tr_eqs r s t c c' E) as (_ & _ & _ & _ & _ & -> & _). dvs.
Qed.
Lemma inv1 c c' : rel c c' -> base c -> base c' -> dvp 2 (a6 c) -> dvp 2 (a6 c').
Proof.
  intros (r & s & t & E) B B' H. destruct (base_rt r s t c c' E B B') as [R T]. destruct B as (H3 & H4 & _).
  destruct (tr_eqs r s t c c' E) as (_ & _ & _ & _ & -> & _). dvs.
Qed.
Lemma S2_b6 c : S2 c -> dvp 2 (sb6 c).
Proof. intros [[(H3 & _) _] H6]. unfold sb6. dvs. Qed.
Lemma inv2 c c' : rel c c' -> S2 c -> S2 c' -> dvp 3 (sb8 c) -> dvp 3 (sb8 c').
Proof.
  intros (r & s & t & E) B B' H. pose proof (S2_b6 c B) as K6. destruct B as [[B B2] H6]. destruct B' as [[B' _] _].
  destruct (base_b c B) as [K4 _]. destruct (base_rt r s t c c' E B B') as [R T].
  destruct (tr_eqs r s t c c' E) as (_ & _ & _ & _ & _ & _ & _ & _ & ->). dvs.
Qed.
(** p^2 | 2 b4 *)
Lemma S3_b4 c : S3 c -> dvp 2 (2 * sb4 c).
Proof.
  intros [H H8]. pose proof (S2_b6 c H) as K6. destruct H as [[B B2] H6]. destruct (base_b c B) as [K4 _].
  destruct (Z.eq_dec p 2) as [E|N].
  - assert (dvp 1 2) by (apply dv1; rewrite E; apply dself). dvs.
  - assert (dvp (1 + 1) (sb4 c)); [|dvs]. apply (dv_sqrt1 1); [lia|].
    pose proof (s_b8 c) as S. replace (sb4 c ^ 2) with (sb2 c * sb6 c - 4 * sb8 c) by (rewrite S; ring). dvs.
Qed.
Lemma inv3 c c' : rel c c' -> S3 c -> S3 c' -> dvp 3 (sb6 c) -> dvp 3 (sb6 c').
Proof.
  intros (r & s & t & E) B B' H. pose proof (S3_b4 c B) as K4. destruct B as [[[B B2] H6] H8]. destruct B' as [[[B' _] _] _].
  destruct (base_rt r s t c c' E B B') as [R T].
  destruct (tr_eqs r s t c c' E) as (_ & _ & _ & _ & _ & _ & _ & -> & _).
  replace (2 * r * sb4 c) with (r * (2 * sb4 c)) by ring.
  assert (dvp 3 (r * (2 * sb4 c))) by (apply (dv_le p 3 (1 + 2)); [apply dv_mul; assumption|lia]).
  apply dv_add; [|dvs]. apply dv_add; [|dvs]. apply dv_add; assumption.
Qed.

(** ** Star types *)
Lemma choice_eq (A B : Prop) y n x x' : (A -> B) -> (B -> A) -> choice A y n x -> choice B y n x' -> x = x'.
Proof. unfold choice. intros F G [[? ->]|[? ->]] [[? ->]|[? ->]]; tauto. Qed.

(** the quadratic on the line x = r *)
Lemma f_eq r s t c c' Y : c' = tr_rst r s t c ->
  Y ^ 2 + a3 c * Y - a6 c = ((Y - t) ^ 2 + a3 c' * (Y - t) - a6 c') - a1 c * r * Y + r ^ 3 + a2 c * r ^ 2 + a4 c * r.
Proof. intros E. destruct (tr_eqs r s t c c' E) as (_ & _ & -> & _ & -> & _). ring. Qed.
Lemma f_eq' r s t c c' Y : c' = tr_rst r s t c ->
  (Y - t) ^ 2 + a3 c' * (Y - t) - a6 c' = (Y ^ 2 + a3 c * Y - a6 c) + a1 c * r * Y - r ^ 3 - a2 c * r ^ 2 - a4 c * r.
Proof. intros E. rewrite (f_eq r s t c c' Y E). ring. Qed.

Lemma yroot_dv k c : 0 <= k -> yroot p k c <-> exists Y, dvp k Y /\ dvp (2 * k + 1) (Y ^ 2 + a3 c * Y - a6 c).
Proof.
  intros K. unfold yroot. split.
  - intros [y H]. exists (p ^ k * y). split; [split; [exact K|exists y; ring]|]. split; [lia|exact H].
  - intros (Y & HY & [_ H]). destruct (dv_pk k Y K HY) as [y ->]. exists y. exact H.
Qed.

Lemma yroot1_inv c c' : rel c c' -> S3 c -> S3 c' -> ~ dvp 3 (sb6 c) -> yroot p 1 c -> yroot p 1 c'.
Proof.
  intros (r & s & t & E) B B' N Y1. pose proof (S3_b4 c B) as K4. destruct B as [[[B B2] H6] H8]. destruct B' as [[[B' B2'] H6'] H8'].
  destruct (base_rt r s t c c' E B B') as [R T]. apply yroot_dv in Y1 as (Y & HY & HQ); [|lia]. apply yroot_dv; [lia|].
  destruct (Z.eq_dec p 2) as [E2|NE].
  - exists (Y - t). split; [dvs|]. rewrite (f_eq' r s t c c' Y E).
    assert (D2 : dvp 1 2) by (apply dv1; rewrite E2; apply dself).
    assert (A1 : dvp 1 (a1 c)).
    { apply p1. replace (a1 c ^ 2) with (sb2 c - 2 * 2 * a2 c) by (unfold sb2; ring). dvs. }
    assert (W : dvp 3 (a2 c * r ^ 2 + a4 c * r)).
    { destruct B as (H3 & H4 & _).
      destruct (dv_pk 1 r ltac:(lia) R) as [ro Er]. destruct (dv_pk 1 (a4 c) ltac:(lia) H4) as [be Eb].
      destruct (dv_pk 1 (a3 c) ltac:(lia) H3) as [al Ea]. rewrite Z.pow_1_r in *.
      assert (AO : ~ (2 | al)).
      { intros D. apply N. assert (dvp 1 al) by (apply dv1; rewrite E2; exact D). unfold sb6. rewrite Ea.
        assert (dvp 1 p) by (apply dv1; apply dself). replace 4 with (2 * 2) by reflexivity. dvs. }
      assert (AB : (2 | a2 c * al ^ 2 - be ^ 2)).
      { assert (Q : dvp (2 + 1) (p ^ 2 * (a2 c * al ^ 2 - be ^ 2))).
        { replace (p ^ 2 * (a2 c * al ^ 2 - be ^ 2)) with (a2 c * a3 c ^ 2 - a4 c ^ 2) by (rewrite Ea, Eb; ring).
          replace (a2 c * a3 c ^ 2 - a4 c ^ 2) with (sb8 c - a1 c ^ 2 * a6 c - 2 * 2 * a2 c * a6 c + a1 c * a3 c * a4 c) by (unfold sb8; ring). dvs. }
        apply dv_scale in Q; [|lia|lia]. apply dv1 in Q. rewrite E2 in Q. exact Q. }
      assert (Q : (2 | ro * (a2 c * ro + be))).
      { rewrite even_div in *. revert AO AB. par. destruct (Z.even al), (Z.even be), (Z.even ro), (Z.even (a2 c)); cbn; intuition congruence. }
      replace (a2 c * r ^ 2 + a4 c * r) with (p ^ 2 * (ro * (a2 c * ro + be))) by (rewrite Er, Eb; ring).
      change 3 with (2 + 1). apply dv_scale; [lia|lia|]. apply dv1. rewrite E2. exact Q. }
    change (2 * 1 + 1) with 3 in *.
    replace (Y ^ 2 + a3 c * Y - a6 c + a1 c * r * Y - r ^ 3 - a2 c * r ^ 2 - a4 c * r)
      with ((Y ^ 2 + a3 c * Y - a6 c) + (a1 c * r * Y - r ^ 3) - (a2 c * r ^ 2 + a4 c * r)) by ring.
    apply dv_sub; [|exact W]. apply dv_add; [exact HQ|]. dvs.
  - destruct (odd_prime p P NE) as (Ev & D2 & D4).
    assert (HH : exists h, 2 * h = p ^ 2 + 1).
    { rewrite <- Z.negb_odd in Ev. apply negb_false_iff in Ev. apply Z.odd_spec in Ev as [q ->]. exists (2 * q ^ 2 + 2 * q + 1). ring. }
    destruct HH as [h HH].
    assert (D6 : dvp 3 (sb6 c - sb6 c')).
    { destruct (tr_eqs r s t c c' E) as (_ & _ & _ & _ & _ & _ & _ & -> & _).
      replace (sb6 c - (sb6 c + 2 * r * sb4 c + r ^ 2 * sb2 c + 4 * r ^ 3)) with (- (r * (2 * sb4 c)) - r ^ 2 * sb2 c - 4 * r ^ 3) by ring.
      assert (dvp 3 (r * (2 * sb4 c))) by (apply (dv_le p 3 (1 + 2)); [apply dv_mul; assumption|lia]).
      apply dv_sub; [apply dv_sub; [apply dv_opp; assumption|dvs]|dvs]. }
    destruct B as (H3 & _). destruct B' as (H3' & _).
    exists (Y + h * (a3 c - a3 c')). split.
    { apply dv_add; [exact HY|]. apply (dv_le p 1 (0 + 1)); [|lia]. apply dv_mul; [apply dv_any|dvs]. }
    change (2 * 1 + 1) with 3 in *. apply (dv_cancel 3 4); [exact D4|].
    set (Y' := Y + h * (a3 c - a3 c')).
    assert (E1 : 2 * Y' + a3 c' = 2 * Y + a3 c + p ^ 2 * (a3 c - a3 c')).
    { unfold Y'. replace (2 * (Y + h * (a3 c - a3 c')) + a3 c') with (2 * Y + (2 * h) * (a3 c - a3 c') + a3 c') by ring. rewrite HH. ring. }
    replace (4 * (Y' ^ 2 + a3 c' * Y' - a6 c')) with ((2 * Y' + a3 c') ^ 2 - sb6 c') by (unfold sb6; ring). rewrite E1.
    set (z := a3 c - a3 c'). assert (HZ : dvp 1 z) by (unfold z; dvs).
    assert (HP : dvp 2 (p ^ 2)) by (split; [lia|apply dself]).
    replace ((2 * Y + a3 c + p ^ 2 * z) ^ 2 - sb6 c') with
      (4 * (Y ^ 2 + a3 c * Y - a6 c) + (sb6 c - sb6 c') + z * p ^ 2 * (2 * (2 * Y + a3 c) + p ^ 2 * z)) by (unfold sb6; ring).
    apply dv_add; [apply dv_add; [|exact D6]|].
    + apply (dv_le p 3 (0 + 3)); [apply dv_mul; [apply dv_any|exact HQ]|lia].
    + apply (dv_le p 3 (1 + 2 + 0)); [|lia]. apply dv_mul; [|apply dv_any]. apply dv_mul; assumption.
Qed.

(** ** Star types *)
Lemma star_S4 c : star c -> S4 c.
Proof.
  intros (H1 & H2 & H3 & H4 & H6). unfold S4, S3, S2, S1, base, sb2, sb6, sb8.
  split; [split; [split; [split; [split; [|split]|]|]|]|]; dvs.
Qed.
Lemma star_rst r s t c c' : c' = tr_rst r s t c -> star c -> star c' -> dvp 1 r /\ dvp 1 s /\ dvp 2 t.
Proof.
  intros E S S'. pose proof (star_S4 c S) as [[[[B _] _] _] _]. pose proof (star_S4 c' S') as [[[[B' _] _] _] _].
  destruct (base_rt r s t c c' E B B') as [R T]. split; [exact R|]. clear B B'.
  destruct S as (H1 & H2 & H3 & H4 & H6). destruct S' as (H1' & H2' & H3' & H4' & H6').
  destruct (tr_eqs r s t c c' E) as (E1 & E2 & E3 & E4 & E6 & _). split.
  - apply p1. replace (s ^ 2) with (a2 c - s * a1 c + 3 * r - a2 c') by (rewrite E2; ring). dvs.
  - apply (dv_sqrt1 1); [lia|].
    replace (t ^ 2) with (a6 c + r * a4 c + r ^ 2 * a2 c + r ^ 3 - t * a3 c - r * t * a1 c - a6 c') by (rewrite E6; ring). dvs.
Qed.
(** the cubic is shifted *)
Lemma star_cubic r s t c c' : c' = tr_rst r s t c -> star c -> star c' -> exists ro b c0 d b' c0' d',
  r = p * ro /\ a2 c = p * b /\ a4 c = p ^ 2 * c0 /\ a6 c = p ^ 3 * d /\
  a2 c' = p * b' /\ a4 c' = p ^ 2 * c0' /\ a6 c' = p ^ 3 * d' /\
  dvp 1 (b' - (b + 3 * ro)) /\ dvp 1 (c0' - (c0 + 2 * b * ro + 3 * ro ^ 2)) /\
  dvp 1 (d' - (d + c0 * ro + b * ro ^ 2 + ro ^ 3)).
Proof.
  intros E S S'. destruct (star_rst r s t c c' E S S') as (R & Sd & T).
  destruct S as (H1 & H2 & H3 & H4 & H6). destruct S' as (H1' & H2' & H3' & H4' & H6').
  destruct (tr_eqs r s t c c' E) as (E1 & E2 & E3 & E4 & E6 & _).
  destruct (dv_pk 1 r ltac:(lia) R) as [ro Er]. destruct (dv_pk 1 (a2 c) ltac:(lia) H2) as [b Eb].
  destruct (dv_pk 2 (a4 c) ltac:(lia) H4) as [c0 Ec]. destruct (dv_pk 3 (a6 c) ltac:(lia) H6) as [d Ed].
  destruct (dv_pk 1 (a2 c') ltac:(lia) H2') as [b' Eb']. destruct (dv_pk 2 (a4 c') ltac:(lia) H4') as [c0' Ec'].
  destruct (dv_pk 3 (a6 c') ltac:(lia) H6') as [d' Ed']. rewrite Z.pow_1_r in *.
  exists ro, b, c0, d, b', c0', d'. do 7 (split; [assumption|]). split; [|split].
  - apply (dv_scale 1 1); [lia|lia|]. rewrite Z.pow_1_r.
    replace (p * (b' - (b + 3 * ro))) with (- (s * a1 c) - s ^ 2) by (rewrite Z.mul_sub_distr_l, <- Eb', E2, Eb, Er; ring).
    change (1 + 1) with 2. dvs.
  - apply (dv_scale 2 1); [lia|lia|].
    replace (p ^ 2 * (c0' - (c0 + 2 * b * ro + 3 * ro ^ 2))) with (- (s * a3 c) - t * a1 c - r * s * a1 c - 2 * s * t)
      by (rewrite Z.mul_sub_distr_l, <- Ec', E4, Ec, Eb, Er; ring).
    change (2 + 1) with 3. dvs.
  - apply (dv_scale 3 1); [lia|lia|].
    replace (p ^ 3 * (d' - (d + c0 * ro + b * ro ^ 2 + ro ^ 3))) with (- (t * a3 c) - t ^ 2 - r * t * a1 c)
      by (rewrite Z.mul_sub_distr_l, <- Ed', E6, Ed, Ec, Eb, Er; ring).
    change (3 + 1) with 4. dvs.
Qed.

Ltac cg := repeat first [assumption | apply cong_refl | apply cong_sub | apply cong_add | apply cong_mul].
Lemma cub_w_mod b c d b' c' d' : dvp 1 (b' - b) -> dvp 1 (c' - c) -> dvp 1 (d' - d) ->
  (p | cub_w b' c' d' - cub_w b c d) /\ (p | cub_x b' c' - cub_x b c).
Proof.
  rewrite <- !dv1. intros HB HC HD. change (cong p b' b) in HB. change (cong p c' c) in HC. change (cong p d' d) in HD.
  split; [change (cong p (cub_w b' c' d') (cub_w b c d)); unfold cub_w|change (cong p (cub_x b' c') (cub_x b c)); unfold cub_x]; cg.
Qed.
Lemma disc_w c b c0 d : a2 c = p * b -> a4 c = p ^ 2 * c0 -> a6 c = p ^ 3 * d ->
  (dvp 7 (cubic_disc c) <-> (p | cub_w b c0 d)) /\ (dvp 3 (3 * a4 c - a2 c ^ 2) <-> (p | cub_x b c0)).
Proof.
  intros E2 E4 E6. unfold cubic_disc. rewrite E2, E4, E6. split.
  - replace ((p * b) ^ 2 * (p ^ 2 * c0) ^ 2 - 4 * (p ^ 2 * c0) ^ 3 - 4 * (p * b) ^ 3 * (p ^ 3 * d) - 27 * (p ^ 3 * d) ^ 2 + 18 * (p * b) * (p ^ 2 * c0) * (p ^ 3 * d))
      with (p ^ 6 * (- cub_w b c0 d)) by (unfold cub_w; ring).
    change 7 with (6 + 1). rewrite dv_scale by lia. rewrite <- dv1. apply Z.divide_opp_r.
  - replace (3 * (p ^ 2 * c0) - (p * b) ^ 2) with (p ^ 2 * cub_x b c0) by (unfold cub_x; ring).
    change 3 with (2 + 1) at 1. rewrite dv_scale by lia. rewrite <- dv1. reflexivity.
Qed.
Lemma inv4 c c' : rel c c' -> star c -> star c' ->
  (dvp 7 (cubic_disc c) -> dvp 7 (cubic_disc c')) /\ (dvp 3 (3 * a4 c - a2 c ^ 2) -> dvp 3 (3 * a4 c' - a2 c' ^ 2)).
Proof.
  intros (r & s & t & E) S S'. destruct (star_cubic r s t c c' E S S') as (ro & b & c0 & d & b' & c0' & d' & _ & E2 & E4 & E6 & E2' & E4' & E6' & HB & HC & HD).
  destruct (disc_w c b c0 d E2 E4 E6) as [-> ->]. destruct (disc_w c' b' c0' d' E2' E4' E6') as [-> ->].
  destruct (cub_w_mod _ _ _ _ _ _ HB HC HD) as [W XX]. rewrite cub_w_tr in W. rewrite cub_x_tr in XX. split; intros D.
  - apply (dc2 p _ _ 1 1 _ W D). ring.
  - apply (dc2 p _ _ 1 1 _ XX D). ring.
Qed.

Lemma roots_le r s t c c' l l' : c' = tr_rst r s t c -> star c -> star c' -> NoDup l ->
  (forall x, In x l <-> 0 <= x < p /\ cubic_root p c x) -> (forall x, In x l' <-> 0 <= x < p /\ cubic_root p c' x) ->
  (length l <= length l')%nat.
Proof.
  intros E S S' ND IN IN'. pose proof (p0 p P) as G.
  destruct (star_cubic r s t c c' E S S') as (ro & b & c0 & d & b' & c0' & d' & _ & E2 & E4 & E6 & E2' & E4' & E6' & HB & HC & HD).
  assert (CR : forall e u v w x, a2 e = p * u -> a4 e = p ^ 2 * v -> a6 e = p ^ 3 * w -> cubic_root p e x <-> (p | x ^ 3 + u * x ^ 2 + v * x + w)).
  { intros e u v w x F2 F4 F6. unfold cubic_root. rewrite F2, F4, F6. replace (p ^ 4) with (p ^ 3 * p) by ring.
    replace ((p * x) ^ 3 + p * u * (p * x) ^ 2 + p ^ 2 * v * (p * x) + p ^ 3 * w) with (p ^ 3 * (x ^ 3 + u * x ^ 2 + v * x + w)) by ring.
    apply pscale. apply pk0; auto. lia. }
  set (f := fun x => (x - ro) mod p).
  rewrite <- (map_length f). apply NoDup_incl_length.
  - assert (INJ : forall x y, In x l -> In y l -> f x = f y -> x = y).
    { intros x y Hx Hy F. apply IN in Hx as [Bx _]. apply IN in Hy as [By _]. unfold f in F.
      assert (D : (p | x - y)).
      { destruct (mod_c (x - ro) p ltac:(lia)) as [u Hu]. destruct (mod_c (y - ro) p ltac:(lia)) as [v Hv]. exists (v - u). lia. }
      destruct D as [q D]. assert (q = 0); [|lia]. nia. }
    clear - ND INJ. induction ND as [|x l N ND IH]; cbn [map]; constructor.
    + intros F. apply in_map_iff in F as (y & F & Hy). apply N. rewrite (INJ x y); [exact Hy|left; reflexivity|right; exact Hy|symmetry; exact F].
    + apply IH. intros y z Hy Hz. apply INJ; right; assumption.
  - intros y Hy. apply in_map_iff in Hy as (x & <- & Hx). apply IN in Hx as [Bx Rx]. apply IN'.
    split; [apply Z.mod_pos_bound; lia|]. rewrite (CR c b c0 d x E2 E4 E6) in Rx. rewrite (CR c' b' c0' d' _ E2' E4' E6').
    rewrite <- dv1 in HB, HC, HD.
    pose proof (mod_c (x - ro) p ltac:(lia)) as F. fold (f x) in F.
    assert (Q : cong p (f x * f x * f x + b' * (f x * f x) + c0' * f x + d')
      ((x - ro) * (x - ro) * (x - ro) + (b + 3 * ro) * ((x - ro) * (x - ro)) + (c0 + 2 * b * ro + 3 * ro ^ 2) * (x - ro) + (d + c0 * ro + b * ro ^ 2 + ro ^ 3))).
    { change (cong p (f x) (x - ro)) in F. change (cong p b' (b + 3 * ro)) in HB.
      change (cong p c0' (c0 + 2 * b * ro + 3 * ro ^ 2)) in HC. change (cong p d' (d + c0 * ro + b * ro ^ 2 + ro ^ 3)) in HD.
      apply cong_add; [apply cong_add; [apply cong_add|]|exact HD].
      - apply cong_mul; [apply cong_mul|]; exact F.
      - apply cong_mul; [exact HB|apply cong_mul; exact F].
      - apply cong_mul; [exact HC|exact F]. }
    apply (dc2 p _ _ 1 1 _ Q Rx). ring.
Qed.

(** ** The types I*m, m >= 1 *)
Definition Lo (n : Z) (c : curve) : Prop := dvp 1 (a1 c) /\ dvp 1 (a2 c) /\ ~ dvp 2 (a2 c) /\
  dvp (n - 1) (a3 c) /\ dvp n (a4 c) /\ dvp (2 * n - 2) (a6 c).
Definition Le (n : Z) (c : curve) : Prop := dvp 1 (a1 c) /\ dvp 1 (a2 c) /\ ~ dvp 2 (a2 c) /\
  dvp n (a3 c) /\ dvp n (a4 c) /\ dvp (2 * n - 1) (a6 c).
Lemma Le_Lo n c : 3 <= n -> Le n c -> Lo n c.
Proof. intros N (H1 & H2 & N2 & H3 & H4 & H6). unfold Lo. do 3 (split; [assumption|]). split; [|split]; dvs. Qed.
Lemma Lo_Le n c : 3 <= n -> Lo (n + 1) c -> Le n c.
Proof. intros N (H1 & H2 & N2 & H3 & H4 & H6). unfold Le. do 3 (split; [assumption|]). split; [|split]; dvs. Qed.
Lemma Lo_star n c : 3 <= n -> Lo n c -> star c.
Proof. intros N (H1 & H2 & N2 & H3 & H4 & H6). unfold star. do 2 (split; [assumption|]). split; [|split]; dvs. Qed.

(** t (t + y) divisible by p^(2k) with p^k | y *)
Lemma dv_tt k t y : 0 <= k -> dvp k y -> dvp (2 * k) (t * (t + y)) -> dvp k t.
Proof.
  intros K HY H. destruct (Z.eq_dec t 0) as [->|NZ]; [split; [exact K|apply Z.divide_0_r]|].
  pose proof (p0 p P) as G. destruct (MArithProofs.val_z_ok p t NZ ltac:(lia)) as (v & _ & V0 & [u Eu] & V2).
  destruct (Z.le_gt_cases k v) as [L|L]; [split; [exact K|]; apply ple with v; [lia|exists u; exact Eu]|].
  exfalso. assert (HT : dvp (v + 1) y) by (apply dv_le with k; [exact HY|lia]).
  destruct (dv_pk (v + 1) y ltac:(lia) HT) as [w Ew]. rewrite Z.pow_add_r, Z.pow_1_r in Ew by lia.
  assert (Q : dvp (v + v + 1) (p ^ (v + v) * (u * (u + p * w)))).
  { replace (p ^ (v + v) * (u * (u + p * w))) with (t * (t + y)) by (rewrite Eu, Ew, Z.pow_add_r by lia; ring).
    apply dv_le with (2 * k); [exact H|lia]. }
  apply dv_scale in Q; [|lia|lia]. apply V2. rewrite Z.pow_add_r, Z.pow_1_r by lia.
  assert (U : (p | u)).
  { apply dv1 in Q. apply prime_mult in Q as [Q|Q]; [exact Q| |exact P]. apply (dc2 p _ p 1 (- w) _ Q (dself p)). ring. }
  destruct U as [z ->]. exists z. rewrite Eu. ring.
Qed.

Lemma Lo_t n r s t c c' : c' = tr_rst r s t c -> 3 <= n -> dvp (n - 1) r -> Lo n c -> Lo n c' -> dvp (n - 1) t.
Proof.
  intros E N R (H1 & H2 & N2 & H3 & H4 & H6) (H1' & H2' & N2' & H3' & H4' & H6').
  destruct (tr_eqs r s t c c' E) as (E1 & E2 & E3 & E4 & E6 & _).
  apply (dv_tt (n - 1) t (a3 c + r * a1 c)); [lia|dvs|].
  replace (t * (t + (a3 c + r * a1 c))) with (a6 c + r * a4 c + r ^ 2 * a2 c + r ^ 3 - a6 c') by (rewrite E6; ring). dvs.
Qed.
Lemma Le_t n r s t c c' : c' = tr_rst r s t c -> 3 <= n -> dvp (n - 1) r -> Le n c -> Le n c' -> dvp n t.
Proof.
  intros E N R L L'. pose proof (Lo_t n r s t c c' E N R (Le_Lo n c N L) (Le_Lo n c' N L')) as T.
  destruct L as (H1 & H2 & N2 & H3 & H4 & H6). destruct L' as (H1' & H2' & N2' & H3' & H4' & H6').
  destruct (tr_eqs r s t c c' E) as (E1 & E2 & E3 & E4 & E6 & _).
  replace n with (n - 1 + 1) by lia. apply dv_sqrt1; [lia|].
  replace (t ^ 2) with (a6 c + r * a4 c + r ^ 2 * a2 c + r ^ 3 - t * a3 c - r * t * a1 c - a6 c') by (rewrite E6; ring). dvs.
Qed.

Lemma dbl_r r s t c c' : c' = tr_rst r s t c -> Lo 3 c -> Lo 3 c' -> dvp 2 r.
Proof.
  intros E L L'. destruct (star_cubic r s t c c' E (Lo_star 3 c ltac:(lia) L) (Lo_star 3 c' ltac:(lia) L'))
    as (ro & b & c0 & d & b' & c0' & d' & Er & E2 & E4 & E6 & E2' & E4' & E6' & HB & HC & HD).
  destruct L as (H1 & H2 & N2 & H3 & H4 & H6). destruct L' as (H1' & H2' & N2' & H3' & H4' & H6').
  assert (C0 : dvp 1 c0) by (rewrite E4 in H4; apply (dv_scale 2 1) in H4; [exact H4|lia|lia]).
  assert (D0 : dvp 1 d) by (rewrite E6 in H6; apply (dv_scale 3 1) in H6; [exact H6|lia|lia]).
  assert (C0' : dvp 1 c0') by (rewrite E4' in H4'; apply (dv_scale 2 1) in H4'; [exact H4'|lia|lia]).
  assert (D0' : dvp 1 d') by (rewrite E6' in H6'; apply (dv_scale 3 1) in H6'; [exact H6'|lia|lia]).
  assert (Nb : ~ dvp 1 b).
  { intros F. apply N2. rewrite E2. rewrite <- (Z.pow_1_r p) at 2. apply (dv_scale 1 1); [lia|lia|exact F]. }
  assert (RO : dvp 1 ro).
  { assert (Q1 : dvp 1 (ro * (2 * b + 3 * ro))).
    { replace (ro * (2 * b + 3 * ro)) with (c0' - c0 - (c0' - (c0 + 2 * b * ro + 3 * ro ^ 2))) by ring.
      apply dv_sub; [dvs|exact HC]. }
    assert (Q2 : dvp 1 (ro ^ 2 * (b + ro))).
    { replace (ro ^ 2 * (b + ro)) with (d' - d - c0 * ro - (d' - (d + c0 * ro + b * ro ^ 2 + ro ^ 3))) by ring.
      apply dv_sub; [dvs|exact HD]. }
    apply pm in Q1 as [Q1|Q1]; [exact Q1|]. apply pm in Q2 as [Q2|Q2]; [apply p1; exact Q2|].
    replace ro with ((2 * b + 3 * ro) - ((b + ro) + (b + ro))) by ring.
    apply dv_sub; [exact Q1|apply dv_add; exact Q2]. }
  rewrite Er. rewrite <- (Z.pow_1_r p) at 2. apply (dv_scale 1 1); [lia|lia|exact RO].
Qed.

Lemma Lo_r r s t c c' : c' = tr_rst r s t c -> forall n, 3 <= n -> Lo n c -> Lo n c' -> dvp (n - 1) r.
Proof.
  intros E n N. pattern n. apply (Zlt_lower_bound_ind _ 3); [|exact N]. clear n N. intros n IH N L L'.
  destruct (Z.eq_dec n 3) as [->|N3]; [apply (dbl_r r s t c c' E L L')|].
  set (m := n - 1) in *. assert (En : n = m + 1) by (unfold m; lia). rewrite En in L, L'.
  pose proof (Lo_Le m c ltac:(lia) L) as K. pose proof (Lo_Le m c' ltac:(lia) L') as K'.
  assert (R : dvp (m - 1) r) by (apply IH; [lia| |]; apply Le_Lo; auto; lia).
  pose proof (Le_t m r s t c c' E ltac:(lia) R K K') as T.
  destruct L as (H1 & H2 & N2 & H3 & H4 & H6). destruct L' as (H1' & H2' & N2' & H3' & H4' & H6').
  replace (m + 1 - 1) with m in * by lia. replace (2 * (m + 1) - 2) with (2 * m) in * by lia.
  destruct (tr_eqs r s t c c' E) as (E1 & E2 & E3 & E4 & E6 & _).
  assert (Q : dvp (2 * m) (r ^ 2 * a2 c)).
  { replace (r ^ 2 * a2 c) with (a6 c' - a6 c - r * a4 c - r ^ 3 + t * a3 c + t ^ 2 + r * t * a1 c) by (rewrite E6; ring). dvs. }
  destruct (dv_pk (m - 1) r ltac:(lia) R) as [ro Er]. destruct (dv_pk 1 (a2 c) ltac:(lia) H2) as [x2 Ex]. rewrite Z.pow_1_r in Ex.
  assert (Q2 : dvp ((2 * m - 1) + 1) (p ^ (2 * m - 1) * (ro ^ 2 * x2))).
  { replace (p ^ (2 * m - 1) * (ro ^ 2 * x2)) with (r ^ 2 * a2 c); [apply dv_le with (2 * m); [exact Q|lia]|].
    rewrite Er, Ex. replace (2 * m - 1) with (2 * (m - 1) + 1) by lia. rewrite pow_2k1 by lia. ring. }
  apply (dv_scale (2 * m - 1) 1) in Q2; [|clear - N N3; lia|clear; lia]. apply pm in Q2 as [Q2|Q2].
  - apply p1 in Q2. rewrite Er. replace m with ((m - 1) + 1) at 1 by lia. apply dv_scale; [lia|lia|exact Q2].
  - exfalso. apply N2. rewrite Ex. rewrite <- (Z.pow_1_r p) at 2. apply (dv_scale 1 1); [lia|lia|exact Q2].
Qed.

Lemma Lo_b6 n c c' : rel c c' -> 3 <= n -> Lo n c -> Lo n c' -> dvp (2 * n - 1) (sb6 c) -> dvp (2 * n - 1) (sb6 c').
Proof.
  intros (r & s & t & E) N L L' H. pose proof (Lo_r r s t c c' E n N L L') as R.
  destruct L as (H1 & H2 & N2 & H3 & H4 & H6). destruct (tr_eqs r s t c c' E) as (_ & _ & _ & _ & _ & _ & _ & -> & _).
  assert (B2 : dvp 1 (sb2 c)) by (unfold sb2; dvs). assert (B4 : dvp n (sb4 c)) by (unfold sb4; dvs). dvs.
Qed.
Lemma Lo_yroot n c c' : rel c c' -> 3 <= n -> Lo n c -> Lo n c' -> yroot p (n - 1) c -> yroot p (n - 1) c'.
Proof.
  intros (r & s & t & E) N L L' H. pose proof (Lo_r r s t c c' E n N L L') as R. pose proof (Lo_t n r s t c c' E N R L L') as T.
  destruct L as (H1 & H2 & N2 & H3 & H4 & H6).
  apply yroot_dv in H as (Y & HY & HQ); [|lia]. apply yroot_dv; [lia|]. exists (Y - t). split; [dvs|].
  rewrite (f_eq' r s t c c' Y E). replace (2 * (n - 1) + 1) with (2 * n - 1) in * by lia.
  assert (Q : dvp (2 * n - 1) (a1 c * r * Y - r ^ 3 - a2 c * r ^ 2 - a4 c * r)) by dvs.
  replace (Y ^ 2 + a3 c * Y - a6 c + a1 c * r * Y - r ^ 3 - a2 c * r ^ 2 - a4 c * r) with
    ((Y ^ 2 + a3 c * Y - a6 c) + (a1 c * r * Y - r ^ 3 - a2 c * r ^ 2 - a4 c * r)) by ring.
  apply dv_add; assumption.
Qed.

(** at the even levels the quadratic a2 X^2 + a4 X + a6 is shifted by r *)
Lemma Le_quad n r s t c c' : c' = tr_rst r s t c -> 3 <= n -> Le n c -> Le n c' ->
  dvp (n - 1) r /\ dvp 2 (a2 c' - a2 c) /\ dvp (n + 1) (a4 c' - (a4 c + 2 * r * a2 c)) /\
  dvp (2 * n) (a6 c' - (a6 c + r * a4 c + r ^ 2 * a2 c)).
Proof.
  intros E N L L'. pose proof (Lo_r r s t c c' E n N (Le_Lo n c N L) (Le_Lo n c' N L')) as R.
  pose proof (Le_t n r s t c c' E N R L L') as T.
  destruct (star_rst r s t c c' E (Lo_star n c N (Le_Lo n c N L)) (Lo_star n c' N (Le_Lo n c' N L'))) as (_ & Sd & _).
  destruct L as (H1 & H2 & N2 & H3 & H4 & H6). destruct (tr_eqs r s t c c' E) as (E1 & E2 & E3 & E4 & E6 & _).
  split; [exact R|]. split; [|split].
  - replace (a2 c' - a2 c) with (3 * r - s * a1 c - s ^ 2) by (rewrite E2; ring). dvs.
  - replace (a4 c' - (a4 c + 2 * r * a2 c)) with (- (s * a3 c) - t * a1 c - r * s * a1 c + 3 * r ^ 2 - 2 * s * t) by (rewrite E4; ring). dvs.
  - replace (a6 c' - (a6 c + r * a4 c + r ^ 2 * a2 c)) with (r ^ 3 - t * a3 c - t ^ 2 - r * t * a1 c) by (rewrite E6; ring). dvs.
Qed.
Lemma Le_disc n c c' : rel c c' -> 3 <= n -> Le n c -> Le n c' ->
  dvp (2 * n + 1) (a4 c ^ 2 - 4 * a2 c * a6 c) -> dvp (2 * n + 1) (a4 c' ^ 2 - 4 * a2 c' * a6 c').
Proof.
  intros (r & s & t & E) N L L' H. destruct (Le_quad n r s t c c' E N L L') as (R & Q2 & Q4 & Q6).
  destruct L as (H1 & H2 & N2 & H3 & H4 & H6). destruct L' as (H1' & H2' & N2' & H3' & H4' & H6').
  set (u := a2 c' - a2 c) in *. set (v := a4 c' - (a4 c + 2 * r * a2 c)) in *. set (w := a6 c' - (a6 c + r * a4 c + r ^ 2 * a2 c)) in *.
  replace (a4 c' ^ 2 - 4 * a2 c' * a6 c') with
    ((a4 c ^ 2 - 4 * a2 c * a6 c) + (v * a4 c' + v * a4 c + 2 * v * r * a2 c - 4 * u * a6 c' - 4 * a2 c * w)) by (unfold u, v, w; ring).
  apply dv_add; [exact H|]. dvs.
Qed.
Lemma xroot_dv k c : 1 <= k -> xroot p k c <-> exists x, dvp (k - 1) x /\ dvp (2 * k) (a2 c * x ^ 2 + a4 c * x + a6 c).
Proof.
  intros K. unfold xroot. split.
  - intros [y H]. exists (p ^ (k - 1) * y). split; [split; [lia|exists y; ring]|]. split; [lia|exact H].
  - intros (Y & HY & [_ H]). destruct (dv_pk (k - 1) Y ltac:(lia) HY) as [y ->]. exists y. exact H.
Qed.
Lemma Le_xroot n c c' : rel c c' -> 3 <= n -> Le n c -> Le n c' -> xroot p n c -> xroot p n c'.
Proof.
  intros (r & s & t & E) N L L' H. destruct (Le_quad n r s t c c' E N L L') as (R & Q2 & Q4 & Q6).
  apply xroot_dv in H as (x & HX & HQ); [|lia]. apply xroot_dv; [lia|]. exists (x - r). split; [dvs|].
  set (u := a2 c' - a2 c) in *. set (v := a4 c' - (a4 c + 2 * r * a2 c)) in *. set (w := a6 c' - (a6 c + r * a4 c + r ^ 2 * a2 c)) in *.
  assert (HY : dvp (n - 1) (x - r)) by dvs. set (y := x - r) in *.
  replace (a2 c' * y ^ 2 + a4 c' * y + a6 c') with ((a2 c * x ^ 2 + a4 c * x + a6 c) + (u * y ^ 2 + v * y + w)) by (unfold u, v, w, y; ring).
  apply dv_add; [exact HQ|]. dvs.
Qed.

(** ** IV*, III*, II* *)
Definition tri (c : curve) : Prop := dvp 1 (a1 c) /\ dvp 2 (a2 c) /\ dvp 2 (a3 c) /\ dvp 3 (a4 c) /\ dvp 4 (a6 c).
Definition tri2 (c : curve) : Prop := tri c /\ dvp 3 (a3 c) /\ dvp 5 (a6 c).
Lemma tri_star c : tri c -> star c.
Proof. intros (H1 & H2 & H3 & H4 & H6). unfold star. split; [exact H1|]. split; [dvs|]. split; [exact H3|]. split; dvs. Qed.
Lemma tri_rst r s t c c' : c' = tr_rst r s t c -> tri c -> tri c' -> dvp 2 r /\ dvp 1 s /\ dvp 2 t.
Proof.
  intros E L L'. destruct (star_rst r s t c c' E (tri_star c L) (tri_star c' L')) as (R & Sd & T). split; [|auto].
  destruct (star_cubic r s t c c' E (tri_star c L) (tri_star c' L'))
    as (ro & b & c0 & d & b' & c0' & d' & Er & E2 & E4 & E6 & E2' & E4' & E6' & HB & HC & HD).
  destruct L as (H1 & H2 & H3 & H4 & H6). destruct L' as (H1' & H2' & H3' & H4' & H6').
  assert (B0 : dvp 1 b) by (rewrite E2 in H2; rewrite <- (Z.pow_1_r p) in H2 at 2; apply (dv_scale 1 1) in H2; [exact H2|lia|lia]).
  assert (C0 : dvp 1 c0) by (rewrite E4 in H4; apply (dv_scale 2 1) in H4; [exact H4|lia|lia]).
  assert (D0 : dvp 1 d) by (rewrite E6 in H6; apply (dv_scale 3 1) in H6; [exact H6|lia|lia]).
  assert (D0' : dvp 1 d') by (rewrite E6' in H6'; apply (dv_scale 3 1) in H6'; [exact H6'|lia|lia]).
  assert (RO : dvp 1 ro).
  { apply p1'. replace (ro ^ 3) with ((d' - d - c0 * ro - b * ro ^ 2) - (d' - (d + c0 * ro + b * ro ^ 2 + ro ^ 3))) by ring.
    apply dv_sub; [dvs|exact HD]. }
  rewrite Er. rewrite <- (Z.pow_1_r p) at 2. apply (dv_scale 1 1); [lia|lia|exact RO].
Qed.
Lemma inv6 c c' : rel c c' -> tri c -> tri c' -> dvp 5 (sb6 c) -> dvp 5 (sb6 c').
Proof.
  intros (r & s & t & E) L L' H. destruct (tri_rst r s t c c' E L L') as (R & Sd & T). destruct L as (H1 & H2 & H3 & H4 & H6).
  destruct (tr_eqs r s t c c' E) as (_ & _ & _ & _ & _ & _ & _ & -> & _).
  assert (B2 : dvp 2 (sb2 c)) by (unfold sb2; dvs). assert (B4 : dvp 3 (sb4 c)) by (unfold sb4; dvs). dvs.
Qed.
Lemma tri_yroot c c' : rel c c' -> tri c -> tri c' -> yroot p 2 c -> yroot p 2 c'.
Proof.
  intros (r & s & t & E) L L' H. destruct (tri_rst r s t c c' E L L') as (R & Sd & T). destruct L as (H1 & H2 & H3 & H4 & H6).
  apply yroot_dv in H as (Y & HY & HQ); [|lia]. apply yroot_dv; [lia|]. exists (Y - t). split; [dvs|].
  rewrite (f_eq' r s t c c' Y E). change (2 * 2 + 1) with 5 in *.
  replace (Y ^ 2 + a3 c * Y - a6 c + a1 c * r * Y - r ^ 3 - a2 c * r ^ 2 - a4 c * r) with
    ((Y ^ 2 + a3 c * Y - a6 c) + (a1 c * r * Y - r ^ 3 - a2 c * r ^ 2 - a4 c * r)) by ring.
  apply dv_add; [exact HQ|]. dvs.
Qed.
Lemma inv7 c c' : rel c c' -> tri2 c -> tri2 c' -> dvp 4 (a4 c) -> dvp 4 (a4 c').
Proof.
  intros (r & s & t & E) [L [K3 K6]] [L' [K3' K6']] H. destruct (tri_rst r s t c c' E L L') as (R & Sd & T).
  destruct L as (H1 & H2 & _ & _ & _). destruct (tr_eqs r s t c c' E) as (E1 & E2 & E3 & -> & E6 & _).
  assert (T3 : dvp (2 + 1) t).
  { apply (dv_sqrt1 2); [lia|].
    replace (t ^ 2) with (a6 c + r * a4 c + r ^ 2 * a2 c + r ^ 3 - t * a3 c - r * t * a1 c - a6 c') by (rewrite E6; ring). dvs. }
  clear T. dvs.
Qed.

(** ** The stages of the algorithm *)
Definition stage (K : kodaira) : nat :=
  match K with KI _ => 0 | KII => 1 | KIII => 2 | KIV => 3 | KIs m => if (m =? 0)%Z then 4 else 5 | KIVs => 6 | KIIIs => 7 | KIIs => 8 end%nat.
Definition St (i : nat) : curve -> Prop :=
  match i with 0 => base | 1 => S1 | 2 => S2 | 3 => S3 | 4 => star | 5 => star | 6 => tri | 7 => tri2 | _ => fun _ => True end%nat.
Definition crit (i : nat) (c : curve) : Prop :=
  match i with 0 => dvp 1 (sb2 c) | 1 => dvp 2 (a6 c) | 2 => dvp 3 (sb8 c) | 3 => dvp 3 (sb6 c) | 4 => dvp 7 (cubic_disc c)
  | 5 => dvp 3 (3 * a4 c - a2 c ^ 2) | 6 => dvp 5 (sb6 c) | 7 => dvp 4 (a4 c) | _ => False end%nat.
Lemma crit_inv i c c' : rel c c' -> St i c -> St i c' -> crit i c -> crit i c'.
Proof.
  intros R. destruct i as [|[|[|[|[|[|[|[|i]]]]]]]]; cbn [St crit]; intros S S' H; try contradiction.
  - apply (inv0 c c'); assumption.
  - apply (inv1 c c'); [exact R|apply S|apply S'|exact H].
  - apply (inv2 c c'); assumption.
  - apply (inv3 c c'); assumption.
  - apply (inv4 c c'); assumption.
  - apply (inv4 c c'); assumption.
  - apply (inv6 c c'); assumption.
  - apply (inv7 c c'); assumption.
Qed.

Lemma star_below c : star c -> forall i, (i < 4)%nat -> St i c /\ crit i c.
Proof.
  intros S i I. destruct (star_S4 c S) as [[[[B B2] H6] H8] K6]. do 4 (destruct i as [|i]; [cbn [St crit]; unfold S3, S2, S1; tauto|]). lia.
Qed.
Lemma Lo3_5 c : Lo 3 c -> dvp 7 (cubic_disc c) /\ ~ dvp 3 (3 * a4 c - a2 c ^ 2).
Proof.
  intros (H1 & H2 & N2 & H3 & H4 & H6). cbn in H6. split; [unfold cubic_disc; dvs|].
  intros F. apply N2. apply (dv_sqrt1 1); [lia|]. change (2 * 1 + 1) with 3.
  replace (a2 c ^ 2) with (3 * a4 c - (3 * a4 c - a2 c ^ 2)) by ring. apply dv_sub; [dvs|exact F].
Qed.
Lemma tri_below c : tri c -> forall i, (i < 6)%nat -> St i c /\ crit i c.
Proof.
  intros T i I. pose proof (tri_star c T) as S. destruct (Nat.lt_ge_cases i 4) as [L|L]; [apply star_below; assumption|].
  destruct T as (H1 & H2 & H3 & H4 & H6). do 4 (destruct i as [|i]; [lia|]).
  destruct i as [|[|i]]; [| |lia]; cbn [St crit]; (split; [exact S|]); unfold cubic_disc; dvs.
Qed.

(** the levels of the type I*m *)
Definition lev (m : Z) (c : curve) : Prop := if Z.odd m then Lo ((m + 5) / 2) c else Le ((m + 4) / 2) c.
Definition lcrit (m : Z) (c : curve) : Prop :=
  if Z.odd m then dvp (2 * ((m + 5) / 2) - 1) (sb6 c) else dvp (2 * ((m + 4) / 2) + 1) (a4 c ^ 2 - 4 * a2 c * a6 c).
Lemma mlev m : 1 <= m -> (Z.odd m = true /\ exists n, 3 <= n /\ m = 2 * n - 5 /\ (m + 5) / 2 = n) \/
  (Z.odd m = false /\ exists n, 3 <= n /\ m = 2 * n - 4 /\ (m + 4) / 2 = n).
Proof.
  intros M. destruct (Z.odd m) eqn:O; [left|right]; (split; [reflexivity|]).
  - apply Z.odd_spec in O as [q ->]. exists (q + 3). split; [lia|]. split; [lia|].
    replace (2 * q + 1 + 5) with ((q + 3) * 2) by ring. apply Z.div_mul. lia.
  - rewrite <- Z.negb_even in O. apply negb_false_iff in O. apply Z.even_spec in O as [q ->]. exists (q + 2). split; [lia|]. split; [lia|].
    replace (2 * q + 4) with ((q + 2) * 2) by ring. apply Z.div_mul. lia.
Qed.
Lemma lev_S m c : 1 <= m -> lev (m + 1) c -> lev m c /\ lcrit m c.
Proof.
  intros M. unfold lev, lcrit. destruct (mlev m M) as [(O & n & N & E & F)|(O & n & N & E & F)]; rewrite O, F;
    destruct (mlev (m + 1) ltac:(lia)) as [(O' & n' & N' & E' & F')|(O' & n' & N' & E' & F')]; rewrite O', F';
    try (exfalso; clear - E E'; lia).
  - replace n' with n by (clear - E E'; lia). intros L. split; [apply Le_Lo; assumption|].
    destruct L as (H1 & H2 & N2 & H3 & H4 & H6). unfold sb6. dvs.
  - replace n' with (n + 1) by (clear - E E'; lia). intros L. split; [apply Lo_Le; assumption|].
    destruct L as (H1 & H2 & N2 & H3 & H4 & H6). dvs.
Qed.
Lemma lev_down m k c : 1 <= m -> 0 <= k -> lev (m + k + 1) c -> lev m c /\ lcrit m c.
Proof.
  intros M K. revert k K. apply (natlike_ind (fun k => lev (m + k + 1) c -> lev m c /\ lcrit m c)).
  - replace (m + 0 + 1) with (m + 1) by ring. apply lev_S. exact M.
  - intros k K IH L. apply IH. replace (m + Z.succ k + 1) with (m + k + 1 + 1) in L by lia. apply lev_S in L; [tauto|lia].
Qed.
Lemma lev_Lo3 m c : 1 <= m -> lev m c -> Lo 3 c.
Proof.
  intros M L. destruct (Z.eq_dec m 1) as [->|N]; [exact L|].
  replace m with (1 + (m - 2) + 1) in L by ring. apply lev_down in L; [|lia|lia]. exact (proj1 L).
Qed.
Lemma lcrit_inv m c c' : 1 <= m -> rel c c' -> lev m c -> lev m c' -> lcrit m c -> lcrit m c'.
Proof.
  intros M R. unfold lev, lcrit. destruct (mlev m M) as [(O & n & N & E & F)|(O & n & N & E & F)]; rewrite O, F.
  - apply Lo_b6; assumption.
  - apply Le_disc; assumption.
Qed.
Definition lroot (m : Z) (c : curve) : Prop := if Z.odd m then yroot p ((m + 5) / 2 - 1) c else xroot p ((m + 4) / 2) c.
Lemma lroot_inv m c c' : 1 <= m -> rel c c' -> lev m c -> lev m c' -> lroot m c -> lroot m c'.
Proof.
  intros M R. unfold lev, lroot. destruct (mlev m M) as [(O & n & N & E & F)|(O & n & N & E & F)]; rewrite O, F.
  - apply Lo_yroot; assumption.
  - apply Le_xroot; assumption.
Qed.
Lemma form_lev c m cp : tate_form p c (KIs m) cp -> m <> 0 -> 1 <= m /\ lev m c /\ ~ lcrit m c /\ choice (lroot m c) 4 2 cp.
Proof.
  cbn [tate_form]. intros (H1 & H2 & H) Z0. rewrite (proj2 (Z.eqb_neq m 0) Z0) in H. destruct H as (M & N2 & H).
  split; [exact M|]. revert H. unfold lev, lcrit, lroot.
  destruct (mlev m M) as [(O & n & N & E & F)|(O & n & N & E & F)]; rewrite O, F; cbv zeta; intros (H3 & H4 & H6 & NC & CH).
  - split; [|split; [intros [_ D]; exact (NC D)|exact CH]]. unfold Lo. rewrite <- !dv1. unfold dv. intuition lia.
  - split; [|split; [intros [_ D]; exact (NC D)|exact CH]]. unfold Le. rewrite <- !dv1. unfold dv. intuition lia.
Qed.

Lemma form_stage c K cp : tate_form p c K cp ->
  (forall i, (i < stage K)%nat -> St i c /\ crit i c) /\ St (stage K) c /\ ~ crit (stage K) c.
Proof.
  destruct K as [n| | | |m| | |]; cbn [stage].
  - cbn [tate_form]. intros (_ & H3 & H4 & H6 & N & _). rewrite (dv1 p) in *. split; [intros i I; lia|].
    split; [unfold St, base; auto|exact N].
  - cbn [tate_form]. intros (H3 & H4 & H6 & H2 & N & _). rewrite (dv1 p) in *. split; [|split].
    + intros i I. destruct i; [|lia]. cbn. unfold base. tauto.
    + cbn. unfold S1, base. tauto.
    + cbn. intros [_ F]. exact (N F).
  - cbn [tate_form]. intros (H3 & H4 & H6 & H2 & N & _). rewrite (dv1 p) in *. rewrite (dvk p 2) in H6 by lia. rewrite (dvk p 3) in N by lia.
    assert (H6' : dvp 1 (a6 c)) by dvs. split; [|split].
    + intros i I. do 2 (destruct i as [|i]; [cbn; unfold S1, base; tauto|]). lia.
    + cbn. unfold S2, S1, base. tauto.
    + exact N.
  - cbn [tate_form]. intros (H3 & H4 & H6 & H2 & H8 & N & _). rewrite (dv1 p) in *. rewrite (dvk p 2) in H6 by lia. rewrite (dvk p 3) in N by lia.
    rewrite (dvk p 3) in H8 by lia.
    assert (H6' : dvp 1 (a6 c)) by dvs. split; [|split].
    + intros i I. do 3 (destruct i as [|i]; [cbn; unfold S2, S1, base; tauto|]). lia.
    + cbn. unfold S3, S2, S1, base. tauto.
    + exact N.
  - destruct (Z.eqb_spec m 0) as [->|M0].
    + cbn [tate_form]. intros (H1 & H2 & H). cbn in H. destruct H as (H3 & H4 & H6 & N & _).
      assert (S : star c). { unfold star. rewrite <- !dv1. unfold dv. intuition lia. }
      split; [apply star_below; exact S|]. split; [exact S|]. cbn. intros [_ F]. exact (N F).
    + intros H. destruct (form_lev c m cp H M0) as (M & L & _). pose proof (lev_Lo3 m c M L) as L3.
      pose proof (Lo_star 3 c ltac:(lia) L3) as S. destruct (Lo3_5 c L3) as [D N]. split; [|split; [exact S|exact N]].
      intros i I. destruct (Nat.eq_dec i 4) as [->|]; [split; assumption|]. apply star_below; [exact S|lia].
  - cbn [tate_form]. intros (H1 & H2 & H3 & H4 & H6 & N & _).
    assert (T : tri c) by (unfold tri; rewrite <- dv1; unfold dv; intuition lia).
    split; [apply tri_below; exact T|]. split; [exact T|]. cbn. intros [_ F]. exact (N F).
  - cbn [tate_form]. intros (H1 & H2 & H3 & H4 & H6 & N & _).
    rewrite (dv1 p) in H1. apply dvk in H2, H3, H4, H6; try lia.
    assert (T : tri c). { unfold tri. split; [exact H1|]. split; [exact H2|]. split; [dvs|]. split; [exact H4|dvs]. }
    split; [|split].
    + intros i I. destruct (Nat.eq_dec i 6) as [->|]; [|apply tri_below; [exact T|lia]]. split; [exact T|]. cbn. unfold sb6. dvs.
    + split; [exact T|]. split; [exact H3|exact H6].
    + intros [_ F]. exact (N F).
  - cbn [tate_form]. intros (H1 & H2 & H3 & H4 & H6 & N & _).
    rewrite (dv1 p) in H1. apply dvk in H2, H3, H4, H6; try lia.
    assert (T : tri c). { unfold tri. split; [exact H1|]. split; [exact H2|]. split; [dvs|]. split; [dvs|dvs]. }
    split; [|split].
    + intros i I. destruct (Nat.eq_dec i 7) as [->|]; [split; [split; [exact T|split; assumption]|exact H4]|].
      destruct (Nat.eq_dec i 6) as [->|]; [|apply tri_below; [exact T|lia]]. split; [exact T|]. cbn. unfold sb6. dvs.
    + exact I.
    + intros [].
Qed.

Lemma stage_le c c' K K' cp cp' : rel c c' -> tate_form p c K cp -> tate_form p c' K' cp' -> (stage K <= stage K')%nat.
Proof.
  intros R H H'. destruct (form_stage c K cp H) as [B _]. destruct (form_stage c' K' cp' H') as (_ & S' & N').
  destruct (Nat.le_gt_cases (stage K) (stage K')) as [L|L]; [exact L|]. exfalso. destruct (B _ L) as [S C].
  apply N'. exact (crit_inv _ c c' R S S' C).
Qed.

Theorem tate_unique c c' K K' cp cp' : rel c c' -> tate_form p c K cp -> tate_form p c' K' cp' -> K = K' /\ cp = cp'.
Proof.
  intros R H H'. pose proof (rel_sym c c' R) as R'.
  pose proof (stage_le c c' K K' cp cp' R H H') as L. pose proof (stage_le c' c K' K cp' cp R' H' H) as L'.
  assert (E : stage K = stage K') by lia. clear L L'.
  pose proof (form_stage c K cp H) as (_ & S & N). pose proof (form_stage c' K' cp' H') as (_ & S' & N'). rewrite <- E in S', N'.
  destruct K as [n| | | |m| | |], K' as [n'| | | |m'| | |]; cbn [stage] in E; try discriminate E;
    try (destruct (m =? 0); discriminate E); try (destruct (m' =? 0); discriminate E); cbn [stage St crit] in S, S', N, N'.
  - cbn [tate_form] in H, H'. destruct H as (L & _ & _ & _ & _ & D & D1 & CH). destruct H' as (L' & _ & _ & _ & _ & D' & D1' & CH').
    assert (F : sdisc c = sdisc c') by (destruct R as (r & s & t & ->); symmetry; apply sdisc_tr). rewrite F in *.
    assert (n = n') as <-.
    { destruct (Z.lt_trichotomy n n') as [G|[G|G]]; [exfalso|exact G|exfalso].
      - apply D1. apply ple with n'; [lia|exact D'].
      - apply D1'. apply ple with n; [lia|exact D]. }
    split; [reflexivity|]. revert CH CH'.
    assert (Q : forall e e', rel e e' -> base e -> base e' -> (exists x, (p | x ^ 2 + a1 e * x - a2 e)) -> exists x, (p | x ^ 2 + a1 e' * x - a2 e')).
    { clear - P. intros e e' (r & s & t & E) B B' [x Hx]. destruct (base_rt r s t e e' E B B') as [Rr _]. apply dv1 in Rr. exists (x - s).
      destruct (tr_eqs r s t e e' E) as (-> & -> & _). apply (dc2 p _ _ 1 (-3) _ Hx Rr). ring. }
    apply choice_eq; [apply (Q c c' R S S')|apply (Q c' c R' S' S)].
  - cbn [tate_form] in H, H'. intuition lia.
  - cbn [tate_form] in H, H'. intuition lia.
  - split; [reflexivity|]. cbn [tate_form] in H, H'. destruct H as (_ & _ & _ & _ & _ & _ & CH). destruct H' as (_ & _ & _ & _ & _ & _ & CH').
    revert CH CH'. apply choice_eq; [apply (yroot1_inv c c' R S S' N)|apply (yroot1_inv c' c R' S' S N')].
  - destruct (Z.eqb_spec m 0) as [->|M]; destruct (Z.eqb_spec m' 0) as [->|M']; try discriminate E.
    + split; [reflexivity|]. cbn [tate_form] in H, H'. cbn in H, H'.
      destruct H as (_ & _ & _ & _ & _ & _ & l & ND & IN & ->). destruct H' as (_ & _ & _ & _ & _ & _ & l' & ND' & IN' & ->).
      cbn [St] in S, S'. destruct R as (r & s & t & Er). destruct R' as (r' & s' & t' & Er').
      assert (LL : length l = length l'); [|rewrite LL; reflexivity]. apply Nat.le_antisymm; [apply (roots_le r s t c c' l l' Er S S' ND IN IN')|apply (roots_le r' s' t' c' c l' l Er' S' S ND' IN' IN)].
    + destruct (form_lev c m cp H M) as (M1 & L & C & CH). destruct (form_lev c' m' cp' H' M') as (M1' & L' & C' & CH').
      assert (LE : forall e e' k k', rel e e' -> 1 <= k -> 1 <= k' -> lev k e -> lev k' e' -> ~ lcrit k' e' -> k <= k').
      { clear - P. intros e e' k k' R K K' L L' C'. destruct (Z.le_gt_cases k k') as [G|G]; [exact G|]. exfalso. apply C'.
        replace k with (k' + (k - k' - 1) + 1) in L by ring. apply lev_down in L as [L C]; [|exact K'|lia].
        exact (lcrit_inv k' e e' K' R L L' C). }
      assert (m = m') as <-.
      { apply Z.le_antisymm; [apply (LE c c'); assumption|apply (LE c' c); assumption]. }
      split; [reflexivity|]. revert CH CH'.
      apply choice_eq; [apply (lroot_inv m c c' M1 R L L')|apply (lroot_inv m c' c M1 R' L' L)].
  - split; [reflexivity|]. cbn [tate_form] in H, H'. destruct H as (_ & _ & _ & _ & _ & _ & CH). destruct H' as (_ & _ & _ & _ & _ & _ & CH').
    revert CH CH'. apply choice_eq; [apply (tri_yroot c c' R S S')|apply (tri_yroot c' c R' S' S)].
  - cbn [tate_form] in H, H'. intuition lia.
  - cbn [tate_form] in H, H'. intuition lia.
Qed.
End P.
