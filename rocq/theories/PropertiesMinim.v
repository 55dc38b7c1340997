(** C86, C87: minimalisation of quartics (minim.cc).  [takes M G g]: G(M(x,z)) = k^2 g(x,z) for all
    x, z, where M = (k, matrix).  A state is a quartic with the scaled matrix built so far. *)
From Coq Require Import ZArith List Bool Lia Znumtheory.
From Verif Require Import Base FormsModel MArithModel MArithProofs PropertiesMArith LocSolSpec MinimModel MinimSpec MinimArith MinimProofs MinimAllProofs MinimThree MinimAllThree.
Import ListNotations.
Open Scope Z_scope.

(** a p-adic point on y^2 = g *)
Definition Qp_soluble (p : Z) (g : quartic) : Prop := padic_point p (ra g) (rb g) (rc g) (rd g) (re g).

(** minim_p at p <> 3 with p^4 | I, p^6 | J: for p >= 5 it succeeds if the quartic is soluble over
    Q_p, or p^5 | I and p^7 | J; the invariants are divided by p^4 and p^6 and the matrix takes the
    original quartic to the new one.  For p = 2 the flag tells whether the invariants were divided. *)
Theorem C86_minim_p_partial xgcd p s : xgcd_spec xgcd -> prime p -> p <> 3 ->
  (p ^ 4 | II (fst s)) -> (p ^ 6 | JJ (fst s)) ->
  p = 2 \/ Qp_soluble p (fst s) \/ ((p ^ 5 | II (fst s)) /\ (p ^ 7 | JJ (fst s))) ->
  exists success s', minim_p xgcd p s = Ok (success, s') /\ (p <> 2 -> success = true) /\
    (success = true -> p ^ 4 * II (fst s') = II (fst s) /\ p ^ 6 * JJ (fst s') = JJ (fst s)) /\
    (success = false -> II (fst s') = II (fst s) /\ JJ (fst s') = JJ (fst s)) /\
    (forall G, takes (snd s) G (fst s) -> takes (snd s') G (fst s')) /\
    (nonsingular (snd s) -> nonsingular (snd s')).
Proof.
  intros X P P3 HI HJ S. destruct (minim_p_ok xgcd X p P P3 s HI HJ) as (b & s' & E & D).
  { destruct S as [S|[S|S]]; [left; exact S|right; left|right; right; exact S]. apply (soluble_4 p P), padic_soluble, S. }
  exists b, s'. split; [exact E|]. destruct b; cbn [done] in D.
  - destruct D as (A & B & C & D). split; [reflexivity|]. split; [auto|]. split; [discriminate|]. split; assumption.
  - destruct D as (E2 & A & B & C & D). split; [contradiction|]. split; [discriminate|]. split; [auto|]. split; assumption.
Qed.
Print Assumptions C86_minim_p_partial.

(** quadruple and triple root at 2 modulo 5; leading coefficient 1 gives a point at infinity *)
Definition ex_g : quartic := r_xshift 2 (Qt 1 5 75 500 1250).
Definition ex_t : quartic := r_xshift 2 (Qt 5 1 75 2500 31250).
Lemma infinity_soluble p g y : prime p -> ra g = y * y -> Qp_soluble p g.
Proof.
  intros P A. exists (fun _ => 1), (fun _ => 0), (fun _ => y).
  assert (C : forall c, coherent p (fun _ => c)) by (intros c n; rewrite Z.sub_diag; apply Z.divide_0_r).
  split; [apply C|]. split; [apply C|]. split; [apply C|]. split.
  - intros (D & _). apply Z.divide_1_r_nonneg in D; destruct P; lia.
  - intros n. unfold quartic_form. rewrite A. match goal with |- (_ | ?t) => replace t with 0 by ring end. apply Z.divide_0_r.
Qed.
Example C86_minim_p_example :
  prime 5 /\ (5 ^ 4 | II ex_g) /\ (5 ^ 6 | JJ ex_g) /\ Qp_soluble 5 ex_g /\
  minim_p xgcd_example 5 (ex_g, sum_id) = Ok (true, (Qt 1 1 3 4 2, Sum 25 (Um 5 (-2) 0 1))) /\
  (5 ^ 4 | II ex_t) /\ (5 ^ 6 | JJ ex_t) /\
  minim_p xgcd_example 5 (ex_t, sum_id) = Ok (true, (Qt 125 1 3 4 2, Sum 125 (Um 25 (-2) 0 1))).
Proof.
  assert (P5 : prime 5). { constructor; [lia|]. intros n N. apply Zgcd_1_rel_prime. assert (C : n = 1 \/ n = 2 \/ n = 3 \/ n = 4) by lia. destruct C as [->|[->|[->| ->]]]; reflexivity. }
  split; [exact P5|]. split; [exists (II ex_g / 625); vm_compute; reflexivity|]. split; [exists (JJ ex_g / 15625); vm_compute; reflexivity|].
  split; [apply (infinity_soluble _ _ 1); [exact P5|reflexivity]|]. split; [vm_compute; reflexivity|].
  split; [exists (II ex_t / 625); vm_compute; reflexivity|]. split; [exists (JJ ex_t / 15625); vm_compute; reflexivity|]. vm_compute. reflexivity.
Qed.

(** The comment (p^4 | I, p^6 | J suffices, failure only for p = 2) is false for quartics not soluble
    over Q_p: 5 x^4 + 125 z^4 at 5 becomes 5 x^4, reported as a success. *)
Theorem C86_minim_p_refuted : exists g s', (5 ^ 4 | II g) /\ (5 ^ 6 | JJ g) /\
  (forall xgcd, minim_p xgcd 5 (g, sum_id) = Ok (true, s')) /\
  5 ^ 4 * II (fst s') <> II g /\ ~ takes (snd s') g (fst s').
Proof.
  exists (Qt 5 0 0 0 125), (Qt 5 0 0 0 0, Sum 25 (Um 5 0 0 1)).
  split; [exists 12; vm_compute; reflexivity|]. split; [exists 0; vm_compute; reflexivity|].
  split; [intros xgcd; vm_compute; reflexivity|]. split; [vm_compute; discriminate|].
  intros H. specialize (H 0 1). vm_compute in H. discriminate.
Qed.
Print Assumptions C86_minim_p_refuted.

(** Lines 165-166: failure for p = 2, all coefficients even, "cannot happen if 2^6|I, 2^7|J or
    2^5|I & Q_2-soluble".  It happens in both cases: 2 x^4 + 8 z^4 and 2 x^4 + 4 z^4. *)
Theorem C86_two_refuted : exists g h,
  ((2 ^ 6 | II g) /\ (2 ^ 7 | JJ g) /\ (forall xgcd, minim_p xgcd 2 (g, sum_id) = Ok (false, (g, sum_id)))) /\
  ((2 ^ 5 | II h) /\ (2 ^ 6 | JJ h) /\ Qp_soluble 2 h /\ (forall xgcd, minim_p xgcd 2 (h, sum_id) = Ok (false, (h, sum_id)))).
Proof.
  exists (Qt 2 0 0 0 8), (Qt 2 0 0 0 4). split.
  - split; [exists 3; vm_compute; reflexivity|]. split; [exists 0; vm_compute; reflexivity|]. intros xgcd. vm_compute. reflexivity.
  - split; [exists 3; vm_compute; reflexivity|]. split; [exists 0; vm_compute; reflexivity|]. split; [|intros xgcd; vm_compute; reflexivity].
    exists (fun _ => 0), (fun _ => 1), (fun _ => 2).
    assert (C : forall c, coherent 2 (fun _ => c)) by (intros c n; rewrite Z.sub_diag; apply Z.divide_0_r).
    split; [apply C|]. split; [apply C|]. split; [apply C|]. split.
    + intros (_ & D). apply Z.divide_1_r_nonneg in D; lia.
    + intros n. unfold quartic_form. cbn [ra rb rc rd re]. replace (2 * 2 - _) with 0 by ring. apply Z.divide_0_r.
Qed.
Print Assumptions C86_two_refuted.

(** p = 3: with the conditions of Kraus, tested by minim_all, minim_p succeeds if the quartic is soluble
    over Q_3 or 3^6 | I. *)
Theorem C86_minim_3 xgcd s : xgcd_spec xgcd -> nonminimal_3 (II (fst s)) (JJ (fst s)) ->
  Qp_soluble 3 (fst s) \/ (3 ^ 6 | II (fst s)) ->
  exists s', minim_p xgcd 3 s = Ok (true, s') /\
    3 ^ 4 * II (fst s') = II (fst s) /\ 3 ^ 6 * JJ (fst s') = JJ (fst s) /\
    (forall G, takes (snd s) G (fst s) -> takes (snd s') G (fst s')) /\
    (nonsingular (snd s) -> nonsingular (snd s')).
Proof.
  intros X H S. destruct (nonminimal_hyp _ _ H) as (i & j & HI & HJ & H3). apply (minim_p_3 xgcd X s i j HI HJ H3).
  destruct S as [S|S]; [left; apply (soluble_4 3 prime_3), padic_soluble, S|right].
  rewrite HI in S. change (3 ^ 6) with (81 * 9) in S. apply Z.mul_divide_cancel_l in S; [exact S|discriminate].
Qed.
Print Assumptions C86_minim_3.

(** both kinds of root *)
Definition ex_b3 : quartic := r_xshift 1 (Qt 1 3 18 27 81).
Definition ex_t3 : quartic := r_xshift 1 (Qt 3 1 9 81 729).
Example C86_minim_3_example :
  nonminimal_3 (II ex_b3) (JJ ex_b3) /\ ~ (3 ^ 5 | II ex_b3) /\ Qp_soluble 3 ex_b3 /\
  minim_p xgcd_example 3 (ex_b3, sum_id) = Ok (true, (Qt 1 (-3) 5 (-4) 2, Sum 9 (Um 3 (-4) 0 1))) /\
  nonminimal_3 (II ex_t3) (JJ ex_t3) /\
  minim_p xgcd_example 3 (ex_t3, sum_id) = Ok (true, (Qt 27 1 1 1 1, Sum 27 (Um 9 (-1) 0 1))).
Proof.
  assert (N : forall I J i j d, I = 81 * (3 * i + 1) -> J = 729 * j -> (j mod 3 <> 0) -> disc_IJ I J = d * 3 ^ 15 -> nonminimal_3 I J).
  { intros I J i j d -> -> JN D. right. split; [exists (3 * i + 1); change (3 ^ 4) with 81; ring|].
    split; [intros (q & H); change (3 ^ 5) with 243 in H; lia|]. split; [exists j; change (3 ^ 6) with 729; ring|].
    split; [|exists d; exact D]. intros (q & H). change (3 ^ 7) with 2187 in H. apply JN. replace j with (q * 3) by lia. apply Z.mod_mul. discriminate. }
  split. { apply (N _ _ 4 92 (disc_IJ (II ex_b3) (JJ ex_b3) / 3 ^ 15)); vm_compute; congruence. }
  split. { intros (q & H). change (II ex_b3) with 1053 in H. change (3 ^ 5) with 243 in H. lia. }
  split; [apply (infinity_soluble _ _ 1); [exact prime_3|reflexivity]|]. split; [vm_compute; reflexivity|].
  split. { apply (N _ _ 107 1195 (disc_IJ (II ex_t3) (JJ ex_t3) / 3 ^ 15)); vm_compute; congruence. }
  vm_compute. reflexivity.
Qed.

(** The comment (p^4 | I, p^6 | J) does not suffice for p = 3: x^4 + 27 z^4, soluble, becomes x^4. *)
Theorem C86_three_refuted : exists g s', (3 ^ 4 | II g) /\ (3 ^ 6 | JJ g) /\ Qp_soluble 3 g /\
  (forall xgcd, minim_p xgcd 3 (g, sum_id) = Ok (true, s')) /\
  3 ^ 4 * II (fst s') <> II g /\ ~ takes (snd s') g (fst s').
Proof.
  exists (Qt 1 0 0 0 27), (Qt 1 0 0 0 0, Sum 9 (Um 3 0 0 1)).
  split; [exists 4; vm_compute; reflexivity|]. split; [exists 0; vm_compute; reflexivity|].
  split; [apply (infinity_soluble _ _ 1); [exact prime_3|reflexivity]|].
  split; [intros xgcd; vm_compute; reflexivity|]. split; [vm_compute; discriminate|].
  intros H. specialize (H 0 1). vm_compute in H. discriminate.
Qed.
Print Assumptions C86_three_refuted.

(** minim_all for a list of primes, given the invariants of the quartic: it ends, returns the
    invariants of the new quartic, divided by n^4 and n^6, with the right matrix.  With assume_locsol
    the original quartic G has to be soluble over Q_p, p in the list, p <> 2.  At every p >= 3 of the
    list the result is minimal. *)
Theorem C87_minim_all xgcd plist locsol s G : xgcd_spec xgcd ->
  (forall p, In p plist -> prime p /\ (p <> 2 -> locsol = true -> Qp_soluble p G)) ->
  takes (snd s) G (fst s) -> nonsingular (snd s) ->
  exists s' n, minim_all xgcd plist locsol s (II (fst s)) (JJ (fst s)) = Ok (s', II (fst s'), JJ (fst s')) /\
    takes (snd s') G (fst s') /\ nonsingular (snd s') /\ 0 < n /\
    II (fst s) = n ^ 4 * II (fst s') /\ JJ (fst s) = n ^ 6 * JJ (fst s') /\
    (forall p, In p plist -> p <> 2 -> p <> 3 -> val_fits p (II (fst s)) (JJ (fst s)) ->
       minimal_at p locsol (II (fst s')) (JJ (fst s'))) /\
    (In 3 plist -> disc_IJ (II (fst s)) (JJ (fst s)) <> 0 -> val_fits 3 (II (fst s)) (JJ (fst s)) ->
       minimal_at_3 locsol (II (fst s')) (JJ (fst s'))).
Proof.
  intros X HP T N. destruct (minim_all_3 xgcd X G locsol plist s) as (s' & n & A & B & C & D & E & F & _ & K); [|exact T|exact N|exists s', n; tauto].
  intros p Ip. destruct (HP p Ip) as (P & S). split; [exact P|]. intros N2 L. apply padic_soluble, S; assumption.
Qed.
Print Assumptions C87_minim_all.

(** x^4 + x^3 + ... + 1 with x replaced by 30 x and 7 x^2 for y^2, then shifted *)
Definition ex_m : quartic := r_xshift 3 (Qt 49 1470 44100 1323000 39690000).
Lemma takes_id g : takes sum_id g g.
Proof. intros x z. unfold sum_id, um_id. cbn [m00 sm m11 m12 m21 m22]. replace (1 * x + 0 * z) with x by ring. replace (0 * x + 1 * z) with z by ring. ring. Qed.
Example C87_minim_all_example :
  (forall p, prime p -> Qp_soluble p ex_m) /\ takes sum_id ex_m ex_m /\ nonsingular sum_id /\ val_fits 5 (II ex_m) (JJ ex_m) /\ disc_IJ (II ex_m) (JJ ex_m) <> 0 /\
  minim_all xgcd_example [2; 3; 5; 7] true (ex_m, sum_id) (II ex_m) (JJ ex_m) =
    Ok ((Qt 1 1 1 1 1, Sum 6300 (Um 30 (-3) 0 1)), 10, 25).
Proof.
  split; [intros p P; apply (infinity_soluble p ex_m 7 P); reflexivity|].
  split; [apply takes_id|]. split; [split; discriminate|]. split; [split; intros H; vm_compute in H; discriminate|].
  split; [vm_compute; discriminate|]. vm_compute. reflexivity.
Qed.

(** Without val_fits minimality fails: 1000 for the valuation of I = 0 ends the loop too early. *)
Theorem C87_minimal_refuted : exists g, Qp_soluble 5 g /\ disc_IJ (II g) (JJ g) <> 0 /\
  forall xgcd, xgcd_spec xgcd ->
  exists s', minim_all xgcd [5] true (g, sum_id) (II g) (JJ g) = Ok (s', II (fst s'), JJ (fst s')) /\
    (5 ^ 4 | II (fst s')) /\ (5 ^ 6 | JJ (fst s')).
Proof.
  assert (P5 : prime 5). { constructor; [lia|]. intros n N. apply Zgcd_1_rel_prime. assert (C : n = 1 \/ n = 2 \/ n = 3 \/ n = 4) by lia. destruct C as [->|[->|[->| ->]]]; reflexivity. }
  assert (EX : exists e, e <> 0 /\ (5 ^ 1600 | e)) by (exists (5 ^ 1600); split; [apply Z.pow_nonzero; discriminate|apply Z.divide_refl]).
  destruct EX as (e & E0 & ED).
  assert (EI : II (Qt 0 1 0 0 e) = 0) by (unfold II; cbn [ra rb rc rd re]; ring).
  assert (EJ : JJ (Qt 0 1 0 0 e) = e * (-27)) by (unfold JJ; cbn [ra rb rc rd re]; ring).
  assert (SOL : Qp_soluble 5 (Qt 0 1 0 0 e)).
  { exists (fun _ => 1), (fun _ => 0), (fun _ => 0).
    assert (C : forall c, coherent 5 (fun _ => c)) by (intros c n; rewrite Z.sub_diag; apply Z.divide_0_r).
    split; [apply C|]. split; [apply C|]. split; [apply C|]. split.
    - intros (D & _). apply Z.divide_1_r_nonneg in D; lia.
    - intros n. unfold quartic_form. cbn [ra rb rc rd re]. match goal with |- (_ | ?t) => replace t with 0 by ring end. apply Z.divide_0_r. }
  exists (Qt 0 1 0 0 e). split; [exact SOL|]. split.
  { rewrite EI, EJ. unfold disc_IJ. intros H. apply E0. clear - H. nia. }
  intros xgcd X. destruct (stops_early xgcd X (Qt 0 1 0 0 e) 5 true (Qt 0 1 0 0 e, sum_id) P5) as (s' & E & I0 & J0).
  - discriminate.
  - intros _ _. apply padic_soluble, SOL.
  - apply takes_id.
  - split; discriminate.
  - exact EI.
  - cbn [fst]. rewrite EJ. apply Z.divide_mul_l, ED.
  - exists s'. split; [exact E|]. rewrite I0. split; [apply Z.divide_0_r|]. apply (pow_dvd 5 6) in J0; [exact J0|lia].
Qed.
Print Assumptions C87_minimal_refuted.
