(** Concrete groups Z/a x Z/b for the examples and the counterexamples of PropertiesGrp. *)
From Coq Require Import ZArith Znumtheory Lia List Bool Eqdep_dec.
From Verif Require Import Base GrpModel GrpLib GrpProofs GrpIso.
Import ListNotations.
Open Scope Z_scope.

Section ZZ.
Variables a b : positive.
Definition red (p : Z * Z) : bool := (fst p mod Zpos a =? fst p) && (snd p mod Zpos b =? snd p).
Definition zel : Type := { p : Z * Z | red p = true }.
Lemma red_mk p : red (fst p mod Zpos a, snd p mod Zpos b) = true.
Proof. unfold red. cbn [fst snd]. rewrite !Z.mod_mod, !Z.eqb_refl by lia. reflexivity. Qed.
Definition mk (p : Z * Z) : zel := exist _ (fst p mod Zpos a, snd p mod Zpos b) (red_mk p).
Definition zadd (P Q : zel) : zel := mk (fst (proj1_sig P) + fst (proj1_sig Q), snd (proj1_sig P) + snd (proj1_sig Q)).
Definition zneg (P : zel) : zel := mk (- fst (proj1_sig P), - snd (proj1_sig P)).
Definition zeqb (P Q : zel) : bool := (fst (proj1_sig P) =? fst (proj1_sig Q)) && (snd (proj1_sig P) =? snd (proj1_sig Q)).
Definition enc (P : zel) : Z := fst (proj1_sig P) * Zpos b + snd (proj1_sig P).
Definition zz : grp := Grp zel zadd zneg (mk (0, 0)) zeqb (fun P => Z.min (enc P) (enc (zneg P))).

Lemma zel_eq (P Q : zel) : fst (proj1_sig P) = fst (proj1_sig Q) -> snd (proj1_sig P) = snd (proj1_sig Q) -> P = Q.
Proof.
  destruct P as [[x y] R], Q as [[x' y'] R']. cbn. intros -> ->. f_equal. apply UIP_dec. apply bool_dec.
Qed.
Lemma zel_red (P : zel) : 0 <= fst (proj1_sig P) < Zpos a /\ 0 <= snd (proj1_sig P) < Zpos b.
Proof.
  destruct P as [[x y] R]. cbn. unfold red in R. apply andb_true_iff in R as [R1 R2]. apply Z.eqb_eq in R1, R2. cbn [fst snd] in *.
  rewrite <- R1, <- R2. split; apply Z.mod_pos_bound; lia.
Qed.
Lemma enc_inj P Q : enc P = enc Q -> P = Q.
Proof.
  unfold enc. intros E. pose proof (zel_red P) as [A1 A2]. pose proof (zel_red Q) as [B1 B2].
  assert (fst (proj1_sig P) = fst (proj1_sig Q)) by nia. apply zel_eq; [assumption|]. nia.
Qed.
Lemma zneg_neg P : zneg (zneg P) = P.
Proof.
  pose proof (zel_red P) as [A1 A2].
  apply zel_eq; cbn [zneg mk proj1_sig fst snd]; rewrite <- (Z.sub_0_l (_ mod _)), Zminus_mod_idemp_r, Z.sub_0_l, Z.opp_involutive; apply Z.mod_small; lia.
Qed.
Lemma zz_grp : is_grp zz.
Proof.
  split; cbn [el gadd gneg gz geq gx zz].
  - intros P Q R. apply zel_eq; cbn [zadd mk proj1_sig fst snd]; rewrite Zplus_mod_idemp_l, Zplus_mod_idemp_r, Z.add_assoc; reflexivity.
  - intros P Q. apply zel_eq; cbn [zadd mk proj1_sig fst snd]; f_equal; ring.
  - intros P. pose proof (zel_red P) as [A1 A2]. apply zel_eq; cbn [zadd mk proj1_sig fst snd]; rewrite Z.mod_0_l, Z.add_0_l by lia; apply Z.mod_small; lia.
  - intros P. apply zel_eq; cbn [zadd zneg mk proj1_sig fst snd]; rewrite Zplus_mod_idemp_r, Z.add_opp_diag_r; reflexivity.
  - intros P Q. unfold zeqb. rewrite andb_true_iff, !Z.eqb_eq. split; [intros [H1 H2]; apply zel_eq; assumption|intros ->; split; reflexivity].
  - intros P Q _ _. split.
    + intros E. assert (X : enc P = enc Q \/ enc P = enc (zneg Q) \/ enc (zneg P) = enc Q \/ enc (zneg P) = enc (zneg Q)) by lia.
      destruct X as [X|[X|[X|X]]]; apply enc_inj in X.
      * left. exact X.
      * right. exact X.
      * right. rewrite <- X, zneg_neg. reflexivity.
      * left. rewrite <- (zneg_neg P), X, zneg_neg. reflexivity.
    + intros [->| ->]; [reflexivity|]. rewrite zneg_neg. apply Z.min_comm.
Qed.
Definition zlist : list zel := map (fun ij => mk (Z.of_nat (fst ij), Z.of_nat (snd ij))) (list_prod (seq 0 (Pos.to_nat a)) (seq 0 (Pos.to_nat b))).
Lemma nmul_zz n P : proj1_sig (nmul zz n P) = ((Z.of_nat n * fst (proj1_sig P)) mod Zpos a, (Z.of_nat n * snd (proj1_sig P)) mod Zpos b).
Proof.
  induction n as [|n IH]; [reflexivity|]. cbn [nmul]. cbn [gadd zz zadd mk proj1_sig]. rewrite IH. cbn [fst snd].
  rewrite !Zplus_mod_idemp_r. f_equal; f_equal; lia.
Qed.
Lemma mul_zz n P : proj1_sig (mul zz n P) = ((n * fst (proj1_sig P)) mod Zpos a, (n * snd (proj1_sig P)) mod Zpos b).
Proof.
  unfold mul. destruct (Z.ltb_spec n 0).
  - cbn [gneg zz zneg mk proj1_sig]. rewrite nmul_zz. cbn [fst snd]. rewrite !Z2Nat.id by lia.
    rewrite <- (Z.sub_0_l (_ mod Zpos a)), <- (Z.sub_0_l (_ mod Zpos b)), !Zminus_mod_idemp_r. f_equal; f_equal; ring.
  - rewrite nmul_zz, Z2Nat.id by lia. reflexivity.
Qed.
Lemma mul_mk n x y : mul zz n (mk (x, y)) = mk (n * x, n * y).
Proof.
  apply zel_eq; rewrite mul_zz; cbn [mk proj1_sig fst snd]; apply Zmult_mod_idemp_r.
Qed.
Lemma mk_0 x y : mk (x, y) = gz zz <-> (Zpos a | x) /\ (Zpos b | y).
Proof.
  cbn [gz zz]. split.
  - intros E. apply (f_equal (@proj1_sig _ _)) in E. cbn [mk proj1_sig fst snd] in E. rewrite !Z.mod_0_l in E by lia. injection E as E1 E2.
    split; apply Z.mod_divide; lia || assumption.
  - intros [D1 D2]. apply zel_eq; cbn [mk proj1_sig fst snd]; rewrite Z.mod_0_l by lia; apply Z.mod_divide; lia || assumption.
Qed.
Lemma mul_mk_0 k x y : mul zz k (mk (x, y)) = gz zz <-> (Zpos a | k * x) /\ (Zpos b | k * y).
Proof. rewrite mul_mk. apply mk_0. Qed.
Lemma mk_surj P : P = mk (fst (proj1_sig P), snd (proj1_sig P)).
Proof. pose proof (zel_red P) as [A1 A2]. apply zel_eq; cbn [mk proj1_sig fst snd]; symmetry; apply Z.mod_small; lia. Qed.
Lemma zz_card : card zz (Zpos a * Zpos b).
Proof.
  exists zlist. split; [|split].
  - unfold zlist. assert (GEN : forall l, NoDup l -> incl l (list_prod (seq 0 (Pos.to_nat a)) (seq 0 (Pos.to_nat b))) ->
      NoDup (map (fun ij => mk (Z.of_nat (fst ij), Z.of_nat (snd ij))) l)).
    { induction 1 as [|[i j] l NI ND IH]; intros I; cbn [map]; [constructor|]. constructor; [|apply IH; intros y Y; apply I; right; exact Y].
      intros X. apply in_map_iff in X as ([i' j'] & E & Y). apply NI. 
      pose proof (I (i, j) (or_introl eq_refl)) as A. pose proof (I (i', j') (or_intror Y)) as B.
      apply in_prod_iff in A as [A1 A2]. apply in_prod_iff in B as [B1 B2]. apply in_seq in A1, A2, B1, B2.
      apply (f_equal (@proj1_sig _ _)) in E. cbn [mk proj1_sig fst snd] in E. rewrite !Z.mod_small in E by lia. injection E as E1 E2.
      replace i with i' by lia. replace j with j' by lia. exact Y. }
    apply GEN; [|intros y Y; exact Y].
    assert (G2 : forall l1 l2 : list nat, NoDup l1 -> NoDup l2 -> NoDup (list_prod l1 l2)).
    { induction l1 as [|x l1 IH]; intros l2 H1 H2; cbn; [constructor|]. inversion H1; subst.
      assert (AUX : forall u v : list (nat * nat), NoDup u -> NoDup v -> (forall z, In z u -> ~ In z v) -> NoDup (u ++ v)).
      { intros u v U V W. induction U as [|z u Z U IHu]; [exact V|]. cbn. constructor.
        - rewrite in_app_iff. intros [X|X]; [contradiction|]. apply (W z); [left; reflexivity|exact X].
        - apply IHu. intros y Y. apply W. right. exact Y. }
      apply AUX.
      - apply FinFun.Injective_map_NoDup; [|exact H2]. intros i j [= ->]. reflexivity.
      - apply IH; assumption.
      - intros z Z1 Z2. apply in_map_iff in Z1 as (y & <- & _). apply in_prod_iff in Z2 as [Z2 _]. contradiction. }
    apply G2; apply seq_NoDup.
  - intros P. rewrite (mk_surj P). pose proof (zel_red P) as [A1 A2]. unfold zlist. apply in_map_iff.
    exists (Z.to_nat (fst (proj1_sig P)), Z.to_nat (snd (proj1_sig P))). cbn [fst snd]. rewrite !Z2Nat.id by lia. split; [reflexivity|].
    apply in_prod_iff. split; apply in_seq; lia.
  - unfold zlist. rewrite map_length, prod_length, !seq_length, Nat2Z.inj_mul, !positive_nat_Z. reflexivity.
Qed.
End ZZ.

(** *** Concrete divisor lists, Weil pairing and points of order 2 *)
Definition posdivs_example (n : Z) : list Z := filter (fun d => n mod d =? 0) (map Z.of_nat (seq 1 (Z.to_nat n))).
Lemma posdivs_met : posdivs_spec posdivs_example.
Proof.
  intros n N d. unfold posdivs_example. rewrite filter_In, in_map_iff. split.
  - intros ((k & <- & K) & D). apply in_seq in K. apply Z.eqb_eq in D. split; [lia|]. apply Z.mod_divide; [lia|exact D].
  - intros [D0 D]. pose proof (Z.divide_pos_le d n N D). split.
    + exists (Z.to_nat d). split; [lia|]. apply in_seq. lia.
    + apply Z.eqb_eq. apply Z.mod_divide; [lia|exact D].
Qed.
(** on Z/m x Z/m the pairing of order n is zeta^(determinant) *)
Definition weil_example (m : positive) (n : Z) (A B : zel m m) : Z :=
  let d := Z.gcd n (Zpos m) in
  let c := Zpos m / d in
  let det := fst (proj1_sig A) / c * (snd (proj1_sig B) / c) - snd (proj1_sig A) / c * (fst (proj1_sig B) / c) in
  d / Z.gcd d det.
Lemma weil_met m q : weil_spec (zz m m) q (weil_example m).
Proof.
  intros n A B N0 _ KA KB. unfold weil_example. cbv zeta. set (d := Z.gcd n (Zpos m)).
  assert (D0 : 0 < d).
  { unfold d. pose proof (Z.gcd_nonneg n (Zpos m)). assert (Z.gcd n (Zpos m) <> 0) by (intros E; apply Z.gcd_eq_0_l in E; lia). lia. }
  assert (CM : Zpos m / d * d = Zpos m) by (apply div_mul_cancel; [exact D0|apply Z.gcd_divide_r]). set (c := Zpos m / d) in *.
  assert (C0 : 0 < c) by nia.
  assert (SC : forall x, (Zpos m | n * x) -> x / c * c = x).
  { intros x H. apply div_mul_cancel; [exact C0|].
    assert (EN : n / d * d = n) by (apply div_mul_cancel; [exact D0|apply Z.gcd_divide_l]).
    assert (RP : rel_prime c (n / d)).
    { apply rel_prime_sym, Zgcd_1_rel_prime. unfold c. apply Z.gcd_div_gcd; [lia|reflexivity]. }
    rewrite <- CM, <- EN in H. replace (n / d * d * x) with (n / d * x * d) in H by ring. apply Z.mul_divide_cancel_r in H; [|lia].
    apply Gauss in H; assumption. }
  rewrite (mk_surj m m A), mul_mk in KA. apply mk_0 in KA as [KA1 KA2]. rewrite (mk_surj m m B), mul_mk in KB. apply mk_0 in KB as [KB1 KB2].
  apply SC in KA1, KA2, KB1, KB2.
  set (a1 := fst (proj1_sig A) / c) in *. set (a2 := snd (proj1_sig A) / c) in *. set (b1 := fst (proj1_sig B) / c) in *. set (b2 := snd (proj1_sig B) / c) in *.
  set (det := a1 * b2 - a2 * b1).
  assert (G0 : 0 < Z.gcd d det).
  { pose proof (Z.gcd_nonneg d det). assert (Z.gcd d det <> 0) by (intros E; apply Z.gcd_eq_0_l in E; lia). lia. }
  pose proof (div_mul_cancel d (Z.gcd d det) G0 (Z.gcd_divide_l d det)) as EG.
  split; [apply div_pos'; [lia|lia|apply Z.gcd_divide_l]|]. split.
  { apply Z.divide_trans with d; [exists (Z.gcd d det); lia|apply Z.gcd_divide_l]. }
  intros k b H. 
  assert (H1 : exists u, k * b1 - b * a1 = d * u).
  { apply (f_equal (fun P => fst (proj1_sig P))) in H. rewrite !mul_zz in H. cbn [fst snd] in H. rewrite <- KA1, <- KB1 in H.
    assert (D : (Zpos m | k * (b1 * c) - b * (a1 * c))) by (apply Z.mod_divide; [lia|]; rewrite Zminus_mod, H, Z.sub_diag; reflexivity).
    destruct D as [u U]. exists u. apply (Z.mul_reg_r _ _ c); [lia|]. transitivity ((k * (b1 * c) - b * (a1 * c))); [ring|]. rewrite U, <- CM. ring. }
  assert (H2 : exists u, k * b2 - b * a2 = d * u).
  { apply (f_equal (fun P => snd (proj1_sig P))) in H. rewrite !mul_zz in H. cbn [fst snd] in H. rewrite <- KA2, <- KB2 in H.
    assert (D : (Zpos m | k * (b2 * c) - b * (a2 * c))) by (apply Z.mod_divide; [lia|]; rewrite Zminus_mod, H, Z.sub_diag; reflexivity).
    destruct D as [u U]. exists u. apply (Z.mul_reg_r _ _ c); [lia|]. transitivity ((k * (b2 * c) - b * (a2 * c))); [ring|]. rewrite U, <- CM. ring. }
  destruct H1 as [u U]. destruct H2 as [v V].
  assert (DK : (d | det * k)) by (exists (a1 * v - a2 * u); transitivity (a1 * (k * b2 - b * a2) - a2 * (k * b1 - b * a1)); [unfold det; ring|rewrite U, V; ring]).
  apply (Gauss _ (det / Z.gcd d det)).
  - pose proof (div_mul_cancel det (Z.gcd d det) G0 (Z.gcd_divide_r d det)) as ED.
    assert (X : forall h e' d', 0 < h -> e' * h = det -> d' * h = d -> (d | det * k) -> (d' | e' * k)).
    { intros h e' d' H0 <- <- Y. replace (e' * h * k) with (e' * k * h) in Y by ring. apply Z.mul_divide_cancel_r in Y; [exact Y|lia]. }
    exact (X _ _ _ G0 ED EG DK).
  - apply Zgcd_1_rel_prime. apply Z.gcd_div_gcd; [lia|reflexivity].
Qed.
Definition tt_example (a b : positive) (T : zel a b) : option (zel a b) :=
  find (fun X => zeqb a b (zadd a b X X) (mk a b (0, 0)) && negb (zeqb a b X (mk a b (0, 0))) && negb (zeqb a b X T)) (zlist a b).
Lemma tt_met a b : tt_spec (zz a b) (tt_example a b).
Proof.
  intros T T' _ _ E. apply find_some in E as [_ E]. apply andb_true_iff in E as [E E3]. apply andb_true_iff in E as [E1 E2].
  apply negb_true_iff in E2, E3. pose proof (zz_grp a b) as GG.
  split; [|split].
  - change 2 with (1 + 1). rewrite (mul_succ _ GG), (mul_1 _ GG). apply (g_eq _ GG) in E1. exact E1.
  - intros ->. change (geq (zz a b) (gz (zz a b)) (gz (zz a b)) = false) in E2. rewrite (proj2 (g_eq _ GG _ _) eq_refl) in E2. discriminate.
  - intros ->. change (geq (zz a b) T T = false) in E3. rewrite (proj2 (g_eq _ GG _ _) eq_refl) in E3. discriminate.
Qed.

(** results by coordinates *)
Definition show2 {a b} (r : res (zel a b * Z * zel a b * Z)) : option (Z * Z * Z * (Z * Z) * Z) :=
  match r with Ok (P, n, Q, m) => Some (proj1_sig P, n, proj1_sig Q, m) | _ => None end.
Lemma show2_ok a b (r : res (zel a b * Z * zel a b * Z)) p n p' m : show2 r = Some (p, n, p', m) ->
  exists P Q, r = Ok (P, n, Q, m) /\ proj1_sig P = p /\ proj1_sig Q = p'.
Proof. destruct r as [[[[P k] Q] l]| | |]; try discriminate. cbn. intros [= <- <- <- <-]. exists P, Q. auto. Qed.
Definition show1 {a b} (r : res (zel a b * Z)) : option (Z * Z * Z) :=
  match r with Ok (P, n) => Some (proj1_sig P, n) | _ => None end.
Definition show3 {a b} (r : res (zel a b * Z * zel a b * Z * Z)) : option (Z * Z * Z * (Z * Z) * Z * Z) :=
  match r with Ok (P, n, Q, m, t) => Some (proj1_sig P, n, proj1_sig Q, m, t) | _ => None end.
