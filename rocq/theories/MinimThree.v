(** minim_p at p = 3. *)
From Coq Require Import ZArith List Bool Lia Znumtheory.
From Verif Require Import Base FormsModel MArithModel MArithProofs MinimModel MinimSpec MinimArith MinimArith3 MinimProofs.
Import ListNotations.
Open Scope Z_scope.
Open Scope res_scope.

Lemma dvc5 p k l m n o A B C D E X : (p | A) -> (p | B) -> (p | C) -> (p | D) -> (p | E) -> X = k * A + l * B + m * C + n * D + o * E -> (p | X).
Proof. intros H H' H'' H3 H4 ->. repeat apply Z.divide_add_r; apply Z.divide_mul_r; auto. Qed.
Lemma ex3 x : (3 | x) -> exists y, x = 3 * y.
Proof. intros (y & ->). exists y. ring. Qed.

Section R.
Variable xgcd : Z -> Z -> Z * Z * Z.
Hypothesis X : xgcd_spec xgcd.
Let n3 : 3 <> 0. Proof. discriminate. Qed.

Lemma c_dv3 g : (9 | II g) -> (3 | rc g).
Proof.
  intros (q & Q). apply (sqdv 3 prime_3). exists (3 * q - 4 * ra g * re g + rb g * rd g). unfold II in Q. lia.
Qed.
Lemma aebd3 g : (9 | II g) -> (3 | ra g * re g - rb g * rd g).
Proof.
  intros H. destruct (c_dv3 g H) as (c1 & C). destruct H as (q & Q). unfold II in Q. rewrite C in Q.
  exists (q - c1 * c1 - ra g * re g). lia.
Qed.

Lemma root3_ok g m : (9 | II g) -> ~ ((3 | ra g) /\ (3 | rb g)) ->
  exists al, root_p xgcd g 3 = Ok al /\
    let g' := fst (m_xshift al (g, m)) in (3 | rc g') /\ (3 | rd g') /\ (3 | re g').
Proof.
  intros HI NI. pose proof (c_dv3 g HI) as C. pose proof (aebd3 g HI) as Q. clear HI.
  destruct g as [a b c d e]. unfold root_p. cbn [ra rb rc rd re m_xshift fst r_xshift] in *.
  replace (dv 3 a && dv 3 b) with false.
  2: { symmetry. apply not_true_iff_false. rewrite andb_true_iff, !dv_ok by exact n3. exact NI. }
  destruct (dv 3 e && dv 3 d) eqn:ED.
  { apply andb_true_iff in ED. rewrite !dv_ok in ED by exact n3. destruct ED as (E & D).
    exists 0. split; [reflexivity|]. rewrite !Z.mul_0_l, !Z.add_0_r. auto. }
  clear ED. cbn [Z.eqb Pos.eqb]. pose proof (Z.divide_refl 3) as T.
  destruct (dv 3 a) eqn:DA.
  - apply dv_ok in DA; [|exact n3]. assert (B : ~ (3 | b)) by tauto.
    destruct (mod_z_ok (- b * e) 3 n3) as (al & -> & H & _). exists al. split; [reflexivity|].
    pose proof (unit3 b B) as B2. pose proof (ferm3 al) as F.
    assert (D : (3 | d)). { apply (canc 3 prime_3 b); [exact B|]. apply (dvc2 3 e (-1) _ _ _ DA Q). ring. }
    split; [apply (dvc3 3 1 (al * b) (6 * al * al) _ _ _ _ C T DA); ring|].
    split; [apply (dvc4 3 1 (2 * al) (al * al * b) (4 * al * al * al) _ _ _ _ _ D C T DA); ring|].
    destruct H as (h & H). destruct F as (f & F). destruct B2 as (k & B2). destruct D as (d1 & ->), C as (c1 & ->), DA as (a1 & ->).
    exists (al * d1 + al * al * c1 + al * al * al * al * a1 + f * b - h * b - k * e).
    transitivity (e + al * (d1 * 3) + al * al * (c1 * 3) + al * al * al * b + al * al * al * al * (a1 * 3)); [ring|].
    replace (al * al * al) with (f * 3 + al) at 1 by lia.
    apply (lin2 (- b) (- e) _ _ _ _ _ _ H B2). ring.
  - apply dv_no in DA; [|exact n3].
    destruct (mod_z_ok (- a * d) 3 n3) as (al & -> & H & _). exists al. split; [reflexivity|].
    pose proof (unit3 a DA) as A2. pose proof (ferm3 al) as F.
    split; [apply (dvc2 3 1 (al * b + 2 * al * al * a) _ _ _ C T); ring|].
    split.
    + apply (dvc5 3 (4 * a) (- 4 * a) (- 4 * d) (2 * al) (- d + al * al * b) _ _ _ _ _ _ F H A2 C T). ring.
    + apply (dvc5 3 (b + a * al) (- b - a * al) (- e - d * al) (al * al) a _ _ _ _ _ _ F H A2 C Q). ring.
Qed.

Lemma to_zero3_ok g0 s : (9 | II g0) -> ~ all_dv 3 g0 ->
  exists f, to_zero xgcd 3 g0 s = Ok (f s) /\ nice f /\
    forall m, let g' := fst (f (g0, m)) in (3 | rc g') /\ (3 | rd g') /\ (3 | re g') /\ ~ ((3 | ra g') /\ (3 | rb g')).
Proof.
  intros HI NA.
  assert (FIN : forall f, nice f -> (forall m, let g' := fst (f (g0, m)) in (3 | rc g') /\ (3 | rd g') /\ (3 | re g')) ->
    forall m, let g' := fst (f (g0, m)) in (3 | rc g') /\ (3 | rd g') /\ (3 | re g') /\ ~ ((3 | ra g') /\ (3 | rb g'))).
  { intros f Nf H m. specialize (H m). cbv zeta in *. destruct H as (C & D & E). split; [exact C|]. split; [exact D|]. split; [exact E|].
    intros (A & B). apply NA. apply (nice_all f 3 (g0, m) Nf). unfold all_dv. tauto. }
  unfold to_zero. destruct (dv 3 (ra g0) && dv 3 (rb g0)) eqn:AB.
  { apply andb_true_iff in AB. rewrite !dv_ok in AB by exact n3. destruct AB as (A & B).
    exists m_invert. split; [reflexivity|]. split; [left; reflexivity|]. apply FIN; [left; reflexivity|].
    intros m. pose proof (c_dv3 g0 HI) as C. destruct g0 as [a b c d e]. cbn [m_invert fst r_invert ra rb rc rd re] in *. split; [exact C|split].
    - apply Z.divide_opp_r, B.
    - exact A. }
  destruct (negb (dv 3 (re g0)) || negb (dv 3 (rd g0))) eqn:ED.
  - assert (NI : ~ ((3 | ra g0) /\ (3 | rb g0))).
    { intros (A & B). rewrite (proj2 (dv_ok 3 _ n3) A), (proj2 (dv_ok 3 _ n3) B) in AB. discriminate. }
    destruct (root3_ok g0 (snd s) HI NI) as (al & -> & C). rewrite bind_Ok.
    exists (m_xshift al). split; [reflexivity|]. assert (NN : nice (m_xshift al)) by (right; left; exists al; reflexivity).
    split; [exact NN|]. apply FIN; [exact NN|]. intros m. exact C.
  - apply orb_false_iff in ED. rewrite !negb_false_iff, !dv_ok in ED by exact n3. destruct ED as (E & D).
    exists (fun s => s). split; [reflexivity|]. assert (NN : nice (fun s => s)) by (right; right; right; reflexivity).
    split; [exact NN|]. apply (FIN (fun s => s) NN). intros m. cbn [fst]. split; [exact (c_dv3 g0 HI)|split; [exact D|exact E]].
Qed.

(** ** all coefficients divisible by 3 *)
Lemma case_p_3 s i j : II (fst s) = 81 * i -> JJ (fst s) = 729 * j -> hyp3 i j -> all_dv 3 (fst s) -> ~ all_dv (3 * 3) (fst s) ->
  soluble4 3 (fst s) \/ (9 | i) ->
  exists s', case_p xgcd 3 s = Ok (true, s') /\ good 3 s s'.
Proof.
  destruct s as (g & m). cbn [fst]. intros HI HJ H3 AD NA SOL.
  assert (EG : exists g0, g = rsc 3 g0).
  { destruct g as [a b c d e]. destruct AD as (A & B & C & D & E). cbn [ra rb rc rd re] in *.
    destruct (ex3 _ A) as (a1 & ->), (ex3 _ B) as (b1 & ->), (ex3 _ C) as (c1 & ->), (ex3 _ D) as (d1 & ->), (ex3 _ E) as (e1 & ->).
    exists (Qt a1 b1 c1 d1 e1). reflexivity. }
  destruct EG as (g0 & ->). clear AD.
  assert (NA0 : ~ all_dv 3 g0).
  { intros (A & B & C & D & E). apply NA. unfold all_dv, rsc. cbn [ra rb rc rd re]. repeat split; apply Z.mul_divide_mono_l; assumption. }
  assert (HI0 : II g0 = 9 * i). { assert (SI : II (rsc 3 g0) = 9 * II g0) by (unfold II, rsc; cbn [ra rb rc rd re]; ring). clear - HI SI. lia. }
  assert (HJ0 : JJ g0 = 27 * j). { assert (SJ : JJ (rsc 3 g0) = 27 * JJ g0) by (unfold JJ, rsc; cbn [ra rb rc rd re]; ring). clear - HJ SJ. lia. }
  clear HI HJ NA. unfold case_p. cbn [fst]. cbv zeta.
  assert (EQ0 : Qt (ra (rsc 3 g0) / 3) (rb (rsc 3 g0) / 3) (rc (rsc 3 g0) / 3) (rd (rsc 3 g0) / 3) (re (rsc 3 g0) / 3) = g0).
  { destruct g0 as [a b c d e]. unfold rsc. cbn [ra rb rc rd re]. f_equal; apply quot_l; auto. }
  rewrite EQ0. generalize (ra (rsc 3 g0) / 3). intros a0. clear EQ0.
  destruct (to_zero3_ok g0 (rsc 3 g0, m)) as (f & -> & Nf & F).
  { exists i. rewrite HI0. ring. }
  { exact NA0. }
  rewrite bind_Ok. specialize (F m). cbv zeta in F.
  match goal with |- exists s', ?T = _ /\ _ => cut (exists s', T = Ok (true, s') /\ good 3 (f (rsc 3 g0, m)) s') end.
  { intros (s' & E & H). exists s'. split; [exact E|]. apply good_nice with f; assumption. }
  rewrite <- (nice_II' f g0 m Nf) in HI0. rewrite <- (nice_JJ' f g0 m Nf) in HJ0.
  assert (SOL1 : soluble4 3 (fst (f (rsc 3 g0, m))) \/ (9 | i)).
  { destruct SOL as [S|S]; [left; apply nice_sol; [exact Nf|exact S]|right; exact S]. }
  clear SOL. rewrite (nice_rsc f 3 g0 m m Nf) in SOL1.
  assert (EF : f (rsc 3 g0, m) = (rsc 3 (fst (f (g0, m))), snd (f (rsc 3 g0, m)))).
  { rewrite <- (nice_rsc f 3 g0 m m Nf). apply surjective_pairing. }
  rewrite EF. generalize (snd (f (rsc 3 g0, m))). intros m1. clear EF NA0. revert HI0 HJ0 F SOL1. generalize (fst (f (g0, m))). clear f Nf g0 m.
  intros g0 HI HJ (C & D & E & AB) SOL. cbn [fst].
  assert (EB : rb (rsc 3 g0) / 3 = rb g0) by (apply quot_l; [exact n3|reflexivity]). rewrite EB. clear EB.
  match goal with |- exists s', bind ?T _ = _ /\ _ => assert (ET : exists f, T = Ok (f (rsc 3 g0, m1)) /\ nice f /\
        let g' := fst (f (g0, m1)) in (3 | rc g') /\ (3 | rd g') /\ (3 | re g') /\ ((~ (3 | rb g')) \/ (~ (3 | ra g') /\ (3 | rb g')))) end.
  { destruct (negb (dv (3 * 3) (ra (rsc 3 g0))) && negb (dv 3 (rb g0))) eqn:C0.
    - apply andb_true_iff in C0. destruct C0 as (_ & C0). apply negb_true_iff in C0. apply dv_no in C0; [|exact n3].
      destruct (mod_z_ok (- a0 * invmod_z xgcd (rb g0) 3) 3 n3) as (ga & -> & _). rewrite bind_Ok.
      exists (m_zshift ga). split; [reflexivity|]. split; [right; right; left; exists ga; reflexivity|].
      destruct g0 as [a b c d e]. cbn [m_zshift fst r_zshift ra rb rc rd re] in *.
      split; [|split; [|split; [|left]]].
      + apply (dvc3 3 1 (3 * ga) (6 * ga * ga) _ _ _ _ C D E). ring.
      + apply (dvc2 3 1 (4 * ga) _ _ _ D E). ring.
      + exact E.
      + intros H. apply C0. apply (dvc4 3 1 (- 2 * ga) (- 3 * ga * ga) (- 4 * ga * ga * ga) _ _ _ _ _ H C D E). ring.
    - exists (fun s => s). split; [reflexivity|]. split; [right; right; right; reflexivity|]. cbn [fst].
      split; [exact C|]. split; [exact D|]. split; [exact E|].
      destruct (Znumtheory.Zdivide_dec 3 (rb g0)) as [B|B]; [right; tauto|left; exact B]. }
  destruct ET as (f & -> & Nf & F). rewrite bind_Ok. cbv zeta in F. clear C D E AB.
  cbn [Z.eqb Pos.eqb andb]. eexists. split; [reflexivity|].
  apply (good_nice 3 f _ _ Nf).
  rewrite <- (nice_II' f g0 m1 Nf) in HI. rewrite <- (nice_JJ' f g0 m1 Nf) in HJ.
  assert (SOL1 : soluble4 3 (fst (f (rsc 3 g0, m1))) \/ (9 | i)).
  { destruct SOL as [S|S]; [left; apply nice_sol; [exact Nf|exact S]|right; exact S]. }
  clear SOL. rewrite (nice_rsc f 3 g0 m1 m1 Nf) in SOL1.
  assert (EF : f (rsc 3 g0, m1) = (rsc 3 (fst (f (g0, m1))), snd (f (rsc 3 g0, m1)))).
  { rewrite <- (nice_rsc f 3 g0 m1 m1 Nf). apply surjective_pairing. }
  rewrite EF. generalize (snd (f (rsc 3 g0, m1))). intros m2. clear EF. revert HI HJ F SOL1. generalize (fst (f (g0, m1))). clear f Nf g0 m1.
  intros [a b c d e] HI HJ (C & D & E & AB) SOL. unfold rsc, II, JJ in *. cbn [ra rb rc rd re] in *.
  destruct (ex3 _ C) as (c1 & ->), (ex3 _ D) as (d1 & ->), (ex3 _ E) as (e1 & ->). clear C D E.
  assert (Ei : i = 4 * a * e1 - b * d1 + c1 * c1). { apply Z.mul_reg_l with 9; [discriminate|]. rewrite <- HI. ring. }
  assert (Ej : j = 24 * a * c1 * e1 + 3 * b * c1 * d1 - 9 * a * d1 * d1 - 3 * e1 * b * b - 2 * c1 * c1 * c1).
  { apply Z.mul_reg_l with 27; [discriminate|]. rewrite <- HJ. ring. }
  clear HI HJ.
  cut (exists d2 e3, d1 = 3 * d2 /\ e1 = 3 * 3 * e3).
  { intros (d2 & e3 & -> & ->). pose proof (good_quad 3 prime_3 (3 * a) b c1 d2 e3 m2) as GT. rewrite !Z.mul_assoc in *. exact GT. }
  destruct AB as [B|(A & B)].
  { exact (all_triple3 a b c1 d1 e1 i j B Ei Ej H3). }
  destruct (ex3 _ B) as (b1 & ->). clear B.
  destruct (all_quad3 a b1 c1 d1 e1 i j A) as (d2 & e2 & -> & ->); [rewrite Ei; ring|rewrite Ej; ring|exact H3|].
  assert (exists e3, e2 = 3 * e3) as (e3 & ->).
  { destruct SOL as [(x & z & y & N & S)|S].
    - apply (all_quad_sol 3 prime_3 a b1 c1 d2 e2 x z y A N).
      match goal with H : (_ | ?U) |- (_ | ?V) => replace V with U; [exact H|] end. unfold r_eval. cbn [ra rb rc rd re]. ring.
    - apply (all_quad3_more a b1 c1 d2 e2 A). rewrite Ei in S. exact S. }
  exists d2, e3. split; ring.
Qed.

(** ** not all coefficients divisible by 3 *)
Lemma case_1_3 s i j : II (fst s) = 81 * i -> JJ (fst s) = 729 * j -> hyp3 i j -> ~ all_dv 3 (fst s) ->
  exists s', case_1 xgcd 3 s = Ok (true, s') /\ good 3 s s'.
Proof.
  intros HI HJ H3 NA. destruct s as (g & m). cbn [fst] in *. unfold case_1. cbn [fst].
  destruct (to_zero3_ok g (g, m)) as (f & -> & Nf & F).
  { exists (9 * i). rewrite HI. ring. }
  { exact NA. }
  rewrite bind_Ok. specialize (F m). cbv zeta in F.
  rewrite <- (nice_II' f g m Nf) in HI. rewrite <- (nice_JJ' f g m Nf) in HJ.
  match goal with |- exists s', ?T = _ /\ _ => cut (exists s', T = Ok (true, s') /\ good 3 (f (g, m)) s') end.
  { intros (s' & E & H). exists s'. split; [exact E|]. apply good_nice with f; assumption. }
  destruct (f (g, m)) as (g1 & m1). clear f Nf NA g m. cbn [fst] in *. destruct F as (C & D & E & AB).
  cbv zeta.
  match goal with |- exists s', bind ?T _ = _ /\ _ => cut (exists f, T = Ok (f (g1, m1)) /\ nice f /\
        let g' := fst (f (g1, m1)) in (3 | rc g') /\ (3 | rd g') /\ (3 | re g') /\
          (((3 | ra g') /\ ~ (3 | rb g')) \/ (~ (3 | ra g') /\ (3 | rb g')))) end.
  { intros (f & -> & Nf & F). rewrite bind_Ok.
    rewrite <- (nice_II' f g1 m1 Nf) in HI. rewrite <- (nice_JJ' f g1 m1 Nf) in HJ.
    cbv zeta in *. destruct (f (g1, m1)) as (g2 & m2) eqn:EF. cbn [fst] in *.
    match goal with |- exists s', ?T = _ /\ _ => cut (exists s', T = Ok (true, s') /\ good 3 (g2, m2) s') end.
    { intros (s' & T & H). exists s'. split; [exact T|]. rewrite <- EF in H. apply good_nice with f; assumption. }
    clear f Nf EF g1 m1 C D E AB. destruct F as (C & D & E & [(A & B)|(A & B)]).
    - rewrite (proj2 (dv_ok 3 _ n3) A). cbn [Z.eqb Pos.eqb].
      destruct g2 as [a b c d e]. cbn [ra rb rc rd re] in *.
      change (12 * a * e - 3 * b * d + c * c) with (II (Qt a b c d e)). rewrite HI.
      assert (VI : exists v, val_z 3 (81 * i) = Ok v /\ (v = 4 <-> ~ (3 | i))).
      { destruct (Z.eq_dec i 0) as [->|NI].
        - exists 99999. split; [reflexivity|]. split; [discriminate|]. intros H. exfalso. apply H. apply Z.divide_0_r.
        - destruct (val_z_ok 3 (81 * i)) as (v & -> & V0 & V1 & V2); [lia|cbn; lia|]. exists v. split; [reflexivity|]. split.
          + intros ->. intros (k & ->). apply V2. exists k. change (3 ^ (4 + 1)) with 243. ring.
          + intros N3. destruct (Z_lt_le_dec v 4).
            * exfalso. apply V2. apply Z.divide_trans with (3 ^ 4); [exists (3 ^ (4 - (v + 1))); rewrite <- Z.pow_add_r by lia; f_equal; lia|]. exists i. change (3 ^ 4) with 81. ring.
            * destruct (Z.eq_dec v 4) as [->|]; [reflexivity|]. exfalso. apply N3.
              assert (H5 : (3 ^ 5 | 81 * i)). { apply Z.divide_trans with (3 ^ v); [exists (3 ^ (v - 5)); rewrite <- Z.pow_add_r by lia; f_equal; lia|exact V1]. }
              change (3 ^ 5) with (81 * 3) in H5. apply Z.mul_divide_cancel_l in H5; [exact H5|discriminate]. }
      destruct VI as (v & -> & VI). rewrite bind_Ok. unfold II, JJ in HI, HJ. cbn [ra rb rc rd re] in HI, HJ.
      destruct (ex3 _ A) as (a1 & ->), (ex3 _ C) as (c1 & ->), (ex3 _ D) as (d1 & ->), (ex3 _ E) as (e1 & ->). clear A C D E.
      destruct (triple3_pre a1 b c1 d1 e1 i j B) as (c2 & d3 & e3 & -> & -> & ->).
      { apply Z.mul_reg_l with 9; [discriminate|]. transitivity (81 * i); [rewrite <- HI; ring|ring]. }
      { apply Z.mul_reg_l with 27; [discriminate|]. transitivity (729 * j); [rewrite <- HJ; ring|ring]. }
      replace (- (3 * (3 * 3 * e3)) / 27) with (- e3) by (symmetry; apply quot_l; [discriminate|ring]).
      replace (- (3 * (3 * c2)) / 9) with (- c2) by (symmetry; apply quot_l; [discriminate|ring]).
      set (tm := if v =? 4 then - e3 else - c2). cbv zeta.
      assert (BE : exists mm, (if negb (dv 3 tm) then m <- mod_z (tm * invmod_z xgcd b 3) 3 ;; Ok (3 * m) else Ok 0) = Ok (3 * mm)
                   /\ (3 | b * mm - tm)).
      { destruct (dv 3 tm) eqn:DC; cbn [negb].
        - exists 0. split; [reflexivity|]. rewrite Z.mul_0_r, Z.sub_0_l. apply Z.divide_opp_r. apply dv_ok in DC; [|exact n3]. exact DC.
        - destruct (quot_ok xgcd X 3 prime_3 tm b B) as (mm & -> & Q). exists mm. rewrite bind_Ok. split; [reflexivity|exact Q]. }
      destruct BE as (be & -> & Q). rewrite bind_Ok. eexists. split; [reflexivity|].
      assert (Nx : nice (m_xshift (3 * be))) by (right; left; eexists; reflexivity).
      apply (good_nice 3 (m_xshift (3 * be)) _ _ Nx).
      set (b' := b + 36 * be * a1).
      assert (B' : ~ (3 | b')).
      { intros H. apply B. apply (dvc2 3 1 (- 12 * be * a1) _ _ _ H (Z.divide_refl 3)). unfold b'. ring. }
      set (c2' := c2 + be * b + 18 * be * be * a1). set (d3' := d3 + 2 * be * c2 + be * be * b + 12 * be * be * be * a1).
      set (e3' := e3 + 3 * be * d3 + 3 * be * be * c2 + be * be * be * b + 9 * be * be * be * be * a1).
      assert (EX : m_xshift (3 * be) (Qt (3 * a1) b (3 * (3 * c2)) (3 * (3 * 3 * d3)) (3 * (3 * 3 * e3)), m2) =
        (Qt (3 * a1) b' (9 * c2') (27 * d3') (27 * e3'), Sum (m00 m2) (um_xshift (3 * be) (sm m2)))).
      { unfold m_xshift, r_xshift, b', c2', d3', e3'. cbn [fst snd ra rb rc rd re]. f_equal. f_equal; ring. }
      rewrite EX. clear EX Nx.
      assert (Ei : i = 12 * a1 * e3' - b' * d3' + c2' * c2').
      { apply Z.mul_reg_l with 81; [discriminate|]. rewrite <- HI. unfold b', c2', d3', e3'. ring. }
      assert (Ej : j = 72 * a1 * c2' * e3' + 3 * b' * c2' * d3' - 81 * a1 * d3' * d3' - e3' * b' * b' - 2 * c2' * c2' * c2').
      { apply Z.mul_reg_l with 729; [discriminate|]. rewrite <- HJ. unfold b', c2', d3', e3'. ring. }
      assert (TA : (3 | i) -> (3 | c2')).
      { intros H. unfold tm in Q. destruct (Z.eqb_spec v 4) as [V4|V4]; [apply VI in V4; contradiction|].
        apply (dvc2 3 1 (6 * be * be * a1) _ _ _ Q (Z.divide_refl 3)). unfold c2'. ring. }
      assert (TB : ~ (3 | i) -> (3 | e3')).
      { intros H. apply VI in H. unfold tm in Q. rewrite H in Q. cbn [Z.eqb Pos.eqb] in Q.
        apply (dvc3 3 1 b (be * d3 + be * be * c2 + 3 * be * be * be * be * a1) _ _ _ _ Q (ferm3 be) (Z.divide_refl 3)). unfold e3'. ring. }
      clearbody b' c2' d3' e3'. clear HI HJ Q B VI.
      cut (exists d4 e6, d3' = 3 * d4 /\ e3' = 3 * 3 * 3 * e6).
      { intros (d4 & e6 & -> & ->). pose proof (good_triple 3 prime_3 (3 * a1) b' c2' d4 e6 (Sum (m00 m2) (um_xshift (3 * be) (sm m2)))) as GT.
        rewrite !Z.mul_assoc in *. exact GT. }
      destruct H3 as [(H1 & H2)|(H1 & H2 & H4)].
      + destruct (ex3 _ (TA H1)) as (c3 & ->). exact (triple3_A a1 b' c3 d3' e3' i j B' Ei Ej H1 H2).
      + destruct (ex3 _ (TB H1)) as (e4 & ->). destruct (triple3_B a1 b' c2' d3' e4 i j B' Ei Ej H2 H4) as (d4 & e6 & -> & ->).
        exists d4, e6. split; ring.
    - rewrite (proj2 (dv_no 3 _ n3) A). cbn [Z.eqb Pos.eqb andb].
      destruct g2 as [a b c d e]. unfold II, JJ in HI, HJ. cbn [ra rb rc rd re] in *.
      destruct (ex3 _ B) as (b1 & ->), (ex3 _ C) as (c1 & ->), (ex3 _ D) as (d1 & ->), (ex3 _ E) as (e1 & ->). clear B C D E.
      destruct (quad3_pre a b1 c1 d1 e1 i j A) as (c2 & d2 & e3 & -> & -> & ->).
      { apply Z.mul_reg_l with 9; [discriminate|]. transitivity (81 * i); [rewrite <- HI; ring|ring]. }
      { apply Z.mul_reg_l with 27; [discriminate|]. transitivity (729 * j); [rewrite <- HJ; ring|ring]. }
      replace (3 * b1 / 3) with b1 by (symmetry; apply quot_l; [discriminate|ring]).
      set (g2 := Qt a (3 * b1) (3 * (3 * c2)) (3 * (3 * d2)) (3 * (3 * 3 * e3))).
      match goal with |- exists s', bind ?T _ = _ /\ _ =>
        assert (BE : exists mm, T = Ok (m_xshift (3 * mm) (g2, m2)) /\ (3 | b1 + 4 * mm * a)) end.
      { destruct (dv 3 b1) eqn:DC; cbn [negb].
        - exists 0. split.
          + f_equal. unfold m_xshift, r_xshift, um_xshift, g2. destruct m2 as [u [k l r t]]. cbn [fst snd m00 sm ra rb rc rd re m11 m12 m21 m22].
            f_equal; f_equal; try ring. f_equal; ring.
          + apply dv_ok in DC; [|exact n3]. rewrite Z.mul_0_r, Z.mul_0_l, Z.add_0_r. exact DC.
        - destruct (quot_ok xgcd X 3 prime_3 (- b1) a A) as (mm & -> & Q). exists mm. rewrite bind_Ok. split; [reflexivity|].
          apply (dvc2 3 1 (mm * a) _ _ _ Q (Z.divide_refl 3)). ring. }
      destruct BE as (be & -> & Q). rewrite bind_Ok. eexists. split; [reflexivity|].
      assert (Nx : nice (m_xshift (3 * be))) by (right; left; eexists; reflexivity).
      apply (good_nice 3 (m_xshift (3 * be)) _ _ Nx). destruct (ex3 _ Q) as (b2 & EQ).
      set (c2' := c2 + 3 * be * b1 + 6 * be * be * a). set (d2' := d2 + 6 * be * c2 + 9 * be * be * b1 + 12 * be * be * be * a).
      set (e3' := e3 + be * d2 + 3 * be * be * c2 + 3 * be * be * be * b1 + 3 * be * be * be * be * a).
      assert (EX : m_xshift (3 * be) (g2, m2) = (Qt a (9 * b2) (9 * c2') (9 * d2') (27 * e3'), Sum (m00 m2) (um_xshift (3 * be) (sm m2)))).
      { unfold m_xshift, r_xshift, g2, c2', d2', e3'. cbn [fst snd ra rb rc rd re]. f_equal. f_equal; try ring.
        transitivity (3 * (b1 + 4 * be * a)); [ring|]. rewrite EQ. ring. }
      rewrite EX. clear EX Nx. clearbody g2.
      assert (Eb : b1 = 3 * b2 - 4 * be * a) by (clear - EQ; lia).
      assert (Ei : i = 4 * a * e3' - 3 * b2 * d2' + c2' * c2').
      { apply Z.mul_reg_l with 81; [discriminate|]. rewrite <- HI. unfold c2', d2', e3'. rewrite Eb. ring. }
      assert (Ej : j = 24 * a * c2' * e3' + 9 * b2 * c2' * d2' - 3 * a * d2' * d2' - 81 * e3' * b2 * b2 - 2 * c2' * c2' * c2').
      { apply Z.mul_reg_l with 729; [discriminate|]. rewrite <- HJ. unfold c2', d2', e3'. rewrite Eb. ring. }
      clearbody c2' d2' e3'.
      destruct (quad3 a b2 c2' d2' e3' i j A Ei Ej H3) as (d3 & e4 & -> & ->).
      pose proof (good_quad 3 prime_3 a (3 * b2) c2' d3 e4 (Sum (m00 m2) (um_xshift (3 * be) (sm m2)))) as GT.
      rewrite !Z.mul_assoc in *. exact GT. }
  clear HI HJ. cbv zeta. destruct (dv 3 (ra g1)) eqn:DA; cbn [negb andb].
  { exists (fun s => s). split; [reflexivity|]. split; [right; right; right; reflexivity|]. cbn [fst].
    apply dv_ok in DA; [|exact n3]. tauto. }
  destruct (dv 3 (rb g1)) eqn:DB; cbn [negb].
  { exists (fun s => s). split; [reflexivity|]. split; [right; right; right; reflexivity|]. cbn [fst].
    apply dv_no in DA; [|exact n3]. apply dv_ok in DB; [|exact n3]. tauto. }
  apply dv_no in DB; [|exact n3].
  destruct (quot_ok xgcd X 3 prime_3 (- ra g1) (rb g1) DB) as (ga & -> & Q). rewrite bind_Ok. exists (m_zshift ga). split; [reflexivity|].
  split; [right; right; left; exists ga; reflexivity|]. destruct g1 as [a b c d e]. cbn [m_zshift fst r_zshift ra rb rc rd re] in *.
  split; [|split; [|split; [|left; split]]].
  - apply (dvc3 3 1 (3 * ga) (6 * ga * ga) _ _ _ _ C D E). ring.
  - apply (dvc2 3 1 (4 * ga) _ _ _ D E). ring.
  - exact E.
  - apply (dvc4 3 1 (ga * ga) (ga * ga * ga) (ga * ga * ga * ga) _ _ _ _ _ Q C D E). ring.
  - intros H. apply DB. apply (dvc4 3 1 (- 2 * ga) (- 3 * ga * ga) (- 4 * ga * ga * ga) _ _ _ _ _ H C D E). ring.
Qed.

Theorem minim_p_3 s i j : II (fst s) = 81 * i -> JJ (fst s) = 729 * j -> hyp3 i j -> soluble4 3 (fst s) \/ (9 | i) ->
  exists s', minim_p xgcd 3 s = Ok (true, s') /\ good 3 s s'.
Proof.
  intros HI HJ H3 S. unfold minim_p.
  destruct (dv_all (3 * 3) (fst s)) eqn:D2.
  { apply dv_all_ok in D2; [|discriminate]. eexists. split; [reflexivity|]. destruct s as (g & m). apply (good_p2 3 prime_3), D2. }
  apply dv_all_no in D2; [|discriminate].
  destruct (dv_all 3 (fst s)) eqn:D1.
  - apply dv_all_ok in D1; [|exact n3]. apply (case_p_3 s i j); assumption.
  - apply dv_all_no in D1; [|exact n3]. apply (case_1_3 s i j); assumption.
Qed.
End R.
