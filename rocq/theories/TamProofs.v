(** Tamagawa numbers and exponents *)
From Coq Require Import ZArith Znumtheory Lia List Bool.
From Verif Require Import Base RatModel MArithModel MArithProofs DivisorProofs CurveModel CurveProofs MinimalProofs
  TateModel TateSpec TateArith TateShift TateStar TateLoop TateProofs TateFinal TateUnique TamModel.
Import ListNotations.
Open Scope Z_scope.

(** *** Specification: the group of components with rational multiplicity one
    representatives (Silverman, Advanced Topics, IV.9, table 4.1) as a list of
    orders of cyclic factors, given the type and the Tamagawa number *)
Definition comp_group (K : kodaira) (cp : Z) : list Z :=
  match K with KIs m => if Z.even m && (cp =? 4) then [2; 2] else [cp] | _ => [cp] end.
(** e is the exponent of a product of cyclic groups *)
Definition is_exponent (l : list Z) (e : Z) : Prop := 0 < e /\ forall n, (e | n) <-> Forall (fun k => (k | n)) l.
(** the entry for p has type K *)
Definition type_at (p : Z) (c : curve) (d : reduction) (K : kodaira) : Prop :=
  exists r s t, tate_form p (tr_rst r s t c) K (c_p d) /\ kcode d = pinch_code K.

Lemma reduction_type p c d : reduction_at p c d -> exists K, type_at p c d K.
Proof. intros (K & r & s & t & H & C & _). exists K, r, s, t. auto. Qed.
Lemma type_unique p c d d' K K' : prime p -> type_at p c d K -> type_at p c d' K' -> K = K' /\ c_p d = c_p d' /\ kcode d = kcode d'.
Proof.
  intros P (r & s & t & H & C) (r' & s' & t' & H' & C').
  destruct (tate_unique p P (tr_rst r s t c) (tr_rst r' s' t' c) K K' (c_p d) (c_p d')) as [<- E]; auto.
  - destruct (rel_sym c (tr_rst r s t c)) as (x & y & z & Hx); [exists r, s, t; reflexivity|].
    rewrite Hx at 2. rewrite tr_comp. eexists _, _, _. reflexivity.
  - rewrite C, C'. auto.
Qed.

Theorem reduction_unique p c r s t d d' : prime p -> sdisc c <> 0 -> reduction_at p c d -> reduction_at p (tr_rst r s t c) d' -> d = d'.
Proof.
  intros P D0 (K & r1 & s1 & t1 & H & C & V & O & J) (K' & r2 & s2 & t2 & H' & C' & V' & O' & J').
  rewrite sdisc_tr in V'. assert (G : 2 <= p) by (destruct P; lia).
  destruct (tate_unique p P (tr_rst r1 s1 t1 c) (tr_rst r2 s2 t2 (tr_rst r s t c)) K K' (c_p d) (c_p d')) as [<- E]; auto.
  { destruct (rel_sym c (tr_rst r1 s1 t1 c)) as (x & y & z & Hx); [exists r1, s1, t1; reflexivity|].
    set (e := tr_rst r1 s1 t1 c) in *. clearbody e. rewrite Hx, !tr_comp. eexists _, _, _. reflexivity. }
  pose proof (is_val_unique p _ _ _ G V V') as EV.
  assert (EJ : ord_p_j d = ord_p_j d').
  { destruct J as [J1 J2]. destruct J' as [J1' J2']. rewrite sc4_tr in J1', J2'. rewrite sdisc_tr in J2'.
    destruct (Z.eq_dec (sc4 c) 0) as [Z4|N4]; [rewrite J1, J1' by exact Z4; reflexivity|].
    destruct (val_z_ok p (sc4 c) N4 ltac:(lia)) as (v4 & _ & V40 & V41 & V42).
    assert (IV : is_val p (sc4 c) v4) by (split; [exact V40|split; assumption]).
    rewrite (J2 _ _ N4 V IV), (J2' _ _ N4 V' IV), EV. reflexivity. }
  destruct d as [D1 D2 D3 D4 D5], d' as [F1 F2 F3 F4 F5]. cbn [ord_p_discr ord_p_N ord_p_j kcode c_p] in *. congruence.
Qed.

Lemma cp_pos p c d K : type_at p c d K -> 1 <= c_p d.
Proof.
  intros (r & s & t & H & _). revert H. destruct K as [n| | | |m| | |]; cbn [tate_form].
  - intros (N & _ & _ & _ & _ & _ & _ & [[_ ->]|[_ ->]]); [exact N|]. destruct (Z.even n); lia.
  - intros (_ & _ & _ & _ & _ & ->). lia.
  - intros (_ & _ & _ & _ & _ & ->). lia.
  - intros (_ & _ & _ & _ & _ & _ & [[_ ->]|[_ ->]]); lia.
  - intros (_ & _ & H). destruct (m =? 0).
    + destruct H as (_ & _ & _ & _ & l & _ & _ & ->). lia.
    + destruct H as (_ & _ & H). destruct (Z.odd m); destruct H as (_ & _ & _ & _ & [[_ ->]|[_ ->]]); lia.
  - intros (_ & _ & _ & _ & _ & _ & [[_ ->]|[_ ->]]); lia.
  - intros (_ & _ & _ & _ & _ & _ & ->). lia.
  - intros (_ & _ & _ & _ & _ & _ & ->). lia.
Qed.
(** a cubic without double root modulo p has 0, 1 or 3 roots *)
Lemma cubic_roots_number p b c d l : prime p -> ~ (p | cub_w b c d) -> NoDup l ->
  (forall x, In x l <-> 0 <= x < p /\ (p | x ^ 3 + b * x ^ 2 + c * x + d)) -> length l = 0%nat \/ length l = 1%nat \/ length l = 3%nat.
Proof.
  intros P W ND IN. pose proof (p0 p P) as G. destruct l as [|x1 [|x2 l]]; [auto|auto|right; right].
  set (L := x1 :: x2 :: l) in *.
  pose proof (proj1 (IN x1) ltac:(left; reflexivity)) as [B1 F1]. pose proof (proj1 (IN x2) ltac:(right; left; reflexivity)) as [B2 F2].
  assert (NE : x1 <> x2). { intros <-. inversion_clear ND as [|? ? N _]. apply N. left. reflexivity. }
  set (q := x1 ^ 2 + x1 * x2 + x2 ^ 2 + b * (x1 + x2) + c).
  assert (Q : (p | q)).
  { assert (D : (p | (x1 - x2) * q)) by (apply (dc2 p _ _ 1 (-1) _ F1 F2); unfold q; ring).
    apply prime_mult in D as [D|D]; [exfalso|exact D|exact P]. destruct D as [k D]. assert (k = 0); [nia|subst k; lia]. }
  set (y := - b - x1 - x2). set (x3 := y mod p).
  assert (FX : forall x, x ^ 3 + b * x ^ 2 + c * x + d = (x - x1) * (x - x2) * (x - y) + q * x + (x1 ^ 3 + b * x1 ^ 2 + c * x1 + d) - q * x1)
    by (intros x; unfold q, y; ring).
  pose proof (mod_c y p ltac:(lia)) as M3. fold x3 in M3. assert (B3 : 0 <= x3 < p) by (apply Z.mod_pos_bound; lia).
  assert (I3 : In x3 L).
  { apply IN. split; [exact B3|]. rewrite FX. apply (dc3 p _ _ _ ((x3 - x1) * (x3 - x2)) (x3 - x1) 1 _ M3 Q F1). ring. }
  assert (DBL : forall u v, (p | b + 2 * u + v) -> (p | c - u ^ 2 - 2 * u * v) -> (p | d + u ^ 2 * v) -> False).
  { intros u v HB HC HD. apply W.
    destruct (cub_w_mod p (- (2 * u + v)) (u ^ 2 + 2 * u * v) (- (u ^ 2 * v)) b c d) as [E _].
    - apply dv1. apply (dc1 p _ 1 _ HB). ring.
    - apply dv1. apply (dc1 p _ 1 _ HC). ring.
    - apply dv1. apply (dc1 p _ 1 _ HD). ring.
    - apply (dc1 p _ 1 _ E). unfold cub_w. ring. }
  assert (N1 : x3 <> x1).
  { intros E. rewrite E in M3. apply (DBL x1 x2).
    - apply (dc1 p _ 1 _ M3). unfold y. ring.
    - apply (dc2 p _ _ 1 (- (x1 + x2)) _ Q M3). unfold q, y. ring.
    - apply (dc3 p _ _ _ 1 (- x1) (x1 * x2) _ F1 Q M3). unfold q, y. ring. }
  assert (N2 : x3 <> x2).
  { intros E. rewrite E in M3. apply (DBL x2 x1).
    - apply (dc1 p _ 1 _ M3). unfold y. ring.
    - apply (dc2 p _ _ 1 (- (x1 + x2)) _ Q M3). unfold q, y. ring.
    - apply (dc3 p _ _ _ 1 (- x1) (x1 * x2) _ F1 Q M3). unfold q, y. ring. }
  assert (ND3 : NoDup [x1; x2; x3]).
  { constructor; [cbn; intuition congruence|]. constructor; [cbn; intuition congruence|]. constructor; [cbn; tauto|constructor]. }
  apply Nat.le_antisymm.
  - apply (NoDup_incl_length ND (l' := [x1; x2; x3])). intros x Hx. apply IN in Hx as [Bx Fx]. rewrite FX in Fx.
    assert (D : (p | (x - x1) * (x - x2) * (x - x3))).
    { apply (dc4 p _ _ _ _ 1 (- (x - x1)) (-1) (- ((x - x1) * (x - x2))) _ Fx Q F1 M3). ring. }
    assert (EQ : forall u, 0 <= u < p -> (p | x - u) -> x = u).
    { intros u Bu [k Hk]. assert (k = 0); [clear - Bx Bu Hk G; nia|subst k; lia]. }
    apply prime_mult in D as [D|D]; [apply prime_mult in D as [D|D]; [| |exact P]| |exact P];
      apply EQ in D; auto; subst x; cbn; auto.
  - apply (NoDup_incl_length ND3 (l' := L)). intros x [<-|[<-|[<-|[]]]]; [left; reflexivity|right; left; reflexivity|exact I3].
Qed.
(** the values of the Tamagawa number for I*m *)
Lemma cp_star p c d m : prime p -> type_at p c d (KIs m) -> 0 <= m /\ (c_p d = 2 \/ c_p d = 4 \/ m = 0 /\ c_p d = 1).
Proof.
  intros P (r & s & t & H & _). set (e := tr_rst r s t c) in *. clearbody e. cbn [tate_form] in H.
  destruct H as (H1 & H2 & H). destruct (Z.eqb_spec m 0) as [->|M].
  - destruct H as (H3 & [c0 E4] & [d0 E6] & N & l & ND & IN & ->). destruct H2 as [b E2]. split; [lia|].
    rewrite Z.mul_comm in E2, E4, E6. destruct (disc_w p P e b c0 d0 E2 E4 E6) as [DW _].
    assert (W : ~ (p | cub_w b c0 d0)). { intros F. apply N. apply DW in F as [_ F]. exact F. }
    destruct (cubic_roots_number p b c0 d0 l P W ND) as [-> |[-> | ->]]; [|lia|lia|lia].
    intros x. rewrite IN. unfold cubic_root. rewrite E2, E4, E6. replace (p ^ 4) with (p ^ 3 * p) by ring.
    replace ((p * x) ^ 3 + p * b * (p * x) ^ 2 + p ^ 2 * c0 * (p * x) + p ^ 3 * d0) with (p ^ 3 * (x ^ 3 + b * x ^ 2 + c0 * x + d0)) by ring.
    rewrite pscale; [reflexivity|]. apply pk0; auto. lia.
  - destruct H as (M1 & _ & H). split; [lia|]. destruct (Z.odd m); destruct H as (_ & _ & _ & _ & [[_ ->]|[_ ->]]); auto.
Qed.

(** the code tells I*m with m even from the other types *)
Lemma code_even p c d K : prime p -> type_at p c d K -> (Z.rem (kcode d) 20 =? 1) = match K with KIs m => Z.even m | _ => false end.
Proof.
  intros P T. pose proof T as (r & s & t & H & ->). destruct K as [n| | | |m| | |]; try reflexivity; cbn [pinch_code].
  - cbn [tate_form] in H. destruct H as (N & _). apply Z.eqb_neq. rewrite Z.rem_mod_nonneg by lia. intros F.
    pose proof (Z.div_mod (10 * n) 20 ltac:(lia)). lia.
  - destruct (cp_star p c d m P T) as [M _]. rewrite Z.rem_mod_nonneg by lia.
    pose proof (Z.div_mod (10 * m + 1) 20 ltac:(lia)) as D. pose proof (Z.mod_pos_bound (10 * m + 1) 20 ltac:(lia)).
    destruct (Z.even m) eqn:E.
    + apply Z.eqb_eq. apply Z.even_spec in E as [k ->]. replace (10 * (2 * k) + 1) with (1 + k * 20) by ring. rewrite Z.mod_add by lia. reflexivity.
    + apply Z.eqb_neq. intros F. rewrite <- Z.negb_odd in E. apply negb_false_iff in E. apply Z.odd_spec in E as [k ->]. lia.
Qed.

Lemma red_find_in l p d : NoDup (map fst l) -> In (p, d) l -> red_find l p = Some d.
Proof.
  induction l as [|[q e] l IH]; intros ND; [intros []|]. cbn [map fst] in ND. inversion_clear ND as [|? ? N ND']. intros [E|H].
  - injection E as <- <-. cbn [red_find]. rewrite Z.eqb_refl. reflexivity.
  - cbn [red_find]. destruct (Z.eqb_spec q p) as [->|_]; [|apply IH; assumption].
    exfalso. apply N. apply in_map_iff. exists (p, d). auto.
Qed.
Lemma red_find_none l p : ~ In p (map fst l) -> red_find l p = None.
Proof.
  induction l as [|[q e] l IH]; cbn [red_find map fst]; [reflexivity|]. intros N.
  destruct (Z.eqb_spec q p) as [->|_]; [exfalso; apply N; left; reflexivity|]. apply IH. intros F. apply N. right. exact F.
Qed.

Section Table.
Variables (E : curvedata) (l : list (Z * reduction)).
Hypothesis PR : forall p d, In (p, d) l -> prime p.
Hypothesis ND : NoDup (map fst l).

Lemma exp1 e : 1 <= e -> is_exponent [e] e.
Proof. intros H. split; [lia|]. intros n. split; [intros D; constructor; [exact D|constructor]|intros F; inversion_clear F; assumption]. Qed.

Theorem local_exponent_ok p d K : In (p, d) l -> type_at p (cv E) d K ->
  is_exponent (comp_group K (c_p d)) (local_Tamagawa_exponent E l p).
Proof.
  intros I T. pose proof (PR p d I) as P. pose proof (cp_pos p _ d K T) as CP. pose proof (p0 p P) as G.
  unfold local_Tamagawa_exponent. destruct (Z.eqb_spec p 0) as [F|_]; [lia|]. rewrite (red_find_in l p d ND I).
  rewrite (code_even p (cv E) d K P T).
  destruct (Z.eqb_spec (c_p d) 4) as [C4|C4]; cbn [negb].
  - destruct K as [n| | | |m| | |]; cbn [comp_group]; rewrite ?C4; try (apply exp1; lia).
    destruct (Z.even m); cbn [andb Z.eqb Pos.eqb]; [|apply exp1; lia].
    split; [lia|]. intros n. split; [intros D; repeat constructor; exact D|intros F; inversion_clear F; assumption].
  - destruct K as [n| | | |m| | |]; cbn [comp_group]; try (apply exp1; lia).
    rewrite (proj2 (Z.eqb_neq _ _) C4), andb_false_r. apply exp1; lia.
Qed.

(** what the loop computes *)
Definition gep (d : reduction) : Z := if Z.rem (kcode d) 20 =? 1 then 2 else c_p d.
Lemma gte_ok l' : (forall p d, In (p, d) l' -> 1 <= gep d) -> forall a, 0 < a ->
  exists g, gte_loop l' a = Ok g /\ 0 < g /\ forall n, (g | n) <-> (a | n) /\ forall p d, In (p, d) l' -> (gep d | n).
Proof.
  induction l' as [|[q e] l' IH]; intros PP a A; cbn [gte_loop].
  - exists a. split; [reflexivity|]. split; [exact A|]. intros n. split; [intros H; split; [exact H|intros p d []]|tauto].
  - fold (gep e). pose proof (PP q e ltac:(left; reflexivity)) as GE.
    assert (L : exists x, lcm_z a (gep e) = Ok x /\ 0 < x /\ Z.abs x = Z.lcm a (gep e)).
    { destruct (lcm_z_ok a (gep e)) as (x & Ex & Hx). exists x. split; [exact Ex|]. split; [|exact Hx].
      unfold lcm_z in Ex. destruct (Z.eqb_spec a 0) as [F|_]; [lia|]. cbn [andb] in Ex. unfold zz_div in Ex.
      pose proof (Z.gcd_nonneg a (gep e)) as GN.
      assert (GP : 0 < Z.gcd a (gep e)). { destruct (Z.eq_dec (Z.gcd a (gep e)) 0) as [F|]; [apply Z.gcd_eq_0_l in F; lia|lia]. }
      destruct (Z.eqb_spec (Z.gcd a (gep e)) 0) as [F|_]; [lia|]. rewrite bind_Ok in Ex. injection Ex as <-.
      apply Z.mul_pos_pos; [exact A|]. destruct (Z.gcd_divide_r a (gep e)) as [k Hk]. rewrite Hk at 1. rewrite Z.div_mul by lia.
      clear - Hk GP GE. nia. }
    destruct L as (x & -> & X0 & XL). rewrite bind_Ok.
    destruct (IH (fun p d H => PP p d (or_intror H)) x X0) as (g & -> & G0 & GG). exists g. split; [reflexivity|]. split; [exact G0|].
    intros n. rewrite GG. rewrite Z.abs_eq in XL by lia. rewrite XL.
    assert (LC : (Z.lcm a (gep e) | n) <-> (a | n) /\ (gep e | n)).
    { split; [intros D; split; eapply Z.divide_trans; [apply Z.divide_lcm_l|exact D|apply Z.divide_lcm_r|exact D]|].
      intros [D1 D2]. apply Z.lcm_least; assumption. }
    rewrite LC. split.
    + intros [[Ha He] H]. split; [exact Ha|]. intros p d [F|F]; [injection F as <- <-; exact He|exact (H p d F)].
    + intros [Ha H]. split; [split; [exact Ha|apply (H q e); left; reflexivity]|]. intros p d F. apply (H p d). right. exact F.
Qed.

Hypothesis TY : forall p d, In (p, d) l -> exists K, type_at p (cv E) d K.

Lemma gep_spec p d K : In (p, d) l -> type_at p (cv E) d K ->
  (K = KIs 0 /\ c_p d = 1 /\ gep d = 2) \/ (~ (K = KIs 0 /\ c_p d = 1) /\ is_exponent (comp_group K (c_p d)) (gep d)).
Proof.
  intros I T. pose proof (PR p d I) as P. pose proof (cp_pos p _ d K T) as CP. unfold gep. rewrite (code_even p (cv E) d K P T).
  destruct K as [n| | | |m| | |]; try (right; split; [intros [F _]; discriminate F|apply exp1; exact CP]).
  destruct (cp_star p (cv E) d m P T) as [M CS]. destruct (Z.even m) eqn:EV.
  - destruct CS as [C|[C|[-> C]]]; [right|right|left; auto]; (split; [intros [_ F]; lia|]); cbn [comp_group]; rewrite EV, C; cbn [andb Z.eqb Pos.eqb].
    + apply exp1. lia.
    + split; [lia|]. intros n. split; [intros D; repeat constructor; exact D|intros F; inversion_clear F; assumption].
  - right. split; [intros [F _]; injection F as ->; discriminate EV|]. cbn [comp_group]. rewrite EV. cbn [andb]. apply exp1. exact CP.
Qed.
Lemma gep_pos p d : In (p, d) l -> 1 <= gep d.
Proof.
  intros I. destruct (TY p d I) as [K T]. destruct (gep_spec p d K I T) as [(_ & _ & ->)|[_ [F _]]]; lia.
Qed.

Definition real_factor (real_too : bool) : Z := if real_too && (conncomp E =? 2) then 2 else 1.

(** the global exponent annihilates all component groups; it is the least such number
    unless there is a prime of type I0* with Tamagawa number 1 *)
Theorem global_exponent_ok real_too : exists g, global_Tamagawa_exponent E l real_too = Ok g /\ 0 < g /\
  (real_factor real_too | g) /\
  (forall p d, In (p, d) l -> (local_Tamagawa_exponent E l p | g)) /\
  ((forall p d, In (p, d) l -> ~ (type_at p (cv E) d (KIs 0) /\ c_p d = 1)) -> forall n,
     (real_factor real_too | n) -> (forall p d, In (p, d) l -> (local_Tamagawa_exponent E l p | n)) -> (g | n)) /\
  (forall n, (real_factor real_too | n) -> (forall p d, In (p, d) l -> (local_Tamagawa_exponent E l p | n)) -> (g | 2 * n)).
Proof.
  unfold global_Tamagawa_exponent. fold (real_factor real_too).
  assert (A0 : 0 < real_factor real_too) by (unfold real_factor; destruct (real_too && (conncomp E =? 2)); lia).
  destruct (gte_ok l gep_pos (real_factor real_too) A0) as (g & Eg & G0 & GG). exists g. split; [exact Eg|]. split; [exact G0|].
  pose proof (proj1 (GG g) (Z.divide_refl g)) as [GR GE]. split; [exact GR|].
  assert (LG : forall p d, In (p, d) l -> exists K, type_at p (cv E) d K /\
    ((K = KIs 0 /\ c_p d = 1 /\ gep d = 2 /\ local_Tamagawa_exponent E l p = 1) \/
     (~ (K = KIs 0 /\ c_p d = 1) /\ local_Tamagawa_exponent E l p = gep d))).
  { intros p d I. destruct (TY p d I) as [K T]. exists K. split; [exact T|].
    pose proof (local_exponent_ok p d K I T) as LE.
    assert (UN : forall gr e e', is_exponent gr e -> is_exponent gr e' -> e = e').
    { intros gr e e' [P1 H1] [P2 H2]. apply Z.divide_antisym_nonneg; try lia.
      - apply H1. apply H2. apply Z.divide_refl.
      - apply H2. apply H1. apply Z.divide_refl. }
    destruct (gep_spec p d K I T) as [(-> & C & GP)|[NN GP]].
    - left. repeat split; auto. rewrite C in LE. cbn [comp_group Z.even andb Z.eqb Pos.eqb] in LE. exact (UN _ _ _ LE (exp1 1 ltac:(lia))).
    - right. split; [exact NN|]. exact (UN _ _ _ LE GP). }
  split; [|split].
  - intros p d I. destruct (LG p d I) as (K & T & [(-> & C & GP & ->)|[NN ->]]); [apply Z.divide_1_l|exact (GE p d I)].
  - intros NO n HR HL. apply GG. split; [exact HR|]. intros p d I.
    destruct (LG p d I) as (K & T & [(-> & C & GP & _)|[NN <-]]); [exfalso; apply (NO p d I); auto|exact (HL p d I)].
  - intros n HR HL. apply GG. split; [apply Z.divide_mul_r; exact HR|]. intros p d I.
    destruct (LG p d I) as (K & T & [(-> & C & GP & _)|[NN <-]]); [rewrite GP; apply Z.divide_factor_l|apply Z.divide_mul_r; exact (HL p d I)].
Qed.

Theorem local_number_ok p : (~ In p (map fst l) -> p <> 0 -> local_Tamagawa_number E l p = 1 /\ local_Tamagawa_exponent E l p = 1) /\
  (forall d, In (p, d) l -> local_Tamagawa_number E l p = c_p d) /\
  (p = 0 -> local_Tamagawa_number E l p = conncomp E /\ local_Tamagawa_exponent E l p = conncomp E).
Proof.
  unfold local_Tamagawa_number, local_Tamagawa_exponent, getc_p. split; [|split].
  - intros N P0. rewrite (proj2 (Z.eqb_neq p 0) P0), (red_find_none l p N). auto.
  - intros d I. pose proof (PR p d I) as P. pose proof (p0 p P). destruct (Z.eqb_spec p 0) as [F|_]; [lia|].
    rewrite (red_find_in l p d ND I). reflexivity.
  - intros ->. rewrite Z.eqb_refl. auto.
Qed.
Lemma prodcp_ok : prodcp l = fold_right (fun p n => local_Tamagawa_number E l p * n) 1 (map fst l).
Proof.
  unfold prodcp.
  assert (FF : forall (l' : list (Z * reduction)) a, fold_left (fun n x => n * c_p (snd x)) l' a = a * fold_right (fun x n => c_p (snd x) * n) 1 l').
  { induction l' as [|x l' IH]; intros a; cbn [fold_left fold_right]; [ring|]. rewrite IH. ring. }
  rewrite FF, Z.mul_1_l.
  assert (HH : forall l' : list (Z * reduction), incl l' l -> fold_right (fun x n => c_p (snd x) * n) 1 l' = fold_right (fun p n => local_Tamagawa_number E l p * n) 1 (map fst l')).
  { induction l' as [|[p d] l' IH]; intros I; cbn [fold_right map fst snd]; [reflexivity|].
    rewrite IH by (intros z Hz; apply I; right; exact Hz).
    destruct (local_number_ok p) as (_ & L & _). rewrite (L d) by (apply I; left; reflexivity). reflexivity. }
  apply HH. apply incl_refl.
Qed.
End Table.
