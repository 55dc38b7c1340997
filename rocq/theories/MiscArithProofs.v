(** rusin_lem3, nrootscubic, pdivs_trial_div, bigint gauss_reduce and modrat, intlog2. *)
From Coq Require Import ZArith Lia List Bool Znumtheory Zpow_facts Sorted.
From Verif Require Import Base ArithModel ArithProofs GaussProofs RatModel MArithModel MArithProofs
  LegendreSpec JacobiMath KroneckerProofs LegendreProofs.
Import ListNotations.
Open Scope Z_scope.

(** ** rusin_lem3 *)
Definition rinv (a b : Z) (s : Z * Z * Z * Z * Z * Z) : Prop :=
  let '(m1, m2, m3, c1, c2, check) := s in
  a = c1 * c1 * m1 * m3 /\ b = c2 * c2 * m2 * m3 /\ 0 < m3 /\ 0 < c1 /\ 0 < c2 /\
  m1 <> 0 /\ m2 <> 0 /\ 0 <= check <= 3 /\
  (check <= 2 -> Z.gcd m2 m3 = 1) /\ (check <= 1 -> Z.gcd m1 m3 = 1) /\
  (check = 0 -> Z.gcd m1 m2 = 1).
Definition rprod (s : Z * Z * Z * Z * Z * Z) : Z :=
  let '(m1, m2, m3, _, _, _) := s in Z.abs (m1 * m2 * m3).
Definition rcheck (s : Z * Z * Z * Z * Z * Z) : Z := snd s.

Lemma gcd_split x y d : Z.gcd x y = d -> x <> 0 -> exists x' y', x = x' * d /\ y = y' * d /\ 0 < d /\
  x / d = x' /\ y / d = y'.
Proof.
  intros G Hx. assert (D0 : d <> 0) by (rewrite <- G, Z.gcd_eq_0; tauto).
  assert (0 <= d) by (rewrite <- G; apply Z.gcd_nonneg).
  destruct (Z.gcd_divide_l x y) as [x' Hx']. destruct (Z.gcd_divide_r x y) as [y' Hy'].
  rewrite G in *. exists x', y'. split; [auto|]. split; [auto|]. split; [lia|].
  split; [rewrite Hx'|rewrite Hy']; apply Z.div_mul; auto.
Qed.

Lemma abs_shrink u d : u <> 0 -> 1 < d -> Z.abs u <= Z.abs (u * d) - 1.
Proof. intros Hu Hd. rewrite Z.abs_mul. assert (1 <= Z.abs u) by lia. rewrite (Z.abs_eq d) by lia. nia. Qed.

Lemma rusin_step_ok a b s : rinv a b s ->
  (exists r, rusin_step s = Ok (inr r) /\
     let '(m1, m2, m3, c1, c2) := r in
     a = c1 * c1 * m1 * m3 /\ b = c2 * c2 * m2 * m3 /\ 0 < m3 /\ 0 < c1 /\ 0 < c2 /\
     Z.gcd m1 m2 = 1 /\ Z.gcd m1 m3 = 1 /\ Z.gcd m2 m3 = 1) \/
  (exists s', rusin_step s = Ok (inl s') /\ rinv a b s' /\
     4 * rprod s' + rcheck s' <= 4 * rprod s + rcheck s - 1).
Proof.
  destruct s as [[[[[m1 m2] m3] c1] c2] check].
  intros (Ea & Eb & H3 & Hc1 & Hc2 & H1 & H2 & Hk & G23 & G13 & G12).
  unfold rusin_step. destruct (Z.eqb_spec check 0) as [->|NC].
  { left. eexists. split; [reflexivity|]. cbn beta iota.
    do 5 (split; [auto|]). split; [apply G12; lia|]. split; [apply G13; lia|]. apply G23; lia. }
  right.
  (* first test *)
  assert (T1 : exists n1 n2 n3 k1,
    (if 1 <? Z.gcd m1 m2 then (m1 / Z.gcd m1 m2, m2 / Z.gcd m1 m2, m3 * Z.gcd m1 m2, 3)
     else (m1, m2, m3, check - 1)) = (n1, n2, n3, k1) /\
    a = c1 * c1 * n1 * n3 /\ b = c2 * c2 * n2 * n3 /\ 0 < n3 /\ n1 <> 0 /\ n2 <> 0 /\ 0 <= k1 <= 3 /\
    (k1 <= 2 -> Z.gcd n1 n2 = 1) /\ (k1 <= 1 -> Z.gcd n2 n3 = 1) /\ (k1 = 0 -> Z.gcd n1 n3 = 1) /\
    4 * Z.abs (n1 * n2 * n3) + k1 <= 4 * Z.abs (m1 * m2 * m3) + check - 1).
  { set (d := Z.gcd m1 m2). destruct (gcd_split m1 m2 d eq_refl H1) as (x & y & Ex & Ey & Hd & -> & ->).
    destruct (Z.ltb_spec 1 d).
    - exists x, y, (m3 * d), 3. split; [reflexivity|].
      assert (x <> 0) by (intros ->; lia). assert (y <> 0) by (intros ->; lia).
      split; [rewrite Ea, Ex; ring|]. split; [rewrite Eb, Ey; ring|]. split; [nia|].
      do 2 (split; [auto|]). split; [lia|]. do 3 (split; [lia|]).
      replace (m1 * m2 * m3) with (x * y * (m3 * d) * d) by (rewrite Ex, Ey; ring).
      pose proof (abs_shrink (x * y * (m3 * d)) d) as S.
      assert (x * y * (m3 * d) <> 0) by (rewrite !Z.mul_eq_0; lia). specialize (S H5 H). lia.
    - exists m1, m2, m3, (check - 1). split; [reflexivity|].
      assert (d = 1) by lia. do 5 (split; [auto|]). split; [lia|]. split; [intros _; exact H0|].
      split; [intros; apply G23; lia|]. split; [intros; apply G13; lia|]. lia. }
  destruct T1 as (n1 & n2 & n3 & k1 & -> & Ea1 & Eb1 & P3 & N1 & N2 & K1 & Q12 & Q23 & Q13 & M1).
  clear Ea Eb H3 H1 H2 G23 G13 G12.
  assert (T2 : exists p1 p2 p3 e1 k2,
    (if negb (k1 =? 0) then
       if 1 <? Z.gcd n1 n3 then (n1 / Z.gcd n1 n3, n2 * Z.gcd n1 n3, n3 / Z.gcd n1 n3, c1 * Z.gcd n1 n3, 3) else (n1, n2, n3, c1, k1 - 1)
     else (n1, n2, n3, c1, k1)) = (p1, p2, p3, e1, k2) /\
    a = e1 * e1 * p1 * p3 /\ b = c2 * c2 * p2 * p3 /\ 0 < p3 /\ p1 <> 0 /\ p2 <> 0 /\ 0 < e1 /\ 0 <= k2 <= 3 /\
    (k2 <= 2 -> Z.gcd p1 p3 = 1) /\ (k2 <= 1 -> Z.gcd p1 p2 = 1) /\ (k2 = 0 -> Z.gcd p2 p3 = 1) /\
    4 * Z.abs (p1 * p2 * p3) + k2 <= 4 * Z.abs (m1 * m2 * m3) + check - 1).
  { destruct (Z.eqb_spec k1 0) as [->|NK]; cbn [negb].
    - exists n1, n2, n3, c1, 0. split; [reflexivity|]. do 6 (split; [auto|]). split; [lia|].
      split; [intros; apply Q13; lia|]. split; [intros; apply Q12; lia|]. split; [intros; apply Q23; lia|]. lia.
    - set (d := Z.gcd n1 n3). destruct (gcd_split n1 n3 d eq_refl N1) as (x & y & Ex & Ey & Hd & Dx & Dy).
      fold d. rewrite Dx, Dy. destruct (Z.ltb_spec 1 d).
      + exists x, (n2 * d), y, (c1 * d), 3. split; [reflexivity|].
        assert (x <> 0) by (intros ->; lia). assert (0 < y) by (clear - Ey Hd P3; nia).
        split; [rewrite Ea1, Ex, Ey; ring|]. split; [rewrite Eb1, Ey; ring|]. split; [auto|].
        split; [auto|]. split; [apply Z.neq_mul_0; lia|]. split; [nia|]. split; [lia|].
        do 3 (split; [lia|]).
        replace (n1 * n2 * n3) with (x * (n2 * d) * y * d) in M1 by (rewrite Ex, Ey; ring).
        pose proof (abs_shrink (x * (n2 * d) * y) d) as S.
        assert (x * (n2 * d) * y <> 0) by (rewrite !Z.mul_eq_0; lia). specialize (S H2 H). lia.
      + exists n1, n2, n3, c1, (k1 - 1). split; [reflexivity|].
        assert (d = 1) by lia. do 6 (split; [auto|]). split; [lia|]. split; [intros _; exact H0|].
        split; [intros; apply Q12; lia|]. split; [intros; apply Q23; lia|]. lia. }
  destruct T2 as (p1 & p2 & p3 & e1 & k2 & -> & Ea2 & Eb2 & P3' & O1 & O2 & He1 & K2' & R13 & R12 & R23 & M2).
  clear Ea1 Eb1 P3 N1 N2 Q12 Q23 Q13 M1.
  assert (T3 : exists q1 q2 q3 f2 k3,
    (if negb (k2 =? 0) then
       if 1 <? Z.gcd p2 p3 then (p1 * Z.gcd p2 p3, p2 / Z.gcd p2 p3, p3 / Z.gcd p2 p3, c2 * Z.gcd p2 p3, 3) else (p1, p2, p3, c2, k2 - 1)
     else (p1, p2, p3, c2, k2)) = (q1, q2, q3, f2, k3) /\
    rinv a b (q1, q2, q3, e1, f2, k3) /\
    4 * Z.abs (q1 * q2 * q3) + k3 <= 4 * Z.abs (m1 * m2 * m3) + check - 1).
  { destruct (Z.eqb_spec k2 0) as [->|NK]; cbn [negb].
    - exists p1, p2, p3, c2, 0. split; [reflexivity|]. split; [|lia]. unfold rinv.
      do 7 (split; [auto|]). split; [lia|]. split; [intros; apply R23; lia|].
      split; [intros; apply R13; lia|]. intros; apply R12; lia.
    - set (d := Z.gcd p2 p3). destruct (gcd_split p2 p3 d eq_refl O2) as (x & y & Ex & Ey & Hd & Dx & Dy).
      fold d. rewrite Dx, Dy. destruct (Z.ltb_spec 1 d).
      + exists (p1 * d), x, y, (c2 * d), 3. split; [reflexivity|].
        assert (x <> 0) by (intros ->; lia). assert (0 < y) by (clear - Ey Hd P3'; nia). split.
        * unfold rinv. split; [rewrite Ea2, Ey; ring|]. split; [rewrite Eb2, Ex, Ey; ring|].
          split; [auto|]. split; [auto|]. split; [apply Z.mul_pos_pos; auto|]. split; [apply Z.neq_mul_0; lia|].
          split; [auto|]. lia.
        * replace (p1 * p2 * p3) with (p1 * d * x * y * d) in M2 by (rewrite Ex, Ey; ring).
          pose proof (abs_shrink (p1 * d * x * y) d) as S.
          assert (p1 * d * x * y <> 0) by (rewrite !Z.mul_eq_0; lia). specialize (S H2 H). lia.
      + exists p1, p2, p3, c2, (k2 - 1). split; [reflexivity|].
        assert (d = 1) by lia. split; [|lia]. unfold rinv. do 7 (split; [auto|]). split; [lia|].
        split; [intros _; exact H0|]. split; [intros; apply R13; lia|]. intros; apply R12; lia. }
  destruct T3 as (q1 & q2 & q3 & f2 & k3 & -> & I & M3).
  eexists. split; [reflexivity|]. split; [exact I|]. unfold rprod, rcheck. cbn [snd]. exact M3.
Qed.

Lemma rusin_lem3_ok a b : a <> 0 -> b <> 0 ->
  exists m1 m2 m3 c1 c2, rusin_lem3 a b = Ok (m1, m2, m3, c1, c2) /\
    a = c1 * c1 * m1 * m3 /\ b = c2 * c2 * m2 * m3 /\ 0 < m3 /\ 0 < c1 /\ 0 < c2 /\
    Z.gcd m1 m2 = 1 /\ Z.gcd m1 m3 = 1 /\ Z.gcd m2 m3 = 1.
Proof.
  intros Ha Hb. unfold rusin_lem3.
  destruct (Z.eqb_spec a 0); [contradiction|]. destruct (Z.eqb_spec b 0); [contradiction|]. cbn [orb].
  destruct (while_total rusin_step (rinv a b) (fun r => let '(m1, m2, m3, c1, c2) := r in
     a = c1 * c1 * m1 * m3 /\ b = c2 * c2 * m2 * m3 /\ 0 < m3 /\ 0 < c1 /\ 0 < c2 /\
     Z.gcd m1 m2 = 1 /\ Z.gcd m1 m3 = 1 /\ Z.gcd m2 m3 = 1)
     (fun s => 4 * rprod s + rcheck s)) with (n := (zfuel (a * b) + 2)%nat) (s := (a, b, 1, 1, 1, 3))
     as ([[[[m1 m2] m3] c1] c2] & E & H).
  - intros [[[[[x1 x2] x3] y1] y2] k] (_ & _ & _ & _ & _ & _ & _ & K & _). unfold rprod, rcheck. cbn [snd]. lia.
  - apply rusin_step_ok.
  - unfold rinv. repeat (split; [lia || auto|]). lia.
  - unfold rprod, rcheck. cbn [snd]. rewrite Z.mul_1_r. pose proof (zfuel_gt (a * b)) as F.
    rewrite Nat2Z.inj_add, Z.pow_add_r by lia. change (2 ^ Z.of_nat 2) with 4. lia.
  - exists m1, m2, m3, c1, c2. split; [exact E|exact H].
Qed.

(** ** nrootscubic *)
Definition cubic (b c d x : Z) : Z := x * x * x + b * x * x + c * x + d.

Definition small (p x : Z) : Prop := - p <= x <= p.

Lemma nroots_eval b c d p r : 0 < p <= 1048576 -> small p b -> small p c -> small p d -> 0 <= r < p ->
  (t1 <- add64 r b ;; t2 <- mul64 t1 r ;; t3 <- add64 t2 c ;;
   t4 <- mul64 t3 r ;; t5 <- add64 t4 d ;; rem64 t5 p)%res = Ok (Z.rem (cubic b c d r) p).
Proof.
  unfold small. intros Hp Hb Hc Hd Hr.
  assert (B1 : -1048576 <= r + b <= 2097152) by lia.
  assert (B2 : -1099511627776 <= (r + b) * r <= 2199023255552) by nia.
  assert (B3 : -1099512676352 <= (r + b) * r + c <= 2199024304128) by lia.
  assert (B4 : -1152922604118474752 <= ((r + b) * r + c) * r <= 2305844108725321728) by nia.
  rewrite add64_ok by rg. rewrite bind_Ok. rewrite mul64_ok by rg. rewrite bind_Ok.
  rewrite add64_ok by rg. rewrite bind_Ok. rewrite mul64_ok by rg. rewrite bind_Ok.
  rewrite add64_ok by rg. rewrite bind_Ok. rewrite rem64_ok by (try rg; lia).
  do 2 f_equal. unfold cubic. ring.
Qed.

Lemma rem_zero_div x p : p <> 0 -> (Z.rem x p =? 0) = true <-> (p | x).
Proof. intros. rewrite Z.eqb_eq. apply Z.rem_divide; auto. Qed.

(** r0 < r two roots: the third one *)
Lemma vieta b c d p r0 r x : prime p -> 0 <= r0 < r -> r < p ->
  (p | cubic b c d r0) -> (p | cubic b c d r) ->
  (p | cubic b c d x - (x - r0) * (x - r) * (x - (- b - r0 - r))).
Proof.
  intros Hp H0 Hr [u Hu] [v Hv].
  set (Q := r * r + r * r0 + r0 * r0 + b * (r + r0) + c).
  assert (DQ : (p | Q)).
  { assert (D : (p | (r - r0) * Q)).
    { exists (v - u). replace ((v - u) * p) with (v * p - u * p) by ring. rewrite <- Hu, <- Hv.
      unfold Q, cubic. ring. }
    apply prime_mult in D as [D|D]; auto. exfalso. apply Z.divide_pos_le in D; lia. }
  destruct DQ as [w Hw]. exists (w * (x - r0) + u).
  replace ((w * (x - r0) + u) * p) with (w * p * (x - r0) + u * p) by ring.
  rewrite <- Hw, <- Hu. unfold Q, cubic. ring.
Qed.

Definition cubic_roots_answer (b c d p : Z) (l : list Z) : Prop :=
  (forall x, In x l <-> 0 <= x < p /\ (p | cubic b c d x)) /\ Sorted Z.le l /\
  (length l <= 3)%nat /\
  (forall u v w, l = [u; v; w] -> forall x, (p | cubic b c d x - (x - u) * (x - v) * (x - w))).

Lemma posmod_long_ok' v p : - 4194304 <= v <= 4194304 -> 0 < p <= 1048576 -> posmod_long v p = Ok (v mod p).
Proof.
  intros Hv Hp. apply posmod_long_ok; rg || lia.
Qed.

Lemma nroots_loop_ok b c d p : prime p -> p <= 1048576 -> small p b -> small p c -> small p d ->
  forall k r roots, r + Z.of_nat k = p -> 0 <= r -> (length roots <= 1)%nat ->
  (forall x, In x roots <-> 0 <= x < r /\ (p | cubic b c d x)) ->
  exists l, nroots_loop k b c d p r roots = Ok l /\ cubic_roots_answer b c d p l.
Proof.
  intros Hp Bp Hb Hc Hd. pose proof (prime_ge_2 p Hp) as P2.
  induction k as [|k IH]; intros r roots Er Hr HL HI.
  - cbn [nroots_loop]. exists roots. split; [reflexivity|].
    assert (r = p) by lia. subst r. split; [auto|].
    destruct roots as [|x [|? ?]]; cbn [length] in HL; try lia;
      (split; [repeat constructor|]); (split; [cbn; lia|]); intros; discriminate.
  - cbn [nroots_loop].
    assert (EV := nroots_eval b c d p r ltac:(lia) Hb Hc Hd ltac:(lia)).
    unfold small in *.
    rewrite add64_ok by rg. rewrite bind_Ok.
    assert (B2 : -1099511627776 <= (r + b) * r <= 2199023255552) by nia.
    rewrite mul64_ok by rg. rewrite bind_Ok. rewrite add64_ok by rg. rewrite bind_Ok.
    assert (B4 : -1152922604118474752 <= ((r + b) * r + c) * r <= 2305844108725321728) by nia.
    rewrite mul64_ok by rg. rewrite bind_Ok. rewrite add64_ok by rg. rewrite bind_Ok.
    rewrite rem64_ok by (try rg; lia). rewrite bind_Ok. clear EV.
    replace (((r + b) * r + c) * r + d) with (cubic b c d r) by (unfold cubic; ring).
    destruct (Z.rem (cubic b c d r) p =? 0) eqn:Z0.
    + apply rem_zero_div in Z0; [|lia].
      assert (NXT : forall x, In x (roots ++ [r]) <-> 0 <= x < r + 1 /\ (p | cubic b c d x)).
      { intros x. rewrite in_app_iff, HI. split.
        - intros [[? ?]|[<-|[]]]; split; auto; lia.
        - intros [H1 H2]. destruct (Z.eq_dec x r) as [->|]; [right; left; auto|left]. split; auto; lia. }
      destruct roots as [|r0 [|? ?]]; cbn [length] in HL; try lia.
      * apply (IH (r + 1) ([] ++ [r])); [lia|lia|cbn; lia|exact NXT].
      * assert (R0 : 0 <= r0 < r /\ (p | cubic b c d r0)) by (apply HI; left; auto).
        destruct R0 as [R0 D0].
        rewrite neg64_ok by rg. rewrite bind_Ok. rewrite sub64_ok by rg. rewrite bind_Ok.
        rewrite sub64_ok by rg. rewrite bind_Ok.
        rewrite posmod_long_ok' by lia. rewrite bind_Ok.
        set (v := - b - r0 - r). set (r2 := v mod p).
        assert (B := Z.mod_pos_bound v p ltac:(lia)). fold r2 in B.
        assert (DV : (p | v - r2)) by (exists (v / p); unfold r2; pose proof (Z.div_mod v p); lia).
        assert (FAC : forall x, (p | cubic b c d x - (x - r0) * (x - r) * (x - r2))).
        { intros x. destruct (vieta b c d p r0 r x Hp R0 ltac:(lia) D0 Z0) as [s Hs]. fold v in Hs.
          destruct DV as [t Ht]. exists (s - (x - r0) * (x - r) * t).
          assert (v = r2 + t * p) by lia. rewrite H in Hs.
          replace ((s - (x - r0) * (x - r) * t) * p) with (s * p - (x - r0) * (x - r) * (t * p)) by ring.
          rewrite <- Hs. ring. }
        assert (ROOT : forall x, 0 <= x < p -> ((p | cubic b c d x) <-> x = r0 \/ x = r \/ x = r2)).
        { intros x Bx. specialize (FAC x). split.
          - intros D. assert (D' : (p | (x - r0) * (x - r) * (x - r2))).
            { destruct D as [s1 E1]. destruct FAC as [s2 E2]. exists (s1 - s2). lia. }
            assert (Sm : forall y, 0 <= y < p -> (p | x - y) -> x = y).
            { intros y By [m Em]. clear - Bx By Em. assert (m = 0) by nia. subst m. lia. }
            apply prime_mult in D' as [D'|D']; auto.
            apply prime_mult in D' as [D'|D']; auto.
            + left. apply Sm; auto; lia.
            + right. left. apply Sm; auto; lia.
          - intros E. assert (Z1 : (x - r0) * (x - r) * (x - r2) = 0).
            { destruct E as [-> |[-> | ->]]; ring. }
            rewrite Z1, Z.sub_0_r in FAC. exact FAC. }
        assert (ANS : forall l, (forall x, In x l <-> x = r0 \/ x = r \/ x = r2) -> Sorted Z.le l ->
           (forall u w z, l = [u; w; z] -> forall x, (x - u) * (x - w) * (x - z) = (x - r0) * (x - r) * (x - r2)) ->
           length l = 3%nat -> cubic_roots_answer b c d p l).
        { intros l L1 L2 L3 L4. split; [|split; [auto|split; [lia|]]].
          - intros x. rewrite L1. split.
            + intros E. assert (Bx : 0 <= x < p) by (destruct E as [-> |[-> | ->]]; lia).
              split; auto. apply ROOT; auto.
            + intros [Bx D]. apply ROOT; auto.
          - intros u w z E x. rewrite (L3 u w z E x). apply FAC. }
        destruct (Z.ltb_spec r2 r0); [|destruct (Z.ltb_spec r2 r)]; (eexists; split; [reflexivity|]);
          (apply ANS; [intros x; cbn [In]; clear; intuition lia
             |repeat (constructor; try lia)
             |intros u w z E x; injection E as <- <- <-; ring
             |reflexivity]).
    + apply (IH (r + 1)); auto; try lia. intros x. rewrite HI. split.
      * intros [? ?]. split; auto. lia.
      * intros [H1 H2]. split; auto. destruct (Z.eq_dec x r) as [->|]; [|lia].
        apply rem_zero_div in H2; [|lia]. congruence.
Qed.

Lemma nrootscubic_ok b c d p : prime p -> p <= 1048576 -> small p b -> small p c -> small p d ->
  exists l, nrootscubic b c d p = Ok l /\ cubic_roots_answer b c d p l.
Proof.
  intros Hp Bp Hb Hc Hd. pose proof (prime_ge_2 p Hp). unfold nrootscubic.
  apply nroots_loop_ok; auto; try lia.
  intros x. split; [intros []|lia].
Qed.

(** ** trial division *)
(** A run of consecutive primes, all the primes from lo on. *)
Fixpoint prime_run (lo : Z) (ps : list Z) : Prop :=
  match ps with
  | [] => True
  | p :: ps' => prime p /\ lo <= p /\ (forall q, prime q -> lo <= q -> p <= q) /\ prime_run (p + 1) ps'
  end.
Definition trial_bound (ps : list Z) (pmax : Z) (q : Z) : Prop := (forall p, In p ps -> p < q) \/ pmax < q.

Definition trial_answer (N : Z) (ps : list Z) (pmax : Z) (plist : list Z) (n : Z) : Prop :=
  NoDup plist /\ Forall prime plist /\ 1 <= n /\
  (forall q, prime q -> ((q | N) <-> In q plist \/ (q | n))) /\
  (forall q, In q plist -> ~ (q | n)) /\ (n | N) /\
  (forall q, prime q -> (q | n) -> trial_bound ps pmax q).

Lemma no_small_factor_prime n lo : 1 < n -> n < lo * lo -> 0 < lo ->
  (forall q, prime q -> (q | n) -> lo <= q) -> prime n.
Proof.
  intros Hn Hl Hlo H. destruct (prime_divisor_ex n Hn) as (p & Hp & [c Hc]).
  pose proof (prime_ge_2 p Hp) as P2.
  destruct (Z.eq_dec c 1) as [->|N1]; [rewrite Hc, Z.mul_1_l; auto|]. exfalso.
  assert (1 < c) by nia. destruct (prime_divisor_ex c H0) as (q & Hq & [e He]).
  pose proof (prime_ge_2 q Hq).
  assert (lo <= p) by (apply H; auto; exists c; auto).
  assert (lo <= q) by (apply H; auto; exists (e * p); rewrite Hc, He; ring).
  assert (1 <= e) by nia. assert (q <= c) by nia. nia.
Qed.

Lemma trial_loop_ok N pmax all : forall ps lo n plist,
  prime_run lo ps -> 2 <= lo -> 1 <= n -> NoDup plist -> Forall prime plist ->
  (forall q, prime q -> ((q | N) <-> In q plist \/ (q | n))) ->
  (forall q, In q plist -> ~ (q | n)) -> (n | N) -> (1 < n -> forall q, In q plist -> q < lo) ->
  (forall q, prime q -> (q | n) -> lo <= q) ->
  (forall q, In q all -> q < lo \/ In q ps) ->
  exists plist' n', trial_loop ps n pmax plist = Ok (plist', n') /\ trial_answer N all pmax plist' n'.
Proof.
  induction ps as [|p ps IH]; intros lo n plist RUN Hlo Hn ND PR HQ HC HD HM HF HALL; cbn [trial_loop].
  - exists plist, n. split; [reflexivity|]. repeat (split; [auto|]).
    intros q Hq D. left. intros x I. destruct (HALL x I) as [L|[]]. specialize (HF q Hq D). lia.
  - destruct RUN as (Hp & Hlp & Hmin & RUN). pose proof (prime_ge_2 p Hp) as P2.
    assert (HFp : forall q, prime q -> (q | n) -> p <= q) by (intros q Hq D; apply Hmin; auto).
    destruct (Z.ltb_spec 1 n) as [Gn|Gn]; destruct (Z.leb_spec p pmax) as [Lp|Lp]; cbn [andb].
    2:{ exists plist, n. split; [reflexivity|]. repeat (split; [auto|]).
        intros q Hq D. right. specialize (HFp q Hq D). lia. }
    2,3: exists plist, n; (split; [reflexivity|]); repeat (split; [auto|]);
         intros q Hq D; exfalso; assert (n = 1) by lia; subst n;
         apply Z.divide_1_r in D; pose proof (prime_ge_2 q Hq); lia.
    rewrite zz_div_ok, zz_mod_ok by lia. rewrite !bind_Ok.
    assert (ST : exists pl1 n1,
      (if n mod p =? 0 then '(n', _) <- divide_out (n / p) p;; Ok (plist ++ [p], n') else Ok (plist, n))%res
        = Ok (pl1, n1) /\ 1 <= n1 /\ NoDup pl1 /\ Forall prime pl1 /\
        (forall q, prime q -> ((q | N) <-> In q pl1 \/ (q | n1))) /\
        (forall q, In q pl1 -> ~ (q | n1)) /\ (n1 | N) /\ (forall q, In q pl1 -> q < p + 1) /\
        (forall q, prime q -> (q | n1) -> p + 1 <= q)).
    { destruct (Z.eqb_spec (n mod p) 0) as [M|M].
      - assert (En : n = p * (n / p)) by (apply Z_div_exact_full_2; lia).
        set (m := n / p) in *. assert (Hm : 0 < m) by nia.
        destruct (divide_out_ok m p) as (n' & e & -> & He & Em & Nd); [lia|lia|]. rewrite bind_Ok.
        assert (PE : 0 < p ^ e) by (apply Z.pow_pos_nonneg; lia).
        assert (Hn' : 1 <= n') by nia.
        assert (Enn : n = n' * p ^ (e + 1)).
        { rewrite Z.pow_add_r, Z.pow_1_r by lia. rewrite En, Em. ring. }
        exists (plist ++ [p]), n'. split; [reflexivity|]. split; [auto|].
        assert (NP : ~ In p plist) by (intros I; specialize (HM Gn p I); lia).
        split; [|split; [|split; [|split; [|split; [|split]]]]].
        + apply NoDup_Add with (a := p) (l := plist); [|split; auto].
          rewrite <- (app_nil_r plist) at 1. apply Add_app.
        + apply Forall_app. split; auto.
        + intros q Hq. rewrite HQ, in_app_iff by auto. rewrite Enn. split.
          * intros [I|D]; auto. apply prime_mult in D as [D|D]; auto.
            left. right. left. symmetry. apply (prime_power_prime q p (e + 1)); auto; lia.
          * intros [[I|[<-|[]]]|D]; auto; right.
            -- apply Z.divide_mul_r. exists (p ^ e). rewrite Z.pow_add_r, Z.pow_1_r by lia. reflexivity.
            -- apply Z.divide_mul_l, D.
        + intros q I. apply in_app_or in I as [I|[<-|[]]]; auto.
          intros D. apply (HC q I). rewrite Enn. apply Z.divide_mul_l, D.
        + apply Z.divide_trans with n; auto. rewrite Enn. apply Z.divide_factor_l.
        + intros q I. apply in_app_or in I as [I|[<-|[]]]; [|lia]. specialize (HM Gn q I). clear - HM Hlp; lia.
        + intros q Hq D. assert (p <= q) by (apply HFp; auto; rewrite Enn; apply Z.divide_mul_l, D).
          destruct (Z.eq_dec q p) as [->|]; [contradiction|lia].
      - exists plist, n. split; [reflexivity|]. do 6 (split; [auto|]). split.
        + intros q I. specialize (HM Gn q I). lia.
        + intros q Hq D. specialize (HFp q Hq D). destruct (Z.eq_dec q p) as [->|]; [|lia].
          exfalso. apply M. apply Z.mod_divide; auto. lia. }
    destruct ST as (pl1 & n1 & -> & H1 & ND1 & PR1 & HQ1 & HC1 & HD1 & HM1 & HF1). rewrite bind_Ok.
    assert (HALL' : forall q, In q all -> q < p + 1 \/ In q ps).
    { intros q I. destruct (HALL q I) as [L|[->|I']]; auto; left; lia. }
    destruct (Z.ltb_spec 1 n1) as [G1|G1]; destruct (Z.ltb_spec n1 (p * p)) as [G2|G2]; cbn [andb].
    2,3,4: apply (IH (p + 1)); auto; lia.
    assert (Pn : prime n1) by (apply (no_small_factor_prime n1 (p + 1)); auto; nia).
    apply (IH (p + 1)); auto; try lia.
    + apply NoDup_Add with (a := n1) (l := pl1); [|split; auto].
      * rewrite <- (app_nil_r pl1) at 1. apply Add_app.
      * intros I. apply (HC1 n1 I). apply Z.divide_refl.
    + apply Forall_app. split; auto.
    + intros q Hq. rewrite HQ1, in_app_iff by auto. split.
      * intros [I|D]; auto. left. right. left. symmetry. apply prime_div_prime; auto.
      * intros [[I|[<-|[]]]|D]; auto; [right; apply Z.divide_refl|].
        exfalso. apply Z.divide_1_r in D. pose proof (prime_ge_2 q Hq). lia.
    + intros q I D. apply Z.divide_1_r in D.
      assert (prime q). { apply in_app_or in I as [I|[<-|[]]]; auto. apply (proj1 (Forall_forall _ _) PR1 q I). }
      pose proof (prime_ge_2 q H). lia.
    + apply Z.divide_1_l.
    + intros q Hq D. apply Z.divide_1_r in D. pose proof (prime_ge_2 q Hq). lia.
Qed.

Lemma pdivs_trial_div_ok ps n pmax : prime_run 2 ps -> 1 <= n ->
  exists plist n', pdivs_trial_div ps n pmax = Ok (plist, n') /\ trial_answer n ps pmax plist n'.
Proof.
  intros RUN Hn. unfold pdivs_trial_div. destruct (Z.ltb_spec n 2).
  - assert (n = 1) by lia. subst n. exists [], 1. split; [reflexivity|].
    split; [constructor|]. split; [constructor|]. split; [lia|]. split; [intros; cbn; tauto|].
    split; [intros q []|]. split; [apply Z.divide_refl|].
    intros q Hq D. apply Z.divide_1_r in D. pose proof (prime_ge_2 q Hq). lia.
  - apply (trial_loop_ok n pmax ps ps 2 n []); auto; try lia.
    + constructor.
    + intros q Hq. cbn [In]. tauto.
    + apply Z.divide_refl.
    + intros _ q [].
    + intros q Hq _. apply prime_ge_2, Hq.
Qed.

(** ** bigint gauss_reduce, modrat *)
Definition gzinv (a0 b0 c0 d0 : Z) (s : Z * Z * Z * Z * Z * Z * Z) : Prop :=
  let '(a, b, c, d, P, Q, R) := s in
  same_lat a0 b0 c0 d0 a b c d /\ a * d - b * c <> 0 /\ P = a * a + b * b /\ R = c * c + d * d /\ 0 < P.

Lemma sq_sum_pos x y : x <> 0 \/ y <> 0 -> 0 < x * x + y * y.
Proof. intros H. assert (0 <= x * x) by nia. assert (0 <= y * y) by nia. destruct H; nia. Qed.

Lemma same_lattice_step a0 b0 c0 d0 a b c d t : same_lat a0 b0 c0 d0 a b c d ->
  same_lat a0 b0 c0 d0 a b (c - t * a) (d - t * b).
Proof. intros H. eapply same_lat_trans; [exact H|]. apply same_lat_shift. Qed.
Lemma same_lattice_swap a0 b0 c0 d0 a b c d : same_lat a0 b0 c0 d0 a b c d ->
  same_lat a0 b0 c0 d0 c d (- a) (- b).
Proof. intros H. eapply same_lat_trans; [exact H|]. apply same_lat_swap. Qed.

Definition gzm (s : Z * Z * Z * Z * Z * Z * Z) : Z :=
  let '(a, b, c, d, P, Q, R) := s in 2 * P + (if (- P <=? 2 * Q) && (2 * Q <? P) then 0 else 1).

Lemma rdz_unique q p t : 0 < p -> - p <= 2 * (q - t * p) < p -> rounded_division_z q p = Ok t.
Proof.
  intros Hp H. destruct (rounded_division_z_ok q p Hp) as (t' & -> & H'). f_equal. nia.
Qed.

Lemma grz_step_ok a0 b0 c0 d0 s : gzinv a0 b0 c0 d0 s ->
  (exists r, grz_step s = Ok (inr r) /\ let '(a, b, c, d) := r in
     same_lat a0 b0 c0 d0 a b c d /\ a * d - b * c <> 0 /\ a * a + b * b <= c * c + d * d) \/
  (exists s', grz_step s = Ok (inl s') /\ gzinv a0 b0 c0 d0 s' /\ gzm s' <= gzm s - 1).
Proof.
  destruct s as [[[[[[a b] c] d] P] Q] R]. intros (L & DT & EP & ER & HP). unfold grz_step.
  destruct (rounded_division_z_ok Q P HP) as (t & -> & Ht). rewrite bind_Ok.
  destruct (Z.eqb_spec t 0) as [->|T0].
  - destruct (Z.ltb_spec R P).
    + right. eexists. split; [reflexivity|]. split.
      * split; [now apply same_lattice_swap|].
        split; [replace (c * - b - d * - a) with (a * d - b * c) by ring; auto|].
        split; [auto|]. split; [subst P; ring|].
        subst R. apply sq_sum_pos. destruct (Z.eq_dec c 0) as [E|], (Z.eq_dec d 0) as [E'|]; auto.
        exfalso. apply DT. rewrite E, E'. ring.
      * unfold gzm. destruct ((- R <=? 2 * Q) && (2 * Q <? R)), ((- P <=? 2 * Q) && (2 * Q <? P)); lia.
    + left. eexists. split; [reflexivity|]. cbn beta iota. split; [auto|]. split; [auto|]. lia.
  - set (c' := c - t * a). set (d' := d - t * b).
    assert (L' := same_lattice_step _ _ _ _ _ _ _ _ t L). fold c' d' in L'.
    assert (DT' : a * d' - b * c' <> 0).
    { unfold c', d'. replace (a * (d - t * b) - b * (c - t * a)) with (a * d - b * c) by ring. auto. }
    destruct (Z.ltb_spec (c' * c' + d' * d') P).
    + right. eexists. split; [reflexivity|]. split.
      * split; [now apply same_lattice_swap|].
        split; [replace (c' * - b - d' * - a) with (a * d' - b * c') by ring; auto|].
        split; [reflexivity|]. split; [subst P; ring|].
        apply sq_sum_pos. destruct (Z.eq_dec c' 0) as [E|], (Z.eq_dec d' 0) as [E'|]; auto.
        exfalso. apply DT'. rewrite E, E'. ring.
      * unfold gzm. destruct (_ && _), (_ && _); lia.
    + right. eexists. split; [reflexivity|]. split.
      * split; [auto|]. split; [auto|]. split; [auto|]. split; [reflexivity|]. auto.
      * unfold gzm. destruct (Z.leb_spec (- P) (2 * (Q - t * P))); [|lia].
        destruct (Z.ltb_spec (2 * (Q - t * P)) P); [|lia]. cbn [andb].
        destruct (Z.leb_spec (- P) (2 * Q)), (Z.ltb_spec (2 * Q) P); cbn [andb]; try lia.
        exfalso. apply T0. nia.
Qed.

Lemma gauss_reduce_z_ok a b c d f : a * d - b * c <> 0 -> (zfuel (a * a + b * b) <= f)%nat ->
  exists a' b' c' d', gauss_reduce_z f a b c d = Ok (a', b', c', d') /\
    same_lat a b c d a' b' c' d' /\ a' * d' - b' * c' <> 0 /\
    a' * a' + b' * b' <= c' * c' + d' * d'.
Proof.
  intros DT HF. unfold gauss_reduce_z.
  assert (HP : 0 < a * a + b * b).
  { apply sq_sum_pos. destruct (Z.eq_dec a 0) as [->|], (Z.eq_dec b 0) as [->|]; auto. }
  destruct (while_total grz_step (gzinv a b c d) (fun r => let '(a', b', c', d') := r in
     same_lat a b c d a' b' c' d' /\ a' * d' - b' * c' <> 0 /\ a' * a' + b' * b' <= c' * c' + d' * d') gzm)
    with (n := f) (s := (a, b, c, d, a * a + b * b, a * c + b * d, c * c + d * d))
    as ([[[a' b'] c'] d'] & E & H).
  - intros [[[[[[x1 x2] x3] x4] P] Q] R] (_ & _ & _ & _ & K). unfold gzm. destruct (_ && _); lia.
  - apply grz_step_ok.
  - split; [intros x y; reflexivity|]. auto.
  - unfold gzm. pose proof (zfuel_gt (a * a + b * b)) as F.
    assert (2 ^ Z.of_nat (zfuel (a * a + b * b)) <= 2 ^ Z.of_nat f) by (apply Z.pow_le_mono_r; lia).
    destruct (_ && _); lia.
  - exists a', b', c', d'. split; [exact E|]. exact H.
Qed.

(** Soundness of the bigint modrat: a reported fraction is right. *)
Lemma modrat_z_ok n m f : 1 < m -> (zfuel (m * m) <= f)%nat ->
  exists ok a b, modrat_z f n m = Ok (ok, a, b) /\ (a <> 0 \/ b <> 0) /\ (m | a - n * b) /\
    (ok = true <-> 2 * (a * a) <= m /\ 2 * (b * b) <= m).
Proof.
  intros Hm HF. unfold modrat_z.
  destruct (mod_z_ok n m) as (n1 & -> & [k Hk] & B); [lia|]. rewrite bind_Ok.
  rewrite Z.abs_eq in B by lia.
  assert (FU : (zfuel (n1 * n1 + 1 * 1) <= f)%nat).
  { etransitivity; [|exact HF]. unfold zfuel.
    assert (Z.log2 (Z.abs (n1 * n1 + 1 * 1)) <= Z.log2 (Z.abs (m * m))).
    { apply Z.log2_le_mono. clear - B Hm. rewrite !Z.abs_eq; nia. }
    pose proof (Z.log2_nonneg (Z.abs (n1 * n1 + 1 * 1))). lia. }
  destruct (gauss_reduce_z_ok n1 1 m 0 f) as (a & b & c & d & -> & L & DT & _); [lia|exact FU|].
  rewrite bind_Ok. eexists _, a, b. split; [reflexivity|]. split; [|split].
  - destruct (Z.eq_dec a 0) as [E1|], (Z.eq_dec b 0) as [E2|]; auto. exfalso. apply DT. rewrite E1, E2. reflexivity.
  - assert (IL : in_lat a b c d a b) by (exists 1, 0; split; ring).
    apply L in IL as (u & v & Ea & Eb). exists (v - u * k). subst a b.
    replace (u * n1 + v * m - n * (u * 1 + v * 0)) with (v * m - u * (n - n1)) by ring. rewrite Hk. ring.
  - rewrite andb_true_iff, !Z.leb_le.
    assert (SH : Z.shiftr m 1 = m / 2) by (rewrite Z.shiftr_div_pow2 by lia; reflexivity).
    assert (H0 : 0 <= m / 2) by (apply Z.div_pos; lia).
    rewrite SH. pose proof (Z.sqrt_spec (m / 2) H0) as [S1 S2]. set (l := Z.sqrt (m / 2)) in *.
    assert (L0 : 0 <= l) by apply Z.sqrt_nonneg.
    assert (D2 : 2 * (m / 2) <= m < 2 * (m / 2) + 2) by (pose proof (Z.div_mod m 2); pose proof (Z.mod_pos_bound m 2); lia).
    set (h := m / 2) in *.
    assert (EQ : forall x, Z.abs x <= l <-> 2 * (x * x) <= m).
    { intros x. rewrite <- Z.abs_square. assert (0 <= Z.abs x) by lia. set (y := Z.abs x) in *.
      clear - H S1 S2 L0 D2. split; intros K.
      - assert (y * y <= l * l) by (apply Z.square_le_mono_nonneg; lia). lia.
      - assert (y * y <= h) by lia. destruct (Z.le_gt_cases y l); auto.
        assert ((l + 1) * (l + 1) <= y * y) by (apply Z.square_le_mono_nonneg; lia). lia. }
    rewrite !EQ. tauto.
Qed.

(** ** intlog2 *)
Lemma log2_loop n : 0 < n <= max64 -> while log2_step W (n, 0) = Ok (Z.log2 n + 1).
Proof.
  intros Hn.
  destruct (while_total log2_step
    (fun s => let '(m, e) := s in 0 <= m /\ ((0 < m /\ Z.log2 n = Z.log2 m + e) \/ (m = 0 /\ e = Z.log2 n + 1)))
    (fun e => e = Z.log2 n + 1) (fun s => fst s)) with (n := W) (s := (n, 0)) as (e & -> & ->); auto.
  - intros [m e] (? & _). exact H.
  - intros [m e] (H0 & H). unfold log2_step. destruct (Z.eqb_spec m 0) as [->|M0].
    + left. exists e. split; [reflexivity|]. lia.
    + right. eexists. split; [reflexivity|]. destruct H as [[Hm E]|[? _]]; [|lia].
      rewrite Z.shiftr_div_pow2 by lia. change (2 ^ 1) with 2.
      pose proof (Z.div_mod m 2). pose proof (Z.mod_pos_bound m 2). cbn [fst].
      split; [|lia]. split; [lia|]. destruct (Z.eq_dec m 1) as [->|N1].
      * right. split; [reflexivity|]. change (Z.log2 1) with 0 in E. lia.
      * left. split; [lia|].
        assert (Z.log2 m = Z.log2 (m / 2) + 1).
        { change 2 with (2 ^ 1). rewrite <- Z.shiftr_div_pow2 by lia. rewrite Z.log2_shiftr by lia.
          assert (1 <= Z.log2 m) by (apply (Z.log2_le_mono 2 m); lia). lia. }
        lia.
  - split; [lia|]. left. lia.
  - cbn [fst]. change (2 ^ Z.of_nat W) with 1180591620717411303424. unfold max64 in Hn. lia.
Qed.

Lemma intlog2_ok n rnd : 0 < n < 2 ^ 31 ->
  exists r n' e', intlog2 n rnd = Ok (r, n', e') /\
    (r = 1 <-> exists k, 0 <= k /\ n = 2 ^ k) /\ (r = 1 -> n = 2 ^ e' /\ n' = n) /\ (r = 0 \/ r = 1) /\
    (rnd = true -> n' = 2 ^ e' /\ n <= n' < 2 * n).
Proof.
  intros Hn. unfold intlog2. destruct (Z.ltb_spec n 1); [lia|].
  rewrite log2_loop by (unfold max64; lia). rewrite bind_Ok.
  replace (Z.log2 n + 1 - 1) with (Z.log2 n) by lia.
  pose proof (Z.log2_spec n ltac:(lia)) as [L1 L2]. rewrite Z.pow_succ_r in L2 by apply Z.log2_nonneg.
  assert (LB : 0 <= Z.log2 n < 31) by (split; [apply Z.log2_nonneg|apply Z.log2_lt_pow2; lia]).
  destruct (Z.leb_spec 31 (Z.log2 n)); [lia|].
  assert (PB : 0 < 2 ^ Z.log2 n < 2 ^ 31) by (split; [apply Z.pow_pos_nonneg; lia|apply Z.pow_lt_mono_r; lia]).
  change (2 ^ 31) with 2147483648 in *.
  unfold c32. destruct (in32b (2 ^ Z.log2 n)) eqn:B32.
  2:{ exfalso. apply Bool.not_true_iff_false in B32. apply B32. unfold in32b, min32, max32.
      rewrite andb_true_iff, !Z.leb_le. lia. }
  rewrite bind_Ok.
  assert (PW : (exists k, 0 <= k /\ n = 2 ^ k) -> 2 ^ Z.log2 n = n).
  { intros (k & Hk & ->). rewrite Z.log2_pow2; auto. }
  destruct (Z.eqb_spec (2 ^ Z.log2 n) n) as [E|E].
  - exists 1, n, (Z.log2 n). split; [reflexivity|]. split; [|split; [|split]].
    + split; auto. intros _. exists (Z.log2 n). split; [lia|auto].
    + auto.
    + auto.
    + intros _. split; [auto|lia].
  - destruct rnd.
    + rewrite c64_ok by (unfold in64, min64, max64; lia). rewrite bind_Ok.
      eexists 0, _, _. split; [reflexivity|]. split; [|split; [|split]].
      * split; [discriminate|]. intros K. exfalso. auto.
      * discriminate.
      * auto.
      * intros _. rewrite Z.pow_add_r, Z.pow_1_r by lia. split; lia.
    + exists 0, n, (Z.log2 n). split; [reflexivity|]. split; [|split; [|split]].
      * split; [discriminate|]. intros K. exfalso. auto.
      * discriminate.
      * auto.
      * discriminate.
Qed.

Lemma intlog2_big n rnd : 2 ^ 31 <= n <= max64 -> intlog2 n rnd = UB.
Proof.
  intros Hn. unfold intlog2. destruct (Z.ltb_spec n 1); [lia|].
  rewrite log2_loop by lia. rewrite bind_Ok. replace (Z.log2 n + 1 - 1) with (Z.log2 n) by lia.
  assert (31 <= Z.log2 n) by (apply (Z.log2_le_mono (2 ^ 31)); lia).
  destruct (Z.leb_spec 31 (Z.log2 n)); [reflexivity|lia].
Qed.

(** ** kronecker(bigint,long) *)
Lemma mod_zl_ok a b : b <> 0 -> -2 ^ 62 <= b <= 2 ^ 62 ->
  exists c, mod_zl a b = Ok c /\ (b | a - c) /\ - Z.abs b < 2 * c <= Z.abs b.
Proof.
  intros Hb Bb. change (2 ^ 62) with 4611686018427387904 in Bb. unfold mod_zl.
  rewrite abs64_ok by (unfold in64, min64, max64; lia). rewrite bind_Ok.
  destruct (mod_z_ok a b Hb) as (c & E & H). unfold mod_z in E.
  rewrite zz_mod_ok in * by lia. rewrite bind_Ok in *.
  pose proof (Z.mod_pos_bound a (Z.abs b) ltac:(lia)).
  rewrite mul64_ok by (unfold in64, min64, max64; lia). rewrite bind_Ok.
  exists c. split; [exact E|exact H].
Qed.

Lemma symbol_product_cong a a' : forall ps s, (forall p, In p ps -> p <> 2 /\ (p | a - a')) ->
  symbol_product a ps s -> symbol_product a' ps s.
Proof.
  intros ps s H SP. induction SP as [|p ps s t [P2 PL] SP IH]; [constructor|].
  destruct (H p (or_introl eq_refl)) as [N [k Hk]]. constructor.
  - split; [congruence|]. intros _. destruct (PL N) as (L0 & L1 & L2).
    assert (E1 : (p | a) <-> (p | a')).
    { split; intros [c Hc]; [exists (c - k)|exists (c + k)]; lia. }
    assert (E2 : (exists x, (p | x * x - a)) <-> (exists x, (p | x * x - a'))).
    { split; intros (x & c & Hc); exists x; [exists (c + k)|exists (c - k)]; lia. }
    repeat split; rewrite <- E1; try rewrite <- E2; auto.
  - apply IH. intros q I. apply H. right; auto.
Qed.

Lemma kronecker_zl_odd d n : 0 < n <= 2 ^ 62 -> Z.odd n = true ->
  exists v, kronecker_zl d n = Ok v /\ kronecker_symbol d n v.
Proof.
  intros Hn O. unfold kronecker_zl. destruct (mod_zl_ok d n) as (m & -> & D & B); [lia|lia|].
  rewrite bind_Ok. change (2 ^ 62) with 4611686018427387904 in Hn.
  destruct (kronecker_long_ok m n) as (v & -> & _ & K); try (unfold sym64, max64; lia).
  exists v. split; [reflexivity|]. split; [lia|]. intros N0 ps F. destruct (K N0 ps F) as (t & SP & ->).
  exists t. split.
  - apply (symbol_product_cong m d ps t); auto. intros p I.
    destruct F as [FP FE]. pose proof (proj1 (Forall_forall _ _) FP p I) as Hp.
    assert (DP : (p | n)).
    { rewrite Z.abs_eq in FE by lia. rewrite <- FE. clear - I. induction ps as [|q ps IH]; [destruct I|].
      cbn [prodl fold_right]. destruct I as [->|I]; [apply Z.divide_factor_l|].
      apply Z.divide_mul_r. apply IH; auto. }
    split.
    + intros ->. destruct DP as [c ->]. rewrite Z.odd_mul, andb_comm in O. discriminate.
    + destruct D as [c Hc]. destruct DP as [e He]. exists (- (c * e)). rewrite He in Hc. lia.
  - destruct (Z.ltb_spec n 0); [lia|]. reflexivity.
Qed.
