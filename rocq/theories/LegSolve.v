(** legendre_solve (with the descent, not LLL): a solution of the given equation, or none exists. *)
From Coq Require Import ZArith Lia List Bool Znumtheory.
From Verif Require Import Base RatModel MArithModel MArithProofs SqrtModProofs JacobiMath DivisorProofs
  LegModel LegArith LegLem1 LegBody LegDescent LegReduce.
Import ListNotations.
Open Scope Z_scope.
Open Scope res_scope.

Definition soluble (a b c : Z) : Prop := exists s, leg_sol a b c s.
(** (a1,b1,c1) has the signs of (a,b,c), divides in total, and its solutions scaled by
    (xf,yf,zf) are solutions of (a,b,c) *)
Definition rel (a b c a1 b1 c1 xf yf zf : Z) : Prop :=
  (a1 <> 0 /\ b1 <> 0 /\ c1 <> 0) /\ (Z.sgn a1 = Z.sgn a /\ Z.sgn b1 = Z.sgn b /\ Z.sgn c1 = Z.sgn c) /\
  (0 < xf /\ 0 < yf /\ 0 < zf) /\ (a1 * b1 * c1 | a * b * c) /\
  (forall x y z, leg_sol a1 b1 c1 (x, y, z) -> leg_sol a b c (xf * x, yf * y, zf * z)) /\
  (soluble a b c -> soluble a1 b1 c1).

Lemma sgn_mul_pos g n : 0 < g -> Z.sgn (g * n) = Z.sgn n.
Proof. intros G. rewrite Z.sgn_mul, (Z.sgn_pos g G). apply Z.mul_1_l. Qed.
Lemma sgn_pos_mul g n : 0 < g -> Z.sgn (n * g) = Z.sgn n.
Proof. intros G. rewrite Z.mul_comm. now apply sgn_mul_pos. Qed.

Lemma rel_trans a b c a1 b1 c1 xf yf zf a2 b2 c2 u v w :
  rel a b c a1 b1 c1 xf yf zf -> rel a1 b1 c1 a2 b2 c2 u v w ->
  rel a b c a2 b2 c2 (xf * u) (yf * v) (zf * w).
Proof.
  intros (_ & (S1 & S2 & S3) & (P1 & P2 & P3) & D & F & K) (N & (T1 & T2 & T3) & (Q1 & Q2 & Q3) & D' & F' & K').
  split; [exact N|]. split; [rewrite T1, T2, T3; auto|].
  split; [split; [|split]; apply Z.mul_pos_pos; assumption|].
  split; [eapply Z.divide_trans; eassumption|]. split; [|auto].
  intros x y z S. apply F' in S. apply F in S. now rewrite <- !Z.mul_assoc.
Qed.
Lemma nz3_scale u v w x y z : u <> 0 -> v <> 0 -> w <> 0 -> nonzero3 x y z -> nonzero3 (u * x) (v * y) (w * z).
Proof. intros U V W [H|[H|H]]; [left|right;left|right;right]; now apply mul_nz. Qed.

Lemma rel_gx a b' c' g : 0 < g -> a <> 0 -> b' <> 0 -> c' <> 0 -> rel a (g * b') (g * c') (a * g) b' c' g 1 1.
Proof.
  intros G A B C. assert (G0 : g <> 0) by lia.
  split; [split; [now apply mul_nz|auto]|]. split; [rewrite !(sgn_mul_pos g), (sgn_pos_mul g) by exact G; auto|].
  split; [lia|]. split; [exists g; ring|]. split.
  - intros x y z (E & N). split; [|apply nz3_scale; auto; lia].
    transitivity (g * (a * g * (x * x) + b' * (y * y) + c' * (z * z))); [ring|]. rewrite E. ring.
  - intros ([[x y] z] & E & N). exists (1 * x, g * y, g * z). split; [|apply nz3_scale; auto; lia].
    transitivity (g * (a * (x * x) + g * b' * (y * y) + g * c' * (z * z))); [ring|]. rewrite E. ring.
Qed.
Lemma rel_gy a' b c' g : 0 < g -> a' <> 0 -> b <> 0 -> c' <> 0 -> rel (g * a') b (g * c') a' (b * g) c' 1 g 1.
Proof.
  intros G A B C. assert (G0 : g <> 0) by lia.
  split; [split; [exact A|split; [now apply mul_nz|auto]]|]. split; [rewrite !(sgn_mul_pos g), (sgn_pos_mul g) by exact G; auto|].
  split; [lia|]. split; [exists g; ring|]. split.
  - intros x y z (E & N). split; [|apply nz3_scale; auto; lia].
    transitivity (g * (a' * (x * x) + b * g * (y * y) + c' * (z * z))); [ring|]. rewrite E. ring.
  - intros ([[x y] z] & E & N). exists (g * x, 1 * y, g * z). split; [|apply nz3_scale; auto; lia].
    transitivity (g * (g * a' * (x * x) + b * (y * y) + g * c' * (z * z))); [ring|]. rewrite E. ring.
Qed.
Lemma rel_gz a' b' c g : 0 < g -> a' <> 0 -> b' <> 0 -> c <> 0 -> rel (g * a') (g * b') c a' b' (c * g) 1 1 g.
Proof.
  intros G A B C. assert (G0 : g <> 0) by lia.
  split; [split; [exact A|split; [exact B|now apply mul_nz]]|]. split; [rewrite !(sgn_mul_pos g), (sgn_pos_mul g) by exact G; auto|].
  split; [lia|]. split; [exists g; ring|]. split.
  - intros x y z (E & N). split; [|apply nz3_scale; auto; lia].
    transitivity (g * (a' * (x * x) + b' * (y * y) + c * g * (z * z))); [ring|]. rewrite E. ring.
  - intros ([[x y] z] & E & N). exists (g * x, g * y, 1 * z). split; [|apply nz3_scale; auto; lia].
    transitivity (g * (g * a' * (x * x) + g * b' * (y * y) + c * (z * z))); [ring|]. rewrite E. ring.
Qed.
Lemma rel_refl a b c : a <> 0 -> b <> 0 -> c <> 0 -> rel a b c a b c 1 1 1.
Proof.
  intros A B C. split; [auto|]. split; [auto|]. split; [lia|]. split; [apply Z.divide_refl|]. split; [|auto].
  intros x y z S. now rewrite !Z.mul_1_l.
Qed.
Lemma rel_sq a a3 b b3 c c3 : 0 < a3 -> 0 < b3 -> 0 < c3 -> a <> 0 -> b <> 0 -> c <> 0 ->
  rel (a * (a3 * a3)) (b * (b3 * b3)) (c * (c3 * c3)) a b c (b3 * c3) (a3 * c3) (a3 * b3).
Proof.
  intros A3 B3 C3 A B C.
  assert (QA : 0 < a3 * a3) by now apply Z.mul_pos_pos. assert (QB : 0 < b3 * b3) by now apply Z.mul_pos_pos.
  assert (QC : 0 < c3 * c3) by now apply Z.mul_pos_pos.
  split; [auto|]. split; [rewrite (sgn_pos_mul (a3 * a3)), (sgn_pos_mul (b3 * b3)), (sgn_pos_mul (c3 * c3)) by assumption; auto|].
  split; [split; [|split]; now apply Z.mul_pos_pos|].
  split; [exists ((a3 * a3) * (b3 * b3) * (c3 * c3)); ring|]. split.
  - intros x y z (E & N). split; [|apply nz3_scale; auto; apply mul_nz; lia].
    transitivity ((a3 * a3) * (b3 * b3) * (c3 * c3) * (a * (x * x) + b * (y * y) + c * (z * z))); [ring|]. rewrite E. ring.
  - intros ([[x y] z] & E & N). exists (a3 * x, b3 * y, c3 * z). split; [|apply nz3_scale; auto; lia].
    rewrite <- E. ring.
Qed.
(** dividing the factors by a common factor *)
Lemma rel_cancel a b c a1 b1 c1 g xf yf zf : 0 < g -> rel a b c a1 b1 c1 (g * xf) (g * yf) (g * zf) -> rel a b c a1 b1 c1 xf yf zf.
Proof.
  intros G (N & S & (P1 & P2 & P3) & D & F & K). split; [exact N|]. split; [exact S|].
  split; [split; [|split]; eapply (Z.mul_pos_cancel_l g); eauto|]. split; [exact D|]. split; [|exact K].
  intros x y z E. apply F in E. apply (sol_unscale a b c g); [exact G|]. cbn [scal3]. now rewrite !Z.mul_assoc.
Qed.

(** ** The loop making the coefficients pairwise coprime *)
Lemma meas_drop g u n : 1 < g -> u <> 0 -> 0 <= n -> 4 * Z.abs u + 3 < 4 * Z.abs (g * u) + n.
Proof.
  intros G U N. rewrite Z.abs_mul, (Z.abs_eq g) by lia.
  assert (2 * Z.abs u <= g * Z.abs u) by (apply Z.mul_le_mono_nonneg_r; lia). lia.
Qed.

Section Loop.
Variables a b c : Z.
Lemma sub1 a1 b1 c1 xf yf zf n : rel a b c a1 b1 c1 xf yf zf -> 0 < n <= 3 -> (n <= 2 -> cop a1 b1) -> (n <= 1 -> cop c1 a1) ->
  exists a' b' c' xf' n',
    (if 1 <? Z.gcd b1 c1 then b' <- zz_div b1 (Z.gcd b1 c1) ;; c' <- zz_div c1 (Z.gcd b1 c1) ;; Ok (a1 * Z.gcd b1 c1, b', c', xf * Z.gcd b1 c1, 3)
     else Ok (a1, b1, c1, xf, n - 1)) = Ok (a', b', c', xf', n') /\
    rel a b c a' b' c' xf' yf zf /\ 0 <= n' <= 3 /\ (n' <= 2 -> cop b' c') /\ (n' <= 1 -> cop a' b') /\ (n' <= 0 -> cop c' a') /\
    4 * Z.abs (a' * b' * c') + n' < 4 * Z.abs (a1 * b1 * c1) + n.
Proof.
  intros R N K1 K2. pose proof R as ((A & B & C) & _).
  destruct (Z.ltb_spec 1 (Z.gcd b1 c1)) as [G|G].
  - destruct (gcd_split b1 c1) as (b' & c' & Eb & Ec & CC & GP); [now left|]. set (g := Z.gcd b1 c1) in *.
    rewrite (zdiv_ex b1 g b'), (zdiv_ex c1 g c') by (auto; lia). repeat (rewrite bind_Ok; cbv beta iota).
    assert (B' : b' <> 0) by (intros H; apply B; rewrite Eb, H; ring).
    assert (C' : c' <> 0) by (intros H; apply C; rewrite Ec, H; ring).
    do 5 eexists. split; [reflexivity|]. split.
    { rewrite Eb, Ec in R. pose proof (rel_trans _ _ _ _ _ _ _ _ _ _ _ _ _ _ _ R (rel_gx a1 b' c' g GP A B' C')) as RT.
      now rewrite !Z.mul_1_r in RT. }
    split; [lia|]. split; [lia|]. split; [lia|]. split; [lia|].
    replace (a1 * b1 * c1) with (g * (a1 * g * b' * c')) by (transitivity (a1 * (g * b') * (g * c')); [ring|now rewrite <- Eb, <- Ec]).
    apply meas_drop; [exact G| |lia]. repeat apply mul_nz; auto. lia.
  - do 5 eexists. split; [reflexivity|]. split; [exact R|]. split; [lia|]. split; [intros _; apply ngcd_cop; [lia|now left]|].
    split; [intros; apply K1; lia|]. split; [intros; apply K2; lia|]. lia.
Qed.
Lemma sub2 a1 b1 c1 xf yf zf n : rel a b c a1 b1 c1 xf yf zf -> 0 <= n <= 3 -> (n <= 2 -> cop b1 c1) -> (n <= 1 -> cop a1 b1) -> (n <= 0 -> cop c1 a1) ->
  exists a' b' c' yf' n',
    (if 0 <? n then if 1 <? Z.gcd c1 a1 then c' <- zz_div c1 (Z.gcd c1 a1) ;; a' <- zz_div a1 (Z.gcd c1 a1) ;; Ok (a', b1 * Z.gcd c1 a1, c', yf * Z.gcd c1 a1, 3)
     else Ok (a1, b1, c1, yf, n - 1) else Ok (a1, b1, c1, yf, n)) = Ok (a', b', c', yf', n') /\
    rel a b c a' b' c' xf yf' zf /\ 0 <= n' <= 3 /\ (n' <= 2 -> cop c' a') /\ (n' <= 1 -> cop b' c') /\ (n' <= 0 -> cop a' b') /\
    4 * Z.abs (a' * b' * c') + n' <= 4 * Z.abs (a1 * b1 * c1) + n.
Proof.
  intros R N K1 K2 K3. pose proof R as ((A & B & C) & _).
  destruct (Z.ltb_spec 0 n) as [N0|N0].
  2:{ do 5 eexists. split; [reflexivity|]. split; [exact R|]. split; [lia|]. split; [intros; apply K3; lia|]. split; [intros; apply K1; lia|]. split; [intros; apply K2; lia|]. lia. }
  destruct (Z.ltb_spec 1 (Z.gcd c1 a1)) as [G|G].
  - destruct (gcd_split c1 a1) as (c' & a' & Ec & Ea & CC & GP); [now left|]. set (g := Z.gcd c1 a1) in *.
    rewrite (zdiv_ex a1 g a'), (zdiv_ex c1 g c') by (auto; lia). repeat (rewrite bind_Ok; cbv beta iota).
    assert (A' : a' <> 0) by (intros H; apply A; rewrite Ea, H; ring).
    assert (C' : c' <> 0) by (intros H; apply C; rewrite Ec, H; ring).
    do 5 eexists. split; [reflexivity|]. split.
    { rewrite Ea, Ec in R. pose proof (rel_trans _ _ _ _ _ _ _ _ _ _ _ _ _ _ _ R (rel_gy a' b1 c' g GP A' B C')) as RT.
      now rewrite !Z.mul_1_r in RT. }
    split; [lia|]. split; [lia|]. split; [lia|]. split; [lia|].
    replace (a1 * b1 * c1) with (g * (a' * (b1 * g) * c')) by (transitivity ((g * a') * b1 * (g * c')); [ring|now rewrite <- Ea, <- Ec]).
    apply Z.lt_le_incl, meas_drop; [exact G| |lia]. repeat apply mul_nz; auto. lia.
  - do 5 eexists. split; [reflexivity|]. split; [exact R|]. split; [lia|]. split; [intros _; apply ngcd_cop; [lia|now left]|].
    split; [intros; apply K1; lia|]. split; [intros; apply K2; lia|]. lia.
Qed.
Lemma sub3 a1 b1 c1 xf yf zf n : rel a b c a1 b1 c1 xf yf zf -> 0 <= n <= 3 -> (n <= 2 -> cop c1 a1) -> (n <= 1 -> cop b1 c1) -> (n <= 0 -> cop a1 b1) ->
  exists a' b' c' zf' n',
    (if 0 <? n then if 1 <? Z.gcd a1 b1 then a' <- zz_div a1 (Z.gcd a1 b1) ;; b' <- zz_div b1 (Z.gcd a1 b1) ;; Ok (a', b', c1 * Z.gcd a1 b1, zf * Z.gcd a1 b1, 3)
     else Ok (a1, b1, c1, zf, n - 1) else Ok (a1, b1, c1, zf, n)) = Ok (a', b', c', zf', n') /\
    rel a b c a' b' c' xf yf zf' /\ 0 <= n' <= 3 /\ (n' <= 2 -> cop a' b') /\ (n' <= 1 -> cop c' a') /\ (n' <= 0 -> cop b' c') /\
    4 * Z.abs (a' * b' * c') + n' <= 4 * Z.abs (a1 * b1 * c1) + n.
Proof.
  intros R N K1 K2 K3. pose proof R as ((A & B & C) & _).
  destruct (Z.ltb_spec 0 n) as [N0|N0].
  2:{ do 5 eexists. split; [reflexivity|]. split; [exact R|]. split; [lia|]. split; [intros; apply K3; lia|]. split; [intros; apply K1; lia|]. split; [intros; apply K2; lia|]. lia. }
  destruct (Z.ltb_spec 1 (Z.gcd a1 b1)) as [G|G].
  - destruct (gcd_split a1 b1) as (a' & b' & Ea & Eb & CC & GP); [now left|]. set (g := Z.gcd a1 b1) in *.
    rewrite (zdiv_ex a1 g a'), (zdiv_ex b1 g b') by (auto; lia). repeat (rewrite bind_Ok; cbv beta iota).
    assert (A' : a' <> 0) by (intros H; apply A; rewrite Ea, H; ring).
    assert (B' : b' <> 0) by (intros H; apply B; rewrite Eb, H; ring).
    do 5 eexists. split; [reflexivity|]. split.
    { rewrite Ea, Eb in R. pose proof (rel_trans _ _ _ _ _ _ _ _ _ _ _ _ _ _ _ R (rel_gz a' b' c1 g GP A' B' C)) as RT.
      now rewrite !Z.mul_1_r in RT. }
    split; [lia|]. split; [lia|]. split; [lia|]. split; [lia|].
    replace (a1 * b1 * c1) with (g * (a' * b' * (c1 * g))) by (transitivity ((g * a') * (g * b') * c1); [ring|now rewrite <- Ea, <- Eb]).
    apply Z.lt_le_incl, meas_drop; [exact G| |lia]. repeat apply mul_nz; auto. lia.
  - do 5 eexists. split; [reflexivity|]. split; [exact R|]. split; [lia|]. split; [intros _; apply ngcd_cop; [lia|now left]|].
    split; [intros; apply K1; lia|]. split; [intros; apply K2; lia|]. lia.
Qed.

Lemma zfuel_lt4 n : n <> 0 -> 4 * Z.abs n + 3 < 2 ^ Z.of_nat (zfuel n + 2).
Proof.
  intros N. unfold zfuel.
  assert (H : Z.abs n < 2 ^ (Z.log2 (Z.abs n) + 1)).
  { pose proof (Z.log2_spec (Z.abs n)). rewrite Z.add_1_r. apply H. lia. }
  pose proof (Z.log2_nonneg (Z.abs n)) as L.
  match goal with |- _ < 2 ^ ?t => replace t with (Z.log2 (Z.abs n) + 1 + 4) by lia end.
  rewrite (Z.pow_add_r 2 (Z.log2 (Z.abs n) + 1) 4) by lia. change (2 ^ 4) with 16. lia.
Qed.

Lemma coprime_loop_ok : a <> 0 -> b <> 0 -> c <> 0 ->
  exists a1 b1 c1 xf yf zf, while coprime_step (zfuel (a * b * c) + 2) (a, b, c, 1, 1, 1, 3) = Ok (a1, b1, c1, xf, yf, zf) /\
    rel a b c a1 b1 c1 xf yf zf /\ cop a1 b1 /\ cop a1 c1 /\ cop b1 c1.
Proof.
  intros A B C.
  edestruct (while_total coprime_step
    (fun s => let '(a1, b1, c1, xf, yf, zf, n) := s in rel a b c a1 b1 c1 xf yf zf /\ 0 <= n <= 3 /\
       (n <= 2 -> cop a1 b1) /\ (n <= 1 -> cop c1 a1) /\ (n <= 0 -> cop b1 c1))
    (fun r => let '(a1, b1, c1, xf, yf, zf) := r in rel a b c a1 b1 c1 xf yf zf /\ cop a1 b1 /\ cop a1 c1 /\ cop b1 c1)
    (fun s => let '(a1, b1, c1, xf, yf, zf, n) := s in 4 * Z.abs (a1 * b1 * c1) + n))
    with (n := (zfuel (a * b * c) + 2)%nat) (s := (a, b, c, 1, 1, 1, 3)) as (r & E & R).
  - intros [[[[[[a1 b1] c1] xf] yf] zf] n] (_ & N & _). lia.
  - intros [[[[[[a1 b1] c1] xf] yf] zf] n] (R & N & K1 & K2 & K3). unfold coprime_step.
    destruct (Z.ltb_spec 0 n) as [N0|N0].
    + right. cbv zeta.
      destruct (sub1 a1 b1 c1 xf yf zf n R) as (a2 & b2 & c2 & xf2 & n2 & -> & R2 & NN2 & L1 & L2 & L3 & M2); [lia|exact K1|exact K2|].
      rewrite bind_Ok. cbv beta iota.
      destruct (sub2 a2 b2 c2 xf2 yf zf n2 R2 NN2 L1 L2 L3) as (a3 & b3 & c3 & yf3 & n3 & -> & R3 & NN3 & L4 & L5 & L6 & M3).
      rewrite bind_Ok. cbv beta iota.
      destruct (sub3 a3 b3 c3 xf2 yf3 zf n3 R3 NN3 L4 L5 L6) as (a4 & b4 & c4 & zf4 & n4 & -> & R4 & NN4 & L7 & L8 & L9 & M4).
      rewrite bind_Ok. cbv beta iota.
      eexists. split; [reflexivity|]. cbv beta iota. split; [|lia].
      split; [exact R4|]. split; [exact NN4|]. split; [exact L7|]. split; [exact L8|exact L9].
    + left. eexists. split; [reflexivity|]. cbv beta iota. split; [exact R|]. split; [apply K1; lia|].
      split; [apply cop_sym, K2; lia|apply K3; lia].
  - split; [now apply rel_refl|]. split; [lia|]. split; [lia|]. split; [lia|]. lia.
  - apply zfuel_lt4. repeat apply mul_nz; assumption.
  - destruct r as [[[[[a1 b1] c1] xf] yf] zf]. exists a1, b1, c1, xf, yf, zf. split; [exact E|exact R].
Qed.
End Loop.

(** ** Certificates *)
Lemma sqfdecomp_loop_nodup a : forall ps a1 a2 apl b1 b2 bpl, NoDup (apl ++ ps) ->
  sqfdecomp_loop ps a a1 a2 apl = Ok (b1, b2, bpl) -> NoDup bpl.
Proof.
  induction ps as [|p ps IH]; intros a1 a2 apl b1 b2 bpl ND E.
  - cbn [sqfdecomp_loop] in E. injection E as _ _ <-. now rewrite app_nil_r in ND.
  - cbn [sqfdecomp_loop] in E. destruct (val_z p a) as [e| | |]; try discriminate. rewrite bind_Ok in E.
    destruct (e =? 0).
    + eapply IH; [|exact E]. eapply NoDup_remove_1; exact ND.
    + destruct (Z.odd e).
      * eapply IH; [|exact E]. now rewrite <- app_assoc.
      * eapply IH; [|exact E]. eapply NoDup_remove_1; exact ND.
Qed.

(** in a primitive solution with square-free a, the coefficient a is prime to z *)
Lemma prim_cop a b c x y z : a <> 0 -> square_free a -> cop a b -> leg_sol a b c (x, y, z) -> prim3 (x, y, z) -> cop a z.
Proof.
  intros A SF C (E & _) P. apply cop_intro. intros d D0 D1 D2.
  destruct (Z.eq_dec d 1) as [->|N1]; [apply Z.divide_refl|].
  destruct (Z.eq_dec d 0) as [->|N0]; [destruct D1; lia|]. exfalso.
  destruct (prime_divisor_ex d) as (p & Hp & Dp); [lia|].
  assert (Pa : (p | a)) by exact (Z.divide_trans _ _ _ Dp D1). assert (Pz : (p | z)) by exact (Z.divide_trans _ _ _ Dp D2).
  assert (Pb : (p | b * (y * y))).
  { replace (b * (y * y)) with (- ((x * x) * a + (c * z) * z)) by (clear - E; lia).
    apply Z.divide_opp_r, Z.divide_add_r; now apply Z.divide_mul_r. }
  assert (Py : (p | y)).
  { apply (prime_mult p Hp) in Pb as [Pb|Pb].
    - exfalso. pose proof (cop_one a b p C Pa Pb) as H. apply Z.divide_1_r in H. pose proof (prime_ge_2 p Hp). lia.
    - apply (prime_mult p Hp) in Pb as [|]; assumption. }
  destruct Py as [y' Ey], Pz as [z' Ez], Pa as [a' Ea].
  assert (PA : (p | a' * (x * x))).
  { exists (- (b * (y' * y') + c * (z' * z'))). apply (Z.mul_reg_l _ _ p); [pose proof (prime_ge_2 p Hp); lia|].
    transitivity (a' * p * (x * x)); [ring|]. rewrite <- Ea.
    assert (H : a * (x * x) = - (b * (y * y)) - c * (z * z)) by (clear - E; lia). rewrite H, Ey, Ez. ring. }
  assert (PX : (p | x)).
  { apply (prime_mult p Hp) in PA as [[k Hk]|PA].
    - exfalso. apply (SF p Hp). exists k. rewrite Ea, Hk. ring.
    - apply (prime_mult p Hp) in PA as [|]; assumption. }
  assert (H : (p | 1)) by (apply P; [exact PX|rewrite Ey; apply Z.divide_factor_r|rewrite Ez; apply Z.divide_factor_r]).
  apply Z.divide_1_r in H. pose proof (prime_ge_2 p Hp). lia.
Qed.
Lemma sol_cert a b c x y z : a <> 0 -> square_free a -> cop a b -> leg_sol a b c (x, y, z) -> prim3 (x, y, z) ->
  exists n, sqroot n (- b * c) (Z.abs a).
Proof.
  intros A SF C S P. pose proof (prim_cop a b c x y z A SF C S P) as CZ. destruct S as [E _].
  destruct (cop_bezout a z CZ) as (s & t & H).
  exists (b * y * t). unfold sqroot. apply Z.divide_abs_l.
  exists (- (b * (x * x)) * (t * t) + 2 * b * c * s - b * c * a * (s * s)).
  transitivity (b * (a * (x * x) + b * (y * y) + c * (z * z)) * (t * t) - b * (a * (x * x)) * (t * t) - b * c * ((z * t) * (z * t)) + b * c); [ring|].
  rewrite E. replace (z * t) with (1 - a * s) by (clear - H; lia). ring.
Qed.

Section Solve.
Variable xgcd : Z -> Z -> Z * Z * Z.
Hypothesis X : xgcd_spec xgcd.
Variable srm : Z -> Z -> Z.
Hypothesis SR : sqrrootmod_spec srm.

Lemma sqrt_cert a b c apl : a <> 0 -> square_free a -> NoDup apl -> (forall p, In p apl <-> prime p /\ (p | a)) -> cop a b -> cop a c ->
  exists r, sqrt_mod_m xgcd srm (- b * c) (Z.abs a) apl = Ok r /\
  match r with Some n => (a | n * n + b * c) | None => forall x y z, leg_sol a b c (x, y, z) -> prim3 (x, y, z) -> False end.
Proof.
  intros A SF ND HP C1 C2.
  destruct (sqrt_mod_m_ok xgcd X srm SR (- b * c) (Z.abs a) apl) as (r & E & R).
  - lia.
  - exact ND.
  - apply Forall_forall. intros p I. now apply HP.
  - intros p Pp D. apply HP. split; [exact Pp|]. now apply Z.divide_abs_r.
  - exists r. split; [exact E|]. destruct r as [n|].
    + unfold sqroot in R. apply (proj1 (Z.divide_abs_l a _)) in R. replace (n * n + b * c) with (n * n - - b * c) by ring. exact R.
    + intros x y z S P. destruct (sol_cert a b c x y z A SF C1 S P) as (n & Hn).
      apply (R) with n; [|exact Hn]. rewrite Z.gcd_abs_r. apply cop_mul_l; [|now apply cop_sym]. now apply cop_opp_l, cop_sym.
Qed.

Lemma make_certificate_ok a b c al bl cl :
  a <> 0 -> b <> 0 -> c <> 0 -> cop a b -> cop a c -> cop b c -> square_free a -> square_free b -> square_free c ->
  NoDup al -> NoDup bl -> NoDup cl -> (forall p, In p al <-> prime p /\ (p | a)) ->
  (forall p, In p bl <-> prime p /\ (p | b)) -> (forall p, In p cl <-> prime p /\ (p | c)) ->
  exists r, make_certificate xgcd srm a al b bl c cl = Ok r /\
  match r with inl _ => ~ soluble a b c | inr (n, p, q) => leg_cert a b c n p q end.
Proof.
  intros A B C G1 G2 G3 SA SB SC NA NB NC HA HB HC. unfold make_certificate.
  assert (PS : soluble a b c -> exists x y z, leg_sol a b c (x, y, z) /\ prim3 (x, y, z)).
  { intros ([[x y] z] & S). destruct (cancel1_sol a b c x y z S) as ([[x' y'] z'] & _ & S' & P'). eauto. }
  destruct (sqrt_cert a b c al A SA NA HA G1 G2) as (r1 & -> & R1). rewrite bind_Ok.
  destruct r1 as [n|].
  2:{ eexists. split; [reflexivity|]. cbv beta iota. intros S. destruct (PS S) as (x & y & z & S' & P'). eapply R1; eauto. }
  destruct (sqrt_cert b a c bl B SB NB HB (cop_sym _ _ G1) G3) as (r2 & -> & R2). rewrite bind_Ok.
  destruct r2 as [p|].
  2:{ eexists. split; [reflexivity|]. cbv beta iota. intros S. destruct (PS S) as (x & y & z & (S' & N') & P'). apply (R2 y x z).
      - split; [clear - S'; lia|]. unfold nonzero3 in *. tauto.
      - intros d D1 D2 D3. now apply P'. }
  destruct (sqrt_cert c a b cl C SC NC HC (cop_sym _ _ G2) (cop_sym _ _ G3)) as (r3 & -> & R3). rewrite bind_Ok.
  destruct r3 as [q|].
  2:{ eexists. split; [reflexivity|]. cbv beta iota. intros S. destruct (PS S) as (x & y & z & (S' & N') & P'). apply (R3 z x y).
      - split; [clear - S'; lia|]. unfold nonzero3 in *. tauto.
      - intros d D1 D2 D3. now apply P'. }
  eexists. split; [reflexivity|]. cbv beta iota. split; [exact R1|]. split; [exact R2|exact R3].
Qed.

Lemma sqf_pos n u : square_free n -> 1 < u -> ~ (u * u | n).
Proof.
  intros SF U D. destruct (prime_divisor_ex u U) as (p & Hp & [k Hk]).
  apply (SF p Hp). eapply Z.divide_trans; [|exact D]. rewrite Hk. exists (k * k). ring.
Qed.

Lemma legendre_solve_ok lll f a b c ps : a <> 0 -> b <> 0 -> c <> 0 -> prime_base (a * b * c) ps ->
  2 * Z.abs (a * b * c) < Z.of_nat f ->
  exists r, legendre_solve xgcd srm lll f a b c ps false = Ok r /\
  match r with
  | Some (x, y, z) => leg_sol a b c (x, y, z) /\ prim3 (x, y, z) /\ 0 <= x /\ 0 <= y /\ 0 <= z
  | None => ~ soluble a b c
  end.
Proof.
  intros A B C PB FB. unfold legendre_solve. cbv zeta.
  assert (SG0 : forall n, n <> 0 -> (Z.sgn n =? 0) = false) by (intros n N; apply Z.eqb_neq; lia).
  rewrite !SG0 by assumption. cbn [orb].
  destruct ((Z.sgn a =? Z.sgn b) && (Z.sgn a =? Z.sgn c) && (Z.sgn b =? Z.sgn c)) eqn:SS.
  { eexists. split; [reflexivity|]. cbv beta iota. rewrite !andb_true_iff, !Z.eqb_eq in SS. destruct SS as ((SS1 & SS2) & _).
    intros ([[x y] z] & E & N).
    assert (Sq : forall u, 0 <= u * u) by (intros u; apply Z.square_nonneg).
    assert (Sp : forall u, u <> 0 -> 0 < u * u) by (intros u U; apply Z.le_neq; split; [apply Sq|]; intros H; symmetry in H; revert H; now apply mul_nz).
    assert (T : (0 < a /\ 0 < b /\ 0 < c) \/ (a < 0 /\ b < 0 /\ c < 0)) by (clear - A B C SS1 SS2; lia).
    destruct T as [(TA & TB & TC)|(TA & TB & TC)].
    - pose proof (Z.mul_nonneg_nonneg a (x * x) (Z.lt_le_incl _ _ TA) (Sq x)) as Q1.
      pose proof (Z.mul_nonneg_nonneg b (y * y) (Z.lt_le_incl _ _ TB) (Sq y)) as Q2.
      pose proof (Z.mul_nonneg_nonneg c (z * z) (Z.lt_le_incl _ _ TC) (Sq z)) as Q3.
      destruct N as [N|[N|N]].
      + pose proof (Z.mul_pos_pos _ _ TA (Sp x N)) as Q. clear - Q Q2 Q3 E. lia.
      + pose proof (Z.mul_pos_pos _ _ TB (Sp y N)) as Q. clear - Q Q1 Q3 E. lia.
      + pose proof (Z.mul_pos_pos _ _ TC (Sp z N)) as Q. clear - Q Q1 Q2 E. lia.
    - pose proof (Z.mul_nonpos_nonneg a (x * x) (Z.lt_le_incl _ _ TA) (Sq x)) as Q1.
      pose proof (Z.mul_nonpos_nonneg b (y * y) (Z.lt_le_incl _ _ TB) (Sq y)) as Q2.
      pose proof (Z.mul_nonpos_nonneg c (z * z) (Z.lt_le_incl _ _ TC) (Sq z)) as Q3.
      destruct N as [N|[N|N]].
      + pose proof (Z.mul_neg_pos _ _ TA (Sp x N)) as Q. clear - Q Q2 Q3 E. lia.
      + pose proof (Z.mul_neg_pos _ _ TB (Sp y N)) as Q. clear - Q Q1 Q3 E. lia.
      + pose proof (Z.mul_neg_pos _ _ TC (Sp z N)) as Q. clear - Q Q1 Q2 E. lia. }
  destruct (coprime_loop_ok a b c A B C) as (a1 & b1 & c1 & xf & yf & zf & -> & R1 & G1 & G2 & G3).
  rewrite bind_Ok. cbv beta iota.
  pose proof R1 as ((A1 & B1 & C1) & (T1 & T2 & T3) & _ & D1 & _).
  destruct PB as (ND & PR & CV).
  assert (PBS : forall n, (n | a1 * b1 * c1) -> prime_base n ps).
  { intros n Dn. split; [exact ND|]. split; [exact PR|]. intros p Pp Dp. apply CV; [exact Pp|].
    eapply Z.divide_trans; [exact Dp|]. eapply Z.divide_trans; [exact Dn|exact D1]. }
  destruct (sqfdecomp_ok a1 ps A1) as (a2 & a3 & al & EA & QA & A3 & SA & HA). { apply PBS. exists (b1 * c1). ring. }
  rewrite EA, bind_Ok. cbv beta iota zeta.
  destruct (sqfdecomp_ok b1 ps B1) as (b2 & b3 & bl & EB & QB & B3 & SB & HB). { apply PBS. exists (a1 * c1). ring. }
  rewrite EB, bind_Ok. cbv beta iota zeta.
  destruct (sqfdecomp_ok c1 ps C1) as (c2 & c3 & cl & EC & QC & C3 & SC & HC). { apply PBS. exists (a1 * b1). ring. }
  rewrite EC, bind_Ok. cbv beta iota zeta.
  assert (NA : NoDup al) by (eapply sqfdecomp_loop_nodup; [|exact EA]; exact ND).
  assert (NB : NoDup bl) by (eapply sqfdecomp_loop_nodup; [|exact EB]; exact ND).
  assert (NC : NoDup cl) by (eapply sqfdecomp_loop_nodup; [|exact EC]; exact ND).
  assert (A2 : a2 <> 0) by (intros H; apply A1; rewrite QA, H; reflexivity).
  assert (B2 : b2 <> 0) by (intros H; apply B1; rewrite QB, H; reflexivity).
  assert (C2 : c2 <> 0) by (intros H; apply C1; rewrite QC, H; reflexivity).
  assert (DA : (a2 | a1)) by (rewrite QA; apply Z.divide_factor_l).
  assert (DB : (b2 | b1)) by (rewrite QB; apply Z.divide_factor_l).
  assert (DC : (c2 | c1)) by (rewrite QC; apply Z.divide_factor_l).
  assert (H1 : cop a2 b2) by exact (cop_div _ _ _ _ G1 DA DB).
  assert (H2 : cop a2 c2) by exact (cop_div _ _ _ _ G2 DA DC).
  assert (H3 : cop b2 c2) by exact (cop_div _ _ _ _ G3 DB DC).
  pose proof (rel_sq a2 a3 b2 b3 c2 c3 A3 B3 C3 A2 B2 C2) as R2. rewrite <- QA, <- QB, <- QC in R2.
  pose proof (rel_trans _ _ _ _ _ _ _ _ _ _ _ _ _ _ _ R1 R2) as R3. clear R1 R2.
  rewrite !Z.mul_assoc in R3.
  replace (zf * a3 * b3) with (zf * a3 * b3) in R3 by ring.
  destruct (cancel1_ok (xf * b3 * c3) (yf * a3 * c3) (zf * a3 * b3)) as ([[xg yg] zg] & g & -> & G & EG & _).
  { destruct R3 as (_ & _ & (P1 & _) & _). left. lia. }
  rewrite bind_Ok. cbv beta iota.
  cbn [scal3] in EG.
  pose proof (f_equal (fun t : tri => fst (fst t)) EG) as EG1. pose proof (f_equal (fun t : tri => snd (fst t)) EG) as EG2.
  pose proof (f_equal (fun t : tri => snd t) EG) as EG3. cbn [fst snd] in EG1, EG2, EG3. clear EG.
  rewrite EG1, EG2, EG3 in R3. apply rel_cancel in R3; [|exact G].
  destruct (make_certificate_ok a2 b2 c2 al bl cl A2 B2 C2 H1 H2 H3 SA SB SC NA NB NC HA HB HC) as (r & -> & R).
  rewrite bind_Ok. destruct r as [code|[[n p] q]].
  { eexists. split; [reflexivity|]. cbv beta iota. intros S. apply R. apply R3. exact S. }
  cbv beta iota.
  destruct R3 as (_ & (U1 & U2 & U3) & (P1 & P2 & P3) & D3 & F3 & _).
  assert (OK : leg_ok a2 b2 c2).
  { split; [exact A2|]. split; [exact B2|]. split; [exact C2|]. split; [exact H1|]. split; [exact H2|]. split; [exact H3|].
    apply andb_false_iff in SS. rewrite andb_false_iff in SS. rewrite !Z.eqb_neq in SS.
    clear - SS U1 U2 U3. split; intros (K1 & K2 & K3); lia. }
  destruct (solve_cert_ok xgcd X f a2 b2 c2 n p q OK R) as ([[rc uu] [[x y] z]] & -> & RR).
  { pose proof (mu_le a2 b2 c2) as ML.
    assert (LE : Z.abs (a2 * b2 * c2) <= Z.abs (a * b * c)).
    { apply Z.divide_pos_le; [|apply Z.divide_abs_l, Z.divide_abs_r; exact D3]. apply Z.abs_pos. repeat apply mul_nz; assumption. }
    clear - ML LE FB. lia. }
  rewrite bind_Ok. cbv beta iota.
  assert (SOL : leg_sol a2 b2 c2 (x, y, z)).
  { destruct RR as [(_ & S & _)|(U & [(_ & D)|[(_ & D)|(_ & D)]])]; [exact S| | |]; exfalso; (eapply sqf_pos; [|exact U|exact D]); assumption. }
  destruct (cancel1_sol a2 b2 c2 x y z SOL) as (s1 & -> & S1 & PS1). rewrite bind_Ok.
  destruct (new_legendre_reduce_ok xgcd X a2 b2 c2 s1 OK (conj S1 PS1)) as ([[x2 y2] z2] & -> & S2 & PS2).
  rewrite bind_Ok. cbv beta iota.
  assert (AB : forall t : Z, (if t <? 0 then - t else t) = Z.abs t).
  { clear. intros t. destruct (Z.ltb_spec t 0); lia. }
  rewrite !AB.
  apply F3 in S2. rewrite (Z.mul_comm xg), (Z.mul_comm yg), (Z.mul_comm zg) in S2. apply abs_sol in S2.
  destruct (cancel1_ok _ _ _ (proj2 S2)) as ([[x3 y3] z3] & g' & -> & G' & EG & PR3). rewrite bind_Ok.
  eexists. split; [reflexivity|]. cbv beta iota.
  split; [apply (sol_unscale a b c g'); [exact G'|]; now rewrite <- EG|]. split; [exact PR3|].
  cbn [scal3] in EG.
  pose proof (f_equal (fun t : tri => fst (fst t)) EG) as F1. pose proof (f_equal (fun t : tri => snd (fst t)) EG) as F2.
  pose proof (f_equal (fun t : tri => snd t) EG) as F4. cbn [fst snd] in F1, F2, F4.
  assert (NN : forall u v, Z.abs u = g' * v -> 0 <= v).
  { intros u v H. apply (Z.mul_nonneg_cancel_l g'); [exact G'|]. rewrite <- H. apply Z.abs_nonneg. }
  split; [eapply NN; exact F1|]. split; [eapply NN; exact F2|eapply NN; exact F4].
Qed.
End Solve.
