(** Proofs about CuspModel: equivalence of cusps and the numbering of classes. *)
From Coq Require Import ZArith Znumtheory Lia List Bool.
From Verif Require Import Base ArithModel ArithProofs RatModel P1Math SymbModel SymbProofs SymbMain SymbIndex CuspModel CuspProofs.
Import ListNotations.
Open Scope Z_scope.

(** ** specification *)
(** a matrix of Gamma_0(N) takes p1/q1 to p2/q2 *)
Definition g0eq (N : Z) (c1 c2 : rat) : Prop := exists a b c d e, a * d - b * c = 1 /\ (N | c) /\ (e = 1 \/ e = -1) /\
  a * fst c1 + b * snd c1 = e * fst c2 /\ c * fst c1 + d * snd c1 = e * snd c2.
Definition rneg (c : rat) : rat := (- fst c, snd c).
(** with plusflag also c1 ~ -c2 *)
Definition ceq (N : Z) (plus : bool) (c1 c2 : rat) : Prop := g0eq N c1 c2 \/ (plus = true /\ g0eq N c1 (rneg c2)).

Lemma rneg2 c : rneg (rneg c) = c.
Proof. destruct c. unfold rneg. cbn [fst snd]. now rewrite Z.opp_involutive. Qed.
Lemma g0_refl N c : g0eq N c c.
Proof. exists 1, 0, 0, 1, 1. repeat split; auto; try ring. exists 0. ring. Qed.
Lemma g0_sym N c1 c2 : g0eq N c1 c2 -> g0eq N c2 c1.
Proof.
  intros (a & b & c & d & e & D & [k K] & He & E1 & E2). exists d, (- b), (- c), a, e. split; [rewrite <- D; ring|]. split; [exists (- k); rewrite K; ring|]. split; [exact He|].
  assert (X1 : d * (e * fst c2) - b * (e * snd c2) = fst c1) by (rewrite <- E1, <- E2; transitivity ((a * d - b * c) * fst c1); [ring|rewrite D; ring]).
  assert (X2 : - c * (e * fst c2) + a * (e * snd c2) = snd c1) by (rewrite <- E1, <- E2; transitivity ((a * d - b * c) * snd c1); [ring|rewrite D; ring]).
  assert (ee : e * e = 1) by (destruct He as [->| ->]; reflexivity).
  split; [transitivity ((e * e) * (d * fst c2 + - b * snd c2)); [rewrite ee; ring|rewrite <- X1; ring]|transitivity ((e * e) * (- c * fst c2 + a * snd c2)); [rewrite ee; ring|rewrite <- X2; ring]].
Qed.
Lemma g0_trans N c1 c2 c3 : g0eq N c1 c2 -> g0eq N c2 c3 -> g0eq N c1 c3.
Proof.
  intros (a & b & c & d & e & D & [k K] & He & E1 & E2) (a' & b' & c' & d' & e' & D' & [k' K'] & He' & E1' & E2').
  exists (a' * a + b' * c), (a' * b + b' * d), (c' * a + d' * c), (c' * b + d' * d), (e * e'). split.
  { transitivity ((a' * d' - b' * c') * (a * d - b * c)); [ring|]. rewrite D, D'. ring. }
  split; [exists (k' * a + d' * k); rewrite K, K'; ring|]. split; [destruct He as [->| ->], He' as [->| ->]; auto|]. split.
  - transitivity (a' * (a * fst c1 + b * snd c1) + b' * (c * fst c1 + d * snd c1)); [ring|]. rewrite E1, E2.
    transitivity (e * (a' * fst c2 + b' * snd c2)); [ring|]. rewrite E1'. ring.
  - transitivity (c' * (a * fst c1 + b * snd c1) + d' * (c * fst c1 + d * snd c1)); [ring|]. rewrite E1, E2.
    transitivity (e * (c' * fst c2 + d' * snd c2)); [ring|]. rewrite E2'. ring.
Qed.
Lemma g0_neg N c1 c2 : g0eq N c1 c2 -> g0eq N (rneg c1) (rneg c2).
Proof.
  intros (a & b & c & d & e & D & [k K] & He & E1 & E2). exists a, (- b), (- c), d, e. unfold rneg. cbn [fst snd].
  split; [rewrite <- D; ring|]. split; [exists (- k); rewrite K; ring|]. split; [exact He|].
  split; [transitivity (- (a * fst c1 + b * snd c1)); [ring|rewrite E1; ring]|rewrite <- E2; ring].
Qed.
Lemma g0_neg' N c1 c2 : g0eq N (rneg c1) c2 -> g0eq N c1 (rneg c2).
Proof. intros H. apply g0_neg in H. now rewrite rneg2 in H. Qed.
Lemma ceq_refl N f c : ceq N f c c. Proof. left. apply g0_refl. Qed.
Lemma ceq_sym N f c1 c2 : ceq N f c1 c2 -> ceq N f c2 c1.
Proof. intros [H|[F H]]; [left; now apply g0_sym|right]. split; [exact F|]. apply g0_neg'. now apply g0_sym. Qed.
Lemma ceq_trans N f c1 c2 c3 : ceq N f c1 c2 -> ceq N f c2 c3 -> ceq N f c1 c3.
Proof.
  intros [H|[F H]] [H'|[F' H']].
  - left. eapply g0_trans; eauto.
  - right. split; [auto|]. eapply g0_trans; eauto.
  - right. split; [auto|]. apply (g0_trans N _ _ _ H). now apply g0_neg.
  - left. apply (g0_trans N _ _ _ H). apply g0_neg in H'. now rewrite rneg2 in H'.
Qed.

(** ** the test with Bezout coefficients *)
Lemma g0_test N p1 q1 p2 q2 s1 r1 s2 r2 : p1 * s1 + q1 * r1 = 1 -> p2 * s2 + q2 * r2 = 1 ->
  (g0eq N (p1, q1) (p2, q2) <-> (Z.gcd (q1 * q2) N | s1 * q2 - s2 * q1)).
Proof.
  intros H1 H2. unfold g0eq. cbn [fst snd]. split.
  - intros (a & b & c & d & e & D & Dc & He & E1 & E2).
    assert (ee : e * e = 1) by (destruct He as [->| ->]; reflexivity).
    set (u := a * - r1 + b * s1). set (v := c * - r1 + d * s1).
    assert (UV : p2 * v = e + q2 * u).
    { assert (K : (e * p2) * v - (e * q2) * u = 1).
      { rewrite <- E1, <- E2. unfold u, v. transitivity ((a * d - b * c) * (p1 * s1 + q1 * r1)); [ring|]. rewrite D, H1. reflexivity. }
      transitivity ((e * e) * (p2 * v)); [rewrite ee; ring|]. transitivity (e * ((e * p2) * v - (e * q2) * u) + (e * e) * (q2 * u)); [ring|]. rewrite K, ee. ring. }
    assert (V : v - e * s2 = q2 * (s2 * u + v * r2)).
    { transitivity (v * (p2 * s2 + q2 * r2) - e * s2); [rewrite H2; ring|]. transitivity (s2 * (p2 * v) + v * q2 * r2 - e * s2); [ring|]. rewrite UV. ring. }
    assert (C : e * (s1 * q2 - s2 * q1) = c + q1 * q2 * (s2 * u + v * r2)).
    { assert (CC : c = e * s1 * q2 - q1 * v).
      { unfold v. transitivity (c * (p1 * s1 + q1 * r1)); [rewrite H1; ring|]. replace (e * s1 * q2) with (s1 * (e * q2)) by ring. rewrite <- E2. ring. }
      rewrite CC at 1. transitivity (e * s1 * q2 - q1 * (v - (v - e * s2))); [ring|]. rewrite V. ring. }
    assert (K : (Z.gcd (q1 * q2) N | e * (s1 * q2 - s2 * q1))).
    { rewrite C. apply Z.divide_add_r; [apply (Z.divide_trans _ N); [apply Z.gcd_divide_r|auto]|]. apply Z.divide_mul_l, Z.gcd_divide_l. }
    replace (s1 * q2 - s2 * q1) with (e * (e * (s1 * q2 - s2 * q1))) by (rewrite Z.mul_assoc, ee; ring). now apply Z.divide_mul_r.
  - intros [z Ez]. destruct (Z.gcd_bezout (q1 * q2) N _ eq_refl) as (x & y & G). rewrite <- G in Ez. set (k := z * x).
    exists (p2 * s1 - (p2 * k - r2) * q1), (p2 * r1 + (p2 * k - r2) * p1), (q2 * s1 - (q2 * k + s2) * q1), (q2 * r1 + (q2 * k + s2) * p1), 1.
    split.
    { transitivity ((p2 * s2 + q2 * r2) * (p1 * s1 + q1 * r1)); [ring|]. rewrite H1, H2. reflexivity. }
    split.
    { exists (z * y). unfold k. transitivity ((s1 * q2 - s2 * q1) - z * x * q1 * q2); [ring|]. rewrite Ez. ring. }
    split; [auto|]. split.
    + transitivity (p2 * (p1 * s1 + q1 * r1)); [ring|]. rewrite H1. ring.
    + transitivity (q2 * (p1 * s1 + q1 * r1)); [ring|]. rewrite H1. ring.
Qed.
Lemma g0_gcd N c1 c2 : 1 < N -> g0eq N c1 c2 -> Z.gcd (snd c2) N = Z.gcd (snd c1) N.
Proof.
  intros N1 (a & b & c & d & e & D & [k K] & He & E1 & E2).
  assert (GD : Z.gcd d N = 1) by (apply gcd1_bez; exists a; exists (b * k); rewrite <- D, K; ring).
  rewrite <- (gcd_unit_mul N d (snd c1) GD).
  assert (X : Z.gcd (d * snd c1) N = Z.gcd (e * snd c2) N) by (apply gcd_cong; exists (- k * fst c1); rewrite <- E2, K; ring).
  rewrite X. destruct He as [->| ->]; [now rewrite Z.mul_1_l|]. replace (-1 * snd c2) with (- snd c2) by ring. now rewrite Z.gcd_opp_l.
Qed.

(** ** cuspeq *)
Lemma moddata_ok N ps : 1 < N -> N * N <= max64 -> pfull N ps ->
  exists M, moddata_of N ps = Ok M /\ forall q, in64 q -> md_gcd M q = Ok (Z.gcd q N).
Proof.
  intros N1 NN HF. unfold moddata_of. destruct (posdivs_mid N ps N1 (Nsym N N1 NN) HF) as (mid & -> & HM). rewrite bind_Ok.
  destruct (md_loop_ok N ps (1 :: mid ++ [N]) N1 NN HF) as (T & -> & HT). rewrite !bind_Ok. eexists. split; [reflexivity|].
  intros q Hq. unfold md_gcd. cbn [modulus tabs]. rewrite (reduce_ok N N1 NN q Hq), bind_Ok. destruct HT as (_ & _ & _ & -> & _).
  assert (MB : 0 <= q mod N < N) by (apply Z.mod_pos_bound; lia).
  rewrite (vget_nth _ _ (Z.gcd (q mod N) N)); [|apply (map_nth_error (fun i => Z.gcd i N)); apply nth_zr; exact MB|lia].
  f_equal. apply gcd_cong. apply mod_dvd. lia.
Qed.
Lemma F2_length {A B} (R : A -> B -> Prop) l m : Forall2 R l m -> length l = length m.
Proof. induction 1; cbn [length]; congruence. Qed.
Section Cusps.
Variables (N : Z) (M : moddata).
Hypothesis N1 : 1 < N.
Hypothesis NN : N * N <= max64.
Hypothesis HG : forall q, in64 q -> md_gcd M q = Ok (Z.gcd q N).
Notation okc := (cusp_le 2000000000).
Lemma mulB x y : Z.abs x <= 2000000000 -> Z.abs y <= 2000000000 -> Z.abs (x * y) <= 4000000000000000000.
Proof. intros Hx Hy. rewrite Z.abs_mul. change 4000000000000000000 with (2000000000 * 2000000000). apply Z.mul_le_mono_nonneg; lia. Qed.
Lemma cuspeq_ok f c1 c2 : okc c1 -> okc c2 -> exists b, cuspeq M f c1 c2 = Ok b /\ (b = true <-> ceq N f c1 c2).
Proof.
  destruct c1 as [p1 q1], c2 as [p2 q2]. unfold cusp_le, cusp. cbn [fst snd]. intros ((G1 & P1) & Bp1 & Bq1) ((G2 & P2) & Bp2 & Bq2).
  unfold cuspeq, rat_eq. pose proof (mulB p1 q2 Bp1 Bq2) as M1. pose proof (mulB p2 q1 Bp2 Bq1) as M2.
  rewrite mul64_ok by (clear - M1; u64; lia). rewrite bind_Ok. rewrite mul64_ok by (clear - M2; u64; lia). rewrite !bind_Ok.
  destruct (Z.eqb_spec (p1 * q2) (p2 * q1)) as [E|E].
  { exists true. split; [reflexivity|]. split; [|reflexivity]. intros _. left. destruct (path_cross p1 q1 p2 q2 G1 G2 E) as [[-> ->]|[-> ->]]; [apply g0_refl|].
    exists 1, 0, 0, 1, (-1). cbn [fst snd]. repeat split; auto; try ring. exists 0. ring. }
  clear M1 M2. rewrite !HG by (clear - Bq1 Bq2; u64; lia). rewrite !bind_Ok.
  destruct (Z.eqb_spec (Z.gcd q1 N) (Z.gcd q2 N)) as [EG|EG]; cbn [negb].
  2:{ exists false. split; [reflexivity|]. split; [discriminate|]. intros [H|[_ H]]; apply (g0_gcd N) in H; auto; cbn [rneg fst snd] in H; congruence. }
  destruct (bezout_long_ok p1 q1) as (s1 & r1 & -> & BE1 & Bs1 & _); [unfold sym64; u64; lia|unfold sym64; u64; lia|]. rewrite bind_Ok. rewrite G1 in BE1.
  assert (Bs1' : Z.abs s1 <= 2000000000) by (clear - Bs1 Bq1; lia). pose proof (mulB s1 q2 Bs1' Bq2) as M1. rewrite mul64_ok by (clear - M1; u64; lia). rewrite bind_Ok.
  destruct (bezout_long_ok p2 q2) as (s2 & r2 & -> & BE2 & Bs2 & _); [unfold sym64; u64; lia|unfold sym64; u64; lia|]. rewrite bind_Ok. rewrite G2 in BE2.
  assert (Bs2' : Z.abs s2 <= 2000000000) by (clear - Bs2 Bq2; lia). pose proof (mulB s2 q1 Bs2' Bq1) as M2. rewrite mul64_ok by (clear - M2; u64; lia). rewrite bind_Ok.
  pose proof (mulB q1 q2 Bq1 Bq2) as M3. rewrite mul64_ok by (clear - M3; u64; lia). rewrite bind_Ok. rewrite HG by (clear - M3; u64; lia). rewrite bind_Ok.
  pose proof (gcdN_pos N N1 (q1 * q2)) as GP. pose proof (g0_test N p1 q1 p2 q2 s1 r1 s2 r2 BE1 BE2) as T1.
  assert (BE2' : - p2 * - s2 + q2 * r2 = 1) by (rewrite <- BE2; ring). pose proof (g0_test N p1 q1 (- p2) q2 s1 r1 (- s2) r2 BE1 BE2') as T2.
  set (g := Z.gcd (q1 * q2) N) in *. clearbody g.
  assert (RM : forall x, in64 x -> rem64 x g = Ok (Z.rem x g) /\ (Z.rem x g = 0 <-> (g | x))).
  { intros x Hx. split; [apply rem64_ok; auto; lia|]. apply Z.rem_divide. lia. }
  rewrite sub64_ok by (clear - M1 M2; u64; lia). rewrite bind_Ok. destruct (RM (s1 * q2 - s2 * q1)) as [-> R1]; [clear - M1 M2; u64; lia|]. rewrite bind_Ok.
  replace (s1 * q2 - - s2 * q1) with (s1 * q2 + s2 * q1) in T2 by ring.
  destruct (Z.eqb_spec (Z.rem (s1 * q2 - s2 * q1) g) 0) as [Z1|Z1]; cbn [orb].
  { exists true. split; [reflexivity|]. split; [|reflexivity]. intros _. left. apply T1, R1, Z1. }
  destruct f; cbn [negb].
  - rewrite add64_ok by (clear - M1 M2; u64; lia). rewrite bind_Ok. destruct (RM (s1 * q2 + s2 * q1)) as [-> R2]; [clear - M1 M2; u64; lia|]. rewrite bind_Ok.
    eexists. split; [reflexivity|]. rewrite Z.eqb_eq, R2, <- T2. unfold ceq, rneg. cbn [fst snd]. split; [auto|]. intros [H|[_ H]]; [|exact H].
    exfalso. apply Z1, R1, T1, H.
  - exists false. split; [reflexivity|]. split; [discriminate|]. intros [H|[F _]]; [|discriminate]. exfalso. apply Z1, R1, T1, H.
Qed.
Lemma rneg_ok B c : cusp_le B c -> cusp_le B (rneg c).
Proof.
  destruct c as [p q]. unfold cusp_le, cusp, rneg. cbn [fst snd]. rewrite Z.gcd_opp_l, Z.abs_opp. tauto.
Qed.
Lemma rat_neg_ok c : okc c -> rat_neg c = Ok (rneg c).
Proof.
  intros H. pose proof (rneg_ok _ c H) as [[G P] [B1 B2]]. destruct c as [p q]. unfold rneg in *. cbn [fst snd] in *. unfold rat_neg.
  rewrite neg64_ok by (clear - B1; u64; lia). rewrite bind_Ok. unfold rat_make, rat_cancel.
  rewrite gcd_long_ok by (unfold sym64; u64; lia). rewrite bind_Ok, G. cbn [Z.ltb Z.compare]. change (1 <? 1) with false. cbv iota. rewrite bind_Ok.
  destruct (Z.ltb_spec q 0); [lia|reflexivity].
Qed.

(** ** lists of representatives *)
Lemma find_if_ok {A} (f : A -> res bool) (R : A -> Prop) l : (forall x, In x l -> exists b, f x = Ok b /\ (b = true <-> R x)) -> forall i,
  exists o, find_if f l i = Ok o /\ match o with
    | Some j => exists x, i <= j /\ nth_error l (Z.to_nat (j - i)) = Some x /\ R x
    | None => forall x, In x l -> ~ R x end.
Proof.
  intros H. induction l as [|a l IH]; intros i; cbn [find_if].
  - exists None. split; [reflexivity|]. intros x [].
  - destruct (H a (or_introl eq_refl)) as (b & -> & Hb). rewrite bind_Ok. destruct b.
    + exists (Some i). split; [reflexivity|]. exists a. split; [lia|]. rewrite Z.sub_diag. split; [reflexivity|]. now apply Hb.
    + destruct (IH (fun x Hx => H x (or_intror Hx)) (i + 1)) as (o & -> & Ho). exists o. split; [reflexivity|]. destruct o as [j|].
      * destruct Ho as (x & L & Hx & HR). exists x. split; [lia|]. split; [|exact HR]. replace (Z.to_nat (j - i)) with (S (Z.to_nat (j - (i + 1)))) by lia. exact Hx.
      * intros x [<-|Hx]; [|auto]. intros K. apply Hb in K. discriminate.
Qed.
(** the results of a sequence of calls, given what one call does *)
Section Calls.
Variable f : list rat -> rat -> res (Z * list rat).
Variable Good : list rat -> Prop.
Variable Res : list rat -> rat -> Z -> Prop.
Hypothesis call : forall l c, Good l -> okc c -> exists i l', f l c = Ok (i, l') /\ Good l' /\ (exists k, l' = l ++ k) /\ Res l' c i.
Hypothesis mono : forall l k c i, Res l c i -> Res (l ++ k) c i.
Lemma calls_ok cs : Forall okc cs -> forall l, Good l ->
  exists is l', calls f l cs = Ok (is, l') /\ Good l' /\ (exists k, l' = l ++ k) /\ Forall2 (Res l') cs is.
Proof.
  intros F. induction F as [|c cs Hc F IH]; intros l G; cbn [calls].
  - exists [], l. split; [reflexivity|]. split; [exact G|]. split; [exists []; now rewrite app_nil_r|constructor].
  - destruct (call l c G Hc) as (i & l1 & -> & G1 & (k1 & E1) & R1). rewrite bind_Ok. destruct (IH l1 G1) as (is & l2 & -> & G2 & (k2 & E2) & R2). rewrite bind_Ok.
    exists (i :: is), l2. split; [reflexivity|]. split; [exact G2|]. split; [exists (k1 ++ k2); now rewrite E2, E1, app_assoc|]. constructor; [rewrite E2; now apply mono|exact R2].
Qed.
End Calls.
Definition distinct (R : rat -> rat -> Prop) (l : list rat) : Prop := Forall okc l /\ ForallOrdPairs (fun x y => ~ R x y) l.
Lemma distinct_nth (R : rat -> rat -> Prop) l : (forall x y, R x y -> R y x) -> distinct R l ->
  forall i j x y, nth_error l i = Some x -> nth_error l j = Some y -> R x y -> i = j.
Proof.
  intros HS [_ D] i j x y Hi Hj K. destruct (Nat.lt_trichotomy i j) as [L|[L|L]]; [|exact L|]; exfalso.
  - exact (FOP_nth _ _ D _ _ _ _ Hi Hj L K).
  - exact (FOP_nth _ _ D _ _ _ _ Hj Hi L (HS _ _ K)).
Qed.
Lemma distinct_snoc (R : rat -> rat -> Prop) l c : (forall x y, R x y -> R y x) -> distinct R l -> okc c -> (forall x, In x l -> ~ R c x) -> distinct R (l ++ [c]).
Proof.
  intros HS [H1 H2] Hc K. split; [apply Forall_app; split; [auto|now constructor]|]. apply FOP_app; [auto|repeat constructor|].
  intros x y Hx [<-|[]] Q. apply (K x Hx). now apply HS.
Qed.
Definition pos_res (R : rat -> rat -> Prop) (l : list rat) (c : rat) (i : Z) : Prop := exists x, 1 <= i /\ nth_error l (Z.to_nat (i - 1)) = Some x /\ R c x.
Lemma nth_error_app_some {A} (l k : list A) n x : nth_error l n = Some x -> nth_error (l ++ k) n = Some x.
Proof. intros H. rewrite nth_error_app1; [exact H|]. apply nth_error_Some. congruence. Qed.
Lemma nth_last {A} (l : list A) c : nth_error (l ++ [c]) (Z.to_nat (Z.of_nat (length l) + 1 - 1)) = Some c.
Proof. replace (Z.to_nat (Z.of_nat (length l) + 1 - 1)) with (length l) by lia. rewrite nth_error_app2, Nat.sub_diag by lia. reflexivity. Qed.
Lemma index_call pf l c : distinct (ceq N pf) l -> okc c ->
  exists i l', cusp_index M pf l c = Ok (i, l') /\ distinct (ceq N pf) l' /\ (exists k, l' = l ++ k) /\ pos_res (ceq N pf) l' c i.
Proof.
  intros D Hc. pose proof D as [D1 D2]. rewrite Forall_forall in D1. unfold cusp_index.
  destruct (find_if_ok (cuspeq M pf c) (ceq N pf c) l (fun x Hx => cuspeq_ok pf c x Hc (D1 x Hx)) 0) as (o & -> & Ho). rewrite bind_Ok. destruct o as [j|].
  - destruct Ho as (x & L & Hx & HR). exists (1 + j), l. split; [reflexivity|]. split; [exact D|]. split; [exists []; now rewrite app_nil_r|].
    exists x. split; [lia|]. split; [|exact HR]. now replace (1 + j - 1) with (j - 0) by ring.
  - eexists _, _. split; [reflexivity|]. split; [apply distinct_snoc; auto; apply ceq_sym|]. split; [eauto|].
    exists c. split; [lia|]. split; [apply nth_last|apply ceq_refl].
Qed.
Lemma pos_mono R l k c i : pos_res R l c i -> pos_res R (l ++ k) c i.
Proof. intros (x & L & Hx & HR). exists x. split; [exact L|]. split; [now apply nth_error_app_some|exact HR]. Qed.
Lemma distinct_nil R : distinct R []. Proof. split; constructor. Qed.
Theorem index_calls pf cs : Forall okc cs -> exists is l, calls (cusp_index M pf) [] cs = Ok (is, l) /\ length is = length cs /\
  forall j k c c' i i', nth_error cs j = Some c -> nth_error is j = Some i -> nth_error cs k = Some c' -> nth_error is k = Some i' -> (i = i' <-> ceq N pf c c').
Proof.
  intros F. destruct (calls_ok (cusp_index M pf) (distinct (ceq N pf)) (pos_res (ceq N pf)) (index_call pf) (pos_mono _) cs F [] (distinct_nil _)) as (is & l & E & D & _ & R).
  exists is, l. split; [exact E|]. split; [symmetry; eapply F2_length; exact R|]. intros j k c c' i i' Hc Hi Hc' Hi'.
  destruct (F2_nth _ _ _ R _ _ Hc) as (i0 & Hi0 & (x & L & Hx & Rx)). rewrite Hi in Hi0. injection Hi0 as <-.
  destruct (F2_nth _ _ _ R _ _ Hc') as (i0' & Hi0' & (x' & L' & Hx' & Rx')). rewrite Hi' in Hi0'. injection Hi0' as <-. split.
  - intros <-. rewrite Hx in Hx'. injection Hx' as <-. apply (ceq_trans N pf _ x); [exact Rx|now apply ceq_sym].
  - intros K. assert (XX : ceq N pf x x') by (apply (ceq_trans N pf _ c); [now apply ceq_sym|]; now apply (ceq_trans N pf _ c')).
    pose proof (distinct_nth _ l (ceq_sym N pf) D _ _ _ _ Hx Hx' XX). lia.
Qed.
(** index_2: only classes with c ~ -c *)
Definition two_res (l : list rat) (c : rat) (i : Z) : Prop := (i = 0 /\ ~ g0eq N c (rneg c)) \/ (pos_res (ceq N false) l c i /\ g0eq N c (rneg c)).
Lemma ceq_false c c' : ceq N false c c' <-> g0eq N c c'.
Proof. unfold ceq. split; [intros [H|[F _]]; [auto|discriminate]|auto]. Qed.
Lemma index_2_call l c : distinct (ceq N false) l -> okc c ->
  exists i l', cusp_index_2 M l c = Ok (i, l') /\ distinct (ceq N false) l' /\ (exists k, l' = l ++ k) /\ two_res l' c i.
Proof.
  intros D Hc. unfold cusp_index_2. rewrite (rat_neg_ok c Hc), bind_Ok. destruct (cuspeq_ok false c (rneg c) Hc (rneg_ok _ _ Hc)) as (b & -> & Hb). rewrite bind_Ok, ceq_false in *.
  destruct b; cbn [negb].
  - destruct (index_call false l c D Hc) as (i & l' & E & D' & K & R). unfold cusp_index in E. rewrite E. exists i, l'. split; [reflexivity|]. split; [exact D'|]. split; [exact K|].
    right. split; [exact R|]. now apply Hb.
  - exists 0, l. split; [reflexivity|]. split; [exact D|]. split; [exists []; now rewrite app_nil_r|]. left. split; [reflexivity|]. intros Q. apply Hb in Q. discriminate.
Qed.
Theorem index_2_calls cs : Forall okc cs -> exists is l, calls (cusp_index_2 M) [] cs = Ok (is, l) /\ length is = length cs /\
  (forall j c i, nth_error cs j = Some c -> nth_error is j = Some i -> (i = 0 <-> ~ g0eq N c (rneg c))) /\
  forall j k c c' i i', nth_error cs j = Some c -> nth_error is j = Some i -> nth_error cs k = Some c' -> nth_error is k = Some i' -> i <> 0 -> i' <> 0 -> (i = i' <-> g0eq N c c').
Proof.
  intros F. destruct (calls_ok (cusp_index_2 M) (distinct (ceq N false)) two_res index_2_call) with (cs := cs) (l := @nil rat) as (is & l & E & D & _ & R); auto.
  { intros l k c i [H|[H K]]; [now left|right]. split; [now apply pos_mono|exact K]. }
  { apply distinct_nil. }
  exists is, l. split; [exact E|]. split; [symmetry; eapply F2_length; exact R|]. split.
  - intros j c i Hc Hi. destruct (F2_nth _ _ _ R _ _ Hc) as (i0 & Hi0 & K). rewrite Hi in Hi0. injection Hi0 as <-.
    destruct K as [[K1 K2]|[(x & L & _) K2]]; split; auto; intros; try lia; contradiction.
  - intros j k c c' i i' Hc Hi Hc' Hi' N0 N0'. rewrite <- ceq_false.
    destruct (F2_nth _ _ _ R _ _ Hc) as (i0 & Hi0 & K). rewrite Hi in Hi0. injection Hi0 as <-. destruct K as [[K _]|[(x & L & Hx & Rx) _]]; [contradiction|].
    destruct (F2_nth _ _ _ R _ _ Hc') as (i0' & Hi0' & K). rewrite Hi' in Hi0'. injection Hi0' as <-. destruct K as [[K _]|[(x' & L' & Hx' & Rx') _]]; [contradiction|]. split.
    + intros <-. rewrite Hx in Hx'. injection Hx' as <-. apply (ceq_trans N _ _ x); [exact Rx|now apply ceq_sym].
    + intros K. assert (XX : ceq N false x x') by (apply (ceq_trans N _ _ c); [now apply ceq_sym|]; now apply (ceq_trans N _ _ c')).
      pose proof (distinct_nth _ l (ceq_sym N false) D _ _ _ _ Hx Hx' XX). lia.
Qed.
(** index_1: signed indices *)
Definition one_res (l : list rat) (c : rat) (i : Z) : Prop :=
  (i = 0 /\ g0eq N c (rneg c)) \/
  (~ g0eq N c (rneg c) /\ ((exists x, 1 <= i /\ nth_error l (Z.to_nat (i - 1)) = Some x /\ g0eq N c x) \/ (exists x, 1 <= - i /\ nth_error l (Z.to_nat (- i - 1)) = Some x /\ g0eq N (rneg c) x))).
Lemma find_pm_ok c l : okc c -> Forall okc l -> forall i, 0 <= i ->
  exists j, find_pm M c (rneg c) l i = Ok j /\ ((j = 0 /\ forall x, In x l -> ~ g0eq N c x /\ ~ g0eq N (rneg c) x) \/
    (exists x, i + 1 <= j /\ nth_error l (Z.to_nat (j - 1 - i)) = Some x /\ g0eq N c x) \/ (exists x, i + 1 <= - j /\ nth_error l (Z.to_nat (- j - 1 - i)) = Some x /\ g0eq N (rneg c) x)).
Proof.
  intros Hc F. induction F as [|a l Ha F IH]; intros i Hi; cbn [find_pm].
  - exists 0. split; [reflexivity|]. left. split; [reflexivity|]. intros x [].
  - destruct (cuspeq_ok false c a Hc Ha) as (b & -> & Hb). rewrite bind_Ok, ceq_false in *. destruct b.
    + exists (i + 1). split; [reflexivity|]. right. left. exists a. split; [lia|]. replace (i + 1 - 1 - i) with 0 by ring. split; [reflexivity|now apply Hb].
    + destruct (cuspeq_ok false (rneg c) a (rneg_ok _ _ Hc) Ha) as (b & -> & Hb'). rewrite bind_Ok, ceq_false in *. destruct b.
      * exists (- (i + 1)). split; [reflexivity|]. right. right. exists a. split; [lia|]. replace (- - (i + 1) - 1 - i) with 0 by ring. split; [reflexivity|now apply Hb'].
      * destruct (IH (i + 1) ltac:(lia)) as (j & -> & [[-> K]|[(x & L & Hx & K)|(x & L & Hx & K)]]).
        -- exists 0. split; [reflexivity|]. left. split; [reflexivity|]. intros x [<-|Hx]; [|auto]. split; intros Q; [apply Hb in Q|apply Hb' in Q]; discriminate.
        -- exists j. split; [reflexivity|]. right. left. exists x. split; [lia|]. split; [|exact K]. replace (Z.to_nat (j - 1 - i)) with (S (Z.to_nat (j - 1 - (i + 1)))) by lia. exact Hx.
        -- exists j. split; [reflexivity|]. right. right. exists x. split; [lia|]. split; [|exact K]. replace (Z.to_nat (- j - 1 - i)) with (S (Z.to_nat (- j - 1 - (i + 1)))) by lia. exact Hx.
Qed.
Lemma index_1_call l c : distinct (ceq N true) l -> okc c ->
  exists i l', cusp_index_1 M l c = Ok (i, l') /\ distinct (ceq N true) l' /\ (exists k, l' = l ++ k) /\ one_res l' c i.
Proof.
  intros D Hc. pose proof D as [D1 D2]. unfold cusp_index_1. rewrite (rat_neg_ok c Hc), bind_Ok.
  destruct (cuspeq_ok false c (rneg c) Hc (rneg_ok _ _ Hc)) as (b & -> & Hb). rewrite bind_Ok, ceq_false in *. destruct b.
  - exists 0, l. split; [reflexivity|]. split; [exact D|]. split; [exists []; now rewrite app_nil_r|]. left. split; [reflexivity|]. now apply Hb.
  - assert (NS : ~ g0eq N c (rneg c)) by (intros Q; apply Hb in Q; discriminate).
    destruct (find_pm_ok c l Hc D1 0 ltac:(lia)) as (j & -> & K). rewrite bind_Ok. destruct (Z.eqb_spec j 0) as [J|J]; cbn [negb].
    + destruct K as [[_ K]|[(x & L & _)|(x & L & _)]]; [|lia|lia]. eexists _, _. split; [reflexivity|]. split.
      * apply distinct_snoc; auto; [apply ceq_sym|]. intros x Hx [Q|[_ Q]]; destruct (K x Hx) as [K1 K2]; [contradiction|]. apply K2. apply g0_neg in Q. now rewrite rneg2 in Q.
      * split; [eauto|]. right. split; [exact NS|]. left. exists c. split; [lia|]. split; [apply nth_last|apply g0_refl].
    + exists j, l. split; [reflexivity|]. split; [exact D|]. split; [exists []; now rewrite app_nil_r|]. right. split; [exact NS|].
      destruct K as [[K _]|[(x & L & Hx & K)|(x & L & Hx & K)]]; [contradiction| |]; rewrite Z.sub_0_r in Hx; [left|right]; exists x; auto.
Qed.
Theorem index_1_calls cs : Forall okc cs -> exists is l, calls (cusp_index_1 M) [] cs = Ok (is, l) /\ length is = length cs /\
  (forall j c i, nth_error cs j = Some c -> nth_error is j = Some i -> (i = 0 <-> g0eq N c (rneg c))) /\
  forall j k c c' i i', nth_error cs j = Some c -> nth_error is j = Some i -> nth_error cs k = Some c' -> nth_error is k = Some i' -> i <> 0 -> i' <> 0 ->
    (i = i' <-> g0eq N c c') /\ (i = - i' <-> g0eq N c (rneg c')).
Proof.
  intros F. destruct (calls_ok (cusp_index_1 M) (distinct (ceq N true)) one_res index_1_call) with (cs := cs) (l := @nil rat) as (is & l & E & D & _ & R); auto.
  { intros l k c i [H|[H K]]; [now left|right]. split; [exact H|]. destruct K as [(x & L & Hx & K)|(x & L & Hx & K)]; [left|right]; exists x; (split; [exact L|]; split; [now apply nth_error_app_some|exact K]). }
  { apply distinct_nil. }
  exists is, l. split; [exact E|]. split; [symmetry; eapply F2_length; exact R|]. split.
  - intros j c i Hc Hi. destruct (F2_nth _ _ _ R _ _ Hc) as (i0 & Hi0 & K). rewrite Hi in Hi0. injection Hi0 as <-.
    destruct K as [[K1 K2]|[K2 [(x & L & _)|(x & L & _)]]]; split; auto; intros; try lia; contradiction.
  - intros j k c c' i i' Hc Hi Hc' Hi' N0 N0'.
    (* normalise: i = s*n, c ~ s x_n *)
    assert (NORM : forall j c i, nth_error cs j = Some c -> nth_error is j = Some i -> i <> 0 -> ~ g0eq N c (rneg c) /\
      exists x, nth_error l (Z.to_nat (Z.abs i - 1)) = Some x /\ g0eq N c (if 0 <? i then x else rneg x)).
    { clear - R. intros j c i Hc Hi N0. destruct (F2_nth _ _ _ R _ _ Hc) as (i0 & Hi0 & K). rewrite Hi in Hi0. injection Hi0 as <-.
      destruct K as [[K _]|[K2 [(x & L & Hx & K)|(x & L & Hx & K)]]]; [contradiction| |]; (split; [exact K2|]); exists x.
      - rewrite Z.abs_eq by lia. destruct (Z.ltb_spec 0 i); [auto|lia].
      - rewrite Z.abs_neq by lia. destruct (Z.ltb_spec 0 i); [lia|]. split; [exact Hx|]. now apply g0_neg'. }
    destruct (NORM j c i Hc Hi N0) as (NS & x & Hx & Rx). destruct (NORM k c' i' Hc' Hi' N0') as (NS' & x' & Hx' & Rx'). clear NORM.
    assert (AB : ceq N true c c' -> Z.abs i = Z.abs i').
    { intros K. assert (C1 : ceq N true c x) by (destruct (0 <? i); [left; exact Rx|right; auto]). assert (C2 : ceq N true c' x') by (destruct (0 <? i'); [left; exact Rx'|right; auto]).
      assert (XX : ceq N true x x') by (apply (ceq_trans N _ _ c); [now apply ceq_sym|]; now apply (ceq_trans N _ _ c')).
      pose proof (distinct_nth _ l (ceq_sym N true) D _ _ _ _ Hx Hx' XX). lia. }
    assert (NX : ~ g0eq N x (rneg x)).
    { intros Q. apply NS. destruct (0 <? i).
      - apply (g0_trans N _ _ _ Rx). apply (g0_trans N _ _ _ Q). apply g0_neg. now apply g0_sym.
      - apply (g0_trans N _ _ _ Rx). apply g0_sym in Q. apply (g0_trans N _ _ _ Q). apply g0_neg in Rx. rewrite rneg2 in Rx. now apply g0_sym. }
    assert (SAME : Z.abs i = Z.abs i' -> x' = x) by (intros A; rewrite A in Hx; congruence).
    split; split.
    + intros <-. rewrite (SAME eq_refl) in Rx'. apply (g0_trans N _ _ _ Rx). now apply g0_sym.
    + intros K. pose proof (AB (or_introl K)) as A. rewrite (SAME A) in Rx'. destruct (Z.ltb_spec 0 i), (Z.ltb_spec 0 i'); try lia; exfalso; apply NX.
      * apply (g0_trans N _ c); [now apply g0_sym|]. now apply (g0_trans N _ c').
      * apply (g0_trans N _ c'); [now apply g0_sym|]. apply (g0_trans N _ c); [now apply g0_sym|exact Rx].
    + intros K. assert (A : Z.abs i = Z.abs i') by lia. rewrite (SAME A) in Rx'. apply (g0_trans N _ _ _ Rx). destruct (Z.ltb_spec 0 i), (Z.ltb_spec 0 i'); try lia.
      * apply g0_neg in Rx'. rewrite rneg2 in Rx'. now apply g0_sym.
      * apply g0_neg. now apply g0_sym.
    + intros K. pose proof (AB (or_intror (conj eq_refl K))) as A. rewrite (SAME A) in Rx'. destruct (Z.ltb_spec 0 i), (Z.ltb_spec 0 i'); try lia; exfalso; apply NX.
      * apply (g0_trans N _ c); [now apply g0_sym|]. apply (g0_trans N _ _ _ K). now apply g0_neg.
      * apply g0_neg in Rx'. rewrite rneg2 in Rx'. apply g0_sym. apply (g0_trans N _ c); [now apply g0_sym|]. now apply (g0_trans N _ _ _ K).
Qed.
End Cusps.
