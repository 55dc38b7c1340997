(** Proofs about the order of a point, linear relations and merging of points. *)
From Coq Require Import ZArith Znumtheory Zpow_facts Lia List Bool Permutation Sorted.
From Verif Require Import Base RatModel MArithModel MArithProofs GrpModel GrpLib GrpBG.
Import ListNotations.
Open Scope Z_scope.

(** *** Contracts of the factorisation routines *)
Definition pdivs_spec (pdivs : Z -> list Z) : Prop :=
  forall n, n <> 0 -> NoDup (pdivs n) /\ forall p, In p (pdivs n) <-> prime p /\ (p | n).
Definition posdivs_spec (posdivs : Z -> list Z) : Prop :=
  forall n, 0 < n -> forall d, In d (posdivs n) <-> 0 < d /\ (d | n).

(** *** Arithmetic *)
Lemma prime_n1 p : prime p -> (p | 1) -> False.
Proof. intros P D. apply Z.divide_1_r_nonneg in D; [subst; exact (not_prime_1 P)|]. pose proof (prime_ge_2 p P); lia. Qed.
Lemma no_prime_one r : 0 < r -> (forall p, prime p -> ~ (p | r)) -> r = 1.
Proof.
  intros H N. destruct (Z.eq_dec r 1) as [|D]; [assumption|]. exfalso.
  assert (E : forall n, 0 <= n -> 1 < n -> exists p, prime p /\ (p | n)).
  { apply (Zlt_0_ind (fun n => 1 < n -> exists p, prime p /\ (p | n))).
    intros m IH _ M. destruct (prime_dec m) as [P|NP]; [exists m; split; [exact P|apply Z.divide_refl]|].
    destruct (not_prime_divide m M NP) as (d & B & Dv). destruct (IH d ltac:(lia) ltac:(lia)) as (p & P & Pd).
    exists p. split; [exact P|]. apply Z.divide_trans with d; assumption. }
  destruct (E r ltac:(lia) ltac:(lia)) as (p & P & Pd). apply (N p P Pd).
Qed.
Lemma split_p p r : prime p -> 0 < r -> exists f r', 0 <= f /\ r = r' * p ^ f /\ 0 < r' /\ ~ (p | r').
Proof.
  intros P R. destruct (divide_out_ok r p ltac:(lia)) as (r' & f & _ & F & E & N).
  { pose proof (prime_ge_2 p P). lia. }
  exists f, r'. split; [exact F|]. split; [exact E|]. split; [|exact N].
  assert (0 < p ^ f) by (apply Z.pow_pos_nonneg; [pose proof (prime_ge_2 p P); lia|lia]). nia.
Qed.
Lemma rp_sym a b : rel_prime a b -> rel_prime b a. Proof. apply rel_prime_sym. Qed.
Lemma rp_prime a b : 0 < a -> (forall p, prime p -> (p | a) -> (p | b) -> False) -> rel_prime a b.
Proof.
  intros A H. apply Zgcd_1_rel_prime. apply no_prime_one.
  - pose proof (Z.gcd_nonneg a b). assert (Z.gcd a b <> 0) by (intros E; apply Z.gcd_eq_0_l in E; lia). lia.
  - intros p P D. apply (H p P); eapply Z.divide_trans; [exact D|apply Z.gcd_divide_l|exact D|apply Z.gcd_divide_r].
Qed.
Lemma div_mul_cancel a b : 0 < b -> (b | a) -> a / b * b = a.
Proof. intros B [c ->]. rewrite Z.div_mul by lia. reflexivity. Qed.
Lemma div_pos' a b : 0 < a -> 0 < b -> (b | a) -> 0 < a / b.
Proof. intros A B [c ->]. rewrite Z.div_mul by lia. nia. Qed.
Lemma div_le' a b : 0 < b -> (a | b) -> a <= b.
Proof. intros. apply Z.divide_pos_le; assumption. Qed.
Lemma lcm_prod m n gg : 0 < m -> 0 < n -> gg = Z.gcd m n -> m * n / gg = Z.lcm m n.
Proof.
  intros M N ->. unfold Z.lcm. rewrite Z.abs_eq.
  - apply Z.divide_div_mul_exact; [|apply Z.gcd_divide_r]. intros E. apply Z.gcd_eq_0_l in E. lia.
  - apply Z.mul_nonneg_nonneg; [lia|]. apply Z.div_pos; [lia|]. pose proof (Z.gcd_nonneg m n).
    assert (Z.gcd m n <> 0) by (intros E; apply Z.gcd_eq_0_l in E; lia). lia.
Qed.

(** *** tidy_lcm *)
Lemma tidy_ok m n : 0 < m -> 0 < n -> exists m' n', tidy_lcm m n = Ok (m', n', Z.lcm m n) /\
  0 < m' /\ 0 < n' /\ (m' | m) /\ (n' | n) /\ rel_prime m' n' /\ m' * n' = Z.lcm m n.
Proof.
  intros M N. unfold tidy_lcm. cbv zeta. set (gg := Z.gcd m n).
  assert (G0 : 0 < gg).
  { unfold gg. pose proof (Z.gcd_nonneg m n). assert (Z.gcd m n <> 0) by (intros E; apply Z.gcd_eq_0_l in E; lia). lia. }
  rewrite !zz_div_ok by lia. rewrite !bind_Ok. rewrite (lcm_prod m n gg M N eq_refl).
  set (n1 := n / gg). set (m1 := m / gg).
  assert (EN : n = n1 * gg) by (symmetry; apply div_mul_cancel; [lia|apply Z.gcd_divide_r]).
  assert (EM : m = m1 * gg) by (symmetry; apply div_mul_cancel; [lia|apply Z.gcd_divide_l]).
  assert (RP : rel_prime m1 n1) by (apply Zgcd_1_rel_prime, Z.gcd_div_gcd; [lia|reflexivity]).
  assert (N1 : 0 < n1) by nia. assert (M1 : 0 < m1) by nia.
  assert (LC : Z.lcm m n = m * n1).
  { unfold Z.lcm. rewrite Z.abs_eq; [reflexivity|]. fold gg n1. nia. }
  destruct (while_total tidy_step
    (fun s => 0 < fst s /\ (exists t, 0 < t /\ m = fst s * t /\ forall p, prime p -> (p | t) -> (p | n1)) /\
       0 < snd s /\ (snd s | fst s) /\ (snd s | n1) /\ forall p, prime p -> (p | fst s) -> (p | n1) -> (p | snd s))
    (fun r => 0 < r /\ (exists t, 0 < t /\ m = r * t /\ forall p, prime p -> (p | t) -> (p | n1)) /\ rel_prime r n1)
    (fun s => fst s)) with (n := zfuel m) (s := (m, Z.gcd m n1)) as (r & ER & R0 & (t & T0 & ET & PT) & RR).
  - intros [mm h] (A & _). cbn [fst] in *. lia.
  - intros [mm h] (A & (t & T0 & ET & PT) & H0 & HD & HN & PH). cbn [fst snd] in *. unfold tidy_step.
    destruct (Z.eqb_spec h 1) as [->|NE].
    + left. eexists. split; [reflexivity|]. split; [exact A|]. split; [exists t; auto|].
      apply rp_prime; [exact A|]. intros p P D1 D2. pose proof (PH p P D1 D2) as X. exact (prime_n1 p P X).
    + rewrite zz_div_ok by lia. rewrite bind_Ok. right. eexists. split; [reflexivity|]. cbn [fst snd].
      pose proof (div_mul_cancel mm h H0 HD) as EH. set (mh := mm / h) in *.
      assert (MH : 0 < mh) by nia.
      assert (G1 : 0 < Z.gcd mh h).
      { pose proof (Z.gcd_nonneg mh h). assert (Z.gcd mh h <> 0) by (intros E; apply Z.gcd_eq_0_l in E; lia). lia. }
      split; [|clear - EH MH NE H0; nia]. split; [exact MH|]. split.
      * exists (t * h). split; [clear - T0 H0; nia|]. split; [rewrite ET, <- EH; ring|].
        intros p P D. apply prime_mult in D; [|exact P]. destruct D as [D|D]; [apply PT; assumption|].
        apply Z.divide_trans with h; assumption.
      * split; [exact G1|]. split; [apply Z.gcd_divide_l|].
        split; [apply Z.divide_trans with h; [apply Z.gcd_divide_r|exact HN]|].
        intros p P D1 D2. apply Z.gcd_greatest; [exact D1|]. apply PH; [exact P| |exact D2].
        rewrite <- EH. apply Z.divide_mul_l. exact D1.
  - cbn [fst snd]. split; [exact M|]. split.
    + exists 1. split; [lia|]. split; [ring|]. intros p P D. exfalso. exact (prime_n1 p P D).
    + split; [|split; [apply Z.gcd_divide_l|split; [apply Z.gcd_divide_r|intros; apply Z.gcd_greatest; assumption]]].
      pose proof (Z.gcd_nonneg m n1). assert (Z.gcd m n1 <> 0) by (intros E; apply Z.gcd_eq_0_l in E; lia). lia.
  - cbn [fst]. pose proof (zfuel_gt m). lia.
  - rewrite ER, bind_Ok, zz_div_ok by lia. rewrite bind_Ok.
    assert (EL : Z.lcm m n / r = t * n1).
    { rewrite LC, ET. replace (r * t * n1) with (t * n1 * r) by ring. apply Z.div_mul. lia. }
    rewrite EL. exists r, (t * n1). split; [reflexivity|]. split; [exact R0|]. split; [clear - T0 N1; nia|].
    split; [exists t; rewrite ET; ring|]. split.
    + rewrite EN, Z.mul_comm. apply Z.mul_divide_mono_l. apply (Gauss t m1).
      * rewrite <- EM. exists r. exact ET.
      * apply rp_prime; [exact T0|]. intros p P D1 D2. apply PT in D1; [|exact P].
        destruct RP as [_ _ RPG]. specialize (RPG p D2 D1). exact (prime_n1 p P RPG).
    + split; [|rewrite LC, ET; ring]. apply rel_prime_mult; [|exact RR].
      apply rp_prime; [exact R0|]. intros p P D1 D2. apply PT in D2; [|exact P].
      destruct RR as [_ _ RPG]. specialize (RPG p D1 D2). exact (prime_n1 p P RPG).
Qed.

(** *** The Hasse interval *)
Lemma hasse_ok q : 2 <= q -> let '(l, u) := hasse_bounds q in 1 <= l <= u /\ forall n, l <= n <= u <-> (q + 1 - n) ^ 2 <= 4 * q.
Proof.
  intros Q. unfold hasse_bounds. cbv zeta. set (u := Z.sqrt (4 * q)).
  pose proof (Z.sqrt_spec (4 * q) ltac:(lia)) as [S1 S2]. fold u in S1, S2. pose proof (Z.sqrt_nonneg (4 * q)) as S0. fold u in S0.
  assert (U : u < q + 1) by nia.
  destruct (Z.ltb_spec (q + 1 - u) 0); [lia|]. split; [lia|]. intros n. split; intros H1; nia.
Qed.

Section G.
Variable g : grp.
Hypothesis GG : is_grp g.
Notation "P +' Q" := (gadd g P Q) (at level 50, left associativity).
Notation "-' P" := (gneg g P) (at level 35, right associativity).
Notation "0'" := (gz g).
Notation mul := (mul g).
Notation is_order := (is_order g).

(** *** The order of a point from a multiple *)
Section Order.
Variable pdivs : Z -> list Z.
Hypothesis PD : pdivs_spec pdivs.

Lemma ord_loop p Q f ans n : prime p -> 0 <= f -> 0 < ans -> is_order Q (p ^ f) -> ans * p ^ f < 2 ^ Z.of_nat n ->
  while (ord_step g p) n (Q, ans) = Ok (ans * p ^ f).
Proof.
  intros P F A O FU. pose proof (prime_ge_2 p P) as P2.
  destruct (while_total (ord_step g p) (fun s => exists i, 0 <= i <= f /\ fst s = mul (p ^ i) Q /\ snd s = ans * p ^ i)
    (fun r => r = ans * p ^ f)
    (fun s => ans * p ^ f - snd s)) with (n := n) (s := (Q, ans)) as (r & E & ->); [| | | |exact E].
  - intros [H a] (i & B & _ & E2). cbn [snd] in *. rewrite E2.
    assert (p ^ i <= p ^ f) by (apply Z.pow_le_mono_r; lia). nia.
  - intros [H a] (i & B & E1 & E2). cbn [fst snd] in *. unfold ord_step.
    assert (PI : 0 < p ^ i) by (apply Z.pow_pos_nonneg; lia).
    destruct (is0 g H) eqn:Z0.
    + left. eexists. split; [reflexivity|]. apply (is0_iff g GG) in Z0. rewrite E1 in Z0. apply O in Z0.
      apply Z.divide_pos_le in Z0; [|lia]. assert (~ i < f).
      { intros L. assert (p ^ i < p ^ f) by (apply Z.pow_lt_mono_r; lia). lia. }
      replace f with i by lia. exact E2.
    + right. apply (is0_false g GG) in Z0. eexists. split; [reflexivity|]. cbn [fst snd].
      assert (i <> f). { intros ->. apply Z0. rewrite E1. apply O. apply Z.divide_refl. }
      split; [|rewrite E2; nia]. exists (i + 1). split; [lia|]. rewrite Z.pow_add_r, Z.pow_1_r by lia.
      rewrite (pt_mul_ok g GG), E1, E2, (Z.mul_comm (p ^ i) p), (mul_mul g GG). split; [reflexivity|ring].
  - exists 0. cbn [fst snd]. split; [lia|]. rewrite Z.pow_0_r, (mul_1 g GG). split; [reflexivity|ring].
  - cbn [snd]. lia.
Qed.

Lemma ord_primes_ok mult P n : 0 < mult -> is_order P n -> (n | mult) -> forall ps ans r,
  NoDup ps -> (forall p, In p ps -> prime p) -> 0 < ans -> 0 < r -> n = ans * r ->
  (forall p, prime p -> (p | r) -> In p ps) -> (forall p, In p ps -> ~ (p | ans)) ->
  ord_primes g ps mult P ans = Ok n.
Proof.
  intros M0 [N0 O] NM. induction ps as [|p ps IH]; intros ans r ND PP A0 R0 E PR PA; cbn [ord_primes].
  - rewrite E, (no_prime_one r R0), Z.mul_1_r; [reflexivity|]. intros p Pp D. exact (PR p Pp D).
  - assert (Pp : prime p) by (apply PP; left; reflexivity). pose proof (prime_ge_2 p Pp) as P2.
    destruct (divide_out_ok mult p ltac:(lia) ltac:(lia)) as (m & e & -> & E0 & EM & ND2). rewrite bind_Ok, (pt_mul_ok g GG).
    destruct (split_p p r Pp R0) as (f & r' & F0 & ER & R' & NR).
    assert (PF : 0 < p ^ f) by (apply Z.pow_pos_nonneg; lia).
    assert (PE : 0 < p ^ e) by (apply Z.pow_pos_nonneg; lia).
    assert (NN : n = ans * r' * p ^ f) by (rewrite E, ER; ring).
    assert (PC : forall x, ~ (p | x) -> forall k, 0 <= k -> rel_prime (p ^ k) x).
    { intros x X k K. apply rel_prime_sym, rel_prime_Zpower_r; [exact K|].
      apply rel_prime_sym. apply prime_rel_prime; assumption. }
    assert (NA : ~ (p | ans * r')).
    { intros D. apply prime_mult in D; [|exact Pp]. destruct D as [D|D]; [|exact (NR D)]. apply (PA p); [left; reflexivity|exact D]. }
    assert (OQ : is_order (mul m P) (p ^ f)).
    { split; [exact PF|]. intros k. rewrite <- (mul_mul g GG), O. split; intros D.
      - apply (Gauss (p ^ f) m); [|apply PC; assumption]. rewrite Z.mul_comm. apply Z.divide_trans with n; [|exact D].
        rewrite NN. apply Z.divide_factor_r.
      - destruct D as [c ->]. rewrite NN. replace (c * p ^ f * m) with (c * m * p ^ f) by ring. apply Z.mul_divide_mono_r.
        apply Z.divide_mul_r. apply (Gauss _ (p ^ e)).
        + replace (p ^ e * m) with mult by (rewrite EM at 1; ring). apply Z.divide_trans with n; [|exact NM]. rewrite NN. apply Z.divide_factor_l.
        + apply rel_prime_sym, PC; assumption. }
    assert (LE : ans * p ^ f <= mult).
    { apply Z.divide_pos_le; [exact M0|]. apply Z.divide_trans with n; [|exact NM]. rewrite NN. exists r'. ring. }
    rewrite (ord_loop p (mul m P) f ans (zfuel mult) Pp F0 A0 OQ); [|pose proof (zfuel_gt mult); lia].
    rewrite bind_Ok. inversion ND as [|? ? NI ND']; subst. apply (IH _ r').
    + exact ND'.
    + intros x X. apply PP. right. exact X.
    + nia.
    + exact R'.
    + ring.
    + intros x X D. destruct (PR x X (Z.divide_mul_l _ _ (p ^ f) D)) as [<-|I]; [contradiction|exact I].
    + intros x X D. assert (PX : prime x) by (apply PP; right; exact X). apply prime_mult in D; [|exact PX]. destruct D as [D|D].
      * apply (PA x); [right; exact X|exact D].
      * assert (x = p) by (apply (prime_power_prime x p f F0 PX Pp) in D; assumption).
        subst x. contradiction.
Qed.

Lemma order_mult_ok P mult : 0 < mult -> mul mult P = 0' -> exists n, order_mult g pdivs P mult = Ok n /\ is_order P n.
Proof.
  intros M0 E. destruct (order_exists g GG P mult M0 E) as (n & O & D). unfold order_mult.
  destruct (is0 g P) eqn:Z0.
  - apply (is0_iff g GG) in Z0. exists 1. split; [reflexivity|]. apply (order_1 g GG). exact Z0.
  - exists n. split; [|exact O]. destruct (PD mult ltac:(lia)) as [ND IN].
    apply (ord_primes_ok mult P n M0 O D (pdivs mult) 1 n).
    + exact ND.
    + intros p I. apply IN in I. apply I.
    + lia.
    + apply O.
    + ring.
    + intros p Pp Dp. apply IN. split; [exact Pp|]. apply Z.divide_trans with n; assumption.
    + intros p I D1. apply IN in I. exact (prime_n1 p (proj1 I) D1).
Qed.
Lemma order_bounds_ok P lower upper : 1 <= lower -> (exists N, lower <= N <= upper /\ mul N P = 0') ->
  exists n, order_bounds g pdivs P lower upper = Ok n /\ is_order P n.
Proof.
  intros L (N & B & E). unfold order_bounds. destruct (bg_ok g GG P 0' lower upper ltac:(lia)) as (r & -> & R). rewrite bind_Ok.
  destruct R as [(-> & R)|(R1 & R2 & _)]; [exfalso; exact (R N B E)|]. apply order_mult_ok; [lia|exact R2].
Qed.
(** Hasse's theorem, as an assumption on a point: some integer in the Hasse interval kills it *)
Definition hasse_pt (q : Z) (P : el g) : Prop := exists N, (q + 1 - N) ^ 2 <= 4 * q /\ mul N P = 0'.
Lemma order_point_ok q P : 2 <= q -> hasse_pt q P -> exists n, order_point g pdivs q P = Ok n /\ is_order P n.
Proof.
  intros Q (N & B & E). unfold order_point. pose proof (hasse_ok q Q) as H. destruct (hasse_bounds q) as [l u].
  destruct H as [H1 H2]. apply order_bounds_ok; [lia|]. exists N. split; [apply H2; exact B|exact E].
Qed.

(** *** merge_points_1 *)
Lemma merge1_ok q P a Q b : 2 <= q -> is_order P a -> is_order Q b -> hasse_pt q Q ->
  exists R, merge1 g pdivs q P a Q = Ok (R, Z.lcm a b) /\ is_order R (Z.lcm a b).
Proof.
  intros Q2 OP OQ HQ. pose proof (proj1 OP) as A0. pose proof (proj1 OQ) as B0. unfold merge1. rewrite (pt_mul_ok g GG).
  destruct (is0 g (mul a Q)) eqn:Z0.
  - apply (is0_iff g GG) in Z0. apply OQ in Z0. exists P.
    assert (EL : Z.lcm a b = a) by (rewrite Z.lcm_comm; apply Z.divide_lcm_eq_r; [lia|exact Z0]). rewrite EL. split; [reflexivity|exact OP].
  - destruct (order_point_ok q Q Q2 HQ) as (b' & -> & OB). rewrite (order_unique g Q b' b OB OQ) in *. clear b' OB.
    rewrite bind_Ok, zz_mod_ok by lia. rewrite bind_Ok. destruct (Z.eqb_spec (b mod a) 0) as [D|ND].
    + apply Z.mod_divide in D; [|lia]. exists Q.
      assert (EL : Z.lcm a b = b) by (apply Z.divide_lcm_eq_r; [lia|exact D]). rewrite EL. split; [reflexivity|exact OQ].
    + destruct (tidy_ok a b A0 B0) as (a' & b' & -> & A' & B' & DA & DB & RP & EL). rewrite bind_Ok. cbv beta iota.
      rewrite !zz_div_ok by lia. rewrite !bind_Ok, !(pt_mul_ok g GG). eexists. split; [reflexivity|].
      rewrite <- EL. apply (order_sum g GG); [| |exact RP]; apply (order_div g GG); try (apply div_pos'; assumption);
        rewrite div_mul_cancel by assumption; assumption.
Qed.
End Order.
End G.
