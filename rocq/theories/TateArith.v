(** Divisibility facts for Tate's algorithm *)
From Coq Require Import ZArith Znumtheory Zpow_facts Lia List Bool.
From Verif Require Import Base RatModel MArithModel MArithProofs LegendreSpec SqrtModProofs CurveModel CurveProofs TateModel TateSpec.
Import ListNotations.
Open Scope Z_scope.

Lemma dc1 m x a e : (m | x) -> e = a * x -> (m | e).
Proof. intros H ->. apply Z.divide_mul_r. exact H. Qed.
Lemma dc2 m x y a b e : (m | x) -> (m | y) -> e = a * x + b * y -> (m | e).
Proof. intros H1 H2 ->. apply Z.divide_add_r; apply Z.divide_mul_r; assumption. Qed.
Lemma dc3 m x y z a b c e : (m | x) -> (m | y) -> (m | z) -> e = a * x + b * y + c * z -> (m | e).
Proof. intros H1 H2 H3 ->. repeat apply Z.divide_add_r; apply Z.divide_mul_r; assumption. Qed.
Lemma dc4 m x y z w a b c d e : (m | x) -> (m | y) -> (m | z) -> (m | w) ->
  e = a * x + b * y + c * z + d * w -> (m | e).
Proof. intros H1 H2 H3 H4 ->. repeat apply Z.divide_add_r; apply Z.divide_mul_r; assumption. Qed.
Lemma dself m : (m | m).
Proof. apply Z.divide_refl. Qed.

Lemma pcancel p a x : prime p -> ~ (p | a) -> (p | a * x) -> (p | x).
Proof. intros P N H. apply prime_mult in H as [H|H]; [contradiction|exact H|exact P]. Qed.
Lemma psq p x : prime p -> (p | x * x) -> (p | x).
Proof. intros P H. apply prime_mult in H as [H|H]; auto. Qed.
Lemma p0 p : prime p -> 2 <= p.
Proof. intros P. apply prime_ge_2. exact P. Qed.
Lemma pscale m p x : m <> 0 -> (m * p | m * x) <-> (p | x).
Proof. intros N. split; intros H; [apply Z.mul_divide_cancel_l in H; auto|apply Z.mul_divide_mono_l; auto]. Qed.
Lemma pcancel_pow p k a x : prime p -> ~ (p | a) -> (p ^ k | a * x) -> (p ^ k | x).
Proof.
  intros P N H. destruct (Z.neg_nonneg_cases k) as [K|K].
  { rewrite Z.pow_neg_r in * by lia. destruct H as [q E]. rewrite Z.mul_0_r in E.
    apply Z.mul_eq_0 in E as [-> | ->]; [|apply Z.divide_0_r]. exfalso. apply N. apply Z.divide_0_r. }
  apply Gauss with a; [exact H|]. apply rel_prime_sym. apply rel_prime_Zpower_r; [exact K|].
  apply rel_prime_sym. apply prime_rel_prime; assumption.
Qed.
Lemma psq3 p x : prime p -> (p ^ 3 | x * x) -> (p ^ 2 | x).
Proof.
  intros P H. pose proof (p0 p P) as G.
  assert (H1 : (p | x)).
  { apply psq; [exact P|]. eapply Z.divide_trans; [|exact H]. exists (p ^ 2). ring. }
  destruct H1 as [y ->]. replace (y * p * (y * p)) with (p ^ 2 * (y * y)) in H by ring.
  replace (p ^ 3) with (p ^ 2 * p) in H by ring.
  apply pscale in H; [|apply Z.pow_nonzero; lia]. apply psq in H; [|exact P]. destruct H as [z ->].
  exists z. ring.
Qed.
Lemma ple p j k x : 0 <= j <= k -> (p ^ k | x) -> (p ^ j | x).
Proof.
  intros [J K] H. eapply Z.divide_trans; [|exact H]. exists (p ^ (k - j)).
  rewrite <- Z.pow_add_r by lia. f_equal. lia.
Qed.
Lemma odd_prime p : prime p -> p <> 2 -> Z.even p = false /\ ~ (p | 2) /\ ~ (p | 4).
Proof.
  intros P N. split.
  { destruct (Z.even p) eqn:E; [|reflexivity]. exfalso. apply N. symmetry. apply prime_div_prime; [exact prime_2|exact P|].
    apply Z.even_spec in E as [q E]. exists q. lia. }
  assert (H : ~ (p | 2)).
  { intros D. apply Z.divide_pos_le in D; [|lia]. pose proof (p0 p P). lia. }
  split; [exact H|]. intros D. apply H. apply psq; [exact P|exact D].
Qed.
Lemma not_div_3 p : prime p -> p <> 2 -> p <> 3 -> ~ (p | 3).
Proof.
  intros P N2 N3 D. apply Z.divide_pos_le in D; [|lia]. pose proof (p0 p P). lia.
Qed.
Lemma even_div x : (2 | x) <-> Z.even x = true.
Proof. rewrite Z.even_spec. split; intros [q E]; exists q; lia. Qed.

(** zz_div of a multiple *)
Lemma zdiv_eq a b q : b <> 0 -> a = b * q -> zz_div a b = Ok q.
Proof. intros N ->. rewrite zz_div_ok by exact N. f_equal. rewrite Z.mul_comm. apply Z.div_mul. exact N. Qed.
Lemma div_zb f n : exists b, div_z f n = Ok b /\ ((b = true /\ (f | n)) \/ (b = false /\ ~ (f | n))).
Proof.
  destruct (div_z_ok f n) as (b & E & H). exists b. split; [exact E|].
  destruct b; [left|right]; (split; [reflexivity|]); [apply H; reflexivity|].
  intros D. apply H in D. discriminate.
Qed.
Lemma mod_zc a p : prime p -> exists r, mod_z a p = Ok r /\ (p | r - a).
Proof.
  intros P. pose proof (p0 p P). destruct (mod_z_ok a p) as (c & E & H1); [lia|]. exists c. split; [exact E|].
  destruct H1 as (H1 & _). apply (dc1 p _ (-1) _ H1). ring.
Qed.
Lemma val_lt p x k : prime p -> 0 <= k <= 99999 ->
  exists v, val_z p x = Ok v /\ ((v <? k) = true /\ ~ (p ^ k | x) \/ (v <? k) = false /\ (p ^ k | x)).
Proof.
  intros P K. pose proof (p0 p P). destruct (Z.eq_dec x 0) as [->|N].
  - exists 99999. split; [reflexivity|]. right. split; [apply Z.ltb_ge; lia|apply Z.divide_0_r].
  - destruct (val_z_ok p x N) as (v & E & V0 & V1 & V2); [lia|]. exists v. split; [exact E|].
    destruct (Z.ltb_spec v k) as [L|L]; [left|right]; (split; [reflexivity|]).
    + intros D. apply V2. apply ple with k; [lia|exact D].
    + apply ple with v; [lia|exact V1].
Qed.

Section Roots.
Variable srm : Z -> Z -> Z.
Hypothesis S2 : srm 1 2 = 1.
Lemma root2 a : root srm a 2 2 = Ok (a mod 2).
Proof.
  unfold root. rewrite zz_mod_ok by lia. rewrite bind_Ok.
  destruct (Z.eqb_spec (a mod 2) 0) as [E|E]; [reflexivity|]. cbn [Z.eqb]. f_equal.
  pose proof (Z.mod_pos_bound a 2 ltac:(lia)). assert (a mod 2 = 1) as -> by lia.
  unfold sqrt_mod_p. rewrite S2. reflexivity.
Qed.
Lemma root3 a : root srm a 3 3 = Ok (a mod 3).
Proof.
  unfold root. rewrite zz_mod_ok by lia. rewrite bind_Ok.
  destruct (Z.eqb_spec (a mod 3) 0) as [E|E]; [reflexivity|].
  pose proof (Z.mod_pos_bound a 3 ltac:(lia)).
  assert (a mod 3 = 1 \/ a mod 3 = 2) as [-> | ->] by lia; reflexivity.
Qed.
End Roots.

Lemma mod_c a p : 0 < p -> (p | a mod p - a).
Proof. intros H. exists (- (a / p)). pose proof (Z_div_mod_eq_full a p). lia. Qed.

Lemma rootsexist_ok a b c p : prime p -> ~ (p | a) ->
  exists e, rootsexist a b c p = Ok e /\ (e = true <-> exists x, (p | a * x ^ 2 + b * x + c)).
Proof.
  intros P Na. pose proof (p0 p P) as G. unfold rootsexist.
  destruct (Z.eq_dec p 2) as [->|N2].
  { cbn [Z.even]. rewrite zz_mod_ok by lia. rewrite bind_Ok. eexists. split; [reflexivity|].
    rewrite Z.eqb_eq. rewrite Z.mod_divide by lia. rewrite even_div in *. rewrite !Z.even_mul.
    split.
    - intros H. destruct (Z.even c) eqn:Ec.
      + exists 0. rewrite even_div. rewrite !Z.even_add, !Z.even_mul, Ec. destruct (Z.even b), (Z.even a); reflexivity.
      + exists 1. rewrite even_div. rewrite !Z.even_add, !Z.even_mul, Ec.
        destruct (Z.even a); [exfalso; apply Na; reflexivity|]. destruct (Z.even b); [reflexivity|discriminate].
    - intros [x H]. rewrite even_div in H. rewrite !Z.even_add, !Z.even_mul, Z.even_pow in H by lia.
      destruct (Z.even a); [exfalso; apply Na; reflexivity|].
      destruct (Z.even b), (Z.even c), (Z.even x); try reflexivity; discriminate. }
  destruct (odd_prime p P N2) as (Ev & D2 & D4). rewrite Ev.
  rewrite zz_mod_ok by lia. rewrite bind_Ok. destruct (Z.eqb_spec (a mod p) 0) as [E|E].
  { exfalso. apply Na. apply Z.mod_divide; [lia|exact E]. }
  rewrite !zz_mod_ok by lia. rewrite !bind_Ok.
  destruct (mod_c a p ltac:(lia)) as [ka Ea]. destruct (mod_c b p ltac:(lia)) as [kb Eb].
  destruct (mod_c c p ltac:(lia)) as [kc Ec].
  set (A := a mod p) in *. set (B := b mod p) in *. set (C := c mod p) in *.
  destruct (Z.eqb_spec C 0) as [E0|E0].
  { exists true. split; [reflexivity|]. split; [|reflexivity]. intros _. exists 0. exists (- kc). lia. }
  destruct (legendre_prime (B * B - 4 * A * C) p P N2) as (s & -> & L0 & L1 & L2). rewrite bind_Ok.
  exists (0 <=? s). split; [reflexivity|].
  assert (DB : exists k, B * B - 4 * A * C = b * b - 4 * a * c + k * p).
  { exists (kb * (B + b) - 4 * ka * C - 4 * a * kc).
    replace A with (a + ka * p) by lia. replace B with (b + kb * p) by lia. replace C with (c + kc * p) by lia. ring. }
  destruct DB as [k DB].
  rewrite Z.leb_le. split.
  - intros Hs. assert (R : exists y, (p | y * y - (b * b - 4 * a * c))).
    { destruct (Zdivide_dec p (B * B - 4 * A * C)) as [D|D].
      - exists 0. apply (dc2 p (B * B - 4 * A * C) p (-1) k); [exact D|apply dself|]. rewrite DB. ring.
      - destruct (Zdivide_dec p (B * B - 4 * A * C)) as [D'|_]; [contradiction|].
        destruct (Z.eq_dec s (-1)) as [->|Ns]; [lia|].
        assert (X : ~ ~ exists x, (p | x * x - (B * B - 4 * A * C))).
        { intros X. apply Ns. apply L2; assumption. }
        (* existence of a square root modulo p is decidable *)
        assert (Dec : (exists x, (p | x * x - (B * B - 4 * A * C))) \/ ~ (exists x, (p | x * x - (B * B - 4 * A * C)))).
        { set (T := B * B - 4 * A * C).
          destruct (existsb (fun n => ((n * n - T) mod p =? 0)) (map Z.of_nat (seq 0 (Z.to_nat p)))) eqn:EX.
          - left. apply existsb_exists in EX as (n & _ & Hn). exists n. apply Z.mod_divide; [lia|]. apply Z.eqb_eq. exact Hn.
          - right. intros [x Hx]. assert (existsb (fun n => ((n * n - T) mod p =? 0)) (map Z.of_nat (seq 0 (Z.to_nat p))) = true); [|congruence].
            apply existsb_exists. exists (x mod p). pose proof (Z.mod_pos_bound x p ltac:(lia)). split.
            + apply in_map_iff. exists (Z.to_nat (x mod p)). split; [lia|]. apply in_seq. lia.
            + apply Z.eqb_eq. apply Z.mod_divide; [lia|].
              destruct (mod_c x p ltac:(lia)) as [kx Ex].
              apply (dc2 p (x * x - T) p 1 (kx * (x mod p + x))); [exact Hx|apply dself|].
              replace (x mod p) with (x + kx * p) by lia. ring. }
        destruct Dec as [[y Hy]|Dec]; [|contradiction].
        exists y. apply (dc2 p (y * y - (B * B - 4 * A * C)) p 1 k); [exact Hy|apply dself|]. rewrite DB. ring. }
    destruct R as [y Hy].
    (* x = (y - b) / (2a) *)
    assert (I : exists i, (p | 2 * a * i - 1)).
    { assert (RP : rel_prime p (2 * a)).
      { apply prime_rel_prime; [exact P|]. intros D. apply prime_mult in D as [D|D]; auto. }
      destruct (rel_prime_bezout _ _ RP) as [u v HB]. exists v. exists (- u). lia. }
    destruct I as [i Hi]. exists (i * (y - b)).
    apply pcancel with (4 * a); [exact P|intros D; apply prime_mult in D as [D|D]; auto|].
    assert (H1 : (p | 2 * a * (i * (y - b)) - (y - b))) by (apply (dc1 p _ (y - b) _ Hi); ring).
    set (z := i * (y - b)) in *.
    apply (dc2 p (2 * a * z - (y - b)) (y * y - (b * b - 4 * a * c)) (2 * a * z + b + y) 1); [exact H1|exact Hy|]. ring.
  - intros [x Hx].
    destruct (Zdivide_dec p (B * B - 4 * A * C)) as [D|D]; [rewrite L0 by exact D; lia|].
    rewrite L1; [lia|exact D|]. exists (2 * a * x + b).
    apply (dc2 p (a * x ^ 2 + b * x + c) p (4 * a) (- k)); [exact Hx|apply dself|]. rewrite DB. ring.
Qed.
