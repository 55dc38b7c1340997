(** The sieve of primeclass::init and its packing into differences. *)
From Coq Require Import ZArith Znumtheory Lia List Bool Sorted.
From Verif Require Import Base RatModel LinModel P1Math PrimeModel PrimeSpec.
Import ListNotations.
Open Scope Z_scope.
Open Scope res_scope.
Opaque while.

Lemma pge p : prime p -> 2 <= p. Proof. intros H. apply prime_ge_2, H. Qed.
Lemma prime_dvd_eq p n : prime p -> prime n -> (p | n) -> p = n.
Proof. intros Hp Hn D. apply prime_div_prime; auto. Qed.
Lemma prime_odd p : prime p -> p <> 2 -> Z.odd p = true.
Proof.
  intros Hp H2. destruct (Z.odd p) eqn:E; auto. exfalso. apply H2. symmetry. apply prime_dvd_eq; auto using prime_2. rewrite <- Z.negb_even in E. apply negb_false_iff, Z.even_spec in E. destruct E as (x & ->). exists x. lia.
Qed.
Lemma prime_half p : prime p -> p <> 2 -> exists j, p = 2 * j + 1 /\ 1 <= j.
Proof. intros Hp H2. pose proof (prime_odd p Hp H2) as O. apply Z.odd_spec in O. destruct O as (j & E). exists j. apply pge in Hp. lia. Qed.
(** a composite number has a prime divisor whose square is not larger *)
Lemma small_factor n : 1 < n -> ~ prime n -> exists p, prime p /\ (p | n) /\ p * p <= n.
Proof.
  intros H Np. destruct (not_prime_divide n H Np) as (d & Hd & (e & E)). assert (G : forall x, 1 < x -> x * x <= n -> (x | n) -> exists p, prime p /\ (p | n) /\ p * p <= n).
  { intros x Hx Hxx Hxn. destruct (prime_div_ex x Hx) as (p & Pp & Dp). exists p. split; auto. split; [apply Z.divide_trans with x; auto|]. apply Z.divide_pos_le in Dp; [|lia]. apply pge in Pp. nia. }
  destruct (Z.le_gt_cases d e).
  - apply (G d); [lia|nia|exists e; auto].
  - apply (G e); [nia|nia|exists d; lia].
Qed.
Lemma rd_ok sz m i : 0 <= i < sz -> rd sz m i = Ok (m i).
Proof. intros H. unfold rd. destruct (Z.leb_spec 0 i); [|lia]. destruct (Z.ltb_spec i sz); [reflexivity|lia]. Qed.
Lemma wr_ok sz m i v : 0 <= i < sz -> wr sz m i v = Ok (fun j => if j =? i then v else m j).
Proof. intros H. unfold wr. destruct (Z.leb_spec 0 i); [|lia]. destruct (Z.ltb_spec i sz); [reflexivity|lia]. Qed.

Section Sieve.
Variable size : Z.
Hypothesis Hsize : 2 <= size < 2 ^ 63.
Definition cmp (k i : Z) : Prop := exists p, prime p /\ 3 <= p <= k /\ (p | 2 * i + 1) /\ p * p <= 2 * i + 1.
Lemma cmp_notprime k i : cmp k i -> ~ prime (2 * i + 1).
Proof. intros (p & Hp & _ & D & L) Hn. rewrite <- (prime_dvd_eq p _ Hp Hn D) in L. apply pge in Hp. nia. Qed.
Lemma sv_mark_ok k m r : 3 <= k -> 0 <= r -> exists m', sv_mark (size + 1) size k m r = Ok m' /\ forall i, m' i <> 0 <-> m i <> 0 \/ (r <= i < size /\ (k | i - r)).
Proof.
  intros Hk Hr. unfold sv_mark.
  apply (while_total _ (fun '(m', s) => r <= s /\ (k | s - r) /\ forall i, m' i <> 0 <-> m i <> 0 \/ (r <= i < size /\ i < s /\ (k | i - r)))
    (fun m' => forall i, m' i <> 0 <-> m i <> 0 \/ (r <= i < size /\ (k | i - r))) (fun '(_, s) => Z.max 0 (size - s))).
  - intros (m', s) _. lia.
  - intros (m', s) (H1 & H2 & H3). destruct (Z.ltb_spec s size).
    + right. rewrite wr_ok by lia. rewrite bind_Ok. eexists; split; [reflexivity|]. split; [|lia]. split; [lia|]. split; [replace (s + k - r) with (s - r + k) by lia; apply Z.divide_add_r; auto using Z.divide_refl|].
      intros i. destruct (Z.eqb_spec i s) as [->|n].
      * split; [intros _; right; split; [lia|]; split; [lia|auto]|intros _; lia].
      * rewrite H3. split; [intros [Q|(Q1 & Q2 & Q3)]; [auto|right; split; [auto|split; [lia|auto]]]|]. intros [Q|(Q1 & Q2 & Q3)]; [auto|]. right. split; auto. split; auto. destruct (Z.lt_ge_cases i s); auto. exfalso.
        assert (Q : (k | i - s)) by (replace (i - s) with (i - r - (s - r)) by lia; apply Z.divide_sub_r; auto). destruct Q as (x & Q). assert (0 < x) by nia. nia.
    + left. eexists; split; [reflexivity|]. intros i. rewrite H3. split; [intros [Q|(Q1 & Q2 & Q3)]; auto|]. intros [Q|(Q1 & Q3)]; auto. right. split; auto. split; auto. lia.
  - split; [lia|]. split; [exists 0; lia|]. intros i. split; auto. intros [Q|Q]; auto. lia.
  - change (Z.of_nat 70) with 70. assert (2 ^ 63 < 2 ^ 70) by reflexivity. lia.
Qed.
Definition sinvt (m : mem) (k : Z) : Prop := forall i, 0 <= i <= size -> (m i <> 0 <-> i < size /\ cmp k i).
Lemma sentinel m k : sinvt m k -> m size = 0.
Proof. intros H. destruct (Z.eq_dec (m size) 0); auto. apply H in n; lia. Qed.
Lemma sv_next_ok m q : 0 <= q < size -> m size = 0 -> exists q', sv_next (size + 1) m q (2 * q * (q + 1)) (2 * q + 1) = Ok (q', 2 * q' * (q' + 1), 2 * q' + 1) /\ q < q' <= size /\ m q' = 0 /\ forall j, q < j < q' -> m j <> 0.
Proof.
  intros Hq Hs. unfold sv_next.
  destruct (while_total (fun '(q, r, k) => let r := r + k in let k := k + 2 in let r := r + k in let q := q + 1 in t <- rd (size + 1) m q ;; if t =? 0 then Ok (inr (q, r, k)) else Ok (inl (q, r, k)))
    (fun '(q', r, k) => q <= q' < size /\ r = 2 * q' * (q' + 1) /\ k = 2 * q' + 1 /\ forall j, q < j <= q' -> m j <> 0)
    (fun '(q', r, k) => q < q' <= size /\ r = 2 * q' * (q' + 1) /\ k = 2 * q' + 1 /\ m q' = 0 /\ forall j, q < j < q' -> m j <> 0) (fun '(q', _, _) => size - q')) with (n := 70%nat) (s := (q, 2 * q * (q + 1), 2 * q + 1)) as (((q' & r) & k) & E & H1 & -> & -> & H2 & H3).
  - intros ((q', r), k) (H & _). lia.
  - intros ((q', r), k) (H1 & -> & -> & H2). cbv zeta. rewrite rd_ok by lia. rewrite bind_Ok. destruct (Z.eqb_spec (m (q' + 1)) 0) as [E|E].
    + left. eexists; split; [reflexivity|]. split; [lia|]. split; [ring|]. split; [ring|]. split; auto. intros j Hj. apply H2. lia.
    + right. eexists; split; [reflexivity|]. assert (q' + 1 <> size) by congruence. split; [|lia]. split; [lia|]. split; [ring|]. split; [ring|]. intros j Hj. destruct (Z.eq_dec j (q' + 1)) as [->|]; auto. apply H2. lia.
  - split; [lia|]. split; auto. split; auto. intros j Hj. lia.
  - change (Z.of_nat 70) with 70. assert (2 ^ 63 < 2 ^ 70) by reflexivity. lia.
  - exists q'. auto.
Qed.
Lemma sieve_step m q q' m' : 0 <= q -> q < q' <= size -> sinvt m (2 * q + 1) -> m q' = 0 -> (forall j, q < j < q' -> m j <> 0) ->
  (forall i, m' i <> 0 <-> m i <> 0 \/ (2 * q' * (q' + 1) <= i < size /\ (2 * q' + 1 | i - 2 * q' * (q' + 1)))) -> sinvt m' (2 * q' + 1).
Proof.
  intros Hq Hq' I M0 Hb Hm i Hi. pose proof (I i Hi) as Ii. rewrite Hm, Ii.
  assert (Np : forall p, prime p -> 2 * q + 1 < p -> p < 2 * q' + 1 -> p = 2 \/ False).
  { intros p Hp P1 P2. destruct (Z.eq_dec p 2); auto. right. destruct (prime_half p Hp n) as (j & -> & Hj). specialize (Hb j ltac:(lia)). apply I in Hb; [|lia]. apply (cmp_notprime _ _ (proj2 Hb)), Hp. }
  assert (Pk : q' < size -> prime (2 * q' + 1)).
  { intros L. destruct (prime_dec (2 * q' + 1)) as [|N]; auto. exfalso. destruct (small_factor (2 * q' + 1) ltac:(lia) N) as (p & Hp & D & Sq). assert (P2 : p <> 2) by (intros ->; destruct D as (x & D); lia). pose proof (pge p Hp). assert (Lp : p <= 2 * q + 1). { destruct (Z.le_gt_cases p (2 * q + 1)); auto. destruct (Np p Hp); auto; [nia|contradiction|contradiction]. }
    assert (C : m q' <> 0); [|contradiction]. apply I; [lia|]. split; auto. exists p. split; auto. split; [lia|auto]. }
  assert (Eq : i < size -> (2 * q' * (q' + 1) <= i < size /\ (2 * q' + 1 | i - 2 * q' * (q' + 1)) <-> (2 * q' + 1 | 2 * i + 1) /\ (2 * q' + 1) * (2 * q' + 1) <= 2 * i + 1)).
  { intros L. assert (E2 : 2 * (i - 2 * q' * (q' + 1)) = 2 * i + 1 - (2 * q' + 1) * (2 * q' + 1)) by ring. split.
    - intros (Q1 & Q2). split; [|nia]. replace (2 * i + 1) with (2 * (i - 2 * q' * (q' + 1)) + (2 * q' + 1) * (2 * q' + 1)) by (rewrite E2; ring). apply Z.divide_add_r; [apply Z.divide_mul_r; auto|apply Z.divide_factor_l].
    - intros (Q1 & Q2). split; [nia|]. apply Gauss with 2; [rewrite E2; apply Z.divide_sub_r; auto; apply Z.divide_factor_l|]. apply Zgcd_1_rel_prime. rewrite Z.gcd_comm. rewrite <- Z.gcd_mod by lia. replace ((2 * q' + 1) mod 2) with 1; [reflexivity|]. rewrite Z.add_comm, Z.mul_comm, Z.mod_add by lia. reflexivity. }
  split.
  - intros [(Q1 & p & P1 & P2 & P3)|Q].
    + split; auto. exists p. split; auto. split; [lia|auto].
    + pose proof (proj1 (Eq ltac:(lia)) Q) as (Q1 & Q2). split; [lia|]. assert (q' < size) by nia. exists (2 * q' + 1). split; auto. split; [lia|auto].
  - intros (Q1 & p & P1 & P2 & P3 & P4). destruct (Z.le_gt_cases p (2 * q + 1)) as [L|L]; [left; split; auto; exists p; split; auto; split; [lia|auto]|]. destruct (Z.eq_dec p (2 * q' + 1)) as [->|n].
    + right. apply (Eq Q1). auto.
    + exfalso. destruct (Np p P1 L); [lia|lia|contradiction].
Qed.
Lemma sv_sieve_ok : exists m, sv_sieve (size + 1) size (fun _ => 0) = Ok m /\ m size = 0 /\ forall i, 1 <= i < size -> (m i = 0 <-> prime (2 * i + 1)).
Proof.
  unfold sv_sieve.
  apply (while_total _ (fun '(m, q, r, k) => 0 <= q <= size /\ r = 2 * q * (q + 1) /\ k = 2 * q + 1 /\ sinvt m k)
    (fun m => m size = 0 /\ forall i, 1 <= i < size -> (m i = 0 <-> prime (2 * i + 1))) (fun '(_, q, _, _) => size - q)).
  - intros (((m, q), r), k) (H & _). lia.
  - intros (((m, q), r), k) (Hq & -> & -> & I). destruct (Z.ltb_spec (2 * q * (q + 1)) size) as [L|L].
    + right. destruct (sv_next_ok m q ltac:(nia) (sentinel _ _ I)) as (q' & -> & H1 & H2 & H3). rewrite bind_Ok. destruct (sv_mark_ok (2 * q' + 1) m (2 * q' * (q' + 1)) ltac:(lia) ltac:(nia)) as (m' & -> & Hm). rewrite bind_Ok. eexists; split; [reflexivity|]. split; [|lia]. split; [lia|]. split; auto. split; auto. eapply sieve_step; eauto. lia.
    + left. eexists; split; [reflexivity|]. split; [apply (sentinel _ _ I)|]. intros i Hi. split.
      * intros E. destruct (prime_dec (2 * i + 1)) as [|N]; auto. exfalso. destruct (small_factor (2 * i + 1) ltac:(lia) N) as (p & Hp & D & Sq). assert (P2 : p <> 2) by (intros ->; destruct D as (x & D); lia). pose proof (pge p Hp). assert (C : m i <> 0); [|contradiction]. apply I; [lia|]. split; [lia|]. exists p. split; auto. split; [nia|auto].
      * intros Hp. destruct (Z.eq_dec (m i) 0) as [|n]; auto. exfalso. apply I in n; [|lia]. apply (cmp_notprime _ _ (proj2 n)), Hp.
  - split; [lia|]. split; auto. split; auto. intros i Hi. split; [congruence|]. intros (_ & p & P1 & P2 & _). lia.
  - change (Z.of_nat 70) with 70. assert (2 ^ 63 < 2 ^ 70) by reflexivity. lia.
Qed.
(** ** packing *)
Fixpoint diffs (a : Z) (l : list Z) : list Z := match l with [] => [] | p :: l => (p - a) :: diffs p l end.
Lemma diffs_snoc l : forall a p, diffs a (l ++ [p]) = diffs a l ++ [p - last l a].
Proof.
  induction l as [|x l IH]; intros a p; cbn [diffs app]; auto. rewrite IH. cbn [app]. do 3 f_equal. destruct l as [|y l]; [reflexivity|]. assert (G : forall l (y a b : Z), last (y :: l) a = last (y :: l) b) by (clear; induction l as [|z l IH]; intros y a b; cbn [last] in *; auto). change (last (x :: y :: l) a) with (last (y :: l) a). rewrite (G l y x a). reflexivity.
Qed.
Lemma diffs_length l : forall a, length (diffs a l) = length l.
Proof. induction l; intros; cbn [diffs length]; auto. Qed.
Lemma sorted_snoc l x : StronglySorted Z.lt l -> (forall y, In y l -> y < x) -> StronglySorted Z.lt (l ++ [x]).
Proof.
  induction 1 as [|a l H IH F]; intros Hx; cbn [app]; [repeat constructor|]. constructor; [apply IH; intros; apply Hx; right; auto|]. apply Forall_app. split; auto. constructor; auto. apply Hx. left; auto.
Qed.
Lemma sv_skip_ok m q : 0 <= q < size -> m size = 0 -> exists q', sv_skip (size + 1) m q = Ok q' /\ q < q' <= size /\ m q' = 0 /\ forall j, q < j < q' -> m j <> 0.
Proof.
  intros Hq Hs. unfold sv_skip.
  apply (while_total _ (fun q' => q <= q' < size /\ forall j, q < j <= q' -> m j <> 0) (fun q' => q < q' <= size /\ m q' = 0 /\ forall j, q < j < q' -> m j <> 0) (fun q' => size - q')).
  - intros q' (H & _). lia.
  - intros q' (H1 & H2). cbv zeta. rewrite rd_ok by lia. rewrite bind_Ok. destruct (Z.eqb_spec (m (q' + 1)) 0) as [E|E].
    + left. eexists; split; [reflexivity|]. split; [lia|]. split; auto. intros j Hj. apply H2. lia.
    + right. eexists; split; [reflexivity|]. assert (q' + 1 <> size) by congruence. split; [|lia]. split; [lia|]. intros j Hj. destruct (Z.eq_dec j (q' + 1)) as [->|]; auto. apply H2. lia.
  - split; [lia|]. intros j Hj. lia.
  - change (Z.of_nat 70) with 70. assert (2 ^ 63 < 2 ^ 70) by reflexivity. lia.
Qed.
Section Pack.
Variable m : mem.
Hypothesis Hms : m size = 0.
Hypothesis Hm : forall i, 1 <= i < size -> (m i = 0 <-> prime (2 * i + 1)).
Definition pinv (m' : mem) (r q : Z) : Prop := 1 <= q < size /\ exists L, prime_list (2 * q + 1) L /\ last L 0 = 2 * q + 1 /\ r = Z.of_nat (length L) /\ r <= q + 1 /\
  (forall j, 0 <= j < r -> m' j = nth (Z.to_nat j) (diffs 0 L) 0 mod 256) /\ forall i, q < i <= size -> m' i = m i.
Lemma sv_pack_ok m0 : pinv m0 2 1 -> exists m' r s L, sv_pack (size + 1) size m0 2 1 1 = Ok (m', r, s) /\ prime_list (2 * size) L /\ last L 0 = 2 * s + 1 /\ r = Z.of_nat (length L) /\ r <= size /\
  forall j, 0 <= j < r -> m' j = nth (Z.to_nat j) (diffs 0 L) 0 mod 256.
Proof.
  intros I0. unfold sv_pack.
  match goal with |- context [while ?f _ _] => set (g := f) end.
  destruct (while_total g (fun '(m', r, q, s) => s = q /\ pinv m' r q)
    (fun '(m', r, s) => exists L, prime_list (2 * size) L /\ last L 0 = 2 * s + 1 /\ r = Z.of_nat (length L) /\ r <= size /\ forall j, 0 <= j < r -> m' j = nth (Z.to_nat j) (diffs 0 L) 0 mod 256)
    (fun '(_, _, q, _) => size - q)) with (n := 70%nat) (s := (m0, 2, 1, 1)) as (((m' & r) & s) & E & L & H).
  - intros (((m', r), q), s) (_ & H & _). lia.
  - intros (((m', r), q), s) (-> & Hq & L & (PS & PL) & HL & Hr & Hrq & Hd & Hk). unfold g. destruct (sv_skip_ok m' q ltac:(lia)) as (q' & -> & S1 & S2 & S3); [rewrite Hk by lia; auto|]. rewrite bind_Ok.
    assert (Np : forall j, q < j < q' -> ~ prime (2 * j + 1)). { intros j Hj Hp. apply (S3 j Hj). rewrite Hk by lia. apply Hm; [lia|auto]. }
    assert (PP : forall p, prime p -> p < 2 * q' + 1 -> p <= 2 * q + 1). { intros p Hp L1. destruct (Z.le_gt_cases p (2 * q + 1)); auto. exfalso. assert (p <> 2) by lia. destruct (prime_half p Hp H0) as (j & -> & Hj). apply (Np j); auto. lia. }
    destruct (Z.leb_spec size q') as [Q|Q].
    + left. eexists; split; [reflexivity|]. exists L. assert (q' = size) by lia. subst q'. split; [|split; [auto|split; [auto|split; [lia|auto]]]]. split; auto. intros p. rewrite PL. split; intros (A & B); split; auto; [lia|]. apply PP; auto. lia.
    + right. rewrite wr_ok by lia. rewrite bind_Ok. eexists; split; [reflexivity|]. split; [|lia]. split; auto. split; [lia|]. rewrite Hk in S2 by lia. apply Hm in S2; [|lia]. exists (L ++ [2 * q' + 1]).
      split; [split|].
      * apply sorted_snoc; auto. intros y Hy. apply PL in Hy. lia.
      * intros p. rewrite in_app_iff, PL. cbn [In]. split; [intros [(A & B)|[<-|[]]]; split; auto; lia|]. intros (A & B). destruct (Z.eq_dec p (2 * q' + 1)); [auto|left; split; auto; apply PP; auto; lia].
      * rewrite last_last, app_length, diffs_snoc, HL. cbn [length]. split; auto. split; [lia|]. split; [lia|]. split.
        -- intros j Hj. destruct (Z.eqb_spec j r) as [->|n].
           ++ rewrite app_nth2; rewrite diffs_length; [|lia]. replace (Z.to_nat r - length L)%nat with 0%nat by lia. cbn [nth]. f_equal. lia.
           ++ rewrite app_nth1 by (rewrite diffs_length; lia). apply Hd. lia.
        -- intros i Hi. destruct (Z.eqb_spec i r); [lia|]. apply Hk. lia.
  - auto.
  - change (Z.of_nat 70) with 70. assert (2 ^ 63 < 2 ^ 70) by reflexivity. lia.
  - exists m', r, s, L. rewrite E. auto.
Qed.
End Pack.
End Sieve.
Lemma prime_list_3 : prime_list 3 [2; 3].
Proof.
  split; [repeat constructor; lia|]. intros p. cbn [In]. split.
  - intros [<-|[<-|[]]]; split; auto using prime_2, prime_3; lia.
  - intros (H & L). apply pge in H. lia.
Qed.
(** init: the table holds the differences modulo 256 of the primes up to an even bound *)
Lemma pt_init_ok maxnum : 0 <= maxnum <= max64 - 257 -> exists L, prime_list (2 * ((maxnum + 257) / 2)) L /\ Z.of_nat (length L) <= (maxnum + 257) / 2 /\
  pt_init maxnum = Ok (Pt (map (fun d => d mod 256) (diffs 0 L) ++ [0]) (Z.of_nat (length L)) (last L 0) 0 0 0).
Proof.
  intros H. unfold max64 in H. unfold pt_init, add64. assert (E : c64 (maxnum + 257) = Ok (maxnum + 257)). { unfold c64, in64b, min64, max64. destruct (Z.leb_spec (-9223372036854775808) (maxnum + 257)); [|lia]. destruct (Z.leb_spec (maxnum + 257) 9223372036854775807); [reflexivity|lia]. } rewrite E, bind_Ok. rewrite Z.shiftr_div_pow2 by lia. change (2 ^ 1) with 2. set (size := (maxnum + 257) / 2).
  assert (Hs : 2 <= size < 2 ^ 63). { unfold size. split; [apply Z.div_le_lower_bound; lia|apply Z.div_lt_upper_bound; [lia|]]. change (2 ^ 63) with 9223372036854775808. lia. } clearbody size. destruct (Z.ltb_spec (size + 1) 0); [lia|].
  destruct (sv_sieve_ok size Hs) as (m & -> & Hms & Hm). rewrite bind_Ok. rewrite wr_ok, bind_Ok by lia. rewrite wr_ok, bind_Ok by lia. cbv beta.
  destruct (sv_pack_ok size Hs m Hms Hm (fun j => if j =? 1 then 1 else if j =? 0 then 2 else m j)) as (m' & r & s & L & -> & HL & Hl & Hr & Hrs & Hd).
  { split; [lia|]. exists [2; 3]. split; [apply prime_list_3|]. split; auto. split; auto. split; [lia|]. split; [|intros i Hi; destruct (Z.eqb_spec i 1); [lia|]; destruct (Z.eqb_spec i 0); [lia|reflexivity]]. intros j Hj. assert (j = 0 \/ j = 1) as [->| ->] by lia; reflexivity. }
  rewrite bind_Ok, wr_ok by lia. rewrite bind_Ok. exists L. split; auto. split; [lia|]. f_equal. rewrite Hl, <- Hr. f_equal.
  apply nth_ext with (d := 0) (d' := 0).
  - rewrite map_length, seq_length, app_length, map_length, diffs_length. cbn [length]. lia.
  - intros i Hi. rewrite map_length, seq_length in Hi. rewrite (nth_indep _ 0 ((fun i => if Z.of_nat i =? r then 0 else m' (Z.of_nat i)) 0%nat)) by (rewrite map_length, seq_length; auto). rewrite (map_nth (fun i => if Z.of_nat i =? r then 0 else m' (Z.of_nat i))), seq_nth by auto. cbn [Nat.add]. destruct (Z.eqb_spec (Z.of_nat i) r) as [Ei|Ei].
    + rewrite app_nth2; rewrite map_length, diffs_length; [|lia]. replace (i - length L)%nat with 0%nat by lia. reflexivity.
    + rewrite app_nth1 by (rewrite map_length, diffs_length; lia). rewrite Hd by lia. rewrite Nat2Z.id. symmetry. exact (map_nth (fun d => d mod 256) (diffs 0 L) 0 i).
Qed.
