(** C15: the prime table (class primeclass), prime_pi, primdiv and pdivs. *)
From Coq Require Import ZArith Znumtheory Lia List Bool Sorted.
From Verif Require Import Base RatModel LinModel PrimeModel PrimeSpec PrimeProofs PrimeMain PrimeLast.
Import ListNotations.
Open Scope Z_scope.
Open Scope res_scope.

(** For every limit the table is built without touching memory outside the block, and what it
    holds is the number of primes up to 2*((limit+257)/2), the largest of them, and the
    differences of their increasing list, each reduced to a byte, ended by zero. *)
Theorem C15_table m : 0 <= m <= max64 - 257 -> exists L t, prime_list (2 * ((m + 257) / 2)) L /\ pt_init m = Ok t /\
  pt_n t = Z.of_nat (length L) /\ pt_big t = last L 0 /\ length (pt_d t) = S (length L) /\ nth (length L) (pt_d t) 0 = 0 /\
  forall i, (i < length L)%nat -> nth i (pt_d t) 0 = (nth i L 0 - nth i (0 :: L) 0) mod 256.
Proof.
  intros Hm. destruct (pt_init_ok m Hm) as (L & HL & _ & E). exists L. eexists. split; [exact HL|]. split; [exact E|]. cbn [pt_n pt_big pt_d]. split; [auto|]. split; [auto|]. split; [rewrite app_length, map_length, diffs_length; cbn [length]; lia|]. split; [rewrite app_nth2; rewrite map_length, diffs_length; [rewrite Nat.sub_diag; reflexivity|lia]|].
  intros i Hi. rewrite app_nth1 by (rewrite map_length, diffs_length; lia). rewrite (nth_indep _ 0 ((fun d => d mod 256) 0)) by (rewrite map_length, diffs_length; lia). rewrite (map_nth (fun d => d mod 256)), diffs_nth by auto. reflexivity.
Qed.
(** If no two consecutive primes of the table differ by 256 or more: number is the i-th prime,
    in any state reached by earlier calls. *)
Theorem C15_number_partial m L t n : 0 <= m <= max64 - 257 -> prime_list (tabmax m) L -> gaps_small (tabmax m) -> preach m t -> 1 <= n <= Z.of_nat (length L) ->
  exists t', pt_number t n = Ok (nth (Z.to_nat (n - 1)) L 0, t').
Proof.
  intros Hm HL HG Ht Hn. destruct (reach_tb m L Hm HL HG t Ht) as (i & Hi & ->). eexists. pose proof (number_ok L (reach_len m L Hm HL) (diffs_range _ L HL HG) i n Hi) as Q. cbv zeta in Q. rewrite Q. replace (Nat.min (Z.to_nat n) (length L)) with (S (Z.to_nat (n - 1))) by lia. reflexivity.
Qed.
(** getfirst gives the first n primes; one more than there are is answered by repeating the
    last prime. *)
Theorem C15_getfirst_partial m L t n : 0 <= m <= max64 - 257 -> prime_list (tabmax m) L -> gaps_small (tabmax m) -> preach m t ->
  exists t', pt_first t n = Ok (firstn (Z.to_nat n) L ++ (if n <=? Z.of_nat (length L) then [] else [last L 0]), t').
Proof.
  intros Hm HL HG Ht. destruct (reach_tb m L Hm HL HG t Ht) as (i & Hi & ->). eexists. apply (first_ok L (reach_len m L Hm HL) (diffs_range _ L HL HG) i n Hi).
Qed.
(** primevar: the k-th increment gives the prime number k+1, and ok fails after the last. *)
Theorem C15_primevar_partial m L t : 0 <= m <= max64 - 257 -> prime_list (tabmax m) L -> gaps_small (tabmax m) -> preach m t ->
  exists t' (s : nat -> pvar), pv_new t (pt_n t) 1 = Ok (s 0%nat, t') /\ (forall k, (k < length L)%nat -> pv_next t' (s k) = Ok (s (S k)) /\ pv_v (s k) = nth k L 0 /\ pv_ok (s k) = true) /\ pv_ok (s (length L)) = false.
Proof.
  intros Hm HL HG Ht. destruct (reach_tb m L Hm HL HG t Ht) as (i & Hi & ->). pose proof (reach_len m L Hm HL) as Ln. pose proof (diffs_range _ L HL HG) as R. destruct (pv_new_ok _ L HL (tabmax2 m Hm) Ln R i Hi) as (j & Hj & E). exists (tb L j), (fun k => pvs L (S k)). split; [exact E|]. split.
  - intros k Hk. split; [apply (pv_next_ok L Ln R); lia|]. split; [rewrite pvs_val by lia; f_equal; lia|]. rewrite pvs_ok. apply Nat.leb_le. lia.
  - rewrite pvs_ok. apply Nat.leb_gt. lia.
Qed.
(** prime_pi of p counts the primes below p, when p is not beyond the table; beyond the table
    it does not return. *)
Theorem C15_prime_pi_partial m L t p : 0 <= m <= max64 - 257 -> prime_list (tabmax m) L -> gaps_small (tabmax m) -> preach m t ->
  (Z.of_nat (length L) <= max32 -> p <= last L 0 -> exists l, prime_list (p - 1) l /\ pt_pi t p = Ok (Z.of_nat (length l)) /\ (prime p -> nth (length l) L 0 = p)) /\
  (last L 0 < p -> forall r, pt_pi t p <> Ok r).
Proof.
  intros Hm HL HG Ht. destruct (reach_tb m L Hm HL HG t Ht) as (i & Hi & ->). pose proof (reach_len m L Hm HL) as Ln. pose proof (diffs_range _ L HL HG) as R. split.
  - intros H32 Hp. destruct (pi_ok _ L HL (tabmax2 m Hm) Ln R i p Hi H32 Hp) as (j & E & Hj & Pj & Pl). exists (firstn j L). split; [auto|]. rewrite firstn_length_le by lia. split; [auto|]. intros P. destruct (Z.eq_dec (nth j L 0) p) as [|Ne]; [auto|]. destruct (before _ L HL p j Hj P ltac:(lia)) as (k & Hk & Ek). destruct Pl as (_ & Pl). assert (I : In p (firstn j L)). { rewrite <- Ek. assert (E2 : nth k (firstn j L) 0 = nth k L 0) by (rewrite <- (firstn_skipn j L) at 2; rewrite app_nth1; [auto|rewrite firstn_length; lia]). rewrite <- E2. apply nth_In. rewrite firstn_length. lia. } apply Pl in I. lia.
  - intros Hp r. apply (pi_beyond _ L HL (tabmax2 m Hm) Ln R i p r Hi Hp).
Qed.
(** primdiv is the smallest prime factor and pdivs the increasing list of the prime factors,
    below the square of the first number not covered. *)
Theorem C15_primdiv_partial m t a : 0 <= m <= max64 - 257 -> tabmax m <= 3037000499 -> gaps_small (tabmax m) -> preach m t -> 2 <= Z.abs a <= max64 -> Z.abs a < (tabmax m + 1) ^ 2 ->
  exists r, pt_primdiv t a = Ok r /\ prime r /\ (r | a) /\ forall q, prime q -> (q | a) -> r <= q.
Proof.
  intros Hm Hs HG Ht Ha Hb. destruct (pt_init_ok m Hm) as (L & HL & _). destruct (reach_tb m L Hm HL HG t Ht) as (i & Hi & ->). pose proof (tabmax2 m Hm) as T2. pose proof (reach_len m L Hm HL) as Ln. pose proof (diffs_range _ L HL HG) as R.
  apply (primdiv_ok (tabmax m) L HL T2 Ln R); auto. pose proof (last_le (tabmax m) L HL T2). lia.
Qed.
Theorem C15_pdivs_partial m t a : 0 <= m <= max64 - 257 -> tabmax m <= 3037000499 -> gaps_small (tabmax m) -> preach m t -> a <> 0 -> Z.abs a <= max64 -> Z.abs a < (tabmax m + 1) ^ 2 ->
  exists l, pt_pdivs t a = Ok l /\ StronglySorted Z.lt l /\ forall p, In p l <-> prime p /\ (p | a).
Proof.
  intros Hm Hs HG Ht H0 Ha Hb. destruct (pt_init_ok m Hm) as (L & HL & _). destruct (reach_tb m L Hm HL HG t Ht) as (i & Hi & ->). pose proof (tabmax2 m Hm) as T2. pose proof (reach_len m L Hm HL) as Ln. pose proof (diffs_range _ L HL HG) as R.
  apply (pdivs_ok (tabmax m) L HL T2 Ln R); auto. pose proof (last_le (tabmax m) L HL T2). lia.
Qed.
(** The table built by default (limit 1000000) satisfies the condition on gaps. *)
Theorem C15_default : gaps_small (tabmax 1000000) /\ tabmax 1000000 = 1000256.
Proof. split; [exact default_gaps|reflexivity]. Qed.
(** With the limit 436273291 there is an index for which number is not the prime of that
    number: two consecutive primes differ by 282. *)
Theorem C15_gap_refuted L : prime_list (tabmax 436273291) L -> exists t n v t', pt_init 436273291 = Ok t /\ pt_number t n = Ok (v, t') /\ 1 <= n <= pt_n t /\ v <> nth (Z.to_nat (n - 1)) L 0.
Proof.
  intros HL. destruct gap282 as (P1 & P2 & P3). apply (gap_wrong 436273291 L 436273009 436273291); auto; [unfold max64; lia|change (tabmax 436273291) with 436273548; lia].
Qed.
(** pdivs of a number beyond the square returns a number which is not prime; getfirst of one
    more than the number of primes repeats one. *)
Theorem C15_beyond_refuted : (exists t l p, pt_init 0 = Ok t /\ pt_pdivs t 66049 = Ok l /\ In p l /\ ~ prime p) /\
  (exists t l t', pt_init 0 = Ok t /\ pt_first t (pt_n t + 1) = Ok (l, t') /\ ~ NoDup l).
Proof.
  destruct (pt_init 0) as [t| | |] eqn:E; [|vm_compute in E; discriminate E..]. assert (T : Ok t = pt_init 0) by (symmetry; exact E). vm_compute in T. injection T as ->. split.
  - eexists; eexists; exists 66049. split; [reflexivity|]. split; [vm_compute; reflexivity|]. split; [left; reflexivity|]. intros P. assert (D : (257 | 66049)) by (exists 257; reflexivity). apply prime_divisors in D; [lia|exact P].
  - do 3 eexists. split; [reflexivity|]. split; [vm_compute; reflexivity|]. intros N.
    assert (Q : forall l : list Z, NoDup (l ++ [251; 251]) -> False). { intros l H. apply NoDup_remove_2 in H. apply H, in_app_iff. right. left. reflexivity. }
    match type of N with NoDup ?l => apply (Q (firstn 53 l)); exact N end.
Qed.
(** Limit 0: the gap condition holds, and the functions applied. *)
Example C15_ex : gaps_small (tabmax 0) /\ exists t, pt_init 0 = Ok t /\ preach 0 t /\ pt_n t = 54 /\ pt_big t = 251 /\
  (v <- pt_number t 5 ;; Ok (fst v)) = Ok 11 /\ pt_pi t 100 = Ok 25 /\ pt_primdiv t (-77) = Ok 7 /\ pt_pdivs t 60 = Ok [2; 3; 5] /\ (v <- pt_first t 4 ;; Ok (fst v)) = Ok [2; 3; 5; 7].
Proof.
  split; [apply small_gaps; vm_compute; reflexivity|]. destruct (pt_init 0) as [t| | |] eqn:E; [|vm_compute in E; discriminate E..]. exists t. split; [reflexivity|]. split; [apply pr_init, E|]. assert (T : Ok t = pt_init 0) by (symmetry; exact E). vm_compute in T. injection T as ->. split; [vm_compute; reflexivity|]. split; [vm_compute; reflexivity|]. split; [vm_compute; reflexivity|]. split; [vm_compute; reflexivity|]. split; [vm_compute; reflexivity|]. split; vm_compute; reflexivity.
Qed.
Print Assumptions C15_table.
Print Assumptions C15_number_partial.
Print Assumptions C15_getfirst_partial.
Print Assumptions C15_primevar_partial.
Print Assumptions C15_prime_pi_partial.
Print Assumptions C15_primdiv_partial.
Print Assumptions C15_pdivs_partial.
Print Assumptions C15_default.
Print Assumptions C15_gap_refuted.
Print Assumptions C15_beyond_refuted.
