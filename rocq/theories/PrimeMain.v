(** number, getfirst, primevar, prime_pi, primdiv and pdivs on a table without large gaps. *)
From Coq Require Import ZArith Znumtheory Lia List Bool Sorted.
From Verif Require Import Base RatModel LinModel P1Math PrimeModel PrimeSpec PrimeProofs.
Import ListNotations.
Open Scope Z_scope.
Open Scope res_scope.
Opaque while.

Lemma c64_in z : -9223372036854775808 <= z <= 9223372036854775807 -> c64 z = Ok z.
Proof. intros H. unfold c64, in64b, min64, max64. destruct (Z.leb_spec (-9223372036854775808) z); [|lia]. destruct (Z.leb_spec z 9223372036854775807); [reflexivity|lia]. Qed.
Lemma rem64_pos a p : 0 <= a <= max64 -> 0 < p -> rem64 a p = Ok (a mod p).
Proof.
  unfold max64. intros Ha Hp. unfold rem64. destruct (Z.eqb_spec p 0); [lia|]. assert (Q : 0 <= Z.quot a p <= a) by (rewrite Z.quot_div_nonneg by lia; split; [apply Z.div_pos; lia|apply Z.div_le_upper_bound; nia]). unfold in64b, min64, max64. destruct (Z.leb_spec (-9223372036854775808) (Z.quot a p)); [|lia]. destruct (Z.leb_spec (Z.quot a p) 9223372036854775807); [|lia]. cbn [andb]. rewrite Z.rem_mod_nonneg by lia. reflexivity.
Qed.
Lemma quot64_pos a p : 0 <= a <= max64 -> 0 < p -> quot64 a p = Ok (a / p).
Proof.
  unfold max64. intros Ha Hp. unfold quot64. destruct (Z.eqb_spec p 0); [lia|]. rewrite Z.quot_div_nonneg by lia. apply c64_in. split; [assert (0 <= a / p) by (apply Z.div_pos; lia); lia|apply Z.div_le_upper_bound; nia].
Qed.
Lemma sorted_nth l : StronglySorted Z.lt l -> forall i j, (i < j < length l)%nat -> nth i l 0 < nth j l 0.
Proof.
  induction 1 as [|a l H IH F]; intros [|i] [|j] Hij; cbn [length nth] in *; try lia; [|apply IH; lia]. rewrite Forall_forall in F. apply F. apply nth_In. lia.
Qed.
Lemma diffs_nth l : forall a i, (i < length l)%nat -> nth i (diffs a l) 0 = nth i l 0 - nth i (a :: l) 0.
Proof. induction l as [|x l IH]; intros a [|i] H; cbn [length diffs nth] in *; try lia; auto. rewrite IH by lia. reflexivity. Qed.

Section Table.
Variables (N : Z) (L : list Z).
Hypothesis HL : prime_list N L.
Hypothesis HN : 2 <= N.
Hypothesis Hlen : Z.of_nat (length L) < 2 ^ 62.
Hypothesis Hd : Forall (fun d => 0 < d < 256) (diffs 0 L).
Notation len := (length L).
Definition tb (i : nat) : ptab := Pt (diffs 0 L ++ [0]) (Z.of_nat len) (last L 0) i (Z.of_nat i) (nth i (0 :: L) 0).
Lemma pt_i_tb j : pt_i (tb j) = Z.of_nat j. Proof. reflexivity. Qed.
Lemma L2 : exists L', L = 2 :: L'.
Proof.
  destruct HL as (S & P). assert (H : In 2 L) by (apply P; split; [apply prime_2|lia]). destruct L as [|x l]; [contradiction|]. exists l. f_equal. destruct H as [->|H]; auto. inversion S as [|? ? _ F]; subst. rewrite Forall_forall in F. specialize (F 2 H). assert (prime x) by (apply P; left; auto). apply pge in H0. lia.
Qed.
Lemma len1 : (1 <= len)%nat. Proof. destruct L2 as (l & ->). cbn [length]. lia. Qed.
Lemma last_nth : last L 0 = nth len (0 :: L) 0.
Proof. assert (G : forall (l : list Z) a, last l a = nth (length l) (a :: l) 0); [|apply G]. clear. induction l as [|x l IH]; intros a; cbn [last length nth]; auto. destruct l as [|y l]; auto. rewrite (IH a). reflexivity. Qed.
Lemma nthL_prime i : (i < len)%nat -> prime (nth i L 0) /\ nth i L 0 <= N.
Proof. intros H. apply HL, nth_In, H. Qed.
Lemma tab_entry i : (i < len)%nat -> nth_error (diffs 0 L ++ [0]) i = Some (nth i L 0 - nth i (0 :: L) 0) /\ 0 < nth i L 0 - nth i (0 :: L) 0 < 256.
Proof.
  intros H. assert (E : nth_error (diffs 0 L ++ [0]) i = Some (nth i L 0 - nth i (0 :: L) 0)). { rewrite nth_error_app1 by (rewrite diffs_length; auto). rewrite <- diffs_nth by auto. apply nth_error_nth'. rewrite diffs_length. auto. } split; auto.
  rewrite nth_error_app1 in E by (rewrite diffs_length; auto). apply nth_error_In in E. rewrite Forall_forall in Hd. apply Hd, E.
Qed.
Lemma tab_end : nth_error (diffs 0 L ++ [0]) len = Some 0.
Proof. rewrite nth_error_app2; rewrite diffs_length; [rewrite Nat.sub_diag; reflexivity|lia]. Qed.
Lemma adv_ok i : (i < len)%nat -> pt_adv (tb i) = Ok (true, tb (S i)).
Proof.
  intros H. destruct (tab_entry i H) as (E & R). unfold pt_adv, tb, deref. cbn [pt_d pt_a pt_n pt_big pt_i pt_v]. rewrite E, bind_Ok. destruct (Z.eqb_spec (nth i L 0 - nth i (0 :: L) 0) 0); [lia|]. do 2 f_equal. f_equal; cbn [nth]; try lia.
Qed.
Lemma adv_end : pt_adv (tb len) = Ok (false, tb len).
Proof. unfold pt_adv, tb, deref. cbn [pt_d pt_a]. rewrite tab_end. reflexivity. Qed.
Lemma number_ok i n : (i <= len)%nat -> let k := Nat.min (Z.to_nat n) len in pt_number (tb i) n = Ok (nth k (0 :: L) 0, tb k).
Proof.
  intros Hi k. unfold pt_number. change (pt_i (tb i)) with (Z.of_nat i). set (j0 := if n <? Z.of_nat i then 0%nat else i). assert (E0 : (if n <? Z.of_nat i then pt_reset (tb i) else tb i) = tb j0) by (unfold j0; destruct (n <? Z.of_nat i); reflexivity). rewrite E0.
  match goal with |- context [while ?f _ _] => set (g := f) end.
  destruct (while_total g (fun '(t, ok) => exists j, t = tb j /\ (j <= len)%nat /\ (ok = true \/ j = len) /\ (j = 0%nat \/ Z.of_nat j <= n)) (fun t => t = tb k) (fun '(t, ok) => Z.of_nat len - pt_i t + (if (ok : bool) then 1 else 0))) with (n := 70%nat) (s := (tb j0, true)) as (t & E & Ht).
  - intros (t, ok) (j & -> & Hj & _). cbn [pt_i tb]. destruct ok; lia.
  - intros (t, ok) (j & -> & Hj & Hok & Hjn). unfold g. change (pt_i (tb j)) with (Z.of_nat j). destruct (Z.ltb_spec (Z.of_nat j) n) as [Q|Q]; cbn [andb].
    + destruct ok.
      * right. destruct (Nat.eq_dec j len) as [->|nj].
        -- rewrite adv_end, bind_Ok. eexists; split; [reflexivity|]. split; [exists len; auto|rewrite !pt_i_tb; lia].
        -- rewrite adv_ok by lia. rewrite bind_Ok. eexists; split; [reflexivity|]. split; [exists (S j); split; auto; split; [lia|]; split; [auto|lia]|rewrite !pt_i_tb; lia].
      * left. eexists; split; [reflexivity|]. destruct Hok; [discriminate|]. subst j. f_equal. unfold k. lia.
    + left. eexists; split; [reflexivity|]. f_equal. unfold k. lia.
  - exists j0. split; auto. unfold j0. destruct (Z.ltb_spec n (Z.of_nat i)); (split; [lia|]); auto.
  - change (pt_i (tb j0)) with (Z.of_nat j0). change (Z.of_nat 70) with 70. assert (2 ^ 62 < 2 ^ 70 - 1) by reflexivity. lia.
  - rewrite E, bind_Ok, Ht. reflexivity.
Qed.
Lemma firstn_S (l : list Z) : forall j, (j < length l)%nat -> firstn (S j) l = firstn j l ++ [nth j l 0].
Proof. induction l as [|x l IH]; intros [|j] H; cbn [length] in H; try lia; [reflexivity|]. change (firstn (S (S j)) (x :: l)) with (x :: firstn (S j) l). rewrite IH by lia. reflexivity. Qed.
Lemma first_ok i n : (i <= len)%nat -> pt_first (tb i) n = Ok (firstn (Z.to_nat n) L ++ (if n <=? Z.of_nat len then [] else [last L 0]), tb (Nat.min (Z.to_nat n) len)).
Proof.
  intros Hi. unfold pt_first. change (pt_reset (tb i)) with (tb 0).
  match goal with |- context [while ?f _ _] => set (g := f) end.
  set (R := firstn (Z.to_nat n) L ++ (if n <=? Z.of_nat len then [] else [last L 0])).
  destruct (while_total g (fun '(i, ok, ans, t) => (exists j, (j <= len)%nat /\ i = Z.of_nat j /\ ok = true /\ ans = firstn j L /\ t = tb j /\ (j = 0%nat \/ Z.of_nat j <= n)) \/ (i = Z.of_nat len + 1 /\ i <= n /\ ok = false /\ ans = R /\ t = tb len)) (fun '(ans, t) => ans = R /\ t = tb (Nat.min (Z.to_nat n) len)) (fun '(i, _, _, _) => Z.max 0 (Z.of_nat len + 1 - i))) with (n := 70%nat) (s := (0, true, @nil Z, tb 0)) as ((ans & t) & E & -> & ->).
  - intros (((x, ok), ans), t) _. lia.
  - intros (((x, ok), ans), t) [(j & Jl & -> & -> & -> & -> & Hj)|(-> & Hx & -> & -> & ->)]; unfold g.
    + destruct (Z.ltb_spec (Z.of_nat j) n); cbn [andb].
      * right. destruct (Nat.eq_dec j len) as [->|nj].
        -- rewrite adv_end, bind_Ok. eexists; split; [reflexivity|]. split; [|lia]. right. split; auto. split; [lia|]. split; auto. split; auto. unfold R. rewrite !firstn_all2 by lia. destruct (Z.leb_spec n (Z.of_nat len)); [lia|]. rewrite last_nth. reflexivity.
        -- rewrite adv_ok by lia. rewrite bind_Ok. eexists; split; [reflexivity|]. split; [|lia]. left. exists (S j). split; [lia|]. split; [lia|]. split; auto. split; [rewrite firstn_S by lia; reflexivity|]. split; auto. right. lia.
      * left. eexists; split; [reflexivity|]. assert (Q : j = Z.to_nat n) by lia. split; [|f_equal; lia]. unfold R. rewrite <- Q. destruct (Z.leb_spec n (Z.of_nat len)); [|lia]. rewrite app_nil_r. reflexivity.
    + rewrite andb_false_r. left. eexists; split; [reflexivity|]. split; auto. f_equal. lia.
  - left. exists 0%nat. split; [lia|]. auto 10.
  - change (Z.of_nat 70) with 70. assert (2 ^ 62 < 2 ^ 70 - 1) by reflexivity. lia.
  - rewrite E, bind_Ok. reflexivity.
Qed.
(** primevar *)
Definition pvs (i : nat) : pvar := Pv (nth (Nat.min i len) (0 :: L) 0) (Z.of_nat i) i (Z.of_nat len).
Lemma pv_new_ok i : (i <= len)%nat -> exists j, (j <= len)%nat /\ pv_new (tb i) (pt_n (tb i)) 1 = Ok (pvs 1, tb j).
Proof.
  intros Hi. unfold pv_new. pose proof (number_ok i 1 Hi) as Q. cbv zeta in Q. rewrite Q, bind_Ok. pose proof len1. exists (Nat.min (Z.to_nat 1) len). split; [lia|]. reflexivity.
Qed.
Lemma pv_next_ok j i : (i <= len)%nat -> pv_next (tb j) (pvs i) = Ok (pvs (S i)).
Proof.
  intros Hi. unfold pv_next, pvs. cbn [pv_i pv_a pv_v pv_max]. unfold add64. rewrite c64_in by (assert (2 ^ 62 < 9223372036854775806) by reflexivity; lia). rewrite bind_Ok. destruct (Z.leb_spec (Z.of_nat i) (Z.of_nat len)); [|lia]. unfold deref. cbn [pt_d tb]. destruct (Nat.eq_dec i len) as [->|n].
  - rewrite tab_end, bind_Ok. do 2 f_equal; [|lia|lia]. replace (Nat.min (S len) len) with len by lia. rewrite Nat.min_id. lia.
  - destruct (tab_entry i ltac:(lia)) as (E & _). rewrite E, bind_Ok. do 2 f_equal; [|lia|lia]. replace (Nat.min i len) with i by lia. replace (Nat.min (S i) len) with (S i) by lia. cbn [nth]. lia.
Qed.
Lemma pvs_val i : (1 <= i <= len)%nat -> pv_v (pvs i) = nth (i - 1) L 0.
Proof. intros H. unfold pvs. cbn [pv_v]. replace (Nat.min i len) with (S (i - 1)) by lia. reflexivity. Qed.
Lemma pvs_ok i : pv_ok (pvs i) = (i <=? len)%nat.
Proof. unfold pv_ok, pvs. cbn [pv_i pv_max]. destruct (Nat.leb_spec i len), (Z.leb_spec (Z.of_nat i) (Z.of_nat len)); auto; lia. Qed.
(** smaller primes stand before *)
Lemma before q k : (k < len)%nat -> prime q -> q < nth k L 0 -> exists j, (j < k)%nat /\ nth j L 0 = q.
Proof.
  intros Hk Hq Lq. destruct (nthL_prime k Hk) as (_ & B). assert (I : In q L) by (apply HL; split; [auto|lia]). apply (In_nth _ _ 0) in I. destruct I as (j & Hj & E). exists j. split; auto. destruct (lt_eq_lt_dec j k) as [[?| ->]|G]; auto; [lia|]. pose proof (sorted_nth L (proj1 HL) k j ltac:(lia)). lia.
Qed.
Lemma firstn_list k p : (k < len)%nat -> p <= nth k L 0 -> (forall j, (j < k)%nat -> nth j L 0 < p) -> prime_list (p - 1) (firstn k L).
Proof.
  intros Hk Hp Hb. split.
  - destruct HL as (S & _). clear - S. revert k. induction S as [|a l H IH F]; intros [|k]; cbn [firstn]; constructor; auto. apply Forall_forall. intros x Hx. rewrite Forall_forall in F. apply F. rewrite <- (firstn_skipn k l). apply in_app_iff. auto.
  - intros q. split.
    + intros I. apply (In_nth _ _ 0) in I. destruct I as (j & Hj & E). rewrite firstn_length in Hj. rewrite <- E. assert (Ej : nth j (firstn k L) 0 = nth j L 0) by (rewrite <- (firstn_skipn k L) at 2; rewrite app_nth1; auto; rewrite firstn_length; lia). rewrite Ej. split; [apply nthL_prime; lia|]. specialize (Hb j ltac:(lia)). lia.
    + intros (Q1 & Q2). destruct (before q k Hk Q1 ltac:(lia)) as (j & Hj & <-). assert (Ej : nth j (firstn k L) 0 = nth j L 0) by (rewrite <- (firstn_skipn k L) at 2; rewrite app_nth1; auto; rewrite firstn_length; lia). rewrite <- Ej. apply nth_In. rewrite firstn_length. lia.
Qed.
Lemma pi_ok i p : (i <= len)%nat -> Z.of_nat len <= max32 -> p <= last L 0 -> exists j, pt_pi (tb i) p = Ok (Z.of_nat j) /\ (j < len)%nat /\ p <= nth j L 0 /\ prime_list (p - 1) (firstn j L).
Proof.
  intros Hi H32 Hp. unfold max32 in H32. unfold pt_pi. destruct (pv_new_ok i Hi) as (j0 & Hj0 & ->). rewrite bind_Ok. pose proof len1 as L1.
  match goal with |- context [while ?f _ _] => set (g := f) end.
  destruct (while_total g (fun '(v, ip) => exists i, (1 <= i <= len)%nat /\ v = pvs i /\ ip = Z.of_nat (i - 1) /\ forall j, (j < i - 1)%nat -> nth j L 0 < p) (fun r => exists j, r = Z.of_nat j /\ (j < len)%nat /\ p <= nth j L 0 /\ forall i, (i < j)%nat -> nth i L 0 < p) (fun '(v, _) => Z.of_nat len - pv_i v)) with (n := 70%nat) (s := (pvs 1, 0)) as (r & E & j & -> & J1 & J2 & J3).
  - intros (v, ip) (k & Hk & -> & _). cbn [pvs pv_i]. lia.
  - intros (v, ip) (k & Hk & -> & -> & Hb). unfold g. rewrite pvs_val by lia. destruct (Z.ltb_spec (nth (k - 1) L 0) p) as [Q|Q].
    + right. rewrite pv_next_ok by lia. rewrite bind_Ok. unfold add32, c32, in32b, min32, max32. destruct (Z.leb_spec (-2147483648) (Z.of_nat (k - 1) + 1)); [|lia]. destruct (Z.leb_spec (Z.of_nat (k - 1) + 1) 2147483647); [|lia]. cbn [andb]. rewrite bind_Ok. eexists; split; [reflexivity|]. assert (k <> len). { intros ->. rewrite last_nth in Hp. replace len with (S (len - 1)) in Hp at 1 by lia. cbn [nth] in Hp. lia. }
      split; [|cbn [pvs pv_i]; lia]. exists (S k). split; [lia|]. split; auto. split; [lia|]. intros j Hj. destruct (Nat.eq_dec j (k - 1)) as [->|]; auto. apply Hb. lia.
    + left. eexists; split; [reflexivity|]. exists (k - 1)%nat. split; auto. split; [lia|auto].
  - exists 1%nat. split; [lia|]. split; auto. split; auto. intros j Hj. lia.
  - cbn [pvs pv_i]. change (Z.of_nat 70) with 70. assert (2 ^ 62 < 2 ^ 70) by reflexivity. lia.
  - rewrite E. exists j. split; auto. split; auto. split; auto. apply firstn_list; auto.
Qed.
(** beyond the table prime_pi never returns *)
Lemma pi_beyond i p r : (i <= len)%nat -> last L 0 < p -> pt_pi (tb i) p <> Ok r.
Proof.
  intros Hi Hp E. unfold pt_pi in E. destruct (pv_new_ok i Hi) as (j0 & Hj0 & E1). rewrite E1, bind_Ok in E. revert E.
  match goal with |- context [while ?f _ _] => set (g := f) end. intros E.
  pose proof (while_partial g (fun '(v, ip) => (exists i, (i <= len)%nat /\ v = pvs i) \/ (pv_v v = last L 0 /\ pv_max v < pv_i v)) (fun _ => False)) as W. eapply W; [| | |exact E].
  - intros (v, ip) (v', ip') H St. unfold g in St. destruct (Z.ltb_spec (pv_v v) p); [|discriminate]. destruct H as [(k & Hk & ->)|(V1 & V2)].
    + rewrite pv_next_ok, bind_Ok in St by auto. destruct (add32 ip 1); try discriminate. rewrite bind_Ok in St. injection St as <- <-. destruct (Nat.eq_dec k len) as [->|]; [right|left; exists (S k); split; [lia|auto]]. cbn [pvs pv_v pv_max pv_i]. replace (Nat.min (S len) len) with len by lia. split; [symmetry; apply last_nth|lia].
    + unfold pv_next in St. unfold add64 in St. destruct (c64 (pv_i v + 1)) as [x| | |] eqn:C; try discriminate. rewrite bind_Ok in St. destruct (Z.leb_spec (pv_i v) (pv_max v)); [lia|]. rewrite bind_Ok in St. destruct (add32 ip 1); try discriminate. rewrite bind_Ok in St. injection St as <- <-. right. cbn [pv_v pv_max pv_i]. split; auto. unfold c64 in C. destruct (in64b (pv_i v + 1)); [|discriminate]. injection C as <-. lia.
  - intros (v, ip) x H St. unfold g in St. destruct (Z.ltb_spec (pv_v v) p) as [Q|Q].
    + destruct (pv_next (tb j0) v); try discriminate. rewrite bind_Ok in St. destruct (add32 ip 1); discriminate.
    + assert (pv_v v <= last L 0); [|lia]. destruct H as [(k & Hk & ->)|(V1 & V2)]; [|lia]. cbn [pvs pv_v]. rewrite last_nth. replace (Nat.min k len) with k by lia. destruct (Nat.eq_dec k len) as [->|]; [lia|]. pose proof len1. replace len with (S (len - 1)) by lia. cbn [nth]. destruct k as [|k]; [destruct (nthL_prime (len - 1) ltac:(lia)) as (Pr & _); apply pge in Pr; lia|]. pose proof (sorted_nth L (proj1 HL) k (len - 1) ltac:(lia)). cbn [nth]. lia.
  - left. exists 1%nat. split; [apply len1|auto].
Qed.
(** ** trial division *)
Hypothesis Hsq : last L 0 <= 3037000499.
Lemma nthL_last k : (k < len)%nat -> nth k L 0 <= last L 0.
Proof. intros H. rewrite last_nth. replace len with (S (len - 1)) by lia. cbn [nth]. destruct (Nat.eq_dec k (len - 1)) as [->|]; [lia|]. pose proof (sorted_nth L (proj1 HL) k (len - 1) ltac:(lia)). lia. Qed.
Lemma sq_ok k : (k < len)%nat -> mul64 (nth k L 0) (nth k L 0) = Ok (nth k L 0 * nth k L 0).
Proof. intros H. unfold mul64. apply c64_in. pose proof (nthL_last k H). destruct (nthL_prime k H) as (P & _). apply pge in P. nia. Qed.
Lemma abs_ok a : Z.abs a <= max64 -> abs64 a = Ok (Z.abs a).
Proof. unfold max64. intros H. unfold abs64. apply c64_in. lia. Qed.
Lemma prime_below a p : (forall q, prime q -> q < p -> ~ (q | a)) -> 1 < a < p * p -> 0 < p -> prime a.
Proof. intros H R Hp. destruct (prime_dec a) as [|Np]; auto. exfalso. destruct (small_factor a ltac:(lia) Np) as (q & Q1 & Q2 & Q3). apply (H q); auto. pose proof (pge q Q1). nia. Qed.
Lemma mod_div_iff a p : 0 < p -> (a mod p = 0 <-> (p | a)). Proof. intros H. apply Z.mod_divide. lia. Qed.
Lemma divout_ok a p : 1 <= a <= max64 -> 2 <= p -> exists a' e, pt_divout a p = Ok a' /\ 0 <= e /\ a = a' * p ^ e /\ ~ (p | a') /\ 1 <= a' <= a.
Proof.
  intros Ha Hp. unfold pt_divout. match goal with |- context [while ?f _ _] => set (g := f) end.
  destruct (while_total g (fun x => 1 <= x <= a /\ exists e, 0 <= e /\ a = x * p ^ e) (fun x => 1 <= x <= a /\ (exists e, 0 <= e /\ a = x * p ^ e) /\ ~ (p | x)) (fun x => x)) with (n := 70%nat) (s := a) as (a' & E & H1 & (e & H2 & H3) & H4).
  - intros x (H & _). lia.
  - intros x (H1 & e & H2 & H3). unfold g. rewrite rem64_pos by (unfold max64 in *; lia). rewrite bind_Ok. destruct (Z.eqb_spec (x mod p) 0) as [Q|Q].
    + right. rewrite quot64_pos by (unfold max64 in *; lia). rewrite bind_Ok. apply mod_div_iff in Q; [|lia]. destruct Q as (y & ->). rewrite Z.div_mul by lia. eexists; split; [reflexivity|]. assert (1 <= y) by nia. split; [|nia]. split; [nia|]. exists (e + 1). split; [lia|]. rewrite H3, Z.pow_add_r by lia. ring.
    + left. eexists; split; [reflexivity|]. split; auto. split; [exists e; auto|]. intros D. apply Q, mod_div_iff; auto. lia.
  - split; [lia|]. exists 0. split; [lia|]. ring.
  - unfold max64 in Ha. change (Z.of_nat 70) with 70. assert (9223372036854775807 < 2 ^ 70) by reflexivity. lia.
  - exists a', e. auto.
Qed.
Lemma pdivs_ok i aa : (i <= len)%nat -> aa <> 0 -> Z.abs aa <= max64 -> Z.abs aa < (N + 1) ^ 2 -> exists l, pt_pdivs (tb i) aa = Ok l /\ StronglySorted Z.lt l /\ forall p, In p l <-> prime p /\ (p | aa).
Proof.
  intros Hi H0 H64 HNN. unfold pt_pdivs. destruct (pv_new_ok i Hi) as (j0 & Hj0 & ->). rewrite bind_Ok, abs_ok, bind_Ok by auto. set (A := Z.abs aa) in *. assert (HA : 1 <= A) by lia. pose proof len1 as L1.
  match goal with |- context [while ?f _ _] => set (g := f) end.
  set (good := fun a l => 1 <= a <= A /\ StronglySorted Z.lt l /\ (forall x, In x l -> prime x) /\ (forall p, prime p -> ((p | A) <-> In p l \/ (p | a))) /\ forall x p, In x l -> prime p -> (p | a) -> x < p).
  assert (Snoc : forall a a' l p, good a l -> prime p -> (p | a) -> 1 <= a' <= a -> (forall q, prime q -> ((q | a) <-> q = p \/ (q | a'))) -> (forall q, prime q -> (q | a') -> p < q) -> good a' (l ++ [p])).
  { intros a a' l p (G1 & G2 & G3 & G4 & G5) Pp Dp Ha' Hq Hlt. split; [lia|]. split; [apply sorted_snoc; auto|]. split; [|split].
    - intros x Hx. apply in_app_iff in Hx. destruct Hx as [|[<-|[]]]; auto.
    - intros q Pq. rewrite G4, in_app_iff, Hq by auto. cbn [In]. intuition.
    - intros x q Hx Pq Dq. apply in_app_iff in Hx. destruct Hx as [Hx|[<-|[]]]; auto. apply G5; auto. apply Hq; auto. }
  destruct (while_total g (fun '(v, a, l) => good a l /\ exists i, (1 <= i <= S len)%nat /\ v = pvs i /\ forall j, (j < i - 1)%nat -> ~ (nth j L 0 | a))
    (fun '(a, l) => good a l /\ (a = 1 \/ forall p, prime p -> p <= N -> ~ (p | a))) (fun '(v, _, _) => Z.of_nat len + 1 - pv_i v)) with (n := 70%nat) (s := (pvs 1, A, @nil Z)) as ((a & l) & E & G & Ex).
  - intros ((v, a), l) (_ & k & Hk & -> & _). cbn [pvs pv_i]. lia.
  - intros ((v, a), l) (G & k & Hk & -> & Hb). unfold g. rewrite pvs_ok. pose proof G as ((Ga & Ga') & _). destruct (Z.ltb_spec 1 a) as [Q|Q]; cbn [andb]; [|left; eexists; split; [reflexivity|]; split; auto; left; lia].
    destruct (Nat.leb_spec k len) as [K|K].
    + right. cbv zeta. rewrite pv_next_ok, bind_Ok by lia. rewrite pvs_val by lia. set (p := nth (k - 1) L 0). destruct (nthL_prime (k - 1) ltac:(lia)) as (Pp & PN). fold p in Pp, PN. pose proof (pge p Pp) as P2. rewrite rem64_pos by lia. rewrite bind_Ok.
      assert (Bf : forall q, prime q -> q < p -> ~ (q | a)). { intros q Pq Lq. destruct (before q (k - 1) ltac:(lia) Pq Lq) as (j & Hj & <-). apply Hb; auto. }
      destruct (Z.eqb_spec (a mod p) 0) as [R|R].
      * apply mod_div_iff in R; [|lia]. destruct (divout_ok a p ltac:(lia) P2) as (a' & e & -> & He & Ea & Nd & Ha'). rewrite bind_Ok. eexists; split; [reflexivity|]. split; [|cbn [pvs pv_i]; lia].
        assert (Dv : forall q, prime q -> ((q | a) <-> q = p \/ (q | a'))). { intros q Pq. split; [|intros [->|D]; auto; rewrite Ea; apply Z.divide_mul_l; auto]. intros D. rewrite Ea in D. apply prime_mult in D; auto. destruct D as [D|D]; auto. left. clear - D Pq Pp He. revert D. pattern e. apply natlike_ind; auto; [intros D; rewrite Z.pow_0_r in D; apply Z.divide_1_r_nonneg in D; apply pge in Pq; lia|]. intros x Hx IH D. rewrite Z.pow_succ_r in D by auto. apply prime_mult in D; auto. destruct D as [D|D]; auto. apply prime_dvd_eq; auto. }
        split; [apply (Snoc a); auto|].
        -- intros q Pq Dq. destruct (Z.lt_trichotomy q p) as [Lq|[->|Lq]]; auto; [exfalso|contradiction]. apply (Bf q Pq Lq). apply Dv; auto.
        -- exists (S k). split; [lia|]. split; auto. intros j Hj D. destruct (Nat.eq_dec j (k - 1)) as [->|]; [contradiction|]. apply (Hb j ltac:(lia)). apply Z.divide_trans with a'; auto. exists (p ^ e). rewrite Ea. ring.
      * unfold p at 1 2. rewrite sq_ok by lia. rewrite bind_Ok. fold p. assert (Nd : ~ (p | a)) by (intros D; apply R, mod_div_iff; auto; lia). assert (Bf' : forall j, (j < S k - 1)%nat -> ~ (nth j L 0 | a)). { intros j Hj. destruct (Nat.eq_dec j (k - 1)) as [->|]; auto. apply Hb. lia. }
        destruct (Z.ltb_spec a (p * p)) as [Sq|Sq]; (eexists; split; [reflexivity|]); (split; [|cbn [pvs pv_i]; lia]).
        -- assert (Pa : prime a) by (apply (prime_below a p); auto; lia). assert (D1 : forall q, prime q -> (q | 1) -> False) by (intros q Pq D; apply Z.divide_1_r_nonneg in D; apply pge in Pq; lia). split; [apply (Snoc a); auto using Z.divide_refl; try lia|].
           ++ intros q Pq. split; [intros D; left; apply prime_dvd_eq; auto|intros [->|D]; [apply Z.divide_refl|destruct (D1 q Pq D)]].
           ++ intros q Pq D. destruct (D1 q Pq D).
           ++ exists (S k). split; [lia|]. split; auto. intros j Hj D. apply (D1 (nth j L 0)); auto. apply nthL_prime. lia.
        -- split; auto. exists (S k). split; [lia|]. split; auto.
    + left. eexists; split; [reflexivity|]. split; auto. right. intros p Pp Lp. assert (I : In p L) by (apply HL; auto). apply (In_nth _ _ 0) in I. destruct I as (j & Hj & <-). apply Hb. lia.
  - split.
    + split; [lia|]. split; [constructor|]. split; [intros x []|]. split; [|intros x p []]. intros p Pp. cbn [In]. tauto.
    + exists 1%nat. split; [lia|]. split; auto. intros j Hj. lia.
  - cbn [pvs pv_i]. change (Z.of_nat 70) with 70. assert (2 ^ 62 < 2 ^ 70 - 1) by reflexivity. lia.
  - rewrite E, bind_Ok. eexists; split; [reflexivity|]. assert (Abs : forall p, (p | A) <-> (p | aa)) by (intros p; unfold A; apply Z.divide_abs_r). destruct G as ((G0 & G1) & G2 & G3 & G4 & G5). destruct (Z.ltb_spec 1 a) as [Q|Q].
    + destruct Ex as [|Ex]; [lia|]. assert (Pa : prime a). { apply (prime_below a (N + 1)); [intros q Pq Lq; apply Ex; auto; lia|lia|lia]. } split; [apply sorted_snoc; auto; intros y Hy; apply G5; auto using Z.divide_refl|]. intros p. rewrite in_app_iff. cbn [In]. rewrite <- Abs. split.
      * intros [Hp|[<-|[]]]; [split; [auto|apply G4; auto]|split; [auto|apply G4; auto; right; apply Z.divide_refl]].
      * intros (Pp & D). apply G4 in D; auto. destruct D as [|D]; auto. right. left. symmetry. apply prime_dvd_eq; auto.
    + assert (a = 1) by lia. subst a. split; auto. intros p. rewrite <- Abs. split; [intros Hp; split; [auto|apply G4; auto]|]. intros (Pp & D). apply G4 in D; auto. destruct D as [|D]; auto. apply Z.divide_1_r_nonneg in D; apply pge in Pp; lia.
Qed.
Lemma primdiv_ok i aa : (i <= len)%nat -> 2 <= Z.abs aa <= max64 -> Z.abs aa < (N + 1) ^ 2 -> exists r, pt_primdiv (tb i) aa = Ok r /\ prime r /\ (r | aa) /\ forall q, prime q -> (q | aa) -> r <= q.
Proof.
  intros Hi H64 HNN. unfold pt_primdiv. destruct (pv_new_ok i Hi) as (j0 & Hj0 & ->). rewrite bind_Ok, abs_ok, bind_Ok by lia. assert (Abs : forall p, (p | Z.abs aa) <-> (p | aa)) by (intros p; apply Z.divide_abs_r). set (a := Z.abs aa) in *. pose proof len1 as L1.
  match goal with |- context [while ?f _ _] => set (g := f) end.
  set (good := fun r => prime r /\ (r | a) /\ forall q, prime q -> (q | a) -> r <= q).
  destruct (while_total g (fun '(v, p) => exists i, (1 <= i <= S len)%nat /\ v = pvs i /\ ((p = 0 /\ forall j, (j < i - 1)%nat -> ~ (nth j L 0 | a)) \/ good p))
    (fun p => good (if p =? 0 then a else p)) (fun '(v, _) => Z.of_nat len + 1 - pv_i v)) with (n := 70%nat) (s := (pvs 1, 0)) as (p & E & G).
  - intros (v, p) (k & Hk & -> & _). cbn [pvs pv_i]. lia.
  - intros (v, p) (k & Hk & -> & Hg). unfold g. rewrite pvs_ok. assert (Hg' : (p = 0 /\ forall j, (j < k - 1)%nat -> ~ (nth j L 0 | a)) \/ (p <> 0 /\ good p)). { destruct Hg as [|Hg]; auto. right. split; auto. destruct Hg as (Pp & _). apply pge in Pp. lia. }
    destruct Hg' as [(-> & Hb)|(Np & G)]; [|left; destruct (Z.eqb_spec p 0); [contradiction|]; rewrite andb_false_r; eexists; split; [reflexivity|]; destruct (Z.eqb_spec p 0); [contradiction|auto]].
    cbn [Z.eqb]. rewrite andb_true_r. destruct (Nat.leb_spec k len) as [K|K].
    + right. cbv zeta. rewrite pv_next_ok, bind_Ok by lia. rewrite pvs_val by lia. set (p := nth (k - 1) L 0). destruct (nthL_prime (k - 1) ltac:(lia)) as (Pp & PN). fold p in Pp, PN. pose proof (pge p Pp) as P2. rewrite rem64_pos by lia. rewrite bind_Ok.
      assert (Bf : forall q, prime q -> q < p -> ~ (q | a)). { intros q Pq Lq. destruct (before q (k - 1) ltac:(lia) Pq Lq) as (j & Hj & <-). apply Hb; auto. }
      destruct (Z.eqb_spec (a mod p) 0) as [R|R].
      * apply mod_div_iff in R; [|lia]. eexists; split; [reflexivity|]. split; [|cbn [pvs pv_i]; lia]. exists (S k). split; [lia|]. split; auto. right. split; auto. split; auto. intros q Pq Dq. destruct (Z.lt_ge_cases q p) as [Lq|]; auto. destruct (Bf q Pq Lq Dq).
      * unfold p at 1 2. rewrite sq_ok by lia. rewrite bind_Ok. fold p. eexists; split; [reflexivity|]. split; [|cbn [pvs pv_i]; lia]. exists (S k). split; [lia|]. split; auto. assert (Nd : ~ (p | a)) by (intros D; apply R, mod_div_iff; auto; lia). destruct (Z.ltb_spec a (p * p)).
        -- right. assert (Pa : prime a) by (apply (prime_below a p); auto; lia). split; auto. split; [apply Z.divide_refl|]. intros q Pq Dq. rewrite (prime_dvd_eq q a); auto; lia.
        -- left. split; auto. intros j Hj. destruct (Nat.eq_dec j (k - 1)) as [->|]; auto. apply Hb. lia.
    + left. eexists; split; [reflexivity|]. cbn [Z.eqb]. assert (Pa : prime a). { apply (prime_below a (N + 1)); [|lia|lia]. intros q Pq Lq. assert (I : In q L) by (apply HL; split; [auto|lia]). apply (In_nth _ _ 0) in I. destruct I as (j & Hj & <-). apply Hb. lia. } split; auto. split; [apply Z.divide_refl|]. intros q Pq Dq. rewrite (prime_dvd_eq q a); auto; lia.
  - exists 1%nat. split; [lia|]. split; auto. left. split; auto. intros j Hj. lia.
  - cbn [pvs pv_i]. change (Z.of_nat 70) with 70. assert (2 ^ 62 < 2 ^ 70 - 1) by reflexivity. lia.
  - rewrite E, bind_Ok. eexists; split; [reflexivity|]. destruct G as (G1 & G2 & G3). split; auto. split; [apply Abs; auto|]. intros q Pq Dq. apply G3; auto. apply Abs; auto.
Qed.
End Table.
