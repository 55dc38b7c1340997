(** Histories of the prime table, the default limit, and a gap which does not fit in a byte. *)
From Coq Require Import ZArith Znumtheory Lia List Bool Sorted.
From Verif Require Import Base RatModel LinModel PrimeModel PrimeSpec PrimeProofs PrimeMain.
Import ListNotations.
Open Scope Z_scope.
Open Scope res_scope.
Opaque while.

(** states of the table reached from init by calls of number and getfirst *)
Inductive preach (m : Z) : ptab -> Prop :=
| pr_init t : pt_init m = Ok t -> preach m t
| pr_number t n v t' : preach m t -> pt_number t n = Ok (v, t') -> preach m t'
| pr_first t n l t' : preach m t -> pt_first t n = Ok (l, t') -> preach m t'.
Definition tabmax (m : Z) : Z := 2 * ((m + 257) / 2).

Lemma sorted_ext l : StronglySorted Z.lt l -> forall l', StronglySorted Z.lt l' -> (forall x, In x l <-> In x l') -> l = l'.
Proof.
  induction 1 as [|a l S IH F]; intros [|b l'] S' E; auto.
  - destruct (proj2 (E b) (or_introl eq_refl)).
  - destruct (proj1 (E a) (or_introl eq_refl)).
  - inversion S' as [|? ? S1 F']; subst. rewrite Forall_forall in F, F'. assert (a = b). { destruct (proj1 (E a) (or_introl eq_refl)) as [|I]; auto. destruct (proj2 (E b) (or_introl eq_refl)) as [|I']; auto. specialize (F b I'). specialize (F' a I). lia. } subst b. f_equal. apply IH; auto.
    intros x. split; intros I.
    + destruct (proj1 (E x) (or_intror I)) as [<-|]; auto. specialize (F a I). lia.
    + destruct (proj2 (E x) (or_intror I)) as [<-|]; auto. specialize (F' a I). lia.
Qed.
Lemma prime_list_uniq n l l' : prime_list n l -> prime_list n l' -> l = l'.
Proof. intros (S & E) (S' & E'). apply sorted_ext; auto. intros x. rewrite E, E'. tauto. Qed.
Lemma diffs_range N L : prime_list N L -> gaps_small N -> Forall (fun d => 0 < d < 256) (diffs 0 L).
Proof.
  intros HL G. apply Forall_forall. intros d Hd. apply (In_nth _ _ 0) in Hd. destruct Hd as (i & Hi & <-). rewrite diffs_length in Hi. rewrite diffs_nth by auto.
  assert (Pr : prime (nth i L 0) /\ nth i L 0 <= N) by (apply HL, nth_In, Hi). destruct i as [|i]; cbn [nth].
  - assert (nth 0 L 0 <= 2); [|destruct Pr as (Pr & _); apply pge in Pr; lia]. assert (I : In 2 L) by (apply HL; split; [apply prime_2|destruct Pr as (P1 & P2); apply pge in P1; lia]). apply (In_nth _ _ 0) in I. destruct I as (j & Hj & E). destruct j as [|j]; [lia|]. pose proof (sorted_nth L (proj1 HL) 0 (S j) ltac:(lia)). lia.
  - pose proof (sorted_nth L (proj1 HL) i (S i) ltac:(lia)) as SS. assert (Pi : prime (nth i L 0)) by (apply HL, nth_In; lia). split; [lia|]. apply (G (nth i L 0)); try tauto. intros r Hr Pr'. assert (I : In r L) by (apply HL; split; [auto|lia]). apply (In_nth _ _ 0) in I. destruct I as (j & Hj & <-). destruct (lt_eq_lt_dec j i) as [[?| ->]|?]; try lia; [pose proof (sorted_nth L (proj1 HL) j i ltac:(lia)); lia|]. destruct (Nat.eq_dec j (S i)) as [->|]; [lia|]. pose proof (sorted_nth L (proj1 HL) (S i) j ltac:(lia)). lia.
Qed.
Lemma last_le N L : prime_list N L -> 2 <= N -> last L 0 <= N.
Proof. intros HL HN. rewrite last_nth. destruct (length L) as [|k] eqn:E; [cbn [nth]; lia|]. cbn [nth]. apply (nthL_prime N L HL). lia. Qed.
Section Reach.
Variables (m : Z) (L : list Z).
Hypothesis Hm : 0 <= m <= max64 - 257.
Hypothesis HL : prime_list (tabmax m) L.
Hypothesis HG : gaps_small (tabmax m).
Lemma tabmax2 : 2 <= tabmax m. Proof. unfold tabmax. assert (128 <= (m + 257) / 2) by (apply Z.div_le_lower_bound; lia). lia. Qed.
Lemma reach_len : Z.of_nat (length L) < 2 ^ 62.
Proof.
  destruct (pt_init_ok m Hm) as (L' & H & B & _). rewrite (prime_list_uniq _ _ _ HL H). unfold max64 in Hm. change (2 ^ 62) with 4611686018427387904. assert ((m + 257) / 2 < 4611686018427387904) by (apply Z.div_lt_upper_bound; lia). lia.
Qed.
Lemma reach_init : pt_init m = Ok (tb L 0).
Proof.
  destruct (pt_init_ok m Hm) as (L' & H & B & ->). rewrite <- (prime_list_uniq _ _ _ HL H). unfold tb. rewrite (map_ext_in _ id), map_id; [reflexivity|]. intros d Hd. unfold id. pose proof (diffs_range _ L HL HG) as R. rewrite Forall_forall in R. specialize (R d Hd). apply Z.mod_small. lia.
Qed.
Lemma reach_tb t : preach m t -> exists i, (i <= length L)%nat /\ t = tb L i.
Proof.
  pose proof (diffs_range _ L HL HG) as R. pose proof reach_len as Ln. induction 1 as [t E|t n v t' _ (i & Hi & ->) E|t n l t' _ (i & Hi & ->) E].
  - rewrite reach_init in E. injection E as <-. exists 0%nat. split; [lia|auto].
  - pose proof (number_ok L Ln R i n Hi) as Q. cbv zeta in Q. rewrite Q in E. injection E as _ <-. eexists; split; [|reflexivity]. lia.
  - rewrite (first_ok L Ln R i n Hi) in E. injection E as _ <-. eexists; split; [|reflexivity]. lia.
Qed.
End Reach.
(** ** primality by trial division, and gaps *)
Fixpoint nodiv (fuel : nat) (n d : Z) : bool := if n <? d * d then true else match fuel with O => false | S f => if n mod d =? 0 then false else nodiv f n (d + 1) end.
Definition isprime (pf : nat) (n : Z) : bool := (1 <? n) && nodiv pf n 2.
Lemma nodiv_ok f : forall n d, 2 <= d -> (forall k, 2 <= k < d -> ~ (k | n)) -> nodiv f n d = true -> forall k, 2 <= k -> k * k <= n -> ~ (k | n).
Proof.
  induction f as [|f IH]; intros n d Hd Hb E k Hk Sq; cbn [nodiv] in E; destruct (Z.ltb_spec n (d * d)); try discriminate; try (apply Hb; nia). destruct (Z.eqb_spec (n mod d) 0) as [|Nd]; [discriminate|]. apply (IH n (d + 1)); auto; [lia|]. intros j Hj. destruct (Z.eq_dec j d) as [->|]; [intros D; apply Nd, Z.mod_divide; auto; lia|apply Hb; lia].
Qed.
Lemma isprime_ok pf n : isprime pf n = true -> prime n.
Proof.
  intros H. apply andb_true_iff in H. destruct H as (H1 & H2). apply Z.ltb_lt in H1. destruct (prime_dec n) as [|Np]; auto. destruct (small_factor n H1 Np) as (p & P1 & P2 & P3). exfalso. apply (nodiv_ok _ n 2 ltac:(lia) ltac:(intros; lia) H2 p); auto. apply pge; auto.
Qed.
(** up to 1009 * 1009 the primes up to 1009 are enough *)
Lemma nodiv_prime n : prime n -> forall pf d, 2 <= d <= n -> n < (Z.of_nat pf + d) * (Z.of_nat pf + d) -> nodiv pf n d = true.
Proof.
  intros Pn. induction pf as [|pf IH]; intros d Hd Hn; cbn [nodiv]; destruct (Z.ltb_spec n (d * d)); auto; [cbn [Z.of_nat] in Hn; lia|]. destruct (Z.eqb_spec (n mod d) 0) as [E|E]; [apply Z.mod_divide in E; [|lia]; apply prime_divisors in E; auto; nia|]. apply IH; [nia|]. lia.
Qed.
Definition sprimes : list Z := filter (isprime 40) (map Z.of_nat (seq 2 1008)).
Lemma sprimes_in p : prime p -> p <= 1009 -> In p sprimes.
Proof.
  intros P H. pose proof (pge p P). apply filter_In. split; [apply in_map_iff; exists (Z.to_nat p); split; [lia|apply in_seq; lia]|]. unfold isprime. destruct (Z.ltb_spec 1 p); [|lia]. apply (nodiv_prime p P); [lia|]. change (Z.of_nat 40) with 40. nia.
Qed.
(** steps from 1009 along primes up to the end of the default table *)
Definition steps : list Z := [
  250; 252; 248; 252; 240; 252; 250; 248; 252; 246; 240; 250; 254; 250; 240; 254; 250; 246; 254; 250; 242; 252; 252; 250; 254; 252; 252; 252; 250; 224; 252; 252; 250; 252; 248; 252; 250; 254; 252; 250;
  234; 254; 252; 252; 240; 246; 246; 250; 234; 254; 252; 240; 244; 254; 252; 246; 244; 254; 252; 244; 218; 240; 252; 250; 254; 252; 238; 254; 252; 246; 238; 252; 252; 252; 236; 252; 252; 246; 252; 246;
  250; 240; 254; 250; 242; 250; 230; 244; 254; 250; 246; 252; 252; 246; 254; 250; 252; 248; 240; 240; 252; 244; 242; 244; 248; 252; 246; 250; 252; 252; 254; 252; 244; 254; 250; 252; 240; 242; 246; 246;
  250; 254; 250; 254; 238; 252; 246; 242; 250; 248; 246; 246; 228; 250; 254; 250; 242; 238; 248; 228; 246; 238; 228; 254; 244; 252; 240; 254; 246; 240; 252; 240; 250; 252; 254; 252; 250; 254; 238; 248;
  244; 228; 252; 246; 234; 248; 246; 250; 240; 254; 240; 252; 250; 248; 252; 250; 254; 216; 250; 240; 254; 232; 248; 252; 238; 230; 250; 252; 254; 250; 234; 252; 230; 228; 250; 254; 252; 228; 240; 252;
  244; 246; 236; 252; 252; 246; 244; 218; 250; 246; 252; 254; 246; 250; 240; 252; 252; 236; 252; 240; 250; 252; 248; 228; 250; 254; 226; 252; 252; 248; 240; 252; 238; 252; 246; 254; 240; 250; 248; 252;
  234; 246; 250; 216; 248; 250; 242; 234; 240; 250; 240; 254; 250; 252; 234; 246; 224; 246; 238; 254; 252; 240; 246; 238; 254; 252; 244; 252; 240; 248; 252; 252; 240; 250; 246; 254; 232; 236; 240; 252;
  250; 248; 240; 252; 252; 250; 236; 252; 252; 246; 250; 254; 216; 244; 248; 226; 254; 252; 240; 250; 246; 254; 250; 230; 246; 250; 252; 252; 254; 246; 238; 246; 254; 246; 240; 250; 254; 246; 252; 252;
  250; 252; 248; 252; 238; 252; 216; 248; 250; 240; 254; 252; 250; 248; 252; 250; 254; 252; 240; 252; 250; 252; 236; 244; 236; 240; 240; 244; 240; 230; 250; 248; 252; 250; 248; 250; 248; 244; 246; 230;
  250; 252; 248; 240; 252; 252; 250; 240; 248; 252; 246; 252; 250; 248; 250; 218; 252; 232; 230; 252; 246; 252; 238; 242; 238; 240; 234; 234; 252; 242; 238; 252; 218; 244; 254; 252; 252; 250; 252; 254;
  246; 238; 242; 246; 244; 254; 252; 240; 252; 238; 252; 246; 242; 252; 252; 240; 246; 250; 254; 244; 242; 252; 232; 254; 252; 250; 230; 244; 254; 250; 246; 254; 244; 252; 254; 252; 252; 252; 250; 254;
  252; 252; 238; 230; 250; 254; 246; 238; 252; 248; 250; 252; 254; 240; 250; 248; 250; 252; 246; 254; 250; 254; 252; 244; 254; 252; 252; 250; 242; 240; 238; 248; 252; 240; 250; 236; 252; 252; 246; 252;
  252; 246; 252; 250; 252; 228; 242; 250; 252; 240; 248; 252; 246; 252; 246; 252; 244; 254; 244; 248; 244; 246; 252; 252; 254; 246; 220; 248; 250; 252; 254; 252; 234; 250; 248; 252; 246; 244; 248; 252;
  250; 228; 248; 252; 252; 234; 216; 240; 250; 254; 244; 252; 254; 252; 244; 254; 234; 246; 246; 250; 248; 252; 246; 250; 240; 252; 248; 240; 250; 254; 240; 216; 250; 240; 252; 236; 244; 246; 242; 238;
  224; 238; 242; 240; 250; 252; 254; 252; 252; 232; 254; 250; 252; 252; 252; 234; 252; 254; 240; 228; 222; 246; 244; 254; 244; 216; 242; 250; 252; 248; 244; 234; 254; 252; 234; 252; 252; 228; 252; 246;
  250; 254; 252; 246; 252; 246; 250; 246; 248; 252; 240; 250; 236; 250; 242; 220; 228; 242; 228; 244; 254; 250; 246; 248; 252; 246; 252; 250; 242; 246; 252; 240; 240; 240; 246; 252; 252; 246; 252; 252;
  222; 220; 210; 240; 248; 216; 246; 240; 246; 238; 252; 252; 248; 252; 232; 248; 250; 248; 240; 238; 254; 250; 246; 254; 252; 216; 250; 254; 246; 244; 248; 238; 252; 252; 254; 252; 214; 236; 250; 252;
  252; 248; 238; 240; 242; 252; 250; 246; 254; 246; 222; 232; 246; 248; 250; 252; 242; 246; 246; 250; 248; 252; 250; 236; 244; 246; 248; 234; 252; 240; 240; 250; 246; 242; 246; 252; 238; 254; 240; 252;
  240; 238; 248; 238; 230; 246; 246; 244; 240; 248; 240; 252; 250; 248; 250; 246; 246; 246; 224; 244; 246; 248; 246; 252; 250; 248; 246; 220; 254; 234; 250; 252; 254; 240; 252; 240; 252; 252; 246; 244;
  254; 252; 244; 236; 198; 244; 248; 240; 252; 250; 242; 250; 254; 252; 252; 252; 250; 254; 250; 254; 246; 244; 248; 250; 228; 242; 252; 250; 252; 254; 250; 254; 252; 246; 244; 248; 252; 250; 248; 252;
  244; 242; 244; 230; 244; 234; 246; 240; 236; 250; 254; 252; 240; 238; 246; 254; 252; 210; 252; 246; 252; 238; 246; 254; 252; 238; 254; 252; 246; 252; 246; 250; 240; 236; 220; 248; 252; 238; 252; 254;
  252; 250; 242; 238; 230; 238; 252; 248; 246; 244; 254; 250; 248; 228; 252; 250; 254; 246; 240; 252; 240; 222; 250; 234; 252; 242; 246; 252; 252; 240; 252; 250; 224; 246; 250; 234; 230; 252; 252; 252;
  246; 250; 254; 204; 244; 252; 248; 250; 252; 254; 234; 222; 228; 250; 252; 254; 250; 252; 228; 242; 238; 242; 252; 220; 252; 234; 212; 252; 250; 252; 228; 248; 228; 222; 252; 246; 240; 244; 242; 238;
  242; 240; 246; 232; 252; 254; 250; 254; 252; 246; 252; 252; 250; 254; 252; 250; 254; 240; 246; 252; 246; 252; 252; 252; 238; 236; 252; 252; 252; 238; 252; 248; 250; 216; 224; 250; 240; 228; 234; 240;
  254; 252; 252; 250; 218; 252; 240; 250; 246; 246; 254; 252; 238; 254; 246; 252; 244; 248; 252; 226; 254; 250; 248; 240; 240; 238; 252; 248; 244; 246; 252; 252; 254; 252; 228; 246; 228; 240; 252; 240;
  246; 252; 252; 240; 246; 240; 252; 250; 248; 238; 234; 252; 240; 240; 234; 236; 250; 240; 254; 252; 252; 246; 252; 252; 238; 234; 234; 254; 250; 252; 254; 234; 250; 252; 254; 252; 244; 246; 230; 252;
  252; 244; 254; 252; 244; 236; 244; 252; 254; 246; 252; 252; 244; 252; 252; 252; 224; 244; 248; 238; 236; 244; 252; 252; 252; 254; 232; 254; 238; 248; 244; 246; 242; 238; 254; 246; 240; 252; 252; 250;
  254; 252; 210; 252; 250; 252; 246; 248; 250; 242; 252; 240; 246; 252; 252; 240; 238; 254; 250; 248; 240; 252; 250; 254; 250; 254; 240; 252; 250; 236; 240; 244; 248; 252; 250; 254; 234; 250; 252; 246;
  252; 246; 254; 252; 216; 234; 240; 246; 244; 246; 252; 252; 254; 252; 234; 246; 244; 254; 252; 252; 250; 246; 240; 236; 246; 250; 252; 248; 204; 250; 254; 252; 252; 250; 252; 236; 252; 252; 228; 238;
  230; 250; 254; 250; 254; 246; 244; 230; 250; 254; 252; 246; 234; 250; 254; 250; 252; 254; 238; 252; 254; 240; 244; 222; 234; 236; 238; 248; 250; 228; 246; 228; 236; 252; 244; 246; 240; 242; 250; 246;
  254; 246; 232; 254; 250; 240; 246; 248; 234; 246; 246; 250; 210; 254; 250; 254; 250; 242; 246; 252; 240; 252; 246; 252; 252; 240; 244; 246; 246; 248; 252; 240; 240; 238; 246; 236; 240; 252; 252; 250;
  254; 234; 240; 246; 252; 250; 222; 242; 216; 244; 246; 252; 222; 228; 242; 244; 240; 254; 250; 252; 230; 238; 252; 254; 252; 238; 224; 250; 252; 240; 246; 242; 252; 250; 254; 252; 244; 248; 252; 246;
  250; 252; 246; 246; 240; 236; 252; 252; 240; 234; 226; 248; 252; 228; 250; 236; 252; 244; 248; 238; 252; 242; 240; 250; 246; 230; 232; 228; 212; 240; 216; 246; 220; 236; 250; 252; 240; 252; 254; 252;
  240; 238; 242; 228; 246; 246; 252; 250; 252; 240; 246; 252; 236; 252; 238; 254; 246; 252; 252; 228; 250; 240; 254; 244; 254; 250; 222; 230; 238; 236; 252; 234; 246; 250; 240; 254; 250; 254; 252; 244;
  254; 252; 240; 232; 228; 254; 250; 254; 240; 226; 234; 240; 252; 254; 246; 238; 240; 246; 240; 246; 248; 222; 252; 252; 244; 246; 234; 246; 248; 250; 246; 252; 248; 240; 250; 254; 240; 252; 244; 240;
  254; 246; 244; 240; 252; 248; 252; 250; 240; 248; 246; 252; 240; 252; 238; 218; 252; 252; 250; 252; 236; 252; 238; 240; 252; 252; 254; 252; 238; 252; 242; 240; 250; 248; 240; 250; 252; 248; 252; 240;
  246; 244; 228; 240; 254; 234; 246; 238; 240; 240; 252; 236; 252; 252; 250; 254; 246; 238; 252; 248; 252; 220; 254; 252; 252; 240; 252; 246; 252; 238; 234; 234; 236; 250; 254; 240; 246; 228; 250; 252;
  254; 252; 244; 236; 244; 246; 234; 236; 244; 248; 250; 246; 242; 252; 246; 250; 252; 240; 248; 240; 234; 250; 252; 248; 180; 250; 248; 190; 242; 226; 252; 228; 252; 252; 252; 248; 250; 242; 238; 230;
  250; 248; 244; 246; 254; 238; 252; 248; 240; 226; 240; 254; 250; 246; 246; 246; 252; 248; 244; 246; 254; 250; 248; 246; 222; 252; 252; 250; 248; 252; 234; 252; 252; 250; 252; 254; 252; 222; 238; 234;
  248; 252; 244; 254; 250; 252; 240; 230; 244; 254; 252; 238; 240; 246; 234; 252; 234; 254; 252; 210; 250; 234; 246; 236; 252; 252; 246; 250; 252; 240; 252; 254; 252; 244; 248; 250; 236; 250; 254; 250;
  240; 246; 252; 248; 252; 234; 250; 248; 250; 230; 246; 232; 254; 250; 230; 250; 254; 252; 232; 252; 246; 252; 252; 236; 238; 252; 252; 240; 252; 228; 248; 252; 222; 246; 252; 252; 250; 254; 250; 242;
  252; 240; 250; 242; 234; 226; 254; 250; 254; 240; 246; 244; 246; 222; 254; 240; 250; 240; 254; 252; 250; 240; 252; 246; 254; 252; 244; 236; 250; 248; 252; 244; 252; 254; 244; 254; 210; 252; 240; 240;
  210; 244; 252; 252; 246; 230; 232; 252; 212; 250; 236; 252; 252; 250; 248; 246; 244; 242; 244; 246; 236; 252; 250; 240; 240; 248; 252; 252; 240; 246; 252; 250; 248; 244; 228; 252; 228; 252; 234; 254;
  252; 214; 254; 252; 250; 248; 250; 248; 252; 232; 230; 250; 248; 250; 252; 236; 244; 240; 246; 252; 252; 240; 236; 250; 248; 252; 252; 222; 240; 220; 240; 230; 246; 244; 246; 222; 248; 252; 252; 240;
  244; 242; 252; 226; 240; 222; 254; 228; 240; 228; 234; 228; 228; 244; 248; 246; 234; 238; 252; 248; 252; 240; 252; 244; 254; 246; 246; 244; 246; 254; 234; 246; 234; 250; 248; 240; 250; 242; 250; 230;
  246; 252; 252; 252; 250; 248; 252; 250; 254; 246; 240; 250; 254; 252; 252; 252; 240; 240; 246; 244; 246; 248; 246; 246; 202; 252; 236; 234; 246; 252; 250; 248; 252; 228; 250; 210; 252; 248; 250; 228;
  242; 250; 252; 242; 244; 254; 252; 240; 250; 234; 252; 254; 238; 246; 252; 248; 246; 246; 240; 252; 250; 246; 240; 252; 230; 244; 246; 252; 252; 246; 224; 234; 252; 228; 240; 250; 240; 246; 246; 252;
  240; 246; 252; 252; 222; 240; 236; 252; 250; 246; 234; 252; 254; 252; 232; 248; 244; 240; 254; 250; 234; 240; 246; 242; 252; 252; 246; 240; 244; 254; 250; 236; 246; 250; 254; 246; 240; 250; 242; 252;
  246; 244; 228; 248; 252; 252; 246; 240; 252; 252; 250; 254; 250; 252; 252; 248; 252; 246; 252; 240; 252; 252; 246; 228; 244; 248; 222; 252; 250; 228; 246; 254; 252; 238; 246; 252; 234; 248; 252; 246;
  252; 250; 230; 246; 246; 244; 234; 252; 254; 234; 252; 250; 240; 254; 222; 238; 254; 240; 252; 250; 254; 252; 238; 242; 252; 252; 238; 248; 232; 246; 236; 234; 246; 238; 252; 236; 252; 246; 246; 250;
  248; 252; 250; 236; 244; 236; 250; 252; 240; 252; 248; 246; 252; 250; 254; 246; 238; 246; 246; 240; 252; 252; 254; 252; 252; 252; 240; 246; 238; 252; 240; 240; 254; 246; 250; 254; 250; 246; 248; 252;
  234; 244; 246; 228; 248; 240; 252; 238; 254; 250; 248; 246; 246; 228; 246; 252; 240; 250; 252; 248; 238; 252; 252; 252; 248; 246; 232; 252; 240; 252; 234; 254; 246; 252; 232; 248; 250; 254; 250; 254;
  240; 252; 252; 246; 240; 250; 242; 252; 252; 250; 248; 240; 250; 252; 246; 198; 224; 238; 252; 248; 250; 254; 246; 252; 252; 234; 222; 238; 254; 210; 246; 244; 252; 224; 246; 250; 240; 254; 252; 238;
  254; 240; 252; 244; 240; 242; 238; 252; 240; 230; 244; 254; 252; 252; 232; 254; 252; 250; 252; 252; 248; 252; 246; 250; 254; 246; 244; 248; 240; 250; 242; 246; 250; 254; 240; 250; 254; 250; 252; 240;
  242; 252; 220; 254; 240; 222; 250; 254; 250; 236; 238; 254; 250; 246; 252; 252; 246; 234; 242; 244; 246; 230; 250; 240; 236; 252; 240; 172; 248; 252; 250; 248; 240; 226; 252; 222; 222; 224; 244; 242;
  234; 252; 238; 242; 234; 244; 240; 252; 248; 252; 232; 252; 224; 252; 250; 254; 246; 238; 252; 242; 226; 254; 252; 244; 254; 252; 250; 246; 248; 252; 250; 254; 250; 236; 240; 252; 210; 238; 248; 246;
  246; 244; 248; 238; 242; 238; 254; 238; 252; 248; 246; 234; 238; 252; 252; 248; 252; 234; 244; 248; 250; 252; 246; 246; 228; 222; 248; 240; 202; 246; 252; 240; 252; 236; 244; 230; 208; 242; 240; 226;
  230; 252; 246; 252; 252; 250; 248; 228; 250; 252; 252; 252; 236; 244; 248; 222; 246; 234; 250; 254; 220; 242; 250; 252; 242; 244; 254; 252; 228; 240; 246; 252; 250; 254; 246; 244; 228; 252; 248; 246;
  250; 254; 252; 246; 244; 248; 240; 246; 244; 252; 234; 254; 250; 252; 234; 254; 240; 250; 242; 250; 254; 252; 238; 254; 246; 246; 244; 254; 250; 228; 254; 246; 240; 240; 252; 240; 250; 240; 252; 240;
  234; 242; 252; 250; 246; 236; 234; 246; 234; 246; 244; 234; 248; 238; 246; 254; 244; 252; 248; 222; 244; 252; 252; 248; 244; 248; 228; 234; 250; 230; 238; 252; 248; 252; 240; 250; 248; 210; 240; 252;
  234; 234; 252; 250; 246; 210; 252; 246; 246; 236; 240; 250; 240; 254; 240; 246; 244; 246; 222; 252; 254; 246; 250; 246; 242; 240; 246; 250; 242; 250; 254; 240; 210; 234; 252; 244; 254; 250; 234; 248;
  234; 250; 246; 240; 252; 236; 240; 240; 252; 252; 226; 240; 252; 252; 252; 236; 240; 244; 228; 240; 252; 180; 246; 240; 252; 240; 210; 248; 210; 234; 228; 252; 240; 246; 244; 254; 252; 252; 240; 250;
  248; 244; 246; 254; 238; 246; 236; 216; 244; 254; 244; 252; 254; 252; 244; 248; 252; 240; 238; 236; 252; 214; 236; 220; 218; 250; 240; 234; 252; 248; 246; 250; 254; 232; 254; 250; 254; 250; 236; 244;
  246; 242; 250; 248; 246; 250; 254; 250; 246; 240; 246; 248; 250; 236; 250; 240; 240; 248; 252; 246; 244; 234; 234; 236; 252; 250; 254; 244; 246; 254; 192; 244; 248; 252; 250; 254; 250; 252; 224; 246;
  252; 252; 250; 248; 250; 246; 236; 250; 248; 240; 222; 250; 198; 246; 252; 230; 252; 232; 248; 252; 240; 250; 234; 254; 252; 244; 252; 248; 232; 228; 254; 250; 248; 252; 210; 252; 246; 252; 252; 246;
  240; 252; 210; 250; 240; 230; 246; 252; 250; 230; 238; 224; 246; 216; 246; 252; 222; 246; 252; 246; 244; 252; 246; 254; 250; 254; 244; 246; 254; 250; 236; 246; 250; 254; 252; 244; 254; 250; 252; 252;
  252; 224; 216; 250; 248; 240; 252; 238; 252; 254; 240; 252; 250; 254; 246; 252; 226; 254; 246; 252; 252; 246; 246; 238; 242; 238; 252; 254; 246; 250; 240; 246; 252; 216; 230; 250; 246; 254; 252; 244;
  240; 246; 254; 246; 234; 250; 240; 246; 248; 252; 252; 240; 228; 252; 240; 238; 254; 228; 252; 238; 246; 234; 252; 254; 252; 252; 252; 246; 232; 252; 216; 254; 250; 254; 246; 238; 236; 252; 244; 248;
  252; 246; 250; 240; 234; 228; 248; 244; 218; 252; 246; 252; 246; 232; 230; 238; 254; 252; 250; 254; 250; 242; 250; 254; 246; 252; 238; 218; 246; 238; 242; 250; 254; 252; 250; 254; 246; 228; 226; 248;
  250; 218; 234; 244; 242; 252; 252; 196; 248; 250; 252; 230; 252; 238; 248; 246; 250; 254; 244; 252; 218; 238; 254; 214; 242; 252; 232; 240; 246; 248; 232; 254; 238; 246; 254; 240; 252; 250; 236; 244;
  234; 224; 252; 250; 234; 254; 246; 250; 240; 252; 252; 252; 248; 252; 250; 254; 232; 242; 250; 242; 228; 252; 246; 244; 248; 240; 240; 222; 250; 246; 254; 244; 246; 240; 254; 252; 240; 240; 250; 254;
  250; 254; 252; 252; 252; 246; 240; 252; 240; 238; 254; 238; 248; 250; 248; 244; 248; 244; 246; 230; 240; 252; 232; 236; 252; 232; 246; 254; 234; 204; 228; 240; 252; 246; 252; 252; 246; 244; 248; 250;
  248; 240; 250; 254; 250; 240; 252; 254; 244; 246; 254; 246; 240; 232; 234; 254; 250; 252; 254; 246; 250; 254; 250; 254; 252; 228; 250; 254; 240; 226; 246; 254; 252; 208; 242; 250; 254; 250; 248; 252;
  250; 228; 240; 236; 220; 246; 246; 212; 238; 252; 252; 254; 252; 240; 244; 248; 250; 248; 252; 222; 244; 252; 252; 252; 248; 222; 244; 252; 252; 248; 252; 240; 252; 240; 250; 248; 252; 246; 250; 254;
  244; 252; 242; 250; 252; 230; 246; 252; 226; 240; 246; 246; 252; 242; 228; 250; 240; 242; 250; 254; 252; 252; 246; 252; 240; 250; 254; 250; 236; 240; 232; 248; 252; 250; 242; 246; 250; 242; 240; 250;
  236; 252; 238; 254; 250; 246; 246; 248; 252; 246; 244; 248; 222; 246; 232; 252; 248; 240; 238; 252; 252; 246; 252; 246; 252; 248; 226; 254; 252; 238; 252; 252; 252; 246; 252; 242; 246; 252; 240; 250;
  242; 214; 242; 244; 254; 252; 240; 250; 254; 250; 248; 228; 252; 252; 250; 246; 252; 240; 230; 238; 240; 248; 250; 234; 228; 254; 246; 238; 242; 244; 230; 246; 250; 254; 238; 252; 228; 248; 232; 252;
  240; 236; 250; 252; 242; 214; 252; 252; 230; 232; 228; 248; 250; 252; 222; 254; 244; 246; 254; 250; 248; 244; 248; 250; 248; 244; 248; 252; 238; 228; 254; 240; 250; 234; 252; 252; 248; 234; 246; 250;
  254; 250; 246; 242; 240; 252; 238; 252; 254; 226; 246; 240; 228; 246; 254; 214; 252; 246; 254; 250; 254; 252; 238; 252; 240; 254; 240; 250; 246; 248; 246; 238; 236; 250; 254; 240; 252; 244; 236; 250;
  240; 254; 222; 244; 254; 252; 228; 234; 238; 254; 238; 228; 252; 248; 244; 246; 248; 246; 226; 224; 250; 236; 228; 252; 252; 246; 252; 240; 250; 248; 246; 226; 242; 210; 252; 240; 250; 254; 252; 244;
  230; 240; 250; 246; 254; 250; 248; 250; 240; 248; 244; 234; 252; 242; 228; 250; 240; 248; 250; 254; 238; 254; 210; 238; 248; 244; 248; 250; 252; 236; 252; 250; 216; 246; 234; 246; 254; 250; 242; 252;
  208; 242; 252; 250; 246; 254; 244; 246; 234; 242; 252; 240; 250; 228; 252; 252; 246; 230; 240; 238; 216; 240; 230; 244; 240; 254; 246; 244; 236; 252; 250; 252; 246; 246; 248; 252; 244; 246; 246; 230;
  240; 250; 254; 250; 254; 252; 252; 240; 250; 242; 250; 254; 240; 244; 252; 234; 242; 238; 254; 252; 244; 252; 254; 186; 240; 240; 252; 226; 252; 242; 216; 226; 254; 234; 246; 246; 228; 238; 252; 222;
  254; 234; 252; 240; 220; 246; 252; 248; 238; 242; 252; 246; 226; 254; 246; 244; 230; 226; 228; 228; 224; 250; 254; 252; 244; 246; 224; 244; 254; 250; 236; 246; 238; 252; 248; 252; 244; 224; 252; 246;
  244; 248; 222; 238; 206; 252; 240; 250; 254; 250; 246; 240; 252; 228; 254; 244; 254; 250; 240; 248; 250; 210; 254; 250; 240; 206; 244; 240; 248; 252; 234; 244; 248; 252; 238; 252; 252; 236; 252; 250;
  216; 252; 254; 238; 222; 254; 250; 254; 252; 238; 240; 248; 238; 246; 254; 252; 222; 232; 248; 228; 252; 240; 250; 246; 252; 242; 252; 240; 250; 246; 204; 248; 240; 250; 242; 240; 228; 246; 246; 238;
  240; 222; 236; 244; 228; 210; 252; 206; 252; 246; 244; 252; 236; 250; 218; 204; 228; 252; 246; 250; 252; 242; 252; 234; 246; 240; 246; 244; 224; 222; 234; 250; 254; 250; 254; 240; 250; 252; 248; 240;
  246; 250; 254; 252; 234; 240; 246; 250; 240; 254; 220; 254; 250; 216; 254; 240; 228; 238; 246; 236; 252; 250; 252; 254; 246; 244; 246; 248; 252; 246; 250; 230; 204; 250; 254; 244; 248; 252; 226; 254;
  252; 246; 238; 254; 226; 236; 238; 242; 250; 254; 244; 252; 254; 250; 230; 246; 246; 250; 240; 240; 252; 252; 248; 232; 248; 238; 230; 238; 254; 252; 240; 246; 238; 246; 240; 230; 246; 214; 246; 248;
  240; 252; 234; 244; 224; 252; 250; 248; 246; 250; 240; 210; 252; 248; 252; 252; 250; 242; 250; 248; 250; 240; 252; 246; 230; 250; 252; 252; 246; 254; 246; 250; 252; 252; 246; 228; 254; 228; 250; 252;
  252; 254; 252; 222; 240; 252; 238; 236; 222; 228; 250; 254; 226; 254; 250; 248; 240; 240; 252; 250; 248; 240; 240; 234; 250; 234; 230; 232; 252; 252; 248; 246; 252; 244; 248; 240; 216; 232; 254; 240;
  246; 252; 250; 252; 254; 252; 252; 250; 252; 246; 254; 246; 234; 246; 222; 240; 240; 238; 248; 232; 254; 246; 214; 240; 228; 252; 248; 240; 250; 246; 246; 254; 252; 250; 252; 236; 252; 240; 250; 210;
  242; 228; 252; 250; 248; 244; 246; 248; 252; 244; 246; 234; 246; 254; 228; 250; 230; 238; 248; 222; 244; 248; 250; 252; 236; 250; 248; 246; 234; 252; 240; 252; 240; 240; 250; 236; 252; 252; 228; 252;
  232; 248; 240; 252; 246; 250; 254; 238; 248; 238; 254; 252; 238; 236; 246; 240; 250; 246; 254; 250; 236; 222; 228; 252; 232; 236; 240; 228; 252; 234; 250; 254; 250; 252; 254; 240; 238; 252; 254; 240;
  232; 254; 228; 240; 250; 240; 252; 248; 240; 252; 240; 196; 252; 242; 244; 254; 252; 250; 254; 244; 246; 254; 246; 252; 250; 252; 242; 250; 206; 244; 186; 242; 240; 246; 252; 238; 246; 254; 226; 230;
  246; 220; 254; 250; 254; 250; 240; 246; 254; 240; 252; 252; 240; 238; 228; 246; 234; 254; 252; 250; 254; 250; 252; 204; 248; 250; 246; 242; 238; 252; 254; 250; 246; 240; 248; 252; 252; 252; 250; 248;
  226; 254; 222; 244; 224; 226; 252; 252; 246; 252; 252; 242; 250; 236; 250; 252; 252; 254; 240; 234; 238; 242; 252; 238; 248; 244; 224; 252; 250; 252; 252; 236; 252; 240; 252; 190; 254; 204; 252; 220;
  254; 252; 252; 250; 252; 246; 254; 214; 252; 252; 252; 254; 246; 244; 246; 254; 250; 254; 252; 244; 246; 248; 252; 240; 246; 238; 210; 252; 204; 248; 252; 228; 250; 240; 212; 250; 240; 254; 202; 254;
  226; 248; 232; 248; 250; 242; 252; 240; 252; 250; 254; 240; 250; 236; 238; 252; 254; 240; 246; 240; 220; 236; 252; 252; 244; 254; 246; 252; 244; 230; 234; 244; 236; 232; 252; 246; 246; 248; 240; 250;
  248; 250; 254; 226; 248; 244; 240; 248; 238; 234; 252; 246; 224; 246; 252; 240; 250; 246; 234; 222; 254; 252; 240; 250; 240; 254; 238; 246; 212; 240; 234; 214; 230; 252; 238; 246; 234; 254; 246; 220;
  236; 234; 252; 198; 252; 252; 250; 236; 246; 246; 252; 226; 242; 252; 252; 220; 248; 240; 252; 228; 240; 250; 248; 238; 252; 242; 250; 252; 246; 242; 228; 220; 248; 240; 244; 252; 254; 244; 242; 250;
  248; 246; 244; 246; 254; 250; 222; 254; 252; 250; 254; 250; 254; 250; 234; 230; 240; 216; 246; 250; 248; 222; 240; 250; 254; 252; 250; 224; 226; 252; 252; 254; 252; 240; 250; 254; 238; 246; 254; 226;
  236; 208; 252; 254; 240; 246; 220; 230; 250; 254].
(** r is the remainder of the current number modulo d; none of the numbers reached is 0 *)
Fixpoint walk (d r : Z) (l : list Z) : bool := match l with [] => true | k :: l => let r := (let x := r + k in if x <? d then x else let x := x - d in if x <? d then x else x mod d) in if r =? 0 then false else walk d r l end.
Fixpoint walks (ds : list Z) (a : Z) (l : list Z) : bool := match ds with [] => true | d :: ds => if walk d (a mod d) l then walks ds a l else false end.
Fixpoint reach (a : Z) (l : list Z) : Z := match l with [] => a | k :: l => reach (a + k) l end.
Lemma walk_ok d : 1 < d -> forall l a r, Forall (fun k => 0 < k) l -> 0 <= r < d -> r = a mod d -> walk d r l = true -> forall l1 l2, l = l1 ++ l2 -> l1 <> [] -> reach a l1 mod d <> 0.
Proof.
  intros Hd. induction l as [|k l IH]; intros a r F Hr E W l1 l2 El Nl; [destruct l1; [contradiction|discriminate]|]. destruct l1 as [|k' l1]; [contradiction|]. injection El as <- El. pose proof (Forall_inv F) as Hk. cbv beta in Hk. pose proof (Forall_inv_tail F) as F'. subst r. cbn [walk] in W. set (r' := if _ <? d then _ else _) in W. assert (R : r' = (a + k) mod d).
  { unfold r'. rewrite <- (Z.add_mod_idemp_l a k d) by lia. set (x := a mod d + k). pose proof (Z.mod_pos_bound a d ltac:(lia)). assert (0 <= x) by (unfold x; lia). destruct (Z.ltb_spec x d); [rewrite Z.mod_small; lia|]. destruct (Z.ltb_spec (x - d) d); [apply Z.mod_unique_pos with 1; lia|]. replace (x - d) with (x + (-1) * d) by lia. apply Z.mod_add. lia. }
  clearbody r'. destruct (Z.eqb_spec r' 0) as [|Nr]; [discriminate|]. cbn [reach]. destruct l1 as [|k2 l1]; [cbn [reach]; lia|]. apply (IH (a + k) r' F' ltac:(rewrite R; apply Z.mod_pos_bound; lia) R W (k2 :: l1) l2 El). discriminate.
Qed.
Lemma walks_in ds a l : walks ds a l = true -> forall d, In d ds -> walk d (a mod d) l = true.
Proof. induction ds as [|x ds IH]; intros E d; [intros []|]. cbn [walks] in E. destruct (walk x (a mod x) l) eqn:W; [|discriminate]. intros [<-|I]; auto. Qed.
Lemma reach_le a l : Forall (fun k => 0 < k) l -> a <= reach a l.
Proof. revert a. induction l as [|k l IH]; intros a F; cbn [reach]; [lia|]. inversion F; subst. specialize (IH (a + k) H2). lia. Qed.
Lemma reach_app l1 l2 : forall a, reach a (l1 ++ l2) = reach (reach a l1) l2.
Proof. induction l1 as [|k l1 IH]; intros a; cbn [app reach]; auto. Qed.
(** numbers reached are prime *)
Lemma walks_prime ds l a : (forall p, prime p -> p <= 1009 -> In p ds) -> 1009 <= a -> Forall (fun k => 0 < k) l -> reach a l <= 1018081 -> walks ds a l = true -> forall l1 l2, l = l1 ++ l2 -> l1 <> [] -> prime (reach a l1).
Proof.
  intros Hl Ha F B W l1 l2 E Nl. assert (F1 : Forall (fun k => 0 < k) l1 /\ Forall (fun k => 0 < k) l2) by (apply Forall_app; rewrite <- E; auto). destruct F1 as (F1 & F2). pose proof (reach_le a l1 F1). pose proof (reach_le (reach a l1) l2 F2) as Le. rewrite <- reach_app, <- E in Le. destruct (prime_dec (reach a l1)) as [|Np]; auto. destruct (small_factor (reach a l1) ltac:(lia) Np) as (p & P1 & P2 & P3). pose proof (pge p P1) as P4. apply Z.mod_divide in P2; [|lia]. exfalso. revert P2.
  apply (walk_ok p ltac:(lia) l a (a mod p) F (Z.mod_pos_bound a p ltac:(lia)) eq_refl) with (l2 := l2); auto. apply (walks_in ds); auto. apply Hl; auto. nia.
Qed.
Lemma walk_gaps l : forall a, Forall (fun k => 0 < k < 256) l -> (forall l1 l2, l = l1 ++ l2 -> l1 <> [] -> prime (reach a l1)) -> forall p q, a <= p -> p < q -> q <= reach a l -> (forall r, p < r < q -> ~ prime r) -> q - p < 256.
Proof.
  induction l as [|k l IH]; intros a F H p q Ha Hpq Hq Hr; cbn [reach] in Hq; [lia|]. inversion F as [|? ? Hk F']; subst. assert (Pk : prime (a + k)) by (apply (H [k] l); [reflexivity|discriminate]). destruct (Z.lt_ge_cases p (a + k)) as [Lp|Lp].
  - destruct (Z.lt_ge_cases (a + k) q) as [Lq|Lq]; [|lia]. destruct (Hr (a + k) ltac:(lia) Pk).
  - apply (IH (a + k) F') with (p := p); auto. intros l1 l2 E N. apply (H (k :: l1) l2); [rewrite E; reflexivity|discriminate].
Qed.
Lemma default_walk : walks sprimes 1009 steps = true.
Proof. vm_cast_no_check (eq_refl true). Qed.
Lemma default_steps : forallb (fun k => (0 <? k) && (k <? 256)) steps = true.
Proof. vm_compute. reflexivity. Qed.
Lemma default_reach : reach 1009 steps = 1000507.
Proof. vm_compute. reflexivity. Qed.
Lemma default_pos : Forall (fun k => 0 < k < 256) steps.
Proof. apply Forall_forall. intros k I. pose proof default_steps as D. rewrite forallb_forall in D. specialize (D k I). apply andb_true_iff in D. destruct D as (D1 & D2). apply Z.ltb_lt in D1, D2. auto. Qed.
Lemma first_chk : forallb (fun n => existsb (fun k => isprime 40 (n + k)) [1; 2; 3; 4; 5; 6; 7; 8; 9; 10; 11; 12; 13; 14; 15; 16; 17; 18; 19; 20]) (map Z.of_nat (seq 1 1009)) = true.
Proof. vm_compute. reflexivity. Qed.
Lemma default_gaps : gaps_small (tabmax 1000000).
Proof.
  intros p q Pp Pq Hpq Hq Hr. destruct (Z.le_gt_cases 1009 p) as [H|H]; [|clear Hq].
  { apply (walk_gaps steps 1009 default_pos) with (p := p); auto; [|rewrite default_reach; change (tabmax 1000000) with 1000256 in Hq; lia].
    assert (F : Forall (fun k => 0 < k) steps) by (eapply Forall_impl; [|exact default_pos]; cbv beta; intros; lia). assert (B : reach 1009 steps <= 1018081) by (rewrite default_reach; lia). exact (walks_prime sprimes steps 1009 sprimes_in (Z.le_refl 1009) F B default_walk). }
  pose proof first_chk as C. rewrite forallb_forall in C. specialize (C p). apply pge in Pp. rewrite in_map_iff in C. specialize (C ltac:(exists (Z.to_nat p); split; [lia|apply in_seq; lia])). apply existsb_exists in C. destruct C as (k & Ik & Pk). apply isprime_ok in Pk. assert (1 <= k <= 20) by (cbn [In] in Ik; lia). destruct (Z.lt_ge_cases (p + k) q) as [Lq|Lq]; [|lia]. destruct (Hr (p + k) ltac:(lia) Pk).
Qed.
Lemma small_gaps n : n < 258 -> gaps_small n.
Proof. intros H p q Pp _ _ Hq _. apply pge in Pp. lia. Qed.
(** ** a large gap *)
Fixpoint psum (l : list Z) : Z := match l with [] => 0 | x :: l => x + psum l end.
Lemma psum_snoc l : forall i, (i < length l)%nat -> psum (firstn (S i) l) = psum (firstn i l) + nth i l 0.
Proof. induction l as [|x l IH]; intros [|i] H; cbn [length] in H; try lia; [cbn [firstn psum nth]; lia|]. change (firstn (S (S i)) (x :: l)) with (x :: firstn (S i) l). change (firstn (S i) (x :: l)) with (x :: firstn i l). cbn [psum nth]. rewrite IH by lia. lia. Qed.
Section Bytes.
Variables (D : list Z) (nn bb : Z) (z : nat).
Hypothesis Hz : (z < length D)%nat.
Hypothesis HDz : nth z D 0 = 0.
Hypothesis HD : forall i, (i < z)%nat -> nth i D 0 <> 0.
Hypothesis Hzl : Z.of_nat z < 2 ^ 62.
Definition tg (i : nat) : ptab := Pt D nn bb i (Z.of_nat i) (psum (firstn i D)).
Lemma pt_i_tg j : pt_i (tg j) = Z.of_nat j. Proof. reflexivity. Qed.
Lemma advg i : (i < z)%nat -> pt_adv (tg i) = Ok (true, tg (S i)).
Proof.
  intros H. unfold pt_adv, tg, deref. cbn [pt_d pt_a pt_n pt_big pt_i pt_v]. rewrite (nth_error_nth' D 0) by lia. rewrite bind_Ok. destruct (Z.eqb_spec (nth i D 0) 0) as [E|E]; [destruct (HD i H E)|]. rewrite psum_snoc by lia. do 2 f_equal. f_equal; lia.
Qed.
Lemma advz : pt_adv (tg z) = Ok (false, tg z).
Proof. unfold pt_adv, tg, deref. cbn [pt_d pt_a]. rewrite (nth_error_nth' D 0) by lia. rewrite bind_Ok, HDz. reflexivity. Qed.
Lemma numberg n : pt_number (tg 0) n = Ok (psum (firstn (Nat.min (Z.to_nat n) z) D), tg (Nat.min (Z.to_nat n) z)).
Proof.
  set (k := Nat.min (Z.to_nat n) z). unfold pt_number. change (pt_i (tg 0)) with 0. assert (E0 : (if n <? 0 then pt_reset (tg 0) else tg 0) = tg 0) by (destruct (n <? 0); reflexivity). rewrite E0.
  match goal with |- context [while ?f _ _] => set (g := f) end.
  destruct (while_total g (fun '(t, ok) => exists j, t = tg j /\ (j <= z)%nat /\ (ok = true \/ j = z) /\ (j = 0%nat \/ Z.of_nat j <= n)) (fun t => t = tg k) (fun '(t, ok) => Z.of_nat z - pt_i t + (if (ok : bool) then 1 else 0))) with (n := 70%nat) (s := (tg 0, true)) as (t & E & Ht).
  - intros (t, ok) (j & -> & Hj & _). rewrite pt_i_tg. destruct ok; lia.
  - intros (t, ok) (j & -> & Hj & Hok & Hjn). unfold g. rewrite !pt_i_tg. destruct (Z.ltb_spec (Z.of_nat j) n) as [Q|Q]; cbn [andb].
    + destruct ok.
      * right. destruct (Nat.eq_dec j z) as [->|nj].
        -- rewrite advz, bind_Ok. eexists; split; [reflexivity|]. split; [exists z; auto|rewrite !pt_i_tg; lia].
        -- rewrite advg by lia. rewrite bind_Ok. eexists; split; [reflexivity|]. split; [exists (S j); split; auto; split; [lia|]; split; [auto|lia]|rewrite !pt_i_tg; lia].
      * left. eexists; split; [reflexivity|]. destruct Hok; [discriminate|]. subst j. f_equal. unfold k. lia.
    + left. eexists; split; [reflexivity|]. f_equal. unfold k. lia.
  - exists 0%nat. split; auto. split; [lia|]. auto.
  - rewrite pt_i_tg. change (Z.of_nat 70) with 70. assert (2 ^ 62 < 2 ^ 70 - 1) by reflexivity. lia.
  - rewrite E, bind_Ok, Ht. reflexivity.
Qed.
End Bytes.
Lemma first_zero (l : list Z) : (exists i, (i < length l)%nat /\ nth i l 0 = 0) -> exists z, (z < length l)%nat /\ nth z l 0 = 0 /\ forall i, (i < z)%nat -> nth i l 0 <> 0.
Proof.
  induction l as [|x l IH]; intros (i & Hi & E); cbn [length] in *; [lia|]. destruct (Z.eq_dec x 0) as [->|Nx]; [exists 0%nat; split; [lia|]; split; [reflexivity|intros; lia]|]. destruct i as [|i]; [contradiction|]. destruct IH as (z & Z1 & Z2 & Z3); [exists i; split; [lia|auto]|]. exists (S z). split; [lia|]. split; auto. intros [|j] Hj; cbn [nth]; auto. apply Z3. lia.
Qed.
(** if two primes with no prime between differ by 256 or more, number is wrong for one of them *)
Lemma gap_wrong m L p q : 0 <= m <= max64 - 257 -> prime_list (tabmax m) L -> prime p -> prime q -> p + 256 <= q <= tabmax m -> (forall r, p < r < q -> ~ prime r) ->
  exists t n v t', pt_init m = Ok t /\ pt_number t n = Ok (v, t') /\ 1 <= n <= pt_n t /\ v <> nth (Z.to_nat (n - 1)) L 0.
Proof.
  intros Hm HL Pp Pq Hq Hr. destruct (pt_init_ok m Hm) as (L' & H & B & Ei). rewrite <- (prime_list_uniq _ _ _ HL H) in *. clear L' H. set (D := map (fun d => d mod 256) (diffs 0 L) ++ [0]) in *.
  assert (LD : length D = S (length L)) by (unfold D; rewrite app_length, map_length, diffs_length; cbn [length]; lia).
  destruct (first_zero D) as (z & Z1 & Z2 & Z3). { exists (length L). split; [lia|]. unfold D. rewrite app_nth2; rewrite map_length, diffs_length; [rewrite Nat.sub_diag; reflexivity|lia]. }
  assert (Zl : Z.of_nat z < 2 ^ 62). { unfold max64 in Hm. change (2 ^ 62) with 4611686018427387904. assert ((m + 257) / 2 < 4611686018427387904) by (apply Z.div_lt_upper_bound; lia). lia. }
  assert (I : In p L) by (apply HL; split; [auto|lia]). apply (In_nth _ _ 0) in I. destruct I as (k & Hk & Ek).
  assert (I : In q L) by (apply HL; split; [auto|lia]). apply (In_nth _ _ 0) in I. destruct I as (k' & Hk' & Ek').
  assert (k' = S k). { destruct (lt_eq_lt_dec k' (S k)) as [[?|?]|?]; auto; exfalso.
    - destruct (Nat.eq_dec k' k) as [->|]; [lia|]. pose proof (sorted_nth L (proj1 HL) k' k ltac:(lia)). lia.
    - pose proof (sorted_nth L (proj1 HL) k (S k) ltac:(lia)). pose proof (sorted_nth L (proj1 HL) (S k) k' ltac:(lia)). apply (Hr (nth (S k) L 0)); [lia|]. apply HL, nth_In. lia. } subst k'.
  pose proof (numberg D (Z.of_nat (length L)) (last L 0) z Z1 Z2 Z3 Zl) as NG. change (tg D (Z.of_nat (length L)) (last L 0) 0) with (Pt D (Z.of_nat (length L)) (last L 0) 0 0 0) in NG.
  set (s := fun n => psum (firstn (Nat.min n z) D)).
  assert (Inc : s (S (S k)) <= s (S k) + 255). { unfold s. destruct (Nat.le_gt_cases z (S k)) as [C|C]; [replace (Nat.min (S (S k)) z) with (Nat.min (S k) z) by lia; lia|]. replace (Nat.min (S (S k)) z) with (S (S k)) by lia. replace (Nat.min (S k) z) with (S k) by lia. rewrite (psum_snoc D (S k)) by lia. unfold D at 2. rewrite app_nth1 by (rewrite map_length, diffs_length; lia). rewrite (nth_indep _ 0 ((fun d => d mod 256) 0)) by (rewrite map_length, diffs_length; lia). rewrite (map_nth (fun d => d mod 256)). pose proof (Z.mod_pos_bound (nth (S k) (diffs 0 L) 0) 256 ltac:(lia)). lia. }
  destruct (Z.eq_dec (s (S k)) p) as [Es|Es].
  - do 4 eexists. split; [exact Ei|]. split; [apply (NG (Z.of_nat (S (S k))))|]. cbn [pt_n]. split; [lia|]. rewrite !Nat2Z.id. change (psum (firstn (Nat.min (S (S k)) z) D)) with (s (S (S k))). replace (Z.to_nat (Z.of_nat (S (S k)) - 1)) with (S k) by lia. lia.
  - do 4 eexists. split; [exact Ei|]. split; [apply (NG (Z.of_nat (S k)))|]. cbn [pt_n]. split; [lia|]. rewrite !Nat2Z.id. change (psum (firstn (Nat.min (S k) z) D)) with (s (S k)). replace (Z.to_nat (Z.of_nat (S k) - 1)) with k by lia. lia.
Qed.
Definition divs281 : list Z := [
  2; 3; 2; 11; 2; 5; 2; 3; 2; 7; 2; 5903; 2; 3; 2; 5; 2; 2089; 2; 3; 2; 37; 2; 7; 2; 3; 2; 61; 2; 23; 2; 3; 2; 149; 2; 5; 2; 3; 2; 16231;
  2; 53; 2; 3; 2; 5; 2; 11; 2; 3; 2; 7; 2; 2251; 2; 3; 2; 127; 2; 1747; 2; 3; 2; 199; 2; 5; 2; 3; 2; 11; 2; 59; 2; 3; 2; 5; 2; 41; 2; 3;
  2; 17; 2; 4507; 2; 3; 2; 13; 2; 131; 2; 3; 2; 7; 2; 5; 2; 3; 2; 373; 2; 4789; 2; 3; 2; 5; 2; 7; 2; 3; 2; 571; 2; 11; 2; 3; 2; 2671; 2; 29;
  2; 3; 2; 107; 2; 5; 2; 3; 2; 2207; 2; 43; 2; 3; 2; 5; 2; 1123; 2; 3; 2; 9283; 2; 9257; 2; 3; 2; 53; 2; 7; 2; 3; 2; 401; 2; 5; 2; 3; 2; 41;
  2; 1567; 2; 3; 2; 5; 2; 23; 2; 3; 2; 1607; 2; 2447; 2; 3; 2; 7; 2; 11; 2; 3; 2; 17; 2; 5; 2; 3; 2; 31; 2; 7; 2; 3; 2; 5; 2; 6367; 2; 3;
  2; 11; 2; 971; 2; 3; 2; 1583; 2; 193; 2; 3; 2; 23; 2; 5; 2; 3; 2; 7; 2; 19; 2; 3; 2; 5; 2; 101; 2; 3; 2; 13411; 2; 7; 2; 3; 2; 67; 2; 163;
  2; 3; 2; 13; 2; 5; 2; 3; 2; 17467; 2; 17; 2; 3; 2; 5; 2; 2953; 2; 3; 2; 7; 2; 6691; 2; 3; 2; 11; 2; 13; 2; 3; 2; 89; 2; 5; 2; 3; 2; 103;
  2].
Lemma gap_chk : forallb (fun k => (1 <? nth k divs281 0) && ((436273010 + Z.of_nat k) mod nth k divs281 0 =? 0)) (seq 0 281) = true.
Proof. vm_compute. reflexivity. Qed.
Lemma divs_small : forallb (fun d => d <? 100000) divs281 = true.
Proof. vm_compute. reflexivity. Qed.
Lemma gap282 : prime 436273009 /\ prime 436273291 /\ forall r, 436273009 < r < 436273291 -> ~ prime r.
Proof.
  split; [apply (isprime_ok (Z.to_nat 21000)); vm_cast_no_check (eq_refl true)|]. split; [apply (isprime_ok (Z.to_nat 21000)); vm_cast_no_check (eq_refl true)|]. intros r Hr P. pose proof gap_chk as A. rewrite forallb_forall in A. specialize (A (Z.to_nat (r - 436273010))). rewrite in_seq, Z2Nat.id in A by lia. specialize (A ltac:(lia)). replace (436273010 + (r - 436273010)) with r in A by lia. set (k := Z.to_nat (r - 436273010)) in A. apply andb_true_iff in A. destruct A as (A1 & A2). apply Z.ltb_lt in A1. apply Z.eqb_eq in A2. apply Z.mod_divide in A2; [|lia]. apply prime_divisors in A2; auto. assert (nth k divs281 0 < 100000); [|lia]. pose proof divs_small as S. rewrite forallb_forall in S. destruct (nth_in_or_default k divs281 0) as [I|E]; [specialize (S _ I); apply Z.ltb_lt in S; lia|lia].
Qed.
