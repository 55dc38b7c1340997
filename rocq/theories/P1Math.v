(** The projective line over Z/N: equivalence of pairs, and the number of classes *)
From Coq Require Import ZArith Znumtheory Lia List Bool Permutation.
Import ListNotations.
Open Scope Z_scope.

(** ** Specification *)
(** (c,d) generates the unit ideal mod N *)
Definition unimod (N c d : Z) : Prop := Z.gcd (Z.gcd c d) N = 1.
(** (c,d) and (c',d') differ by a unit mod N *)
Definition sim (N : Z) (s s' : Z * Z) : Prop :=
  exists t, Z.gcd t N = 1 /\ (N | fst s' - t * fst s) /\ (N | snd s' - t * snd s).

Definition zr (n : Z) : list Z := map Z.of_nat (seq 0 (Z.to_nat n)).
Lemma in_zr n z : In z (zr n) <-> 0 <= z < n.
Proof.
  unfold zr. rewrite in_map_iff. split.
  - intros (k & <- & H). apply in_seq in H. lia.
  - intros H. exists (Z.to_nat z). split; [lia|]. apply in_seq. lia.
Qed.
Lemma nodup_zr n : NoDup (zr n).
Proof. apply FinFun.Injective_map_NoDup; [intros x y; apply Nat2Z.inj|apply seq_NoDup]. Qed.
Lemma zr_length n : length (zr n) = Z.to_nat n.
Proof. unfold zr. now rewrite map_length, seq_length. Qed.
Lemma zr_S n : 0 <= n -> zr (n + 1) = zr n ++ [n].
Proof. intros H. unfold zr. replace (Z.to_nat (n + 1)) with (S (Z.to_nat n)) by lia. rewrite seq_S, map_app. cbn [map]. repeat f_equal. lia. Qed.

(** ** lists *)
Lemma same_length {A} (l l' : list A) : NoDup l -> NoDup l' -> (forall x, In x l <-> In x l') -> length l = length l'.
Proof. intros H H' E. apply Permutation_length. now apply NoDup_Permutation. Qed.
Lemma filter_split {A} (P Q : A -> bool) l :
  (length (filter (fun x => P x && Q x) l) + length (filter (fun x => P x && negb (Q x)) l) = length (filter P l))%nat.
Proof. induction l as [|x l IH]; cbn; [reflexivity|]. destruct (P x), (Q x); cbn; lia. Qed.
Lemma nodup_app {A} (l l' : list A) : NoDup l -> NoDup l' -> (forall x, In x l -> ~ In x l') -> NoDup (l ++ l').
Proof.
  intros H H' D. induction H as [|x l NI H IH]; [exact H'|]. cbn [app]. constructor.
  - rewrite in_app_iff. intros [K|K]; [contradiction|]. apply (D x); [left; reflexivity|exact K].
  - apply IH. intros y Hy. apply D. now right.
Qed.
Lemma nodup_prod {A B} (l : list A) (l' : list B) : NoDup l -> NoDup l' -> NoDup (list_prod l l').
Proof.
  intros H H'. induction H as [|x l NI H IH]; [constructor|]. cbn [list_prod]. apply nodup_app; [|exact IH|].
  - apply FinFun.Injective_map_NoDup; [|auto]. intros y y' E. congruence.
  - intros [p q] K1 K2. apply in_map_iff in K1. destruct K1 as (y & E & _). apply in_prod_iff in K2. inversion E; subst. tauto.
Qed.
Lemma nodup_flat_map {A B} (f : A -> list B) l : (forall x, In x l -> NoDup (f x)) ->
  ForallOrdPairs (fun x x' => forall y, In y (f x) -> ~ In y (f x')) l -> NoDup (flat_map f l).
Proof.
  intros H D. induction D as [|x l D1 D IH]; [constructor|]. cbn [flat_map]. apply nodup_app.
  - apply H. now left.
  - apply IH. intros y Hy. apply H. now right.
  - intros y Hy K. apply in_flat_map in K. destruct K as (x' & Hx' & K). rewrite Forall_forall in D1. exact (D1 x' Hx' y Hy K).
Qed.
Lemma flat_map_len {A B} (f : A -> list B) l n : (forall x, In x l -> length (f x) = n) -> length (flat_map f l) = (length l * n)%nat.
Proof.
  intros H. induction l as [|x l IH]; [reflexivity|]. cbn [flat_map]. rewrite app_length, H, IH; [cbn [length]; lia| |now left].
  intros y Hy. apply H. now right.
Qed.

(** ** counting *)
Definition good (L : list Z) (z : Z) : bool := forallb (fun q => negb (z mod q =? 0)) L.
Definition good2 (L : list Z) (z : Z * Z) : bool := forallb (fun q => negb ((fst z mod q =? 0) && (snd z mod q =? 0))) L.
Definition cnt1 (M : Z) (L : list Z) : Z := Z.of_nat (length (filter (good L) (zr M))).
Definition cnt2 (M : Z) (L : list Z) : Z := Z.of_nat (length (filter (good2 L) (list_prod (zr M) (zr M)))).
Lemma good_mul p L z : prime p -> Forall prime L -> ~ In p L -> good L (p * z) = good L z.
Proof.
  intros Hp HL NI. induction HL as [|q L Hq HL IH]; [reflexivity|]. cbn [good forallb]. f_equal; [|apply IH; intros K; apply NI; now right].
  f_equal. apply eq_true_iff_eq. rewrite !Z.eqb_eq.
  assert (q <> 0) by (destruct Hq; lia). rewrite !Z.mod_divide by auto. split.
  - intros K. apply prime_mult in K; [|auto]. destruct K as [K|K]; [|auto]. apply prime_div_prime in K; auto. subst. elim NI. now left.
  - apply Z.divide_mul_r.
Qed.
Lemma good2_mul p L c d : prime p -> Forall prime L -> ~ In p L -> good2 L (p * c, p * d) = good2 L (c, d).
Proof.
  intros Hp HL NI. induction HL as [|q L Hq HL IH]; [reflexivity|]. cbn [good2 forallb fst snd]. f_equal; [|apply IH; intros K; apply NI; now right].
  f_equal. assert (q <> 0) by (destruct Hq; lia).
  assert (E : forall z, (p * z mod q =? 0) = (z mod q =? 0)).
  { intros z. apply eq_true_iff_eq. rewrite !Z.eqb_eq. rewrite !Z.mod_divide by auto. split.
    - intros K. apply prime_mult in K; [|auto]. destruct K as [K|K]; [|auto]. apply prime_div_prime in K; auto. subst. elim NI. now left.
    - apply Z.divide_mul_r. }
  now rewrite !E.
Qed.
Lemma in_filt {A} (P : A -> bool) l x : In x (filter P l) <-> In x l /\ P x = true.
Proof. apply filter_In. Qed.
Lemma cnt1_cons M p L : 0 < M -> prime p -> Forall prime L -> ~ In p L -> (p | M) ->
  cnt1 M (p :: L) = cnt1 M L - cnt1 (M / p) L.
Proof.
  intros HM Hp HL NI [k Ek]. assert (P0 : 0 < p) by (destruct Hp; lia).
  assert (EM : M / p = k) by (rewrite Ek; apply Z.div_mul; lia). rewrite EM. unfold cnt1.
  pose proof (filter_split (good L) (fun z => z mod p =? 0) (zr M)) as S.
  assert (E1 : length (filter (fun x => good L x && (x mod p =? 0)) (zr M)) = length (filter (good L) (zr k))).
  { rewrite <- (map_length (fun z => p * z) (filter (good L) (zr k))). apply same_length.
    - apply NoDup_filter, nodup_zr.
    - apply FinFun.Injective_map_NoDup; [|apply NoDup_filter, nodup_zr]. intros x y E. apply (Z.mul_reg_l _ _ p); [lia|exact E].
    - intros x. rewrite in_filt, in_map_iff, in_zr, andb_true_iff, Z.eqb_eq. split.
      + intros (B & G & Mx). apply Z.mod_divide in Mx; [|lia]. destruct Mx as [y Ey]. exists y. split; [rewrite Ey; ring|].
        rewrite in_filt, in_zr. split; [nia|]. rewrite <- G, Ey, Z.mul_comm. symmetry. now apply good_mul.
      + intros (y & <- & Hy). rewrite in_filt, in_zr in Hy. destruct Hy as [By Gy]. split; [nia|].
        rewrite good_mul by auto. split; [exact Gy|]. rewrite Z.mul_comm. apply Z_mod_mult. }
  assert (E2 : length (filter (good (p :: L)) (zr M)) = length (filter (fun x => good L x && negb (x mod p =? 0)) (zr M))).
  { f_equal. apply filter_ext. intros x. cbn [good forallb]. apply andb_comm. }
  rewrite E2. rewrite <- E1. lia.
Qed.
Lemma cnt2_cons M p L : 0 < M -> prime p -> Forall prime L -> ~ In p L -> (p | M) ->
  cnt2 M (p :: L) = cnt2 M L - cnt2 (M / p) L.
Proof.
  intros HM Hp HL NI [k Ek]. assert (P0 : 0 < p) by (destruct Hp; lia).
  assert (EM : M / p = k) by (rewrite Ek; apply Z.div_mul; lia). rewrite EM. unfold cnt2.
  pose proof (filter_split (good2 L) (fun z => (fst z mod p =? 0) && (snd z mod p =? 0)) (list_prod (zr M) (zr M))) as S.
  assert (E1 : length (filter (fun x => good2 L x && ((fst x mod p =? 0) && (snd x mod p =? 0))) (list_prod (zr M) (zr M))) = length (filter (good2 L) (list_prod (zr k) (zr k)))).
  { rewrite <- (map_length (fun z => (p * fst z, p * snd z)) (filter (good2 L) (list_prod (zr k) (zr k)))). apply same_length.
    - apply NoDup_filter, nodup_prod; apply nodup_zr.
    - apply FinFun.Injective_map_NoDup; [|apply NoDup_filter, nodup_prod; apply nodup_zr].
      intros [x x'] [y y'] E. cbn [fst snd] in E. injection E as E E'. apply Z.mul_reg_l in E, E'; try lia. congruence.
    - intros [x x']. rewrite in_filt, in_map_iff, in_prod_iff, !in_zr, !andb_true_iff, !Z.eqb_eq. cbn [fst snd]. split.
      + intros ((B & B') & G & Mx & Mx'). apply Z.mod_divide in Mx, Mx'; try lia. destruct Mx as [y Ey], Mx' as [y' Ey']. exists (y, y'). cbn [fst snd].
        split; [rewrite Ey, Ey'; f_equal; ring|].
        rewrite in_filt, in_prod_iff, !in_zr. split; [nia|]. rewrite <- G, Ey, Ey', (Z.mul_comm y), (Z.mul_comm y'). symmetry. now apply good2_mul.
      + intros ([y y'] & E & Hy). cbn [fst snd] in E. injection E as <- <-. rewrite in_filt, in_prod_iff, !in_zr in Hy. destruct Hy as [By Gy]. split; [nia|].
        rewrite good2_mul by auto. split; [exact Gy|]. rewrite !(Z.mul_comm p). split; apply Z_mod_mult. }
  assert (E2 : length (filter (good2 (p :: L)) (list_prod (zr M) (zr M))) = length (filter (fun x => good2 L x && negb ((fst x mod p =? 0) && (snd x mod p =? 0))) (list_prod (zr M) (zr M)))).
  { f_equal. apply filter_ext. intros x. cbn [good2 forallb]. apply andb_comm. }
  rewrite E2. rewrite <- E1. lia.
Qed.
Definition prodf (f : Z -> Z) (L : list Z) : Z := fold_right (fun q a => f q * a) 1 L.
(** distinct primes dividing M *)
Definition pbase (M : Z) (L : list Z) : Prop := NoDup L /\ Forall prime L /\ Forall (fun q => (q | M)) L.
Lemma pbase_cons M p L : 0 < M -> pbase M (p :: L) -> prime p /\ ~ In p L /\ (p | M) /\ 0 < M / p /\ M = p * (M / p) /\ pbase M L /\ pbase (M / p) L.
Proof.
  intros HM (ND & HP & HD). inversion ND; inversion HP; inversion HD; subst.
  assert (P0 : 0 < p) by (match goal with H : prime p |- _ => destruct H; lia end).
  assert (EM : M = p * (M / p)) by (apply Z_div_exact_full_2; [lia|]; apply Z.mod_divide; [lia|auto]).
  assert (K : 0 < M / p) by nia.
  split; [auto|]. split; [auto|]. split; [auto|]. split; [auto|]. split; [auto|]. split; [split; [auto|split; auto]|].
  split; [auto|]. split; [auto|]. rewrite Forall_forall in *. intros q Hq.
  match goal with H : forall x, In x L -> (x | M) |- _ => pose proof (H q Hq) as Dq end.
  rewrite EM in Dq. apply prime_mult in Dq; [|auto]. destruct Dq as [Dq|Dq]; [|auto].
  exfalso. apply prime_div_prime in Dq; auto. subst q. contradiction.
Qed.
Lemma cnt1_val L : forall M, 0 < M -> pbase M L -> cnt1 M L * prodf id L = M * prodf (fun q => q - 1) L.
Proof.
  induction L as [|p L IH]; intros M HM HB.
  - unfold cnt1. cbn. replace (filter (good []) (zr M)) with (zr M); [rewrite zr_length; lia|].
    symmetry. induction (zr M) as [|x l IHl]; [reflexivity|]. cbn. now rewrite IHl at 1.
  - destruct (pbase_cons M p L HM HB) as (Hp & NI & Dp & K & EM & B1 & B2).
    rewrite cnt1_cons by (auto; apply B1). cbn [prodf fold_right]. fold (prodf id L). fold (prodf (fun q => q - 1) L). unfold id at 1.
    transitivity (p * (cnt1 M L * prodf id L - cnt1 (M / p) L * prodf id L)); [ring|]. rewrite (IH M HM B1), (IH (M / p) K B2).
    set (k := M / p) in *. clearbody k. rewrite EM. ring.
Qed.
Lemma cnt2_val L : forall M, 0 < M -> pbase M L -> cnt2 M L * prodf (fun q => q * q) L = M * M * prodf (fun q => q * q - 1) L.
Proof.
  induction L as [|p L IH]; intros M HM HB.
  - unfold cnt2. cbn. replace (filter (good2 []) (list_prod (zr M) (zr M))) with (list_prod (zr M) (zr M)); [rewrite prod_length, zr_length; lia|].
    symmetry. induction (list_prod (zr M) (zr M)) as [|x l IHl]; [reflexivity|]. cbn. now rewrite IHl at 1.
  - destruct (pbase_cons M p L HM HB) as (Hp & NI & Dp & K & EM & B1 & B2).
    rewrite cnt2_cons by (auto; apply B1). cbn [prodf fold_right]. fold (prodf (fun q => q * q) L). fold (prodf (fun q => q * q - 1) L).
    transitivity (p * p * (cnt2 M L * prodf (fun q => q * q) L - cnt2 (M / p) L * prodf (fun q => q * q) L)); [ring|]. rewrite (IH M HM B1), (IH (M / p) K B2).
    set (k := M / p) in *. clearbody k. rewrite EM. ring.
Qed.
(** the code's phi and psi *)
Definition phi_of (L : list Z) (M : Z) : Z := fold_left (fun a p => a - Z.quot a p) L M.
Definition psi_of (L : list Z) (M : Z) : Z := fold_left (fun a p => a + Z.quot a p) L M.
Lemma pbase_mul M L k : pbase M L -> pbase (k * M) L.
Proof. intros (A & B & C). split; [auto|]. split; [auto|]. rewrite Forall_forall in *. intros q Hq. apply Z.divide_mul_r. auto. Qed.
Lemma quot_eq M p : 0 < M -> 0 < p -> Z.quot M p = M / p.
Proof. intros. apply Z.quot_div_nonneg; lia. Qed.
Lemma phi_val L : forall M, 0 < M -> pbase M L -> 0 < phi_of L M /\ phi_of L M * prodf id L = M * prodf (fun q => q - 1) L.
Proof.
  induction L as [|p L IH]; intros M HM HB; [cbn; lia|].
  destruct (pbase_cons M p L HM HB) as (Hp & NI & Dp & K & EM & B1 & B2). assert (P0 : 1 < p) by (destruct Hp; lia).
  cbn [phi_of fold_left prodf fold_right]. fold (prodf id L). fold (prodf (fun q => q - 1) L). rewrite quot_eq by lia.
  replace (M - M / p) with ((p - 1) * (M / p)) by (set (k := M / p) in *; clearbody k; rewrite EM; ring).
  destruct (IH ((p - 1) * (M / p))) as [A B]; [nia|now apply pbase_mul|]. unfold phi_of in A, B. split; [exact A|].
  unfold id at 1. transitivity (p * (fold_left (fun a p0 => a - Z.quot a p0) L ((p - 1) * (M / p)) * prodf id L)); [ring|]. rewrite B. set (k := M / p) in *. clearbody k. rewrite EM. ring.
Qed.
Lemma psi_val L : forall M, 0 < M -> pbase M L -> 0 < psi_of L M /\ psi_of L M * prodf id L = M * prodf (fun q => q + 1) L.
Proof.
  induction L as [|p L IH]; intros M HM HB; [cbn; lia|].
  destruct (pbase_cons M p L HM HB) as (Hp & NI & Dp & K & EM & B1 & B2). assert (P0 : 1 < p) by (destruct Hp; lia).
  cbn [psi_of fold_left prodf fold_right]. fold (prodf id L). fold (prodf (fun q => q + 1) L). rewrite quot_eq by lia.
  replace (M + M / p) with ((p + 1) * (M / p)) by (set (k := M / p) in *; clearbody k; rewrite EM; ring).
  destruct (IH ((p + 1) * (M / p))) as [A B]; [nia|now apply pbase_mul|]. unfold psi_of in A, B. split; [exact A|].
  unfold id at 1. transitivity (p * (fold_left (fun a p0 => a + Z.quot a p0) L ((p + 1) * (M / p)) * prodf id L)); [ring|]. rewrite B. set (k := M / p) in *. clearbody k. rewrite EM. ring.
Qed.
Lemma prodf_mul f g L : prodf (fun q => f q * g q) L = prodf f L * prodf g L.
Proof. induction L as [|p L IH]; [reflexivity|]. cbn [prodf fold_right]. fold (prodf (fun q => f q * g q) L). fold (prodf f L). fold (prodf g L). rewrite IH. ring. Qed.
Lemma prodf_ext f g L : (forall q, f q = g q) -> prodf f L = prodf g L.
Proof. intros H. induction L as [|p L IH]; [reflexivity|]. cbn [prodf fold_right]. fold (prodf f L). fold (prodf g L). now rewrite H, IH. Qed.
Lemma prodf_pos M L : pbase M L -> 0 < prodf id L.
Proof.
  intros (_ & HP & _). induction HP as [|p L Hp HL IH]; [cbn; lia|]. cbn [prodf fold_right]. fold (prodf id L). unfold id at 1. destruct Hp. nia.
Qed.
Lemma counts M L : 0 < M -> pbase M L -> cnt1 M L = phi_of L M /\ cnt2 M L = psi_of L M * phi_of L M.
Proof.
  intros HM HB. pose proof (prodf_pos M L HB) as PP. destruct (phi_val L M HM HB) as [P1 E1]. destruct (psi_val L M HM HB) as [P2 E2].
  split.
  - apply (Z.mul_reg_r _ _ (prodf id L)); [lia|]. now rewrite (cnt1_val L M HM HB).
  - apply (Z.mul_reg_r _ _ (prodf id L * prodf id L)); [nia|].
    transitivity (cnt2 M L * prodf (fun q => q * q) L); [f_equal; symmetry; exact (prodf_mul id id L)|]. rewrite (cnt2_val L M HM HB).
    transitivity ((psi_of L M * prodf id L) * (phi_of L M * prodf id L)); [|ring]. rewrite E1, E2.
    replace (prodf (fun q => q * q - 1) L) with (prodf (fun q => q + 1) L * prodf (fun q => q - 1) L); [ring|].
    rewrite <- prodf_mul. apply prodf_ext. intros q. ring.
Qed.

(** ** units and unimodular pairs *)
Lemma prime_div_ex n : 1 < n -> exists p, prime p /\ (p | n).
Proof.
  intros H. generalize H. apply (Zlt_lower_bound_ind (fun n => 1 < n -> exists p, prime p /\ (p | n)) 2); [|lia]. clear.
  intros n IH Hn H. destruct (prime_dec n) as [P|NP]; [exists n; split; [auto|apply Z.divide_refl]|].
  destruct (not_prime_divide n H NP) as (m & Hm & Dm). destruct (IH m) as (p & Hp & Dp); [lia|lia|].
  exists p. split; [auto|]. now apply (Z.divide_trans _ m).
Qed.
(** the list of primes dividing N *)
Definition pfull (N : Z) (L : list Z) : Prop := pbase N L /\ forall p, prime p -> (p | N) -> In p L.
Lemma gcd1_prime a N : 0 < N -> (Z.gcd a N = 1 <-> forall p, prime p -> (p | N) -> ~ (p | a)).
Proof.
  intros HN. split.
  - intros G p Hp D D'. assert (K : (p | 1)) by (rewrite <- G; now apply Z.gcd_greatest). destruct Hp. apply Z.divide_1_r_nonneg in K; lia.
  - intros H. assert (0 < Z.gcd a N).
    { assert (0 <= Z.gcd a N) by apply Z.gcd_nonneg. assert (Z.gcd a N <> 0) by (intros K; apply Z.gcd_eq_0_r in K; lia). lia. }
    destruct (Z.eq_dec (Z.gcd a N) 1) as [E|NE]; [auto|]. destruct (prime_div_ex (Z.gcd a N)) as (p & Hp & D); [lia|].
    exfalso. apply (H p Hp); apply (Z.divide_trans _ (Z.gcd a N)); auto; [apply Z.gcd_divide_r|apply Z.gcd_divide_l].
Qed.
Lemma good_unit N L z : 0 < N -> pfull N L -> (good L z = true <-> Z.gcd z N = 1).
Proof.
  intros HN [(_ & HP & HD) HF]. rewrite gcd1_prime by auto. unfold good. rewrite forallb_forall. rewrite Forall_forall in HP, HD. split.
  - intros H p Hp D K. specialize (H p (HF p Hp D)). apply Z.mod_divide in K; [|destruct Hp; lia]. rewrite K in H. discriminate.
  - intros H q Hq. apply negb_true_iff, Z.eqb_neq. intros K. apply Z.mod_divide in K; [|destruct (HP q Hq); lia]. exact (H q (HP q Hq) (HD q Hq) K).
Qed.
Lemma good2_unimod N L c d : 0 < N -> pfull N L -> (good2 L (c, d) = true <-> unimod N c d).
Proof.
  intros HN [(_ & HP & HD) HF]. unfold unimod. rewrite gcd1_prime by auto. unfold good2. rewrite forallb_forall. rewrite Forall_forall in HP, HD. cbn [fst snd]. split.
  - intros H p Hp D K. specialize (H p (HF p Hp D)). apply Z.gcd_divide_iff in K. destruct K as [K1 K2].
    assert (P0 : p <> 0) by (destruct Hp; lia). apply Z.mod_divide in K1; [|exact P0]. apply Z.mod_divide in K2; [|exact P0]. rewrite K1, K2 in H. discriminate.
  - intros H q Hq. apply negb_true_iff, andb_false_iff. destruct (Z.eqb_spec (c mod q) 0) as [K1|]; [|now left]. right. apply Z.eqb_neq. intros K2.
    assert (P0 : q <> 0) by (destruct (HP q Hq); lia). apply Z.mod_divide in K1; [|exact P0]. apply Z.mod_divide in K2; [|exact P0]. apply (H q (HP q Hq) (HD q Hq)). now apply Z.gcd_greatest.
Qed.
Lemma unimod_bez N c d : unimod N c d -> exists x y, (N | x * c + y * d - 1).
Proof.
  intros H. destruct (Z.gcd_bezout (Z.gcd c d) N 1) as (a & b & E1); [exact H|]. destruct (Z.gcd_bezout c d _ eq_refl) as (x & y & E2).
  exists (a * x), (a * y). exists (- b). rewrite <- E1, <- E2. ring.
Qed.
Lemma gcd1_bez t N : Z.gcd t N = 1 <-> exists v, (N | t * v - 1).
Proof.
  split.
  - intros H. destruct (Z.gcd_bezout t N 1 H) as (a & b & E). exists a, (- b). rewrite <- E. ring.
  - intros (v & k & E). assert (K : (Z.gcd t N | 1)).
    { replace 1 with (t * v - k * N) by lia. apply Z.divide_sub_r; [apply Z.divide_mul_l, Z.gcd_divide_l|apply Z.divide_mul_r, Z.gcd_divide_r]. }
    apply Z.divide_1_r_nonneg in K; [auto|apply Z.gcd_nonneg].
Qed.
Definition cross (N : Z) (s s' : Z * Z) : Prop := (N | fst s * snd s' - fst s' * snd s).
Lemma dvd_eq N a b : a = b -> (N | b) -> (N | a). Proof. now intros ->. Qed.
Lemma sim_cross N s s' : sim N s s' -> cross N s s'.
Proof.
  intros (t & _ & [k1 H1] & [k2 H2]). unfold cross. exists (fst s * k2 - k1 * snd s).
  transitivity (fst s * (snd s' - t * snd s) - (fst s' - t * fst s) * snd s); [ring|]. rewrite H1, H2. ring.
Qed.
Lemma cross_sim N s s' : unimod N (fst s) (snd s) -> unimod N (fst s') (snd s') -> cross N s s' -> sim N s s'.
Proof.
  intros U U' [k C]. destruct s as [c d], s' as [c' d']. cbn [fst snd] in *.
  destruct (unimod_bez N c d U) as (x & y & [m E]). destruct (unimod_bez N c' d' U') as (x' & y' & [m' E']).
  exists (x * c' + y * d'). cbn [fst snd].
  assert (H1 : c' - (x * c' + y * d') * c = N * (- m * c' - k * y)).
  { transitivity (- c' * (x * c + y * d - 1) - y * (c * d' - c' * d)); [ring|]. rewrite E, C. ring. }
  assert (H2 : d' - (x * c' + y * d') * d = N * (- m * d' + k * x)).
  { transitivity (- d' * (x * c + y * d - 1) + x * (c * d' - c' * d)); [ring|]. rewrite E, C. ring. }
  split; [|split; [rewrite H1; apply Z.divide_factor_l|rewrite H2; apply Z.divide_factor_l]].
  apply gcd1_bez. exists (x' * c + y' * d).
  exists (m' + x' * (m * c' + k * y) + y' * (m * d' - k * x)).
  transitivity (x' * c' + y' * d' - 1 - x' * (c' - (x * c' + y * d') * c) - y' * (d' - (x * c' + y * d') * d)); [ring|]. rewrite E', H1, H2. ring.
Qed.
Lemma sim_refl N s : sim N s s.
Proof.
  exists 1. split; [apply Z.gcd_1_l|]. split; exists 0; ring.
Qed.
Lemma sim_sym N s s' : sim N s s' -> sim N s' s.
Proof.
  intros (t & G & [k1 H1] & [k2 H2]). apply gcd1_bez in G. destruct G as (v & [m E]). exists v. split.
  - apply gcd1_bez. exists t, m. rewrite <- E. ring.
  - split; [exists (- m * fst s - v * k1)|exists (- m * snd s - v * k2)].
    + transitivity (- fst s * (t * v - 1) - v * (fst s' - t * fst s)); [ring|]. rewrite E, H1. ring.
    + transitivity (- snd s * (t * v - 1) - v * (snd s' - t * snd s)); [ring|]. rewrite E, H2. ring.
Qed.
Lemma sim_trans N s s' s'' : sim N s s' -> sim N s' s'' -> sim N s s''.
Proof.
  intros (t & G & [k1 H1] & [k2 H2]) (t' & G' & [k1' H1'] & [k2' H2']). exists (t' * t). split.
  - apply gcd1_bez in G, G'. apply gcd1_bez. destruct G as (v & [m E]), G' as (v' & [m' E']). exists (v * v').
    exists (m * t' * v' + m'). transitivity ((t * v - 1) * t' * v' + (t' * v' - 1)); [ring|]. rewrite E, E'. ring.
  - split; [exists (k1' + t' * k1)|exists (k2' + t' * k2)].
    + transitivity ((fst s'' - t' * fst s') + t' * (fst s' - t * fst s)); [ring|]. rewrite H1, H1'. ring.
    + transitivity ((snd s'' - t' * snd s') + t' * (snd s' - t * snd s)); [ring|]. rewrite H2, H2'. ring.
Qed.
Lemma unimod_sim N s s' : sim N s s' -> unimod N (fst s) (snd s) -> unimod N (fst s') (snd s').
Proof.
  intros (t & G & [k1 H1] & [k2 H2]) U. destruct (unimod_bez _ _ _ U) as (x & y & [m E]). apply gcd1_bez in G. destruct G as (v & [m' E']).
  unfold unimod. set (g := Z.gcd (Z.gcd (fst s') (snd s')) N).
  assert (D1 : (g | fst s')) by (apply (Z.divide_trans _ (Z.gcd (fst s') (snd s'))); [apply Z.gcd_divide_l|apply Z.gcd_divide_l]).
  assert (D2 : (g | snd s')) by (apply (Z.divide_trans _ (Z.gcd (fst s') (snd s'))); [apply Z.gcd_divide_l|apply Z.gcd_divide_r]).
  assert (D3 : (g | N)) by apply Z.gcd_divide_r.
  assert (K : (g | 1)).
  { replace 1 with (v * (x * fst s' + y * snd s') - N * (m' * (x * fst s + y * snd s) + m + v * (x * k1 + y * k2))).
    - apply Z.divide_sub_r; [apply Z.divide_mul_r, Z.divide_add_r; apply Z.divide_mul_r; auto|now apply Z.divide_mul_l].
    - replace (fst s') with (t * fst s + k1 * N) by lia. replace (snd s') with (t * snd s + k2 * N) by lia.
      transitivity ((t * v) * (x * fst s + y * snd s) - N * (m' * (x * fst s + y * snd s) + m)); [ring|].
      replace (t * v) with (m' * N + 1) by lia. transitivity ((x * fst s + y * snd s) - N * m); [ring|]. lia. }
  apply Z.divide_1_r_nonneg in K; [auto|apply Z.gcd_nonneg].
Qed.

(** ** number of classes *)
Section Count.
Variables (N : Z) (L : list Z).
Hypothesis HN : 0 < N.
Hypothesis HL : pfull N L.
Definition units : list Z := filter (good L) (zr N).
Definition orbit (s : Z * Z) : list (Z * Z) := map (fun t => ((t * fst s) mod N, (t * snd s) mod N)) units.
Definition upairs : list (Z * Z) := filter (good2 L) (list_prod (zr N) (zr N)).
Lemma units_len : Z.of_nat (length units) = phi_of L N.
Proof. exact (proj1 (counts N L HN (proj1 HL))). Qed.
Lemma upairs_len : Z.of_nat (length upairs) = psi_of L N * phi_of L N.
Proof. exact (proj2 (counts N L HN (proj1 HL))). Qed.
Lemma in_units t : In t units <-> 0 <= t < N /\ Z.gcd t N = 1.
Proof. unfold units. rewrite filter_In, in_zr. now rewrite (good_unit N L t HN HL). Qed.
Lemma in_upairs c d : In (c, d) upairs <-> (0 <= c < N /\ 0 <= d < N) /\ unimod N c d.
Proof. unfold upairs. rewrite filter_In, in_prod_iff, !in_zr. now rewrite (good2_unimod N L c d HN HL). Qed.
Lemma mod_dvd a : (N | a mod N - a). Proof. exists (- (a / N)). rewrite Z.mod_eq by lia. ring. Qed.
Lemma orbit_in s s' : unimod N (fst s) (snd s) -> (In s' (orbit s) <-> (0 <= fst s' < N /\ 0 <= snd s' < N) /\ sim N s s').
Proof.
  intros U. unfold orbit. rewrite in_map_iff. split.
  - intros (t & <- & Ht). apply in_units in Ht. destruct Ht as [_ G]. cbn [fst snd]. split; [split; apply Z.mod_pos_bound; auto|].
    exists t. cbn [fst snd]. split; [exact G|]. split; apply mod_dvd.
  - intros [[B1 B2] (t & G & [k1 H1] & [k2 H2])]. exists (t mod N). destruct s as [c d], s' as [c' d']. cbn [fst snd] in *. split.
    + f_equal; rewrite Z.mul_mod_idemp_l by lia; symmetry; [apply (Z.mod_unique_pos _ _ (- k1))|apply (Z.mod_unique_pos _ _ (- k2))]; auto; lia.
    + apply in_units. split; [now apply Z.mod_pos_bound|]. rewrite Z.gcd_mod by lia. now rewrite Z.gcd_comm.
Qed.
Lemma orbit_nodup s : unimod N (fst s) (snd s) -> NoDup (orbit s).
Proof.
  intros U. destruct (unimod_bez _ _ _ U) as (x & y & [m E]). unfold orbit.
  assert (ND : NoDup units) by (apply NoDup_filter, nodup_zr).
  assert (K : forall t, In t units -> 0 <= t < N) by (intros t Ht; apply in_units in Ht; tauto).
  clear U. revert K. induction ND as [|t l NI ND IH]; intros K; [constructor|]. cbn [map]. constructor.
  - intros C. apply in_map_iff in C. destruct C as (t' & C & Ht'). injection C as C1 C2.
    assert (D1 : (N | t' * fst s - t * fst s)) by (apply Z.mod_divide; [lia|]; rewrite Zminus_mod, C1, Z.sub_diag; reflexivity).
    assert (D2 : (N | t' * snd s - t * snd s)) by (apply Z.mod_divide; [lia|]; rewrite Zminus_mod, C2, Z.sub_diag; reflexivity).
    destruct D1 as [k1 D1], D2 as [k2 D2].
    assert (D : t' - t = N * (x * k1 + y * k2 - m * (t' - t))).
    { transitivity (x * (t' * fst s - t * fst s) + y * (t' * snd s - t * snd s) - (x * fst s + y * snd s - 1) * (t' - t)); [ring|]. rewrite D1, D2, E. ring. }
    pose proof (K t (or_introl eq_refl)). pose proof (K t' (or_intror Ht')).
    assert (t' = t).
    { revert D. generalize (x * k1 + y * k2 - m * (t' - t)). intros q D. clear - D H H0 HN. destruct (Z.lt_trichotomy q 0) as [Q|[Q|Q]]; [|subst; lia|]; exfalso; nia. }
    subst. contradiction.
  - apply IH. intros t' Ht'. apply K. now right.
Qed.
Lemma orbit_len s : length (orbit s) = length units. Proof. unfold orbit. apply map_length. Qed.
Lemma phi_pos : 0 < phi_of L N. Proof. exact (proj1 (phi_val L N HN (proj1 HL))). Qed.
Lemma classes R : Forall (fun s => unimod N (fst s) (snd s)) R -> ForallOrdPairs (fun s s' => ~ sim N s s') R ->
  Z.of_nat (length R) <= psi_of L N /\
  (Z.of_nat (length R) = psi_of L N -> forall s, unimod N (fst s) (snd s) -> exists r, In r R /\ sim N r s).
Proof.
  intros HU HP. pose proof phi_pos as PP.
  assert (ND : NoDup (flat_map orbit R)).
  { apply nodup_flat_map; [intros s Hs; apply orbit_nodup; rewrite Forall_forall in HU; auto|].
    clear PP. induction HP as [|s R H1 H2 IH]; constructor.
    - rewrite Forall_forall in *. intros s' Hs' y Hy Hy'. apply orbit_in in Hy, Hy'; [|apply HU; now right|apply HU; now left].
      apply (H1 s' Hs'). apply (sim_trans N s y); [tauto|]. apply sim_sym. tauto.
    - apply IH. now inversion HU. }
  assert (LEN : length (flat_map orbit R) = (length R * length units)%nat) by (apply flat_map_len; intros; apply orbit_len).
  assert (INC : incl (flat_map orbit R) upairs).
  { intros [c d] H. apply in_flat_map in H. destruct H as (s & Hs & H). rewrite Forall_forall in HU. specialize (HU s Hs).
    apply orbit_in in H; [|auto]. destruct H as [B S]. apply in_upairs. split; [exact B|]. exact (unimod_sim N s (c, d) S HU). }
  pose proof units_len as UL. pose proof upairs_len as PL.
  split.
  - pose proof (NoDup_incl_length ND INC) as LE. rewrite LEN in LE. nia.
  - intros EQ [c d] U. cbn [fst snd] in U.
    assert (INC' : incl upairs (flat_map orbit R)) by (apply NoDup_length_incl; [exact ND|rewrite LEN; nia|exact INC]).
    assert (S0 : sim N (c, d) (c mod N, d mod N)).
    { exists 1. split; [apply Z.gcd_1_l|]. cbn [fst snd]. rewrite !Z.mul_1_l. split; apply mod_dvd. }
    assert (I : In (c mod N, d mod N) upairs).
    { apply in_upairs. split; [split; now apply Z.mod_pos_bound|]. exact (unimod_sim N (c, d) _ S0 U). }
    apply INC' in I. apply in_flat_map in I. destruct I as (r & Hr & I). exists r. split; [exact Hr|].
    rewrite Forall_forall in HU. apply orbit_in in I; [|apply HU; exact Hr]. apply (sim_trans N r (c mod N, d mod N)); [tauto|]. now apply sim_sym.
Qed.
End Count.
