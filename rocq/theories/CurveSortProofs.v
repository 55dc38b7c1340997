From Coq Require Import ZArith List Bool Lia FinFun.
From Verif Require Import Base CurveSortModel CurveSortSpec.
Import ListNotations.
Open Scope Z_scope.
Open Scope res_scope.

Notation len l := (Z.of_nat (length l)).
Lemma pw k : 0 <= k -> 0 < 26 ^ k. Proof. intros K. apply Z.pow_pos_nonneg; lia. Qed.
Lemma pwS k : 0 <= k -> 26 ^ (k + 1) = 26 * 26 ^ k. Proof. intros K. rewrite Z.pow_add_r by lia. change (26 ^ 1) with 26. ring. Qed.
Lemma len_cons (c : Z) l : len (c :: l) = len l + 1. Proof. cbn [length]. lia. Qed.
Lemma letters_cons c l : letters (c :: l) -> 97 <= c <= 122 /\ letters l.
Proof. intros H. split; [apply H; left; reflexivity|]. intros d D. apply H. right. exact D. Qed.

Lemma base26_bound l : letters l -> 0 <= base26 l < 26 ^ len l.
Proof.
  induction l as [|c l IH]; intros H; [cbn; lia|]. apply letters_cons in H. destruct H as (C & H). specialize (IH H).
  rewrite len_cons, pwS by lia. cbn [base26]. pose proof (pw (len l) ltac:(lia)) as P. generalize dependent (26 ^ len l). intros w IH P. nia.
Qed.
Lemma base26_app l c : base26 (l ++ [c]) = 26 * base26 l + (c - 97).
Proof.
  induction l as [|d l IH]; [cbn; ring|]. cbn [base26 app]. rewrite IH, app_length. cbn [length].
  replace (Z.of_nat (length l + 1)) with (len l + 1) by lia. rewrite pwS by lia. ring.
Qed.

Lemma code_loop_ok l : letters l -> forall n, 0 <= n -> n * 26 ^ len l + base26 l < 2 ^ 31 ->
  code_loop n l = Ok (n * 26 ^ len l + base26 l).
Proof.
  induction l as [|c l IH]; intros H n N B.
  { cbn [code_loop base26 length] in *. f_equal. change (26 ^ Z.of_nat 0) with 1. ring. }
  apply letters_cons in H. destruct H as (C & H). rewrite len_cons, pwS in * by lia. cbn [base26 code_loop] in *.
  pose proof (pw (len l) ltac:(lia)) as P. pose proof (base26_bound l H) as BB.
  assert (E : n * (26 * 26 ^ len l) + ((c - 97) * 26 ^ len l + base26 l) = (n * 26 + (c - 97)) * 26 ^ len l + base26 l) by ring.
  rewrite E in *. assert (LE : n * 26 + (c - 97) < 2 ^ 31).
  { clear - B BB P C N. generalize dependent (26 ^ len l). intros w B BB P. nia. }
  unfold int_chk. replace ((- 2 ^ 31 <=? n * 26) && (n * 26 <? 2 ^ 31)) with true.
  2: { symmetry. apply andb_true_iff. rewrite Z.leb_le, Z.ltb_lt. lia. }
  rewrite bind_Ok. replace ((- 2 ^ 31 <=? n * 26 + (c - 97)) && (n * 26 + (c - 97) <? 2 ^ 31)) with true.
  2: { symmetry. apply andb_true_iff. rewrite Z.leb_le, Z.ltb_lt. lia. }
  rewrite bind_Ok. apply IH; [exact H|lia|exact B].
Qed.
Lemma code_loop_big l : letters l -> forall n, 0 <= n < 2 ^ 31 -> 2 ^ 31 <= n * 26 ^ len l + base26 l -> code_loop n l = UB.
Proof.
  induction l as [|c l IH]; intros H n N B.
  { cbn [base26 length] in *. change (26 ^ Z.of_nat 0) with 1 in B. lia. }
  apply letters_cons in H. destruct H as (C & H). rewrite len_cons, pwS in * by lia. cbn [base26 code_loop] in *.
  assert (E : n * (26 * 26 ^ len l) + ((c - 97) * 26 ^ len l + base26 l) = (n * 26 + (c - 97)) * 26 ^ len l + base26 l) by ring.
  rewrite E in B. unfold int_chk at 1. destruct ((- 2 ^ 31 <=? n * 26) && (n * 26 <? 2 ^ 31)); [|reflexivity]. rewrite bind_Ok.
  unfold int_chk. destruct ((- 2 ^ 31 <=? n * 26 + (c - 97)) && (n * 26 + (c - 97) <? 2 ^ 31)) eqn:K; [|reflexivity]. rewrite bind_Ok.
  apply andb_true_iff in K. rewrite Z.leb_le, Z.ltb_lt in K. apply IH; [exact H|lia|exact B].
Qed.

Lemma letters_loop_ok : forall fuel n, 0 <= n < 2 ^ Z.of_nat fuel -> exists l, letters_loop fuel n = Ok l /\ letters l /\
  base26 (rev l) = n /\ ((n = 0 /\ l = []) \/ exists m c, l = m ++ [c] /\ c <> 97).
Proof.
  induction fuel as [|fuel IH]; intros n N.
  { change (2 ^ Z.of_nat 0) with 1 in N. assert (n = 0) by lia. subst n. exists []. split; [reflexivity|]. split; [intros c []|]. split; [reflexivity|left; auto]. }
  cbn [letters_loop]. destruct (Z.eqb_spec n 0) as [->|N0]; [exists []; split; [reflexivity|]; split; [intros c []|]; split; [reflexivity|left; auto]|].
  rewrite Z.rem_mod_nonneg, Z.quot_div_nonneg by lia.
  pose proof (Z.mod_pos_bound n 26 ltac:(lia)) as R. pose proof (Z.div_mod n 26 ltac:(lia)) as DM.
  unfold alphabet. replace ((0 <=? n mod 26) && (n mod 26 <? 26)) with true.
  2: { symmetry. apply andb_true_iff. rewrite Z.leb_le, Z.ltb_lt. lia. }
  rewrite bind_Ok. replace (Z.of_nat (S fuel)) with (Z.of_nat fuel + 1) in N by lia. rewrite Z.pow_add_r in N by lia. change (2 ^ 1) with 2 in N.
  destruct (IH (n / 26)) as (l & -> & L & V & C). { generalize dependent (2 ^ Z.of_nat fuel). intros; lia. }
  rewrite bind_Ok. exists (97 + n mod 26 :: l). split; [reflexivity|]. split.
  { intros c [<-|I]; [lia|apply L, I]. }
  split. { cbn [rev]. rewrite base26_app, V. lia. }
  right. destruct C as [(Q & ->)|(m & c & -> & CN)].
  - exists [], (97 + n mod 26). split; [reflexivity|lia].
  - exists (97 + n mod 26 :: m), c. split; [reflexivity|exact CN].
Qed.

Lemma rev_letters l : letters l -> letters (rev l). Proof. intros H c C. apply H, in_rev, C. Qed.

Lemma new_codeletter_ok i : 0 <= i -> exists l, new_codeletter i = Ok l /\ is_code l /\ base26 l = i.
Proof.
  intros I. unfold new_codeletter. destruct (Z.eqb_spec i 0) as [->|N].
  { exists [97]. split; [reflexivity|]. split; [|reflexivity]. split; [intros c [<-|[]]; lia|left; reflexivity]. }
  rewrite Z.abs_eq by exact I. destruct (letters_loop_ok (S (Z.to_nat (Z.log2 i))) i) as (l & -> & L & V & C).
  { pose proof (Z.log2_nonneg i). replace (Z.of_nat (S (Z.to_nat (Z.log2 i)))) with (Z.succ (Z.log2 i)) by lia. pose proof (Z.log2_spec i ltac:(lia)). lia. }
  rewrite bind_Ok. exists (rev l). split; [reflexivity|]. split; [|exact V]. split; [apply rev_letters, L|]. right.
  destruct C as [(N0 & _)|(m & c & -> & CN)]; [contradiction|]. exists c, (rev m). rewrite rev_app_distr. split; [reflexivity|exact CN].
Qed.
Lemma letters_loop_neg : forall fuel n, - 2 ^ Z.of_nat fuel < n < 0 -> letters_loop fuel n = UB.
Proof.
  induction fuel as [|fuel IH]; intros n N. { change (2 ^ Z.of_nat 0) with 1 in N. lia. }
  cbn [letters_loop]. destruct (Z.eqb_spec n 0); [lia|].
  pose proof (Z.rem_nonpos n 26 ltac:(lia) ltac:(lia)) as R. pose proof (Z.quot_rem n 26 ltac:(lia)) as Q.
  unfold alphabet. destruct ((0 <=? Z.rem n 26) && (Z.rem n 26 <? 26)) eqn:E.
  - apply andb_true_iff in E. rewrite Z.leb_le, Z.ltb_lt in E. rewrite bind_Ok. rewrite IH; [reflexivity|].
    replace (Z.of_nat (S fuel)) with (Z.of_nat fuel + 1) in N by lia. rewrite Z.pow_add_r in N by lia. change (2 ^ 1) with 2 in N.
    generalize dependent (2 ^ Z.of_nat fuel). intros; lia.
  - destruct (Z.eqb_spec (Z.rem n 26) 26); [lia|reflexivity].
Qed.
Lemma new_codeletter_neg i : i < 0 -> new_codeletter i = UB.
Proof.
  intros I. unfold new_codeletter. destruct (Z.eqb_spec i 0); [lia|]. rewrite letters_loop_neg; [reflexivity|].
  pose proof (Z.log2_nonneg (Z.abs i)). replace (Z.of_nat (S (Z.to_nat (Z.log2 (Z.abs i))))) with (Z.succ (Z.log2 (Z.abs i))) by lia.
  pose proof (Z.log2_spec (Z.abs i) ltac:(lia)). lia.
Qed.

(** codes are ordered like their values *)
Lemma same_len : forall l l', letters l -> letters l' -> length l = length l' -> base26 l <= base26 l' ->
  l = l' \/ exists p c c' r r', l = p ++ c :: r /\ l' = p ++ c' :: r' /\ c < c'.
Proof.
  induction l as [|c l IH]; intros [|c' l'] L L' E B; try discriminate; [left; reflexivity|].
  apply letters_cons in L, L'. destruct L as (C & L), L' as (C' & L'). injection E as E. cbn [base26] in B. rewrite <- E in B.
  pose proof (base26_bound l L) as B1. pose proof (base26_bound l' L') as B2. rewrite <- E in B2.
  destruct (Z.lt_trichotomy c c') as [LT|[<-|GT]].
  - right. exists [], c, c', l, l'. auto.
  - destruct (IH l' L L' E) as [->|(p & d & d' & r & r' & -> & -> & D)]; [lia|left; reflexivity|].
    right. exists (c :: p), d, d', r, r'. auto.
  - exfalso. clear - B B1 B2 GT. pose proof (pw (len l) ltac:(lia)) as P. generalize dependent (26 ^ len l). intros w B B1 B2 P. nia.
Qed.
Lemma code_low l : is_code l -> (2 <= length l)%nat -> 26 ^ (len l - 1) <= base26 l.
Proof.
  intros (L & [->|(c & r & -> & C)]) N; [cbn in N; lia|]. apply letters_cons in L. destruct L as (C' & L). cbn [base26].
  rewrite len_cons. replace (len r + 1 - 1) with (len r) by lia. pose proof (base26_bound r L). pose proof (pw (len r) ltac:(lia)) as P.
  generalize dependent (26 ^ len r). intros w H P. nia.
Qed.
Lemma code_ne l : is_code l -> (1 <= length l)%nat.
Proof. intros (_ & [->|(c & r & -> & _)]); cbn; lia. Qed.
Lemma code_len l l' : is_code l -> is_code l' -> base26 l <= base26 l' -> (length l <= length l')%nat.
Proof.
  intros H H' B. destruct (Nat.le_gt_cases (length l) (length l')) as [|G]; [assumption|]. exfalso.
  pose proof (code_ne l' H'). pose proof (code_low l H ltac:(lia)) as LO. pose proof (base26_bound l' (proj1 H')) as UP.
  assert (26 ^ len l' <= 26 ^ (len l - 1)) by (apply Z.pow_le_mono_r; lia). lia.
Qed.
Lemma code_le l l' : is_code l -> is_code l' -> base26 l <= base26 l' -> l = l' \/ code_lt l l'.
Proof.
  intros H H' B. pose proof (code_len l l' H H' B) as N. destruct (Nat.eq_dec (length l) (length l')) as [E|E]; [|right; left; lia].
  destruct (same_len l l' (proj1 H) (proj1 H') E B) as [X|X]; [left; exact X|right; right; split; assumption].
Qed.
Lemma code_lt_irr l : ~ code_lt l l.
Proof.
  intros [H|(_ & p & c & c' & r & r' & -> & E & C)]; [lia|]. apply app_inv_head in E. injection E as E _. lia.
Qed.
Lemma code_lt_asym l l' : code_lt l l' -> letters l -> letters l' -> is_code l -> is_code l' -> base26 l < base26 l'.
Proof.
  intros [H|(EL & p & c & c' & r & r' & -> & -> & C)] L L' K K'.
  - destruct (Z_lt_le_dec (base26 l) (base26 l')); [assumption|]. pose proof (code_len l' l K' K ltac:(lia)). lia.
  - clear K K'. revert EL L L'. induction p as [|d p IH]; intros EL L L'; cbn [app] in *.
    + apply letters_cons in L, L'. destruct L as (D & L), L' as (D' & L'). cbn [length] in EL. injection EL as EL. cbn [base26]. rewrite <- EL.
      pose proof (base26_bound r L). pose proof (base26_bound r' L') as B'. rewrite <- EL in B'. clear - C H B'. pose proof (pw (len r) ltac:(lia)) as P.
      generalize dependent (26 ^ len r). intros w. nia.
    + apply letters_cons in L, L'. destruct L as (D & L), L' as (D' & L'). cbn [length] in EL. injection EL as EL. cbn [base26]. rewrite <- EL.
      specialize (IH EL L L'). lia.
Qed.
Lemma code_unique l l' : is_code l -> is_code l' -> base26 l = base26 l' -> l = l'.
Proof.
  intros H H' E. destruct (code_le l l' H H' ltac:(lia)) as [X|X]; [exact X|].
  pose proof (code_lt_asym l l' X (proj1 H) (proj1 H') H H'). lia.
Qed.

(** ** the tables *)
Definition perm_ok (p : list Z) : bool :=
  forallb (fun k => existsb (Z.eqb (Z.of_nat k)) p) (seq 0 (length p)) &&
  forallb (fun r => (0 <=? r) && (r <? len p)) p && negb (length p =? 0)%nat && (length p <=? 8)%nat.
Lemma table_ok : forallb (fun t => perm_ok (snd t)) book_table = true.
Proof. vm_compute. reflexivity. Qed.
Lemma book_find_in level : forall t p, book_find level t = Some p -> In (level, p) t.
Proof.
  induction t as [|(l, q) t IH]; intros p; cbn [book_find]; [discriminate|].
  destruct (Z.eqb_spec l level) as [->|]; [intros H; injection H as ->; left; reflexivity|intros H; right; apply IH, H].
Qed.
Lemma perm_ok_permutes p : perm_ok p = true -> permutes (fun i => nth (Z.to_nat i) p 0) (len p) /\ 0 < len p <= 8.
Proof.
  intros H. unfold perm_ok in H. rewrite !andb_true_iff, !forallb_forall, negb_true_iff, Nat.eqb_neq, Nat.leb_le in H. destruct H as (((S & B) & NE) & L8).
  split; [|lia].
  assert (SUR : forall k, 0 <= k < len p -> In k p).
  { intros k K. specialize (S (Z.to_nat k)). rewrite in_seq in S. specialize (S ltac:(lia)). apply existsb_exists in S. destruct S as (x & X & E).
    apply Z.eqb_eq in E. rewrite Z2Nat.id in E by lia. subst x. exact X. }
  assert (ND : NoDup p).
  { apply (@NoDup_incl_NoDup Z (map Z.of_nat (seq 0 (length p))) p).
    - apply Injective_map_NoDup; [intros a b; apply Nat2Z.inj|apply seq_NoDup].
    - rewrite map_length, seq_length. reflexivity.
    - intros x X. apply in_map_iff in X. destruct X as (k & <- & K). rewrite in_seq in K. apply SUR. lia. }
  split; [|split].
  - intros i I. assert (X : In (nth (Z.to_nat i) p 0) p) by (apply nth_In; lia). specialize (B _ X). rewrite andb_true_iff, Z.leb_le, Z.ltb_lt in B. lia.
  - intros i j I J E. apply (proj1 (NoDup_nth p 0) ND) in E; lia.
  - intros k K. destruct (In_nth p k 0 (SUR k K)) as (m & M & E). exists (Z.of_nat m). rewrite Nat2Z.id. split; [lia|exact E].
Qed.
Lemma booknumber0_ok level : (forall form, booknumber0 level form = Ok form) \/
  exists n f, 0 < n <= 8 /\ permutes f n /\ forall form, booknumber0 level form = if (0 <=? form) && (form <? n) then Ok (f form) else UB.
Proof.
  unfold booknumber0. destruct (level <? 56); [left; reflexivity|]. destruct (450 <? level); [left; reflexivity|].
  destruct (book_find level book_table) as [p|] eqn:F; [right|left; reflexivity].
  apply book_find_in in F. pose proof table_ok as T. rewrite forallb_forall in T. specialize (T _ F). cbn [snd] in T.
  destruct (perm_ok_permutes p T) as (P & N). exists (len p), (fun i => nth (Z.to_nat i) p 0). split; [exact N|]. split; [exact P|].
  intros form. destruct (Z.ltb_spec form 0) as [L|L].
  - replace (0 <=? form) with false by (symmetry; apply Z.leb_gt; exact L). reflexivity.
  - replace (0 <=? form) with true by (symmetry; apply Z.leb_le; exact L). cbn [andb]. destruct (Z.ltb_spec form (len p)) as [B|B].
    + rewrite (nth_error_nth' p 0) by lia. reflexivity.
    + rewrite (proj2 (nth_error_None p (Z.to_nat form))) by lia. reflexivity.
Qed.
