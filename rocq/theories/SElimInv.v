(** The invariant of the elimination of SElimModel: what a pivot must do to keep it. *)
From Coq Require Import ZArith Znumtheory Lia List Bool.
From Verif Require Import Base ArithModel RatModel MArithModel LinModel LinSpec LinProofs SvecModel SmatModel OrdModel OrdSpec OrdProofs OrdMore SElimModel SElimRow.
Import ListNotations.
Open Scope Z_scope.
Open Scope res_scope.

Definition rw (st : est) (i : nat) : smap := nth i (erows st) [].
Definition po (st : est) (i : nat) : Z := nth i (epos st) 0.
Definition ce (st : est) (c : nat) : Z := nth c (ecol st) 0.
Definition cl (st : est) (c : nat) : olist := nth c (ecols st) (onew 0).
Definition ck (c : nat) : Z := Z.of_nat c + 1.
Definition se (st : est) (i j : nat) : Z := lookup (rw st i) (ck j).
Definition has (st : est) (i c : nat) : Prop := In (ck c) (keys (rw st i)).
Definition act (st : est) (i : nat) : Prop := po st i = -1.

Section Inv.
Variables (p : Z) (V : Z -> Prop) (nr nc : nat) (A0 : nat -> nat -> Z) (ex : nat).
Hypothesis P : prime p.
Notation wf := (wfrow p V nc).
Record core (pv : list (nat * nat)) (st : est) : Prop := {
  k_nr : length (erows st) = nr;
  k_np : length (epos st) = nr;
  k_nc : length (ecol st) = nc;
  k_row : forall i, wf (rw st i);
  k_span : eqspan p nc nr A0 nr (se st);
  k_erow : erow st = map (fun x => Z.of_nat (fst x)) pv;
  k_nd1 : NoDup (map fst pv);
  k_nd2 : NoDup (map snd pv);
  k_pv : forall r c, In (r, c) pv -> (r < nr)%nat /\ (c < nc)%nat /\ po st r = ck c /\ ce st c = Z.of_nat r /\ cong p (se st r c) 1;
  k_pos : forall i, (i < nr)%nat -> act st i \/ (po st i = 0 /\ rw st i = []) \/ In i (map fst pv);
  k_ce : forall c, (c < nc)%nat -> ce st c = -1 \/ In c (map snd pv);
  k_tri : forall pv1 r c pv2, pv = pv1 ++ (r, c) :: pv2 -> forall i, In i (map fst pv2) \/ ((i < nr)%nat /\ act st i) -> ~ has st i c
}.
Definition colset (st : est) (c : nat) (y : Z) : Prop := exists i, y = Z.of_nat i /\ (i < nr)%nat /\ act st i /\ has st i c.
(** ex: a column whose index may have moved *)
Record inv (pv : list (nat * nat)) (st : est) : Prop := {
  i_core : core pv st;
  i_ncs : length (ecols st) = nc;
  i_col : forall c, (c < nc)%nat -> opost (cl st c) (colset st c);
  i_idx : forall c, (c < nc)%nat -> c <> ex -> ce st c = -1 -> oidx (cl st c) = 0%nat
}.
Lemma pv_len pv st : core pv st -> (length pv <= nr)%nat.
Proof.
  intros K. rewrite <- (map_length fst), <- (seq_length nr 0). apply NoDup_incl_length; [apply K|]. intros i Hi. apply in_map_iff in Hi. destruct Hi as ((r, c) & <- & H). apply in_seq. cbn. destruct (k_pv _ _ K r c H). lia.
Qed.
Lemma pv_inact pv st i : core pv st -> In i (map fst pv) -> ~ act st i.
Proof. intros K Hi A. apply in_map_iff in Hi. destruct Hi as ((r, c) & <- & H). cbn in A. destruct (k_pv _ _ K r c H) as (_ & _ & E & _). unfold act, ck in *. lia. Qed.
Lemma ce_pv pv st c : core pv st -> In c (map snd pv) -> ce st c <> -1.
Proof. intros K Hi. apply in_map_iff in Hi. destruct Hi as ((r, c') & <- & H). cbn. destruct (k_pv _ _ K r c' H) as (_ & _ & _ & E & _). lia. Qed.
Lemma act_free pv st i c : core pv st -> (i < nr)%nat -> act st i -> has st i c -> ~ In c (map snd pv).
Proof.
  intros K Li A H Hc. apply in_map_iff in Hc. destruct Hc as ((r, c') & <- & Hp). cbn in H. apply in_split in Hp. destruct Hp as (l1 & l2 & E). apply (k_tri _ _ K l1 r c' l2 E i); auto.
Qed.
Lemma has_range pv st i k : core pv st -> In k (keys (rw st i)) -> exists c, k = ck c /\ (c < nc)%nat /\ has st i c.
Proof. intros K H. pose proof (key_range p V nc _ _ (k_row _ _ K i) H). exists (Z.to_nat (k - 1)). unfold has, ck. rewrite Z2Nat.id by lia. replace (k - 1 + 1) with k by lia. split; auto. split; [lia|exact H]. Qed.
Lemma has_se pv st i c : core pv st -> (has st i c <-> ~ cong p (se st i c) 0).
Proof. intros K. apply (has_iff p V nc), K. Qed.
Lemma hasnt_se pv st i c : core pv st -> (~ has st i c <-> cong p (se st i c) 0).
Proof. intros K. apply (hasnt_iff p V nc), K. Qed.

Lemma span_pivot A B r u u' (ac : nat -> Prop) (dec : forall i, ac i \/ ~ ac i) : (r < nr)%nat -> cong p (u * u') 1 ->
  (forall j, (j < nc)%nat -> cong p (B r j) (u * A r j)) ->
  (forall i, (i < nr)%nat -> i <> r -> ac i -> exists m, forall j, (j < nc)%nat -> cong p (B i j) (A i j + m * B r j)) ->
  (forall i, (i < nr)%nat -> i <> r -> ~ ac i -> forall j, (j < nc)%nat -> cong p (B i j) (A i j)) -> eqspan p nc nr A nr B.
Proof.
  intros Lr U H1 H2 H3.
  assert (Sr : inspan p nc nr A (B r)) by (apply (span_cong _ _ _ _ _ (fun j => u * A r j + 0 * A r j)); [intros j Hj; rewrite Z.mul_0_l, Z.add_0_r; auto|apply span_lin; apply span_row; auto]).
  apply eqspan_rows; intros i Li; destruct (Nat.eq_dec i r) as [->|N]; auto.
  - destruct (dec i) as [a|a].
    + destruct (H2 i Li N a) as (m & Hm). apply (span_cong _ _ _ _ _ (fun j => 1 * A i j + m * B r j)); [intros j Hj; rewrite Z.mul_1_l; auto|]. apply span_lin; auto. apply span_row; auto.
    + apply (span_cong _ _ _ _ _ (A i)); [apply H3; auto|apply span_row; auto].
  - apply (span_cong _ _ _ _ _ (fun j => u' * B r j + 0 * B r j)); [|apply span_lin; apply span_row; auto]. intros j Hj. rewrite Z.mul_0_l, Z.add_0_r. apply cong_sym. eapply cong_trans; [apply cong_mul; [apply cong_refl|apply H1; auto]|].
    replace (u' * (u * A r j)) with (u * u' * A r j) by ring. replace (A r j) with (1 * A r j) at 2 by ring. apply cong_mul; [auto|apply cong_refl].
  - destruct (dec i) as [a|a].
    + destruct (H2 i Li N a) as (m & Hm). apply (span_cong _ _ _ _ _ (fun j => 1 * B i j + (- m) * B r j)); [|apply span_lin; apply span_row; auto]. intros j Hj. apply cong_sym.
      eapply cong_trans; [apply cong_add; [apply cong_mul; [apply cong_refl|apply Hm; auto]|apply cong_refl]|]. apply cong_eq. ring.
    + apply (span_cong _ _ _ _ _ (B i)); [intros j Hj; apply cong_sym, H3; auto|apply span_row; auto].
Qed.
(** what has to be shown of a pivot *)
Record pivoted (st st' : est) (r c : nat) : Prop := {
  q_nr : length (erows st') = length (erows st);
  q_np : length (epos st') = length (epos st);
  q_nc : length (ecol st') = length (ecol st);
  q_row : forall i, wf (rw st' i);
  q_r : exists u u', cong p (u * u') 1 /\ forall j, cong p (se st' r j) (u * se st r j);
  q_1 : cong p (se st' r c) 1;
  q_in : forall i, i <> r -> (~ act st i \/ (nr <= i)%nat) -> rw st' i = rw st i;
  q_act : forall i, i <> r -> act st i -> exists m, forall j, cong p (se st' i j) (se st i j + m * se st' r j);
  q_clr : forall i, (i < nr)%nat -> i <> r -> act st i -> ~ has st' i c;
  q_por : po st' r = ck c;
  q_po : forall i, (i < nr)%nat -> i <> r -> po st' i = po st i \/ (act st i /\ po st' i = 0 /\ rw st' i = []);
  q_cec : ce st' c = Z.of_nat r;
  q_ce : forall d, d <> c -> ce st' d = ce st d;
  q_erow : erow st' = erow st ++ [Z.of_nat r]
}.
Lemma act_dec st i : act st i \/ ~ act st i.
Proof. unfold act. lia. Qed.
Lemma core_pivot pv st st' r c : core pv st -> (r < nr)%nat -> act st r -> (c < nc)%nat -> has st r c -> pivoted st st' r c -> core (pv ++ [(r, c)]) st'.
Proof.
  intros K Lr Ar Lc Hc Q. destruct (q_r _ _ _ _ Q) as (u & u' & U & Hu).
  assert (Fr : ~ In r (map fst pv)) by (intros H; apply (pv_inact _ _ _ K H); auto).
  assert (Fc : ~ In c (map snd pv)) by (apply (act_free pv st r c K); auto).
  assert (T : forall pv1 r0 c0 pv2 i, pv = pv1 ++ (r0, c0) :: pv2 -> In i (map fst pv2) \/ ((i < nr)%nat /\ act st i) -> ~ has st' i c0).
  { intros pv1 r0 c0 pv2 i E Hi. pose proof (k_tri _ _ K pv1 r0 c0 pv2 E) as T.
    assert (Tr : cong p (se st' r c0) 0). { eapply cong_trans; [apply Hu|]. rewrite <- (Z.mul_0_r u). apply cong_mul; [apply cong_refl|]. apply (hasnt_se _ _ _ _ K), T. auto. }
    specialize (T i Hi). destruct (Nat.eq_dec i r) as [->|N]; [apply (hasnt_iff p V nc); [apply Q|exact Tr]|].
    destruct (act_dec st i) as [A|A]; [|unfold has; rewrite (q_in _ _ _ _ Q i N) by auto; exact T].
    destruct (q_act _ _ _ _ Q i N A) as (m & Hm). apply (hasnt_iff p V nc); [apply Q|]. eapply cong_trans; [apply Hm|]. replace 0 with (0 + m * 0) by ring. apply cong_add; [apply (hasnt_se _ _ _ _ K), T|apply cong_mul; [apply cong_refl|exact Tr]]. }
  constructor.
  - rewrite (q_nr _ _ _ _ Q). apply K.
  - rewrite (q_np _ _ _ _ Q). apply K.
  - rewrite (q_nc _ _ _ _ Q). apply K.
  - apply Q.
  - eapply eqspan_trans; [apply K|]. apply (span_pivot _ _ r u u' (act st) (act_dec st)); auto.
    + intros i _ N A. destruct (q_act _ _ _ _ Q i N A) as (m & Hm). exists m. auto.
    + intros i _ N A j _. unfold se. rewrite (q_in _ _ _ _ Q i N) by auto. apply cong_refl.
  - rewrite (q_erow _ _ _ _ Q), (k_erow _ _ K), map_app. reflexivity.
  - rewrite map_app. rewrite <- (rev_involutive (map fst pv ++ _)). apply NoDup_rev. rewrite rev_app_distr. cbn. constructor; [rewrite <- in_rev; exact Fr|]. apply NoDup_rev, K.
  - rewrite map_app. rewrite <- (rev_involutive (map snd pv ++ _)). apply NoDup_rev. rewrite rev_app_distr. cbn. constructor; [rewrite <- in_rev; exact Fc|]. apply NoDup_rev, K.
  - intros r0 c0 H. apply in_app_or in H. destruct H as [H|[H|[]]].
    + destruct (k_pv _ _ K r0 c0 H) as (H1 & H2 & H3 & H4 & H5). assert (r0 <> r) by (intros ->; apply Fr, in_map_iff; exists (r, c0); auto). assert (c0 <> c) by (intros ->; apply Fc, in_map_iff; exists (r0, c); auto).
      assert (NA : ~ act st r0) by (unfold act, ck in *; lia). split; auto. split; auto. split; [destruct (q_po _ _ _ _ Q r0 H1 H0) as [->|(A & _)]; [auto|tauto]|]. split; [rewrite (q_ce _ _ _ _ Q); auto|]. unfold se. rewrite (q_in _ _ _ _ Q r0 H0) by auto. exact H5.
    + injection H as <- <-. split; auto. split; auto. split; [apply Q|]. split; [apply Q|apply Q].
  - intros i Li. rewrite map_app, in_app_iff. destruct (Nat.eq_dec i r) as [->|N]; [right; right; right; left; reflexivity|].
    destruct (q_po _ _ _ _ Q i Li N) as [E|(A & E & R)]; [|right; left; auto]. destruct (k_pos _ _ K i Li) as [A|[(E0 & R)|H]]; [left; unfold act; congruence| |auto].
    right; left. split; [congruence|]. rewrite (q_in _ _ _ _ Q i N); auto. left. unfold act. lia.
  - intros d Ld. rewrite map_app, in_app_iff. destruct (Nat.eq_dec d c) as [->|N]; [right; right; left; reflexivity|]. rewrite (q_ce _ _ _ _ Q) by auto. destruct (k_ce _ _ K d Ld); auto.
  - intros pv1 r0 c0 pv2 E i Hi. assert (Ai : (i < nr)%nat /\ act st' i -> i <> r /\ act st i).
    { intros (Li & A). assert (i <> r) by (intros ->; unfold act in A; rewrite (q_por _ _ _ _ Q) in A; unfold ck in A; lia). split; auto. destruct (q_po _ _ _ _ Q i Li H) as [E1|(A1 & _)]; auto. unfold act in *. congruence. }
    destruct pv2 as [|x pv2 _] using rev_ind.
    + apply app_inj_tail in E. destruct E as (_ & E). injection E as <- <-. destruct Hi as [[]|Hi]. destruct (Ai Hi). apply Q; auto. apply Hi.
    + replace (pv1 ++ (r0, c0) :: pv2 ++ [x]) with ((pv1 ++ (r0, c0) :: pv2) ++ [x]) in E by (rewrite <- app_assoc; reflexivity). apply app_inj_tail in E. destruct E as (E & <-).
      apply (T pv1 r0 c0 pv2 i E). destruct Hi as [Hi|Hi]; [|right; destruct (Ai Hi); split; auto; apply Hi]. rewrite map_app, in_app_iff in Hi. destruct Hi as [Hi|[<-|[]]]; auto.
Qed.
(** an empty active row is put aside *)
Lemma inv_zero pv st i : inv pv st -> (i < nr)%nat -> act st i -> rw st i = [] -> inv pv (set_pos st (upd (epos st) i 0)).
Proof.
  intros [K N C X] Li A R. set (st' := set_pos st (upd (epos st) i 0)).
  assert (Pi : po st' i = 0) by (unfold po, st'; cbn; apply upd_same; rewrite (k_np _ _ K); auto).
  assert (Po : forall j, j <> i -> po st' j = po st j) by (intros j Hj; unfold po, st'; cbn; apply upd_other; auto).
  assert (Aj : forall j, act st' j -> act st j) by (intros j Hj; unfold act in *; destruct (Nat.eq_dec j i) as [->|Nj]; [congruence|rewrite <- Po; auto]).
  constructor; auto.
  - constructor; try apply K.
    + cbn. rewrite upd_len. apply K.
    + intros r c H. destruct (k_pv _ _ K r c H) as (H1 & H2 & H3 & H4 & H5). split; auto. split; auto. split; auto. rewrite Po; auto. intros ->. unfold act, ck in *. lia.
    + intros j Lj. destruct (Nat.eq_dec j i) as [->|Nj]; [right; left; auto|]. unfold act. rewrite Po by auto. apply K, Lj.
    + intros pv1 r c pv2 E j Hj. apply (k_tri _ _ K pv1 r c pv2 E). destruct Hj as [|(Lj & Hj)]; auto.
  - intros c Lc. destruct (C c Lc) as (l & H & M). exists l. split; [exact H|]. intros y. rewrite M. split; intros (j & E & Lj & Hj & Hh); exists j; split; auto; split; auto; split; auto.
    unfold act. rewrite Po; auto. intros ->. unfold has in Hh. change (rw st' i) with (rw st i) in Hh. rewrite R in Hh. exact Hh.
Qed.
End Inv.
