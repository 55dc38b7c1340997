(** step 4 and the loop of standard of SElimModel keep the invariant and end. *)
From Coq Require Import ZArith Znumtheory Lia List Bool.
From Verif Require Import Base ArithModel RatModel MArithModel LinModel LinSpec LinProofs SvecModel SmatModel OrdModel OrdSpec OrdProofs OrdMore SElimModel SElimRow SElimInv SElimPivot SElimSteps.
Import ListNotations.
Open Scope Z_scope.
Open Scope res_scope.

Section Std.
Variables (E : esc) (p : Z) (V : Z -> Prop) (nr nc : nat) (A0 : nat -> nat -> Z).
Hypothesis M : emod E p V.
Notation wf := (wfrow p V nc).
Notation invx := (inv p V nr nc A0).
Notation inv := (invx nc).
Notation core := (core p V nr nc A0).
Notation mu := (mu nr).

Lemma fuel_mu pv st : core pv st -> mu st < 2 ^ Z.of_nat (efuel st).
Proof. intros K. pose proof (fuel_ok p V nr nc A0 pv st 0 K ltac:(lia)) as H. pose proof (mu_pos _ _ _ _ _ _ _ K) as Hm. nia. Qed.
(** ** step 4 *)
Definition bits (li : list Z) : Prop := length li = nc /\ Forall isbit li.
Lemma bits_get li k : bits li -> 1 <= k <= Z.of_nat nc -> exists x, zget li (k - 1) = Ok x /\ (x = 0 \/ x = 1).
Proof.
  intros (Hl & F) Hk. rewrite (zget_nth 0) by (unfold zlen; lia). eexists. split; [reflexivity|]. rewrite Forall_forall in F. apply F, nth_In. lia.
Qed.
Lemma weight_one_ok l li : bits li -> (forall k, In k (keys l) -> 1 <= k <= Z.of_nat nc) -> forall wt, exists b, weight_one l li wt = Ok b /\ (b = true -> wt = 1 \/ exists k, In k (keys l) /\ zget li (k - 1) = Ok 1).
Proof.
  intros B. induction l as [|(k, x) l IH]; intros Hk wt; cbn [weight_one].
  - eexists. split; [reflexivity|]. intros H. left. lia.
  - destruct (bits_get li k B) as (y & Ey & Hy); [apply Hk; left; auto|]. rewrite Ey, bind_Ok. destruct (1 <? wt + y); [eexists; split; [reflexivity|discriminate]|].
    destruct (IH ltac:(intros k0 H0; apply Hk; right; auto) (wt + y)) as (b & -> & Hb). exists b. split; auto. intros Tb. destruct Hy as [->| ->]; [|right; exists k; split; [left; auto|auto]].
    destruct (Hb Tb) as [H|(k0 & H1 & H2)]; [left; lia|right; exists k0; split; [right; auto|auto]].
Qed.
Lemma light_col_ok l li : bits li -> (forall k, In k (keys l) -> 1 <= k <= Z.of_nat nc) -> (exists k, In k (keys l) /\ zget li (k - 1) = Ok 1) -> exists k, light_col l li = Ok k /\ In k (keys l).
Proof.
  intros B. induction l as [|(k, x) l IH]; intros Hk (k0 & H0 & G0); cbn [light_col]; [destruct H0|].
  destruct (bits_get li k B) as (y & Ey & Hy); [apply Hk; left; auto|]. rewrite Ey, bind_Ok. destruct (Z.eqb_spec y 1) as [->|Ny]; [exists k; split; [auto|left; auto]|].
  destruct IH as (k1 & E1 & H1); [intros k1 H1; apply Hk; right; auto| |exists k1; split; [auto|right; auto]]. exists k0. destruct H0 as [<-|H0]; [cbn in G0; rewrite G0 in Ey; injection Ey as <-; lia|auto].
Qed.
Lemma light_row_ok pv st li : core pv st -> bits li -> forall n i, (i + n = nr)%nat -> light_row n (Z.of_nat i) st li = Ok (-1) \/
  exists r, light_row n (Z.of_nat i) st li = Ok (Z.of_nat r) /\ (r < nr)%nat /\ act st r /\ exists k, In k (keys (rw st r)) /\ zget li (k - 1) = Ok 1.
Proof.
  intros K B. induction n as [|n IH]; intros i Hi; cbn [light_row]; auto. rewrite (zget_nat (nil : smap)) by (rewrite (k_nr _ _ _ _ _ _ _ K); lia). fold (rw st i). rewrite bind_Ok.
  destruct (weight_one_ok (rw st i) li B) with (wt := 0) as (b & -> & Hb); [intros k Hk; apply (key_range p V nc _ _ (k_row _ _ _ _ _ _ _ K i) Hk)|]. rewrite bind_Ok. rewrite (zget_nat 0) by (rewrite (k_np _ _ _ _ _ _ _ K); lia). fold (po st i). rewrite bind_Ok.
  destruct b; cbn [andb]; [destruct (Z.eqb_spec (po st i) (-1)) as [A|A]|]; try (replace (Z.of_nat i + 1) with (Z.of_nat (S i)) by lia; apply IH; lia).
  right. exists i. split; auto. split; [lia|]. split; auto. destruct (Hb eq_refl) as [|]; [discriminate|auto].
Qed.
Lemma step4_while pv st li Mx : inv pv st -> Mx <> 0 -> bits li -> exists st', while (step4_body E p Mx) (efuel st) (st, li) = Ok st' /\ exists pv', inv pv' st'.
Proof.
  intros I N0 B. destruct (while_total (step4_body E p Mx) (fun s => (exists q, inv q (fst s)) /\ bits (snd s)) (fun r => exists q, inv q r) (fun s => mu (fst s))) with (n := efuel st) (s := (st, li)) as (r & Er & Hr); auto.
  - intros (s & l) ((q & Iq) & _). cbn [fst]. apply (mu_pos p V nr nc A0 q). apply Iq.
  - clear pv st li I B. intros (st & li) ((pv & I) & B). cbn [fst snd] in *. pose proof (i_core _ _ _ _ _ _ _ _ I) as K. unfold step4_body. change 0 with (Z.of_nat 0). unfold enro. rewrite (k_nr _ _ _ _ _ _ _ K).
    destruct (light_row_ok pv st li K B nr 0 eq_refl) as [->|(r & -> & Lr & Ar & Hl)]; rewrite bind_Ok; [left; exists st; split; [reflexivity|eauto]|]. right.
    destruct (Z.eqb_spec (Z.of_nat r) (-1)) as [Hn|_]; [lia|]. rewrite (zget_nat (nil : smap)) by (rewrite (k_nr _ _ _ _ _ _ _ K); lia). fold (rw st r). rewrite bind_Ok.
    destruct (light_col_ok (rw st r) li B) as (k & -> & Hk); [intros k Hk; apply (key_range p V nc _ _ (k_row _ _ _ _ _ _ _ K r) Hk)|auto|]. rewrite bind_Ok. destruct (has_range p V nr nc A0 pv st r k K Hk) as (c & -> & Lc & Hc).
    destruct (pivot_ok E p V nr nc A0 M nc (fun _ => True) false false Mx pv st r c [] li) as (st' & L' & li' & -> & I' & _ & B' & _); auto; [intros _; exact B|]. rewrite bind_Ok. exists (st', li'). split; [reflexivity|]. cbn [fst snd]. split; [split; [eauto|exact (B' N0)]|].
    rewrite (mu_snoc p V nr nc A0 pv r c st st' K (i_core _ _ _ _ _ _ _ _ I')). lia.
  - cbn [fst snd]. split; [eauto|auto].
  - cbn [fst]. apply (fuel_mu pv). apply I.
  - exists r. auto.
Qed.
Lemma step4_loop_ok n : forall Mx ms pv st, inv pv st -> Mx <= Z.of_nat n -> 1 <= ms -> exists st', step4_loop E p n Mx ms st = Ok st' /\ exists pv', inv pv' st'.
Proof.
  induction n as [|n IH]; intros Mx ms pv st I Hn Hs; cbn [step4_loop]; destruct (Z.ltb_spec Mx 3) as [H3|H3]; try (exists st; split; [reflexivity|eauto]; fail); [lia|]. set (li := map _ (ecols st)).
  destruct (_ || _); [exists st; split; [reflexivity|eauto]|]. destruct (step4_while pv st li Mx I ltac:(lia)) as (st' & -> & pv' & I').
  - split; [unfold li; rewrite map_length; apply I|]. apply Forall_forall. intros x Hx. apply in_map_iff in Hx. destruct Hx as (o & <- & _). unfold isbit. destruct (_ && _); auto.
  - rewrite bind_Ok. apply (IH (Mx - ms) ms pv' st' I'); lia.
Qed.
Lemma step4_ok pv st : inv pv st -> exists st', step4 E p st = Ok st' /\ exists pv', inv pv' st'.
Proof.
  intros I. unfold step4. set (M0 := fold_right Z.max 0 _). assert (0 <= M0) by (unfold M0; generalize (map (fun l => Z.of_nat (onum l)) (ecols st)); intros l; induction l; cbn; lia).
  apply (step4_loop_ok _ _ _ pv); auto; [lia|]. assert (0 <= Z.quot M0 100) by (apply Z.quot_pos; lia). destruct (Z.eqb_spec (Z.quot M0 100) 0); lia.
Qed.
(** ** the loop of standard *)
Lemma min_col_ok cs : forall c mn best, (min_col cs c mn best = best /\ forall d, (d < length cs)%nat -> ~ (0 < Z.of_nat (onum (nth d cs (onew 0))) < mn)) \/
  exists d, (d < length cs)%nat /\ min_col cs c mn best = c + Z.of_nat d /\ (0 < onum (nth d cs (onew 0)))%nat.
Proof.
  induction cs as [|o cs IH]; intros c mn best; cbn [min_col length]; [left; split; [auto|lia]|]. set (w := Z.of_nat (onum o)). destruct (Z.ltb_spec 0 w) as [H0|H0]; cbn [andb]; [destruct (Z.ltb_spec w mn) as [H1|H1]|].
  - right. destruct (IH (c + 1) w c) as [(-> & _)|(d & Ld & -> & Hd)]; [exists 0%nat; cbn; unfold w in H0; lia|exists (S d); cbn; split; [lia|split; [lia|auto]]].
  - destruct (IH (c + 1) mn best) as [(-> & H)|(d & Ld & -> & Hd)]; [left; split; auto; intros [|d] Ld; cbn; [fold w; lia|apply H; lia]|right; exists (S d); cbn; split; [lia|split; [lia|auto]]].
  - destruct (IH (c + 1) mn best) as [(-> & H)|(d & Ld & -> & Hd)]; [left; split; auto; intros [|d] Ld; cbn; [fold w; lia|apply H; lia]|right; exists (S d); cbn; split; [lia|split; [lia|auto]]].
Qed.
Variable below : Z -> Z -> Z -> bool.
Definition stdpost (st : est) (b : bool) : Prop := exists pv, inv pv st /\ (if b then forall i, (i < nr)%nat -> act st i -> rw st i = [] else active_rows st <> [] /\ active_cols st <> []).
Lemma no_weight pv st : inv pv st -> (forall d, (d < nc)%nat -> onum (cl st d) = 0%nat) -> forall i, (i < nr)%nat -> act st i -> rw st i = [].
Proof.
  intros I H i Li A. destruct (rw st i) as [|(k, x) t] eqn:Er; auto. exfalso. pose proof (i_core _ _ _ _ _ _ _ _ I) as K. destruct (has_range p V nr nc A0 pv st i k K) as (c & -> & Lc & Hc); [rewrite Er; left; auto|].
  assert (0 < onum (cl st c))%nat; [|rewrite H in *; auto; lia]. apply (opost_pos _ _ (i_col _ _ _ _ _ _ _ _ I c Lc)). exists (Z.of_nat i). exists i. auto.
Qed.
Lemma standard_while pv st : inv pv st -> exists st' b, while (standard_body E p below) (efuel st) st = Ok (st', b) /\ stdpost st' b.
Proof.
  intros I. destruct (while_total (standard_body E p below) (fun s => exists q, inv q s) (fun r => stdpost (fst r) (snd r)) mu) with (n := efuel st) (s := st) as ((st', b) & Er & Hr); eauto.
  - intros s (q & Iq). apply (mu_pos p V nr nc A0 q). apply Iq.
  - clear pv st I. intros st (pv & I). pose proof (i_core _ _ _ _ _ _ _ _ I) as K. unfold standard_body. destruct (low_density below st) eqn:Ed.
    + destruct (min_col_ok (ecols st) 1 (Z.of_nat (enro st) + 1) (-1)) as [(-> & H)|(d & Ld & -> & Hd)].
      * left. exists (st, true). split; [reflexivity|]. exists pv. cbn [fst snd]. split; [auto|]. apply (no_weight pv); auto. intros d Ld. specialize (H d ltac:(rewrite (i_ncs _ _ _ _ _ _ _ _ I); auto)). fold (cl st d) in H. destruct (i_col _ _ _ _ _ _ _ _ I d Ld) as (l & (Il & Nl & _) & Ml). pose proof (colset_len nr st d l Il (fun y => proj1 (Ml y))). unfold enro in H. rewrite (k_nr _ _ _ _ _ _ _ K) in H. lia.
      * right. rewrite (i_ncs _ _ _ _ _ _ _ _ I) in Ld. destruct (Z.eqb_spec (1 + Z.of_nat d) (-1)) as [Hn|_]; [lia|]. replace (1 + Z.of_nat d) with (ck d) by (unfold ck; lia).
        destruct (first_row_ok p V nr nc A0 pv st d I Ld Hd) as (st1 & r & -> & Lr & Ar & Hh & I1 & R1). rewrite bind_Ok.
        destruct (pivot_ok E p V nr nc A0 M d (fun _ => True) false false 0 pv st1 r d [] []) as (st' & L' & li' & -> & I' & _); auto; [intros Hn; lia|]. rewrite bind_Ok. exists st'. split; [reflexivity|]. split; [eauto|].
        rewrite (mu_snoc p V nr nc A0 pv r d st1 st' (i_core _ _ _ _ _ _ _ _ I1) (i_core _ _ _ _ _ _ _ _ I')), (mu_erow nr st st1 R1). lia.
    + left. exists (st, false). split; [reflexivity|]. exists pv. split; auto. unfold low_density in Ed. cbv zeta in Ed. destruct (_ || _) eqn:Eo; [discriminate|]. apply orb_false_iff in Eo. destruct Eo as (E1 & E2).
      cbn [fst]. split; intros Hn; rewrite Hn in *; cbn in *; discriminate.
  - apply (fuel_mu pv). apply I.
Qed.
End Std.
