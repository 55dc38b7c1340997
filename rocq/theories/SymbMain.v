(** Proofs about SymbModel, continued: contents of the tables, the list of
    special symbols, the numbering. *)
From Coq Require Import ZArith Znumtheory Lia List Bool.
From Verif Require Import Base ArithModel ArithProofs XModModel XModProofs DivisorProofs P1Math SymbModel SymbProofs.
Import ListNotations.
Open Scope Z_scope.

(** ** order of the divisor list: 1 first, N last *)
Lemma pblocks_last p e : forall b, b <> [] -> e <> 0%nat -> forall x, last (pblocks e p b) x = p ^ Z.of_nat e * last b x.
Proof.
  induction e as [|e IH]; intros b Hb He x; [now elim He|]. cbn [pblocks].
  assert (ML : last (map (Z.mul p) b) (p * x) = p * last b x).
  { clear - Hb. induction b as [|y b IH]; [now elim Hb|]. destruct b as [|z b]; [reflexivity|]. change (last (y :: z :: b) x) with (last (z :: b) x).
    rewrite <- IH by discriminate. reflexivity. }
  assert (LD : forall (l : list Z) u v, l <> [] -> last l u = last l v).
  { intros l u v. induction l as [|y l IHl]; [now intros []|]. intros _. destruct l; [reflexivity|]. apply IHl. discriminate. }
  assert (ME : map (Z.mul p) b <> []) by (destruct b; [now elim Hb|discriminate]).
  destruct e as [|e].
  - cbn [pblocks]. rewrite app_nil_r. rewrite (LD _ x (p * x) ME), ML. change (Z.of_nat 1) with 1. now rewrite Z.pow_1_r.
  - assert (PE : pblocks (S e) p (map (Z.mul p) b) <> []).
    { cbn [pblocks]. destruct (map (Z.mul p) b); [now elim ME|discriminate]. }
    assert (LA : forall (l l' : list Z) u, l' <> [] -> last (l ++ l') u = last l' u).
    { intros l l' u Hl. induction l as [|y l IHl]; [reflexivity|]. cbn [app]. destruct (l ++ l') eqn:E2; [|exact IHl].
      apply app_eq_nil in E2. destruct E2 as [_ E2]. now elim Hl. }
    rewrite LA by exact PE. rewrite IH by (auto; discriminate). rewrite (LD _ x (p * x) ME), ML.
    rewrite (Nat2Z.inj_succ (S e)), Z.pow_succ_r by lia. ring.
Qed.
Lemma step_last p e b : b <> [] -> forall x, last (b ++ pblocks e p b) x = p ^ Z.of_nat e * last b x.
Proof.
  intros Hb x. destruct e as [|e]; [cbn [pblocks]; rewrite app_nil_r; change (Z.of_nat 0) with 0; rewrite Z.pow_0_r; lia|].
  rewrite <- (pblocks_last p (S e) b Hb) by discriminate.
  assert (PE : pblocks (S e) p b <> []) by (cbn [pblocks]; destruct b; [now elim Hb|discriminate]).
  revert PE. generalize (pblocks (S e) p b). intros l' Hl. clear - Hl. induction b as [|y l IHl]; [reflexivity|]. cbn [app]. destruct (l ++ l') eqn:E2; [|exact IHl].
  apply app_eq_nil in E2. destruct E2 as [_ E2]. now elim Hl.
Qed.
Lemma pdivs_ends ex ps : forall ds, ds <> [] -> (forall d, In d ds -> (d | last ds 1)) ->
  (exists l, pdivs ex ps ds = ds ++ l) /\ forall d, In d (pdivs ex ps ds) -> (d | last (pdivs ex ps ds) 1).
Proof.
  induction ps as [|p ps IH]; intros ds NE H; cbn [pdivs]; [split; [exists []; now rewrite app_nil_r|exact H]|].
  destruct (IH (ds ++ pblocks (Z.to_nat (ex p)) p ds)) as [(l & E) K].
  - destruct ds; [now elim NE|discriminate].
  - intros d Hd. rewrite step_last by exact NE. apply in_app_iff in Hd. destruct Hd as [Hd|Hd]; [apply Z.divide_mul_r; auto|].
    apply pblocks_In in Hd. destruct Hd as (j & d' & Hj & Hd & ->). apply dvd_mul; [|auto]. exists (p ^ (Z.of_nat (Z.to_nat (ex p)) - j)).
    rewrite <- Z.pow_add_r by lia. f_equal. lia.
  - split; [|exact K]. exists (pblocks (Z.to_nat (ex p)) p ds ++ l). now rewrite E, app_assoc.
Qed.
Lemma posdivs_mid N ps : 1 < N -> sym64 N -> pfull N ps ->
  exists mid, posdivs_long N ps = Ok (1 :: mid ++ [N]) /\ forall d, In d mid <-> 1 < d < N /\ (d | N).
Proof.
  intros H1 HS [HB HF]. destruct HB as (ND & HP & HD).
  assert (PB : prime_base N ps) by (split; [auto|split; auto]).
  assert (SP : Forall sym64 ps).
  { rewrite Forall_forall in *. intros p Hp. specialize (HD p Hp). specialize (HP p Hp). apply Z.divide_pos_le in HD; [|lia]. destruct HP. unfold sym64 in *. lia. }
  assert (N0 : N <> 0) by lia.
  pose proof (posdivs_pure N N0 ps PB) as L. set (l := pdivs (vex N) ps [1]) in *.
  assert (E : posdivs_long N ps = Ok l).
  { destruct (posdivs_long_ok N N0 ps PB HS SP) as (l0 & E0 & L0). unfold l. rewrite E0. f_equal.
    clear - E0 N0 PB HS SP. unfold posdivs_long in E0. rewrite (divs_pure _ (vex N)) in E0; [inversion E0; reflexivity| |].
    - intros p I. now apply (vex_long N N0 ps PB HS SP).
    - intros d I. apply (posdivs_pure N N0 ps PB) in I. destruct I as [_ D]. apply (in64_div N N0 HS d D). }
  destruct L as [LN LI]. destruct (pdivs_ends (vex N) ps [1]) as [(l' & E1) E2]; [discriminate|intros d [<-|[]]; apply Z.divide_refl|]. fold l in E1, E2. clearbody l.
  assert (IN : In N l) by (apply LI; split; [lia|apply Z.divide_refl]).
  assert (LL : last l 1 = N).
  { assert (I : In (last l 1) l). { destruct (exists_last (l := l)) as (l0 & x & ->); [rewrite E1; discriminate|]. rewrite last_last. apply in_or_app. right. now left. }
    apply LI in I. destruct I as [I1 I2]. specialize (E2 N IN). apply Z.divide_antisym_nonneg; auto; lia. }
  cbn [app] in E1. destruct l' as [|y l'].
  { rewrite E1 in LL. cbn in LL. lia. }
  destruct (exists_last (l := y :: l')) as (mid & x & EM); [discriminate|]. rewrite EM in E1.
  assert (x = N). { rewrite E1 in LL. change (1 :: mid ++ [x]) with ((1 :: mid) ++ [x]) in LL. now rewrite last_last in LL. }
  subst x. exists mid. split; [now rewrite E, E1|].
  intros d. rewrite E1 in LN, LI. apply NoDup_cons_iff in LN. destruct LN as [NI ND2]. apply NoDup_remove in ND2. rewrite app_nil_r in ND2. destruct ND2 as [_ ND2]. split.
  - intros I. assert (I' : In d (1 :: mid ++ [N])) by (right; apply in_or_app; now left). apply LI in I'. destruct I' as [P D].
    assert (d <= N) by (apply Z.divide_pos_le; [lia|auto]). assert (d <> N) by (intros ->; contradiction).
    assert (d <> 1) by (intros ->; apply NI; apply in_or_app; now left). split; [lia|auto].
  - intros [B D]. assert (I : In d (1 :: mid ++ [N])) by (apply LI; split; [lia|auto]). destruct I as [I|I]; [lia|]. apply in_app_iff in I. destruct I as [I|[I|[]]]; [auto|lia].
Qed.
Lemma find_div_ok d l : forall k, In d l -> k <= find_div d l k < k + Z.of_nat (length l).
Proof.
  induction l as [|e l IH]; intros k; [intros []|]. intros I. cbn [find_div length]. destruct (Z.eqb_spec e d); [lia|].
  destruct I as [I|I]; [contradiction|]. specialize (IH (k + 1) I). lia.
Qed.

(** ** the tables *)
Section Tables.
Variables (N : Z) (ps dl : list Z).
Hypothesis N1 : 1 < N.
Hypothesis NN : N * N <= max64.
Hypothesis HF : pfull N ps.
Definition noninv (n : Z) : list Z := filter (fun z => negb (Z.gcd z N =? 1)) (zr n).
Definition rank (i : Z) : Z := Z.of_nat (length (noninv i)).
Lemma in_noninv n z : In z (noninv n) <-> 0 <= z < n /\ Z.gcd z N <> 1.
Proof. unfold noninv. rewrite filter_In, in_zr. destruct (Z.eqb_spec (Z.gcd z N) 1); cbn [negb]; intuition congruence. Qed.
Lemma noninv_S n : 0 <= n -> noninv (n + 1) = noninv n ++ (if Z.gcd n N =? 1 then [] else [n]).
Proof. intros H. unfold noninv. rewrite zr_S, filter_app by auto. f_equal. cbn [filter]. now destruct (Z.gcd n N =? 1). Qed.
Lemma noninv_app n m : 0 <= n <= m -> exists l, noninv m = noninv n ++ l.
Proof. intros H. unfold noninv. rewrite (zr_app n m H), filter_app. eauto. Qed.
Lemma noninv_len : Z.of_nat (length (noninv N)) = N - phi_of ps N.
Proof.
  pose proof (units_len N ps ltac:(lia) HF) as U. unfold units in U.
  pose proof (filter_split (fun _ => true) (good ps) (zr N)) as F. cbn [andb] in F.
  replace (filter (fun _ => true) (zr N)) with (zr N) in F by (clear; induction (zr N) as [|x l IH]; cbn [filter]; congruence).
  rewrite zr_length in F. replace (noninv N) with (filter (fun x => negb (good ps x)) (zr N)).
  - change (fun x => good ps x) with (good ps) in F. lia.
  - unfold noninv. apply filter_ext. intros z. f_equal. apply eq_true_iff_eq. rewrite Z.eqb_eq. apply good_unit; [lia|exact HF].
Qed.
Lemma rank_lt i : 0 <= i < N -> Z.gcd i N <> 1 -> rank i < N - phi_of ps N.
Proof.
  intros H G. rewrite <- noninv_len. destruct (noninv_app (i + 1) N) as (l & ->); [lia|]. rewrite noninv_S by lia.
  destruct (Z.eqb_spec (Z.gcd i N) 1); [contradiction|]. unfold rank. rewrite !app_length. cbn [length]. lia.
Qed.
Lemma rank_nth i : 0 <= i < N -> Z.gcd i N <> 1 -> nth_error (noninv N) (Z.to_nat (rank i)) = Some i.
Proof.
  intros H G. destruct (noninv_app (i + 1) N) as (l & ->); [lia|]. rewrite noninv_S by lia.
  destruct (Z.eqb_spec (Z.gcd i N) 1); [contradiction|]. unfold rank. rewrite Nat2Z.id, <- app_assoc, nth_error_app2 by lia. now rewrite Nat.sub_diag.
Qed.
Definition inv_ok (i r : Z) : Prop := (Z.gcd i N = 1 -> 0 < r < N /\ (N | i * r - 1)) /\ (Z.gcd i N <> 1 -> r = - rank i).
Definition ud_ok (i u : Z) : Prop := Z.abs u <= N /\ Z.gcd u N = 1 /\ (N | i * u - Z.gcd i N).
Definition nd_of (i : Z) : Z := if Z.gcd i N <? N then find_div (Z.gcd i N) dl 0 else -1.
Definition tab_inv (n : Z) (T : tables) : Prop :=
  Forall2 inv_ok (zr n) (invlist T) /\ noninvlist T = noninv n /\ noninvdlist T = map nd_of (noninv n) /\
  gcdtable T = map (fun i => Z.gcd i N) (zr n) /\ Forall2 ud_ok (zr n) (unitdivlist T).
Lemma md_round_ok n T : 0 <= n < N -> tab_inv n T -> exists T', md_round N (phi_of ps N) dl n T = Ok T' /\ tab_inv (n + 1) T'.
Proof.
  intros Hn (I1 & I2 & I3 & I4 & I5). pose proof (Nsym N N1 NN) as SN. unfold md_round.
  destruct (bezout_x_ok n N) as (x & y & -> & BE & BX); [unfold sym64 in *; lia|auto|]. rewrite bind_Ok.
  assert (BX' : Z.abs x <= N) by lia. unfold tab_inv. rewrite zr_S, noninv_S by lia.
  destruct (Z.eqb_spec (Z.gcd n N) 1) as [G|G].
  - rewrite (reduce_ok N N1 NN) by (clear - BX' NN N1; u64; nia). rewrite bind_Ok.
    assert (DX : (N | n * (x mod N) - 1)).
    { rewrite Z.mod_eq by lia. exists (- y - n * (x / N)). rewrite <- G, <- BE at 1. ring. }
    pose proof (Z.mod_pos_bound x N ltac:(lia)) as MB.
    assert (GX : Z.gcd (x mod N) N = 1). { apply gcd1_bez. exists n. now rewrite Z.mul_comm. }
    assert (MP : x mod N <> 0). { intros K. rewrite K, Z.gcd_0_l in GX. lia. }
    eexists. split; [reflexivity|]. cbn [invlist noninvlist noninvdlist gcdtable unitdivlist]. rewrite !app_nil_r, map_app. cbn [map]. repeat split; try (now rewrite ?I4); auto.
    + apply Forall2_app; [auto|]. constructor; [|constructor]. split; [intros _; split; [lia|exact DX]|intros; contradiction].
    + apply Forall2_app; [auto|]. constructor; [|constructor]. split; [lia|]. split; [auto|]. rewrite G. exact DX.
  - pose proof (rank_lt n Hn G) as RL. unfold rank in RL. rewrite I2. destruct (Z.ltb_spec (Z.of_nat (length (noninv n))) (N - phi_of ps N)); [|lia].
    rewrite gcd_long_ok; [|unfold sym64 in *; lia|auto]. rewrite bind_Ok.
    assert (DX : (N | n * x - Z.gcd n N)) by (exists (- y); rewrite <- BE at 1; ring).
    assert (AX : exists x', (if negb (Z.gcd x N =? 1) then adjust N (Z.gcd n N) x else Ok x) = Ok x' /\ ud_ok n x').
    { destruct (Z.eqb_spec (Z.gcd x N) 1) as [GX|GX]; cbn [negb].
      - exists x. split; [reflexivity|]. split; [lia|]. split; auto.
      - destruct (adjust_ok N N1 NN n (Z.gcd n N) x eq_refl DX BX') as (x' & E & B & GG & D). exists x'. split; [exact E|]. split; [lia|]. split; auto. }
    destruct AX as (x' & -> & UD). rewrite bind_Ok. eexists. split; [reflexivity|]. cbn [invlist noninvlist noninvdlist gcdtable unitdivlist].
    rewrite !map_app. cbn [map]. repeat split.
    + apply Forall2_app; [auto|]. constructor; [|constructor]. split; [intros; contradiction|]. reflexivity.
    + now rewrite I3.
    + now rewrite I4.
    + apply Forall2_app; [auto|]. constructor; [exact UD|constructor].
Qed.
Lemma md_loop_app ph l i T : md_loop N ph dl (l ++ [i]) T = bind (md_loop N ph dl l T) (md_round N ph dl i).
Proof.
  revert T. induction l as [|j l IH]; intros T; cbn [app md_loop].
  - rewrite bind_Ok. destruct (md_round N ph dl i T); reflexivity.
  - destruct (md_round N ph dl j T); [|reflexivity..]. rewrite !bind_Ok. apply IH.
Qed.
Lemma md_loop_ok : exists T, md_loop N (phi_of ps N) dl (zr N) (Tb [] [] [] [] []) = Ok T /\ tab_inv N T.
Proof.
  assert (G : forall n, 0 <= n -> n <= N -> exists T, md_loop N (phi_of ps N) dl (zr n) (Tb [] [] [] [] []) = Ok T /\ tab_inv n T).
  { intros n Hn. pattern n. apply natlike_ind; [| |exact Hn].
    - intros _. eexists. split; [reflexivity|]. repeat split; constructor.
    - clear n Hn. intros n Hn IH HL. destruct (IH ltac:(lia)) as (T & E & I). destruct (md_round_ok n T ltac:(lia) I) as (T' & E' & I').
      exists T'. change (Z.succ n) with (n + 1). rewrite zr_S, md_loop_app, E by lia. rewrite bind_Ok. split; auto. }
  apply G; lia.
Qed.
End Tables.
