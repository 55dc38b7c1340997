(** Proofs about SymbModel, concluded: the list of special symbols and the
    numbering of all M-symbols. *)
From Coq Require Import ZArith Znumtheory Lia List Bool.
From Verif Require Import Base ArithModel ArithProofs XModModel XModProofs DivisorProofs P1Math SymbModel SymbProofs SymbMain.
Import ListNotations.
Open Scope Z_scope.

(** ** pairwise conditions *)
Lemma FOP_app {A} (P : A -> A -> Prop) l l' : ForallOrdPairs P l -> ForallOrdPairs P l' -> (forall x y, In x l -> In y l' -> P x y) -> ForallOrdPairs P (l ++ l').
Proof.
  intros H H' C. induction H as [|x l H1 H2 IH]; [exact H'|]. cbn [app]. constructor.
  - apply Forall_app. split; [exact H1|]. rewrite Forall_forall. intros y Hy. apply C; [now left|auto].
  - apply IH. intros y z Hy Hz. apply C; [now right|auto].
Qed.
Lemma FOP_of {A} (P : A -> A -> Prop) l : (forall i j x y, nth_error l i = Some x -> nth_error l j = Some y -> (i < j)%nat -> P x y) -> ForallOrdPairs P l.
Proof.
  induction l as [|x l IH]; intros H; constructor.
  - rewrite Forall_forall. intros y Hy. apply In_nth_error in Hy. destruct Hy as (k & Hk). apply (H 0%nat (S k)); [reflexivity|exact Hk|lia].
  - apply IH. intros i j u v Hi Hj L. apply (H (S i) (S j)); [exact Hi|exact Hj|lia].
Qed.
Lemma FOP_nth {A} (P : A -> A -> Prop) l : ForallOrdPairs P l -> forall i j x y, nth_error l i = Some x -> nth_error l j = Some y -> (i < j)%nat -> P x y.
Proof.
  intros H. induction H as [|z l H1 H2 IH]; intros i j x y Hi Hj L.
  - destruct i; discriminate.
  - destruct i, j; try lia; cbn [nth_error] in *.
    + inversion Hi; subst. rewrite Forall_forall in H1. apply H1. eapply nth_error_In; eauto.
    + apply (IH i j); auto. lia.
Qed.
Lemma in_mod a b N : 0 < N -> (N | a - b) -> a mod N = b mod N.
Proof. intros H [k E]. replace a with (b + k * N) by lia. apply Z.mod_add. lia. Qed.

Lemma filter_length_le {A} (f : A -> bool) l : (length (filter f l) <= length l)%nat.
Proof. induction l as [|x l IH]; cbn [filter length]; [lia|]. destruct (f x); cbn [length]; lia. Qed.

Section Main.
Variables (N : Z) (ps mid : list Z).
Hypothesis N1 : 1 < N.
Hypothesis NN : N * N <= max64.
Hypothesis HF : pfull N ps.
Hypothesis HM : forall d, In d mid <-> 1 < d < N /\ (d | N).
Notation dl := (1 :: mid ++ [N]).
Variable T : tables.
Hypothesis HT : tab_inv N dl N T.
Notation M := (Md N dl (phi_of ps N) (psi_of ps N) (psi_of ps N) (2 * N - phi_of ps N) (psi_of ps N - (2 * N - phi_of ps N)) T).

Definition bnd (z : Z) : Prop := Z.abs z * N <= max64.
Lemma bnd64 z : bnd z -> in64 z.
Proof. unfold bnd. intros H. assert (Z.abs z <= Z.abs z * N) by nia. u64. lia. Qed.
Lemma bndN z : Z.abs z <= N -> bnd z.
Proof. intros H. unfold bnd. apply (Z.le_trans _ (N * N)); [|exact NN]. apply Z.mul_le_mono_nonneg_r; lia. Qed.
Lemma gcd_mod z : Z.gcd (z mod N) N = Z.gcd z N.
Proof. apply gcd_cong. apply mod_dvd. lia. Qed.
Lemma code_ok z : in64 z -> exists k, code M z = Ok k /\ inv_ok N (z mod N) k.
Proof.
  intros H. unfold code. cbn [modulus tabs]. rewrite (reduce_ok N N1 NN z H), bind_Ok. destruct HT as (I1 & _).
  apply (vget_F2 _ N); [exact I1|]. apply Z.mod_pos_bound. lia.
Qed.
Lemma unitdiv_ok z : in64 z -> exists u, unitdiv M z = Ok u /\ Z.abs u <= N /\ Z.gcd u N = 1 /\ (N | z * u - Z.gcd z N).
Proof.
  intros H. unfold unitdiv. cbn [modulus tabs]. rewrite (reduce_ok N N1 NN z H), bind_Ok. destruct HT as (_ & _ & _ & _ & I5).
  destruct (vget_F2 _ N _ (z mod N) I5) as (u & E & B & G & D); [apply Z.mod_pos_bound; lia|]. exists u. split; [exact E|]. split; [exact B|]. split; [exact G|].
  rewrite gcd_mod in D. replace (z * u - Z.gcd z N) with ((z mod N * u - Z.gcd z N) - (z mod N - z) * u) by ring.
  apply Z.divide_sub_r; [exact D|]. apply Z.divide_mul_l. apply mod_dvd. lia.
Qed.
Lemma gcdN_pos c : 0 < Z.gcd c N.
Proof. pose proof (Z.gcd_nonneg c N). assert (Z.gcd c N <> 0) by (intros K; apply Z.gcd_eq_0_r in K; lia). lia. Qed.
Lemma gcdN_lt c : ~ (N | c) -> Z.gcd c N < N.
Proof.
  intros H. pose proof (Z.gcd_divide_r c N) as D. assert (L : Z.gcd c N <= N) by (apply Z.divide_pos_le; [lia|exact D]). assert (Z.gcd c N <> N); [|lia].
  intros K. apply H. rewrite <- K. apply Z.gcd_divide_l.
Qed.
Lemma Ndiv g : 0 < g -> (g | N) -> N = g * (N / g) /\ 0 < N / g.
Proof.
  intros G D. assert (g <= N) by (apply Z.divide_pos_le; [lia|auto]). split; [|apply Z.div_str_pos; lia].
  apply Z_div_exact_full_2; [lia|]. apply Z.mod_divide; [lia|auto].
Qed.
Definition norm_of (c d u : Z) : Prop := Z.gcd u N = 1 /\ (N | c * u - Z.gcd c N).
Lemma normalize_ok c d : bnd c -> bnd d -> ~ (N | c) ->
  exists u, norm_of c d u /\ normalize M (c, d) = Ok (Z.gcd c N, (d * u) mod (N / Z.gcd c N)).
Proof.
  intros Bc Bd NC. unfold normalize. destruct (unitdiv_ok c (bnd64 c Bc)) as (u & -> & Bu & G & D). exists u. split; [split; auto|].
  rewrite bind_Ok. cbn [modulus]. pose proof (gcdN_pos c) as G0. pose proof (gcdN_lt c NC) as G1. set (g := Z.gcd c N) in *.
  assert (P64 : forall z, bnd z -> in64 (z * u)).
  { intros z Bz. unfold bnd in Bz. assert (Z.abs (z * u) <= Z.abs z * N) by (rewrite Z.abs_mul; apply Z.mul_le_mono_nonneg_l; lia). u64. lia. }
  pose proof (N64 N N1 NN) as K64.
  destruct (xmodmul_long_ok c u N) as (r & -> & Br & Dr); [lia|auto|auto|]. rewrite bind_Ok.
  assert (R64 : forall z, Z.abs z < N -> in64 z) by (intros z Hz; clear - Hz K64; u64; lia).
  rewrite (reduce_ok N N1 NN) by (apply R64; lia). rewrite bind_Ok.
  assert (RG : r mod N = g).
  { rewrite (in_mod r g) by (try lia; replace (r - g) with ((r - c * u) + (c * u - g)) by ring; now apply Z.divide_add_r). apply Z.mod_small. lia. }
  rewrite RG.
  destruct (xmodmul_long_ok d u N) as (e & -> & Be & De); [lia|auto|auto|]. rewrite bind_Ok.
  rewrite (reduce_ok N N1 NN) by (apply R64; lia). rewrite bind_Ok.
  rewrite quot64_ok by (auto; lia). rewrite bind_Ok, Z.quot_div_nonneg by lia.
  assert (DG : (g | N)) by apply Z.gcd_divide_r. destruct (Ndiv g G0 DG) as [NE NP].
  pose proof (Z.mod_pos_bound e N ltac:(lia)) as MB.
  rewrite rem64_ok by (try lia; apply R64; lia). rewrite bind_Ok. rewrite Z.rem_mod_nonneg by lia. do 2 f_equal.
  rewrite (in_mod e (d * u) N) by (auto; lia). apply in_mod; [exact NP|]. apply (Z.divide_trans _ N); [exists g; exact NE|]. apply mod_dvd. lia.
Qed.
Lemma norm_sim c d u : norm_of c d u -> sim N (c, d) (Z.gcd c N, d * u).
Proof. intros [G D]. exists u. split; [exact G|]. cbn [fst snd]. split; [|exists 0; ring]. apply Z.divide_opp_r. replace (- (Z.gcd c N - u * c)) with (c * u - Z.gcd c N) by ring. exact D. Qed.
Lemma gcd_unit_mul t c : Z.gcd t N = 1 -> Z.gcd (t * c) N = Z.gcd c N.
Proof.
  intros G. apply Z.divide_antisym_nonneg; try apply Z.gcd_nonneg; apply Z.gcd_greatest; try apply Z.gcd_divide_r.
  - apply (Z.gauss _ t); [apply Z.gcd_divide_l|]. set (h := Z.gcd (t * c) N).
    assert (D : (Z.gcd h t | 1)). { rewrite <- G. apply Z.gcd_greatest; [apply Z.gcd_divide_r|]. apply (Z.divide_trans _ h); [apply Z.gcd_divide_l|apply Z.gcd_divide_r]. }
    apply Z.divide_1_r_nonneg in D; [exact D|apply Z.gcd_nonneg].
  - apply Z.divide_mul_r, Z.gcd_divide_l.
Qed.
Lemma sim_gcd s s' : sim N s s' -> Z.gcd (fst s') N = Z.gcd (fst s) N /\ Z.gcd (snd s') N = Z.gcd (snd s) N.
Proof. intros (t & G & D1 & D2). split; [rewrite <- (gcd_unit_mul t (fst s) G)|rewrite <- (gcd_unit_mul t (snd s) G)]; now apply gcd_cong. Qed.
Lemma key_sim c d u c' d' u' : norm_of c d u -> norm_of c' d' u' -> unimod N c d -> unimod N c' d' ->
  ((Z.gcd c N, (d * u) mod (N / Z.gcd c N)) = (Z.gcd c' N, (d' * u') mod (N / Z.gcd c' N)) <-> sim N (c, d) (c', d')).
Proof.
  intros H H' U U'. pose proof (norm_sim c d u H) as S1. pose proof (norm_sim c' d' u' H') as S2.
  pose proof (gcdN_pos c) as G0. destruct (Ndiv (Z.gcd c N) G0 (Z.gcd_divide_r c N)) as [NE NP]. split.
  - intros E. injection E as E1 E2. rewrite <- E1 in E2. apply (sim_trans N _ _ _ S1). apply (sim_trans N _ (Z.gcd c' N, d' * u')); [|now apply sim_sym].
    apply cross_sim; [exact (unimod_sim N _ _ S1 U)|exact (unimod_sim N _ _ S2 U')|].
    unfold cross. cbn [fst snd]. rewrite <- E1. set (g := Z.gcd c N) in *.
    assert (D : (N / g | d' * u' - d * u)).
    { apply Z.mod_divide; [lia|]. rewrite Zminus_mod, E2, Z.sub_diag. apply Z.mod_0_l. lia. }
    rewrite NE at 1. replace (g * (d' * u') - g * (d * u)) with (g * (d' * u' - d * u)) by ring. now apply Z.mul_divide_mono_l.
  - intros E. destruct (sim_gcd _ _ E) as [E1 _]. cbn [fst] in E1. rewrite E1. f_equal.
    assert (S3 : sim N (Z.gcd c N, d * u) (Z.gcd c' N, d' * u')) by (apply (sim_trans N _ (c, d)); [now apply sim_sym|]; now apply (sim_trans N _ (c', d'))).
    apply sim_cross in S3. unfold cross in S3. cbn [fst snd] in S3. rewrite E1 in S3. set (g := Z.gcd c N) in *. symmetry. apply in_mod; [exact NP|].
    rewrite NE in S3 at 1. replace (g * (d' * u') - g * (d * u)) with (g * (d' * u' - d * u)) in S3 by ring. apply Z.mul_divide_cancel_l in S3; [exact S3|lia].
Qed.

(** ** the list of special symbols *)
Definition special (s : Z * Z) : Prop := (1 < fst s < N /\ (fst s | N)) /\ Z.gcd (snd s) (fst s) = 1 /\ 0 <= snd s < N /\ Z.gcd (snd s) N <> 1.
Definition key (s : Z * Z) : Z * Z := (fst s, snd s mod (N / fst s)).
Lemma special_gcd s : special s -> Z.gcd (fst s) N = fst s.
Proof. intros ((B & D) & _). apply Z.divide_gcd_iff; [lia|exact D]. Qed.
Lemma special_unimod s : special s -> unimod N (fst s) (snd s).
Proof. intros (_ & G & _). unfold unimod. rewrite (Z.gcd_comm (fst s)), G. apply Z.gcd_1_l. Qed.
Lemma special_norm s : special s -> norm_of (fst s) (snd s) 1 /\ key s = (Z.gcd (fst s) N, (snd s * 1) mod (N / Z.gcd (fst s) N)).
Proof.
  intros H. unfold norm_of, key. rewrite (special_gcd s H), !Z.mul_1_r. split; [|reflexivity]. split; [apply Z.gcd_1_l|]. exists 0. ring.
Qed.
Lemma special_ndiv s : special s -> ~ (N | fst s).
Proof. intros ((B & _) & _) D. apply Z.divide_pos_le in D; lia. Qed.
Lemma key_sim_sp s c d u : special s -> norm_of c d u -> unimod N c d ->
  (key s = (Z.gcd c N, (d * u) mod (N / Z.gcd c N)) <-> sim N s (c, d)).
Proof.
  intros S H U. destruct (special_norm s S) as [H0 ->]. pose proof (special_unimod s S) as U0. destruct s as [c0 d0]. cbn [fst snd] in *. now apply key_sim.
Qed.
Lemma key_sim2 s s' : special s -> special s' -> (key s = key s' <-> sim N s s').
Proof.
  intros S S'. destruct (special_norm s' S') as [H0 ->]. pose proof (special_unimod s' S') as U0. destruct s' as [c0 d0]. cbn [fst snd] in *. now apply key_sim_sp.
Qed.
Definition sl_inv (SL : symblist) : Prop :=
  Forall special (items SL) /\
  forall k v, lookup k (hash SL) = Some v <-> exists s, 0 <= v /\ nth_error (items SL) (Z.to_nat v) = Some s /\ key s = k.
Lemma sl_index_ok SL c d : sl_inv SL -> bnd c -> bnd d -> ~ (N | c) -> unimod N c d ->
  exists i, sl_index M SL (c, d) = Ok i /\
    ((i = -1 /\ forall s, In s (items SL) -> ~ sim N s (c, d)) \/ (0 <= i /\ exists s, nth_error (items SL) (Z.to_nat i) = Some s /\ sim N s (c, d))).
Proof.
  intros [I1 I2] Bc Bd ND U. unfold sl_index. destruct (normalize_ok c d Bc Bd ND) as (u & HU & ->). rewrite bind_Ok. rewrite Forall_forall in I1.
  destruct (lookup _ (hash SL)) as [v|] eqn:E.
  - exists v. split; [reflexivity|]. right. apply I2 in E. destruct E as (s & V & Hs & K). split; [exact V|]. exists s. split; [exact Hs|].
    apply (key_sim_sp s c d u); auto. apply I1. eapply nth_error_In; eauto.
  - exists (-1). split; [reflexivity|]. left. split; [reflexivity|]. intros s Hs K. apply (key_sim_sp s c d u) in K; auto.
    destruct (In_nth_error _ _ Hs) as (j & Hj). assert (L : lookup (key s) (hash SL) = Some (Z.of_nat j)).
    { apply I2. exists s. split; [lia|]. rewrite Nat2Z.id. auto. }
    rewrite K in L. congruence.
Qed.
Lemma pair_eqb (k k' : Z * Z) : (fst k =? fst k') && (snd k =? snd k') = true <-> k = k'.
Proof. destruct k, k'. cbn [fst snd]. rewrite andb_true_iff, !Z.eqb_eq. split; [intros [-> ->]; reflexivity|intros E; inversion E; auto]. Qed.
Lemma special_bnd s : special s -> bnd (fst s) /\ bnd (snd s).
Proof. intros ((B & _) & _ & B2 & _). split; apply bndN; lia. Qed.
Lemma sl_add_ok SL s : sl_inv SL -> special s ->
  exists SL' l, sl_add M SL s = Ok SL' /\ sl_inv SL' /\ items SL' = items SL ++ l /\ (count SL < nsymb2 M -> exists r, In r (items SL') /\ sim N r s).
Proof.
  intros I S. destruct (special_bnd s S) as [B1 B2]. pose proof (special_ndiv s S) as ND. pose proof (special_unimod s S) as U.
  unfold sl_add. destruct s as [c d]. cbn [fst snd] in *.
  destruct (sl_index_ok SL c d I B1 B2 ND U) as (i & -> & K). rewrite bind_Ok. destruct (Z.eqb_spec i (-1)) as [Ei|Ei].
  - destruct K as [[_ K]|[K _]]; [|lia]. destruct (Z.ltb_spec (count SL) (nsymb2 M)) as [L|L].
    + pose proof S as ((Bc & Dc) & _ & Bd & _). cbn [fst snd] in Bc, Dc, Bd. pose proof (N64 N N1 NN) as K64. cbn [modulus].
      rewrite quot64_ok by (auto; lia). rewrite bind_Ok, Z.quot_div_nonneg by lia. destruct (Ndiv c ltac:(lia) Dc) as [NE NP].
      assert (NL : N / c <= N) by (apply Z.div_le_upper_bound; nia).
      rewrite posmod_long_ok; [|apply bnd64; auto|clear - K64 NP NL; u64; lia|exact NP]. rewrite bind_Ok.
      exists (Sl (items SL ++ [(c, d)]) (((c, d mod (N / c)), count SL) :: hash SL)), [(c, d)]. split; [reflexivity|]. cbn [items hash].
      split; [|split; [reflexivity|intros _; exists (c, d); split; [apply in_or_app; right; now left|apply sim_refl]]].
      destruct I as [I1 I2]. split; [apply Forall_app; split; [auto|now constructor]|]. cbn [items hash]. intros k v. cbn [lookup fst snd].
      change c with (fst (c, d mod (N / c))) at 1. change (d mod (N / c)) with (snd (c, d mod (N / c))) at 2.
      destruct ((fst k =? fst (c, d mod (N / c))) && (snd k =? snd (c, d mod (N / c)))) eqn:EK.
      * apply pair_eqb in EK. subst k. change (c, d mod (N / c)) with (key (c, d)). split.
        -- intros E. injection E as <-. exists (c, d). unfold count. rewrite Nat2Z.id. split; [lia|]. split; [|reflexivity]. rewrite nth_error_app2 by lia. now rewrite Nat.sub_diag.
        -- intros (s & V & Hs & Ks). f_equal. unfold count. destruct (Nat.lt_ge_cases (Z.to_nat v) (length (items SL))) as [Lt|Ge].
           ++ rewrite nth_error_app1 in Hs by auto. exfalso. rewrite Forall_forall in I1. assert (In s (items SL)) as HI by (eapply nth_error_In; eauto).
              apply (K s HI). apply key_sim2; auto.
           ++ rewrite nth_error_app2 in Hs by auto. destruct (Z.to_nat v - length (items SL))%nat as [|[|?]] eqn:EE; cbn [nth_error] in Hs; try discriminate. lia.
      * split.
        -- intros E. apply I2 in E. destruct E as (s & V & Hs & Ks). exists s. split; [auto|]. split; [|auto]. apply nth_error_Some in Hs as Hl || idtac.
           rewrite nth_error_app1; [auto|]. apply nth_error_Some. congruence.
        -- intros (s & V & Hs & Ks). apply I2. destruct (Nat.lt_ge_cases (Z.to_nat v) (length (items SL))) as [Lt|Ge].
           ++ rewrite nth_error_app1 in Hs by auto. eauto.
           ++ rewrite nth_error_app2 in Hs by auto. destruct (Z.to_nat v - length (items SL))%nat as [|[|?]] eqn:EE; cbn [nth_error] in Hs; try discriminate.
              injection Hs as <-. exfalso. subst k. unfold key in EK. cbn [fst snd] in EK. rewrite !Z.eqb_refl in EK. discriminate.
    + exists SL, []. rewrite app_nil_r. split; [reflexivity|]. split; [auto|]. split; [auto|]. intros; lia.
  - destruct K as [[K _]|[_ (s & Hs & K)]]; [contradiction|]. exists SL, []. rewrite app_nil_r. split; [reflexivity|]. split; [auto|]. split; [auto|].
    intros _. exists s. split; [eapply nth_error_In; eauto|auto].
Qed.
Lemma sd_inner_ok c ds : In c mid -> (forall d, In d ds -> In d (noninv N N)) -> forall SL, sl_inv SL ->
  exists SL' l, sd_inner M c ds SL = Ok SL' /\ sl_inv SL' /\ items SL' = items SL ++ l /\
    (count SL' < nsymb2 M -> forall d, In d ds -> Z.gcd d c = 1 -> exists r, In r (items SL') /\ sim N r (c, d)).
Proof.
  intros Hc. apply HM in Hc. induction ds as [|d ds IH]; intros Hd SL I; cbn [sd_inner].
  - exists SL, []. rewrite app_nil_r. repeat split; auto; try apply I. intros _ d [].
  - destruct (Z.ltb_spec (count SL) (nsymb2 M)) as [L|L].
    + assert (HI : In d (noninv N N)) by (apply Hd; now left). apply in_noninv in HI. destruct HI as [Bd Gd].
      pose proof (Nsym N N1 NN) as SN. unfold sym64 in SN. rewrite gcd_long_ok by (unfold sym64; lia). rewrite bind_Ok.
      assert (H1 : exists SL1 l, (if Z.gcd d c =? 1 then sl_add M SL (c, d) else Ok SL) = Ok SL1 /\ sl_inv SL1 /\ items SL1 = items SL ++ l /\
        (Z.gcd d c = 1 -> exists r, In r (items SL1) /\ sim N r (c, d))).
      { destruct (Z.eqb_spec (Z.gcd d c) 1) as [G|G].
        - destruct (sl_add_ok SL (c, d) I) as (SL1 & l & E & I1 & X & R). { split; [exact Hc|]. cbn [fst snd]. repeat split; auto; lia. }
          exists SL1, l. split; [exact E|]. split; [exact I1|]. split; [exact X|]. intros _. apply R, L.
        - exists SL, []. rewrite app_nil_r. repeat split; auto; try apply I. intros; contradiction. }
      destruct H1 as (SL1 & l1 & -> & I1 & X1 & R1). rewrite bind_Ok.
      destruct (IH (fun d H => Hd d (or_intror H)) SL1 I1) as (SL2 & l2 & E2 & I2 & X2 & R2).
      exists SL2, (l1 ++ l2). split; [exact E2|]. split; [exact I2|]. split; [now rewrite X2, X1, app_assoc|].
      intros L2 d' [<-|Hd'] G; [|apply R2; auto]. destruct (R1 G) as (r & Hr & Sr). exists r. split; [rewrite X2; apply in_or_app; now left|exact Sr].
    + exists SL, []. rewrite app_nil_r. repeat split; auto; try apply I. intros; lia.
Qed.
Lemma sd_outer_ok cs : (forall c, In c cs -> In c mid) -> forall SL, sl_inv SL ->
  exists SL' l, sd_outer M cs SL = Ok SL' /\ sl_inv SL' /\ items SL' = items SL ++ l /\
    (count SL' < nsymb2 M -> forall c d, In c cs -> In d (tl (noninv N N)) -> Z.gcd d c = 1 -> exists r, In r (items SL') /\ sim N r (c, d)).
Proof.
  induction cs as [|c cs IH]; intros Hc SL I; cbn [sd_outer].
  - exists SL, []. rewrite app_nil_r. repeat split; auto; try apply I. intros _ c d [].
  - destruct (Z.ltb_spec (count SL) (nsymb2 M)) as [L|L].
    + cbn [tabs]. destruct HT as (_ & EN & _). rewrite EN.
      destruct (sd_inner_ok c (tl (noninv N N))) with (SL := SL) as (SL1 & l1 & -> & I1 & X1 & R1); [apply Hc; now left| |exact I|].
      { intros d Hd. destruct (noninv N N); [destruct Hd|now right]. }
      rewrite bind_Ok. destruct (IH (fun d H => Hc d (or_intror H)) SL1 I1) as (SL2 & l2 & E2 & I2 & X2 & R2).
      exists SL2, (l1 ++ l2). split; [exact E2|]. split; [exact I2|]. split; [now rewrite X2, X1, app_assoc|].
      intros L2 c' d' [<-|Hc'] Hd' G; [|apply R2; auto]. destruct (R1) with (d := d') as (r & Hr & Sr); auto.
      { unfold count in *. rewrite X2, app_length in L2. lia. }
      exists r. split; [rewrite X2; apply in_or_app; now left|exact Sr].
    + exists SL, []. rewrite app_nil_r. repeat split; auto; try apply I. intros; lia.
Qed.

(** ** the full list *)
Variable SL : symblist.
Hypothesis HI : sl_inv SL.
Hypothesis HC : count SL < nsymb2 M -> forall c d, In c mid -> In d (tl (noninv N N)) -> Z.gcd d c = 1 -> exists r, In r (items SL) /\ sim N r (c, d).
Definition full : list (Z * Z) := map (fun i => (i, 1)) (zr N) ++ map (fun d => (1, d)) (noninv N N) ++ items SL.
Lemma full_unimod : Forall (fun s => unimod N (fst s) (snd s)) full.
Proof.
  unfold full. rewrite !Forall_app, !Forall_map. repeat split; rewrite Forall_forall.
  - intros z _. cbn [fst snd]. unfold unimod. now rewrite Z.gcd_1_r, Z.gcd_1_l.
  - intros z _. cbn [fst snd]. unfold unimod. now rewrite !Z.gcd_1_l.
  - intros s Hs. apply special_unimod. destruct HI as [I1 _]. rewrite Forall_forall in I1. auto.
Qed.
Lemma FOP_map {A B} (f : A -> B) (P : B -> B -> Prop) l : ForallOrdPairs (fun x y => P (f x) (f y)) l -> ForallOrdPairs P (map f l).
Proof. intros H. induction H as [|x l H1 H2 IH]; cbn [map]; constructor; [now rewrite Forall_map|exact IH]. Qed.
Lemma FOP_nodup {A} (P : A -> A -> Prop) l : NoDup l -> (forall x y, In x l -> In y l -> x <> y -> P x y) -> ForallOrdPairs P l.
Proof.
  intros H. induction H as [|x l NI H IH]; intros K; constructor.
  - rewrite Forall_forall. intros y Hy. apply K; [now left|now right|]. intros ->. contradiction.
  - apply IH. intros u v Hu Hv. apply K; now right.
Qed.
Lemma small_cong a b : 0 <= a < N -> 0 <= b < N -> (N | a - b) -> a = b.
Proof. intros Ha Hb D. apply in_mod in D; [|lia]. rewrite !Z.mod_small in D by lia. exact D. Qed.
Lemma full_distinct : ForallOrdPairs (fun s s' => ~ sim N s s') full.
Proof.
  destruct HI as [I1 I2]. pose proof I1 as I1'. rewrite Forall_forall in I1'. unfold full. apply FOP_app; [|apply FOP_app|].
  - apply FOP_map, FOP_nodup; [apply nodup_zr|]. intros x y Hx Hy NE K. apply in_zr in Hx, Hy. apply sim_cross in K. unfold cross in K. cbn [fst snd] in K.
    rewrite !Z.mul_1_r in K. apply NE, small_cong; auto.
  - apply FOP_map, FOP_nodup; [apply NoDup_filter, nodup_zr|]. intros x y Hx Hy NE K. apply in_noninv in Hx, Hy. apply sim_cross in K. unfold cross in K. cbn [fst snd] in K.
    rewrite !Z.mul_1_l in K. apply NE. symmetry. apply small_cong; try tauto.
  - apply FOP_of. intros i j x y Hi Hj L K. assert (Sx : special x) by (apply I1'; eapply nth_error_In; eauto). assert (Sy : special y) by (apply I1'; eapply nth_error_In; eauto).
    apply key_sim2 in K; auto.
    assert (L1 : lookup (key x) (hash SL) = Some (Z.of_nat i)) by (apply I2; exists x; split; [lia|]; rewrite Nat2Z.id; auto).
    assert (L2 : lookup (key x) (hash SL) = Some (Z.of_nat j)) by (apply I2; exists y; split; [lia|]; rewrite Nat2Z.id; auto).
    rewrite L1 in L2. injection L2. lia.
  - intros x y Hx Hy K. apply in_map_iff in Hx. destruct Hx as (d & <- & Hd). apply sim_gcd in K. cbn [fst snd] in K. destruct K as [K _]. rewrite Z.gcd_1_l in K.
    apply I1' in Hy. rewrite (special_gcd y Hy) in K. destruct Hy as ((B & _) & _). lia.
  - intros x y Hx Hy K. apply in_map_iff in Hx. destruct Hx as (d & <- & Hd). apply sim_gcd in K. cbn [fst snd] in K. destruct K as [_ K]. rewrite Z.gcd_1_l in K.
    apply in_app_iff in Hy. destruct Hy as [Hy|Hy].
    + apply in_map_iff in Hy. destruct Hy as (e & <- & He). apply in_noninv in He. tauto.
    + apply I1' in Hy. destruct Hy as (_ & _ & _ & Hy). contradiction.
Qed.
Lemma full_len : Z.of_nat (length full) = 2 * N - phi_of ps N + count SL.
Proof. unfold full, count. rewrite !app_length, !map_length, zr_length. pose proof (noninv_len N ps N1 HF). lia. Qed.
Lemma full_first c d : Z.gcd d N = 1 -> exists r, In r full /\ sim N r (c, d).
Proof.
  intros G. apply gcd1_bez in G as H. destruct H as (v & D). exists ((c * v) mod N, 1). split.
  - unfold full. apply in_or_app. left. apply in_map_iff. exists ((c * v) mod N). split; [reflexivity|]. apply in_zr. apply Z.mod_pos_bound. lia.
  - exists d. split; [exact G|]. cbn [fst snd]. split; [|exists 0; ring].
    replace (c - d * ((c * v) mod N)) with (- (c * (d * v - 1)) - d * ((c * v) mod N - c * v)) by ring.
    apply Z.divide_sub_r; [apply Z.divide_opp_r, Z.divide_mul_r; exact D|apply Z.divide_mul_r, mod_dvd; lia].
Qed.
Lemma full_second c d : Z.gcd c N = 1 -> Z.gcd d N <> 1 -> exists r, In r full /\ sim N r (c, d).
Proof.
  intros G G'. apply gcd1_bez in G as H. destruct H as (v & D). exists (1, (d * v) mod N). split.
  - unfold full. apply in_or_app. right. apply in_or_app. left. apply in_map_iff. exists ((d * v) mod N). split; [reflexivity|]. apply in_noninv. split; [apply Z.mod_pos_bound; lia|].
    rewrite gcd_mod. rewrite Z.mul_comm, gcd_unit_mul; [exact G'|]. apply gcd1_bez. exists c. now rewrite Z.mul_comm.
  - exists c. split; [exact G|]. cbn [fst snd]. split; [exists 0; ring|].
    replace (d - c * ((d * v) mod N)) with (- (d * (c * v - 1)) - c * ((d * v) mod N - d * v)) by ring.
    apply Z.divide_sub_r; [apply Z.divide_opp_r, Z.divide_mul_r; exact D|apply Z.divide_mul_r, mod_dvd; lia].
Qed.
Lemma noninv_hd : exists l, noninv N N = 0 :: l.
Proof.
  destruct (noninv_app N 1 N ltac:(lia)) as (l & E). rewrite E. change 1 with (0 + 1). rewrite (noninv_S N 0) by lia. rewrite Z.gcd_0_l.
  destruct (Z.eqb_spec (Z.abs N) 1); [lia|]. eexists. reflexivity.
Qed.
Lemma both_nonunit c d : unimod N c d -> Z.gcd c N <> 1 -> Z.gcd d N <> 1 -> ~ (N | c) /\ ~ (N | d) /\ 1 < Z.gcd c N < N.
Proof.
  intros U Gc Gd.
  assert (A : ~ (N | c)). { intros D. apply Gd. unfold unimod in U. rewrite (Z.gcd_comm c d), <- Z.gcd_assoc in U.
    rewrite (Z.gcd_comm c N), (proj1 (Z.divide_gcd_iff N c ltac:(lia)) D) in U. exact U. }
  assert (B : ~ (N | d)). { intros D. apply Gc. unfold unimod in U. rewrite <- Z.gcd_assoc in U. rewrite (Z.gcd_comm d N), (proj1 (Z.divide_gcd_iff N d ltac:(lia)) D) in U. exact U. }
  split; [exact A|]. split; [exact B|]. pose proof (gcdN_pos c). pose proof (gcdN_lt c A). lia.
Qed.
Lemma full_third c d : count SL < nsymb2 M -> unimod N c d -> Z.gcd c N <> 1 -> Z.gcd d N <> 1 -> exists r, In r full /\ sim N r (c, d).
Proof.
  intros L U Gc Gd. destruct (both_nonunit c d U Gc Gd) as (Nc & Nd & Bg).
  (* a unit u with u c = g *)
  assert (HU : exists u, norm_of c d u).
  { assert (HT' := HT). destruct HT' as (_ & _ & _ & _ & I5). destruct (vget_F2 _ N _ (c mod N) I5) as (u & E & B & G & D); [apply Z.mod_pos_bound; lia|].
    exists u. split; [exact G|]. rewrite gcd_mod in D. replace (c * u - Z.gcd c N) with ((c mod N * u - Z.gcd c N) - (c mod N - c) * u) by ring.
    apply Z.divide_sub_r; [exact D|]. apply Z.divide_mul_l, mod_dvd. lia. }
  destruct HU as (u & HU). pose proof (norm_sim c d u HU) as S1. set (g := Z.gcd c N) in *. set (e := (d * u) mod N).
  assert (S2 : sim N (g, d * u) (g, e)).
  { exists 1. split; [apply Z.gcd_1_l|]. cbn [fst snd]. rewrite !Z.mul_1_l. split; [exists 0; ring|]. apply mod_dvd. lia. }
  pose proof (sim_trans N _ _ _ S1 S2) as S3. pose proof (unimod_sim N _ _ S3 U) as U3. destruct (sim_gcd _ _ S3) as [_ G3]. cbn [fst snd] in G3, U3.
  assert (Be : 0 <= e < N) by (apply Z.mod_pos_bound; lia).
  assert (DG : (g | N)) by apply Z.gcd_divide_r.
  assert (Ie : In e (tl (noninv N N))).
  { assert (I : In e (noninv N N)) by (apply in_noninv; split; [lia|congruence]). destruct noninv_hd as (l & El). rewrite El in I |- *. cbn [tl]. destruct I as [I|I]; [|exact I].
    exfalso. rewrite <- I, Z.gcd_0_l in G3. assert (DD : (N | d)); [|contradiction]. rewrite Z.abs_eq in G3 by lia. rewrite G3 at 1. apply Z.gcd_divide_l. }
  assert (GG : Z.gcd e g = 1).
  { unfold unimod in U3. rewrite (Z.gcd_comm e). rewrite <- U3. symmetry. rewrite (Z.gcd_comm g e), <- Z.gcd_assoc. f_equal. apply Z.divide_gcd_iff; [lia|exact DG]. }
  destruct (HC L g e) as (r & Hr & Sr); auto; [apply HM; split; [lia|exact DG]|]. exists r. split; [unfold full; apply in_or_app; right; apply in_or_app; now right|].
  apply (sim_trans N _ _ _ Sr). now apply sim_sym.
Qed.
Lemma full_covers_count : (forall s, unimod N (fst s) (snd s) -> exists r, In r full /\ sim N r s) /\ Z.of_nat (length full) = psi_of ps N.
Proof.
  destruct (classes N ps ltac:(lia) HF full full_unimod full_distinct) as [LE CV].
  destruct (Z.lt_ge_cases (count SL) (nsymb2 M)) as [L|L].
  - assert (C : forall s, unimod N (fst s) (snd s) -> exists r, In r full /\ sim N r s).
    { intros [c d] U. cbn [fst snd] in U. destruct (Z.eq_dec (Z.gcd d N) 1) as [Gd|Gd]; [now apply full_first|].
      destruct (Z.eq_dec (Z.gcd c N) 1) as [Gc|Gc]; [now apply full_second|]. now apply full_third. }
    split; [exact C|]. apply (covering N ps); auto; [lia|apply full_unimod|apply full_distinct].
  - cbn [nsymb2] in L. pose proof full_len as FL. assert (E : Z.of_nat (length full) = psi_of ps N) by lia. split; auto.
Qed.
Lemma symbol_full i : 0 <= i < psi_of ps N -> exists s, symbol (M, SL) i = Ok s /\ nth_error full (Z.to_nat i) = Some s.
Proof.
  intros H. destruct full_covers_count as [_ E]. pose proof full_len as FL. pose proof (noninv_len N ps N1 HF) as NL. unfold symbol. cbn [modulus nsymb1 tabs]. unfold full.
  destruct (Z.ltb_spec i N) as [L|L].
  - exists (i, 1). split; [reflexivity|]. rewrite nth_error_app1 by (rewrite map_length, zr_length; lia). apply (map_nth_error (fun i => (i, 1))). apply nth_zr. lia.
  - rewrite nth_error_app2 by (rewrite map_length, zr_length; lia). rewrite map_length, zr_length. replace (Z.to_nat i - Z.to_nat N)%nat with (Z.to_nat (i - N)) by lia.
    destruct (Z.ltb_spec i (2 * N - phi_of ps N)) as [L2|L2].
    + destruct HT as (_ & -> & _). destruct (nth_error (noninv N N) (Z.to_nat (i - N))) as [d|] eqn:K.
      * rewrite (vget_nth _ _ _ K) by lia. rewrite bind_Ok. exists (1, d). split; [reflexivity|].
        rewrite nth_error_app1 by (rewrite map_length; lia). now apply (map_nth_error (fun d => (1, d))).
      * apply nth_error_None in K. lia.
    + rewrite nth_error_app2 by (rewrite map_length; lia). rewrite map_length.
      replace (Z.to_nat (i - N) - length (noninv N N))%nat with (Z.to_nat (i - (2 * N - phi_of ps N))) by lia.
      destruct (nth_error (items SL) (Z.to_nat (i - (2 * N - phi_of ps N)))) as [s|] eqn:K.
      * exists s. split; [|reflexivity]. apply vget_nth; [exact K|lia].
      * apply nth_error_None in K. unfold count in FL. lia.
Qed.
Lemma symbol_inj i j s t : 0 <= i < psi_of ps N -> 0 <= j < psi_of ps N -> symbol (M, SL) i = Ok s -> symbol (M, SL) j = Ok t -> sim N s t -> i = j.
Proof.
  intros Hi Hj Es Et S. destruct (symbol_full i Hi) as (s' & E1 & F1). destruct (symbol_full j Hj) as (t' & E2 & F2).
  rewrite E1 in Es. rewrite E2 in Et. injection Es as ->. injection Et as ->.
  destruct (Z.lt_trichotomy i j) as [L|[L|L]]; [|exact L|]; exfalso.
  - exact (FOP_nth _ _ full_distinct _ _ _ _ F1 F2 ltac:(lia) S).
  - exact (FOP_nth _ _ full_distinct _ _ _ _ F2 F1 ltac:(lia) (sim_sym N _ _ S)).
Qed.
Lemma psi_bnd : psi_of ps N <= max64.
Proof.
  pose proof (upairs_len N ps ltac:(lia) HF) as U. pose proof (phi_pos N ps ltac:(lia) HF) as P. unfold upairs in U.
  pose proof (filter_length_le (good2 ps) (list_prod (zr N) (zr N))) as F. rewrite prod_length, zr_length in F.
  assert (psi_of ps N * phi_of ps N <= N * N) by (clear - F U N1; nia). pose proof (proj1 (psi_val ps N ltac:(lia) (proj1 HF))). nia.
Qed.
Lemma index2_ok c d : bnd c -> bnd d -> unimod N c d ->
  exists i s, index2 (M, SL) c d = Ok i /\ 0 <= i < psi_of ps N /\ symbol (M, SL) i = Ok s /\ sim N s (c, d).
Proof.
  intros Bc Bd U. destruct full_covers_count as [CV LEN]. pose proof full_len as FL. pose proof (noninv_len N ps N1 HF) as NL. pose proof psi_bnd as PB.
  pose proof (N64 N N1 NN) as K64. assert (CP : 0 <= count SL) by (unfold count; lia).
  assert (X64 : forall z k, bnd z -> 0 < k < N -> in64 (z * k)).
  { intros z k Bz Bk. unfold bnd in Bz. assert (Z.abs (z * k) <= Z.abs z * N) by (rewrite Z.abs_mul; apply Z.mul_le_mono_nonneg_l; lia). u64. lia. }
  assert (R64 : forall z, Z.abs z < N -> in64 z) by (intros z Hz; clear - Hz K64; u64; lia).
  unfold index2. cbn [modulus tabs dlist nsymb1]. destruct (code_ok d (bnd64 d Bd)) as (kd & -> & Kd1 & Kd2). rewrite bind_Ok. rewrite gcd_mod in Kd1, Kd2.
  assert (NL0 : 0 <= Z.of_nat (length (noninv N N))) by lia.
  destruct (Z.eq_dec (Z.gcd d N) 1) as [Gd|Gd].
  - destruct (Kd1 Gd) as [Bk Dk]. destruct (Z.ltb_spec 0 kd); [|lia]. destruct (xmodmul_long_ok c kd N) as (x & -> & Bx & Dx); [lia|auto|apply X64; auto|]. rewrite bind_Ok.
    rewrite (reduce_ok N N1 NN) by (apply R64; lia). pose proof (Z.mod_pos_bound x N ltac:(lia)) as MB. exists (x mod N), (x mod N, 1). split; [reflexivity|]. split; [lia|].
    split; [unfold symbol; cbn [modulus]; destruct (Z.ltb_spec (x mod N) N); [reflexivity|lia]|].
    exists d. split; [exact Gd|]. cbn [fst snd]. split; [|exists 0; ring].
    replace (c - d * (x mod N)) with (- (c * (d mod N * kd - 1)) + c * kd * (d mod N - d) - d * (x - c * kd) - d * (x mod N - x)) by ring.
    repeat apply Z.divide_sub_r; try apply Z.divide_add_r; first [apply Z.divide_mul_r | apply Z.divide_opp_r, Z.divide_mul_r]; try assumption; apply mod_dvd; lia.
  - specialize (Kd2 Gd). clear Kd1. assert (R0 : forall i, 0 <= rank N i) by (intros; unfold rank; lia).
    assert (Kn : kd <= 0) by (rewrite Kd2; specialize (R0 (d mod N)); lia). destruct (Z.ltb_spec 0 kd); [lia|].
    destruct (code_ok c (bnd64 c Bc)) as (kc & -> & Kc1 & Kc2). rewrite bind_Ok. rewrite gcd_mod in Kc1, Kc2.
    destruct (Z.eq_dec (Z.gcd c N) 1) as [Gc|Gc].
    + destruct (Kc1 Gc) as [Bk Dk]. destruct (Z.ltb_spec 0 kc); [|lia]. destruct (xmodmul_long_ok kc d N) as (x & -> & Bx & Dx); [lia|auto|rewrite Z.mul_comm; apply X64; auto|]. rewrite bind_Ok.
      destruct (code_ok x (R64 x Bx)) as (k & -> & _ & K2). rewrite bind_Ok. rewrite gcd_mod in K2.
      assert (GX : Z.gcd x N <> 1).
      { rewrite (gcd_cong N x (kc * d) Dx), gcd_unit_mul; [exact Gd|]. apply gcd1_bez. exists c. rewrite Z.mul_comm.
        replace (c * kc - 1) with ((c mod N * kc - 1) - kc * (c mod N - c)) by ring. apply Z.divide_sub_r; [exact Dk|apply Z.divide_mul_r, mod_dvd; lia]. }
      specialize (K2 GX). pose proof (Z.mod_pos_bound x N ltac:(lia)) as MB. assert (GX' : Z.gcd (x mod N) N <> 1) by now rewrite gcd_mod.
      pose proof (rank_lt N ps N1 HF (x mod N) MB GX') as RL. pose proof (rank_nth N (x mod N) MB GX') as RN. specialize (R0 (x mod N)).
      rewrite K2. rewrite sub64_ok by (clear - K64 RL R0 PB LEN FL CP N1; u64; lia). replace (N - - rank N (x mod N)) with (N + rank N (x mod N)) by ring.
      exists (N + rank N (x mod N)), (1, x mod N). split; [reflexivity|]. split; [lia|]. split.
      * unfold symbol. cbn [modulus nsymb1 tabs]. destruct (Z.ltb_spec (N + rank N (x mod N)) N); [lia|]. destruct (Z.ltb_spec (N + rank N (x mod N)) (2 * N - phi_of ps N)); [|lia].
        destruct HT as (_ & -> & _). replace (N + rank N (x mod N) - N) with (rank N (x mod N)) by ring. rewrite (vget_nth _ _ _ RN) by lia. reflexivity.
      * exists c. split; [exact Gc|]. cbn [fst snd]. split; [exists 0; ring|].
        replace (d - c * (x mod N)) with (- (d * (c mod N * kc - 1)) + d * kc * (c mod N - c) - c * (x - kc * d) - c * (x mod N - x)) by ring.
        repeat apply Z.divide_sub_r; try apply Z.divide_add_r; first [apply Z.divide_mul_r | apply Z.divide_opp_r, Z.divide_mul_r]; try assumption; apply mod_dvd; lia.
    + specialize (Kc2 Gc). clear Kc1. pose proof (R0 (c mod N)) as R1. destruct (Z.ltb_spec 0 kc); [lia|].
      destruct (both_nonunit c d U Gc Gd) as (Nc & Nd & Bg).
      pose proof (Z.mod_pos_bound c N ltac:(lia)) as MB. assert (GX' : Z.gcd (c mod N) N <> 1) by now rewrite gcd_mod.
      pose proof (rank_nth N (c mod N) MB GX') as RN. replace (- kc) with (rank N (c mod N)) by lia.
      assert (HT' := HT). destruct HT' as (_ & _ & E3 & _). rewrite E3. apply (map_nth_error (nd_of N dl)) in RN. rewrite (vget_nth _ _ _ RN) by lia. rewrite bind_Ok.
      unfold nd_of. rewrite gcd_mod. destruct (Z.ltb_spec (Z.gcd c N) N); [|lia].
      assert (IN : In (Z.gcd c N) dl) by (right; apply in_or_app; left; apply HM; split; [lia|apply Z.gcd_divide_r]).
      pose proof (find_div_ok _ _ 0 IN) as FD. set (nd := find_div (Z.gcd c N) dl 0) in *. clearbody nd.
      destruct (nth_error dl (Z.to_nat nd)) as [dv|] eqn:ED; [|apply nth_error_None in ED; lia]. rewrite (vget_nth _ _ _ ED) by lia. rewrite bind_Ok.
      destruct (sl_index_ok SL c d HI Bc Bd Nc U) as (i & -> & [[_ K]|[Hi (s & Hs & Ss)]]).
      * exfalso. destruct (CV (c, d) U) as (r & Hr & Sr). destruct (sim_gcd _ _ Sr) as [G1 G2]. cbn [fst snd] in G1, G2. unfold full in Hr. apply in_app_iff in Hr. destruct Hr as [Hr|Hr].
        { apply in_map_iff in Hr. destruct Hr as (z & <- & _). cbn [snd] in G2. rewrite Z.gcd_1_l in G2. contradiction. }
        apply in_app_iff in Hr. destruct Hr as [Hr|Hr]; [|exact (K r Hr Sr)].
        apply in_map_iff in Hr. destruct Hr as (z & <- & _). cbn [fst] in G1. rewrite Z.gcd_1_l in G1. contradiction.
      * rewrite bind_Ok. assert (nth_error (items SL) (Z.to_nat i) <> None) as Hl by congruence. apply nth_error_Some in Hl.
        assert (PH : 0 <= 2 * N - phi_of ps N) by lia.
        assert (BI : 0 <= 2 * N - phi_of ps N + i < psi_of ps N) by (unfold count in *; lia).
        rewrite add64_ok by (clear - BI PB; u64; lia). exists (2 * N - phi_of ps N + i), s. split; [reflexivity|]. split; [exact BI|]. split; [|exact Ss].
        unfold symbol. cbn [modulus nsymb1]. destruct (Z.ltb_spec (2 * N - phi_of ps N + i) N); [lia|]. destruct (Z.ltb_spec (2 * N - phi_of ps N + i) (2 * N - phi_of ps N)); [lia|].
        replace (2 * N - phi_of ps N + i - (2 * N - phi_of ps N)) with i by ring. now apply vget_nth.
Qed.
End Main.

(** ** the constructor *)
Definition in_range (D : symbdata) (i : Z) : Prop := 0 <= i < nsymb (fst D).
Record numbering (N : Z) (D : symbdata) : Prop := {
  num_symbol : forall i, in_range D i -> exists c d, symbol D i = Ok (c, d) /\ 0 <= c < N /\ 0 <= d < N /\ unimod N c d;
  num_inj : forall i j s t, in_range D i -> in_range D j -> symbol D i = Ok s -> symbol D j = Ok t -> sim N s t -> i = j;
  num_index : forall c d, Z.abs c * N <= max64 -> Z.abs d * N <= max64 -> unimod N c d ->
    exists i s, index2 D c d = Ok i /\ in_range D i /\ symbol D i = Ok s /\ sim N s (c, d) }.
Lemma symbdata_ok N ps : 1 < N -> N * N <= max64 -> pfull N ps ->
  exists D, symbdata_of N ps = Ok D /\ nsymb (fst D) = psi_of ps N /\ numbering N D.
Proof.
  intros N1 NN HF. unfold symbdata_of, moddata_of. destruct (posdivs_mid N ps N1 (Nsym N N1 NN) HF) as (mid & -> & HM). rewrite bind_Ok.
  destruct (md_loop_ok N ps (1 :: mid ++ [N]) N1 NN HF) as (T & -> & HT). rewrite !bind_Ok.
  set (M := Md N (1 :: mid ++ [N]) (phi_of ps N) (psi_of ps N) (psi_of ps N) (2 * N - phi_of ps N) (psi_of ps N - (2 * N - phi_of ps N)) T).
  assert (I0 : sl_inv N (Sl [] [])).
  { split; [constructor|]. intros k v. cbn [lookup items]. split; [discriminate|]. intros (s & _ & H & _). destruct (Z.to_nat v); discriminate. }
  assert (H : exists SL, (if 0 <? nsymb2 M then sd_outer M (removelast (tl (dlist M))) (Sl [] []) else Ok (Sl [] [])) = Ok SL /\ sl_inv N SL /\
    (count SL < nsymb2 M -> forall c d, In c mid -> In d (tl (noninv N N)) -> Z.gcd d c = 1 -> exists r, In r (items SL) /\ sim N r (c, d))).
  { destruct (Z.ltb_spec 0 (nsymb2 M)) as [L|L].
    - unfold M. cbn [dlist tl]. rewrite removelast_last.
      destruct (sd_outer_ok N ps mid N1 NN HM T HT mid (fun c H => H) (Sl [] []) I0) as (SL & l & E & I & X & R). exists SL. split; [exact E|]. split; [exact I|exact R].
    - exists (Sl [] []). split; [reflexivity|]. split; [exact I0|]. unfold count. cbn [items length]. intros; lia. }
  destruct H as (SL & -> & HI & HC). rewrite bind_Ok. exists (M, SL). split; [reflexivity|]. split; [reflexivity|].
  pose proof (symbol_full N ps mid N1 HF HM T HT SL HI HC) as SF.
  constructor; unfold in_range; cbn [fst nsymb M].
  - intros i Hi. destruct (SF i Hi) as ([c d] & E & F). exists c, d. split; [exact E|].
    pose proof (full_unimod N SL HI) as U. rewrite Forall_forall in U. apply nth_error_In in F. specialize (U _ F). cbn [fst snd] in U.
    assert (B : 0 <= c < N /\ 0 <= d < N); [|tauto].
    unfold full in F. apply in_app_iff in F. destruct F as [F|F]; [apply in_map_iff in F; destruct F as (z & K & Hz); injection K as <- <-; apply in_zr in Hz; lia|].
    apply in_app_iff in F. destruct F as [F|F]; [apply in_map_iff in F; destruct F as (z & K & Hz); injection K as <- <-; apply in_noninv in Hz; lia|].
    destruct HI as [I1 _]. rewrite Forall_forall in I1. apply I1 in F. destruct F as ((F1 & _) & _ & F2 & _). cbn [fst snd] in F1, F2. lia.
  - exact (symbol_inj N ps mid N1 HF HM T HT SL HI HC).
  - exact (index2_ok N ps mid N1 NN HF HM T HT SL HI HC).
Qed.
Section Numb.
Variables (N : Z) (D : symbdata).
Hypothesis N1 : 1 < N.
Hypothesis NN : N * N <= max64.
Hypothesis H : numbering N D.
Lemma small_bnd z : Z.abs z <= N -> Z.abs z * N <= max64.
Proof. intros Hz. apply (Z.le_trans _ (N * N)); [|exact NN]. apply Z.mul_le_mono_nonneg_r; lia. Qed.
Lemma index_symbol i c d : in_range D i -> symbol D i = Ok (c, d) -> index2 D c d = Ok i.
Proof.
  intros Hi E. destruct (num_symbol N D H i Hi) as (c' & d' & E' & Bc & Bd & U). rewrite E in E'. injection E' as <- <-.
  destruct (num_index N D H c d) as (j & s & -> & Hj & Es & S); [apply small_bnd; lia|apply small_bnd; lia|exact U|].
  f_equal. exact (num_inj N D H j i s (c, d) Hj Hi Es E S).
Qed.
Lemma index_sim c d c' d' : Z.abs c * N <= max64 -> Z.abs d * N <= max64 -> unimod N c d -> Z.abs c' * N <= max64 -> Z.abs d' * N <= max64 -> unimod N c' d' ->
  (index2 D c d = index2 D c' d' <-> sim N (c, d) (c', d')).
Proof.
  intros B1 B2 U B1' B2' U'. destruct (num_index N D H c d B1 B2 U) as (i & s & E & Hi & Es & S). destruct (num_index N D H c' d' B1' B2' U') as (i' & s' & E' & Hi' & Es' & S').
  rewrite E, E'. split.
  - intros K. injection K as <-. rewrite Es in Es'. injection Es' as <-. apply (sim_trans N _ s); [now apply sim_sym|exact S'].
  - intros K. f_equal. apply (num_inj N D H i i' s s' Hi Hi' Es Es'). apply (sim_trans N _ _ _ S). apply (sim_trans N _ _ _ K). now apply sim_sym.
Qed.
(** a linear action f on pairs and its induced action F on indices *)
Lemma action (f : Z -> Z -> Z * Z) i : in_range D i ->
  (forall c d, 0 <= c < N -> 0 <= d < N -> Z.abs (fst (f c d)) <= N /\ Z.abs (snd (f c d)) <= N) ->
  (forall c d, unimod N c d -> unimod N (fst (f c d)) (snd (f c d))) ->
  exists c d j s, symbol D i = Ok (c, d) /\ 0 <= c < N /\ 0 <= d < N /\ index2 D (fst (f c d)) (snd (f c d)) = Ok j /\ in_range D j /\ symbol D j = Ok s /\ sim N s (f c d).
Proof.
  intros Hi B U. destruct (num_symbol N D H i Hi) as (c & d & E & Bc & Bd & UU). destruct (B c d Bc Bd) as [B1 B2].
  destruct (num_index N D H (fst (f c d)) (snd (f c d))) as (j & s & Ej & Hj & Es & S); [now apply small_bnd|now apply small_bnd|now apply U|].
  exists c, d, j, s. rewrite <- surjective_pairing in S. auto 10.
Qed.
End Numb.
Lemma unimod_alt N c d c' d' : unimod N c d -> (forall g, (g | c') -> (g | d') -> (g | c) /\ (g | d)) -> unimod N c' d'.
Proof.
  intros U K. unfold unimod in *. set (g := Z.gcd (Z.gcd c' d') N). assert (G1 : (g | Z.gcd c' d')) by apply Z.gcd_divide_l. assert (G2 : (g | N)) by apply Z.gcd_divide_r.
  destruct (K g) as [A B]; [eapply Z.divide_trans; [exact G1|apply Z.gcd_divide_l]|eapply Z.divide_trans; [exact G1|apply Z.gcd_divide_r]|].
  assert (D1 : (g | 1)) by (rewrite <- U; apply Z.gcd_greatest; [now apply Z.gcd_greatest|auto]). apply Z.divide_1_r_nonneg in D1; [auto|apply Z.gcd_nonneg].
Qed.
Lemma sim_lin N a b c d s s' : sim N s s' -> sim N (a * fst s + b * snd s, c * fst s + d * snd s) (a * fst s' + b * snd s', c * fst s' + d * snd s').
Proof.
  intros (t & G & [x X] & [y Y]). exists t. split; [exact G|]. cbn [fst snd]. split.
  - exists (a * x + b * y). transitivity (a * (fst s' - t * fst s) + b * (snd s' - t * snd s)); [ring|]. rewrite X, Y. ring.
  - exists (c * x + d * y). transitivity (c * (fst s' - t * fst s) + d * (snd s' - t * snd s)); [ring|]. rewrite X, Y. ring.
Qed.
(** specification of an action of a 2x2 matrix on indices *)
Definition acts (N : Z) (D : symbdata) (F : Z -> res Z) (f : Z * Z -> Z * Z) : Prop :=
  forall i, in_range D i -> exists s j t, symbol D i = Ok s /\ F i = Ok j /\ in_range D j /\ symbol D j = Ok t /\ sim N t (f s).
Lemma actions N D : 1 < N -> N * N <= max64 -> numbering N D ->
  acts N D (rof D) (fun s => (snd s, fst s)) /\ acts N D (rsof D) (fun s => (- fst s, snd s)) /\
  acts N D (sof D) (fun s => (- snd s, fst s)) /\ acts N D (tof D) (fun s => (fst s - snd s, fst s)).
Proof.
  intros N1 NN H. pose proof (N64 N N1 NN) as K64. repeat split; intros i Hi.
  - destruct (action N D N1 NN H (fun c d => (d, c)) i Hi) as (c & d & j & s & E & Bc & Bd & Ej & Hj & Es & S); cbn [fst snd]; [intros; lia|intros c d U; apply (unimod_alt N c d); auto|].
    exists (c, d), j, s. unfold rof. rewrite E, bind_Ok. cbn [fst snd] in *. auto 10.
  - destruct (action N D N1 NN H (fun c d => (- c, d)) i Hi) as (c & d & j & s & E & Bc & Bd & Ej & Hj & Es & S); cbn [fst snd]; [intros; lia|intros c d U; apply (unimod_alt N c d); auto; intros g; rewrite Z.divide_opp_r; auto|].
    exists (c, d), j, s. unfold rsof. rewrite E, bind_Ok, neg64_ok by (clear - Bc K64; u64; lia). rewrite bind_Ok. cbn [fst snd] in *. auto 10.
  - destruct (action N D N1 NN H (fun c d => (- d, c)) i Hi) as (c & d & j & s & E & Bc & Bd & Ej & Hj & Es & S); cbn [fst snd]; [intros; lia|intros c d U; apply (unimod_alt N c d); auto; intros g; rewrite Z.divide_opp_r; auto|].
    exists (c, d), j, s. unfold sof. rewrite E, bind_Ok, neg64_ok by (clear - Bd K64; u64; lia). rewrite bind_Ok. cbn [fst snd] in *. auto 10.
  - destruct (action N D N1 NN H (fun c d => (c - d, c)) i Hi) as (c & d & j & s & E & Bc & Bd & Ej & Hj & Es & S); cbn [fst snd]; [intros; lia| |].
    + intros c d U; apply (unimod_alt N c d); auto. intros g G1 G2. split; [auto|]. replace d with (c - (c - d)) by ring. now apply Z.divide_sub_r.
    + exists (c, d), j, s. unfold tof. rewrite E, bind_Ok, sub64_ok by (clear - Bc Bd K64; u64; lia). rewrite bind_Ok. cbn [fst snd] in *. auto 10.
Qed.
Lemma sim_neg N s : sim N (- fst s, - snd s) s.
Proof. exists (-1). split; [apply Z.gcd_1_l|]. cbn [fst snd]. split; exists 0; ring. Qed.
Lemma orders N D : 1 < N -> N * N <= max64 -> numbering N D -> forall i, in_range D i ->
  (exists j, rof D i = Ok j /\ in_range D j /\ rof D j = Ok i) /\ (exists j, rsof D i = Ok j /\ in_range D j /\ rsof D j = Ok i) /\
  (exists j, sof D i = Ok j /\ in_range D j /\ sof D j = Ok i) /\
  (exists j k, tof D i = Ok j /\ in_range D j /\ tof D j = Ok k /\ in_range D k /\ tof D k = Ok i).
Proof.
  intros N1 NN H i Hi. destruct (actions N D N1 NN H) as (AR & ARS & AS & AT).
  assert (INV : forall F f a b c d, acts N D F f -> (forall s, f s = (a * fst s + b * snd s, c * fst s + d * snd s)) -> (forall s, sim N (f (f s)) s) -> exists j, F i = Ok j /\ in_range D j /\ F j = Ok i).
  { intros F f a b c d A L I2. destruct (A i Hi) as (s & j & t & Es & Ej & Hj & Et & S). exists j. split; [exact Ej|]. split; [exact Hj|].
    destruct (A j Hj) as (t' & k & u & Et' & Ek & Hk & Eu & S2). rewrite Et in Et'. injection Et' as <-. rewrite Ek. f_equal.
    apply (num_inj N D H k i u s Hk Hi Eu Es). apply (sim_trans N _ _ _ S2). apply (sim_trans N _ (f (f s))); [|apply I2].
    rewrite (L t), (L (f s)). apply sim_lin. exact S. }
  split; [|split; [|split]].
  - apply (INV _ _ 0 1 1 0 AR); intros s; [f_equal; ring|]. destruct s as [c d]. cbn [fst snd]. apply sim_refl.
  - apply (INV _ _ (-1) 0 0 1 ARS); intros s; [f_equal; ring|]. destruct s as [c d]. cbn [fst snd]. rewrite Z.opp_involutive. apply sim_refl.
  - apply (INV _ _ 0 (-1) 1 0 AS); intros s; [f_equal; ring|]. cbn [fst snd]. apply sim_neg.
  - destruct (AT i Hi) as (s & j & t & Es & Ej & Hj & Et & S1). destruct (AT j Hj) as (t' & k & u & Et' & Ek & Hk & Eu & S2). rewrite Et in Et'. injection Et' as <-.
    destruct (AT k Hk) as (u' & l & v & Eu' & El & Hl & Ev & S3). rewrite Eu in Eu'. injection Eu' as <-. exists j, k. repeat split; auto; try apply Hj; try apply Hk. rewrite El. f_equal.
    apply (num_inj N D H l i v s Hl Hi Ev Es). set (f := fun s : Z * Z => (fst s - snd s, fst s)) in *.
    assert (SL : forall x y, sim N x y -> sim N (f x) (f y)).
    { intros x y K. unfold f. replace (fst x - snd x, fst x) with (1 * fst x + -1 * snd x, 1 * fst x + 0 * snd x) by (f_equal; ring).
      replace (fst y - snd y, fst y) with (1 * fst y + -1 * snd y, 1 * fst y + 0 * snd y) by (f_equal; ring). now apply sim_lin. }
    apply (sim_trans N _ _ _ S3). apply (sim_trans N _ (f (f t)) _ (SL _ _ S2)). apply (sim_trans N _ (f (f (f s)))); [apply SL, SL, S1|].
    unfold f. cbn [fst snd]. replace (fst s - snd s - fst s - (fst s - snd s), fst s - snd s - fst s) with (- fst s, - snd s) by (f_equal; ring). apply sim_neg.
Qed.
