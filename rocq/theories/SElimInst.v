(** The scalar types of SElimModel, the dense elimination, and the whole computation. *)
From Coq Require Import ZArith Znumtheory Lia List Bool Sorted Permutation.
From Verif Require Import Base ArithModel ArithProofs RatModel MArithModel MArithProofs LinModel LinSpec LinProofs LinElim LinKer LinAlg LinRank SvecModel SmatModel OrdModel OrdSpec OrdProofs OrdMore SElimModel SElimRow SElimInv SElimPivot SElimSteps SElimStep0 SElimStd SElimDense SElimKer SElimNull.
Import ListNotations.
Open Scope Z_scope.
Open Scope res_scope.

Lemma coprime_nz p a : prime p -> ~ cong p a 0 -> Z.gcd a p = 1.
Proof.
  intros P N. apply Zgcd_1_rel_prime, rel_prime_sym, prime_rel_prime; auto. intros H. apply N. unfold cong. rewrite Z.sub_0_r. auto.
Qed.
Lemma inv_lt p a x : prime p -> cong p (a * x) 1 -> Z.abs x <= p -> Z.abs x < p.
Proof.
  intros P (q & Hq) H. pose proof (prime_ge_2 p P). destruct (Z.eq_dec (Z.abs x) p) as [e|]; [|lia]. exfalso. assert (x = p \/ x = - p) as [->| ->] by lia.
  - assert ((a - q) * p = 1) by lia. assert (Hd : (p | 1)) by (exists (a - q); lia). apply Z.divide_1_r_nonneg in Hd; lia.
  - assert (Hd : (p | 1)) by (exists (- a - q); lia). apply Z.divide_1_r_nonneg in Hd; lia.
Qed.
Lemma cent_zero p r : cent p r -> cong p r 0 -> r = 0.
Proof. intros C (q & Hq). unfold cent in C. assert (q = 0 \/ q <= -1 \/ 1 <= q) as [->|[G|G]] by lia; nia. Qed.
Lemma abs_nz p a : Z.abs a < p -> ~ cong p a 0 -> a <> 0.
Proof. intros _ N ->. apply N, cong_refl. Qed.

(** a type for which modok holds *)
Lemma emod_of E p D : modok (e_sc E) D p -> 
  (forall a b, Z.abs a < p -> Z.abs b < p -> exists r, e_mulrem E a b p = Ok r /\ cong p r (a * b) /\ Z.abs r < p) ->
  (forall a, Z.abs a < p -> ~ cong p a 0 -> exists x, e_inv E a p = Ok x /\ cong p (a * x) 1 /\ Z.abs x <= p) ->
  (forall x, Z.abs x < p -> s_sub (e_sc E) p x = Ok (p - x)) -> emod E p (fun x => Z.abs x < p).
Proof.
  intros M HM HI HS. pose proof (mo_prime _ _ _ M) as P. pose proof (prime_ge_2 p P) as P2.
  assert (CA : forall r, cent p r -> Z.abs r < p) by (unfold cent; intros; lia).
  constructor; auto.
  - rewrite Z.abs_eq; lia.
  - intros a b Ha Hb. unfold xmm. destruct (Z.eqb_spec a 1) as [->|]; [exists b; rewrite Z.mul_1_l; auto using cong_refl|]. destruct (Z.eqb_spec a (-1)) as [->|]. { rewrite (mo_neg _ _ _ M) by auto. exists (- b). split; auto. split; [lia|apply cong_eq; ring]. }
    destruct (Z.eqb_spec b 1) as [->|]; [exists a; rewrite Z.mul_1_r; auto using cong_refl|]. destruct (Z.eqb_spec b (-1)) as [->|]. { rewrite (mo_neg _ _ _ M) by auto. exists (- a). split; auto. split; [lia|apply cong_eq; ring]. }
    destruct (HM a b Ha Hb) as (r & -> & C & B). eauto.
  - intros a b Ha Hb Na Nb. unfold addmod. destruct (Z.eqb_spec a 0) as [->|]; [destruct Na; apply cong_refl|]. destruct (Z.eqb_spec b 0) as [->|]; [destruct Nb; apply cong_refl|]. rewrite (mo_add _ _ _ M) by auto. rewrite bind_Ok. destruct (mo_mod _ _ _ M (a + b)) as (r & -> & C & B); [apply (mo_D _ _ _ M); lia|]. exists r. split; auto. split; auto. split; auto. apply cent_zero; auto.
  - intros a Ha Na. destruct (HI a Ha Na) as (x & -> & C & B). exists x. split; auto. split; auto. apply (inv_lt p a); auto.
  - intros x Hx. rewrite HS by auto. rewrite bind_Ok. destruct (mo_mod _ _ _ M (p - x)) as (r & -> & C & B); [apply (mo_D _ _ _ M); lia|]. exists r. split; auto. split; auto. eapply cong_trans; [exact C|]. exists 1. ring.
  - intros x Hx. rewrite (mo_neg _ _ _ M) by auto. split; auto. rewrite Z.abs_opp. auto.
  - intros x Hx. apply (mo_mod _ _ _ M). apply (mo_D _ _ _ M). lia.
Qed.
Lemma emod_int p : prime p -> 2 * p <= max32 -> emod ec_int p (fun x => Z.abs x < p).
Proof.
  intros P B. pose proof (prime_ge_2 p P) as P2. pose proof (modok_int p P B) as M. unfold max32 in B. apply (emod_of ec_int p sym32 M).
  - intros a b Ha Hb. cbn [e_mulrem ec_int]. assert (Z.abs (a * b) <= 1073741823 * 1073741823) by (rewrite Z.abs_mul; apply Z.mul_le_mono_nonneg; lia). rewrite mul64_ok by (unfold in64, min64, max64; lia). rewrite bind_Ok. rewrite rem64_ok by (unfold in64, min64, max64; lia). rewrite bind_Ok. destruct (rem_cong (a * b) p ltac:(lia)) as (C & Hr). rewrite (Z.abs_eq p) in Hr by lia. rewrite wrap32_id by (unfold in32, min32, max32; lia). eauto.
  - intros a Ha Na. cbn [e_inv ec_int]. destruct (invmod_long_bound a p) as (x & -> & Hx & Hb); try (unfold sym64, max64, min64; lia). rewrite bind_Ok. rewrite wrap32_id by (unfold in32, min32, max32; lia). exists x. split; auto. split; auto. apply Hx, coprime_nz; auto.
  - intros x Hx. cbn [e_sc s_sub ec_int sc_int]. unfold sub32. rewrite c32_ok; auto. unfold in32, min32, max32. lia.
Qed.
Lemma emod_long p : prime p -> p * p <= max64 -> emod ec_long p (fun x => Z.abs x < p).
Proof.
  intros P B. pose proof (prime_ge_2 p P) as P2. pose proof (modok_long p P B) as M. assert (B4 : 4 * p <= max64) by (unfold max64 in *; nia). apply (emod_of ec_long p sym64 M).
  - intros a b Ha Hb. cbn [e_mulrem ec_long]. assert (Z.abs (a * b) <= p * p) by (rewrite Z.abs_mul; apply Z.mul_le_mono_nonneg; lia). unfold max64 in *. rewrite mul64_ok by (unfold in64, min64, max64; lia). rewrite bind_Ok. rewrite rem64_ok by (unfold in64, min64, max64; lia). destruct (rem_cong (a * b) p ltac:(lia)) as (C & Hr). rewrite (Z.abs_eq p) in Hr by lia. eauto.
  - intros a Ha Na. cbn [e_inv ec_long]. unfold max64 in *. destruct (invmod_long_bound a p) as (x & -> & Hx & Hb); try (unfold sym64, max64, min64; lia). exists x. split; auto. split; auto. apply Hx, coprime_nz; auto.
  - intros x Hx. cbn [e_sc s_sub ec_long sc_long]. unfold max64 in *. rewrite sub64_ok; auto. unfold in64, min64, max64. lia.
Qed.
Lemma emod_z xgcd p : xgcd_spec xgcd -> prime p -> emod (ec_z xgcd) p (fun _ => True).
Proof.
  intros X P. pose proof (prime_ge_2 p P) as P2. pose proof (modok_z xgcd p X P) as M. constructor; auto.
  - intros a b _ _. unfold xmm. destruct (Z.eqb_spec a 1) as [->|]; [exists b; rewrite Z.mul_1_l; auto using cong_refl|]. destruct (Z.eqb_spec a (-1)) as [->|]. { exists (- b). split; auto. split; [auto|apply cong_eq; ring]. }
    destruct (Z.eqb_spec b 1) as [->|]; [exists a; rewrite Z.mul_1_r; auto using cong_refl|]. destruct (Z.eqb_spec b (-1)) as [->|]. { exists (- a). split; auto. split; [auto|apply cong_eq; ring]. }
    destruct (mo_xmod _ _ _ M (a * b) I) as (r & Er & C & _). exists r. split; auto.
  - intros a b _ _ Na Nb. unfold addmod. destruct (Z.eqb_spec a 0) as [->|]; [destruct Na; apply cong_refl|]. destruct (Z.eqb_spec b 0) as [->|]; [destruct Nb; apply cong_refl|]. cbn [e_sc ec_z s_add sc_z]. rewrite bind_Ok. destruct (mo_mod _ _ _ M (a + b) I) as (r & Er & C & B). cbn [e_sc ec_z]. rewrite Er. exists r. split; auto. split; auto. split; auto. apply cent_zero; auto.
  - intros a _ Na. cbn [e_inv ec_z]. eexists. split; [reflexivity|]. split; auto. apply (invmod_z_ok xgcd X a p). apply coprime_nz; auto.
  - intros x _. cbn [e_sc ec_z s_sub sc_z]. rewrite bind_Ok. destruct (mo_mod _ _ _ M (p - x) I) as (r & Er & C & B). cbn [e_sc ec_z]. rewrite Er. exists r. split; auto. split; auto. eapply cong_trans; [exact C|]. exists 1. ring.
  - intros x _. apply (mo_mod _ _ _ M x I).
Qed.

(** the dense elimination by echmodp of C19 *)
Definition rref_of (S : scal) (p : Z) (d : mat) : mat * list nat := match echmodp S d p with Ok (R, pc, _) => (R, pc) | _ => (d, []) end.
Lemma rref_of_ok S D p (V : Z -> Prop) : modok S D p -> (forall x, V x -> D x) -> (forall x, cent p x -> V x) -> dense_rref p V (rref_of S p).
Proof.
  intros M VD CV d W Fd. destruct (echmodp_ok S D p M d W) as (R & pc & npc & Ee & N & C & WR & ES & SP & RR). { eapply Forall_impl; [|exact Fd]. auto. }
  unfold rref_of. rewrite Ee. cbn [fst snd]. cbv zeta. destruct RR as [R1 R2 R3].
  split; [repeat split; auto|]. assert (NDp : NoDup pc). { destruct SP as (_ & _ & SP). assert (G : NoDup (pc ++ npc)) by (apply (Permutation_NoDup (Permutation_sym SP)), seq_NoDup). clear - G. induction pc; [constructor|]. cbn in G. apply NoDup_cons_iff in G. constructor; [intros H; apply (proj1 G), in_or_app; auto|apply IHpc, G]. }
  assert (IND : indep p (nco d) (length pc) (me R)). { refine (rref_indep p (nco d) (length pc) (me R) pc _ _); [constructor; auto|]. intros i Hi. eapply splits_pc; [exact SP|apply nth_In; auto]. }
  split.
  - apply (rank_le_rows p (mo_prime _ _ _ M) (nco d) (nro d) (me d)). exists (me R). auto.
  - split; [intros j Hj; eapply splits_pc; eauto|]. split; auto. split; auto. split.
    + intros i k Hi Hk. rewrite R2 by auto. apply cong_refl.
    + intros i j Hi Hj. split; [apply CV, R1; auto|]. apply cent_zero, R1; auto.
Qed.
