(** From exact scalars to int, long and bigint: a computation in the scalars sc_x (in which
    all divisions are exact) is reproduced in bigint, and in int or long whenever these
    return a result at all. *)
From Coq Require Import ZArith Znumtheory Lia List Bool Sorted Permutation.
From Verif Require Import Base RatModel RatProofs LinModel LinSpec LinProofs LinElim LinKer LinAlg EchModel EchProofs EchBack EchKer.
Import ListNotations.
Open Scope Z_scope.

Definition ref {A} (T : Prop) (m1 m2 : res A) : Prop := forall r, m2 = Ok r -> m1 = Ok r \/ (T /\ forall r', m1 <> Ok r').
Lemma ref_refl {A} T (m : res A) : ref T m m.
Proof. intros r ->. auto. Qed.
Lemma ref_bind {A B} T (m1 m2 : res A) (k1 k2 : A -> res B) : ref T m1 m2 -> (forall a, ref T (k1 a) (k2 a)) -> ref T (bind m1 k1) (bind m2 k2).
Proof.
  intros H K r E. apply bind_ok in E as (a & Ea & E). destruct (H a Ea) as [->|(Ht & N)].
  - rewrite bind_Ok. apply K; auto.
  - right. split; auto. intros r' E'. apply bind_ok in E' as (a' & Ea' & _). apply (N a' Ea').
Qed.
Lemma ref_mfold {A B} T (f1 f2 : A -> B -> res A) l : (forall a b, ref T (f1 a b) (f2 a b)) -> forall a, ref T (mfold f1 l a) (mfold f2 l a).
Proof. intros H. induction l; intros x; cbn [mfold]; [apply ref_refl|]. apply ref_bind; auto. Qed.
Lemma ref_mmap {A B} T (f1 f2 : A -> res B) l : (forall a, ref T (f1 a) (f2 a)) -> ref T (mmap f1 l) (mmap f2 l).
Proof. intros H. induction l; cbn [mmap]; [apply ref_refl|]. apply ref_bind; auto. intros. apply ref_bind; auto. intros. apply ref_refl. Qed.
Lemma ref_mmap2 {A B C} T (f1 f2 : A -> B -> res C) l : (forall a b, ref T (f1 a b) (f2 a b)) -> forall m, ref T (mmap2 f1 l m) (mmap2 f2 l m).
Proof.
  intros H. induction l; intros [|b m]; cbn [mmap2]; try apply ref_refl. apply ref_bind; auto. intros. apply ref_bind; auto. intros. apply ref_refl.
Qed.
Lemma ref_row_op T e nc r1 r2 pos f1 f2 : (forall a b, ref T (f1 a b) (f2 a b)) -> ref T (row_op e nc r1 r2 pos f1) (row_op e nc r1 r2 pos f2).
Proof. intros H. unfold row_op. apply ref_bind; [apply ref_refl|]. intros. apply ref_bind; [apply ref_refl|]. intros. apply ref_bind; [apply ref_mmap2; auto|]. intros. apply ref_refl. Qed.

Record scal_ref (T : Prop) (S : scal) : Prop := SRef {
  rf_add : forall a b, ref T (s_add S a b) (s_add sc_x a b); rf_sub : forall a b, ref T (s_sub S a b) (s_sub sc_x a b);
  rf_mul : forall a b, ref T (s_mul S a b) (s_mul sc_x a b); rf_neg : forall a, ref T (s_neg S a) (s_neg sc_x a);
  rf_abs : forall a, ref T (s_abs S a) (s_abs sc_x a); rf_div : forall a b, ref T (s_div S a b) (s_div sc_x a b);
  rf_gcd : forall a b, ref T (s_gcd S a b) (s_gcd sc_x a b) }.
Section Ref.
Variables (T : Prop) (S : scal).
Hypothesis H : scal_ref T S.
Local Ltac op := first [apply (rf_add _ _ H)|apply (rf_sub _ _ H)|apply (rf_mul _ _ H)|apply (rf_neg _ _ H)|apply (rf_abs _ _ H)|apply (rf_div _ _ H)|apply (rf_gcd _ _ H)].
Local Ltac rf := repeat first
  [ op | apply ref_refl
  | progress (cbn beta iota zeta)
  | match goal with
    | |- ref _ (bind _ _) (bind _ _) => apply ref_bind; [|intros]
    | |- ref _ (mfold _ _ _) (mfold _ _ _) => apply ref_mfold; intros
    | |- ref _ (mmap _ _) (mmap _ _) => apply ref_mmap; intros
    | |- ref _ (mmap2 _ _ _) (mmap2 _ _ _) => apply ref_mmap2; intros
    | |- ref _ (row_op _ _ _ _ _ _) (row_op _ _ _ _ _ _) => apply ref_row_op; intros
    | |- context[if ?b then _ else _] => destruct b
    | |- context[match ?p with (_, _) => _ end] => destruct p
    end ].
Lemma ref_cons_elim e nc r1 r2 pos : ref T (cons_elim S e nc r1 r2 pos) (cons_elim sc_x e nc r1 r2 pos).
Proof. unfold cons_elim. rf. Qed.
Lemma ref_elim e nc r1 r2 pos : ref T (elim S e nc r1 r2 pos) (elim sc_x e nc r1 r2 pos).
Proof. unfold elim. rf. Qed.
Lemma ref_clear_row e nc r : ref T (clear_row S e nc r) (clear_row sc_x e nc r).
Proof. unfold clear_row. rf. Qed.
Lemma ref_lcm a b : ref T (s_lcm S a b) (s_lcm sc_x a b).
Proof. unfold s_lcm. rf. Qed.
Lemma ref_piv_min e nc c rs : forall x r, ref T (piv_min S e nc c rs x r) (piv_min sc_x e nc c rs x r).
Proof. induction rs; intros x r; cbn [piv_min]; rf; auto. Qed.
Lemma ref_div_row e nc r l : ref T (div_row S e nc r l) (div_row sc_x e nc r l).
Proof. unfold div_row. rf. Qed.
Lemma ref_ech0_col nr nc s c : ref T (ech0_col S nr nc s c) (ech0_col sc_x nr nc s c).
Proof. unfold ech0_col. destruct s as ((((e & r) & pc) & npc) & l). rf; auto using ref_piv_min, ref_cons_elim, ref_div_row. Qed.
Lemma ref_ech0_cols nr nc cs : forall s, ref T (ech0_cols S nr nc cs s) (ech0_cols sc_x nr nc cs s).
Proof. induction cs; intros s; cbn [ech0_cols]; rf; auto using ref_ech0_col. Qed.
Lemma ref_echelon0 m : ref T (echelon0 S m) (echelon0 sc_x m).
Proof. unfold echelon0. rf; auto using ref_ech0_cols, ref_clear_row, ref_elim, ref_lcm. Qed.
Lemma ref_kernel m : ref T (kernel S m) (kernel sc_x m).
Proof. unfold kernel. rf; auto using ref_echelon0. Qed.
Lemma ref_image m : ref T (image S m) (image sc_x m).
Proof. unfold image. rf; auto using ref_echelon0. Qed.
Lemma ref_divrow m r c : ref T (divrow S m r c) (divrow sc_x m r c).
Proof. unfold divrow. rf. Qed.
Lemma ref_elimrows2 m r1 r2 pos l : ref T (elimrows2 S m r1 r2 pos l) (elimrows2 sc_x m r1 r2 pos l).
Proof. unfold elimrows2. rf; auto using ref_divrow. Qed.
Lemma ref_rank_piv m c rs : forall x r, ref T (rank_piv S m c rs x r) (rank_piv sc_x m c rs x r).
Proof. induction rs; intros x r; cbn [rank_piv]; rf; auto. Qed.
Lemma ref_rank_col s c : ref T (rank_col S s c) (rank_col sc_x s c).
Proof. unfold rank_col. destruct s as ((m & r) & l). rf; auto using ref_rank_piv, ref_elimrows2. Qed.
Lemma ref_rank m : ref T (rank S m) (rank sc_x m).
Proof. unfold rank. rf; auto using ref_rank_col. Qed.
Lemma ref_mul_gen f1 f2 a b : (forall x y z, ref T (f1 x y z) (f2 x y z)) -> ref T (mul_gen f1 a b) (mul_gen f2 a b).
Proof. intros F. unfold mul_gen, mul_row. rf; auto. Qed.
Lemma ref_mat_mul a b : ref T (mat_mul S a b) (mat_mul sc_x a b).
Proof. unfold mat_mul. apply ref_mul_gen. intros. rf. Qed.
Lemma ref_trace m : ref T (trace S m) (trace sc_x m).
Proof. unfold trace. rf. Qed.
Lemma ref_charpoly m : ref T (charpoly S m) (charpoly sc_x m).
Proof. unfold charpoly, mat_scale, mat_sub. apply ref_bind; [apply ref_refl|]. intros. apply ref_bind; [apply ref_trace|]. intros. destruct (nro m); [apply ref_refl|]. rf; auto using ref_mat_mul, ref_trace. Qed.
Lemma ref_determinant m : ref T (determinant S m) (determinant sc_x m).
Proof. unfold determinant. rf; auto using ref_charpoly. Qed.
Lemma ref_addscalar m c : ref T (addscalar S m c) (addscalar sc_x m c).
Proof. unfold addscalar, mat_add. rf; auto using ref_refl. Qed.
Lemma ref_eigenspace m l : ref T (eigenspace S m l) (eigenspace sc_x m l).
Proof. unfold eigenspace. rf; auto using ref_addscalar, ref_kernel. Qed.
End Ref.

Lemma ref_of {A} (m1 m2 : res A) : (forall a b, m1 = Ok a -> m2 = Ok b -> a = b) -> ref True m1 m2.
Proof.
  intros K r E. destruct m1 as [a| | |] eqn:E1; try (right; split; auto; congruence). left. f_equal. apply (K a r); auto.
Qed.
Lemma sref_z xgcd : scal_ref False (sc_z xgcd).
Proof.
  constructor; intros; try apply ref_refl. intros r E. apply x_div_inv in E as (Hb & E). left. cbn [s_div sc_z]. unfold zz_div.
  destruct (Z.eqb_spec b 0); [contradiction|]. f_equal. rewrite <- E, Z.mul_comm. apply Z.div_mul; auto.
Qed.
Lemma sref_long : scal_ref True sc_long.
Proof.
  constructor; intros; apply ref_of; cbn [s_add s_sub s_mul s_neg s_abs s_gcd sc_long]; intros x y E1 E2;
   try (cbn [s_add s_sub s_mul s_neg s_abs s_gcd sc_x] in E2; injection E2 as <-).
  - apply c64_inv in E1. tauto.
  - apply c64_inv in E1. tauto.
  - apply c64_inv in E1. tauto.
  - apply c64_inv in E1. tauto.
  - apply c64_inv in E1. tauto.
  - apply x_div_inv in E2 as (Hb & E). cbn [s_div sc_long] in E1. unfold quot64 in E1. destruct (Z.eqb_spec b 0); [contradiction|]. apply c64_inv in E1.
    destruct E1 as (E1 & _). rewrite E1, <- E, Z.mul_comm. apply Z.quot_mul; auto.
  - apply gcd_long_partial in E1. auto.
Qed.
Lemma sref_int : scal_ref True sc_int.
Proof.
  constructor; intros; apply ref_of; cbn [s_add s_sub s_mul s_neg s_abs s_gcd sc_int]; intros x y E1 E2;
   try (cbn [s_add s_sub s_mul s_neg s_abs s_gcd sc_x] in E2; injection E2 as <-).
  - apply c32_inv in E1. tauto.
  - apply c32_inv in E1. tauto.
  - apply c32_inv in E1. tauto.
  - apply c32_inv in E1. tauto.
  - apply c32_inv in E1. tauto.
  - apply x_div_inv in E2 as (Hb & E). cbn [s_div sc_int] in E1. unfold quot32 in E1. destruct (Z.eqb_spec b 0); [contradiction|]. apply c32_inv in E1.
    destruct E1 as (E1 & _). rewrite E1, <- E, Z.mul_comm. apply Z.quot_mul; auto.
  - apply bind_ok in E1 as (g & Eg & E1). apply c32_inv in E1. apply gcd_long_partial in Eg. destruct E1; congruence.
Qed.
Lemma ref_F {A} (m1 m2 : res A) r : ref False m1 m2 -> m2 = Ok r -> m1 = Ok r.
Proof. intros H E. destruct (H r E) as [|([] & _)]; auto. Qed.
Lemma ref_T {A} (m1 m2 : res A) r r' : ref True m1 m2 -> m2 = Ok r -> m1 = Ok r' -> r' = r.
Proof. intros H E E'. destruct (H r E) as [K|(_ & K)]; [congruence|apply K in E'; tauto]. Qed.

(** ** the rank is determined by the matrix *)
Lemma fin_choice {B} (P : nat -> B -> Prop) (b0 : B) n : (forall i, (i < n)%nat -> exists b, P i b) -> exists f, forall i, (i < n)%nat -> P i (f i).
Proof.
  induction n; intros H0; [exists (fun _ => b0); intros; lia|].
  destruct IHn as (f & Hf); [intros; apply H0; lia|]. destruct (H0 n) as (b & Hb); [lia|].
  exists (fun i => if (i =? n)%nat then b else f i). intros i Hi. destruct (Nat.eqb_spec i n) as [->|]; auto. apply Hf. lia.
Qed.
Lemma indep_le nc r R r' R' : indepq nc r R -> (forall i, (i < r)%nat -> qspan nc r' R' (R i)) -> (r <= r')%nat.
Proof.
  intros I H. destruct (Nat.le_gt_cases r r') as [|Hlt]; auto. exfalso.
  destruct (fin_choice (fun i ec => fst ec <> 0 /\ forall j, (j < nc)%nat -> fst ec * R i j = sumn r' (fun k => snd ec k * R' k j)) (0, fun _ => 0) r) as (f & Hf).
  { intros i Hi. destruct (H i Hi) as (e & c & He & Hc). exists (e, c). auto. }
  destruct (mat_fill_ok r' r (fun k i => Ok (snd (f i) k)) (fun k i => snd (f i) k)) as (M & _ & (NM & CM & WM) & HM); auto.
  destruct (kernel_x M WM) as (K & npc & d & _ & _ & _ & _ & Hd & (pc & SPL & PCL & _) & (_ & K1 & K2 & _)). rewrite NM, CM in *.
  pose proof (splits_len _ _ _ SPL) as El. assert (HN : (0 < length npc)%nat) by lia.
  assert (PN : (nth 0 npc 0 < r)%nat) by (eapply splits_npc; [exact SPL|apply nth_In; auto]).
  assert (Z0 : me K (nth 0 npc 0%nat) 0%nat * fst (f (nth 0 npc 0%nat)) = 0).
  { apply (I (fun i => me K i 0%nat * fst (f i))); auto. intros j Hj.
    rewrite (sumn_ext r _ (fun i => sumn r' (fun k => snd (f i) k * me K i 0%nat * R' k j))).
    - rewrite sumn_swap. rewrite (sumn_ext r' _ (fun _ => 0)); [apply sumn_0|]. intros k Hk.
      rewrite (sumn_ext r _ (fun i => me M k i * me K i 0%nat * R' k j)) by (intros i Hi; rewrite HM by auto; ring).
      rewrite sumn_mul_r. rewrite K1 by auto. ring.
    - intros i Hi. replace (me K i 0%nat * fst (f i) * R i j) with (me K i 0%nat * (fst (f i) * R i j)) by ring.
      rewrite (proj2 (Hf i Hi)) by auto. rewrite <- sumn_mul. apply sumn_ext. intros; ring. }
  rewrite K2 in Z0 by auto. cbn [Nat.eqb] in Z0. apply Z.mul_eq_0 in Z0. destruct Z0 as [Z0|Z0]; [lia|]. exact (proj1 (Hf _ PN) Z0).
Qed.
Lemma hasrankq_unique nr nc A r r' : hasrankq nr nc A r -> hasrankq nr nc A r' -> r = r'.
Proof.
  intros (R & E & I) (R' & E' & I').
  assert (r <= r')%nat by (apply (indep_le nc r R r' R' I); intros i Hi; apply E', E, qspan_row; auto).
  assert (r' <= r)%nat by (apply (indep_le nc r' R' r R I'); intros i Hi; apply E, E', qspan_row; auto). lia.
Qed.
