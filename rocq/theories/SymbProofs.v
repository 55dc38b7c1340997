(** Proofs about SymbModel: the tables of a level and the numbering of
    M-symbols. *)
From Coq Require Import ZArith Znumtheory Lia List Bool.
From Verif Require Import Base ArithModel ArithProofs XModModel XModProofs DivisorProofs P1Math SymbModel.
Import ListNotations.
Open Scope Z_scope.

(** ** counting: covering lists *)
Lemma covering N L R : 0 < N -> pfull N L -> Forall (fun s => unimod N (fst s) (snd s)) R ->
  ForallOrdPairs (fun s s' => ~ sim N s s') R ->
  (forall s, unimod N (fst s) (snd s) -> exists r, In r R /\ sim N r s) -> Z.of_nat (length R) = psi_of L N.
Proof.
  intros HN HL HU HP C. destruct (classes N L HN HL R HU HP) as [LE _].
  pose proof (phi_pos N L HN HL) as PP.
  assert (LEN : length (flat_map (orbit N L) R) = (length R * length (units N L))%nat) by (apply flat_map_len; intros; apply orbit_len).
  assert (INC : incl (upairs N L) (flat_map (orbit N L) R)).
  { intros [c d] H. apply (in_upairs N L HN HL) in H. destruct H as [B U]. destruct (C (c, d) U) as (r & Hr & S).
    apply in_flat_map. exists r. split; [exact Hr|]. apply (orbit_in N L HN HL); [rewrite Forall_forall in HU; auto|]. split; [exact B|exact S]. }
  pose proof (units_len N L HN HL) as UL. pose proof (upairs_len N L HN HL) as PL.
  assert (ND : NoDup (upairs N L)) by (apply NoDup_filter, nodup_prod; apply nodup_zr).
  pose proof (NoDup_incl_length ND INC) as GE. rewrite LEN in GE. nia.
Qed.

(** ** checked vector access *)
Lemma vget_nth {A} (l : list A) i x : nth_error l (Z.to_nat i) = Some x -> 0 <= i -> vget l i = Ok x.
Proof.
  intros H Hi. unfold vget. assert (nth_error l (Z.to_nat i) <> None) as K by congruence. apply nth_error_Some in K.
  destruct (Z.leb_spec 0 i); [|lia]. destruct (Z.ltb_spec i (Z.of_nat (length l))); [|lia]. cbn [andb]. now rewrite H.
Qed.
Lemma vget_inv {A} (l : list A) i x : vget l i = Ok x -> 0 <= i < Z.of_nat (length l) /\ nth_error l (Z.to_nat i) = Some x.
Proof.
  unfold vget. destruct (Z.leb_spec 0 i); [|discriminate]. destruct (Z.ltb_spec i (Z.of_nat (length l))); [|discriminate]. cbn [andb].
  destruct (nth_error l (Z.to_nat i)); [|discriminate]. intros E; inversion E; subst. split; [lia|reflexivity].
Qed.
Lemma F2_nth {A B} (P : A -> B -> Prop) l l' : Forall2 P l l' -> forall k a, nth_error l k = Some a -> exists b, nth_error l' k = Some b /\ P a b.
Proof.
  intros F. induction F as [|x y l l' H F IH]; intros k a E; destruct k; cbn [nth_error] in *; try discriminate.
  - inversion E; subst. eauto.
  - eauto.
Qed.
Lemma nth_zr N i : 0 <= i < N -> nth_error (zr N) (Z.to_nat i) = Some i.
Proof.
  intros H. unfold zr. rewrite (map_nth_error Z.of_nat (Z.to_nat i) (seq 0 (Z.to_nat N)) (d := Z.to_nat i)).
  - f_equal. lia.
  - rewrite (nth_error_nth' _ 0%nat) by (rewrite seq_length; lia). f_equal. rewrite seq_nth by lia. lia.
Qed.
Lemma vget_F2 {B} (P : Z -> B -> Prop) N l i : Forall2 P (zr N) l -> 0 <= i < N -> exists b, vget l i = Ok b /\ P i b.
Proof.
  intros F H. destruct (F2_nth P _ _ F _ _ (nth_zr N i H)) as (b & E & K). exists b. split; [|exact K]. apply vget_nth; [exact E|lia].
Qed.
Lemma zr_app n N : 0 <= n <= N -> zr N = zr n ++ map (Z.add n) (zr (N - n)).
Proof.
  intros H. unfold zr. replace (Z.to_nat N) with (Z.to_nat n + Z.to_nat (N - n))%nat by lia. rewrite seq_app, map_app. f_equal.
  cbn [plus]. rewrite map_map. generalize (Z.to_nat (N - n)) as m. intros m.
  assert (G : forall m k, map Z.of_nat (seq (Z.to_nat n + k) m) = map (fun x => n + Z.of_nat x) (seq k m) ) .
  { clear m. induction m as [|m IH]; intros k; cbn [seq map]; [reflexivity|]. f_equal; [lia|]. rewrite <- Nat.add_succ_r. now apply IH. }
  specialize (G m 0%nat). rewrite Nat.add_0_r in G. exact G.
Qed.

(** ** reduce, bezout_x *)
Section Level.
Variable N : Z.
Hypothesis N1 : 1 < N.
Hypothesis NN : N * N <= max64.
Lemma N64 : in64 N. Proof. u64. nia. Qed.
Lemma Nsym : sym64 N. Proof. unfold sym64. u64. nia. Qed.
Lemma reduce_ok r : in64 r -> reduce N r = Ok (r mod N).
Proof.
  intros H. pose proof N64 as K. unfold reduce. rewrite rem64_ok by (auto; lia). rewrite bind_Ok.
  destruct (quot_rem_pos r N ltac:(lia)) as (q & r' & _ & -> & E & Hr & H1 & H2).
  destruct (Z.ltb_spec r' 0) as [Hn|Hn].
  - rewrite add64_ok by (clear - Hn Hr H2 K; u64; lia). f_equal. apply (Z.mod_unique_pos _ _ (q - 1)); [lia|]. rewrite E. ring.
  - f_equal. apply (Z.mod_unique_pos _ _ q); [lia|]. exact E.
Qed.
End Level.

Lemma while_raw_sim {A B A' B'} (f : A -> res (A + B)) (g : A' -> res (A' + B')) (pa : A -> A') (pb : B -> B') :
  (forall s x, f s = Ok x -> g (pa s) = Ok (match x with inl s' => inl (pa s') | inr r => inr (pb r) end)) ->
  forall n s x, while_raw f n s = Ok x -> while_raw g n (pa s) = Ok (match x with inl s' => inl (pa s') | inr r => inr (pb r) end).
Proof.
  intros H n. induction n as [|n IH]; intros s x E; cbn [while_raw] in *; [now apply H|].
  destruct (while_raw f n s) as [[s'|r]| | |] eqn:K; try discriminate.
  - rewrite (IH _ _ K). now apply IH.
  - rewrite (IH _ _ K). inversion E; subst. reflexivity.
Qed.
Lemma while_sim {A B A' B'} (f : A -> res (A + B)) (g : A' -> res (A' + B')) (pa : A -> A') (pb : B -> B') :
  (forall s x, f s = Ok x -> g (pa s) = Ok (match x with inl s' => inl (pa s') | inr r => inr (pb r) end)) ->
  forall n s r s' r', while f n s = Ok r -> pa s = s' -> pb r = r' -> while g n s' = Ok r'.
Proof.
  intros H n s r s0 r0 E <- <-. unfold while in *. destruct (while_raw f n s) as [[s'|r']| | |] eqn:K; try discriminate.
  rewrite (while_raw_sim f g pa pb H _ _ _ K). inversion E; subst. reflexivity.
Qed.
Opaque while.
Lemma bezout_x_ok a b : sym64 a -> sym64 b ->
  exists x y, bezout_x a b = Ok (Z.gcd a b, x) /\ a * x + b * y = Z.gcd a b /\ Z.abs x <= Z.max 1 (Z.abs b).
Proof.
  intros Ha Hb. destruct (bezout_long_ok a b Ha Hb) as (x & y & E & Eq & Bx & By). exists x, y. split; [|auto].
  unfold bezout_long in E. apply bind_ok in E. destruct E as ([[g u] v] & E1 & E2).
  unfold bezout_x.
  set (pa := fun s : bez_state => let '(a, b, ox, x, _, _) := s in (a, b, ox, x)). set (pb := fun r : Z * Z * Z => let '(g, x, _) := r in (g, x)).
  assert (H : forall s x, bez_step s = Ok x -> bezx_step (pa s) = Ok (match x with inl s' => inl (pa s') | inr r => inr (pb r) end)).
  { clear. intros [[[[[a b] ox] x] oy] y] z. unfold bez_step, bezx_step, pa, pb. destruct (b =? 0); [intros E; inversion E; reflexivity|]. intros E.
    apply bind_ok in E. destruct E as (q & -> & E). rewrite bind_Ok. apply bind_ok in E. destruct E as (qb & -> & E). rewrite bind_Ok.
    apply bind_ok in E. destruct E as (c & -> & E). rewrite bind_Ok. apply bind_ok in E. destruct E as (qx & -> & E). rewrite bind_Ok.
    apply bind_ok in E. destruct E as (nx & -> & E). rewrite bind_Ok. apply bind_ok in E. destruct E as (qy & _ & E).
    apply bind_ok in E. destruct E as (ny & _ & E). inversion E; subst. reflexivity. }
  pose proof (while_sim bez_step bezx_step _ _ H W (a, b, 1, 0, 0, 1) (g, u, v) (a, b, 1, 0) (g, u) E1 eq_refl eq_refl) as K. rewrite K. clear K H E1.
  rewrite bind_Ok. destruct (g <? 0).
  - apply bind_ok in E2. destruct E2 as (nx & -> & E2). apply bind_ok in E2. destruct E2 as (ny & _ & E2). apply bind_ok in E2. destruct E2 as (na & -> & E2).
    rewrite !bind_Ok. inversion E2; subst. reflexivity.
  - inversion E2; subst. reflexivity.
Qed.

(** ** adjust: a unit multiplier *)
Lemma dvd_mul a b c d : (a | b) -> (c | d) -> (a * c | b * d).
Proof. intros [x ->] [y ->]. exists (x * y). ring. Qed.
Lemma dvd_gcd_pow p m k : prime p -> (p | m ^ k) -> 0 <= k -> (p | m).
Proof.
  intros Hp H Hk. revert H. pattern k. apply natlike_ind; [|clear k Hk|exact Hk].
  - rewrite Z.pow_0_r. intros D. apply Z.divide_1_r_nonneg in D; destruct Hp; lia.
  - intros k Hk IH. rewrite Z.pow_succ_r by auto. intros D. apply prime_mult in D; [|exact Hp]. destruct D; auto.
Qed.
Section Adjust.
Variable N : Z.
Hypothesis N1 : 1 < N.
Hypothesis NN : N * N <= max64.
Definition mm_inv (m : Z) (s : Z * Z * Z) : Prop :=
  let '(mp, mm, mo) := s in exists k, 1 <= k /\ mm = Z.gcd (m ^ k) N /\ (N | mp - m ^ k) /\ Z.abs mp <= N /\ mo = Z.gcd (m ^ (k - 1)) N.
Lemma gcd_cong a b : (N | a - b) -> Z.gcd a N = Z.gcd b N.
Proof. intros [k E]. replace a with (b + k * N) by lia. rewrite Z.gcd_comm, (Z.gcd_comm b). apply Z.gcd_add_mult_diag_r. Qed.
Lemma mm_ok m : 0 < m -> (m | N) ->
  exists mm, while (mm_step N m) W (m, m, 1) = Ok mm /\ 0 < mm /\ (mm | N) /\ (m | mm) /\ Z.gcd mm (N / mm) = 1 /\ (forall p, prime p -> (p | mm) -> (p | m)).
Proof.
  intros M0 MD. assert (ML : m <= N) by (apply Z.divide_pos_le; [lia|auto]).
  assert (GP : forall a, 0 < Z.gcd a N <= N).
  { intros a. pose proof (Z.gcd_nonneg a N). assert (Z.gcd a N <> 0) by (intros K; apply Z.gcd_eq_0_r in K; lia).
    pose proof (Z.gcd_divide_r a N) as D. apply Z.divide_pos_le in D; lia. }
  assert (MONO : forall k, 0 <= k -> (Z.gcd (m ^ k) N | Z.gcd (m ^ (k + 1)) N)).
  { intros k Hk. apply Z.gcd_greatest; [|apply Z.gcd_divide_r]. rewrite Z.pow_add_r, Z.pow_1_r by lia. apply Z.divide_mul_l, Z.gcd_divide_l. }
  destruct (while_total (mm_step N m) (mm_inv m) (fun mm => exists k, 1 <= k /\ mm = Z.gcd (m ^ k) N /\ mm = Z.gcd (m ^ (k - 1)) N)
     (fun s => let '(mp, mm, mo) := s in (N - mo) )) with (n := W) (s := (m, m, 1)) as (mm & E & k & Hk & Em & Em').
  - intros [[mp mm] mo] (k & Hk & _ & _ & _ & ->). specialize (GP (m ^ (k - 1))). lia.
  - intros [[mp mm] mo] (k & Hk & Em & Ep & Bp & Eo). unfold mm_step. destruct (Z.eqb_spec mm mo) as [Q|Q].
    + left. exists mm. split; [reflexivity|]. exists k. split; [exact Hk|]. split; [exact Em|congruence].
    + right. assert (AB : Z.abs (m * mp) <= N * N) by (rewrite Z.abs_mul; apply Z.mul_le_mono_nonneg; lia).
      destruct (xmodmul_long_ok m mp N) as (r & -> & Br & Dr); [lia|apply N64; auto|u64; lia|]. rewrite bind_Ok.
      rewrite gcd_long_ok; [|unfold sym64; u64; nia|apply Nsym; auto]. rewrite bind_Ok. eexists. split; [reflexivity|]. split.
      * assert (DR : (N | r - m ^ (k + 1))).
        { rewrite Z.pow_add_r, Z.pow_1_r by lia. replace (r - m ^ k * m) with ((r - m * mp) + m * (mp - m ^ k)) by ring. apply Z.divide_add_r; [auto|]. now apply Z.divide_mul_r. }
        exists (k + 1). split; [lia|]. split; [apply gcd_cong; exact DR|]. split; [exact DR|]. split; [lia|]. now replace (k + 1 - 1) with k by ring.
      * assert (D : (mo | mm)). { rewrite Em, Eo. replace k with (k - 1 + 1) at 2 by ring. apply MONO. lia. }
        pose proof (GP (m ^ (k - 1))) as G1. pose proof (GP (m ^ k)) as G2. rewrite <- Em in G2. rewrite <- Eo in G1. apply Z.divide_pos_le in D; lia.
  - exists 1. split; [lia|]. rewrite Z.pow_1_r. split; [symmetry; apply Z.divide_gcd_iff; [lia|auto]|]. split; [exists 0; ring|]. split; [lia|].
    change (1 - 1) with 0. rewrite Z.pow_0_r. symmetry. apply Z.gcd_1_l.
  - change (2 ^ Z.of_nat W) with 1180591620717411303424. u64. nia.
  - exists mm. split; [exact E|]. pose proof (GP (m ^ k)) as G. rewrite <- Em in G. split; [lia|].
    assert (D1 : (mm | N)) by (rewrite Em; apply Z.gcd_divide_r). split; [exact D1|].
    split. { rewrite Em. apply Z.gcd_greatest; [|auto]. replace k with (k - 1 + 1) by ring. rewrite Z.pow_add_r, Z.pow_1_r by lia. apply Z.divide_factor_r. }
    assert (PR : forall p, prime p -> (p | mm) -> (p | m)).
    { intros p Hp D. apply (dvd_gcd_pow p m k Hp); [|lia]. rewrite Em in D. eapply Z.divide_trans; [exact D|apply Z.gcd_divide_l]. }
    split; [|exact PR].
    assert (NE : N = mm * (N / mm)) by (apply Z_div_exact_full_2; [lia|]; apply Z.mod_divide; [lia|auto]).
    apply gcd1_prime; [apply Z.div_str_pos; lia|]. intros p Hp D D'.
    assert (P : (p * mm | mm)).
    { rewrite Em at 2. apply Z.gcd_greatest.
      - replace k with (1 + (k - 1)) by ring. rewrite Z.pow_add_r, Z.pow_1_r by lia. apply dvd_mul; [apply PR; auto|]. rewrite Em'. apply Z.gcd_divide_l.
      - rewrite NE at 1. rewrite (Z.mul_comm mm). now apply Z.mul_divide_mono_r. }
    apply Z.divide_pos_le in P; [|lia]. destruct Hp. nia.
Qed.
Lemma adjust_ok i d x : d = Z.gcd i N -> (N | i * x - d) -> Z.abs x <= N ->
  exists x', adjust N d x = Ok x' /\ Z.abs x' < N /\ Z.gcd x' N = 1 /\ (N | i * x' - d).
Proof.
  intros Ed Dx Bx.
  assert (D0 : 0 < d). { pose proof (Z.gcd_nonneg i N). assert (Z.gcd i N <> 0) by (intros K; apply Z.gcd_eq_0_r in K; lia). lia. }
  assert (DN : (d | N)) by (rewrite Ed; apply Z.gcd_divide_r). assert (Di : (d | i)) by (rewrite Ed; apply Z.gcd_divide_l).
  assert (DL : d <= N) by (apply Z.divide_pos_le; [lia|auto]).
  pose proof (N64 N N1 NN) as K64. pose proof (Nsym N N1 NN) as Ks.
  unfold adjust. rewrite quot64_ok by (auto; lia). rewrite bind_Ok, Z.quot_div_nonneg by lia.
  assert (NE : N = d * (N / d)) by (apply Z_div_exact_full_2; [lia|]; apply Z.mod_divide; [lia|auto]).
  set (m := N / d) in *. assert (M0 : 0 < m) by (apply Z.div_str_pos; lia).
  assert (MN : (m | N)) by (exists d; exact NE).
  destruct (mm_ok m M0 MN) as (mm & -> & P0 & PN & PM & CO & PR). rewrite bind_Ok.
  assert (ML : mm <= N) by (apply Z.divide_pos_le; [lia|auto]).
  rewrite quot64_ok by (auto; lia). rewrite bind_Ok, Z.quot_div_nonneg by lia.
  assert (NQ : N = mm * (N / mm)) by (apply Z_div_exact_full_2; [lia|]; apply Z.mod_divide; [lia|auto]).
  assert (Q0 : 0 < N / mm) by (apply Z.div_str_pos; lia). set (q := N / mm) in *. clearbody q.
  assert (QL : q <= N) by (apply Z.divide_pos_le; [lia|exists mm; exact NQ]).
  destruct (bezout_long_ok mm q) as (u & v & -> & BE & Bu & Bv); [unfold sym64 in *; lia|unfold sym64 in *; lia|].
  rewrite bind_Ok. rewrite CO in BE.
  assert (Bu' : Z.abs u <= q) by lia. assert (Bv' : Z.abs v <= mm) by lia.
  assert (NB : forall a b A B, Z.abs a <= A -> Z.abs b <= B -> Z.abs (a * b) <= A * B) by (intros; rewrite Z.abs_mul; apply Z.mul_le_mono_nonneg; lia).
  assert (S64 : forall z, Z.abs z <= N * N -> in64 z) by (intros z Hz; clear - Hz NN; u64; lia).
  assert (LE2 : forall A B, 0 <= A <= N -> 0 <= B <= N -> A * B <= N * N) by (intros; apply Z.mul_le_mono_nonneg; lia).
  assert (L1 : N * mm <= N * N) by (apply LE2; lia). assert (N2 : 2 * N <= N * N) by (apply Z.mul_le_mono_nonneg_r; lia).
  pose proof (NB x v N mm Bx Bv') as B1. assert (B1s : Z.abs (x * v) <= N * N) by (clear - B1 L1; lia).
  rewrite mul64_ok by (apply S64; exact B1s). rewrite bind_Ok.
  rewrite rem64_ok by (try (clear - P0; lia); apply S64; exact B1s). rewrite bind_Ok.
  destruct (quot_rem_pos (x * v) mm P0) as (q1 & x1 & _ & -> & E1 & B1' & _ & _).
  assert (B2 : Z.abs (x1 * q) <= N) by (rewrite NQ; apply NB; [clear - B1'; lia|clear - Q0; lia]).
  assert (B2s : Z.abs (x1 * q) <= N * N) by (clear - B2 N2 N1; lia).
  rewrite mul64_ok by (apply S64; exact B2s). rewrite bind_Ok.
  rewrite rem64_ok by (try (clear - N1; lia); apply S64; exact B2s). rewrite bind_Ok.
  destruct (quot_rem_pos (x1 * q) N ltac:(clear - N1; lia)) as (q2 & x2 & _ & -> & E2 & B2' & _ & _).
  assert (B3 : Z.abs (u * mm) <= N) by (rewrite NQ, (Z.mul_comm mm); apply NB; [exact Bu'|clear - P0; lia]).
  rewrite mul64_ok by (apply S64; clear - B3 N2 N1; lia). rewrite bind_Ok.
  assert (B4 : Z.abs (x2 + u * mm) <= N * N) by (clear - B3 B2' N2 N1; lia).
  rewrite add64_ok by (apply S64; exact B4). rewrite bind_Ok. rewrite rem64_ok by (try (clear - N1; lia); apply S64; exact B4).
  destruct (quot_rem_pos (x2 + u * mm) N ltac:(clear - N1; lia)) as (q3 & x3 & _ & -> & E3 & B3' & _ & _).
  exists x3. split; [reflexivity|]. split; [exact B3'|].
  (* x3 = x mod mm, 1 mod q *)
  assert (F3 : x3 = x2 + u * mm - N * q3) by (clear - E3; lia). assert (F2 : x2 = x1 * q - N * q2) by (clear - E2; lia).
  assert (F1 : x1 = x * v - mm * q1) by (clear - E1; lia). assert (V : v * q = 1 - mm * u) by (clear - BE; lia).
  assert (CM : (mm | x3 - x)).
  { exists (u - q * q3 - q * q2 - q1 * q - x * u). rewrite F3, F2, F1.
    transitivity (x * (v * q) - mm * q1 * q - N * q2 + u * mm - N * q3 - x); [ring|]. rewrite V, NQ. ring. }
  assert (CQ : (q | x3 - 1)).
  { exists (x1 - mm * q2 - v - mm * q3). rewrite F3, F2. replace (u * mm) with (1 - v * q) by (rewrite V; ring). rewrite NQ. ring. }
  assert (XM : (m | i / d * x - 1)).
  { destruct Di as [i' Ei]. rewrite Ei, Z.div_mul by lia. destruct Dx as [z Ez]. exists z. apply (Z.mul_reg_l _ _ d); [lia|].
    rewrite Ei in Ez. transitivity (i' * d * x - d); [ring|]. rewrite Ez. rewrite NE at 1. ring. }
  split.
  - apply gcd1_prime; [lia|]. intros p Hp D D'. rewrite NQ in D. apply prime_mult in D; [|exact Hp]. assert (P2 : 2 <= p) by (destruct Hp; lia).
    assert (NP1 : ~ (p | 1)) by (intros W1; apply Z.divide_1_r_nonneg in W1; lia).
    destruct D as [D|D].
    + assert (Dx' : (p | x)). { replace x with (x3 - (x3 - x)) by ring. apply Z.divide_sub_r; [exact D'|]. exact (Z.divide_trans _ _ _ D CM). }
      apply NP1. replace 1 with (i / d * x - (i / d * x - 1)) by ring. apply Z.divide_sub_r; [now apply Z.divide_mul_r|].
      apply (Z.divide_trans _ m); [apply PR; auto|exact XM].
    + apply NP1. replace 1 with (x3 - (x3 - 1)) by ring. apply Z.divide_sub_r; [exact D'|]. exact (Z.divide_trans _ _ _ D CQ).
  - replace (i * x3 - d) with (i * (x3 - x) + (i * x - d)) by ring. apply Z.divide_add_r; [|auto].
    rewrite NE. apply (Z.divide_trans _ (d * mm)); [now apply Z.mul_divide_mono_l|]. now apply dvd_mul.
Qed.
End Adjust.
