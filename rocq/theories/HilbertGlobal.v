(** global_hilbert: the local tests decide solubility over Q. *)
From Coq Require Import ZArith Lia List Bool Znumtheory Sorted Reals Lra.
From Verif Require Import Base RatModel MArithModel MArithProofs LegendreSpec LegendreMath JacobiMath SqrtModProofs DivisorProofs
  KroneckerProofs FormsModel LegArith LegLem1 ConicModel ConicDiag ConicLocal ConicProofs ConicSpec ConicExample PropertiesMArith PropertiesConic
  HilbertModel LocSolSpec HilbertSpec LocSolArith LocSolLocal HilbertLocal HilbertProofs.
Import ListNotations.
Open Scope Z_scope.
Open Scope res_scope.

(** ** a solution in integers is one everywhere *)
Lemma solution_Qp p a b : prime p -> has_solution (hilbert_eq a b) -> soluble_Qp p a b.
Proof.
  intros Hp (x & y & z & E & N). pose proof (prime_ge_2 p Hp) as P. exists (fun _ => x), (fun _ => y), (fun _ => z).
  split; [apply coherent_const|]. split; [apply coherent_const|]. split; [apply coherent_const|]. split.
  - destruct (Z.eq_dec x 0) as [X|X]; [destruct (Z.eq_dec y 0) as [Y|Y]|].
    + assert (Z0 : z <> 0) by tauto. destruct (pow_exceeds p z P Z0) as (n & H). exists n. tauto.
    + destruct (pow_exceeds p y P Y) as (n & H). exists n. tauto.
    + destruct (pow_exceeds p x P X) as (n & H). exists n. tauto.
  - intros n. unfold hilbert_eq in E. rewrite E, Z.sub_diag. apply Z.divide_0_r.
Qed.
Lemma solution_R a b : has_solution (hilbert_eq a b) -> soluble_R a b.
Proof.
  intros (x & y & z & E & N). exists (IZR x), (IZR y), (IZR z). split.
  - intros (X & Y & Z0). apply N. split; [|split]; apply eq_IZR; assumption.
  - rewrite <- !mult_IZR, <- plus_IZR. unfold hilbert_eq in E. now rewrite E.
Qed.
Lemma real_place a b : a <> 0 -> b <> 0 ->
  exists r, local_hilbert a b 0 = Ok r /\ ((r = 0 /\ ~ (a < 0 /\ b < 0) /\ soluble_R a b) \/ (r = 1 /\ ~ soluble_R a b)).
Proof.
  intros A B. unfold local_hilbert. destruct (Z.eqb_spec a 0); [contradiction|]. destruct (Z.eqb_spec b 0); [contradiction|].
  cbn [Z.leb Z.compare]. destruct (Z.ltb_spec 0 a) as [A0|A0]; [|destruct (Z.ltb_spec 0 b) as [B0|B0]].
  - exists 0. split; [reflexivity|]. left. split; [reflexivity|]. split; [lia|].
    exists 1%R, 0%R, (sqrt (IZR a)). split; [lra|]. rewrite sqrt_def by (apply IZR_le; lia). ring.
  - exists 0. split; [reflexivity|]. left. split; [reflexivity|]. split; [lia|].
    exists 0%R, 1%R, (sqrt (IZR b)). split; [lra|]. rewrite sqrt_def by (apply IZR_le; lia). ring.
  - exists 1. split; [reflexivity|]. right. split; [reflexivity|]. intros (x & y & z & N & E). apply N.
    assert (HA : (IZR a <= -1)%R) by (apply IZR_le; lia). assert (HB : (IZR b <= -1)%R) by (apply IZR_le; lia).
    pose proof (Rle_0_sqr x) as X. pose proof (Rle_0_sqr y) as Y. pose proof (Rle_0_sqr z) as W. unfold Rsqr in *.
    assert (KX : (IZR a * (x * x) <= -1 * (x * x))%R) by (apply Rmult_le_compat_r; assumption).
    assert (KY : (IZR b * (y * y) <= -1 * (y * y))%R) by (apply Rmult_le_compat_r; assumption).
    assert (E' : (IZR a * (x * x) + IZR b * (y * y) = z * z)%R) by (rewrite <- E; ring).
    assert (X0 : (x * x = 0)%R) by lra. assert (Y0 : (y * y = 0)%R) by lra. assert (Z0 : (z * z = 0)%R) by lra.
    apply Rmult_integral in X0, Y0, Z0. tauto.
Qed.

(** ** the theorem of Hasse and Minkowski for three variables *)
Lemma sqf_split a : a <> 0 -> exists a1 s, a = a1 * (s * s) /\ 0 < s /\ square_free a1.
Proof.
  intros A. destruct (C51_sqfdecomp a (pdivs_example a) A) as (a1 & s & apl & _ & E & S & F & _).
  - destruct (pdivs_contract_met a A) as (SO & H). split.
    + apply (sorted_pdivs_spec _ pdivs_contract_met a A).
    + split; [apply Forall_forall; intros p I; now apply H|]. intros p Hp D. now apply H.
  - exists a1, s. auto.
Qed.
Lemma sqf_roots m a : square_free m -> (forall p, prime p -> (p | m) -> exists x, sqroot x a p) -> exists x, (m | x * x - a).
Proof.
  intros S H. pose proof (sorted_pdivs_spec _ pdivs_contract_met m (sqf_nz m S)) as PL.
  destruct (roots_prodl a (pdivs_example m)) as (x & X).
  - apply PL.
  - now apply plist_primes with m.
  - intros p I. apply PL in I. now apply H.
  - exists x. rewrite (prodl_sqf m _ S PL) in X. now apply Z.divide_abs_l.
Qed.

(** the square class at p *)
Lemma class_at p a1 s : prime p -> 0 < s -> exists i s', 0 <= i /\ ~ (p | s') /\ a1 * (s * s) = p ^ i * p ^ i * (a1 * (s' * s')).
Proof.
  intros Hp S. pose proof (prime_ge_2 p Hp) as P.
  destruct (divide_out_ok s p) as (s' & i & _ & I & E & N); [lia|lia|]. exists i, s'. split; [exact I|]. split; [exact N|].
  rewrite E. ring.
Qed.
Lemma Lsym_unit_sq p a s : prime p -> p <> 2 -> ~ (p | s) -> Lsym (a * (s * s)) p = Lsym a p.
Proof.
  intros Hp P2 S. pose proof (prime_odd p Hp P2) as op. rewrite !(Lsym_mul _ _ op).
  destruct (Lsym_nz s p op S) as [-> | ->]; ring.
Qed.
Lemma unit_mul_sq p a s : prime p -> ~ (p | a) -> ~ (p | s) -> ~ (p | a * (s * s)).
Proof. intros Hp A S D. apply (prime_mult p Hp) in D as [D|D]; [auto|]. apply (prime_mult p Hp) in D. tauto. Qed.

Lemma residue_10 p u v s t : prime p -> p <> 2 -> ~ (p | u) -> ~ (p | v) -> 0 < s -> 0 < t ->
  soluble_Qp p (p * u * (s * s)) (v * (t * t)) -> Lsym v p = 1.
Proof.
  intros Hp P2 U V S T SO. pose proof (prime_ge_2 p Hp) as P. pose proof (prime_odd p Hp P2) as op.
  destruct (Lsym_nz v p op V) as [L|L]; [exact L|exfalso]. revert SO.
  destruct (class_at p (p * u) s Hp S) as (i & s' & I & NS & ->). destruct (class_at p v t Hp T) as (j & t' & J & NT & ->).
  apply obs_insoluble; auto. rewrite <- (Z.mul_assoc p u). apply obs_10; auto.
  - now apply unit_mul_sq.
  - now apply unit_mul_sq.
  - now rewrite Lsym_unit_sq.
Qed.
Lemma residue_11 p u v s t : prime p -> p <> 2 -> ~ (p | u) -> ~ (p | v) -> 0 < s -> 0 < t ->
  soluble_Qp p (p * u * (s * s)) (p * v * (t * t)) -> Lsym (- (u * v)) p = 1.
Proof.
  intros Hp P2 U V S T SO. pose proof (prime_ge_2 p Hp) as P. pose proof (prime_odd p Hp P2) as op.
  assert (UV : ~ (p | - (u * v))).
  { intros D. apply (proj1 (Z.divide_opp_r _ _)) in D. apply (prime_mult p Hp) in D. tauto. }
  destruct (Lsym_nz (- (u * v)) p op UV) as [L|L]; [exact L|exfalso]. revert SO.
  destruct (class_at p (p * u) s Hp S) as (i & s' & I & NS & ->). destruct (class_at p (p * v) t Hp T) as (j & t' & J & NT & ->).
  apply obs_insoluble; auto. rewrite <- (Z.mul_assoc p u), <- (Z.mul_assoc p v). apply obs_11; auto.
  - now apply unit_mul_sq.
  - now apply unit_mul_sq.
  - replace (- (u * (s' * s') * (v * (t' * t')))) with (- (u * v) * (s' * s') * (t' * t')) by ring. rewrite !Lsym_unit_sq; auto.
Qed.
Lemma soluble_Qp_sym p a b : soluble_Qp p a b -> soluble_Qp p b a.
Proof.
  intros (x & y & z & CX & CY & CZ & (n & N) & H). exists y, x, z. do 3 (split; [assumption|]). split; [exists n; tauto|].
  intros m. rewrite (Z.add_comm (b * _ * _)). apply H.
Qed.

Lemma root_of_Lsym p a : prime p -> (p <> 2 -> ~ (p | a) /\ Lsym a p = 1) -> exists x, sqroot x a p.
Proof.
  intros Hp H. destruct (Z.eq_dec p 2) as [->|P2]; [apply root_mod2|].
  destruct (H P2) as (N & L). now apply Lsym_square.
Qed.

Lemma conv_hilbert a1 b1 s t : 0 < s -> 0 < t -> dsoluble a1 b1 -> has_solution (hilbert_eq (a1 * (s * s)) (b1 * (t * t))).
Proof.
  intros S T ([[x y] z] & E & N). exists (z * t), (y * s), (x * s * t). split.
  - unfold hilbert_eq. transitivity (s * s * (t * t) * (a1 * (z * z) + b1 * (y * y))); [ring|].
    replace (a1 * (z * z) + b1 * (y * y)) with (x * x) by lia. ring.
  - intros (Z0 & Y0 & X0). apply Z.mul_eq_0 in Z0, Y0, X0. destruct X0 as [X0|X0]; [apply Z.mul_eq_0 in X0|];
      unfold nonzero3 in N; lia.
Qed.

(** only the real place and the odd primes are needed *)
Theorem hasse a b : a <> 0 -> b <> 0 -> ~ (a < 0 /\ b < 0) ->
  (forall p, prime p -> p <> 2 -> (p | a * b) -> soluble_Qp p a b) -> has_solution (hilbert_eq a b).
Proof.
  intros A B SG H. destruct (sqf_split a A) as (a1 & s & EA & S & FA). destruct (sqf_split b B) as (b1 & t & EB & T & FB).
  assert (SG1 : ~ (a1 < 0 /\ b1 < 0)).
  { intros (N1 & N2). apply SG. rewrite EA, EB. split; apply Z.mul_neg_pos; auto; apply Z.mul_pos_pos; auto. }
  rewrite EA, EB in *. clear EA EB a b. apply conv_hilbert; auto.
  pose proof (sqf_nz a1 FA) as A1. pose proof (sqf_nz b1 FB) as B1.
  set (g := Z.gcd a1 b1). assert (G : g <> 0) by (intros G; apply Z.gcd_eq_0 in G; tauto).
  destruct (Z.gcd_divide_l a1 b1) as (a0 & Ea). destruct (Z.gcd_divide_r a1 b1) as (b0 & Eb). fold g in Ea, Eb.
  rewrite Z.mul_comm in Ea, Eb.
  assert (G0 : 0 < g) by (pose proof (Z.gcd_nonneg a1 b1); unfold g in *; lia).
  assert (FG : square_free g) by (apply (sqf_div a1); [exact FA|rewrite Ea; apply Z.divide_factor_l]).
  assert (FA0 : square_free a0) by (apply (sqf_div a1); [exact FA|rewrite Ea; apply Z.divide_factor_r]).
  assert (FB0 : square_free b0) by (apply (sqf_div b1); [exact FB|rewrite Eb; apply Z.divide_factor_r]).
  pose proof (sqf_nz a0 FA0) as A0. pose proof (sqf_nz b0 FB0) as B0.
  assert (SQ : forall p n, prime p -> square_free n -> forall u v, n = u * v -> (p | u) -> (p | v) -> False).
  { intros p n Hp F u v E (h & ->) (k & ->). apply (F p Hp). exists (h * k). rewrite E. ring. }
  assert (AG : forall p, prime p -> (p | a0) -> ~ (p | g)) by (intros p Hp D D'; apply (SQ p a1 Hp FA g a0 Ea D' D)).
  assert (BG : forall p, prime p -> (p | b0) -> ~ (p | g)) by (intros p Hp D D'; apply (SQ p b1 Hp FB g b0 Eb D' D)).
  assert (AB : forall p, prime p -> (p | a0) -> ~ (p | b0)).
  { intros p Hp D D'. apply (AG p Hp D). unfold g. apply Z.gcd_greatest; [rewrite Ea|rewrite Eb]; now apply Z.divide_mul_r. }
  apply (dsoluble_red a1 b1 g a0 b0 G FG Ea Eb). apply (has_sol _ _ (leg_spec a0 b0 (- g))).
  assert (U : forall p u v, prime p -> ~ (p | u) -> ~ (p | v) -> ~ (p | u * v)) by (intros p u v Hp X Y D; apply (prime_mult p Hp) in D; tauto).
  apply C64_legendre; auto.
  - now apply sqf_opp.
  - split; [|split].
    + apply cop_primes; [exact A0|]. intros p Hp D D'. exact (AB p Hp D D').
    + apply cop_primes; [exact A0|]. intros p Hp D D'. apply (AG p Hp D). now apply (proj1 (Z.divide_opp_r _ _)).
    + apply cop_primes; [exact B0|]. intros p Hp D D'. apply (BG p Hp D). now apply (proj1 (Z.divide_opp_r _ _)).
  - split; [|split; [|split]].
    + intros (S1 & S2). rewrite Z.sgn_opp in S2. rewrite (Z.sgn_pos g G0) in S2.
      assert (a0 < 0 /\ b0 < 0) as (N1 & N2) by (clear - S1 S2; lia). apply SG1. rewrite Ea, Eb.
      split; apply Z.mul_pos_neg; assumption.
    + destruct (sqf_roots a0 b1 FA0) as (n & N).
      * intros p Hp D. apply root_of_Lsym; auto. intros P2. destruct D as (u & Eu).
        assert (PA : (p | a0)) by (exists u; exact Eu).
        assert (V : ~ (p | b1)) by (rewrite Eb; apply U; auto). split; [exact V|].
        assert (N : ~ (p | g * u)).
        { apply U; auto. intros (k & ->). apply (FA p Hp). exists (g * k). rewrite Ea, Eu. ring. }
        apply (residue_10 p (g * u) b1 s t Hp P2 N V S T).
        replace (p * (g * u) * (s * s)) with (a1 * (s * s)) by (rewrite Ea, Eu; ring). apply H; auto.
        rewrite Ea. do 2 apply Z.divide_mul_l. now apply Z.divide_mul_r.
      * exists n. replace (n * n + b0 * - g) with (n * n - b1) by (rewrite Eb; ring). exact N.
    + destruct (sqf_roots b0 a1 FB0) as (n & N).
      * intros p Hp D. apply root_of_Lsym; auto. intros P2. destruct D as (u & Eu).
        assert (PA : (p | b0)) by (exists u; exact Eu).
        assert (V : ~ (p | a1)) by (rewrite Ea; apply U; auto; intros D; exact (AB p Hp D PA)). split; [exact V|].
        assert (N : ~ (p | g * u)).
        { apply U; auto. intros (k & ->). apply (FB p Hp). exists (g * k). rewrite Eb, Eu. ring. }
        apply (residue_10 p (g * u) a1 t s Hp P2 N V T S).
        replace (p * (g * u) * (t * t)) with (b1 * (t * t)) by (rewrite Eb, Eu; ring). apply soluble_Qp_sym, H; auto.
        rewrite Eb. apply Z.divide_mul_r, Z.divide_mul_l. now apply Z.divide_mul_r.
      * exists n. replace (n * n + a0 * - g) with (n * n - a1) by (rewrite Ea; ring). exact N.
    + destruct (sqf_roots g (- (a0 * b0)) FG) as (n & N).
      * intros p Hp D. apply root_of_Lsym; auto. intros P2.
        assert (NA : ~ (p | a0)) by (intros D'; exact (AG p Hp D' D)). assert (NB : ~ (p | b0)) by (intros D'; exact (BG p Hp D' D)).
        split. { intros D'. apply (proj1 (Z.divide_opp_r _ _)) in D'. exact (U p a0 b0 Hp NA NB D'). }
        destruct D as (h & Eh).
        assert (NH : ~ (p | h)).
        { intros (k & ->). apply (FG p Hp). exists k. rewrite Eh. ring. }
        rewrite <- (Lsym_unit_sq p _ h Hp P2 NH). replace (- (a0 * b0) * (h * h)) with (- (h * a0 * (h * b0))) by ring.
        apply (residue_11 p (h * a0) (h * b0) s t Hp P2); auto.
        replace (p * (h * a0) * (s * s)) with (a1 * (s * s)) by (rewrite Ea, Eh; ring).
        replace (p * (h * b0) * (t * t)) with (b1 * (t * t)) by (rewrite Eb, Eh; ring). apply H; auto.
        rewrite Ea, Eh. do 3 apply Z.divide_mul_l. exists h. ring.
      * exists n. apply Z.divide_opp_l. replace (n * n + a0 * b0) with (n * n - - (a0 * b0)) by ring. exact N.
Qed.

(** ** the loop *)
Lemma hilbert_any_ok a b : a <> 0 -> b <> 0 -> forall l badp, Forall prime l ->
  exists v q, hilbert_any a b l badp = Ok (v, q) /\
   ((v = 0 /\ forall p, In p l -> soluble_Qp p a b) \/ (v = 1 /\ In q l /\ ~ soluble_Qp q a b)).
Proof.
  intros A B. induction l as [|p l IH]; intros badp F; cbn [hilbert_any].
  - exists 0, badp. split; [reflexivity|]. left. split; [reflexivity|]. intros p [].
  - inversion F as [|p' l' Hp FL]. subst p' l'. destruct (local_hilbert_ok a b p A B Hp) as (r & -> & HR). rewrite bind_Ok.
    destruct HR as [(-> & HR)|(-> & HR)]; cbn [Z.eqb].
    + destruct (IH p FL) as (v & q & -> & HQ). exists v, q. split; [reflexivity|].
      destruct HQ as [(V & HQ)|(V & I & HQ)]; [left|right].
      * split; [exact V|]. intros p' [<-|I]; auto.
      * split; [exact V|]. split; [now right|exact HQ].
    + exists 1, p. split; [reflexivity|]. right. split; [reflexivity|]. split; [now left|exact HR].
Qed.
Definition verdict (sol : Prop) (a b : Z) (plist : list Z) (v q : Z) : Prop :=
  (v = 0 /\ sol) \/ (v = 1 /\ ~ sol /\ (q = 0 \/ In q plist) /\ ~ soluble_at q a b).
(** [skip]: at the odd primes outside the list there must be a solution for some other reason *)
Theorem global_hilbert_ok a b l badp : a <> 0 -> b <> 0 -> Forall prime l ->
  (forall p, prime p -> p <> 2 -> (p | a * b) -> In p l \/ soluble_Qp p a b) ->
  exists v q, global_hilbert a b l badp = Ok (v, q) /\ verdict (has_solution (hilbert_eq a b)) a b l v q.
Proof.
  intros A B F C. unfold global_hilbert. destruct (real_place a b A B) as (r & -> & HR). rewrite bind_Ok.
  destruct HR as [(-> & SG & HR)|(-> & HR)]; cbn [Z.eqb].
  - destruct (hilbert_any_ok a b A B l badp F) as (v & q & -> & [(-> & H)|(-> & I & H)]).
    + exists 0, q. split; [reflexivity|]. left. split; [reflexivity|]. apply hasse; auto.
      intros p Hp P2 D. destruct (C p Hp P2 D) as [I|S]; auto.
    + exists 1, q. split; [reflexivity|]. right. split; [reflexivity|].
      pose proof (proj1 (Forall_forall _ _) F q I) as Hq. split; [|split; [now right|]].
      * intros S. apply H. now apply solution_Qp.
      * unfold soluble_at. pose proof (prime_ge_2 q Hq). destruct (Z.eqb_spec q 0); [lia|exact H].
  - exists 1, 0. split; [reflexivity|]. right. split; [reflexivity|]. split; [|split; [now left|exact HR]].
    intros S. apply HR. now apply solution_R.
Qed.

(** ** the conic a x^2 + b x z + c z^2 = d y^2 *)
Lemma conic_hilbert a b c d : a <> 0 -> has_solution (conic a b c d) <-> has_solution (hilbert_eq (a * d) (b * b - 4 * a * c)).
Proof.
  intros A. split.
  - intros (x & y & z & E & N). exists (2 * y), z, (2 * a * x + b * z). unfold conic in E. split.
    + unfold hilbert_eq. transitivity (4 * a * (d * y * y) + (b * b - 4 * a * c) * z * z); [ring|]. rewrite <- E. ring.
    + intros (Y & Z0 & X). apply N. subst z. split; [|split; [lia|reflexivity]].
      rewrite Z.mul_0_r, Z.add_0_r in X. apply Z.mul_eq_0 in X. lia.
  - intros (y & z & x & E & N). exists (x - b * z), (a * y), (2 * a * z). unfold hilbert_eq in E. split.
    + unfold conic. transitivity (a * (x * x - (b * b - 4 * a * c) * z * z)); [ring|]. rewrite <- E. ring.
    + intros (X & Y & Z0). apply N. apply Z.mul_eq_0 in Y, Z0. assert (z = 0) by lia. subst z. split; [lia|]. split; [reflexivity|lia].
Qed.
Lemma unit_square_soluble p a v : prime p -> p <> 2 -> ~ (p | v) -> Lsym v p = 1 -> soluble_Qp p a v.
Proof.
  intros Hp P2 V L. apply soluble_of_square with 0 1; [now apply prime_ge_2|lia|].
  replace (a * 0 * 0 + v * 1 * 1) with v by ring. now apply Lsym_padic.
Qed.
Theorem global_hilbert_qd_ok a b c d l badp : a <> 0 -> d <> 0 -> b * b - 4 * a * c <> 0 -> Forall prime l ->
  (forall p, prime p -> p <> 2 -> (p | d * (b * b - 4 * a * c)) -> In p l) ->
  exists v q, global_hilbert_qd_plist (Qd a b c) d l badp = Ok (v, q) /\
    verdict (has_solution (conic a b c d)) (a * d) (b * b - 4 * a * c) l v q.
Proof.
  intros A D DI F C. unfold global_hilbert_qd_plist, q_disc. cbn [qa qb qc].
  destruct (global_hilbert_ok (a * d) (b * b - 4 * a * c) l badp) as (v & q & E & H); auto.
  - intros Z0. apply Z.mul_eq_0 in Z0. tauto.
  - intros p Hp P2 Dp. destruct (in_dec Z.eq_dec p l) as [I|I]; [now left|right].
    assert (ND : ~ (p | d)) by (intros H; apply I, C; auto; now apply Z.divide_mul_l).
    assert (NI : ~ (p | b * b - 4 * a * c)) by (intros H; apply I, C; auto; now apply Z.divide_mul_r).
    apply (prime_mult p Hp) in Dp as [Dp|Dp]; [|contradiction]. apply (prime_mult p Hp) in Dp as [Dp|Dp]; [|contradiction].
    apply unit_square_soluble; auto. pose proof (prime_odd p Hp P2) as op.
    destruct (Lsym_spec (b * b - 4 * a * c) op) as (_ & K & _). apply K; auto.
    exists b. replace (b * b - (b * b - 4 * a * c)) with (a * (4 * c)) by ring. now apply Z.divide_mul_l.
  - exists v, q. split; [exact E|]. unfold verdict in *. now rewrite (conic_hilbert a b c d A).
Qed.
