(** Tate's algorithm: the whole constructor *)
From Coq Require Import ZArith Znumtheory Lia List Bool.
From Verif Require Import Base RatModel MArithModel MArithProofs DivisorProofs CurveModel CurveProofs MinimalProofs
  TateModel TateSpec TateArith TateShift TateStar TateLoop TateProofs.
Import ListNotations.
Open Scope Z_scope.

Definition is_val (p x v : Z) : Prop := 0 <= v /\ (p ^ v | x) /\ ~ (p ^ (v + 1) | x).
(** power of p in the denominator of j = c4^3 / discriminant *)
Definition jden (p : Z) (c : curve) (j : Z) : Prop :=
  (sc4 c = 0 -> j = 0) /\
  (forall v v4, sc4 c <> 0 -> is_val p (sdisc c) v -> is_val p (sc4 c) v4 -> j = Z.max 0 (v - 3 * v4)).
(** the entry for p: discriminant and conductor exponents (Ogg's formula), j, type,
    Tamagawa number *)
Definition reduction_at (p : Z) (c : curve) (d : reduction) : Prop :=
  exists K r s t, tate_form p (tr_rst r s t c) K (c_p d) /\ kcode d = pinch_code K /\
    is_val p (sdisc c) (ord_p_discr d) /\ ord_p_N d = ord_p_discr d - (components K - 1) /\ jden p c (ord_p_j d).

Lemma is_val_unique p x v w : 2 <= p -> is_val p x v -> is_val p x w -> v = w.
Proof.
  intros G (V0 & V1 & V2) (W0 & W1 & W2).
  destruct (Z.lt_trichotomy v w) as [L|[L|L]]; [exfalso; apply V2|exact L|exfalso; apply W2].
  - apply ple with w; [lia|exact W1].
  - apply ple with v; [lia|exact V1].
Qed.

Lemma c4zero_bound c p : minimal c -> sc4 c = 0 -> prime p -> ~ (p ^ 40 | sdisc c).
Proof.
  intros [D0 M] C0 P D. pose proof (p0 p P) as G. pose proof (s_disc c) as SD. rewrite C0 in SD.
  assert (D6 : (p ^ 20 | sc6 c)).
  { apply (pow_root p (sc6 c) 2 20); [exact P|lia|lia|]. apply (dc1 _ _ (-1728) _ D). lia. }
  destruct D6 as [y Ey]. set (k := y * p ^ 14).
  assert (E6 : sc6 c = p ^ 6 * k) by (unfold k; rewrite Ey; ring).
  assert (K : kraus 0 k).
  { pose proof (kraus_necessary c D0) as KN. rewrite C0, E6 in KN. apply kraus_local in KN as (K1 & K2' & K3').
    apply kraus_local. split; [|split].
    - intros F. apply K1. replace (0 ^ 3 - (p ^ 6 * k) ^ 2) with (p ^ 12 * (0 ^ 3 - k ^ 2)) by ring. rewrite F. ring.
    - assert (T : forall m, (m | 1728) -> (m | 0 ^ 3 - (p ^ 6 * k) ^ 2)) by (intros m Hm; eapply Z.divide_trans; eauto).
      assert (S : forall q e, prime q -> 0 <= e <= 14 -> (q ^ e | 1728) -> (q ^ e | 0 ^ 3 - k ^ 2)).
      { intros q e Q He Hq. destruct (Z.eq_dec q p) as [->|NE].
        - apply ple with 14; [lia|]. exists (- y ^ 2 * p ^ 14). unfold k. ring.
        - apply pcancel_pow with (p ^ 12); [exact Q| |].
          + intros F. apply prime_pow_div in F; [|exact Q|lia]. apply NE. apply prime_div_prime; assumption.
          + replace (p ^ 12 * (0 ^ 3 - k ^ 2)) with (0 ^ 3 - (p ^ 6 * k) ^ 2) by ring. apply T. exact Hq. }
      destruct (S 2 6 prime_2 ltac:(lia) ltac:(exists 27; reflexivity)) as [u Hu].
      destruct (S 3 3 prime_3 ltac:(lia) ltac:(exists 64; reflexivity)) as [v Hv].
      set (Y := 0 ^ 3 - k ^ 2) in *. change (2 ^ 6) with 64 in Hu. change (3 ^ 3) with 27 in Hv.
      exists (19 * u - 8 * v). clear - Hu Hv. lia.
    - intros q Q. destruct (Z.eq_dec q p) as [->|NE].
      + split; intros ->; unfold k.
        * right. split; [apply Z.divide_0_r|]. left. change (2 ^ 14) with (512 * 32). rewrite Z.mul_assoc. apply Z.mod_mul. lia.
        * apply K3_iff. intros _. exists (y * 3 ^ 11). ring.
      + apply (Kp_scale q p). { intros F. apply NE. apply prime_div_prime; assumption. }
        rewrite Z.mul_0_r. apply K3'. exact Q. }
  apply kraus_iff in K as (c' & D' & Q4 & Q6).
  assert (CA := urst_ok c c' p). cbv zeta in CA.
  specialize (CA ltac:(rewrite C0, Q4; ring) ltac:(rewrite Q6; exact E6)).
  match type of CA with carries _ ?r ?s ?t _ _ => set (r0 := r) in *; set (s0 := s) in *; set (t0 := t) in * end.
  assert (QI : qiso c c').
  { exists 1, p, r0, s0, t0. split; [lia|]. split; [lia|]. unfold carries in *. rewrite <- CA. f_equal.
    destruct c as [A1 A2 A3 A4 A6]. unfold scale_up. cbn [a1 a2 a3 a4 a6]. apply curve_eq; ring. }
  specialize (M _ QI). apply carries_inv in CA as (_ & _ & SU). rewrite SU in M.
  apply Z.divide_abs_l in M. apply Z.divide_abs_r in M. apply Z.divide_pos_le in M; [|lia].
  rewrite Z.abs_mul in M. assert (2 ^ 12 <= p ^ 12) by (apply Z.pow_le_mono_l; lia).
  rewrite (Z.abs_eq (p ^ 12)) in M by lia. change (2 ^ 12) with 4096 in *.
  set (e := sdisc c') in *. set (q := p ^ 12) in *. clear - M H D'. nia.
Qed.

Lemma entry_reduction E p d : minimal (cv E) -> entry_ok E p d -> reduction_at p (cv E) d.
Proof.
  intros M (P & D & v & v4 & K & cp & r & s & t & V & V4 & -> & T). pose proof (p0 p P) as G. pose proof M as [D0 _].
  destruct (val_z_ok p (sdisc (cv E)) D0 ltac:(lia)) as (v' & V' & W0 & W1 & W2). assert (v' = v) as -> by congruence.
  exists K, r, s, t. cbn [c_p kcode ord_p_discr ord_p_N ord_p_j]. split; [exact T|]. split; [reflexivity|].
  split; [split; auto|]. split; [reflexivity|]. split.
  - intros C0. rewrite C0 in V4. change (val_z p 0) with (Ok 99999) in V4. injection V4 as <-.
    assert (v < 40); [|lia]. destruct (Z.lt_ge_cases v 40) as [L|L]; [exact L|]. exfalso.
    apply (c4zero_bound (cv E) p M C0 P). apply ple with v; [lia|exact W1].
  - intros w w4 C0 IV IV4. rewrite (is_val_unique p _ w v G IV (conj W0 (conj W1 W2))).
    destruct (val_z_ok p (sc4 (cv E)) C0 ltac:(lia)) as (v4' & V4' & U). assert (v4' = v4) as -> by congruence.
    rewrite (is_val_unique p _ w4 v4 G IV4 U). reflexivity.
Qed.

Lemma curvered_ok xgcd srm rm pdivs E : xgcd_spec xgcd -> srm 1 2 = 1 -> rootsmod_spec rm -> bad_spec pdivs ->
  consistent E -> sdisc (cv E) <> 0 -> minimal_flag E = false ->
  exists M l N, curvered xgcd srm rm pdivs E = Ok (M, l, N) /\
    consistent M /\ minimal (cv M) /\ normal (cv M) /\ (exists u r s t, 0 < u /\ carries u r s t (cv E) (cv M)) /\
    NoDup (map fst l) /\ (forall p, In p (map fst l) <-> prime p /\ (p | sdisc (cv M))) /\
    (forall p d, In (p, d) l -> reduction_at p (cv M) d) /\
    N = fold_right (fun x n => fst x ^ ord_p_N (snd x) * n) 1 l.
Proof.
  intros X S2 RM BS CE D0 MF. unfold curvered.
  assert (PS : pdivs_spec pdivs).
  { intros n Hn. destruct (BS n ltac:(lia)) as [ND I]. split; [exact ND|]. split.
    - apply Forall_forall. intros p Hp. apply I in Hp. tauto.
    - intros p P Dp. apply I. auto. }
  destruct (minimalize_ok pdivs E PS CE D0 MF) as (M & u & r & s & t & -> & CM & _ & _ & U & CA & MM & NM).
  rewrite bind_Ok. pose proof MM as [DM _]. pose proof CM as (_ & _ & _ & _ & _ & _ & KD). rewrite KD.
  destruct (Z.eqb_spec (sdisc (cv M)) 0) as [F|_]; [contradiction|].
  destruct (BS (sdisc (cv M)) DM) as [ND I].
  destruct (tate_loop_ok xgcd X srm S2 rm RM M CM MM (pdivs (sdisc (cv M))) M []) as (l & -> & Ml & Fl).
  { apply Forall_forall. intros p Hp. apply I in Hp. exact Hp. }
  { apply reach_refl. exact CM. }
  rewrite bind_Ok. cbn [app]. eexists M, l, _. split; [reflexivity|]. do 3 (split; [assumption|]).
  split; [exists u, r, s, t; auto|]. rewrite Ml. split; [exact ND|]. split; [exact I|]. split.
  - intros p d Hin. rewrite Forall_forall in Fl. specialize (Fl _ Hin). cbn [fst snd] in Fl. apply entry_reduction; assumption.
  - assert (FF : forall l' a, fold_left (fun n x => n * fst x ^ ord_p_N (snd x)) l' a = a * fold_right (fun x n => fst x ^ ord_p_N (snd x) * n) 1 l').
    { induction l' as [|x l' IH]; intros a; cbn [fold_left fold_right]; [ring|]. rewrite IH. ring. }
    rewrite FF. ring.
Qed.
