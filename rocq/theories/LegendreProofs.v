(** Correctness of leg/legendre/kronecker (arith.cc and marith.cc). *)
From Coq Require Import ZArith Lia List Bool Znumtheory.
From Verif Require Import Base ArithModel ArithProofs RatModel MArithModel.
From Verif Require Import LegendreSpec LegendreMath JacobiMath.
Import ListNotations.
Open Scope Z_scope.

Lemma zfuel_ok z : 4 * Z.abs z + 2 < 2 ^ Z.of_nat (zfuel z).
Proof.
  unfold zfuel. assert (0 <= Z.log2 (Z.abs z)) by apply Z.log2_nonneg.
  rewrite Z2Nat.id by lia. rewrite Z.pow_add_r by lia. change (2 ^ 3) with 8.
  destruct (Z.eq_dec z 0) as [->|]; [reflexivity|].
  pose proof (Z.log2_spec (Z.abs z) ltac:(lia)) as [_ B]. rewrite Z.pow_succ_r in B by lia. lia.
Qed.

(** tables *)
Lemma tab8 n : Z.odd n = true -> get table8 (n mod 8) = Ok (c8 n).
Proof.
  intros H. unfold c8. destruct (odd_mod8 n H) as [-> |[-> |[-> | ->]]]; reflexivity.
Qed.
Lemma tab4 n : Z.odd n = true -> get table4 (n mod 4) = Ok (c4 n).
Proof. intros H. unfold c4. destruct (odd_mod4 n H) as [-> | ->]; reflexivity. Qed.
Lemma tab44 m n : Z.odd m = true -> Z.odd n = true ->
  bind (get table44 (m mod 4)) (fun row => get row (n mod 4)) = Ok (h4 m n).
Proof.
  intros Hm Hn. unfold h4.
  destruct (odd_mod4 m Hm) as [-> | ->], (odd_mod4 n Hn) as [-> | ->]; reflexivity.
Qed.

Definition pm (s : Z) : Prop := s = 1 \/ s = -1.
Lemma pm_mul a b : pm a -> pm b -> pm (a * b).
Proof. unfold pm. intuition subst; auto. Qed.
Lemma pm_in a : pm a -> in64 a.
Proof. unfold pm, in64, min64, max64. lia. Qed.
Lemma pm_h4 a b : pm (h4 a b).
Proof. unfold pm, h4. destruct (_ && _); auto. Qed.
Lemma pm_c4 a : pm (c4 a). Proof. apply c4_pm. Qed.
Lemma pm_c8 a : pm (c8 a). Proof. apply c8_pm. Qed.

(** invariant of leg: [J0] is the value of the symbol *)
Definition leg_inv (J0 : Z) (s : Z * Z * Z) : Prop :=
  let '(aa, bb, ans) := s in
  0 < bb /\ pm ans /\ Z.gcd aa bb = 1 /\
  exists ps, Forall oprime ps /\ prodl ps = bb /\ ans * Jl aa ps = J0.

Lemma leg_swap aa bb ans J0 ps :
  0 < aa -> Z.odd aa = true -> 0 < bb -> Z.gcd aa bb = 1 -> pm ans ->
  Forall oprime ps -> prodl ps = bb -> ans * Jl aa ps = J0 ->
  leg_inv J0 (bb, aa, ans * h4 aa bb).
Proof.
  intros Ha Oa Hb G Hs Hps E J. unfold leg_inv.
  split; [auto|]. split; [apply pm_mul; auto; apply pm_h4|]. split; [now rewrite Z.gcd_comm|].
  destruct (factorisation_ex aa Ha) as (qs & Hqs). exists qs.
  pose proof (factorisation_odd aa qs Hqs Oa) as Oq. destruct Hqs as [_ Eq].
  split; auto. split; auto. pose proof (Jl_rec ps qs Hps Oq) as R. rewrite Eq, E in R.
  rewrite R in J. rewrite <- J, (h4_sym aa bb). ring.
Qed.

Lemma leg_exit J0 aa bb ans : leg_inv J0 (aa, bb, ans) -> bb <= 1 -> ans = J0.
Proof.
  intros (Hb & Hs & G & ps & Hps & E & J) Hb1.
  assert (bb = 1) by lia. assert (ps = []) by (apply prodl_1; [apply Forall_oprime; auto|lia]).
  subst ps. cbn [Jl fold_right] in J. lia.
Qed.

Lemma gcd_mult_l k a b : Z.gcd (k * a) b = 1 -> Z.gcd a b = 1.
Proof.
  intros G. apply Zgcd_1_rel_prime. apply Zgcd_1_rel_prime in G.
  apply rel_prime_div with (p := k * a); auto. exists k. ring.
Qed.

(** ** bigint version *)
Definition nz4 (a0 r : Z) : Prop := 0 < r /\ r mod 4 <> 0 /\ r <= a0 /\ exists k, 0 <= k /\ a0 = 4 ^ k * r.

Lemma div4z_ok a : 0 < a -> exists r, while div4z_step (zfuel a) a = Ok r /\ nz4 a r.
Proof.
  intros Ha.
  apply (while_total div4z_step (fun x => 0 < x /\ x <= a /\ exists k, 0 <= k /\ a = 4 ^ k * x) _ (fun x => x)).
  - intros; lia.
  - intros x (Hx & Hxa & k & Hk & E). unfold div4z_step.
    destruct (Z.eqb_spec (x mod 4) 0) as [M|M].
    + right. exists (x / 4). pose proof (Z.div_mod x 4 ltac:(lia)).
      split; [reflexivity|]. split; [|lia]. split; [lia|]. split; [lia|]. exists (k + 1). split; [lia|].
      rewrite Z.pow_add_r by lia. rewrite E. rewrite H, M at 1. ring.
    + left. exists x. split; auto. repeat split; auto. exists k; auto.
  - split; [auto|]. split; [lia|]. exists 0. split; [lia|]. rewrite Z.pow_0_r. ring.
  - pose proof (zfuel_ok a). lia.
Qed.

Lemma Jl_4k a k ps : Forall oprime ps -> 0 <= k -> Jl (4 ^ k * a) ps = Jl a ps.
Proof.
  intros H Hk. pattern k. apply natlike_ind; auto.
  - rewrite Z.pow_0_r, Z.mul_1_l. reflexivity.
  - intros x Hx IH. rewrite Z.pow_succ_r, <- Z.mul_assoc, Jl_4 by auto. exact IH.
Qed.

Lemma not4_even a : a mod 4 <> 0 -> a mod 2 = 0 -> Z.odd (a / 2) = true.
Proof.
  intros H4 H2. rewrite odd_mod2. apply Z.eqb_eq.
  pose proof (Z.div_mod a 2). pose proof (Z.div_mod a 4). pose proof (Z.mod_pos_bound a 4).
  pose proof (Z.div_mod (a / 2) 2). pose proof (Z.mod_pos_bound (a / 2) 2). lia.
Qed.

Lemma mod2_odd a : a mod 2 <> 0 -> Z.odd a = true.
Proof. intros H. rewrite odd_mod2. apply Z.eqb_eq. pose proof (Z.mod_pos_bound a 2). lia. Qed.

(** From a reduced positive residue, strip fours and a two, then swap. *)
Lemma leg_reduce J0 aa bb ans ps aa3 :
  0 < aa -> 1 < bb -> Z.gcd aa bb = 1 -> pm ans ->
  Forall oprime ps -> prodl ps = bb -> ans * Jl aa ps = J0 -> nz4 aa aa3 ->
  (aa3 mod 2 = 0 -> Z.odd (aa3 / 2) = true /\ 0 < aa3 / 2 <= aa /\
     leg_inv J0 (bb, aa3 / 2, ans * c8 bb * h4 (aa3 / 2) bb)) /\
  (aa3 mod 2 <> 0 -> Z.odd aa3 = true /\ leg_inv J0 (bb, aa3, ans * h4 aa3 bb)).
Proof.
  intros Ha Hb G Hs Hps E J (H3 & M4 & L & k & Hk & E4).
  assert (J3 : ans * Jl aa3 ps = J0) by (rewrite <- J, E4, Jl_4k; auto).
  assert (G3 : Z.gcd aa3 bb = 1) by (apply (gcd_mult_l (4 ^ k)); now rewrite <- E4).
  split.
  - intros M2. pose proof (not4_even aa3 M4 M2) as O.
    assert (E2 : aa3 = 2 * (aa3 / 2)) by (pose proof (Z.div_mod aa3 2); lia).
    split; [auto|]. split; [lia|].
    apply leg_swap with (ps := ps); auto; try lia.
    + apply (gcd_mult_l 2). now rewrite <- E2.
    + apply pm_mul; auto. apply pm_c8.
    + rewrite <- J3. assert (X : Jl aa3 ps = c8 bb * Jl (aa3 / 2) ps).
      { rewrite E2 at 1. rewrite Jl_2, E by auto. reflexivity. }
      rewrite X. ring.
  - intros M2. pose proof (mod2_odd aa3 M2) as O. split; auto.
    apply leg_swap with (ps := ps); auto; lia.
Qed.

Lemma gcd_1_mod a b : b <> 0 -> Z.gcd a b = 1 -> Z.gcd (a mod b) b = 1.
Proof. intros Hb G. rewrite Z.gcd_mod by auto. rewrite Z.gcd_comm. auto. Qed.

Lemma inv_odd J0 aa bb ans : leg_inv J0 (aa, bb, ans) -> Z.odd bb = true.
Proof. intros (_ & _ & _ & ps & Hps & <- & _). now apply prodl_odd. Qed.

Lemma legz_step_ok J0 s : leg_inv J0 s ->
  (exists r, legz_step s = Ok (inr r) /\ r = J0) \/
  (exists s', legz_step s = Ok (inl s') /\ leg_inv J0 s' /\
     snd (fst s') <= snd (fst s) - 1).
Proof.
  destruct s as [[aa bb] ans]. intros I. pose proof (inv_odd _ _ _ _ I) as Ob.
  unfold legz_step. destruct (Z.leb_spec bb 1) as [B|B].
  - left. exists ans. split; auto. eapply leg_exit; eauto.
  - right. destruct I as (Hb & Hs & G & ps & Hps & E & J).
    unfold zz_mod. destruct (Z.eqb_spec bb 0); [lia|]. rewrite bind_Ok.
    pose proof (Z.mod_pos_bound aa bb Hb) as Br.
    set (a1 := aa mod bb) in *.
    assert (G1 : Z.gcd a1 bb = 1) by (apply gcd_1_mod; lia).
    assert (J1 : ans * Jl a1 ps = J0).
    { rewrite <- J. f_equal. apply Jl_mod; auto. rewrite E. exists (- (aa / bb)).
      unfold a1. pose proof (Z.div_mod aa bb). lia. }
    assert (P1 : 0 < a1).
    { destruct (Z.eq_dec a1 0) as [Z0|]; [|lia]. rewrite Z0, Z.gcd_0_l in G1. lia. }
    destruct (Z.ltb_spec a1 0); [lia|]. rewrite bind_Ok.
    destruct (div4z_ok a1 P1) as (a3 & -> & N4). rewrite bind_Ok.
    destruct (leg_reduce J0 a1 bb ans ps a3 P1 B G1 Hs Hps E J1 N4) as [He Ho].
    destruct N4 as (P3 & _ & L3 & _).
    destruct (Z.eqb_spec (a3 mod 2) 0) as [M|M].
    + destruct (He M) as (O & Br3 & I). unfold chi2_z, posmod_zl. change (Z.abs 8) with 8.
      rewrite tab8 by auto. rewrite !bind_Ok. unfold hilbert2_z, posmod_zl. change (Z.abs 4) with 4.
      rewrite tab44 by auto. rewrite bind_Ok. eexists. split; [reflexivity|].
      split; [exact I|]. cbn [fst snd]. lia.
    + destruct (Ho M) as (O & I). rewrite bind_Ok. unfold hilbert2_z, posmod_zl.
      change (Z.abs 4) with 4. rewrite tab44 by auto. rewrite bind_Ok.
      eexists. split; [reflexivity|]. split; [exact I|]. cbn [fst snd]. lia.
Qed.

Lemma leg_z_ok a b ps :
  0 < b -> Z.gcd a b = 1 -> Forall oprime ps -> prodl ps = b -> leg_z a b = Ok (Jl a ps).
Proof.
  intros Hb G Hps E. unfold leg_z.
  destruct (while_total legz_step (leg_inv (Jl a ps)) (fun r => r = Jl a ps)
             (fun s => snd (fst s))) with (n := zfuel b) (s := (a, b, 1)) as (r & -> & ->); auto.
  - intros [[aa bb] ans] (H & _). cbn [fst snd]. lia.
  - intros s Hs. apply legz_step_ok, Hs.
  - split; [auto|]. split; [left; auto|]. split; [auto|]. exists ps. repeat split; auto. ring.
  - cbn [fst snd]. pose proof (zfuel_ok b). lia.
Qed.

Lemma Jl_gcd a ps : Forall oprime ps -> Z.gcd a (prodl ps) <> 1 -> Jl a ps = 0.
Proof.
  induction 1 as [|p ps Hp H IH]; intros G.
  - change (prodl []) with 1 in G. rewrite Z.gcd_1_r in G. contradiction.
  - rewrite Jl_cons. rewrite prodl_cons in G.
    destruct (Zdivide_dec p a) as [D|D]; [rewrite Lsym_dvd by auto; ring|].
    rewrite IH; [ring|]. intros G1. apply G.
    apply Zgcd_1_rel_prime. apply rel_prime_mult.
    + apply rel_prime_sym, prime_rel_prime; auto. apply Hp.
    + now apply Zgcd_1_rel_prime.
Qed.

Lemma legendre_z_ok a b : 0 < b -> Z.odd b = true ->
  exists s, legendre_z a b = Ok s /\ jacobi_symbol a b s.
Proof.
  intros Hb Ob. destruct (factorisation_ex b Hb) as (ps0 & F0).
  pose proof (factorisation_odd b ps0 F0 Ob) as O0. destruct F0 as [P0 E0].
  unfold legendre_z. rewrite Ob, andb_true_r.
  destruct (Z.eqb_spec (Z.gcd a b) 1) as [G|G].
  - exists (Jl a ps0). split; [apply leg_z_ok; auto|].
    intros ps F. pose proof (factorisation_odd b ps F Ob) as O. destruct F as [P E].
    assert (X : leg_z a b = Ok (Jl a ps)) by (apply leg_z_ok; auto).
    rewrite (leg_z_ok a b ps0) in X by auto. injection X as ->. apply Jl_product; auto.
  - exists 0. split; auto. intros ps F. pose proof (factorisation_odd b ps F Ob) as O.
    destruct F as [P E]. rewrite <- (Jl_gcd a ps); auto. apply Jl_product; auto. now rewrite E.
Qed.

(** ** long version *)
Lemma div4_ok a : 0 < a <= max64 -> exists r, while div4_step W a = Ok r /\ nz4 a r.
Proof.
  intros Ha.
  apply (while_total div4_step (fun x => 0 < x /\ x <= a /\ exists k, 0 <= k /\ a = 4 ^ k * x) _ (fun x => x)).
  - intros; lia.
  - intros x (Hx & Hxa & k & Hk & E). unfold div4_step.
    assert (I : in64 x) by (unfold in64, min64, max64 in *; lia).
    rewrite rem64_ok by (auto; lia). rewrite bind_Ok. rewrite Z.rem_mod_nonneg by lia.
    destruct (Z.eqb_spec (x mod 4) 0) as [M|M].
    + right. rewrite quot64_ok by (auto; lia). rewrite bind_Ok.
      rewrite Z.quot_div_nonneg by lia.
      exists (x / 4). pose proof (Z.div_mod x 4 ltac:(lia)).
      split; [reflexivity|]. split; [|lia]. split; [lia|]. split; [lia|]. exists (k + 1). split; [lia|].
      rewrite Z.pow_add_r by lia. rewrite E. rewrite H, M at 1. ring.
    + left. exists x. split; auto. repeat split; auto. exists k; auto.
  - split; [lia|]. split; [lia|]. exists 0. split; [lia|]. rewrite Z.pow_0_r. ring.
  - change (2 ^ Z.of_nat W) with 1180591620717411303424. unfold max64 in Ha. lia.
Qed.

Definition legl_inv J0 (s : Z * Z * Z) : Prop :=
  leg_inv J0 s /\ sym64 (fst (fst s)) /\ snd (fst s) <= max64.

Lemma chi2_long_ok b : 0 < b <= max64 -> Z.odd b = true -> chi2_long b = Ok (c8 b).
Proof.
  intros Hb O. unfold chi2_long.
  rewrite posmod_long_ok by (unfold in64, min64, max64 in *; lia). rewrite bind_Ok. apply tab8, O.
Qed.
Lemma chi4_long_ok b : 0 < b <= max64 -> Z.odd b = true -> chi4_long b = Ok (c4 b).
Proof.
  intros Hb O. unfold chi4_long.
  rewrite posmod_long_ok by (unfold in64, min64, max64 in *; lia). rewrite bind_Ok. apply tab4, O.
Qed.
Lemma hilbert2_long_ok a b : 0 < a <= max64 -> 0 < b <= max64 ->
  Z.odd a = true -> Z.odd b = true -> hilbert2_long a b = Ok (h4 a b).
Proof.
  intros Ha Hb Oa Ob. unfold hilbert2_long.
  rewrite !posmod_long_ok by (unfold in64, min64, max64 in *; lia). rewrite !bind_Ok.
  apply tab44; auto.
Qed.
Lemma mul64_pm a b : pm a -> pm b -> mul64 a b = Ok (a * b).
Proof. intros. apply mul64_ok, pm_in, pm_mul; auto. Qed.

Lemma leg_step_ok J0 s : legl_inv J0 s ->
  (exists r, leg_step s = Ok (inr r) /\ r = J0) \/
  (exists s', leg_step s = Ok (inl s') /\ legl_inv J0 s' /\
     snd (fst s') <= snd (fst s) - 1).
Proof.
  destruct s as [[aa bb] ans]. intros (I & Sa & Sb). cbn [fst snd] in *.
  pose proof (inv_odd _ _ _ _ I) as Ob.
  unfold leg_step. destruct (Z.leb_spec bb 1) as [B|B].
  - left. exists ans. split; auto. eapply leg_exit; eauto.
  - right. destruct I as (Hb & Hs & G & ps & Hps & E & J).
    rewrite rem64_ok by (try apply sym64_in; auto; lia). rewrite bind_Ok.
    set (a1 := Z.rem aa bb).
    assert (B1 : Z.abs a1 < bb) by (pose proof (rem_abs_lt aa bb ltac:(lia)); unfold a1; lia).
    pose proof (quot_rem_eq aa bb ltac:(lia)) as QR. fold a1 in QR.
    assert (J1 : ans * Jl a1 ps = J0).
    { rewrite <- J. f_equal. apply Jl_mod; auto. rewrite E. exists (- (Z.quot aa bb)). lia. }
    assert (G1 : Z.gcd a1 bb = 1).
    { rewrite Z.gcd_comm, <- (Z.gcd_add_mult_diag_r bb a1 (Z.quot aa bb)), Z.gcd_comm.
      rewrite <- G. f_equal. lia. }
    assert (NZ : a1 <> 0) by (intros Z0; rewrite Z0, Z.gcd_0_l in G1; lia).
    assert (X : exists ans1, (if a1 <? 0 then na <- neg64 a1;; x <- chi4_long bb;;
                 s <- mul64 ans x;; Ok (na, s) else Ok (a1, ans))%res = Ok (Z.abs a1, ans1) /\
               pm ans1 /\ ans1 * Jl (Z.abs a1) ps = J0).
    { destruct (Z.ltb_spec a1 0).
      - rewrite neg64_ok by (unfold in64, min64, max64 in *; lia). rewrite bind_Ok.
        rewrite chi4_long_ok by (auto; lia). rewrite bind_Ok.
        rewrite mul64_pm by (auto; apply pm_c4). rewrite bind_Ok.
        exists (ans * c4 bb). split; [f_equal; f_equal; lia|].
        split; [apply pm_mul; auto; apply pm_c4|].
        rewrite <- J1. replace (Z.abs a1) with (- a1) by lia. rewrite Jl_opp, E by auto.
        destruct (c4_pm bb) as [-> | ->]; ring.
      - exists ans. rewrite Z.abs_eq by lia. auto. }
    destruct X as (ans1 & -> & Hs1 & J1'). rewrite bind_Ok.
    assert (P1 : 0 < Z.abs a1) by lia.
    assert (G1' : Z.gcd (Z.abs a1) bb = 1) by (rewrite Z.gcd_abs_l; auto).
    destruct (div4_ok (Z.abs a1)) as (a3 & -> & N4); [lia|]. rewrite bind_Ok.
    destruct (leg_reduce J0 (Z.abs a1) bb ans1 ps a3 P1 B G1' Hs1 Hps E J1' N4) as [He Ho].
    destruct N4 as (P3 & _ & L3 & _).
    assert (I3 : in64 a3) by (unfold in64, min64, max64 in *; lia).
    rewrite rem64_ok by (auto; lia). rewrite bind_Ok. rewrite Z.rem_mod_nonneg by lia.
    destruct (Z.eqb_spec (a3 mod 2) 0) as [M|M].
    + destruct (He M) as (O & Br3 & I).
      rewrite quot64_ok by (auto; lia). rewrite bind_Ok. rewrite Z.quot_div_nonneg by lia.
      rewrite chi2_long_ok by (auto; lia). rewrite bind_Ok.
      rewrite mul64_pm by (auto; apply pm_c8). rewrite !bind_Ok.
      rewrite hilbert2_long_ok by (auto; lia). rewrite bind_Ok.
      rewrite mul64_pm by (try apply pm_mul; auto; try apply pm_c8; apply pm_h4).
      rewrite bind_Ok.
      eexists. split; [reflexivity|]. unfold legl_inv. cbn [fst snd].
      repeat split; try apply I; unfold sym64; try lia.
    + destruct (Ho M) as (O & I). rewrite bind_Ok.
      rewrite hilbert2_long_ok by (auto; lia). rewrite bind_Ok.
      rewrite mul64_pm by (auto; apply pm_h4). rewrite bind_Ok.
      eexists. split; [reflexivity|]. unfold legl_inv. cbn [fst snd].
      repeat split; try apply I; unfold sym64; try lia.
Qed.

Lemma leg_long_ok a b ps :
  sym64 a -> 0 < b <= max64 -> Z.gcd a b = 1 -> Forall oprime ps -> prodl ps = b ->
  leg_long a b = Ok (Jl a ps).
Proof.
  intros Ha Hb G Hps E. unfold leg_long.
  destruct (while_total leg_step (legl_inv (Jl a ps)) (fun r => r = Jl a ps)
             (fun s => snd (fst s))) with (n := W) (s := (a, b, 1)) as (r & -> & ->); auto.
  - intros [[aa bb] ans] ((H & _) & _). cbn [fst snd]. lia.
  - intros s Hs. apply leg_step_ok, Hs.
  - unfold legl_inv. cbn [fst snd]. split; [|split; [auto|lia]].
    split; [lia|]. split; [left; auto|]. split; [auto|]. exists ps. repeat split; auto. ring.
  - cbn [fst snd]. change (2 ^ Z.of_nat W) with 1180591620717411303424. unfold max64 in Hb. lia.
Qed.

Lemma legendre_long_ok a b : sym64 a -> 0 < b <= max64 -> Z.odd b = true ->
  exists s, legendre_long a b = Ok s /\ jacobi_symbol a b s.
Proof.
  intros Ha Hb Ob. destruct (factorisation_ex b ltac:(lia)) as (ps0 & F0).
  pose proof (factorisation_odd b ps0 F0 Ob) as O0. destruct F0 as [P0 E0].
  unfold legendre_long. rewrite gcd_long_ok by (auto; unfold sym64; lia). rewrite bind_Ok.
  destruct (Z.eqb_spec (Z.gcd a b) 1) as [G|G].
  - rewrite rem64_ok by (unfold in64, min64, max64 in *; lia). rewrite bind_Ok.
    rewrite Z.rem_mod_nonneg by lia. rewrite odd_mod2 in Ob. apply Z.eqb_eq in Ob as Ob'.
    rewrite Ob'. change (1 =? 0) with false. cbv iota. rewrite <- odd_mod2 in Ob.
    exists (Jl a ps0). split; [apply leg_long_ok; auto|].
    intros ps F. pose proof (factorisation_odd b ps F Ob) as O. destruct F as [P E].
    assert (X : leg_long a b = Ok (Jl a ps)) by (apply leg_long_ok; auto).
    rewrite (leg_long_ok a b ps0) in X by auto. injection X as ->. apply Jl_product; auto.
  - exists 0. split; auto. intros ps F. pose proof (factorisation_odd b ps F Ob) as O.
    destruct F as [P E]. rewrite <- (Jl_gcd a ps); auto. apply Jl_product; auto. now rewrite E.
Qed.

(** A residue class determines the Jacobi symbol. *)
Lemma jacobi_mod a a' b s : Z.odd b = true -> (b | a - a') ->
  jacobi_symbol a b s -> jacobi_symbol a' b s.
Proof.
  intros Ob D H ps F. specialize (H ps F).
  pose proof (factorisation_odd b ps F Ob) as O. destruct F as [_ E]. subst b.
  assert (U : forall x t, symbol_product x ps t -> t = Jl x ps).
  { clear -O. induction O as [|p ps Hp H IH]; intros x t; inversion 1; subst; auto.
    rewrite Jl_cons. f_equal; auto. pose proof (oprime_pos p Hp).
    apply legendre_symbol_unique; auto. match goal with X : prime_symbol _ _ _ |- _ => apply X end. lia. }
  rewrite (U a s H), (Jl_mod a a' ps) by auto. apply Jl_product; auto.
Qed.

Lemma legendre_zl_ok a b : 0 < b <= max64 -> Z.odd b = true ->
  exists s, legendre_zl a b = Ok s /\ jacobi_symbol a b s.
Proof.
  intros Hb Ob. unfold legendre_zl. rewrite Z.rem_mod_nonneg by lia.
  rewrite odd_mod2 in Ob. apply Z.eqb_eq in Ob as Ob'.
  rewrite Ob'. change (1 =? 0) with false. cbv iota. rewrite <- odd_mod2 in Ob.
  unfold zz_mod. destruct (Z.eqb_spec b 0); [lia|]. rewrite bind_Ok.
  pose proof (Z.mod_pos_bound a b ltac:(lia)).
  destruct (legendre_long_ok (a mod b) b) as (s & Es & Hs); auto; [unfold sym64; lia|].
  exists s. split.
  - rewrite <- Es. unfold legendre_long. rewrite gcd_long_ok by (unfold sym64; lia).
    rewrite !bind_Ok. destruct (Z.gcd (a mod b) b =? 1); auto.
    rewrite rem64_ok by (unfold in64, min64, max64 in *; lia). rewrite bind_Ok.
    rewrite Z.rem_mod_nonneg by lia. rewrite Ob'.
    change (1 =? 0) with false. cbv iota. exact eq_refl.
  - apply (jacobi_mod (a mod b)); auto. exists (- (a / b)). pose proof (Z.div_mod a b). lia.
Qed.
