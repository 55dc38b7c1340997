(** Jacobi symbols over lists of primes. *)
From Coq Require Import ZArith Lia List Bool Znumtheory.
From Verif Require Import LegendreSpec LegendreMath.
Import ListNotations.
Open Scope Z_scope.

Definition Jl (a : Z) (ps : list Z) : Z := fold_right (fun p t => Lsym a p * t) 1 ps.
Definition c4 (n : Z) : Z := if n mod 4 =? 1 then 1 else -1.
Definition c8 (n : Z) : Z := if (n mod 8 =? 1) || (n mod 8 =? 7) then 1 else -1.
Definition h4 (m n : Z) : Z := if (m mod 4 =? 3) && (n mod 4 =? 3) then -1 else 1.

Lemma oprime_pos p : oprime p -> 2 < p.
Proof. intros H. destruct (oprime_nat H). lia. Qed.

Lemma prodl_pos ps : Forall prime ps -> 0 < prodl ps.
Proof.
  induction 1 as [|p ps Hp _ IH]; cbn [prodl fold_right]; [lia|].
  fold (prodl ps). pose proof (prime_ge_2 p Hp). nia.
Qed.
Lemma Forall_oprime ps : Forall oprime ps -> Forall prime ps.
Proof. intros H. eapply Forall_impl; [|exact H]. intros p [? ?]; auto. Qed.

Lemma prodl_1 ps : Forall prime ps -> prodl ps = 1 -> ps = [].
Proof.
  destruct 1 as [|p ps Hp H]; auto. cbn [prodl fold_right]. fold (prodl ps).
  pose proof (prime_ge_2 p Hp). pose proof (prodl_pos ps H). nia.
Qed.

Lemma odd_mul4 m n : Z.odd m = true -> Z.odd n = true ->
  ((m * n) mod 4 = 1 <-> m mod 4 = n mod 4).
Proof.
  intros Hm Hn. apply Z.odd_spec in Hm as [a Ha]. apply Z.odd_spec in Hn as [b Hb].
  rewrite Zmult_mod. pose proof (Z.mod_pos_bound m 4). pose proof (Z.mod_pos_bound n 4).
  pose proof (Z.div_mod m 4). pose proof (Z.div_mod n 4).
  assert (Cm : m mod 4 = 1 \/ m mod 4 = 3) by lia.
  assert (Cn : n mod 4 = 1 \/ n mod 4 = 3) by lia.
  destruct Cm as [-> | ->], Cn as [-> | ->]; cbn; intuition lia.
Qed.

Lemma odd_mod4 m : Z.odd m = true -> m mod 4 = 1 \/ m mod 4 = 3.
Proof.
  intros Hm. apply Z.odd_spec in Hm as [a Ha].
  pose proof (Z.mod_pos_bound m 4). pose proof (Z.div_mod m 4). lia.
Qed.
Lemma odd_mod8 m : Z.odd m = true -> m mod 8 = 1 \/ m mod 8 = 3 \/ m mod 8 = 5 \/ m mod 8 = 7.
Proof.
  intros Hm. apply Z.odd_spec in Hm as [a Ha].
  pose proof (Z.mod_pos_bound m 8). pose proof (Z.div_mod m 8). lia.
Qed.

Lemma c4_mul m n : Z.odd m = true -> Z.odd n = true -> c4 (m * n) = c4 m * c4 n.
Proof.
  intros Hm Hn. unfold c4. rewrite Zmult_mod.
  destruct (odd_mod4 m Hm) as [-> | ->], (odd_mod4 n Hn) as [-> | ->]; reflexivity.
Qed.
Lemma c8_mul m n : Z.odd m = true -> Z.odd n = true -> c8 (m * n) = c8 m * c8 n.
Proof.
  intros Hm Hn. unfold c8. rewrite Zmult_mod.
  destruct (odd_mod8 m Hm) as [-> |[-> |[-> | ->]]],
           (odd_mod8 n Hn) as [-> |[-> |[-> | ->]]]; reflexivity.
Qed.
Lemma h4_mul_l m n k : Z.odd m = true -> Z.odd n = true -> Z.odd k = true ->
  h4 (m * n) k = h4 m k * h4 n k.
Proof.
  intros Hm Hn Hk. unfold h4. rewrite Zmult_mod.
  destruct (odd_mod4 m Hm) as [-> | ->], (odd_mod4 n Hn) as [-> | ->],
    (odd_mod4 k Hk) as [-> | ->]; reflexivity.
Qed.
Lemma h4_sym m n : h4 m n = h4 n m.
Proof. unfold h4. now rewrite andb_comm. Qed.
Lemma h4_1_l n : h4 1 n = 1.
Proof. reflexivity. Qed.
Lemma h4_sq m n : h4 m n * h4 m n = 1.
Proof. unfold h4. destruct (_ && _); reflexivity. Qed.

Lemma prodl_odd ps : Forall oprime ps -> Z.odd (prodl ps) = true.
Proof.
  induction 1 as [|p ps [_ Hp] _ IH]; cbn [prodl fold_right]; [reflexivity|].
  fold (prodl ps). now rewrite Z.odd_mul, Hp, IH.
Qed.

Lemma Jl_cons a p ps : Jl a (p :: ps) = Lsym a p * Jl a ps.
Proof. reflexivity. Qed.
Lemma prodl_cons p ps : prodl (p :: ps) = p * prodl ps.
Proof. reflexivity. Qed.

Lemma Jl_mod a b ps : Forall oprime ps -> (prodl ps | a - b) -> Jl a ps = Jl b ps.
Proof.
  induction 1 as [|p ps Hp H IH]; [reflexivity|].
  rewrite prodl_cons, !Jl_cons. intros [k Hk].
  pose proof (oprime_pos p Hp).
  rewrite IH by (exists (k * p); rewrite Hk; ring).
  rewrite (@Lsym_mod a b p); [reflexivity| |lia]. exists (k * prodl ps). rewrite Hk. ring.
Qed.

Lemma Jl_mul a b ps : Forall oprime ps -> Jl (a * b) ps = Jl a ps * Jl b ps.
Proof.
  induction 1 as [|p ps Hp H IH]; [reflexivity|].
  rewrite !Jl_cons, IH, Lsym_mul by auto. ring.
Qed.

Lemma Lsym_1 p : oprime p -> Lsym 1 p = 1.
Proof.
  intros Hp. pose proof (oprime_pos p Hp) as P.
  destruct (Lsym_spec 1 Hp) as (_ & H & _). apply H.
  - intros D. apply Z.divide_1_r in D. lia.
  - exists 1. exists 0. lia.
Qed.
Lemma Jl_1 ps : Forall oprime ps -> Jl 1 ps = 1.
Proof. induction 1; [reflexivity|]. rewrite Jl_cons, IHForall, Lsym_1 by auto. reflexivity. Qed.

Lemma Jl_neg1 ps : Forall oprime ps -> Jl (-1) ps = c4 (prodl ps).
Proof.
  induction 1 as [|p ps Hp H IH]; [reflexivity|].
  rewrite Jl_cons, prodl_cons, c4_mul, IH, Lsym_neg1; auto; try apply Hp.
  now apply prodl_odd.
Qed.
Lemma Jl_two ps : Forall oprime ps -> Jl 2 ps = c8 (prodl ps).
Proof.
  induction 1 as [|p ps Hp H IH]; [reflexivity|].
  rewrite Jl_cons, prodl_cons, c8_mul, IH, Lsym_two; auto; try apply Hp.
  now apply prodl_odd.
Qed.

Lemma Lsym_dvd a p : oprime p -> (p | a) -> Lsym a p = 0.
Proof. intros Hp. destruct (Lsym_spec a Hp) as (H & _). exact H. Qed.

Lemma Lsym_nz a p : oprime p -> ~ (p | a) -> Lsym a p = 1 \/ Lsym a p = -1.
Proof.
  intros Hp Hd. unfold Lsym. pose proof (oprime_pos p Hp).
  destruct (Z.eqb_spec (a mod p) 0) as [E|E].
  - apply Z.mod_divide in E; [contradiction|lia].
  - destruct QuadRec.qres; auto.
Qed.

Lemma Lsym_rec' p q : oprime p -> oprime q -> Lsym q p = Lsym p q * h4 p q.
Proof.
  intros Hp Hq. destruct (Z.eq_dec p q) as [->|N].
  - rewrite Lsym_dvd; auto. apply Z.divide_refl.
  - unfold h4. apply Lsym_rec; auto.
Qed.

Lemma Jl_rec1 p qs : oprime p -> Forall oprime qs ->
  Lsym (prodl qs) p = Jl p qs * h4 p (prodl qs).
Proof.
  intros Hp. induction 1 as [|q qs Hq H IH].
  - change (prodl []) with 1. rewrite Lsym_1 by auto. unfold h4. cbn [Jl fold_right].
    rewrite andb_false_r. reflexivity.
  - rewrite prodl_cons, Jl_cons, Lsym_mul, IH, Lsym_rec' by auto.
    rewrite (h4_sym p (q * _)), h4_mul_l, !(h4_sym _ p); try apply Hp; try apply Hq.
    + ring.
    + now apply prodl_odd.
Qed.

Lemma Jl_rec ps qs : Forall oprime ps -> Forall oprime qs ->
  Jl (prodl qs) ps = Jl (prodl ps) qs * h4 (prodl ps) (prodl qs).
Proof.
  intros Hps Hqs. induction Hps as [|p ps Hp H IH].
  - change (prodl []) with 1. rewrite Jl_1 by auto. rewrite h4_1_l. reflexivity.
  - rewrite prodl_cons, Jl_cons, IH, Jl_rec1, Jl_mul, h4_mul_l; auto; try apply Hp;
      try (now apply prodl_odd). ring.
Qed.

(** squares of symbols *)
Lemma Jl_sq a ps : Forall oprime ps -> Z.gcd a (prodl ps) = 1 -> Jl a ps = 1 \/ Jl a ps = -1.
Proof.
  induction 1 as [|p ps Hp H IH]; [auto|].
  rewrite prodl_cons, Jl_cons. intros G.
  assert (Gp : ~ (p | a)).
  { intros D. assert (X : (p | 1)).
    { rewrite <- G. apply Z.gcd_greatest; auto. exists (prodl ps). ring. }
    apply Z.divide_1_r in X. pose proof (oprime_pos p Hp). lia. }
  assert (G2 : Z.gcd a (prodl ps) = 1).
  { apply Zgcd_1_rel_prime. apply Zgcd_1_rel_prime in G.
    apply rel_prime_sym. apply rel_prime_div with (p := p * prodl ps).
    - now apply rel_prime_sym.
    - exists p. ring. }
  destruct (Lsym_nz a p Hp Gp) as [-> | ->], (IH G2) as [-> | ->]; auto.
Qed.

Lemma c8_pm n : c8 n = 1 \/ c8 n = -1.
Proof. unfold c8. destruct (_ || _); auto. Qed.
Lemma c4_pm n : c4 n = 1 \/ c4 n = -1.
Proof. unfold c4. destruct (_ =? _); auto. Qed.

Lemma Jl_4 a ps : Forall oprime ps -> Jl (4 * a) ps = Jl a ps.
Proof.
  intros H. change 4 with (2 * 2). rewrite !Jl_mul, Jl_two by auto.
  destruct (c8_pm (prodl ps)) as [-> | ->]; ring.
Qed.
Lemma Jl_2 a ps : Forall oprime ps -> Jl (2 * a) ps = c8 (prodl ps) * Jl a ps.
Proof. intros H. rewrite Jl_mul, Jl_two by auto. ring. Qed.
Lemma Jl_opp a ps : Forall oprime ps -> Jl (- a) ps = c4 (prodl ps) * Jl a ps.
Proof.
  intros H. replace (- a) with (-1 * a) by ring. rewrite Jl_mul, Jl_neg1 by auto. ring.
Qed.
Lemma c8_pow n r : 0 <= r -> c8 n ^ r = if Z.odd r then c8 n else 1.
Proof.
  intros Hr. assert (D : 0 <= Z.div2 r) by (apply Z.div2_nonneg; lia).
  assert (B : 0 <= Z.b2z (Z.odd r)) by (destruct (Z.odd r); cbn [Z.b2z]; lia).
  rewrite (Z.div2_odd r) at 1. rewrite Z.pow_add_r by lia.
  rewrite Z.pow_mul_r by lia.
  replace (c8 n ^ 2) with 1 by (destruct (c8_pm n) as [-> | ->]; reflexivity).
  rewrite Z.pow_1_l by lia.
  destruct (Z.odd r); cbn [Z.b2z]; ring.
Qed.
Lemma Jl_pow2 a r ps : Forall oprime ps -> 0 <= r ->
  Jl (2 ^ r * a) ps = (if Z.odd r then c8 (prodl ps) else 1) * Jl a ps.
Proof.
  intros H Hr. rewrite <- c8_pow by auto. pattern r. apply natlike_ind; auto.
  - rewrite !Z.pow_0_r, !Z.mul_1_l. reflexivity.
  - intros x Hx IH. rewrite !Z.pow_succ_r by auto.
    rewrite <- Z.mul_assoc, Jl_2, IH by auto. ring.
Qed.

(** existence of factorisations *)
Lemma prime_divisor_ex n : 1 < n -> exists p, prime p /\ (p | n).
Proof.
  intros Hn. assert (N0 : 0 <= n) by lia. revert Hn. pattern n.
  apply Z_lt_induction; [|exact N0]. clear n N0.
  intros x IH Hx. destruct (prime_dec x) as [P|P].
  - exists x. split; auto. apply Z.divide_refl.
  - destruct (not_prime_divide x Hx P) as (d & Hd & D).
    destruct (IH d ltac:(lia) ltac:(lia)) as (p & Hp & Dp).
    exists p. split; auto. eapply Z.divide_trans; eauto.
Qed.
Lemma factorisation_ex n : 0 < n -> exists ps, factorisation n ps.
Proof.
  intros Hn. assert (N0 : 0 <= n) by lia. revert Hn. pattern n.
  apply Z_lt_induction; [|exact N0]. clear n N0.
  intros x IH Hx. destruct (Z.eq_dec x 1) as [->|N].
  - exists []. split; [constructor|reflexivity].
  - destruct (prime_divisor_ex x ltac:(lia)) as (p & Hp & [k Hk]).
    pose proof (prime_ge_2 p Hp).
    destruct (IH k ltac:(nia) ltac:(nia)) as (ps & Hps & E).
    exists (p :: ps). split; [constructor; auto|]. rewrite prodl_cons, E. lia.
Qed.
Lemma factorisation_odd n ps : factorisation n ps -> Z.odd n = true -> Forall oprime ps.
Proof.
  intros [H E]. revert n E. induction H as [|p ps Hp H IH]; intros n E O; [constructor|].
  rewrite prodl_cons in E. subst n. rewrite Z.odd_mul in O. apply andb_true_iff in O as [O1 O2].
  constructor; [split; auto|]. eapply IH; eauto.
Qed.

Lemma Jl_product a ps : Forall oprime ps -> symbol_product a ps (Jl a ps).
Proof.
  induction 1 as [|p ps Hp H IH]; [constructor|]. rewrite Jl_cons. constructor; auto.
  pose proof (oprime_pos p Hp). split; [lia|]. intros _. apply Lsym_spec, Hp.
Qed.
Lemma Jl_0 ps : Forall oprime ps -> Jl 0 ps = if prodl ps =? 1 then 1 else 0.
Proof.
  intros H. pose proof (Forall_oprime _ H) as HP. destruct H as [|p ps Hp H]; [reflexivity|].
  rewrite Jl_cons, Lsym_dvd; auto; [|apply Z.divide_0_r].
  destruct (Z.eqb_spec (prodl (p :: ps)) 1) as [E|]; [|reflexivity].
  apply prodl_1 in E; [discriminate|auto].
Qed.
