(** The rank modulo a prime is determined by the matrix. *)
From Coq Require Import ZArith Znumtheory Lia List.
From Verif Require Import Base LinModel LinSpec LinProofs.
Open Scope Z_scope.

Definition skip (a i : nat) : nat := if Nat.ltb i a then i else S i.
Lemma sum_skip n a (f : nat -> Z) : (a <= n)%nat -> sumn (S n) f = sumn n (fun i => f (skip a i)) + f a.
Proof.
  induction n as [|n IH]; intros H.
  - assert (a = 0)%nat by lia. subst a. reflexivity.
  - destruct (Nat.eq_dec a (S n)) as [->|N].
    + change (sumn (S (S n)) f) with (sumn (S n) f + f (S n)). f_equal. apply sumn_ext. intros i Hi. unfold skip. destruct (Nat.ltb_spec i (S n)); [auto|lia].
    + change (sumn (S (S n)) f) with (sumn (S n) f + f (S n)). rewrite IH by lia. cbn [sumn]. unfold skip at 3. destruct (Nat.ltb_spec n a); [lia|]. ring.
Qed.
Section Rank.
Variable p : Z.
Hypothesis P : prime p.
Lemma cong_dec a : {cong p a 0} + {~ cong p a 0}.
Proof. unfold cong. rewrite Z.sub_0_r. apply Zdivide_dec. Qed.
Lemma unit_of a : ~ cong p a 0 -> exists u, cong p (u * a) 1.
Proof.
  intros N. assert (G : rel_prime p a) by (apply prime_rel_prime; auto; intros H; apply N; unfold cong; rewrite Z.sub_0_r; auto).
  apply rel_prime_bezout in G. destruct G as [u v G]. exists v. exists (- u). lia.
Qed.
Lemma first_unit n (f : nat -> Z) : (forall i, (i < n)%nat -> cong p (f i) 0) \/ exists i, (i < n)%nat /\ ~ cong p (f i) 0.
Proof.
  induction n as [|n [IH|(i & Hi & Ni)]]; [left; intros; lia| |right; exists i; split; auto].
  destruct (cong_dec (f n)) as [C|C]; [left|right; exists n; auto]. intros i Hi. destruct (Nat.eq_dec i n) as [->|]; auto. apply IH. lia.
Qed.
(** more unknowns than equations *)
Lemma solve_hom m : forall n (C : nat -> nat -> Z), (m < n)%nat -> exists c, (exists i, (i < n)%nat /\ ~ cong p (c i) 0) /\ forall k, (k < m)%nat -> cong p (sumn n (fun i => c i * C i k)) 0.
Proof.
  pose proof (prime_ge_2 p P) as P2. induction m as [|m IH]; intros n C Hn.
  - exists (fun _ => 1). split; [|intros; lia]. exists 0%nat. split; auto. intros (q & Hq). assert (q = 0 \/ q <= -1 \/ 1 <= q) by lia. nia.
  - destruct (first_unit n (fun i => C i m)) as [Z|(a & Ha & Na)].
    + destruct (IH n C ltac:(lia)) as (c & E & H). exists c. split; auto. intros k Hk. destruct (Nat.eq_dec k m) as [->|]; [|apply H; lia].
      eapply cong_trans; [apply (cong_sumn p n _ (fun _ => 0)); intros i Hi; rewrite <- (Z.mul_0_r (c i)); apply cong_mul; [apply cong_refl|apply Z; auto]|]. rewrite sumn_0. apply cong_refl.
    + destruct (unit_of _ Na) as (u & Hu). destruct n as [|n]; [lia|].
      destruct (IH n (fun i k => C (skip a i) k - C (skip a i) m * u * C a k) ltac:(lia)) as (c & (i0 & Hi0 & Ni0) & H).
      set (s := sumn n (fun i => c i * C (skip a i) m)).
      exists (fun i => if Nat.eqb i a then - s * u else if Nat.ltb i a then c i else c (i - 1)%nat).
      assert (SK : forall i, (if Nat.eqb (skip a i) a then - s * u else if Nat.ltb (skip a i) a then c (skip a i) else c (skip a i - 1)%nat) = c i).
      { intros i. unfold skip. destruct (Nat.ltb_spec i a) as [L|L].
        - destruct (Nat.eqb_spec i a); [lia|]. destruct (Nat.ltb_spec i a); [auto|lia].
        - destruct (Nat.eqb_spec (S i) a); [lia|]. destruct (Nat.ltb_spec (S i) a); [lia|]. f_equal. lia. }
      split.
      * exists (skip a i0). split; [unfold skip; destruct (Nat.ltb i0 a); lia|]. rewrite SK. auto.
      * intros k Hk. rewrite (sum_skip n a) by lia. rewrite Nat.eqb_refl. rewrite (sumn_ext n _ (fun i => c i * C (skip a i) k)) by (intros i Hi; rewrite SK; reflexivity).
        destruct (Nat.eq_dec k m) as [->|Nk].
        -- fold s. replace 0 with (s + - s * 1) by ring. apply cong_add; [apply cong_refl|]. rewrite <- Z.mul_assoc. apply cong_mul; [apply cong_refl|exact Hu].
        -- eapply cong_trans; [|apply (H k); lia]. apply cong_eq. rewrite (sumn_ext n (fun i => c i * (C (skip a i) k - C (skip a i) m * u * C a k)) (fun i => c i * C (skip a i) k + c i * C (skip a i) m * (- (u * C a k)))) by (intros; ring). rewrite sumn_add, sumn_mul_r. fold s. ring.
Qed.
Lemma indep_le nc r R r' R' : indep p nc r R -> (forall i, (i < r)%nat -> inspan p nc r' R' (R i)) -> (r <= r')%nat.
Proof.
  intros I H. destruct (Nat.le_gt_cases r r') as [|Hlt]; auto. exfalso.
  assert (exists f : nat -> nat -> Z, forall i, (i < r)%nat -> forall j, (j < nc)%nat -> cong p (R i j) (sumn r' (fun k => f i k * R' k j))) as (f & Hf).
  { clear I Hlt. induction r as [|r IH]; [exists (fun _ _ => 0); intros; lia|]. destruct IH as (f & Hf); [intros; apply H; lia|]. destruct (H r ltac:(lia)) as (c & Hc).
    exists (fun i => if Nat.eqb i r then c else f i). intros i Hi j Hj. destruct (Nat.eqb_spec i r) as [->|]; auto. apply Hf; auto. lia. }
  destruct (solve_hom r' r f Hlt) as (c & (i & Hi & Ni) & Hc). apply Ni. apply (I c); auto. intros j Hj.
  eapply cong_trans; [apply cong_sumn; intros t Ht; apply cong_mul; [apply cong_refl|apply Hf; auto]|].
  rewrite (sumn_ext r _ (fun t => sumn r' (fun k => c t * f t k * R' k j))) by (intros t Ht; rewrite <- sumn_mul; apply sumn_ext; intros; ring).
  rewrite sumn_swap. eapply cong_trans; [apply (cong_sumn p r' _ (fun _ => 0)); intros k Hk; rewrite sumn_mul_r; rewrite <- (Z.mul_0_l (R' k j)); apply cong_mul; [apply Hc; auto|apply cong_refl]|]. rewrite sumn_0. apply cong_refl.
Qed.
Lemma hasrank_unique nc nr A r r' : hasrank p nc nr A r -> hasrank p nc nr A r' -> r = r'.
Proof.
  intros (R & E & I) (R' & E' & I').
  assert (r <= r')%nat by (apply (indep_le nc r R r' R' I); intros i Hi; apply E', E, span_row; auto).
  assert (r' <= r)%nat by (apply (indep_le nc r' R' r R I'); intros i Hi; apply E, E', span_row; auto). lia.
Qed.
Lemma rank_le_rows nc nr A r : hasrank p nc nr A r -> (r <= nr)%nat.
Proof. intros (R & E & I). apply (indep_le nc r R nr A I). intros i Hi. apply E, span_row; auto. Qed.
End Rank.
