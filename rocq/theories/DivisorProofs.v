(** Divisor lists, square-free decompositions (arith.cc, marith.cc). *)
From Coq Require Import ZArith Lia List Bool Znumtheory Zpow_facts FinFun.
From Verif Require Import Base ArithModel ArithProofs RatModel MArithModel MArithProofs JacobiMath.
Import ListNotations.
Open Scope Z_scope.

(** [ps] holds the prime divisors of a (and possibly further primes). *)
Definition prime_base (a : Z) (ps : list Z) : Prop :=
  NoDup ps /\ Forall prime ps /\ forall p, prime p -> (p | a) -> In p ps.
Definition square_free (d : Z) : Prop := forall p, prime p -> ~ (p * p | d).
(** All prime divisors of d lie in S. *)
Definition supported (S : list Z) (d : Z) : Prop := forall p, prime p -> (p | d) -> In p S.

(** ** prime-power parts *)
Lemma pow_split p d : prime p -> d <> 0 -> exists j d', 0 <= j /\ d = p ^ j * d' /\ ~ (p | d').
Proof.
  intros Hp Hd. pose proof (prime_ge_2 p Hp).
  destruct (divide_out_ok d p Hd) as (d' & j & _ & Hj & E & N); [lia|].
  exists j, d'. split; [auto|]. split; [lia|auto].
Qed.

Lemma pow_coprime_div p j d a : prime p -> ~ (p | d) -> 0 <= j ->
  (p ^ j * d | a) <-> (p ^ j | a) /\ (d | a).
Proof.
  intros Hp N Hj. split.
  - intros D. split; (eapply Z.divide_trans; [|exact D]).
    + apply Z.divide_factor_l.
    + apply Z.divide_factor_r.
  - intros [[k Hk] D]. rewrite Hk in D |- *.
    assert (R : rel_prime d (p ^ j)).
    { apply rel_prime_Zpower_r; [auto|]. apply rel_prime_sym, prime_rel_prime; auto. }
    destruct (Gauss d (p ^ j) k) as [c ->]; auto.
    { rewrite Z.mul_comm. exact D. }
    exists c. ring.
Qed.

Lemma pow_div_le p a e j : 2 <= p -> exact_power p a e -> 0 <= j -> (p ^ j | a) <-> j <= e.
Proof.
  intros Hp (He & D & N) Hj. split.
  - intros Dj. destruct (Z.le_gt_cases j e); auto. exfalso. apply N.
    apply Z.divide_trans with (p ^ j); auto. exists (p ^ (j - (e + 1))).
    rewrite <- Z.pow_add_r by lia. f_equal. lia.
  - intros L. apply Z.divide_trans with (p ^ e); auto. exists (p ^ (e - j)).
    rewrite <- Z.pow_add_r by lia. f_equal. lia.
Qed.

Lemma prime_div_pow p q j : prime p -> prime q -> 0 <= j -> (p | q ^ j) -> p = q.
Proof. intros. eapply prime_power_prime; eauto. Qed.

Lemma NoDup_app {A} (l l' : list A) : NoDup l -> NoDup l' -> (forall x, In x l -> ~ In x l') -> NoDup (l ++ l').
Proof.
  induction 1 as [|x l NI ND IH]; intros N' D; cbn [app]; auto.
  constructor.
  - rewrite in_app_iff. intros [I|I]; auto. apply (D x); [left; auto|auto].
  - apply IH; auto. intros y I. apply D. right; auto.
Qed.

(** ** the pure loop *)
Fixpoint pblocks (e : nat) (p : Z) (b : list Z) : list Z :=
  match e with O => [] | S e' => map (Z.mul p) b ++ pblocks e' p (map (Z.mul p) b) end.
Fixpoint pdivs (ex : Z -> Z) (ps ds : list Z) : list Z :=
  match ps with
  | [] => ds
  | p :: ps' => pdivs ex ps' (ds ++ pblocks (Z.to_nat (ex p)) p ds)
  end.

Lemma pblocks_In p e : forall b d, In d (pblocks e p b) <->
  exists j d', 1 <= j <= Z.of_nat e /\ In d' b /\ d = p ^ j * d'.
Proof.
  induction e as [|e IH]; intros b d; cbn [pblocks].
  - split; [intros []|]. intros (j & d' & H & _). lia.
  - rewrite in_app_iff, IH, in_map_iff. split.
    + intros [(d' & <- & I)|(j & d' & Hj & I & ->)].
      * exists 1, d'. rewrite Z.pow_1_r. split; [lia|]. auto.
      * apply in_map_iff in I as (d0 & <- & I). exists (j + 1), d0.
        rewrite Z.pow_add_r, Z.pow_1_r by lia. split; [lia|]. split; [auto|]. ring.
    + intros (j & d' & Hj & I & ->). destruct (Z.eq_dec j 1) as [->|].
      * left. exists d'. rewrite Z.pow_1_r. auto.
      * right. exists (j - 1), (p * d'). split; [lia|]. split; [apply in_map; auto|].
        replace j with (j - 1 + 1) at 1 by lia. rewrite Z.pow_add_r, Z.pow_1_r by lia. ring.
Qed.

Lemma step_In p e b d : 0 <= e -> In d (b ++ pblocks (Z.to_nat e) p b) <->
  exists j d', 0 <= j <= e /\ In d' b /\ d = p ^ j * d'.
Proof.
  intros He. rewrite in_app_iff, pblocks_In, Z2Nat.id by auto. split.
  - intros [I|(j & d' & Hj & H)].
    + exists 0, d. rewrite Z.pow_0_r. split; [lia|]. split; [auto|lia].
    + exists j, d'. split; [lia|auto].
  - intros (j & d' & Hj & I & ->). destruct (Z.eq_dec j 0) as [->|].
    + left. rewrite Z.pow_0_r, Z.mul_1_l. auto.
    + right. exists j, d'. split; [lia|auto].
Qed.

Lemma pblocks_NoDup p e : prime p -> forall b, NoDup b -> (forall d, In d b -> ~ (p | d)) -> forall k, 0 <= k ->
  NoDup (pblocks e p (map (Z.mul (p ^ k)) b)).
Proof.
  intros Hp b ND Hb. pose proof (prime_ge_2 p Hp) as P2.
  assert (INJ : forall j j' d d', 0 <= j -> 0 <= j' -> In d b -> In d' b ->
    p ^ j * d = p ^ j' * d' -> j = j' /\ d = d').
  { assert (LT : forall j j' d d', 0 <= j < j' -> In d b -> p ^ j * d <> p ^ j' * d').
    { intros j j' d d' Hj I E. apply (Hb d I). exists (p ^ (j' - j - 1) * d').
      assert (P : 0 < p ^ j) by (apply Z.pow_pos_nonneg; lia).
      apply (Z.mul_reg_l _ _ (p ^ j)); [lia|]. rewrite E.
      replace j' with (j + (1 + (j' - j - 1))) at 1 by lia.
      rewrite !Z.pow_add_r, Z.pow_1_r by lia. ring. }
    intros j j' d d' H1 H2 I I' E. destruct (Z.lt_trichotomy j j') as [L|[->|L]].
    - exfalso. apply (LT j j' d d'); auto.
    - split; auto. assert (P : 0 < p ^ j') by (apply Z.pow_pos_nonneg; lia).
      apply (Z.mul_reg_l _ _ (p ^ j')); [lia|auto].
    - exfalso. symmetry in E. apply (LT j' j d' d); auto. }
  induction e as [|e IH]; intros k Hk; cbn [pblocks]; [constructor|].
  assert (M : map (Z.mul p) (map (Z.mul (p ^ k)) b) = map (Z.mul (p ^ (k + 1))) b).
  { rewrite map_map. apply map_ext. intros d. rewrite Z.pow_add_r, Z.pow_1_r by lia. ring. }
  rewrite M. apply NoDup_app.
  - apply Injective_map_NoDup; auto. intros x y E.
    assert (P : 0 < p ^ (k + 1)) by (apply Z.pow_pos_nonneg; lia).
    apply (Z.mul_reg_l _ _ (p ^ (k + 1))); [lia|auto].
  - apply IH. lia.
  - intros x I I'. apply in_map_iff in I as (d & <- & I).
    apply pblocks_In in I' as (j & d' & Hj & I' & E).
    apply in_map_iff in I' as (d2 & <- & I2). rewrite Z.mul_assoc, <- Z.pow_add_r in E by lia.
    apply INJ in E as [E _]; auto; lia.
Qed.

Lemma step_NoDup p e b : prime p -> NoDup b -> (forall d, In d b -> ~ (p | d)) ->
  NoDup (b ++ pblocks e p b).
Proof.
  intros Hp ND Hb. pose proof (prime_ge_2 p Hp). apply NoDup_app; auto.
  - pose proof (pblocks_NoDup p e Hp b ND Hb 0 ltac:(lia)) as H'.
    rewrite Z.pow_0_r in H'. replace (map (Z.mul 1) b) with b in H'; auto.
    rewrite <- (map_id b) at 1. apply map_ext. intros; lia.
  - intros d I I'. apply pblocks_In in I' as (j & d' & Hj & I' & ->). apply (Hb _ I).
    exists (p ^ (j - 1) * d'). replace j with (j - 1 + 1) at 1 by lia.
    rewrite Z.pow_add_r, Z.pow_1_r by lia. ring.
Qed.

Section Good.
Variable Good : Z -> Prop.
Variable ex : Z -> Z.

Lemma pdivs_ok : (forall d, Good d -> d <> 0) ->
  forall ps S ds,
  (forall p, In p ps -> 0 <= ex p /\ forall j d, 0 <= j -> d <> 0 -> ~ (p | d) ->
     (Good (p ^ j * d) <-> j <= ex p /\ Good d)) ->
  NoDup ps -> Forall prime ps -> (forall p, In p ps -> ~ In p S) ->
  NoDup ds -> (forall d, In d ds <-> Good d /\ supported S d) ->
  NoDup (pdivs ex ps ds) /\
  (forall d, In d (pdivs ex ps ds) <-> Good d /\ supported (ps ++ S) d).
Proof.
  intros G0. induction ps as [|p ps IH]; intros S ds G1 ND PR DJ NDS HD; cbn [pdivs app]; auto.
  inversion ND as [|? ? NI ND']; subst. inversion PR as [|? ? Hp PR']; subst.
  pose proof (prime_ge_2 p Hp) as P2.
  destruct (G1 p (or_introl eq_refl)) as [He GP].
  assert (NP : forall d, In d ds -> ~ (p | d)).
  { intros d I D. apply HD in I as [_ Su]. apply (DJ p (or_introl eq_refl)). apply Su; auto. }
  destruct (IH (p :: S) (ds ++ pblocks (Z.to_nat (ex p)) p ds)) as [N1 N2]; auto.
  - intros q I. apply G1. right; auto.
  - intros q I [->|I']; auto. apply (DJ q); auto. right; auto.
  - apply step_NoDup; auto.
  - intros d. rewrite step_In by auto. split.
    + intros (j & d' & Hj & I & ->). pose proof I as I0. apply HD in I as [Gd Su]. split.
      * apply (GP j d'); [lia|now apply G0|now apply NP|split; [lia|auto]].
      * intros q Hq D. apply prime_mult in D as [D|D]; auto.
        -- left. symmetry. apply (prime_div_pow q p j); auto. lia.
        -- right. apply Su; auto.
    + intros [Gd Su]. destruct (pow_split p d Hp (G0 d Gd)) as (j & d' & Hj & E & N).
      exists j, d'. assert (D0 : d' <> 0) by (intros ->; apply N; apply Z.divide_0_r).
      rewrite E in Gd. apply GP in Gd as [Le Gd]; auto. split; [lia|]. split; auto.
      apply HD. split; auto. intros q Hq D. destruct (Su q Hq) as [<-|]; auto.
      * rewrite E. apply Z.divide_mul_r, D.
      * contradiction.
  - split; auto. intros d. rewrite N2. split; intros [Gd Su]; split; auto; intros q Hq D.
    + specialize (Su q Hq D). apply in_app_or in Su as [?|[->|?]]; [right|left|right]; auto;
        apply in_or_app; auto.
    + specialize (Su q Hq D). destruct Su as [->|Su]; [apply in_or_app; right; left; auto|].
      apply in_app_or in Su as [?|?]; apply in_or_app; [left|right; right]; auto.
Qed.
End Good.

(** ** linking the loops with the pure version *)
Lemma divz_blocks_pure e p : forall b, divz_blocks e p b = pblocks e p b.
Proof. induction e; intros b; cbn [divz_blocks pblocks]; [reflexivity|]. now rewrite IHe. Qed.

Lemma divsz_pure exr ex : forall ps ds, (forall p, In p ps -> exr p = Ok (ex p)) ->
  divsz_loop exr ps ds = Ok (pdivs ex ps ds).
Proof.
  induction ps as [|p ps IH]; intros ds H; cbn [divsz_loop pdivs]; [reflexivity|].
  rewrite H by (left; auto). rewrite bind_Ok, divz_blocks_pure. apply IH.
  intros q I. apply H. right; auto.
Qed.

Lemma pdivs_prefix ex : forall ps ds d, In d ds -> In d (pdivs ex ps ds).
Proof.
  induction ps as [|p ps IH]; intros ds d I; cbn [pdivs]; auto. apply IH, in_or_app. auto.
Qed.

Lemma div_blocks_pure e p : forall b, (forall d, In d (pblocks e p b) -> in64 d) ->
  div_blocks e p b = Ok (pblocks e p b).
Proof.
  induction e as [|e IH]; intros b H; cbn [div_blocks pblocks] in *; [reflexivity|].
  assert (M : fold_right (fun d acc => l <- acc ;; x <- mul64 p d ;; Ok (x :: l))%res (Ok []) b
     = Ok (map (Z.mul p) b)).
  { assert (F : forall d, In d (map (Z.mul p) b) -> in64 d) by (intros; apply H, in_or_app; auto).
    clear - F. induction b as [|d b IHb]; cbn [fold_right map] in *; [reflexivity|].
    rewrite IHb by (intros; apply F; right; auto). rewrite bind_Ok.
    unfold mul64. rewrite c64_ok by (apply F; left; auto). reflexivity. }
  rewrite M, bind_Ok. rewrite IH by (intros; apply H, in_or_app; auto). reflexivity.
Qed.

Lemma divs_pure exr ex : forall ps ds, (forall p, In p ps -> exr p = Ok (ex p)) ->
  (forall d, In d (pdivs ex ps ds) -> in64 d) ->
  divs_loop exr ps ds = Ok (pdivs ex ps ds).
Proof.
  induction ps as [|p ps IH]; intros ds H F; cbn [divs_loop pdivs] in *; [reflexivity|].
  rewrite H by (left; auto). rewrite bind_Ok. unfold div_extend.
  rewrite div_blocks_pure.
  2:{ intros d I. apply F, pdivs_prefix, in_or_app. auto. }
  rewrite !bind_Ok. apply IH; auto. intros q I. apply H. right; auto.
Qed.

(** ** the four Good predicates *)
Definition Gpos (a d : Z) := 0 < d /\ (d | a).
Definition Gall (a d : Z) := (d | a).
Definition Gsq (a d : Z) := 0 < d /\ (d * d | a).
Definition Gsf (d : Z) := 0 < d /\ square_free d.

Lemma pow_pos_mul p j d : 2 <= p -> 0 <= j -> 0 < p ^ j * d <-> 0 < d.
Proof.
  intros Hp Hj. assert (0 < p ^ j) by (apply Z.pow_pos_nonneg; lia). split; nia.
Qed.

Lemma Gpos_step a p e : prime p -> exact_power p a e ->
  forall j d, 0 <= j -> d <> 0 -> ~ (p | d) -> (Gpos a (p ^ j * d) <-> j <= e /\ Gpos a d).
Proof.
  intros Hp He j d Hj Hd N. pose proof (prime_ge_2 p Hp). unfold Gpos.
  rewrite pow_pos_mul, pow_coprime_div, (pow_div_le p a e) by auto. tauto.
Qed.
Lemma Gall_step a p e : prime p -> exact_power p a e ->
  forall j d, 0 <= j -> d <> 0 -> ~ (p | d) -> (Gall a (p ^ j * d) <-> j <= e /\ Gall a d).
Proof.
  intros Hp He j d Hj Hd N. pose proof (prime_ge_2 p Hp). unfold Gall.
  rewrite pow_coprime_div, (pow_div_le p a e) by auto. tauto.
Qed.
Lemma Gsq_step a p e : prime p -> exact_power p a e ->
  forall j d, 0 <= j -> d <> 0 -> ~ (p | d) -> (Gsq a (p ^ j * d) <-> j <= e / 2 /\ Gsq a d).
Proof.
  intros Hp He j d Hj Hd N. pose proof (prime_ge_2 p Hp). unfold Gsq.
  rewrite pow_pos_mul by auto.
  replace (p ^ j * d * (p ^ j * d)) with (p ^ (2 * j) * (d * d)).
  2:{ replace (2 * j) with (j + j) by ring. rewrite Z.pow_add_r by auto. ring. }
  rewrite pow_coprime_div, (pow_div_le p a e); auto; try lia.
  - pose proof (Z.div_mod e 2). pose proof (Z.mod_pos_bound e 2). split; intros (? & ? & ?); repeat split; auto; lia.
  - intros D. apply prime_mult in D as [D|D]; auto.
Qed.
Lemma Gsf_step p : prime p ->
  forall j d, 0 <= j -> d <> 0 -> ~ (p | d) -> (Gsf (p ^ j * d) <-> j <= 1 /\ Gsf d).
Proof.
  intros Hp j d Hj Hd N. pose proof (prime_ge_2 p Hp). unfold Gsf. rewrite pow_pos_mul by auto. split.
  - intros [H1 H2]. split; [|split; auto].
    + destruct (Z.le_gt_cases j 1); auto. exfalso. apply (H2 p Hp).
      exists (p ^ (j - 2) * d). replace j with (j - 2 + 2) at 1 by lia.
      rewrite Z.pow_add_r by lia. ring.
    + intros q Hq D. apply (H2 q Hq). apply Z.divide_mul_r, D.
  - intros (H1 & H2 & H3). split; auto. intros q Hq D.
    assert (j = 0 \/ j = 1) as [-> | ->] by lia.
    + rewrite Z.pow_0_r, Z.mul_1_l in D. apply (H3 q Hq D).
    + rewrite Z.pow_1_r in D. destruct (Z.eq_dec q p) as [->|NE].
      * apply N. destruct D as [c Hc]. exists c. apply (Z.mul_reg_l _ _ p); [lia|]. rewrite Hc. ring.
      * apply (H3 q Hq). apply (Gauss (q * q) p d); auto.
        apply rel_prime_sym, rel_prime_mult; apply prime_rel_prime; auto;
          intros D'; apply prime_div_prime in D'; auto.
Qed.

(** Lists as answers. *)
Definition lists (l : list Z) (P : Z -> Prop) : Prop := NoDup l /\ forall d, In d l <-> P d.

Lemma supported_nil_unit d : d <> 0 -> supported [] d -> d = 1 \/ d = -1.
Proof.
  intros Hd Su. destruct (Z.eq_dec (Z.abs d) 1); [lia|]. exfalso.
  destruct (prime_divisor_ex (Z.abs d)) as (p & Hp & D); [lia|].
  apply (Su p Hp). apply Z.divide_abs_r, D.
Qed.
Lemma supported_unit S d : d = 1 \/ d = -1 -> supported S d.
Proof.
  intros Hd p Hp D. pose proof (prime_ge_2 p Hp). destruct Hd as [-> | ->].
  - apply Z.divide_1_r in D. lia.
  - apply (proj1 (Z.divide_opp_r _ 1)) in D. apply Z.divide_1_r in D. lia.
Qed.
Lemma base1 (Good : Z -> Prop) : (forall d, Good d -> 0 < d) -> Good 1 ->
  forall d, In d [1] <-> Good d /\ supported [] d.
Proof.
  intros G0 G1 d. split.
  - intros [<-|[]]. split; auto. apply supported_unit. auto.
  - intros [Gd Su]. specialize (G0 d Gd). apply supported_nil_unit in Su; [|lia]. left. lia.
Qed.

Section Z_lists.
Variable a : Z.
Hypothesis Ha : a <> 0.
Variable ps : list Z.
Hypothesis HB : prime_base a ps.

Definition vex (p : Z) : Z := match val_z p a with Ok e => e | _ => 0 end.
Lemma vex_ok p : In p ps -> val_z p a = Ok (vex p) /\ exact_power p a (vex p) /\ prime p.
Proof.
  intros I. destruct HB as (_ & PR & _). pose proof (proj1 (Forall_forall _ _) PR p I) as Hp.
  pose proof (prime_ge_2 p Hp).
  destruct (val_z_ok p a Ha) as (e & E & H1 & H2); [lia|]. unfold vex. rewrite E.
  split; [auto|]. split; [split; auto|auto].
Qed.
Lemma div_nz d : (d | a) -> d <> 0.
Proof. intros [c Hc] ->. lia. Qed.
Lemma sup_base d : (d | a) -> supported (ps ++ []) d.
Proof. intros D p Hp Dp. rewrite app_nil_r. apply HB; auto. eapply Z.divide_trans; eauto. Qed.

Lemma posdivs_pure : lists (pdivs vex ps [1]) (fun d => 0 < d /\ (d | a)).
Proof.
  destruct HB as (ND & PR & _).
  destruct (pdivs_ok (Gpos a) vex) with (ps := ps) (S := @nil Z) (ds := [1]) as [N1 N2]; auto.
  - unfold Gpos. intros; lia.
  - intros p I. destruct (vex_ok p I) as (_ & E & Hp). split; [apply E|]. now apply Gpos_step.
  - repeat constructor. auto.
  - apply base1; unfold Gpos; [tauto|]. split; [lia|apply Z.divide_1_l].
  - split; auto. intros d. rewrite N2. unfold Gpos. split; [tauto|]. intros [? D]. split; auto. now apply sup_base.
Qed.
Lemma alldivs_pure : lists (pdivs vex ps [1; -1]) (fun d => (d | a)).
Proof.
  destruct HB as (ND & PR & _).
  destruct (pdivs_ok (Gall a) vex) with (ps := ps) (S := @nil Z) (ds := [1; -1]) as [N1 N2]; auto.
  - apply div_nz.
  - intros p I. destruct (vex_ok p I) as (_ & E & Hp). split; [apply E|]. now apply Gall_step.
  - repeat constructor; auto. intros [|[]]. discriminate.
  - intros d. split.
    + intros [<-|[<-|[]]]; (split; [|apply supported_unit; auto]).
      * apply Z.divide_1_l.
      * exists (- a). ring.
    + intros [Gd Su]. apply supported_nil_unit in Su; [|now apply div_nz].
      destruct Su as [-> | ->]; cbn [In]; auto.
  - split; auto. intros d. rewrite N2. unfold Gall. split; [tauto|]. intros D. split; auto. now apply sup_base.
Qed.
Lemma sqdivs_pure : lists (pdivs (fun p => vex p / 2) ps [1]) (fun d => 0 < d /\ (d * d | a)).
Proof.
  destruct HB as (ND & PR & _).
  destruct (pdivs_ok (Gsq a) (fun p => vex p / 2)) with (ps := ps) (S := @nil Z) (ds := [1]) as [N1 N2]; auto.
  - unfold Gsq. intros; lia.
  - intros p I. destruct (vex_ok p I) as (_ & E & Hp). split; [apply Z.div_pos; [apply E|lia]|]. now apply Gsq_step.
  - repeat constructor. auto.
  - apply base1; unfold Gsq; [tauto|]. split; [lia|apply Z.divide_1_l].
  - split; auto. intros d. rewrite N2. unfold Gsq. split; [tauto|]. intros [? D]. split; auto.
    apply sup_base. eapply Z.divide_trans; [|exact D]. apply Z.divide_factor_l.
Qed.
End Z_lists.

Lemma sqfree_pure ps : NoDup ps -> Forall prime ps ->
  lists (pdivs (fun _ => 1) ps [1]) (fun d => 0 < d /\ square_free d /\ supported ps d).
Proof.
  intros ND PR.
  destruct (pdivs_ok Gsf (fun _ => 1)) with (ps := ps) (S := @nil Z) (ds := [1]) as [N1 N2]; auto.
  - unfold Gsf. intros; lia.
  - intros p I. split; [lia|]. apply Gsf_step. apply (proj1 (Forall_forall _ _) PR p I).
  - repeat constructor. auto.
  - apply base1; unfold Gsf; [tauto|]. split; [lia|]. intros p Hp D. pose proof (prime_ge_2 p Hp).
    apply Z.divide_1_r_nonneg in D; nia.
  - split; auto. intros d. rewrite N2, app_nil_r. unfold Gsf. tauto.
Qed.

Section Both.
Variable a : Z.
Hypothesis Ha : a <> 0.
Variable ps : list Z.
Hypothesis HB : prime_base a ps.

Lemma posdivs_z_ok : exists l, posdivs_z a ps = Ok l /\ lists l (fun d => 0 < d /\ (d | a)).
Proof.
  exists (pdivs (vex a) ps [1]). split; [|now apply posdivs_pure].
  apply divsz_pure. intros p I. now apply (vex_ok a Ha ps HB).
Qed.
Lemma alldivs_z_ok : exists l, alldivs_z a ps = Ok l /\ lists l (fun d => (d | a)).
Proof.
  exists (pdivs (vex a) ps [1; -1]). split; [|now apply alldivs_pure].
  apply divsz_pure. intros p I. now apply (vex_ok a Ha ps HB).
Qed.
Lemma sqdivs_z_ok : exists l, sqdivs_z a ps = Ok l /\ lists l (fun d => 0 < d /\ (d * d | a)).
Proof.
  exists (pdivs (fun p => vex a p / 2) ps [1]). split; [|now apply sqdivs_pure].
  apply divsz_pure. intros p I. destruct (vex_ok a Ha ps HB p I) as (-> & (E & _) & _).
  rewrite bind_Ok, Z.quot_div_nonneg by lia. reflexivity.
Qed.
Lemma sqfreedivs_z_ok : exists l, sqfreedivs_z a ps = Ok l /\
  lists l (fun d => 0 < d /\ square_free d /\ supported ps d).
Proof.
  exists (pdivs (fun _ => 1) ps [1]). split; [|apply sqfree_pure; apply HB].
  apply divsz_pure. auto.
Qed.

(** long versions *)
Hypothesis Ra : sym64 a.
Hypothesis Rp : Forall sym64 ps.

Lemma vex_long p : In p ps -> val_long p a = Ok (vex a p) /\ 0 <= vex a p <= max64.
Proof.
  intros I. destruct (vex_ok a Ha ps HB p I) as (_ & E & Hp). pose proof (prime_ge_2 p Hp).
  destruct (val_long_ok p a) as (e & -> & E'); auto; try lia.
  { apply (proj1 (Forall_forall _ _) Rp p I). }
  rewrite (exact_power_unique p a (vex a p) e E E'). split; auto.
  destruct E' as (H1 & H2 & _). split; auto.
  unfold sym64 in Ra. assert (p ^ e <= max64).
  { apply Z.divide_abs_r in H2. apply Z.divide_pos_le in H2; lia. }
  assert (e < p ^ e) by (apply Z.pow_gt_lin_r; lia). lia.
Qed.
Lemma in64_div d : (d | a) -> in64 d.
Proof.
  intros D. unfold in64, sym64, min64, max64 in *.
  apply Z.divide_abs_l, Z.divide_abs_r, Z.divide_pos_le in D; lia.
Qed.

Lemma posdivs_long_ok : exists l, posdivs_long a ps = Ok l /\ lists l (fun d => 0 < d /\ (d | a)).
Proof.
  pose proof (posdivs_pure a Ha ps HB) as L. exists (pdivs (vex a) ps [1]). split; auto.
  apply divs_pure; [intros p I; now apply vex_long|]. intros d I. apply L in I as [_ D]. now apply in64_div.
Qed.
Lemma alldivs_long_ok : exists l, alldivs_long a ps = Ok l /\ lists l (fun d => (d | a)).
Proof.
  pose proof (alldivs_pure a Ha ps HB) as L. exists (pdivs (vex a) ps [1; -1]). split; auto.
  apply divs_pure; [intros p I; now apply vex_long|]. intros d I. apply L in I as D. now apply in64_div.
Qed.
Lemma sqdivs_long_ok : exists l, sqdivs_long a ps = Ok l /\ lists l (fun d => 0 < d /\ (d * d | a)).
Proof.
  pose proof (sqdivs_pure a Ha ps HB) as L. exists (pdivs (fun p => vex a p / 2) ps [1]). split; auto.
  apply divs_pure.
  - intros p I. destruct (vex_long p I) as (-> & E1 & E2). rewrite bind_Ok.
    rewrite quot64_ok by (unfold in64, min64, max64 in *; lia). f_equal. apply Z.quot_div_nonneg; lia.
  - intros d I. apply L in I as [_ D]. apply in64_div. eapply Z.divide_trans; [|exact D]. apply Z.divide_factor_l.
Qed.
End Both.

Lemma sqfree_supported_div ps d : NoDup ps -> Forall prime ps -> 0 < d -> square_free d -> supported ps d ->
  (d | fold_right Z.mul 1 ps).
Proof.
  revert d. induction ps as [|p ps IH]; intros d ND PR Hd SF Su; cbn [fold_right].
  - apply supported_nil_unit in Su; [|lia]. assert (d = 1) as -> by lia. apply Z.divide_1_l.
  - inversion ND as [|? ? NI ND']; subst. inversion PR as [|? ? Hp PR']; subst.
    pose proof (prime_ge_2 p Hp) as P2.
    destruct (pow_split p d Hp ltac:(lia)) as (j & d' & Hj & E & N).
    assert (D0 : d' <> 0) by (intros ->; apply N; apply Z.divide_0_r).
    assert (G : Gsf (p ^ j * d')) by (rewrite <- E; split; auto).
    apply Gsf_step in G as (J & G1 & G2); auto.
    rewrite E.
    assert (D' : (d' | fold_right Z.mul 1 ps)).
    { apply IH; auto. intros q Hq D. destruct (Su q Hq) as [<-|]; auto; [|contradiction].
      rewrite E. apply Z.divide_mul_r, D. }
    assert (DJ : (p ^ j | p)).
    { assert (j = 0 \/ j = 1) as [-> | ->] by lia; [apply Z.divide_1_l|rewrite Z.pow_1_r; apply Z.divide_refl]. }
    destruct D' as [x Hx]. destruct DJ as [y Hy]. exists (x * y). rewrite Hx. rewrite Hy at 1. ring.
Qed.

Lemma sqfreedivs_long_ok a ps : NoDup ps -> Forall prime ps -> fold_right Z.mul 1 ps <= max64 ->
  exists l, sqfreedivs_long a ps = Ok l /\ lists l (fun d => 0 < d /\ square_free d /\ supported ps d).
Proof.
  intros ND PR B. pose proof (sqfree_pure ps ND PR) as L. eexists. split; [|exact L].
  apply divs_pure; [auto|]. intros d I. apply L in I as (H1 & H2 & H3).
  pose proof (sqfree_supported_div ps d ND PR H1 H2 H3) as D.
  assert (P : 0 < fold_right Z.mul 1 ps).
  { clear - PR. induction PR as [|p ps Hp _ IH]; cbn [fold_right]; [lia|]. pose proof (prime_ge_2 p Hp). nia. }
  apply Z.divide_pos_le in D; auto. unfold in64, min64, max64 in *. lia.
Qed.

(** ** sqfdecomp *)
Lemma sqfdecomp_loop_ok a : a <> 0 -> forall ps a1 a2 apl,
  NoDup ps -> Forall prime ps -> (forall p, In p ps -> ~ (p | a1)) ->
  0 < a1 -> 0 < a2 -> square_free a1 ->
  (forall p, In p apl <-> prime p /\ (p | a1)) ->
  (exists rest, 0 < rest /\ Z.abs a = a1 * (a2 * a2) * rest /\ (forall p, In p ps -> ~ (p | a1 * (a2 * a2))) /\ supported ps rest) ->
  exists b1 b2 bpl, sqfdecomp_loop ps a a1 a2 apl = Ok (b1, b2, bpl) /\
    a = b1 * (b2 * b2) /\ 0 < b2 /\ square_free b1 /\ (forall p, In p bpl <-> prime p /\ (p | b1)).
Proof.
  intros Ha. induction ps as [|p ps IH]; intros a1 a2 apl ND PR NP H1 H2 SF HL (rest & R0 & ER & NR & SR).
  - cbn [sqfdecomp_loop].
    assert (R1 : rest = 1) by (apply supported_nil_unit in SR; lia). rewrite R1, Z.mul_1_r in ER.
    destruct (Z.ltb_spec a 0).
    + exists (- a1), a2, apl. split; [reflexivity|]. split; [lia|]. split; [auto|]. split.
      * intros q Hq D. apply (proj1 (Z.divide_opp_r _ _)) in D. apply (SF q Hq D).
      * intros q. rewrite HL, Z.divide_opp_r. reflexivity.
    + exists a1, a2, apl. split; [reflexivity|]. split; [lia|]. auto.
  - inversion ND as [|? ? NI ND']; subst. inversion PR as [|? ? Hp PR']; subst.
    pose proof (prime_ge_2 p Hp) as P2. cbn [sqfdecomp_loop].
    destruct (val_z_ok p a Ha) as (e & -> & He & D1 & D2); [lia|]. rewrite bind_Ok.
    apply Z.divide_abs_r in D1. rewrite <- Z.divide_abs_r in D2. rewrite ER in D1, D2.
    assert (NPp := NR p (or_introl eq_refl)).
    assert (DR : (p ^ e | rest)).
    { apply (Gauss (p ^ e) (a1 * (a2 * a2)) rest D1).
      apply rel_prime_sym, rel_prime_Zpower_r; auto. apply rel_prime_sym, prime_rel_prime; auto. }
    destruct DR as [rest' ER'].
    assert (PE : 0 < p ^ e) by (apply Z.pow_pos_nonneg; lia).
    assert (R0' : 0 < rest') by nia.
    assert (NPR : ~ (p | rest')).
    { intros [c ->]. apply D2. rewrite ER', Z.pow_add_r, Z.pow_1_r by lia.
      exists (a1 * (a2 * a2) * c). ring. }
    assert (SR' : supported ps rest').
    { intros q Hq D. destruct (SR q Hq) as [<-|]; auto; [|contradiction].
      rewrite ER'. apply Z.divide_mul_l, D. }
    destruct (Z.eqb_spec e 0) as [->|E0].
    + rewrite Z.pow_0_r, Z.mul_1_r in ER'. subst rest'.
      apply IH; auto.
      * intros q I. apply NP. right; auto.
      * exists rest. repeat split; auto. intros q I. apply NR. right; auto.
    + assert (SH : Z.shiftr e 1 = e / 2) by (rewrite Z.shiftr_div_pow2 by lia; reflexivity).
      rewrite SH. set (h := e / 2).
      assert (Eh : e = 2 * h + (if Z.odd e then 1 else 0)).
      { pose proof (Z.div2_odd e) as E. unfold Z.b2z in E. rewrite Z.div2_div in E. exact E. }
      assert (H0 : 0 <= h) by (apply Z.div_pos; lia).
      assert (PH : 0 < p ^ h) by (apply Z.pow_pos_nonneg; lia).
      assert (PP : p ^ e = p ^ h * p ^ h * (if Z.odd e then p else 1)).
      { rewrite Eh at 1. rewrite Z.pow_add_r by (destruct (Z.odd e); lia).
        replace (2 * h) with (h + h) by ring. rewrite Z.pow_add_r by lia.
        destruct (Z.odd e); [rewrite Z.pow_1_r|rewrite Z.pow_0_r]; reflexivity. }
      assert (NQ : forall q b, In q ps -> (b = p \/ b = 1) ->
                 ~ (q | a1 * b * (a2 * p ^ h * (a2 * p ^ h)))).
      { intros q b I Hb D.
        assert (Hq : prime q) by (apply (proj1 (Forall_forall _ _) PR' q I)).
        assert (NE : q <> p) by (intros ->; auto).
        apply (NR q (or_intror I)).
        replace (a1 * b * (a2 * p ^ h * (a2 * p ^ h))) with (a1 * (a2 * a2) * (b * p ^ (h + h))) in D
          by (rewrite Z.pow_add_r by lia; ring).
        apply prime_mult in D as [D|D]; auto. exfalso.
        apply prime_mult in D as [D|D]; auto.
        - destruct Hb as [-> | ->].
          + apply NE. apply (prime_div_prime q p); auto.
          + apply Z.divide_1_r in D. pose proof (prime_ge_2 q Hq). lia.
        - apply NE. apply (prime_div_pow q p (h + h)); auto. lia. }
      destruct (Z.odd e) eqn:O.
      * apply IH; auto.
        -- intros q I D. apply (NQ q p I (or_introl eq_refl)). apply Z.divide_mul_l, D.
        -- nia.
        -- nia.
        -- intros q Hq D.
           assert (G : Gsf (p ^ 1 * a1)).
           { apply Gsf_step; auto; try lia.
             - apply NP. left; auto.
             - split; [lia|]. split; auto. }
           destruct G as [_ G]. apply (G q Hq). rewrite Z.pow_1_r, (Z.mul_comm p a1). exact D.
        -- intros q. rewrite in_app_iff, HL. split.
           ++ intros [[Hq D]|[<-|[]]].
              ** split; [exact Hq|]. apply Z.divide_mul_l. exact D.
              ** split; [exact Hp|]. apply Z.divide_factor_r.
           ++ intros [Hq D]. apply prime_mult in D as [D|D]; auto. right. left.
              symmetry. apply (prime_div_prime q p); auto.
        -- exists rest'. split; [auto|]. split; [rewrite ER, ER', PP; ring|]. split; auto.
      * apply IH; auto.
        -- intros q I. apply NP. right; auto.
        -- nia.
        -- exists rest'. split; [auto|]. split; [rewrite ER, ER', PP; ring|]. split; auto.
           intros q I D. apply (NQ q 1 I (or_intror eq_refl)). rewrite Z.mul_1_r. exact D.
Qed.

Lemma sqfdecomp_ok a ps : a <> 0 -> prime_base a ps ->
  exists a1 a2 apl, sqfdecomp a ps = Ok (a1, a2, apl) /\
    a = a1 * (a2 * a2) /\ 0 < a2 /\ square_free a1 /\ (forall p, In p apl <-> prime p /\ (p | a1)).
Proof.
  intros Ha (ND & PR & HC). unfold sqfdecomp.
  assert (U : forall p, prime p -> ~ (p | 1)).
  { intros p Hp D. apply Z.divide_1_r in D. pose proof (prime_ge_2 p Hp). lia. }
  apply sqfdecomp_loop_ok; auto; try lia.
  - intros p I. apply U. apply (proj1 (Forall_forall _ _) PR p I).
  - intros p Hp D. apply (U p Hp). apply Z.divide_trans with (p * p); [apply Z.divide_factor_l|exact D].
  - intros p. split; [intros []|]. intros [Hp D]. apply (U p Hp D).
  - exists (Z.abs a). split; [lia|]. split; [lia|]. split.
    + intros p I. apply U. apply (proj1 (Forall_forall _ _) PR p I).
    + intros p Hp D. apply HC; auto. apply Z.divide_abs_r, D.
Qed.
