(** gr1prime, grprimes and egr_subgroup (egr.cc 252-482): the new list spans the
    subgroup of good reduction and the value returned is the index. *)
From Coq Require Import ZArith Znumtheory List Bool Lia FinFun.
From Verif Require Import Base ArithModel ArithProofs MArithModel MArithProofs JacobiMath GrpModel GrpLib EgrModel EgrSpec EgrImage.
Import ListNotations.
Open Scope Z_scope.

(** ** Numbers *)
Lemma solve_mod n x y : 0 < n -> (Z.gcd n x | y) -> exists t, 0 <= t < n /\ (n | y - t * x).
Proof.
  intros N [q Q]. destruct (Z.gcd_bezout n x _ eq_refl) as (a & b & E).
  exists ((q * b) mod n). split; [apply Z.mod_pos_bound; exact N|].
  exists (q * a + (q * b / n) * x). rewrite Q, <- E. rewrite (Z.mod_eq (q * b) n) by lia. ring.
Qed.
(** the part of n prime to u *)
Lemma coprime_part n u : 0 < n -> exists t, 0 < t /\ rel_prime t u /\ forall p, prime p -> (p | n) -> ~ (p | u) -> (p | t).
Proof.
  intros N. pattern n. apply Zlt_lower_bound_ind with (z := 1); [|lia]. clear n N. intros n IH N.
  destruct (Z.eq_dec (Z.gcd n u) 1) as [G|G].
  - exists n. split; [lia|]. split; [apply Zgcd_1_rel_prime; exact G|auto].
  - pose proof (Z.gcd_nonneg n u) as G0. assert (GP : Z.gcd n u <> 0) by (intros F; apply Z.gcd_eq_0_l in F; lia).
    destruct (Z.gcd_divide_l n u) as [q Q]. assert (QB : 1 <= q < n) by (clear - Q N G G0 GP; nia).
    destruct (IH q QB) as (t & T & R & H). exists t. split; [exact T|]. split; [exact R|]. intros p P D ND. apply H; auto.
    rewrite Q in D. apply prime_mult in D; [|exact P]. destruct D as [D|D]; [exact D|]. exfalso. apply ND. apply Z.divide_trans with (Z.gcd n u); [exact D|apply Z.gcd_divide_r].
Qed.
Lemma coprime_by_primes a n : 0 < n -> (forall p, prime p -> (p | n) -> ~ (p | a)) -> Z.gcd a n = 1.
Proof.
  intros N H. destruct (Z.eq_dec (Z.gcd a n) 1) as [E|E]; [exact E|exfalso].
  pose proof (Z.gcd_nonneg a n). assert (Z.gcd a n <> 0) by (intros F; apply Z.gcd_eq_0_r in F; lia).
  destruct (prime_divisor_ex (Z.gcd a n)) as (p & P & D); [lia|].
  apply (H p P); (apply Z.divide_trans with (Z.gcd a n); [exact D|]); [apply Z.gcd_divide_r|apply Z.gcd_divide_l].
Qed.
(** two elements of Z/n of the same order differ by a unit *)
Lemma unit_factor n a b : 0 < n -> Z.gcd n a = Z.gcd n b -> exists u, 1 <= u <= n /\ Z.gcd u n = 1 /\ (n | u * a - b).
Proof.
  intros N E. set (d := Z.gcd n a) in *. assert (D0 : 0 < d). { pose proof (Z.gcd_nonneg n a). assert (d <> 0); [|lia]. intros F. apply Z.gcd_eq_0_l in F. lia. }
  destruct (Z.gcd_divide_l n a) as [h Hn]. destruct (Z.gcd_divide_r n a) as [a' Ha]. assert (DB : (d | b)) by (rewrite E; apply Z.gcd_divide_r). destruct DB as [b' Hb].
  fold d in Hn, Ha. assert (H0 : 0 < h) by (clear - Hn N D0; nia).
  assert (C1 : Z.gcd h a' = 1).
  { assert (H : Z.gcd (h * d) (a' * d) = Z.gcd h a' * d) by (rewrite Z.gcd_mul_mono_r_nonneg by lia; reflexivity).
    rewrite <- Hn, <- Ha in H. fold d in H. clear - H D0. nia. }
  assert (C2 : Z.gcd h b' = 1).
  { assert (H : Z.gcd (h * d) (b' * d) = Z.gcd h b' * d) by (rewrite Z.gcd_mul_mono_r_nonneg by lia; reflexivity).
    rewrite <- Hn, <- Hb, <- E in H. clear - H D0. nia. }
  destruct (solve_mod h a' b' H0) as (u0 & _ & U0); [rewrite C1; apply Z.divide_1_l|].
  assert (CU : forall p, prime p -> (p | h) -> ~ (p | u0)).
  { intros p P Dh Du. assert (Db : (p | b')). { replace b' with ((b' - u0 * a') + a' * u0) by ring. apply Z.divide_add_r; [exact (Z.divide_trans _ _ _ Dh U0)|apply Z.divide_mul_r, Du]. }
    assert (D1 : (p | 1)) by (rewrite <- C2; apply Z.gcd_greatest; assumption). apply Z.divide_1_r in D1. destruct P as [P _]. lia. }
  destruct (coprime_part n u0 N) as (t & T0 & TR & TP).
  set (u := u0 + h * t). 
  assert (GU : Z.gcd u n = 1).
  { apply coprime_by_primes; [exact N|]. intros p P Dn Du. destruct (Zdivide_dec p u0) as [D|D].
    - assert (DT : (p | h * t)) by (replace (h * t) with (u - u0) by (unfold u; ring); apply Z.divide_sub_r; assumption).
      apply prime_mult in DT; [|exact P]. destruct DT as [DT|DT]; [exact (CU p P DT D)|].
      destruct TR as [_ _ TR]. specialize (TR p DT D). apply Z.divide_1_r in TR. destruct P as [P _]. lia.
    - apply D. replace u0 with (u - h * t) by (unfold u; ring). apply Z.divide_sub_r; [exact Du|]. apply Z.divide_mul_r, TP; assumption. }
  assert (EU : (n | u * a - b)).
  { rewrite Hn, Ha, Hb. replace (u * (a' * d) - b' * d) with ((h * t * a' - (b' - u0 * a')) * d) by (unfold u; ring). apply Z.mul_divide_mono_r.
    apply Z.divide_sub_r; [exists (t * a'); ring|exact U0]. }
  set (v := u mod n). pose proof (Z.mod_pos_bound u n N) as VB. fold v in VB.
  assert (GV : Z.gcd v n = 1) by (unfold v; rewrite Z.gcd_mod by lia; rewrite Z.gcd_comm; exact GU).
  assert (EV : (n | v * a - b)). { replace (v * a - b) with ((u * a - b) - n * (u / n) * a) by (unfold v; rewrite (Z.mod_eq u n) by lia; ring). apply Z.divide_sub_r; [exact EU|exists (u / n * a); ring]. }
  destruct (Z.eq_dec v 0) as [V0|V0].
  - exists n. assert (N1 : n = 1) by (rewrite V0, Z.gcd_0_l in GV; lia). split; [lia|]. split; [rewrite N1; reflexivity|]. rewrite N1. apply Z.divide_1_l.
  - exists v. split; [lia|]. auto.
Qed.

(** ** Spans *)
Section S.
Variable g : grp.
Hypothesis GG : is_grp g.
Notation "P +' Q" := (gadd g P Q) (at level 50, left associativity).
Notation "P -' Q" := (gadd g P (gneg g Q)) (at level 50, left associativity).
Notation "0'" := (gz g).
Notation pt := (pt g).
Notation span := (span g).
Notation lc := (lc g).
Notation mul := (mul g).

Definition subgroup (H : el g -> Prop) : Prop := H 0' /\ (forall X Y, H X -> H Y -> H (X +' Y)) /\ (forall n X, H X -> H (mul n X)).
Lemma sub_neg H X : subgroup H -> H X -> H (gneg g X).
Proof. intros (_ & _ & M) HX. rewrite <- (mul_1 g GG X), <- (mul_neg g GG). apply M, HX. Qed.
Lemma sub_sub H X Y : subgroup H -> H X -> H Y -> H (X -' Y).
Proof. intros S HX HY. destruct (S) as (_ & A & _). apply A; [exact HX|]. apply sub_neg; assumption. Qed.

Lemma lc_nil L : lc [] L = 0'. Proof. destruct L; reflexivity. Qed.
Lemma lc_padd a : forall b L, lc (padd a b) L = lc a L +' lc b L.
Proof.
  induction a as [|x a IH]; intros b L; [rewrite lc_nil, (g0l g GG); reflexivity|].
  destruct b as [|y b]; [rewrite lc_nil, (g0r g GG); reflexivity|]. destruct L as [|P L]; cbn [padd lc]; [rewrite (g0l g GG); reflexivity|].
  rewrite IH, (mul_add g GG). apply (gswap g GG).
Qed.
Lemma lc_scale k a : forall L, lc (map (Z.mul k) a) L = mul k (lc a L).
Proof.
  induction a as [|x a IH]; intros [|P L]; cbn [map lc]; try (symmetry; apply (mul_g0 g GG)).
  rewrite IH, (mul_gadd g GG), (mul_mul g GG). reflexivity.
Qed.
Lemma span_sub L : subgroup (span L).
Proof.
  split; [exists []; symmetry; apply lc_nil|]. split.
  - intros X Y [a ->] [b ->]. exists (padd a b). symmetry. apply lc_padd.
  - intros n X [a ->]. exists (map (Z.mul n) a). symmetry. apply lc_scale.
Qed.
Lemma span_in L P : In P L -> span L P.
Proof.
  induction L as [|Q L IH]; intros I; [contradiction|]. destruct I as [->|I].
  - exists [1]. cbn [lc]. rewrite (mul_1 g GG), (g0r g GG). reflexivity.
  - destruct (IH I) as [cs ->]. exists (0 :: cs). cbn [lc]. rewrite (mul_0 g), (g0l g GG). reflexivity.
Qed.
Lemma span_min L H : subgroup H -> (forall P, In P L -> H P) -> forall X, span L X -> H X.
Proof.
  intros (Z0 & AD & ML) HI X [cs ->]. revert cs. induction L as [|P L IH]; intros [|c cs]; cbn [lc]; try exact Z0.
  apply AD; [apply ML, HI; left; reflexivity|]. apply IH. intros Q I. apply HI. right. exact I.
Qed.
Lemma span_pt L i : (i < length L)%nat -> span L (pt L i).
Proof. intros I. apply span_in. apply nth_In. exact I. Qed.
Lemma in_pt L (H : el g -> Prop) : (forall i, (i < length L)%nat -> H (pt L i)) -> forall P, In P L -> H P.
Proof. intros A P I. destruct (In_nth L P 0' I) as (n & N & <-). apply A, N. Qed.
Lemma span_eq L L' : (forall i, (i < length L)%nat -> span L' (pt L i)) -> (forall i, (i < length L')%nat -> span L (pt L' i)) -> forall X, span L X <-> span L' X.
Proof. intros A B X. split; apply span_min; try apply span_sub; apply in_pt; assumption. Qed.
Lemma span_cons P L X : span (P :: L) X <-> exists c Y, span L Y /\ X = mul c P +' Y.
Proof.
  split.
  - intros [[|c cs] ->]; cbn [lc].
    + exists 0, 0'. split; [apply (span_sub L)|]. rewrite (mul_0 g), (g0l g GG). reflexivity.
    + exists c, (lc cs L). split; [exists cs; reflexivity|reflexivity].
  - intros (c & Y & [cs ->] & ->). exists (c :: cs). reflexivity.
Qed.
Lemma pt_lset L i x j : (i < length L)%nat -> pt (lset i x L) j = if Nat.eqb j i then x else pt L j.
Proof. apply lset_nth. Qed.

(** ** Indices *)
Definition idx (S T : el g -> Prop) (N : Z) : Prop := index_is g S T N.
Lemma idx_ext (S S' T T' : el g -> Prop) N : (forall X, S X <-> S' X) -> (forall X, T X <-> T' X) -> idx S T N -> idx S' T' N.
Proof.
  intros ES ET (R & RL & RS & RP & RC). exists R. split; [exact RL|]. split; [apply (Forall_impl _ (fun X => proj1 (ES X)) RS)|]. split.
  - clear RC RS RL. induction RP as [|x l F FO IH]; constructor; [|exact IH]. apply (Forall_impl _ (P := fun y => ~ T (x -' y))); [|exact F]. intros a N' T1. apply N', ET, T1.
  - intros X HX. destruct (RC X (proj2 (ES X) HX)) as (r & I & H). exists r. split; [exact I|apply ET, H].
Qed.

(** pigeonhole for an equivalence *)
Lemma pigeon {A} (E : A -> A -> Prop) (sym : forall x y, E x y -> E y x) (tr : forall x y z, E x y -> E y z -> E x z) l :
  forall l', ForallOrdPairs (fun x y => ~ E x y) l -> (forall x, In x l -> exists y, In y l' /\ E x y) -> (length l <= length l')%nat.
Proof.
  induction l as [|x l IH]; intros l' F H; [cbn; lia|]. inversion_clear F as [|? ? F1 F2].
  destruct (H x (or_introl eq_refl)) as (y & IY & EY). apply in_split in IY. destruct IY as (l1 & l2 & ->).
  specialize (IH (l1 ++ l2) F2). rewrite app_length in IH |- *. cbn [length]. enough (EN : (length l <= length l1 + length l2)%nat) by (clear - EN; lia). apply IH.
  intros z I. destruct (H z (or_intror I)) as (w & IW & EW). exists w. split; [|exact EW].
  apply in_app_iff in IW. apply in_app_iff. destruct IW as [IW|[<-|IW]]; auto. exfalso.
  apply (proj1 (Forall_forall _ _) F1 z I). apply (tr x y z EY). apply sym, EW.
Qed.
Lemma sub_equiv T : subgroup T -> (forall x y, T (x -' y) -> T (y -' x)) /\ (forall x y z, T (x -' y) -> T (y -' z) -> T (x -' z)).
Proof.
  intros ST. split.
  - intros x y H. apply (sub_neg T _ ST) in H. rewrite (gnadd g GG), (gnn g GG), (gc g GG) in H. exact H.
  - intros x y z H1 H2. destruct ST as (_ & A & _). pose proof (A _ _ H1 H2) as H. rewrite (ga g GG) in H.
    replace (x -' y +' y) with x in H; [exact H|]. rewrite <- (ga g GG), (gnl g GG), (g0r g GG). reflexivity.
Qed.
Lemma idx_unique S T N N' : subgroup T -> idx S T N -> idx S T N' -> N = N'.
Proof.
  intros ST (R & <- & RS & RP & RC) (R' & <- & RS' & RP' & RC'). destruct (sub_equiv T ST) as [SY TR].
  apply Nat2Z.inj_iff. apply Nat.le_antisymm.
  - apply (pigeon (fun x y => T (x -' y)) SY TR R R' RP). intros x I. apply RC'. exact (proj1 (Forall_forall _ _) RS x I).
  - apply (pigeon (fun x y => T (x -' y)) SY TR R' R RP'). intros x I. apply RC. exact (proj1 (Forall_forall _ _) RS' x I).
Qed.
Lemma idx_mul (S T U : el g -> Prop) a b : subgroup S -> subgroup T -> subgroup U -> (forall X, T X -> S X) -> (forall X, U X -> T X) ->
  idx S T a -> idx T U b -> idx S U (a * b).
Proof.
  intros HS HT HU TS UT (R & <- & RS & RP & RC) (R' & <- & RS' & RP' & RC').
  exists (flat_map (fun r => map (gadd g r) R') R). split; [|split; [|split]].
  - clear RS RP RC. induction R as [|r R IH]; [reflexivity|]. cbn [flat_map length]. rewrite app_length, map_length, Nat2Z.inj_add, IH, Nat2Z.inj_succ. ring.
  - apply Forall_forall. intros x I. apply in_flat_map in I. destruct I as (r & IR & I). apply in_map_iff in I. destruct I as (r' & <- & I').
    apply HS; [exact (proj1 (Forall_forall _ _) RS r IR)|]. apply TS. exact (proj1 (Forall_forall _ _) RS' r' I').
  - clear RC. revert RS. induction RP as [|r R F FO IH]; intros RS; cbn; [constructor|]. inversion_clear RS as [|? ? S1 S2]. apply FOP_app; [| |].
    + apply (FOP_map (gadd g r) (fun x y => ~ U (x -' y))); [|exact RP']. intros x y NU UU. apply NU.
      rewrite (gnadd g GG) in UU. rewrite (gswap g GG), (gnr g GG), (g0l g GG) in UU. exact UU.
    + apply IH, S2.
    + intros x y IX IY. apply in_map_iff in IX. destruct IX as (x' & <- & IX). apply in_flat_map in IY. destruct IY as (r2 & IR2 & IY).
      apply in_map_iff in IY. destruct IY as (y' & <- & IY). intros UU. apply (proj1 (Forall_forall _ _) F r2 IR2).
      apply UT in UU. rewrite (gnadd g GG), (gswap g GG) in UU.
      assert (TXY : T (x' -' y')) by (apply sub_sub; [exact HT| |]; [exact (proj1 (Forall_forall _ _) RS' x' IX)|exact (proj1 (Forall_forall _ _) RS' y' IY)]).
      pose proof (sub_sub T _ _ HT UU TXY) as H. rewrite <- (ga g GG), (gnr g GG), (g0r g GG) in H. exact H.
  - intros X HX. destruct (RC X HX) as (r & IR & HT1). destruct (RC' _ HT1) as (r' & IR' & HU1). exists (r +' r'). split.
    + apply in_flat_map. exists r. split; [exact IR|]. apply in_map. exact IR'.
    + rewrite (gnadd g GG), (ga g GG). exact HU1.
Qed.
(** representatives aA + bB *)
Lemma idx_two (S T : el g -> Prop) A B w0 w1 : 1 <= w0 -> 1 <= w1 -> subgroup T -> (forall a b, S (mul a A +' mul b B)) ->
  (forall a b, T (mul a A +' mul b B) <-> (w0 | a) /\ (w1 | b)) -> (forall X, S X -> exists a b, T (X -' (mul a A +' mul b B))) ->
  idx S T (w0 * w1).
Proof.
  intros W0 W1 ST SP TP SC. pose (rng := fun w => map Z.of_nat (seq 0 (Z.to_nat w))).
  assert (RI : forall w t, In t (rng w) <-> 0 <= t < w).
  { intros w t. unfold rng. rewrite in_map_iff. split.
    - intros (x & <- & I). apply in_seq in I. lia.
    - intros H. exists (Z.to_nat t). split; [lia|]. apply in_seq. lia. }
  assert (RN : forall w, NoDup (rng w)) by (intros w; apply Injective_map_NoDup; [intros x y H; lia|apply seq_NoDup]).
  assert (DF : forall a b a' b', (mul a A +' mul b B) -' (mul a' A +' mul b' B) = mul (a - a') A +' mul (b - b') B).
  { intros. rewrite (gnadd g GG), (gswap g GG), <- !(mul_sub g GG). reflexivity. }
  exists (map (fun ab => mul (fst ab) A +' mul (snd ab) B) (list_prod (rng w0) (rng w1))). split; [|split; [|split]].
  - rewrite map_length, prod_length. unfold rng. rewrite !map_length, !seq_length. lia.
  - apply Forall_forall. intros x I. apply in_map_iff in I. destruct I as (ab & <- & _). apply SP.
  - assert (NDP : NoDup (list_prod (rng w0) (rng w1))).
    { generalize (RN w0). generalize (rng w0). induction l as [|x l IH]; intros ND; cbn; [constructor|]. inversion_clear ND as [|? ? NI ND'].
      assert (NA : forall (u v : list (Z * Z)), NoDup u -> NoDup v -> (forall x, In x u -> ~ In x v) -> NoDup (u ++ v)).
      { clear. induction u as [|y u IHu]; intros v NU NV D; cbn; [exact NV|]. inversion_clear NU as [|? ? NY NU']. constructor.
        - rewrite in_app_iff. intros [I|I]; [exact (NY I)|exact (D y (or_introl eq_refl) I)].
        - apply IHu; auto. intros z I. apply D. right. exact I. }
      apply NA; [apply Injective_map_NoDup; [intros y z H; congruence|apply RN]|exact (IH ND')|].
      intros [y z] I J. apply in_map_iff in I. destruct I as (q & E & _). injection E as <- <-. apply in_prod_iff in J. tauto. }
    assert (ALL : forall ab, In ab (list_prod (rng w0) (rng w1)) -> 0 <= fst ab < w0 /\ 0 <= snd ab < w1).
    { intros [x y] I. apply in_prod_iff in I. destruct I as [I1 I2]. split; apply RI; assumption. }
    revert NDP ALL. generalize (list_prod (rng w0) (rng w1)). induction l as [|[a b] l IH]; intros ND ALL; cbn [map]; [constructor|].
    inversion_clear ND as [|? ? NI ND']. constructor; [|apply IH; [exact ND'|intros ab I; apply ALL; right; exact I]].
    apply Forall_forall. intros y I. apply in_map_iff in I. destruct I as ([a' b'] & <- & I). cbn [fst snd]. rewrite DF, TP. intros [D1 D2].
    destruct (ALL (a, b) (or_introl eq_refl)) as [A1 A2]. destruct (ALL (a', b') (or_intror I)) as [B1 B2]. cbn [fst snd] in *.
    assert (a = a'). { destruct D1 as [q D1]. clear - D1 A1 B1. assert (q = 0) by nia. subst q. lia. }
    assert (b = b'). { destruct D2 as [q D2]. clear - D2 A2 B2. assert (q = 0) by nia. subst q. lia. }
    subst. contradiction.
  - intros X HX. destruct (SC X HX) as (a & b & H). exists (mul (a mod w0) A +' mul (b mod w1) B). split.
    + apply in_map_iff. exists (a mod w0, b mod w1). split; [reflexivity|]. apply in_prod_iff. split; apply RI; apply Z.mod_pos_bound; lia.
    + destruct (sub_equiv T ST) as [_ TR]. apply (TR _ _ _ H). rewrite DF. apply TP. split.
      * exists (a / w0). rewrite (Z.mod_eq a w0) by lia. ring.
      * exists (b / w1). rewrite (Z.mod_eq b w1) by lia. ring.
Qed.
End S.
