(** solve_conic of conic.cc *)
From Coq Require Import ZArith Lia List Bool Znumtheory Sorted.
From Verif Require Import Base RatModel MArithModel MArithProofs SqrtModProofs LegendreSpec JacobiMath DivisorProofs
  LegModel LegArith LegLem1 LegBody LegDescent LegReduce LegSolve ConicModel ConicDiag ConicLocal.
Import ListNotations.
Open Scope Z_scope.
Open Scope res_scope.

(** a x^2 + b x z + c z^2 = d y^2 *)
Definition conic_sol (a b c d : Z) (s : tri) : Prop :=
  let '(x, y, z) := s in a * (x * x) + b * (x * z) + c * (z * z) = d * (y * y) /\ nonzero3 x y z.
Definition conic_soluble (a b c d : Z) : Prop := exists s, conic_sol a b c d s.
Definition conic_res (a b c d : Z) (r : option tri) : Prop :=
  match r with Some s => conic_sol a b c d s /\ prim3 s | None => ~ conic_soluble a b c d end.

Lemma cancel_pm x y z : nonzero3 x y z -> exists x' y' z' g, cancel (x, y, z) = Ok (x', y', z') /\ g <> 0 /\
  x = g * x' /\ y = g * y' /\ z = g * z' /\ prim3 (x', y', z').
Proof.
  intros NZ. destruct (cancel1_ok x y z NZ) as ([[x1 y1] z1] & g & E & G & S & P). cbn [scal3] in S.
  assert (Sx : x = g * x1) by exact (f_equal (fun t : tri => fst (fst t)) S).
  assert (Sy : y = g * y1) by exact (f_equal (fun t : tri => snd (fst t)) S).
  assert (Sz : z = g * z1) by exact (f_equal (fun t : tri => snd t) S).
  unfold cancel. rewrite E. rewrite bind_Ok. cbv beta iota.
  assert (PP : prim3 (- x1, - y1, - z1)).
  { intros d D1 D2 D3. apply P; now apply Z.divide_opp_r. }
  assert (K1 : exists x' y' z' g0, Ok (x1, y1, z1) = Ok (x', y', z') /\ g0 <> 0 /\ x = g0 * x' /\ y = g0 * y' /\ z = g0 * z' /\ prim3 (x', y', z')).
  { exists x1, y1, z1, g. split; [reflexivity|]. split; [lia|]. auto. }
  assert (K2 : forall u v w, u = - x1 -> v = - y1 -> w = - z1 ->
     exists x' y' z' g0, Ok (u, v, w) = Ok (x', y', z') /\ g0 <> 0 /\ x = g0 * x' /\ y = g0 * y' /\ z = g0 * z' /\ prim3 (x', y', z')).
  { intros u v w -> -> ->. exists (- x1), (- y1), (- z1), (- g). split; [reflexivity|]. split; [lia|].
    repeat (split; [lia|]). exact PP. }
  destruct (Z.ltb_spec 0 z1); [exact K1|]. destruct (Z.ltb_spec z1 0); [apply K2; reflexivity|].
  destruct (Z.ltb_spec 0 y1); [exact K1|]. destruct (Z.ltb_spec y1 0); [apply K2; lia|].
  destruct (Z.ltb_spec x1 0); [apply K2; lia|exact K1].
Qed.
Lemma cancel_conic a b c d x y z : conic_sol a b c d (x, y, z) ->
  exists s, cancel (x, y, z) = Ok s /\ conic_sol a b c d s /\ prim3 s.
Proof.
  intros (E & N). destruct (cancel_pm x y z N) as (x' & y' & z' & g & EC & G & Sx & Sy & Sz & P).
  exists (x', y', z'). split; [exact EC|]. split; [|exact P]. split.
  - apply (Z.mul_reg_l _ _ (g * g)); [now apply mul_nz|]. rewrite Sx, Sy, Sz in E.
    transitivity (d * (g * y' * (g * y'))); [rewrite <- E; ring|ring].
  - destruct N as [N|[N|N]]; [left|right; left|right; right]; intros H; apply N; [rewrite Sx|rewrite Sy|rewrite Sz]; rewrite H; ring.
Qed.

(** ** The union of sorted lists *)
Definition sorted_pdivs (pdivs : Z -> list Z) : Prop :=
  forall n, n <> 0 -> Sorted Z.lt (pdivs n) /\ forall p, In p (pdivs n) <-> prime p /\ (p | n).
Lemma sorted_lt_all x l : Sorted Z.lt (x :: l) -> Forall (Z.lt x) l.
Proof. intros H. apply Sorted_StronglySorted in H; [|intros u v w; apply Z.lt_trans]. now inversion H. Qed.
Lemma sorted_cons x l : Sorted Z.lt l -> Forall (Z.lt x) l -> Sorted Z.lt (x :: l).
Proof. intros S F. constructor; [exact S|]. destruct l; [constructor|]. inversion F. now constructor. Qed.
Lemma sorted_nodup l : Sorted Z.lt l -> NoDup l.
Proof.
  induction l as [|x l IH]; intros S; [constructor|]. pose proof (sorted_lt_all x l S) as F. inversion S; subst.
  constructor; [|now apply IH]. intros I. apply (proj1 (Forall_forall _ _) F) in I. lia.
Qed.
Lemma union_ok : forall l m, Sorted Z.lt l -> Sorted Z.lt m ->
  Sorted Z.lt (vector_union l m) /\ forall p, In p (vector_union l m) <-> In p l \/ In p m.
Proof.
  induction l as [|x l IH]; intros m SL SM.
  { split; [exact SM|]. intros p. cbn [vector_union]. split; [now right|intros [[]|H]; exact H]. }
  pose proof (sorted_lt_all x l SL) as FL. assert (SL' : Sorted Z.lt l) by now inversion SL.
  induction m as [|y m IHm].
  { split; [exact SL|]. intros p. split; [now left|intros [H|[]]; exact H]. }
  pose proof (sorted_lt_all y m SM) as FM. assert (SM' : Sorted Z.lt m) by now inversion SM.
  assert (TR : forall u v l, u < v -> Forall (Z.lt v) l -> Forall (Z.lt u) l).
  { intros u v l0 L F. eapply Forall_impl; [|exact F]. intros w W. cbv beta in W. lia. }
  change (vector_union (x :: l) (y :: m)) with
    (if x <? y then x :: vector_union l (y :: m) else if y <? x then y :: vector_union (x :: l) m else x :: vector_union l m).
  destruct (Z.ltb_spec x y) as [L|L].
  - destruct (IH (y :: m) SL' SM) as (S & H). split.
    + apply sorted_cons; [exact S|]. apply Forall_forall. intros p I. apply H in I as [I|[<-|I]].
      * apply (proj1 (Forall_forall _ _) FL p I).
      * exact L.
      * apply (proj1 (Forall_forall _ _) (TR x y m L FM) p I).
    + intros p. cbn [In]. rewrite H. cbn [In]. tauto.
  - destruct (Z.ltb_spec y x) as [L'|L'].
    + destruct (IHm SM') as (S & H). split.
      * apply sorted_cons; [exact S|]. apply Forall_forall. intros p I. apply H in I as [[<-|I]|I].
        -- exact L'.
        -- apply (proj1 (Forall_forall _ _) (TR y x l L' FL) p I).
        -- apply (proj1 (Forall_forall _ _) FM p I).
      * intros p. cbn [In]. rewrite H. cbn [In]. tauto.
    + assert (x = y) by lia. subst y. destruct (IH m SL' SM') as (S & H). split.
      * apply sorted_cons; [exact S|]. apply Forall_forall. intros p I. apply H in I as [I|I].
        -- apply (proj1 (Forall_forall _ _) FL p I).
        -- apply (proj1 (Forall_forall _ _) FM p I).
      * intros p. cbn [In]. rewrite H. tauto.
Qed.

Section Conic.
Variable xgcd : Z -> Z -> Z * Z * Z.
Hypothesis X : xgcd_spec xgcd.
Variable srm : Z -> Z -> Z.
Hypothesis SR : sqrrootmod_spec srm.
Variable pdivs : Z -> list Z.
Hypothesis PD : pdivs_spec pdivs.

Lemma sqfdecomp_base t ps : t <> 0 -> prime_base t ps -> exists t0 t1 l, sqfdecomp t ps = Ok (t0, t1, l) /\
  t = t0 * (t1 * t1) /\ 0 < t1 /\ square_free t0 /\ plist_of t0 l.
Proof.
  intros T PB. destruct (sqfdecomp_ok t ps T PB) as (t0 & t1 & l & E & H1 & H2 & H3 & H4).
  exists t0, t1, l. split; [exact E|]. repeat (split; [assumption|]). split; [|exact H4].
  unfold sqfdecomp in E. eapply sqfdecomp_loop_nodup; [|exact E]. exact (proj1 PB).
Qed.
Lemma prime_base_div m n ps : (m | n) -> prime_base n ps -> prime_base m ps.
Proof. intros D (ND & PR & H). split; [exact ND|]. split; [exact PR|]. intros p Hp Dp. apply H; auto. exact (Z.divide_trans _ _ _ Dp D). Qed.

(** methods 0 to 3 without the middle term *)
Lemma solve_conic_03 lll f a c d ps method : 0 <= method <= 3 -> a <> 0 -> c <> 0 -> d <> 0 ->
  prime_base (a * c * d) ps -> 2 * (Z.abs (a * c) + Z.abs (a * d)) + 1 < Z.of_nat f ->
  exists r, solve_conic xgcd srm pdivs lll f a 0 c d ps method = Ok r /\ conic_res a 0 c d r.
Proof.
  intros M A C D PB F. unfold solve_conic. destruct (Z.ltb_spec 3 method) as [L|_]; [lia|]. cbv zeta.
  cbn [Z.eqb negb].
  assert (AC : - a * c <> 0) by (apply mul_nz; lia). assert (AD : a * d <> 0) by now apply mul_nz.
  destruct (sqfdecomp_base (- a * c) ps AC) as (a1 & a2 & al & -> & EA & PA2 & SA & PLA).
  { apply (prime_base_div _ (a * c * d)); [exists (- d); ring|exact PB]. }
  rewrite bind_Ok. cbv beta iota.
  destruct (sqfdecomp_base (a * d) ps AD) as (b1 & b2 & bl & -> & EB & PB2 & SB & PLB).
  { apply (prime_base_div _ (a * c * d)); [exists c; ring|exact PB]. }
  rewrite bind_Ok. cbv beta iota.
  assert (TR : conic_soluble a 0 c d -> dsoluble a1 b1).
  { intros ([[x y] z] & E & N). exists (a * x, b2 * y, a2 * z). split.
    - transitivity (a * (a * (x * x)) - a1 * (a2 * a2) * (z * z)); [ring|]. rewrite <- EA.
      transitivity (b1 * (b2 * b2) * (y * y)); [|ring]. rewrite <- EB.
      transitivity (a * (a * (x * x) + 0 * (x * z) + c * (z * z))); [ring|]. rewrite E. ring.
    - destruct N as [N|[N|N]]; [left|right; left|right; right]; apply mul_nz; auto; lia. }
  destruct (testlocsol2_ok xgcd X a1 al b1 bl SA SB PLA PLB) as (t & -> & HT). rewrite bind_Ok.
  destruct t; cbn [negb].
  2: { eexists. split; [reflexivity|]. intros S. apply TR in S. apply HT in S. discriminate. }
  destruct (solve_conic_diag_ok xgcd X srm SR pdivs PD method M f a1 al b1 bl SA SB PLA PLB) as (r & -> & HR).
  { unfold dmeas. pose proof (abs_le_sq _ _ _ AC EA) as L1. pose proof (abs_le_sq _ _ _ AD EB) as L2.
    replace (- a * c) with (- (a * c)) in L1 by ring. rewrite Z.abs_opp in L1. destruct (Z.abs b1 <? Z.abs a1); lia. }
  rewrite bind_Ok. destruct r as [s|].
  2: { exfalso. apply HR. now apply HT. }
  destruct (conic_diag_reduce_ok xgcd X a1 b1 s SA SB HR) as ([[x y] z] & -> & (E & N) & _). rewrite bind_Ok. cbv beta iota.
  destruct (cancel_conic a 0 c d (x * (a2 * b2)) (y * a2 * a) (z * b2 * a)) as (s' & -> & CS).
  { split.
    - transitivity (a * ((a2 * a2) * (b2 * b2) * (x * x) - (- a * c) * (b2 * b2) * (z * z))); [ring|]. rewrite EA.
      transitivity (a * (a2 * a2) * (b2 * b2) * (x * x - a1 * (z * z))); [ring|]. rewrite E.
      transitivity (a * (a2 * a2) * (y * y) * (b1 * (b2 * b2))); [ring|]. rewrite <- EB. ring.
    - destruct N as [N|[N|N]]; [left|right; left|right; right]; repeat apply mul_nz; auto; lia. }
  rewrite bind_Ok. eexists. split; [reflexivity|]. exact CS.
Qed.

(** method 4 *)
Lemma solve_conic_4 lll f a b c d ps : a <> 0 -> c <> 0 -> d <> 0 -> b * b - 4 * a * c <> 0 ->
  prime_base (if b =? 0 then a * c * d else a * d * (b * b - 4 * a * c)) ps ->
  2 * Z.abs (if b =? 0 then a * c * d else a * d * (b * b - 4 * a * c)) < Z.of_nat f ->
  exists r, solve_conic xgcd srm pdivs lll f a b c d ps 4 = Ok r /\ conic_res a b c d r.
Proof.
  intros A C D DI PB F. unfold solve_conic. change (3 <? 4) with true. cbv zeta iota. change (4 =? 5) with false.
  destruct (Z.eqb_spec b 0) as [B0|B0].
  - destruct (legendre_solve_ok xgcd X srm SR lll f a (- d) c ps) as (r & -> & HR); auto; [lia| | |].
    + apply (prime_base_div _ (a * c * d)); [exists (-1); ring|exact PB].
    + replace (a * - d * c) with (- (a * c * d)) by ring. now rewrite Z.abs_opp.
    + exists r. split; [reflexivity|]. subst b. destruct r as [[[x y] z]|].
      * destruct HR as ((E & N) & P & _). split; [|exact P]. split; [clear - E; lia|exact N].
      * intros ([[x y] z] & E & N). apply HR. exists (x, y, z). split; [clear - E; lia|exact N].
  - set (aa := b * b - 4 * a * c) in *.
    assert (AD : a * d <> 0) by now apply mul_nz.
    destruct (legendre_solve_ok xgcd X srm SR lll f 1 (- aa) (- (a * d)) ps) as (r & -> & HR); [lia|lia|lia| | |].
    + apply (prime_base_div _ (a * d * aa)); [exists 1; ring|exact PB].
    + replace (1 * - aa * - (a * d)) with (a * d * aa) by ring. exact F.
    + rewrite bind_Ok. destruct r as [[[x z] y]|].
      * destruct HR as ((E & N) & _).
        destruct (cancel_conic a b c d (x - b * z) (y * a) (z * (2 * a))) as (s & -> & CS).
        { split.
          - transitivity (a * (x * x - aa * (z * z))); [unfold aa; ring|]. replace (x * x - aa * (z * z)) with (a * d * (y * y)) by (clear - E; lia). ring.
          - destruct (Z.eq_dec z 0) as [Z0|Z0].
            + destruct N as [N|[N|N]]; [left; rewrite Z0; lia|contradiction|right; left; now apply mul_nz].
            + right; right. apply mul_nz; [exact Z0|lia]. }
        rewrite bind_Ok. eexists. split; [reflexivity|]. exact CS.
      * eexists. split; [reflexivity|]. intros ([[x y] z] & E & N). apply HR. exists (2 * a * x + b * z, z, 2 * y). split.
        -- transitivity (4 * a * (a * (x * x) + b * (x * z) + c * (z * z)) - 4 * a * d * (y * y)); [unfold aa; ring|]. rewrite E. ring.
        -- destruct (Z.eq_dec z 0) as [Z0|Z0]; [|now right; left].
           destruct N as [N|[N|N]]; [left|right; right; lia|contradiction].
           rewrite Z0. pose proof (mul_nz a x A N) as H. clear - H. lia.
Qed.
End Conic.

(** the wrapper: the factor base is found by pdivs *)
Lemma sorted_pdivs_spec pdivs : sorted_pdivs pdivs -> pdivs_spec pdivs.
Proof. intros H n N. destruct (H n N) as (S & I). split; [now apply sorted_nodup|exact I]. Qed.
Lemma full_base pdivs a d e : sorted_pdivs pdivs -> a <> 0 -> d <> 0 -> e <> 0 ->
  prime_base (a * d * e) (vector_union (vector_union (pdivs (2 * d)) (pdivs a)) (pdivs e)).
Proof.
  intros SP A D E. destruct (SP (2 * d)) as (S1 & H1); [lia|]. destruct (SP a A) as (S2 & H2). destruct (SP e E) as (S3 & H3).
  destruct (union_ok _ _ S1 S2) as (S12 & H12). destruct (union_ok _ _ S12 S3) as (S123 & H123).
  split; [now apply sorted_nodup|]. split.
  - apply Forall_forall. intros p I. apply H123 in I as [I|I]; [apply H12 in I as [I|I]|]; [now apply H1 in I|now apply H2 in I|now apply H3 in I].
  - intros p Hp Dp. apply H123. apply (prime_mult p Hp) in Dp. destruct Dp as [Dp|Dp]; [|right; now apply H3].
    left. apply H12. apply (prime_mult p Hp) in Dp. destruct Dp as [Dp|Dp]; [right; now apply H2|left]. apply H1. split; [exact Hp|]. now apply Z.divide_mul_r.
Qed.
