(** testlocsol of conic.cc decides solubility: Legendre's theorem. *)
From Coq Require Import ZArith Lia List Bool Znumtheory Permutation.
From Verif Require Import Base RatModel MArithModel MArithProofs SqrtModProofs LegendreSpec JacobiMath DivisorProofs
  LegModel LegArith LegLem1 LegBody LegDescent LegReduce LegSolve ConicModel ConicDiag.
Import ListNotations.
Open Scope Z_scope.
Open Scope res_scope.

(** ** A certificate gives a solution *)

Section Local.
Variable xgcd : Z -> Z -> Z * Z * Z.
Hypothesis X : xgcd_spec xgcd.

Lemma cert_soluble a b c n p q : leg_ok a b c -> square_free a -> square_free b -> square_free c ->
  leg_cert a b c n p q -> soluble a b c.
Proof.
  intros OK SA SB SC CE.
  destruct (solve_cert_ok xgcd X (Z.to_nat (mu a b c + 1)) a b c n p q OK CE) as ([[rc uu] s] & _ & RR).
  { assert (0 <= mu a b c) by (unfold mu; apply Z.mul_nonneg_nonneg; [destruct (has_unit a b c); lia|apply Z.abs_nonneg]). lia. }
  destruct RR as [(_ & S & _)|(U & [(_ & D)|[(_ & D)|(_ & D)]])]; [exists s; exact S| | |]; exfalso; (eapply sqf_pos; [|exact U|exact D]); assumption.
Qed.

(** ** Square roots modulo a product of primes *)
Lemma crt_root a m n x y : cop m n -> sqroot x a m -> sqroot y a n -> exists z, sqroot z a (m * n).
Proof.
  intros C Hx Hy. destruct (cop_bezout m n C) as (u & v & B).
  exists (x * (n * v) + y * (m * u)). apply sqroot_mul; [exact C| |].
  - apply (sqroot_residue _ x); [|exact Hx]. exists (u * (y - x)). replace (n * v) with (1 - m * u) by lia. ring.
  - apply (sqroot_residue _ y); [|exact Hy]. exists (v * (x - y)). replace (m * u) with (1 - n * v) by lia. ring.
Qed.
Lemma cop_primes a b : a <> 0 -> (forall p, prime p -> (p | a) -> (p | b) -> False) -> cop a b.
Proof.
  intros A H. unfold cop. pose proof (Z.gcd_nonneg a b).
  destruct (Z.eq_dec (Z.gcd a b) 0) as [E|E]. { apply Z.gcd_eq_0_l in E. contradiction. }
  destruct (Z.eq_dec (Z.gcd a b) 1) as [E1|E1]; [exact E1|]. exfalso.
  destruct (prime_divisor_ex (Z.gcd a b)) as (p & Hp & D); [lia|].
  apply (H p Hp); (eapply Z.divide_trans; [exact D|]); [apply Z.gcd_divide_l|apply Z.gcd_divide_r].
Qed.
Lemma prime_prodl p l : prime p -> Forall prime l -> (p | prodl l) -> In p l.
Proof.
  intros Hp. induction l as [|q l IH]; intros PR D.
  - exfalso. apply Z.divide_1_r in D. pose proof (prime_ge_2 p Hp). lia.
  - inversion PR as [|? ? Hq PR']; subst. rewrite prodl_cons in D. apply prime_mult in D; [|exact Hp].
    destruct D as [D|D]; [left; symmetry; now apply prime_div_prime|right; now apply IH].
Qed.
Lemma cop_prodl p l : prime p -> Forall prime l -> ~ In p l -> cop p (prodl l).
Proof.
  intros Hp PR NI. apply cop_primes. { pose proof (prime_ge_2 p Hp). lia. }
  intros q Hq D1 D2. apply prime_div_prime in D1; auto. subst q. apply NI. now apply prime_prodl.
Qed.
Lemma roots_prodl a l : NoDup l -> Forall prime l -> (forall p, In p l -> exists x, sqroot x a p) -> exists x, sqroot x a (prodl l).
Proof.
  induction l as [|p l IH]; intros ND PR H.
  - exists 0. apply Z.divide_1_l.
  - inversion ND as [|? ? NI ND']; subst. inversion PR as [|? ? Hp PR']; subst.
    destruct (H p) as (x & Hx); [now left|]. destruct IH as (y & Hy); auto. { intros q I. apply H. now right. }
    rewrite prodl_cons. apply (crt_root a p (prodl l) x y); auto. now apply cop_prodl.
Qed.

(** ** The symbol test *)
Lemma root_mod2 m : exists x, sqroot x m 2.
Proof.
  exists m. unfold sqroot. replace (m * m - m) with (m * (m - 1)) by ring.
  destruct (Z.Even_or_Odd m) as [[k ->]|[k ->]]; [exists (k * (2 * k - 1)); ring|exists ((2 * k + 1) * k); ring].
Qed.
Lemma test_plist_ok m : forall l, Forall prime l -> (forall p, In p l -> ~ (p | m)) ->
  exists t, test_plist l m = Ok t /\ (t = true <-> forall p, In p l -> exists x, sqroot x m p).
Proof.
  induction l as [|p l IH]; intros PR ND.
  - exists true. split; [reflexivity|]. split; [intros _ p []|reflexivity].
  - inversion PR as [|? ? Hp PR']; subst. destruct IH as (t & ET & HT); [exact PR'|intros q I; apply ND; now right|].
    cbn [test_plist]. pose proof (prime_ge_2 p Hp) as P2.
    destruct (Z.ltb_spec 2 p) as [L|L].
    + destruct (legendre_prime m p Hp) as (s & -> & LS); [lia|]. rewrite bind_Ok.
      assert (NP : ~ (p | m)) by (apply ND; now left). destruct LS as (_ & L1 & L2).
      destruct (Z.eqb_spec s 1) as [->|NS]; cbn [negb].
      * exists t. split; [exact ET|]. rewrite HT. split.
        -- intros H q [<-|I]; [|now apply H]. destruct (sqroot_dec m p) as [D|D]; [lia|exact D|]. exfalso.
           specialize (L2 NP D). discriminate.
        -- intros H q I. apply H. now right.
      * exists false. split; [reflexivity|]. split; [discriminate|]. intros H. exfalso. apply NS. apply L1; [exact NP|]. apply H. now left.
    + assert (p = 2) by lia. subst p. exists t. split; [exact ET|]. rewrite HT. split.
      * intros H q [<-|I]; [apply root_mod2|now apply H].
      * intros H q I. apply H. now right.
Qed.

Lemma def_insoluble a b c : a <> 0 -> b <> 0 -> c <> 0 -> Z.sgn a = Z.sgn b -> Z.sgn b = Z.sgn c -> ~ soluble a b c.
Proof.
  intros A B C S1 S2 ([[x y] z] & E & N).
  assert (Sq : forall u, 0 <= u * u) by (intros u; apply Z.square_nonneg).
  assert (Z0 : forall u, u * u <= 0 -> u = 0).
  { intros u H. pose proof (Sq u). assert (u * u = 0) as Q by lia. apply Z.mul_eq_0 in Q. tauto. }
  assert (T : (0 < a /\ 0 < b /\ 0 < c) \/ (a < 0 /\ b < 0 /\ c < 0)) by (clear - A B C S1 S2; lia).
  assert (K : forall k u, 0 < k -> k * (u * u) <= 0 -> u = 0).
  { intros k u K0 H. apply Z0. destruct (Z_le_gt_dec (u * u) 0) as [L|G]; [exact L|].
    assert (0 < k * (u * u)) by (apply Z.mul_pos_pos; lia). lia. }
  assert (K' : forall k u, 0 < k -> 0 <= k * (u * u)) by (intros k u K0; apply Z.mul_nonneg_nonneg; [lia|apply Sq]).
  destruct T as [(TA & TB & TC)|(TA & TB & TC)].
  - pose proof (K' a x TA). pose proof (K' b y TB). pose proof (K' c z TC).
    destruct N as [N|[N|N]]; apply N; [apply (K a)|apply (K b)|apply (K c)]; auto; lia.
  - assert (TA' : 0 < - a) by lia. assert (TB' : 0 < - b) by lia. assert (TC' : 0 < - c) by lia.
    pose proof (K' (- a) x TA'). pose proof (K' (- b) y TB'). pose proof (K' (- c) z TC').
    destruct N as [N|[N|N]]; apply N; [apply (K (- a))|apply (K (- b))|apply (K (- c))]; auto; lia.
Qed.

(** one coefficient: the test of its primes *)
Lemma test_coef a b c l : square_free c -> plist_of c l -> cop a c -> cop b c ->
  exists t, test_plist l (- a * b) = Ok t /\ (t = true <-> exists q, (c | q * q + a * b)).
Proof.
  intros SC PL CA CB. pose proof (plist_primes c l PL) as PR. pose proof (prodl_sqf c l SC PL) as EP. destruct PL as (ND & HP).
  destruct (test_plist_ok (- a * b) l PR) as (t & ET & HT).
  { intros p I D. apply HP in I as (Hp & Dc).
    assert (CC : cop p (- a * b)).
    { apply cop_mul; [apply cop_opp_r|]; apply cop_sym; [apply (cop_div a c)|apply (cop_div b c)]; auto; apply Z.divide_refl. }
    pose proof (cop_one _ _ p CC (Z.divide_refl p) D) as U. apply Z.divide_1_r in U. pose proof (prime_ge_2 p Hp). lia. }
  exists t. split; [exact ET|]. rewrite HT. split.
  - intros H. destruct (roots_prodl (- a * b) l ND PR H) as (x & Hx). exists x. rewrite EP in Hx. unfold sqroot in Hx.
    apply (proj1 (Z.divide_abs_l c _)) in Hx. replace (x * x + a * b) with (x * x - - a * b) by ring. exact Hx.
  - intros (q & Hq) p I. apply HP in I as (Hp & Dc). exists q. unfold sqroot.
    replace (q * q - - a * b) with (q * q + a * b) by ring. exact (Z.divide_trans _ _ _ Dc Hq).
Qed.

Theorem testlocsol3_ok a al b bl c cl : square_free a -> square_free b -> square_free c -> cop a b -> cop a c -> cop b c ->
  plist_of a al -> plist_of b bl -> plist_of c cl ->
  exists t, testlocsol3 a al b bl c cl = Ok t /\ (t = true <-> soluble a b c).
Proof.
  intros SA SB SC Cab Cac Cbc PA PB PC. unfold testlocsol3.
  pose proof (sqf_nz a SA) as A. pose proof (sqf_nz b SB) as B. pose proof (sqf_nz c SC) as C.
  destruct ((Z.sgn a =? Z.sgn b) && (Z.sgn b =? Z.sgn c)) eqn:SG.
  { apply andb_true_iff in SG as (S1 & S2). apply Z.eqb_eq in S1, S2. eexists. split; [reflexivity|].
    split; [discriminate|]. intros S. exfalso. revert S. now apply def_insoluble. }
  assert (OK : leg_ok a b c).
  { repeat (split; [assumption|]). apply andb_false_iff in SG. rewrite !Z.eqb_neq in SG. clear - SG. split; intros H; lia. }
  destruct (test_coef a b c cl SC PC Cac Cbc) as (t1 & -> & H1). rewrite bind_Ok.
  destruct (test_coef b c a al SA PA (cop_sym _ _ Cab) (cop_sym _ _ Cac)) as (t2 & E2 & H2).
  destruct (test_coef a c b bl SB PB Cab (cop_sym _ _ Cbc)) as (t3 & E3 & H3).
  assert (NEC : soluble a b c -> t1 = true /\ t2 = true /\ t3 = true).
  { intros S. destruct (prim_ex a b c S) as (x & y & z & (E & N) & P).
    assert (K : forall a b c x y z, square_free a -> cop a b -> leg_sol a b c (x, y, z) -> prim3 (x, y, z) -> exists n, (a | n * n + b * c)).
    { clear. intros a b c x y z SA C S P. destruct (sol_cert a b c x y z (sqf_nz a SA) SA C S P) as (n & Hn). exists n.
      unfold sqroot in Hn. apply (proj1 (Z.divide_abs_l a _)) in Hn. replace (n * n + b * c) with (n * n - - b * c) by ring. exact Hn. }
    split; [|split].
    - apply H1. apply (K c a b z x y SC (cop_sym _ _ Cac)).
      + split; [clear - E; lia|]. unfold nonzero3 in *. tauto.
      + intros d D1 D2 D3. now apply P.
    - apply H2. now apply (K a b c x y z SA Cab).
    - apply H3. apply (K b a c y x z SB (cop_sym _ _ Cab)).
      + split; [clear - E; lia|]. unfold nonzero3 in *. tauto.
      + intros d D1 D2 D3. now apply P. }
  destruct t1.
  2: { eexists. split; [reflexivity|]. split; [discriminate|]. intros S. destruct (NEC S) as (Q & _). discriminate. }
  rewrite E2, bind_Ok. destruct t2.
  2: { eexists. split; [reflexivity|]. split; [discriminate|]. intros S. destruct (NEC S) as (_ & Q & _). discriminate. }
  rewrite E3. exists t3. split; [reflexivity|]. split.
  - intros T3. destruct (proj1 H1 eq_refl) as (q & Hq). destruct (proj1 H2 eq_refl) as (n & Hn). destruct (proj1 H3 T3) as (p & Hp).
    apply (cert_soluble a b c n p q); auto. split; [exact Hn|]. split; [exact Hp|exact Hq].
  - intros S. apply NEC. exact S.
Qed.

(** ** testlocsol(a,alist,b,blist) *)
Definition dvb (n p : Z) : bool := n mod p =? 0.
Lemma dvb_iff n p : p <> 0 -> dvb n p = true <-> (p | n).
Proof. intros P. unfold dvb. rewrite Z.eqb_eq. now apply Z.mod_divide. Qed.
Lemma div_z_dvb p n : p <> 0 -> div_z p n = Ok (dvb n p).
Proof.
  intros P. destruct (div_z_ok p n) as (t & -> & H). f_equal. apply eq_true_iff_eq. rewrite H. symmetry. now apply dvb_iff.
Qed.
Lemma prodl_app l l' : prodl (l ++ l') = prodl l * prodl l'.
Proof. induction l as [|p l IH]; [cbn [app]; unfold prodl at 2; cbn [fold_right]; lia|]. cbn [app]. rewrite !prodl_cons, IH. ring. Qed.
Lemma prodl_one p : prodl [p] = p.
Proof. unfold prodl. cbn [fold_right]. ring. Qed.
Lemma split_a_ok b : forall al c cl a0 l0, Forall prime al ->
  split_a al b c cl a0 l0 = Ok (c * prodl (filter (dvb b) al), cl ++ filter (dvb b) al,
    a0 * prodl (filter (fun p => negb (dvb b p)) al), l0 ++ filter (fun p => negb (dvb b p)) al).
Proof.
  induction al as [|p al IH]; intros c cl a0 l0 PR.
  - cbn [split_a filter]. rewrite !app_nil_r. unfold prodl. cbn [fold_right]. now rewrite !Z.mul_1_r.
  - inversion PR as [|? ? Hp PR']; subst. pose proof (prime_ge_2 p Hp). cbn [split_a filter].
    rewrite div_z_dvb by lia. rewrite bind_Ok. destruct (dvb b p); cbn [negb]; rewrite IH by exact PR';
    rewrite prodl_cons, <- app_assoc, Z.mul_assoc; reflexivity.
Qed.
Lemma split_b_ok c : forall bl b0 l0, Forall prime bl ->
  split_b bl c b0 l0 = Ok (b0 * prodl (filter (fun p => negb (dvb c p)) bl), l0 ++ filter (fun p => negb (dvb c p)) bl).
Proof.
  induction bl as [|p bl IH]; intros b0 l0 PR.
  - cbn [split_b filter]. rewrite !app_nil_r. unfold prodl. cbn [fold_right]. now rewrite !Z.mul_1_r.
  - inversion PR as [|? ? Hp PR']; subst. pose proof (prime_ge_2 p Hp). cbn [split_b filter].
    rewrite div_z_dvb by lia. rewrite bind_Ok. destruct (dvb c p); cbn [negb]; rewrite IH by exact PR'; [reflexivity|].
    rewrite prodl_cons, <- app_assoc, Z.mul_assoc; reflexivity.
Qed.
Lemma prodl_perm l l' : Permutation l l' -> prodl l = prodl l'.
Proof.
  induction 1 as [|x l l' _ IH|x y l|l l' l'' _ IH1 _ IH2].
  - reflexivity.
  - rewrite !prodl_cons, IH. reflexivity.
  - rewrite !prodl_cons. ring.
  - now rewrite IH1.
Qed.
Lemma prodl_filter (f : Z -> bool) l : prodl (filter f l) * prodl (filter (fun p => negb (f p)) l) = prodl l.
Proof.
  induction l as [|p l IH].
  - reflexivity.
  - cbn [filter]. rewrite prodl_cons, <- IH. destruct (f p); cbn [negb]; rewrite prodl_cons; ring.
Qed.
Lemma plist_prodl l e : NoDup l -> Forall prime l -> (e = 1 \/ e = -1) -> plist_of (e * prodl l) l.
Proof.
  intros ND PR HE. split; [exact ND|]. intros p. split.
  - intros I. split; [apply (proj1 (Forall_forall _ _) PR p I)|]. apply Z.divide_mul_r. now apply prodl_in.
  - intros (Hp & D). apply prime_prodl; auto. destruct HE as [->| ->].
    + now rewrite Z.mul_1_l in D.
    + apply (proj1 (Z.divide_opp_r p (prodl l))). replace (- prodl l) with (-1 * prodl l) by ring. exact D.
Qed.
Lemma NoDup_filter' (f : Z -> bool) l : NoDup l -> NoDup (filter f l).
Proof. apply NoDup_filter. Qed.
Lemma Forall_filter (f : Z -> bool) l : Forall prime l -> Forall prime (filter f l).
Proof. intros H. apply Forall_forall. intros p I. apply filter_In in I as (I & _). apply (proj1 (Forall_forall _ _) H p I). Qed.

Lemma dsoluble_red a b c a0 b0 : c <> 0 -> square_free c -> a = c * a0 -> b = c * b0 ->
  dsoluble a b <-> soluble a0 b0 (- c).
Proof.
  intros C0 SC EA EB. split.
  - intros ([[x y] z] & E & N).
    assert (DX : (c | x)).
    { apply (reg_sqf_div c x SC). exists (a0 * (z * z) + b0 * (y * y)). transitivity (a * (z * z) + b * (y * y)); [clear - E; lia|]. rewrite EA, EB. ring. }
    destruct DX as [x' Hx]. exists (z, y, x'). split.
    + apply (Z.mul_reg_l _ _ c); [exact C0|]. rewrite Z.mul_0_r. rewrite EA, EB, Hx in E. clear - E. lia.
    + destruct N as [N|[N|N]]; [right; right; intros H; apply N; rewrite Hx, H; ring|now right; left|now left].
  - intros ([[z y] x] & E & N). exists (c * x, y, z). split.
    + rewrite EA, EB. transitivity (c * (c * (x * x) - a0 * (z * z))); [ring|]. replace (c * (x * x) - a0 * (z * z)) with (b0 * (y * y)) by (clear - E; lia). ring.
    + destruct N as [N|[N|N]]; [now right; right|now right; left|left; now apply mul_nz].
Qed.

Lemma sgn_abs a : a <> 0 -> exists e, (if Z.sgn a <? 0 then -1 else 1) = e /\ (e = 1 \/ e = -1) /\ a = e * Z.abs a.
Proof.
  intros A. eexists. split; [reflexivity|]. destruct (Z.ltb_spec (Z.sgn a) 0); (split; [tauto|lia]).
Qed.

Theorem testlocsol2_ok a al b bl : square_free a -> square_free b -> plist_of a al -> plist_of b bl ->
  exists t, testlocsol2 a al b bl = Ok t /\ (t = true <-> dsoluble a b).
Proof.
  intros SA SB PA PB. unfold testlocsol2. pose proof (sqf_nz a SA) as A. pose proof (sqf_nz b SB) as B.
  destruct ((Z.sgn a <? 0) && (Z.sgn b <? 0)) eqn:SG.
  { apply andb_true_iff in SG as (S1 & S2). apply Z.ltb_lt in S1, S2. eexists. split; [reflexivity|]. split; [discriminate|].
    intros ([[x y] z] & DS). exfalso. apply (def_insoluble (- b) 1 (- a)); try lia. exists (y, x, z). now apply dsol_leg. }
  destruct (sgn_abs a A) as (ea & -> & HEA & EA). destruct (sgn_abs b B) as (eb & -> & HEB & EB). cbv zeta.
  pose proof (plist_primes a al PA) as PRA. pose proof (plist_primes b bl PB) as PRB.
  rewrite split_a_ok by exact PRA. rewrite bind_Ok. cbv beta iota. rewrite !app_nil_l.
  rewrite split_b_ok by exact PRB. rewrite bind_Ok. cbv beta iota. rewrite !app_nil_l.
  pose proof (prodl_sqf a al SA PA) as EPA. pose proof (prodl_sqf b bl SB PB) as EPB.
  destruct PA as (NDA & HPA), PB as (NDB & HPB).
  set (cl := filter (dvb b) al). set (al0 := filter (fun p => negb (dvb b p)) al).
  set (c := -1 * prodl cl). set (bl0 := filter (fun p => negb (dvb c p)) bl).
  assert (P0 : forall p, prime p -> p <> 0) by (intros p Hp; pose proof (prime_ge_2 p Hp); lia).
  assert (PRC : Forall prime cl) by now apply Forall_filter.
  assert (PRA0 : Forall prime al0) by now apply Forall_filter.
  assert (PRB0 : Forall prime bl0) by now apply Forall_filter.
  assert (HC : forall p, In p cl <-> prime p /\ (p | a) /\ (p | b)).
  { intros p. unfold cl. rewrite filter_In, HPA. split.
    - intros ((Hp & D) & DB). apply dvb_iff in DB; auto.
    - intros (Hp & D & DB). split; [auto|]. apply dvb_iff; auto. }
  assert (HCc : forall p, prime p -> ((p | c) <-> In p cl)).
  { intros p Hp. unfold c. split.
    - intros D. apply prime_prodl; auto. apply (proj1 (Z.divide_opp_r p (prodl cl))). replace (- prodl cl) with (-1 * prodl cl) by ring. exact D.
    - intros I. apply Z.divide_mul_r. now apply prodl_in. }
  assert (EG : prodl (filter (dvb c) bl) = prodl cl).
  { apply prodl_perm. apply NoDup_Permutation; [now apply NoDup_filter|now apply NoDup_filter|].
    intros p. rewrite filter_In, HPB, HC. split.
    - intros ((Hp & D) & DC). apply dvb_iff in DC; [|now apply P0]. apply HCc in DC; [|exact Hp]. apply HC in DC. tauto.
    - intros (Hp & D & DB). split; [auto|]. apply dvb_iff; [now apply P0|]. apply HCc; [exact Hp|]. apply HC. auto. }
  set (g := prodl cl) in *. assert (G0 : 0 < g) by (apply prodl_pos; exact PRC).
  assert (QA : a = g * (ea * prodl al0)).
  { rewrite EA at 1. rewrite <- EPA, <- (prodl_filter (dvb b) al). fold cl. fold g. fold al0. ring. }
  assert (QB : b = g * (eb * prodl bl0)).
  { rewrite EB at 1. rewrite <- EPB, <- (prodl_filter (dvb c) bl). rewrite EG. fold bl0. ring. }
  assert (Cc : c = - g) by (unfold c; ring).
  assert (SG0 : square_free g) by (apply (sqf_div a); [exact SA|rewrite QA; apply Z.divide_factor_l]).
  assert (CA : forall n n0, square_free n -> n = g * n0 -> cop n0 c).
  { intros n n0 S E. rewrite Cc. apply cop_opp_r. apply cop_intro. intros d _ [u Hu] [v Hv].
    destruct (sqf_unit n d S) as [U|U]; [exists (u * v); rewrite E, Hu, Hv; ring|rewrite U; apply Z.divide_refl|rewrite U; exists (-1); reflexivity]. }
  destruct (testlocsol3_ok (ea * prodl al0) al0 (eb * prodl bl0) bl0 c cl) as (t & -> & HT).
  - apply (sqf_div a); [exact SA|rewrite QA; apply Z.divide_factor_r].
  - apply (sqf_div b); [exact SB|rewrite QB; apply Z.divide_factor_r].
  - rewrite Cc. now apply sqf_opp.
  - apply cop_primes.
    { intros H. apply A. rewrite QA, H. ring. }
    intros p Hp D1 D2.
    assert (I1 : In p cl).
    { apply HC. split; [exact Hp|]. split; [rewrite QA|rewrite QB]; now apply Z.divide_mul_r. }
    assert (U : (p | 1)).
    { apply (cop_one _ _ p (CA a _ SA QA)); [exact D1|]. now apply HCc. }
    apply Z.divide_1_r in U. pose proof (prime_ge_2 p Hp). lia.
  - apply (CA a _ SA QA).
  - apply (CA b _ SB QB).
  - apply plist_prodl; auto. now apply NoDup_filter.
  - apply plist_prodl; auto. now apply NoDup_filter.
  - unfold c. apply plist_prodl; [now apply NoDup_filter|exact PRC|now right].
  - exists t. split; [reflexivity|]. rewrite HT. rewrite Cc. symmetry. apply dsoluble_red; auto. lia.
Qed.
End Local.
