(** Proofs about CuspModel. *)
From Coq Require Import ZArith Znumtheory Lia List Bool.
From Verif Require Import Base ArithModel ArithProofs RatModel P1Math SymbModel SymbProofs SymbMain CuspModel.
Import ListNotations.
Open Scope Z_scope.

(** ** Expansions *)
(** (c:d) stands for M{0,oo} = {b/d, a/c} for a matrix M=(a,b;c,d) of determinant 1;
    cusps are pairs up to sign *)
Inductive path : Z * Z -> Z * Z -> list (Z * Z) -> Prop :=
| path_nil x : path x x []
| path_cons a b c d y l : a * d - b * c = 1 -> path (a, c) y l -> path (b, d) y ((c, d) :: l)
| path_sign p q y l : path (- p, - q) y l -> path (p, q) y l.
Lemma path_snoc x y l : path x y l -> forall a b c d, y = (b, d) -> a * d - b * c = 1 -> path x (a, c) (l ++ [(c, d)]).
Proof.
  intros H. induction H as [x|a0 b0 c0 d0 y l D H IH|p q y l H IH]; intros a b c d E De.
  - subst x. cbn [app]. apply (path_cons a b c d); [exact De|constructor].
  - cbn [app]. apply (path_cons a0 b0 c0 d0); [exact D|]. apply (IH a b); auto.
  - apply path_sign. apply (IH a b); auto.
Qed.
Lemma path_end_sign x y l : path x y l -> forall p q, y = (p, q) -> path x (- p, - q) l.
Proof.
  intros H. induction H as [x|a0 b0 c0 d0 y l D H IH|p q y l H IH]; intros p' q' E.
  - subst x. apply path_sign. constructor.
  - apply (path_cons a0 b0 c0 d0); [exact D|auto].
  - apply path_sign; auto.
Qed.

Definition early (a b c d : Z) : Prop := (c = 0 /\ d = 1) \/ (Z.abs d <= Z.abs c /\ 2 * Z.abs b <= Z.abs a /\ c <> 0).
Record cf_inv (X Y a b al be c d : Z) : Prop := {
  cf_det : al * d - be * c = 1;
  cf_eq : exists e, (e = 1 \/ e = -1) /\ X = e * (al * a + be * b) /\ Y = e * (c * a + d * b);
  cf_b : Z.abs b <= Z.abs Y;
  cf_a : Z.abs a <= Z.abs X \/ Z.abs a <= Z.abs Y;
  cf_e : early a b c d;
  cf_al : Z.abs al <= Z.abs X + 1 /\ Z.abs be <= Z.abs X + 1;
  cf_c : Z.abs c <= Z.max 1 (Z.abs Y) /\ Z.abs d <= Z.max 1 (Z.abs Y) }.
Lemma cf_start X Y : cf_inv X Y X Y 1 0 0 1.
Proof.
  constructor; try lia.
  - exists 1. split; [auto|]. split; ring.
  - left. auto.
Qed.
Lemma cf_core X Y a b al be c d : cf_inv X Y a b al be c d -> b <> 0 -> Z.abs X + 2 * Z.abs Y + 2 <= max64 ->
  exists r q, mod_long a b = Ok r /\ sub64 a r = Ok (q * b) /\ quot64 (q * b) b = Ok q /\ neg64 b = Ok (- b) /\
    cf_inv X Y (- b) r (q * al + be) (- al) (q * c + d) (- c) /\ 2 * Z.abs r <= Z.abs b.
Proof.
  intros [D (e & He & EX & EY) Bb Ba E Bal Bc] B0 BM.
  assert (Ra : in64 a /\ a <> min64) by (clear - Ba BM; u64; lia). assert (Rb : in64 b /\ b <> min64) by (clear - Bb BM; u64; lia).
  destruct (mod_long_ok a b) as (r & -> & [q Eq] & Br); try tauto. exists r, q. split; [reflexivity|].
  assert (Br' : 2 * Z.abs r <= Z.abs b) by (clear - Br; lia).
  assert (Aq : a - r = q * b) by exact Eq. assert (Bqb : in64 (q * b)) by (rewrite <- Aq; clear - Ba Bb Br' BM; u64; lia).
  split; [rewrite sub64_ok by (rewrite Aq; exact Bqb); now rewrite Aq|].
  assert (Qb : Z.abs (q * b) <= max64) by (rewrite <- Aq; clear - Ba Bb Br' BM; u64; lia).
  split; [rewrite quot64_ok; [now rewrite Z.quot_mul|exact Bqb|exact B0|left; clear - Qb; u64; lia]|].
  split; [apply neg64_ok; clear - Bb BM; u64; lia|]. split; [|exact Br'].
  assert (Y0 : Y <> 0) by (clear - Bb B0; lia).
  assert (EY' : - (c * a + d * b) = (q * c + d) * - b + - c * r) by (replace a with (q * b + r) by (clear - Aq; lia); ring).
  assert (EX' : - (al * a + be * b) = (q * al + be) * - b + - al * r) by (replace a with (q * b + r) by (clear - Aq; lia); ring).
  assert (E' : early (- b) r (q * c + d) (- c)).
  { clear D EX EY EX' EY' Bqb Qb BM Ra Rb Bal Bc Y0. destruct E as [(-> & ->)|(E1 & E2 & E3)]; right.
    - clear - Br'. split; [lia|]. split; lia.
    - rewrite !Z.abs_opp. assert (Q2 : 2 <= Z.abs q).
      { destruct (Z.le_gt_cases 2 (Z.abs q)) as [K|K]; [exact K|]. exfalso. assert (Z.abs (q * b) <= Z.abs b).
        { rewrite Z.abs_mul. assert (KK : Z.abs q * Z.abs b <= 1 * Z.abs b) by (apply Z.mul_le_mono_nonneg_r; clear - K; lia). clear - KK. lia. }
        rewrite <- Aq in H. clear - H E2 Br' B0. lia. }
      assert (Z.abs q * Z.abs c >= 2 * Z.abs c) by (clear - Q2; nia). rewrite <- Z.abs_mul in H. split; [clear - H E1; lia|]. split; [exact Br'|]. clear - H E1 E3. lia. }
  assert (NB : Z.abs (q * c + d) <= Z.abs Y /\ Z.abs (- c) <= Z.abs Y).
  { assert (YE : Z.abs Y = Z.abs ((q * c + d) * - b + - c * r)).
    { rewrite EY, Z.abs_mul, <- EY', Z.abs_opp. clear - He. destruct He as [->| ->]; lia. }
    clear EY EX EX' EY' D Bqb Qb Ra Rb Aq Eq.
    destruct E' as [(E1 & E2)|(E1 & E2 & E3)]; [rewrite E1, E2 in *; clear - Y0; split; lia|]. set (c' := q * c + d) in *. set (d' := - c) in *. clearbody c' d'.
    assert (Z.abs (c' * - b) <= Z.abs Y + Z.abs (d' * r)) by (rewrite YE; clear; lia). rewrite !Z.abs_mul, Z.abs_opp in *.
    assert (Z.abs d' * Z.abs r <= Z.abs c' * Z.abs r) by (apply Z.mul_le_mono_nonneg_r; [clear; lia|exact E1]).
    assert (Z.abs c' * (Z.abs b - Z.abs r) <= Z.abs Y) by (clear - H H0; lia).
    assert (1 <= Z.abs b - Z.abs r) by (clear - Br' B0; lia).
    assert (Z.abs c' * 1 <= Z.abs c' * (Z.abs b - Z.abs r)) by (apply Z.mul_le_mono_nonneg_l; [clear; lia|exact H2]). clear - H1 H3 E1. lia. }
  constructor.
  - rewrite <- D. ring.
  - exists (- e). split; [destruct He as [->| ->]; auto|]. rewrite <- EX', <- EY', EX, EY. split; ring.
  - clear - Br' Bb. lia.
  - right. rewrite Z.abs_opp. exact Bb.
  - exact E'.
  - split; [|rewrite Z.abs_opp; tauto].
    (* al' Y - c' X = +- r *)
    assert (DD : (q * al + be) * Y - (q * c + d) * X = - (e * r)).
    { rewrite EX, EY. replace (- (e * r)) with (- (e * r) * (al * d - be * c)) by (rewrite D; ring). replace r with (a - q * b) by (clear - Aq; lia). ring. }
    assert (Z.abs ((q * al + be) * Y) <= Z.abs ((q * c + d) * X) + Z.abs r).
    { assert (Z.abs (e * r) = Z.abs r) by (clear - He; destruct He as [->| ->]; lia). clear - DD H. lia. }
    rewrite !Z.abs_mul in H. destruct NB as [NB _].
    assert (Z.abs (q * c + d) * Z.abs X <= Z.abs Y * Z.abs X) by (apply Z.mul_le_mono_nonneg_r; [clear; lia|exact NB]).
    assert (Z.abs (q * al + be) * Z.abs Y <= (Z.abs X + 1) * Z.abs Y) by (clear - H H0 Br' Bb; lia).
    apply Z.mul_le_mono_pos_r in H1; [exact H1|clear - Y0; lia].
  - split; [clear - NB; lia|clear - NB; lia].
Qed.

Definition mk (s : Z * Z * Z * Z * list (Z * Z)) : Z := let '(_, b, _, _, _) := s in Z.abs b.
Definition Wbig : max64 < 2 ^ Z.of_nat W. Proof. reflexivity. Qed.
(** the symbols for {0, nn/dd} *)
Lemma cf_symbols_ok nn dd : Z.abs nn + 2 * Z.abs dd + 2 <= max64 ->
  exists l p q, cf_symbols nn dd = Ok l /\ path (0, 1) (p, q) l /\ Z.gcd p q = 1 /\
    (exists g, nn = g * p /\ dd = g * q) /\
    Forall (fun s => Z.gcd (fst s) (snd s) = 1 /\ Z.abs (fst s) <= Z.max 1 (Z.abs dd) /\ Z.abs (snd s) <= Z.max 1 (Z.abs dd)) l.
Proof.
  intros BM. unfold cf_symbols.
  set (FA := Forall (fun s => Z.gcd (fst s) (snd s) = 1 /\ Z.abs (fst s) <= Z.max 1 (Z.abs dd) /\ Z.abs (snd s) <= Z.max 1 (Z.abs dd))).
  destruct (while_total cf_step
    (fun s => let '(a, b, c, d, out) := s in exists al be, cf_inv nn dd a b al be c d /\ path (0, 1) (al, c) out /\ FA out)
    (fun l => exists p q, path (0, 1) (p, q) l /\ Z.gcd p q = 1 /\ (exists g, nn = g * p /\ dd = g * q) /\ FA l) mk)
    with (n := W) (s := (nn, dd, 0, 1, [(0, 1)])) as (l & -> & p & q & H).
  - intros [[[[a b] c] d] out] _. unfold mk. clear. lia.
  - intros [[[[a b] c] d] out] (al & be & I & P & F). unfold cf_step. destruct (Z.eqb_spec b 0) as [B0|B0].
    + left. exists out. split; [reflexivity|]. exists al, c. split; [exact P|]. destruct I as [D (e & He & EX & EY) _ _ _ _ _]. split.
      * apply Zgcd_1_rel_prime, bezout_rel_prime. apply (Bezout_intro _ _ 1 d (- be)). rewrite <- D. ring.
      * split; [|exact F]. exists (e * a). rewrite EX, EY, B0. split; ring.
    + right. destruct (cf_core nn dd a b al be c d I B0 BM) as (r & q & -> & E1 & E2 & E3 & I' & R).
      rewrite bind_Ok, E1, bind_Ok, E2, bind_Ok, E3, bind_Ok. pose proof (cf_c _ _ _ _ _ _ _ _ I') as [C1 C2]. pose proof (cf_c _ _ _ _ _ _ _ _ I) as [C3 C4].
      rewrite neg64_ok by (clear - C2 BM; u64; lia). rewrite bind_Ok.
      rewrite mul64_ok by (clear - C1 C4 BM; u64; lia). rewrite bind_Ok. rewrite add64_ok by (clear - C1 BM; u64; lia). rewrite bind_Ok.
      eexists. split; [reflexivity|]. split; [|unfold mk; clear - R B0; lia]. exists (q * al + be), (- al). split; [exact I'|]. pose proof (cf_det _ _ _ _ _ _ _ _ I') as D'. split.
      * apply (path_snoc (0, 1) (- al, - c) out) with (b := - al); [apply (path_end_sign _ (al, c)); auto|reflexivity|exact D'].
      * apply Forall_app. split; [exact F|]. constructor; [|constructor]. cbn [fst snd]. split; [|lia].
        apply Zgcd_1_rel_prime, bezout_rel_prime. apply (Bezout_intro _ _ 1 (- - al) (q * al + be)). rewrite <- D'. ring.
  - exists 1, 0. split; [apply cf_start|]. split.
    + apply (path_cons 1 0 0 1); [reflexivity|constructor].
    + constructor; [|constructor]. cbn [fst snd]. split; [reflexivity|lia].
  - unfold mk. pose proof Wbig. clear - BM H. lia.
  - exists l, p, q. tauto.
Qed.

(** a cusp: coprime, denominator at least 0 *)
Definition cusp (c : rat) : Prop := Z.gcd (fst c) (snd c) = 1 /\ 0 <= snd c.
Definition cusp_le (B : Z) (c : rat) : Prop := cusp c /\ Z.abs (fst c) <= B /\ Z.abs (snd c) <= B.
Lemma path_start_sign p q y l : path (p, q) y l -> path (- p, - q) y l.
Proof. intros H. apply path_sign. now rewrite !Z.opp_involutive. Qed.
Lemma path_cross p q p' q' : Z.gcd p q = 1 -> Z.gcd p' q' = 1 -> p * q' = p' * q -> (p = p' /\ q = q') \/ (p = - p' /\ q = - q').
Proof.
  intros G G' E. assert (D1 : (p | p')) by (apply (Z.gauss _ q); [rewrite Z.mul_comm, <- E; apply Z.divide_factor_l|exact G]).
  assert (D2 : (p' | p)) by (apply (Z.gauss _ q'); [rewrite Z.mul_comm, E; apply Z.divide_factor_l|exact G']).
  assert (D3 : (q | q')) by (apply (Z.gauss _ p); [rewrite E; apply Z.divide_factor_r|rewrite Z.gcd_comm; exact G]).
  assert (D4 : (q' | q)) by (apply (Z.gauss _ p'); [rewrite <- E; apply Z.divide_factor_r|rewrite Z.gcd_comm; exact G']).
  destruct (Z.divide_antisym _ _ D1 D2) as [P|P]; destruct (Z.divide_antisym _ _ D3 D4) as [Q|Q]; clear - E P Q; auto.
  - assert (Z0 : p' * q' = 0) by (rewrite P, Q in E; lia). apply Z.mul_eq_0 in Z0. destruct Z0; [right|left]; lia.
  - assert (Z0 : p' * q' = 0) by (rewrite P, Q in E; lia). apply Z.mul_eq_0 in Z0. destruct Z0; [left|right]; lia.
Qed.
(** the symbols for {al,be} (in reverse order: the code adds their classes) *)
Lemma ms_symbols_ok al be : cusp_le 1000000 al -> cusp_le 1000000 be ->
  exists l, ms_symbols al be = Ok l /\ path al be (rev l) /\ Forall (fun s => Z.gcd (fst s) (snd s) = 1) l.
Proof.
  destruct al as [b0 d0], be as [a c]. unfold cusp_le, cusp. cbn [fst snd]. intros ((Gal & Pd) & Bb0 & Bd0) ((Gbe & Pc) & Ba & Bc).
  assert (MB : forall x y, Z.abs x <= 1000000 -> Z.abs y <= 1000000 -> Z.abs (x * y) <= 1000000000000).
  { intros x y Hx Hy. rewrite Z.abs_mul. change 1000000000000 with (1000000 * 1000000). apply Z.mul_le_mono_nonneg; lia. }
  unfold ms_symbols. pose proof (MB a d0 Ba Bd0) as M1. pose proof (MB b0 c Bb0 Bc) as M2.
  rewrite mul64_ok by (clear - M1; u64; lia). rewrite bind_Ok. rewrite mul64_ok by (clear - M2; u64; lia). rewrite bind_Ok.
  rewrite sub64_ok by (clear - M1 M2; u64; lia). rewrite bind_Ok.
  assert (SG : exists de b d, (if a * d0 - b0 * c <? 0 then de <- neg64 (a * d0 - b0 * c) ;; b <- neg64 b0 ;; d <- neg64 d0 ;; Ok (de, b, d) else Ok (a * d0 - b0 * c, b0, d0)) = Ok (de, b, d) /\
     0 <= de /\ de = a * d - b * c /\ Z.abs b = Z.abs b0 /\ Z.abs d = Z.abs d0 /\ (forall y l, path (b, d) y l -> path (b0, d0) y l)).
  { destruct (Z.ltb_spec (a * d0 - b0 * c) 0) as [L|L].
    - rewrite neg64_ok by (clear - M1 M2; u64; lia). rewrite bind_Ok. rewrite neg64_ok by (clear - Bb0; u64; lia). rewrite bind_Ok.
      rewrite neg64_ok by (clear - Bd0; u64; lia). rewrite bind_Ok. exists (- (a * d0 - b0 * c)), (- b0), (- d0). split; [reflexivity|].
      split; [lia|]. split; [ring|]. split; [lia|]. split; [lia|]. intros y l. apply path_sign.
    - exists (a * d0 - b0 * c), b0, d0. split; [reflexivity|]. split; [lia|]. split; [reflexivity|]. auto. }
  destruct SG as (de & b & d & -> & Pde & Ede & Ab & Ad & PS). rewrite bind_Ok.
  destruct (Z.eqb_spec de 1) as [E1|E1].
  - exists [(c, d)]. split; [reflexivity|]. split; [cbn [rev app]; apply PS; apply (path_cons a b c d); [lia|constructor]|].
    constructor; [|constructor]. cbn [fst snd]. apply Zgcd_1_rel_prime, bezout_rel_prime. apply (Bezout_intro _ _ 1 (- b) a). lia.
  - destruct (bezout_long_ok a c) as (u & v & -> & BE & Bu & Bv); [unfold sym64; u64; lia|unfold sym64; u64; lia|]. rewrite bind_Ok. rewrite Gbe in BE.
    assert (Bu' : Z.abs u <= 1000000) by (clear - Bu Bc; lia). assert (Bv' : Z.abs v <= 1000000) by (clear - Bv Ba; lia).
    assert (Bb : Z.abs b <= 1000000) by (rewrite Ab; exact Bb0). assert (Bd : Z.abs d <= 1000000) by (rewrite Ad; exact Bd0).
    pose proof (MB b u Bb Bu') as M3. pose proof (MB v d Bv' Bd) as M4. pose proof (MB a d Ba Bd) as M5. pose proof (MB b c Bb Bc) as M6.
    rewrite mul64_ok by (clear - M3; u64; lia). rewrite bind_Ok. rewrite mul64_ok by (clear - M4; u64; lia). rewrite bind_Ok.
    rewrite add64_ok by (clear - M3 M4; u64; lia). rewrite bind_Ok. set (nu := b * u + v * d).
    assert (Bnu : Z.abs nu <= 2000000000000) by (unfold nu; clear - M3 M4; lia).
    assert (Bde : Z.abs de <= 2000000000000) by (clear - M5 M6 Ede; lia).
    assert (BM : Z.abs nu + 2 * Z.abs de + 2 <= max64) by (clear - Bnu Bde; u64; lia).
    assert (CB : forall al ga, Z.abs al <= Z.abs nu + 1 -> Z.abs ga <= Z.max 1 (Z.abs de) -> Z.abs (c * al + u * ga) <= 4000002000000000000).
    { intros al ga H1 H2. assert (K1 : Z.abs al <= 2000000000001) by (clear - H1 Bnu; lia). assert (K2 : Z.abs ga <= 2000000000000) by (clear - H2 Bde; lia).
      clear - Bc Bu' K1 K2. assert (Z.abs (c * al) <= 2000000000001000000).
      { rewrite Z.abs_mul. change 2000000000001000000 with (1000000 * 2000000000001). apply Z.mul_le_mono_nonneg; lia. }
      assert (Z.abs (u * ga) <= 2000000000000000000).
      { rewrite Z.abs_mul. change 2000000000000000000 with (1000000 * 2000000000000). apply Z.mul_le_mono_nonneg; lia. }
      lia. }
    set (FA := Forall (fun s : Z * Z => Z.gcd (fst s) (snd s) = 1)).
    destruct (while_total ms_step
      (fun s => let '(r, s, C, D, out) := s in exists al be ga dl, cf_inv nu de r s al be ga dl /\ C = c * al + u * ga /\ D = c * be + u * dl /\
         path (a * al - v * ga, C) (a, c) (rev out) /\ FA out)
      (fun l => exists p q, path (p, q) (a, c) (rev l) /\ Z.gcd p q = 1 /\ (exists g, b = g * p /\ d = g * q) /\ FA l) mk)
      with (n := W) (s := (nu, de, c, u, @nil (Z * Z))) as (l & -> & p & q & P & Gp & (g & Eb & Ed) & F).
    + intros [[[[r s] C] D] out] _. unfold mk. clear. lia.
    + intros [[[[r s] C] D] out] (al & be & ga & dl & I & EC & ED & P & F). unfold ms_step.
      pose proof (cf_det _ _ _ _ _ _ _ _ I) as DT. destruct (Z.eqb_spec s 0) as [B0|B0].
      * left. exists out. split; [reflexivity|]. exists (a * al - v * ga), C. split; [exact P|]. split.
        -- apply Zgcd_1_rel_prime, bezout_rel_prime. apply (Bezout_intro _ _ 1 (c * be + u * dl) (- (a * be - v * dl))).
           transitivity ((a * u + c * v) * (al * dl - be * ga)); [rewrite EC; ring|]. rewrite BE, DT. reflexivity.
        -- split; [|exact F]. destruct I as [_ (e & He & EX & EY) _ _ _ _ _]. exists (e * r). rewrite B0 in EX, EY.
           assert (EX' : nu = e * r * al) by (rewrite EX; ring). assert (EY' : de = e * r * ga) by (rewrite EY; ring).
           split.
           ++ transitivity (b * (a * u + c * v)); [rewrite BE; ring|]. transitivity (a * nu - v * de); [unfold nu; rewrite Ede; ring|]. rewrite EX', EY'. ring.
           ++ transitivity (d * (a * u + c * v)); [rewrite BE; ring|]. transitivity (c * nu + u * de); [unfold nu; rewrite Ede; ring|]. rewrite EX', EY', EC. ring.
      * right. destruct (cf_core nu de r s al be ga dl I B0 BM) as (r' & q & -> & E2 & E3 & E4 & I' & R).
        rewrite bind_Ok, E2, bind_Ok, E3, bind_Ok, E4, bind_Ok.
        destruct (cf_al _ _ _ _ _ _ _ _ I) as [A1 A2]. destruct (cf_c _ _ _ _ _ _ _ _ I) as [C1 C2].
        destruct (cf_al _ _ _ _ _ _ _ _ I') as [A3 A4]. destruct (cf_c _ _ _ _ _ _ _ _ I') as [C3 C4].
        pose proof (CB al ga A1 C1) as K1. rewrite <- EC in K1. pose proof (CB be dl A2 C2) as K2. rewrite <- ED in K2. pose proof (CB _ _ A3 C3) as K3.
        assert (QC : q * C + D = c * (q * al + be) + u * (q * ga + dl)) by (rewrite EC, ED; ring). rewrite <- QC in K3.
        rewrite neg64_ok by (clear - K1; u64; lia). rewrite bind_Ok. rewrite mul64_ok by (clear - K2 K3; u64; lia). rewrite bind_Ok.
        rewrite add64_ok by (clear - K3; u64; lia). rewrite bind_Ok. rewrite neg64_ok by (clear - K1; u64; lia). rewrite bind_Ok.
        eexists. split; [reflexivity|]. split; [|unfold mk; clear - R B0; lia].
        exists (q * al + be), (- al), (q * ga + dl), (- ga). split; [exact I'|]. split; [exact QC|]. split; [rewrite EC; ring|].
        assert (DET : (a * al - v * ga) * (q * C + D) - (a * (q * al + be) - v * (q * ga + dl)) * C = 1).
        { transitivity ((a * u + c * v) * (al * dl - be * ga)); [rewrite EC, ED; ring|]. rewrite BE, DT. reflexivity. }
        rewrite rev_app_distr. cbn [rev app]. rewrite Z.opp_involutive. split.
        -- apply (path_cons (a * al - v * ga) _ C (q * C + D)); [exact DET|exact P].
        -- apply Forall_app. split; [exact F|]. constructor; [|constructor]. cbn [fst snd]. apply Zgcd_1_rel_prime, bezout_rel_prime.
           apply (Bezout_intro _ _ 1 (- (a * (q * al + be) - v * (q * ga + dl))) (a * al - v * ga)). rewrite <- DET. ring.
    + exists 1, 0, 0, 1. split; [apply cf_start|]. split; [ring|]. split; [ring|]. split; [|constructor].
      cbn [rev]. replace (a * 1 - v * 0) with a by ring. constructor.
    + unfold mk. pose proof Wbig. clear - Bde H. u64. lia.
    + exists l. split; [reflexivity|]. split; [|exact F]. apply PS.
      assert (GB : Z.gcd b d = 1).
      { rewrite <- (Z.gcd_abs_l b), <- (Z.gcd_abs_r _ d), Ab, Ad, Z.gcd_abs_l, Z.gcd_abs_r. exact Gal. }
      destruct (path_cross b d p q GB Gp) as [[-> ->]|[-> ->]]; [rewrite Eb, Ed; ring|exact P|now apply path_start_sign].
Qed.
