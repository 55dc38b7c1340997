(** Reduction of solutions (conic_mordell_reduce, legendre_reduce, legendre_param,
    new_legendre_reduce): from a primitive solution to a primitive solution. *)
From Coq Require Import ZArith Lia List Bool.
From Verif Require Import Base RatModel MArithModel MArithProofs FormsModel FormsProofs LegModel LegArith LegLem1.
Import ListNotations.
Open Scope Z_scope.
Open Scope res_scope.

Definition prim3 (s : tri) : Prop := let '(x, y, z) := s in forall d, (d | x) -> (d | y) -> (d | z) -> (d | 1).
Definition scal3 (g : Z) (s : tri) : tri := let '(x, y, z) := s in (g * x, g * y, g * z).

Lemma cancel1_ok x y z : nonzero3 x y z -> exists s g, cancel1 (x, y, z) = Ok s /\ 0 < g /\ (x, y, z) = scal3 g s /\ prim3 s.
Proof.
  intros NZ. unfold cancel1. cbv zeta.
  destruct (Z.eqb_spec (Z.gcd x y) 1) as [E|NE].
  { exists (x, y, z), 1. split; [reflexivity|]. split; [lia|]. split; [unfold scal3; now rewrite !Z.mul_1_l|].
    intros d D1 D2 _. rewrite <- E. now apply Z.gcd_greatest. }
  destruct (Z.eqb_spec (Z.gcd (Z.gcd x y) z) 1) as [E|NE'].
  { exists (x, y, z), 1. split; [reflexivity|]. split; [lia|]. split; [unfold scal3; now rewrite !Z.mul_1_l|].
    intros d D1 D2 D3. rewrite <- E. apply Z.gcd_greatest; [now apply Z.gcd_greatest|auto]. }
  set (g := Z.gcd (Z.gcd x y) z) in *.
  assert (G0 : 0 < g).
  { pose proof (Z.gcd_nonneg (Z.gcd x y) z) as P. fold g in P.
    destruct (Z.eq_dec g 0) as [E|]; [|lia]. exfalso. unfold g in E. apply Z.gcd_eq_0 in E as [E1 E2].
    apply Z.gcd_eq_0 in E1. destruct NZ; lia. }
  assert (D : (g | Z.gcd x y)) by apply Z.gcd_divide_l.
  assert (Dz : (g | z)) by apply Z.gcd_divide_r.
  assert (Dx : (g | x)) by (eapply Z.divide_trans; [exact D|apply Z.gcd_divide_l]).
  assert (Dy : (g | y)) by (eapply Z.divide_trans; [exact D|apply Z.gcd_divide_r]).
  clear D.
  rewrite !zz_div_ok by lia. repeat (rewrite bind_Ok; cbv beta iota).
  destruct Dx as [x' Ex], Dy as [y' Ey], Dz as [z' Ez].
  exists (x', y', z'), g.
  assert (Qx : x / g = x') by (rewrite Ex; apply Z.div_mul; lia).
  assert (Qy : y / g = y') by (rewrite Ey; apply Z.div_mul; lia).
  assert (Qz : z / g = z') by (rewrite Ez; apply Z.div_mul; lia).
  rewrite Qx, Qy, Qz.
  split; [reflexivity|]. split; [exact G0|]. split; [unfold scal3; rewrite Ex, Ey, Ez; f_equal; [f_equal|]; ring|].
  intros d D1 D2 D3.
  assert (H : (g * d | g)).
  { unfold g at 2. apply Z.gcd_greatest; [apply Z.gcd_greatest|].
    - rewrite Ex, (Z.mul_comm x' g). now apply Z.mul_divide_mono_l.
    - rewrite Ey, (Z.mul_comm y' g). now apply Z.mul_divide_mono_l.
    - rewrite Ez, (Z.mul_comm z' g). now apply Z.mul_divide_mono_l. }
  destruct H as [k Hk]. exists k.
  apply (Z.mul_reg_l _ _ g); [lia|]. transitivity g; [ring|]. rewrite Hk at 1. ring.
Qed.

Lemma prim3_opp a b c x y z : (a = x \/ a = - x) -> (b = y \/ b = - y) -> (c = z \/ c = - z) ->
  prim3 (x, y, z) -> prim3 (a, b, c).
Proof.
  intros A B C P d D1 D2 D3. apply P.
  - destruct A as [->| ->]; [auto|]. now apply Z.divide_opp_r.
  - destruct B as [->| ->]; [auto|]. now apply Z.divide_opp_r.
  - destruct C as [->| ->]; [auto|]. now apply Z.divide_opp_r.
Qed.
Lemma cancel_ok x y z : nonzero3 x y z -> exists x' y' z' g, cancel (x, y, z) = Ok (x', y', z') /\ 0 < g /\
  Z.abs x = g * Z.abs x' /\ Z.abs y = g * Z.abs y' /\ Z.abs z = g * Z.abs z' /\ prim3 (x', y', z').
Proof.
  intros NZ. destruct (cancel1_ok x y z NZ) as ([[x1 y1] z1] & g & E & G & S & P).
  cbn [scal3] in S.
  assert (Sx : x = g * x1) by exact (f_equal (fun t : tri => fst (fst t)) S).
  assert (Sy : y = g * y1) by exact (f_equal (fun t : tri => snd (fst t)) S).
  assert (Sz : z = g * z1) by exact (f_equal (fun t : tri => snd t) S).
  unfold cancel. rewrite E. rewrite bind_Ok. cbv beta iota.
  assert (HA : forall u, Z.abs (g * u) = g * Z.abs u) by (intros u; rewrite Z.abs_mul; rewrite (Z.abs_eq g); lia).
  assert (K : forall a b c, (a = x1 \/ a = - x1) -> (b = y1 \/ b = - y1) -> (c = z1 \/ c = - z1) ->
    exists x' y' z' g0, Ok (a, b, c) = Ok (x', y', z') /\ 0 < g0 /\
    Z.abs x = g0 * Z.abs x' /\ Z.abs y = g0 * Z.abs y' /\ Z.abs z = g0 * Z.abs z' /\ prim3 (x', y', z')).
  { intros a b c A B C. exists a, b, c, g. split; [reflexivity|]. split; [exact G|].
    rewrite Sx, Sy, Sz, !HA.
    split; [destruct A as [->| ->]; rewrite ?Z.abs_opp; reflexivity|].
    split; [destruct B as [->| ->]; rewrite ?Z.abs_opp; reflexivity|].
    split; [destruct C as [->| ->]; rewrite ?Z.abs_opp; reflexivity|].
    eapply prim3_opp; eauto. }
  destruct (0 <? z1); [apply K; tauto|]. destruct (z1 <? 0); [apply K; tauto|].
  destruct (0 <? y1); [apply K; tauto|]. destruct (y1 <? 0); [apply K; tauto|].
  destruct (x1 <? 0); apply K; tauto.
Qed.

(** ** Solutions *)
Lemma sol_unscale a b c g s : 0 < g -> leg_sol a b c (scal3 g s) -> leg_sol a b c s.
Proof.
  destruct s as [[x y] z]. cbn [scal3 leg_sol]. intros G (E & NZ). split.
  - apply (Z.mul_reg_l _ _ (g * g)); [apply mul_nz; lia|]. rewrite Z.mul_0_r, <- E. ring.
  - destruct NZ as [H|[H|H]]; [left|right;left|right;right]; intros ->; apply H; ring.
Qed.
Lemma cancel1_sol a b c x y z : leg_sol a b c (x, y, z) ->
  exists s, cancel1 (x, y, z) = Ok s /\ leg_sol a b c s /\ prim3 s.
Proof.
  intros S. destruct (cancel1_ok x y z (proj2 S)) as (s & g & E & G & ES & P).
  exists s. split; [exact E|]. split; [|exact P]. apply (sol_unscale a b c g); [exact G|]. now rewrite <- ES.
Qed.
Lemma abs_sq x : Z.abs x * Z.abs x = x * x. Proof. apply Z.abs_square. Qed.
Lemma cancel_sol a b c x y z : leg_sol a b c (x, y, z) ->
  exists s, cancel (x, y, z) = Ok s /\ leg_sol a b c s /\ prim3 s.
Proof.
  intros [E NZ]. destruct (cancel_ok x y z NZ) as (x' & y' & z' & g & EC & G & X & Y & Zz & P).
  exists (x', y', z'). split; [exact EC|]. split; [|exact P]. split.
  - apply (Z.mul_reg_l _ _ (g * g)); [apply mul_nz; lia|]. rewrite Z.mul_0_r, <- E.
    rewrite <- (abs_sq x), <- (abs_sq y), <- (abs_sq z), X, Y, Zz, <- (abs_sq x'), <- (abs_sq y'), <- (abs_sq z'). ring.
  - destruct NZ as [H|[H|H]]; [left|right;left|right;right]; intros ->; apply H; lia.
Qed.

(** no totally isotropic plane *)
Lemma no_iso_plane a b c x y z x' y' z' : a <> 0 -> b <> 0 -> z <> 0 -> y * x' - x * y' <> 0 ->
  a * (x * x) + b * (y * y) + c * (z * z) = 0 -> a * x * x' + b * y * y' + c * z * z' = 0 ->
  a * (x' * x') + b * (y' * y') + c * (z' * z') = 0 -> False.
Proof.
  intros A B C N E1 E2 E3.
  assert (P : a * x * (x * z' - z * x') + b * y * (y * z' - z * y') = 0).
  { transitivity (z' * (a * (x * x) + b * (y * y) + c * (z * z)) - z * (a * x * x' + b * y * y' + c * z * z')); [ring|].
    rewrite E1, E2. ring. }
  assert (Q : a * x' * (x * z' - z * x') + b * y' * (y * z' - z * y') = 0).
  { transitivity (z' * (a * x * x' + b * y * y' + c * z * z') - z * (a * (x' * x') + b * (y' * y') + c * (z' * z'))); [ring|].
    rewrite E3, E2. ring. }
  assert (P0 : x * z' - z * x' = 0).
  { apply (Z.mul_reg_l _ _ (a * (y * x' - x * y'))); [now apply mul_nz|]. rewrite Z.mul_0_r.
    transitivity (y * (a * x' * (x * z' - z * x') + b * y' * (y * z' - z * y'))
                  - y' * (a * x * (x * z' - z * x') + b * y * (y * z' - z * y'))); [ring|].
    rewrite P, Q. ring. }
  assert (Q0 : y * z' - z * y' = 0).
  { apply (Z.mul_reg_l _ _ (b * (y * x' - x * y'))); [now apply mul_nz|]. rewrite Z.mul_0_r.
    transitivity (x' * (a * x * (x * z' - z * x') + b * y * (y * z' - z * y'))
                  - x * (a * x' * (x * z' - z * x') + b * y' * (y * z' - z * y'))); [ring|].
    rewrite P, Q. ring. }
  apply N. apply (Z.mul_reg_l _ _ z); [exact C|]. rewrite Z.mul_0_r.
  transitivity (x * (y * z' - z * y') - y * (x * z' - z * x')); [ring|]. rewrite P0, Q0. ring.
Qed.

(** ** conic_mordell_reduce *)
Section Red.
Variable xgcd : Z -> Z -> Z * Z * Z.
Hypothesis X : xgcd_spec xgcd.

Lemma zdiv_ex n d q : d <> 0 -> n = d * q -> zz_div n d = Ok q.
Proof. intros D ->. rewrite zz_div_ok by exact D. f_equal. rewrite Z.mul_comm. now apply Z.div_mul. Qed.

(** common factor of two coordinates *)
Lemma two_common a b c x y z : (x <> 0 \/ y <> 0) -> a * (x * x) + b * (y * y) + c * (z * z) = 0 -> prim3 (x, y, z) ->
  exists g x' y' c', g = Z.gcd x y /\ 0 < g /\ x = g * x' /\ y = g * y' /\ cop x' y' /\ c = g * g * c' /\
    a * (x' * x') + b * (y' * y') + c' * (z * z) = 0.
Proof.
  intros NZ E P. destruct (gcd_split x y NZ) as (x' & y' & Ex & Ey & C & G).
  set (g := Z.gcd x y) in *.
  assert (CZ : cop g z).
  { apply cop_intro. intros d _ D1 D2. apply P; [| |exact D2].
    - rewrite Ex. now apply Z.divide_mul_l.
    - rewrite Ey. now apply Z.divide_mul_l. }
  assert (D : (g * g | c)).
  { apply (cop_sq_div g (z * z)).
    - apply cop_mul; exact CZ.
    - exists (- (a * (x' * x') + b * (y' * y'))).
      assert (H : z * z * c = - (a * (x * x) + b * (y * y))) by (clear - E; lia).
      rewrite H, Ex, Ey. ring. }
  destruct D as [c' Ec]. exists g, x', y', c'. split; [reflexivity|]. split; [exact G|]. split; [exact Ex|].
  split; [exact Ey|]. split; [exact C|]. split; [rewrite Ec; ring|].
  apply (Z.mul_reg_l _ _ (g * g)); [apply mul_nz; lia|]. rewrite Z.mul_0_r, <- E.
  rewrite Ex, Ey, Ec. ring.
Qed.

Definition msol (a b c : Z) (s : tri) : Prop := leg_sol a b c s /\ prim3 s.

Lemma odd_add3 m n k : Z.odd (m + n + k) = xorb (xorb (Z.odd m) (Z.odd n)) (Z.odd k).
Proof. now rewrite !Z.odd_add. Qed.
Lemma odd_sq n : Z.odd (n * n) = Z.odd n.
Proof. rewrite Z.odd_mul. now destruct (Z.odd n). Qed.

Lemma zchoice a b c0 xx yy u v : 0 < v ->
  exists zz, (if Z.odd c0 then
             if Z.odd (a * xx + b * yy) then
               zz <- roundover u v ;;
               if Z.even zz then (if u <? v * zz then Ok (zz - 1) else Ok (zz + 1)) else Ok zz
             else zz <- roundover u (2 * v) ;; Ok (2 * zz)
           else roundover u v) = Ok zz /\
   (Z.odd c0 = true -> Z.odd (a * (xx * xx) + b * (yy * yy) + c0 * (zz * zz)) = false).
Proof.
  intros V.
  assert (PAR : forall zz, Z.odd c0 = true -> Z.odd (a * (xx * xx) + b * (yy * yy) + c0 * (zz * zz)) =
     xorb (Z.odd (a * xx + b * yy)) (Z.odd zz)).
  { intros zz O. rewrite odd_add3, Z.odd_add, !Z.odd_mul, O. now destruct (Z.odd a), (Z.odd b), (Z.odd xx), (Z.odd yy), (Z.odd zz). }
  destruct (Z.odd c0) eqn:O.
  - destruct (Z.odd (a * xx + b * yy)) eqn:O2.
    + destruct (roundover_ok u v V) as (q & -> & _). rewrite bind_Ok.
      destruct (Z.even q) eqn:EV.
      * assert (OQ : Z.odd q = false) by (rewrite <- Z.negb_even, EV; reflexivity).
        destruct (u <? v * q).
        -- exists (q - 1). split; [reflexivity|]. intros _. rewrite (PAR (q - 1) eq_refl), Z.odd_sub, OQ. reflexivity.
        -- exists (q + 1). split; [reflexivity|]. intros _. rewrite (PAR (q + 1) eq_refl), Z.odd_add, OQ. reflexivity.
      * exists q. split; [reflexivity|]. intros _. rewrite (PAR q eq_refl), <- (Z.negb_even q), EV. reflexivity.
    + destruct (roundover_ok u (2 * v)) as (q & -> & _); [lia|]. rewrite bind_Ok.
      exists (2 * q). split; [reflexivity|]. intros _. rewrite (PAR (2 * q) eq_refl), Z.odd_mul. reflexivity.
  - destruct (roundover_ok u v V) as (q & -> & _). exists q. split; [reflexivity|]. discriminate.
Qed.

Lemma mstep_div a b c0 d x y z xx yy zz : cop x y -> (d | c0) -> y * xx - x * yy = d ->
  a * (x * x) + b * (y * y) + c0 * (z * z) = 0 ->
  (d | a * (xx * xx) + b * (yy * yy) + c0 * (zz * zz)) /\ (d | a * x * xx + b * y * yy + c0 * z * zz).
Proof.
  intros C D DET E.
  assert (KEY : forall n, (d | x * n) -> (d | y * n) -> (d | n)).
  { intros n D1 D2. destruct (cop_bezout x y C) as (s & t & H).
    replace n with (s * (x * n) + t * (y * n)) by (transitivity ((x * s + y * t) * n); [ring|rewrite H; ring]).
    apply Z.divide_add_r; now apply Z.divide_mul_r. }
  assert (DE : (d | a * (x * x) + b * (y * y))).
  { replace (a * (x * x) + b * (y * y)) with (- (z * z) * c0) by (clear - E; lia). now apply Z.divide_mul_r. }
  assert (DD : (d | y * xx - x * yy)) by (rewrite DET; apply Z.divide_refl).
  assert (L1 : (d | a * x * xx + b * y * yy)).
  { apply KEY.
    - replace (x * (a * x * xx + b * y * yy)) with ((a * (x * x) + b * (y * y)) * xx + (- (b * y)) * (y * xx - x * yy)) by ring.
      apply Z.divide_add_r; [now apply Z.divide_mul_l|now apply Z.divide_mul_r].
    - replace (y * (a * x * xx + b * y * yy)) with ((a * (x * x) + b * (y * y)) * yy + (a * x) * (y * xx - x * yy)) by ring.
      apply Z.divide_add_r; [now apply Z.divide_mul_l|now apply Z.divide_mul_r]. }
  split.
  - apply Z.divide_add_r; [|now apply Z.divide_mul_l]. apply KEY.
    + replace (x * (a * (xx * xx) + b * (yy * yy))) with ((a * x * xx + b * y * yy) * xx + (- (b * yy)) * (y * xx - x * yy)) by ring.
      apply Z.divide_add_r; [now apply Z.divide_mul_l|now apply Z.divide_mul_r].
    + replace (y * (a * (xx * xx) + b * (yy * yy))) with ((a * x * xx + b * y * yy) * yy + (a * xx) * (y * xx - x * yy)) by ring.
      apply Z.divide_add_r; [now apply Z.divide_mul_l|now apply Z.divide_mul_r].
  - apply Z.divide_add_r; [exact L1|]. rewrite <- Z.mul_assoc. now apply Z.divide_mul_l.
Qed.

Lemma mordell_step_ok a b c x0 y0 z0 : 0 < a -> 0 < b -> c < 0 -> msol a b c (x0, y0, z0) -> a * b < z0 * z0 ->
  exists s', mordell_step xgcd a b c ((x0, y0, z0), false) = Ok (inl s') /\ msol a b c (fst s') /\
   (snd s' = false -> a * b < snd (fst s') * snd (fst s') /\ Z.abs (snd (fst s')) < Z.abs z0).
Proof.
  intros A B C ((E & NZ) & P) BIG.
  assert (Z0 : z0 <> 0).
  { intros ->. pose proof (Z.mul_pos_pos a b A B). lia. }
  assert (NXY : x0 <> 0 \/ y0 <> 0).
  { destruct (Z.eq_dec x0 0) as [->|]; [|tauto]. destruct (Z.eq_dec y0 0) as [->|]; [|tauto]. exfalso.
    assert (c * (z0 * z0) = 0) by (rewrite <- E; ring).
    assert (c * (z0 * z0) <> 0) by (apply mul_nz; [lia|now apply mul_nz]). contradiction. }
  destruct (two_common a b c x0 y0 z0 NXY E P) as (g & x & y & c0 & EG & G & Ex & Ey & CXY & Ec & E0).
  unfold mordell_step.
  assert (EG' : Z.abs (Z.gcd x0 y0) = g) by (rewrite <- EG; lia).
  rewrite EG'. cbv zeta.
  assert (S1 : (if 1 <? g then x <- zz_div x0 g ;; y <- zz_div y0 g ;; c' <- zz_div c (g * g) ;; Ok (x, y, c')
       else Ok (x0, y0, c)) = Ok (x, y, c0)).
  { destruct (Z.ltb_spec 1 g).
    - rewrite (zdiv_ex x0 g x), (zdiv_ex y0 g y), (zdiv_ex c (g * g) c0) by (try lia; try apply mul_nz; lia). reflexivity.
    - assert (HG : g = 1) by lia. rewrite HG in Ex, Ey, Ec. f_equal. f_equal; [f_equal|]; lia. }
  rewrite S1, bind_Ok. cbv beta iota. clear S1.
  assert (C0 : c0 <> 0) by (intros ->; lia).
  assert (S2 : exists d, (if Z.odd c0 then Ok c0 else zz_div c0 2) = Ok d /\ (Z.odd c0 = true -> d = c0) /\ (Z.odd c0 = false -> c0 = 2 * d)).
  { destruct (Z.odd c0) eqn:O.
    - exists c0. split; [reflexivity|]. split; [reflexivity|discriminate].
    - exists (Z.div2 c0).
      assert (H : c0 = 2 * Z.div2 c0) by (rewrite (Z.div2_odd c0) at 1; rewrite O; cbn [Z.b2z]; lia).
      split; [apply zdiv_ex; [lia|exact H]|]. split; [discriminate|auto]. }
  destruct S2 as (d & -> & DO & DE). rewrite bind_Ok.
  assert (D0 : d <> 0) by (destruct (Z.odd c0); [rewrite DO; auto|specialize (DE eq_refl); lia]).
  assert (DC : (d | c0)).
  { destruct (Z.odd c0); [rewrite DO by reflexivity; apply Z.divide_refl|]. exists 2. now apply DE. }
  destruct (X y (- x)) as (xx0 & yy0 & -> & XE). cbv beta iota.
  assert (GG : Z.gcd y (- x) = 1) by (apply cop_opp_r, cop_sym, CXY).
  set (xx := xx0 * d). set (yy := yy0 * d).
  assert (DET : y * xx - x * yy = d).
  { unfold xx, yy. transitivity ((y * xx0 + - x * yy0) * d); [ring|]. rewrite XE, GG. ring. }
  assert (V0 : c0 * z0 <> 0) by now apply mul_nz.
  destruct (if - c0 * z0 <? 0 then (- (a * x * xx + b * y * yy), - (- c0 * z0)) else (a * x * xx + b * y * yy, - c0 * z0)) as [u v] eqn:EUV.
  assert (VP : 0 < v).
  { destruct (Z.ltb_spec (- c0 * z0) 0) as [L|L]; apply (f_equal snd) in EUV; cbn [snd] in EUV; lia. }
  destruct (zchoice a b c0 xx yy u v VP) as (zz & -> & PAR). rewrite bind_Ok.
  clear EUV VP u v.
  destruct (mstep_div a b c0 d x y z0 xx yy zz CXY DC DET E0) as [DU DB].
  set (u := a * (xx * xx) + b * (yy * yy) + c0 * (zz * zz)) in *.
  set (w := a * x * xx + b * y * yy + c0 * z0 * zz) in *.
  set (D := if Z.odd c0 then d * 2 else d).
  assert (DD0 : D <> 0) by (unfold D; destruct (Z.odd c0); lia).
  assert (DDU : (D | u) /\ (D | 2 * w)).
  { unfold D. destruct (Z.odd c0) eqn:O.
    - specialize (PAR eq_refl). split.
      + apply cop_prod_div; [|exact DU|].
        * rewrite (DO eq_refl). apply cop_sym. apply cop_intro. intros e Ee D1 D2.
          assert (e <= 2) by (apply Z.divide_pos_le; [lia|auto]).
          assert (HH : e = 0 \/ e = 1 \/ e = 2) by lia. destruct HH as [->|[->| ->]].
          -- destruct D1; lia.
          -- apply Z.divide_refl.
          -- destruct D2 as [k Hk]. rewrite Hk, Z.odd_mul in O. cbn [Z.odd] in O. rewrite andb_false_r in O. discriminate.
        * exists (Z.div2 u). rewrite (Z.div2_odd u) at 1. rewrite PAR. cbn [Z.b2z]. lia.
      + destruct DB as [k ->]. exists k. ring.
    - split; [exact DU|]. now apply Z.divide_mul_r. }
  destruct DDU as [[u' Eu] [v' Ev]].
  rewrite (zdiv_ex (x * u - xx * (2 * w)) D (x * u' - xx * v')) by (auto; rewrite Ev, Eu; ring).
  rewrite (zdiv_ex (y * u - yy * (2 * w)) D (y * u' - yy * v')) by (auto; rewrite Ev, Eu; ring).
  rewrite (zdiv_ex (z0 * u - zz * (2 * w)) D (z0 * u' - zz * v')) by (auto; rewrite Ev, Eu; ring).
  repeat (rewrite bind_Ok; cbv beta iota).
  assert (S3 : (if 1 <? g then ((x * u' - xx * v') * g, (y * u' - yy * v') * g) else (x * u' - xx * v', y * u' - yy * v'))
     = ((x * u' - xx * v') * g, (y * u' - yy * v') * g)).
  { destruct (Z.ltb_spec 1 g); [reflexivity|]. assert (HG : g = 1) by lia. rewrite HG. now rewrite !Z.mul_1_r. }
  rewrite S3. clear S3. cbv beta iota.
  assert (QQ : D * D * (a * ((x * u' - xx * v') * (x * u' - xx * v')) + b * ((y * u' - yy * v') * (y * u' - yy * v')) + c0 * ((z0 * u' - zz * v') * (z0 * u' - zz * v'))) = 0).
  { transitivity (u * u * (a * (x * x) + b * (y * y) + c0 * (z0 * z0)) - 2 * (u * (2 * w)) * (a * x * xx + b * y * yy + c0 * z0 * zz) + (2 * w) * (2 * w) * (a * (xx * xx) + b * (yy * yy) + c0 * (zz * zz))).
    - rewrite Ev. rewrite Eu. ring.
    - rewrite E0. fold u w. ring. }
  assert (SOL : leg_sol a b c ((x * u' - xx * v') * g, (y * u' - yy * v') * g, z0 * u' - zz * v')).
  { split.
    - apply (Z.mul_reg_l _ _ (D * D)); [now apply mul_nz|]. rewrite Z.mul_0_r.
      transitivity (g * g * (D * D * (a * ((x * u' - xx * v') * (x * u' - xx * v')) + b * ((y * u' - yy * v') * (y * u' - yy * v')) + c0 * ((z0 * u' - zz * v') * (z0 * u' - zz * v'))))).
      + rewrite Ec. ring.
      + rewrite QQ. ring.
    - destruct (Z.eq_dec ((x * u' - xx * v') * g) 0) as [H1|]; [|now left].
      destruct (Z.eq_dec ((y * u' - yy * v') * g) 0) as [H2|]; [|now right; left].
      destruct (Z.eq_dec (z0 * u' - zz * v') 0) as [H3|]; [|now right; right]. exfalso.
      assert (I1 : x * u' - xx * v' = 0) by (apply (Z.mul_reg_r _ _ g); lia).
      assert (I2 : y * u' - yy * v' = 0) by (apply (Z.mul_reg_r _ _ g); lia).
      assert (U0 : u' = 0).
      { apply (Z.mul_reg_l _ _ d); [exact D0|]. rewrite Z.mul_0_r, <- DET.
        transitivity (xx * (y * u' - yy * v') - yy * (x * u' - xx * v')); [ring|]. rewrite I1, I2. ring. }
      assert (W0 : v' = 0).
      { apply (Z.mul_reg_l _ _ d); [exact D0|]. rewrite Z.mul_0_r, <- DET.
        transitivity (x * (y * u' - yy * v') - y * (x * u' - xx * v')); [ring|]. rewrite I1, I2. ring. }
      apply (no_iso_plane a b c0 x y z0 xx yy zz); [clear - A; lia|clear - B; lia|exact Z0|rewrite DET; exact D0|exact E0| |].
      + fold w. rewrite W0 in Ev. clear - Ev. lia.
      + fold u. rewrite U0 in Eu. clear - Eu. lia. }
  destruct (cancel1_sol a b c _ _ _ SOL) as ([[nx ny] nz] & -> & SN & PN). rewrite bind_Ok. cbv beta iota.
  eexists. split; [reflexivity|]. cbn [fst snd]. split; [split; assumption|].
  intros F. apply orb_false_iff in F as [F1 F2]. apply Z.leb_gt in F1. apply Z.leb_gt in F2. split; [exact F1|exact F2].
Qed.

Lemma conic_mordell_reduce_ok a b c s : 0 < a -> 0 < b -> c < 0 -> msol a b c s ->
  exists s', conic_mordell_reduce xgcd a b c s = Ok s' /\ msol a b c s'.
Proof.
  intros A B C M. unfold conic_mordell_reduce. destruct s as [[x0 y0] z0].
  edestruct (while_total (mordell_step xgcd a b c)
     (fun s => msol a b c (fst s) /\ (snd s = false -> a * b < snd (fst s) * snd (fst s)))
     (fun s => msol a b c s)
     (fun s => if snd s then 0 else Z.abs (snd (fst s)))) with (n := zfuel z0) (s := ((x0, y0, z0), z0 * z0 <=? a * b)) as (r & E & R).
  - intros [s b0] _. cbn [fst snd]. destruct b0; lia.
  - intros [[[x y] z] st] (M1 & M2). cbn [fst snd] in *. destruct st.
    + left. exists (x, y, z). split; [reflexivity|exact M1].
    + right. specialize (M2 eq_refl).
      destruct (mordell_step_ok a b c x y z A B C M1 M2) as (s' & ES0 & N1 & N2).
      exists s'. split; [exact ES0|]. split; [split; [exact N1|intros F; now apply N2]|].
      destruct (snd s') eqn:ES.
      * assert (z <> 0). { intros ->. pose proof (Z.mul_pos_pos a b A B). lia. } lia.
      * destruct (N2 eq_refl). lia.
  - cbn [fst snd]. split; [exact M|]. intros H. now apply Z.leb_gt.
  - cbn [fst snd]. pose proof (zfuel_lt z0). destruct (z0 * z0 <=? a * b); lia.
  - exists r. split; [exact E|exact R].
Qed.

(** ** legendre_reduce *)
Lemma msol_perm a b c x y z : msol a b c (x, y, z) ->
  msol a c b (x, z, y) /\ msol c b a (z, y, x) /\ msol b c a (y, z, x).
Proof.
  intros ((E & NZ) & P). unfold nonzero3 in NZ.
  split; [|split]; (split; [split; [lia|unfold nonzero3; tauto]|intros d D1 D2 D3; now apply P]).
Qed.
Lemma msol_perm3 a b c x y z : msol b c a (y, z, x) -> msol a b c (x, y, z).
Proof.
  intros ((E & NZ) & P). unfold nonzero3 in NZ.
  split; [split; [lia|unfold nonzero3; tauto]|intros d D1 D2 D3; now apply P].
Qed.
Lemma msol_opp a b c s : msol a b c s -> msol (- a) (- b) (- c) s.
Proof. destruct s as [[x y] z]. intros ((E & NZ) & P). split; [split; [lia|exact NZ]|exact P]. Qed.
Lemma msol_opp' a b c s : msol (- a) (- b) (- c) s -> msol a b c s.
Proof. destruct s as [[x y] z]. intros ((E & NZ) & P). split; [split; [lia|exact NZ]|exact P]. Qed.

Lemma legendre_reduce_ok a b c s : leg_ok a b c -> msol a b c s ->
  exists s', legendre_reduce xgcd a b c s = Ok s' /\ msol a b c s'.
Proof.
  intros (A0 & B0 & C0 & _ & _ & _ & S1 & S2) M. destruct s as [[x y] z]. unfold legendre_reduce.
  destruct (msol_perm a b c x y z M) as (M1 & M2 & M3).
  destruct (Z.ltb_spec 0 a) as [A|A], (Z.ltb_spec 0 b) as [B|B].
  - apply conic_mordell_reduce_ok; auto. lia.
  - destruct (Z.ltb_spec 0 c) as [C|C].
    + destruct (conic_mordell_reduce_ok a c b (x, z, y)) as ([[x' z'] y'] & -> & N); [lia|lia|lia|exact M1|].
      rewrite bind_Ok. cbv beta iota. eexists. split; [reflexivity|]. apply (msol_perm a c b x' z' y' N).
    + destruct (conic_mordell_reduce_ok (- c) (- b) (- a) (z, y, x)) as ([[z' y'] x'] & -> & N); [lia|lia|lia|now apply msol_opp|].
      rewrite bind_Ok. cbv beta iota. eexists. split; [reflexivity|]. apply msol_opp' in N. apply (msol_perm c b a z' y' x' N).
  - destruct (Z.ltb_spec 0 c) as [C|C].
    + destruct (conic_mordell_reduce_ok b c a (y, z, x)) as ([[y' z'] x'] & -> & N); [lia|lia|lia|exact M3|].
      rewrite bind_Ok. cbv beta iota. eexists. split; [reflexivity|]. now apply msol_perm3.
    + destruct (conic_mordell_reduce_ok (- a) (- c) (- b) (x, z, y)) as ([[x' z'] y'] & -> & N); [lia|lia|lia|now apply msol_opp|].
      rewrite bind_Ok. cbv beta iota. eexists. split; [reflexivity|]. apply msol_opp' in N. apply (msol_perm a c b x' z' y' N).
  - destruct (conic_mordell_reduce_ok (- a) (- b) (- c) (x, y, z)) as (s' & -> & N); [lia|lia|lia|now apply msol_opp|].
    eexists. split; [reflexivity|]. now apply msol_opp'.
Qed.

(** ** legendre_param *)
Lemma q_reduce_def q : q_disc q < 0 -> exists q' M, q_reduce q um_id = Ok (q', M) /\
  0 < qa q' /\ (qa q' = qa (q_transform M q) \/ qa q' = - qa (q_transform M q)).
Proof.
  intros D.
  assert (Q0 : qa q <> 0).
  { intros E. unfold q_disc in D. rewrite E in D. pose proof (Z.square_nonneg (qb q)). lia. }
  destruct (Z.ltb_spec 0 (qa q)) as [L|L].
  - destruct (q_reduce_ok q um_id L D) as (q' & m' & E & P & _ & _ & M & DM & EQ & EM).
    exists q', m'. split; [exact E|]. split; [exact P|]. left. rewrite EM, EQ.
    unfold um_mul, um_id, q_transform, q_eval; cbn [m11 m12 m21 m22 qa]. ring.
  - set (q2 := Qd (- qa q) (- qb q) (- qc q)).
    assert (EQ2 : q_reduce q um_id = q_reduce q2 um_id).
    { unfold q_reduce. destruct (Z.ltb_spec (qa q) 0); [|lia]. fold q2.
      assert (H2 : qa q2 <? 0 = false) by (apply Z.ltb_ge; unfold q2; cbn [qa]; lia). rewrite H2. reflexivity. }
    rewrite EQ2.
    destruct (q_reduce_ok q2 um_id) as (q' & m' & E & P & _ & _ & M & DM & EQ & EM).
    { unfold q2; cbn [qa]; lia. }
    { unfold q_disc, q2 in *; cbn [qa qb qc]. lia. }
    exists q', m'. split; [exact E|]. split; [exact P|]. right. rewrite EM, EQ.
    unfold um_mul, um_id, q_transform, q_eval, q2; cbn [m11 m12 m21 m22 qa qb qc]. ring.
Qed.

(** z1^2 times the value of the shifted form *)
Lemma param_shift_ok e z1 q : z1 <> 0 -> (z1 | qb q + 2 * e * qa q) -> (z1 * z1 | qc q + e * qb q + e * e * qa q) ->
  exists q', param_shift e z1 (z1 * z1) q = Ok q' /\ qa q' = qa q /\
  (forall x y, z1 * z1 * q_eval q' x y = q_eval q (z1 * x + e * y) y) /\ z1 * z1 * q_disc q' = q_disc q.
Proof.
  intros Z1 [k Hk] [l Hl]. unfold param_shift, q_xshift. cbn [qa qb qc]. cbv zeta. cbn [qa qb qc].
  rewrite (zdiv_ex _ z1 k) by (auto; rewrite <- (Z.mul_comm k), <- Hk; ring). rewrite bind_Ok.
  rewrite (zdiv_ex _ (z1 * z1) l) by (try (apply mul_nz; assumption); rewrite <- (Z.mul_comm l), <- Hl; ring). rewrite bind_Ok.
  eexists. split; [reflexivity|]. unfold q_eval, q_disc. cbn [qa qb qc]. split; [reflexivity|]. split.
  - intros x y. transitivity (qa q * (z1 * x * (z1 * x)) + (k * z1) * (z1 * x) * y + (l * (z1 * z1)) * (y * y)); [ring|].
    rewrite <- Hk, <- Hl. ring.
  - transitivity ((k * z1) * (k * z1) - 4 * qa q * (l * (z1 * z1))); [ring|]. rewrite <- Hk, <- Hl. ring.
Qed.

Lemma param_poly a b c x y z : a * (x * x) + b * (y * y) + c * (z * z) = 0 -> forall s t,
  a * (q_eval (Qd (a * x) (2 * b * y) (- b * x)) s t * q_eval (Qd (a * x) (2 * b * y) (- b * x)) s t)
  + b * (q_eval (Qd (- a * y) (2 * a * x) (b * y)) s t * q_eval (Qd (- a * y) (2 * a * x) (b * y)) s t)
  + c * (q_eval (Qd (a * z) 0 (b * z)) s t * q_eval (Qd (a * z) 0 (b * z)) s t) = 0.
Proof.
  intros E s t. unfold q_eval. cbn [qa qb qc].
  transitivity ((a * (x * x) + b * (y * y) + c * (z * z)) * ((a * (s * s) + b * (t * t)) * (a * (s * s) + b * (t * t)))); [ring|].
  rewrite E. ring.
Qed.

Lemma sq_pm x y : (x = y \/ x = - y) -> x * x = y * y.
Proof. intros [->| ->]; ring. Qed.

Lemma legendre_param_ok a b c x0 y0 z0 : leg_ok a b c -> msol a b c (x0, y0, z0) -> z0 <> 0 ->
  exists qx qy qz, legendre_param xgcd a b c (x0, y0, z0) = Ok (qx, qy, qz) /\ leg_sol a b c (qa qx, qa qy, qa qz).
Proof.
  intros (A0 & B0 & C0 & _ & _ & _ & S1 & S2) ((E & NZ) & P) Z0.
  destruct (two_common b c a y0 z0 x0) as (g & y1 & z1 & a1 & EG & G & Ey & Ez & CYZ & Ea & E0).
  { now right. } { clear - E; lia. } { intros d D1 D2 D3. now apply P. }
  unfold legendre_param.
  assert (EG' : Z.abs (Z.gcd y0 z0) = g) by (rewrite <- EG; lia). rewrite EG'. cbv zeta.
  assert (ST1 : (if 1 <? g then a1 <- zz_div a (g * g) ;; y1 <- zz_div y0 g ;; z1 <- zz_div z0 g ;; Ok (a1, y1, z1)
     else Ok (a, y0, z0)) = Ok (a1, y1, z1)).
  { destruct (Z.ltb_spec 1 g).
    - rewrite (zdiv_ex y0 g y1), (zdiv_ex z0 g z1), (zdiv_ex a (g * g) a1) by (try lia; try apply mul_nz; lia). reflexivity.
    - assert (HG : g = 1) by lia. rewrite HG in Ez, Ey, Ea. f_equal. f_equal; [f_equal|]; lia. }
  rewrite ST1, bind_Ok. cbv beta iota. clear ST1.
  assert (Z1 : z1 <> 0) by (intros ->; apply Z0; rewrite Ez; ring).
  assert (E1 : a1 * (x0 * x0) + b * (y1 * y1) + c * (z1 * z1) = 0) by (clear - E0; lia).
  assert (CY2 : cop y1 (z1 * z1)) by (apply cop_mul; exact CYZ).
  destruct (X y1 (z1 * z1)) as (u & v & -> & XE). cbv beta iota. rewrite CY2 in XE.
  rewrite zz_mod_ok by (apply mul_nz; assumption). rewrite bind_Ok.
  set (e := (u * x0) mod (z1 * z1)).
  assert (EE : (z1 * z1 | e * y1 - x0)).
  { unfold e. rewrite Z.mod_eq by (apply mul_nz; assumption).
    exists (- v * x0 - u * x0 / (z1 * z1) * y1).
    transitivity (x0 * (y1 * u + z1 * z1 * v) - z1 * z1 * v * x0 - z1 * z1 * (u * x0 / (z1 * z1)) * y1 - x0); [ring|].
    rewrite XE. ring. }
  destruct EE as [f Hf]. clearbody e.
  assert (Ef : e * y1 = x0 + f * (z1 * z1)) by (clear - Hf; lia). clear Hf.
  assert (KEY : forall n, (z1 * z1 | y1 * n) -> (z1 * z1 | n)) by (intros n; apply cop_gauss; now apply cop_sym).
  assert (FX : z1 * z1 * (a1 * (x0 * x0) + b * (y1 * y1) + c * (z1 * z1)) = 0) by (rewrite E1; ring).
  destruct (param_shift_ok e z1 (Qd (a1 * x0) (2 * b * y1) (- b * x0)) Z1) as (qx & -> & AX & VX & DX).
  { cbn [qa qb qc]. apply Z.divide_trans with (z1 * z1); [exists z1; ring|]. apply KEY.
    exists (2 * a1 * x0 * f - 2 * c).
    transitivity (2 * b * (y1 * y1) + 2 * a1 * x0 * (e * y1)); [ring|]. rewrite Ef.
    transitivity (2 * (a1 * (x0 * x0) + b * (y1 * y1) + c * (z1 * z1)) + (2 * a1 * x0 * f - 2 * c) * (z1 * z1)); [ring|]. rewrite E1. ring. }
  { cbn [qa qb qc]. apply KEY, KEY.
    exists (- x0 * c + 2 * b * y1 * f * y1 + 2 * a1 * x0 * x0 * f + a1 * x0 * f * f * (z1 * z1)).
    transitivity (- b * x0 * (y1 * y1) + 2 * b * (y1 * y1) * (e * y1) + (e * y1) * (e * y1) * (a1 * x0)); [ring|]. rewrite Ef.
    transitivity (x0 * (a1 * (x0 * x0) + b * (y1 * y1) + c * (z1 * z1)) + (- x0 * c + 2 * b * y1 * f * y1 + 2 * a1 * x0 * x0 * f + a1 * x0 * f * f * (z1 * z1)) * (z1 * z1)); [ring|]. rewrite E1. ring. }
  rewrite bind_Ok.
  destruct (param_shift_ok e z1 (Qd (- a1 * y1) (2 * a1 * x0) (b * y1)) Z1) as (qy & -> & AY & VY & DY).
  { cbn [qa qb qc]. apply Z.divide_trans with (z1 * z1); [exists z1; ring|].
    exists (- 2 * a1 * f). transitivity (2 * a1 * x0 - 2 * a1 * (e * y1)); [ring|]. rewrite Ef. ring. }
  { cbn [qa qb qc]. apply KEY.
    exists (- c - a1 * f * f * (z1 * z1)).
    transitivity (b * (y1 * y1) + 2 * a1 * x0 * (e * y1) - a1 * ((e * y1) * (e * y1))); [ring|]. rewrite Ef.
    transitivity ((a1 * (x0 * x0) + b * (y1 * y1) + c * (z1 * z1)) + (- c - a1 * f * f * (z1 * z1)) * (z1 * z1)); [ring|]. rewrite E1. ring. }
  rewrite bind_Ok.
  destruct (param_shift_ok e z1 (Qd (a1 * z1) 0 (b * z1)) Z1) as (qz & -> & AZ & VZ & DZ).
  { cbn [qa qb qc]. exists (2 * e * a1). ring. }
  { cbn [qa qb qc]. 
    assert (H : (z1 * z1 | b + a1 * e * e)).
    { apply KEY, KEY. exists (- c + 2 * a1 * x0 * f + a1 * f * f * (z1 * z1)).
      transitivity (b * (y1 * y1) + a1 * ((e * y1) * (e * y1))); [ring|]. rewrite Ef.
      transitivity ((a1 * (x0 * x0) + b * (y1 * y1) + c * (z1 * z1)) + (- c + 2 * a1 * x0 * f + a1 * f * f * (z1 * z1)) * (z1 * z1)); [ring|]. rewrite E1. ring. }
    destruct H as [k Hk]. exists (z1 * k). transitivity (z1 * (b + a1 * e * e)); [ring|]. rewrite Hk. ring. }
  rewrite bind_Ok.
  assert (ZZ : z1 * z1 <> 0) by (apply mul_nz; assumption).
  assert (POLY : forall s t, a1 * (q_eval qx s t * q_eval qx s t) + b * (q_eval qy s t * q_eval qy s t) + c * (q_eval qz s t * q_eval qz s t) = 0).
  { intros s t. apply (Z.mul_reg_l _ _ ((z1 * z1) * (z1 * z1))); [now apply mul_nz|]. rewrite Z.mul_0_r.
    transitivity (a1 * ((z1 * z1 * q_eval qx s t) * (z1 * z1 * q_eval qx s t)) + b * ((z1 * z1 * q_eval qy s t) * (z1 * z1 * q_eval qy s t)) + c * ((z1 * z1 * q_eval qz s t) * (z1 * z1 * q_eval qz s t))); [ring|].
    rewrite VX, VY, VZ. now apply param_poly. }
  assert (DDX : q_disc qx = - 4 * b * c).
  { apply (Z.mul_reg_l _ _ (z1 * z1)); [exact ZZ|]. rewrite DX. unfold q_disc. cbn [qa qb qc].
    transitivity (4 * b * (a1 * (x0 * x0) + b * (y1 * y1) + c * (z1 * z1)) - 4 * b * c * (z1 * z1)); [ring|]. rewrite E1. ring. }
  assert (DDY : q_disc qy = - 4 * a1 * c).
  { apply (Z.mul_reg_l _ _ (z1 * z1)); [exact ZZ|]. rewrite DY. unfold q_disc. cbn [qa qb qc].
    transitivity (4 * a1 * (a1 * (x0 * x0) + b * (y1 * y1) + c * (z1 * z1)) - 4 * a1 * c * (z1 * z1)); [ring|]. rewrite E1. ring. }
  assert (DDZ : q_disc qz = - 4 * a1 * b).
  { apply (Z.mul_reg_l _ _ (z1 * z1)); [exact ZZ|]. rewrite DZ. unfold q_disc. cbn [qa qb qc]. ring. }
  clear VX VY VZ DX DY DZ FX KEY.
  assert (GP : 0 < g * g) by now apply Z.mul_pos_pos.
  assert (FIN : forall q1 q2 q3 s t,
     (qa q1 = q_eval qx s t \/ qa q1 = - q_eval qx s t) -> (qa q2 = q_eval qy s t \/ qa q2 = - q_eval qy s t) ->
     (qa q3 = q_eval qz s t \/ qa q3 = - q_eval qz s t) -> nonzero3 (qa q1) (qa q2) (qa q3) ->
     exists r1 r2 r3, (if 1 <? g then Ok (q1, q_scale g q2, q_scale g q3) else Ok (q1, q2, q3)) = Ok (r1, r2, r3) /\ leg_sol a b c (qa r1, qa r2, qa r3)).
  { intros q1 q2 q3 s t Q1 Q2 Q3 N.
    assert (SS : a1 * (qa q1 * qa q1) + b * (qa q2 * qa q2) + c * (qa q3 * qa q3) = 0).
    { rewrite (sq_pm _ _ Q1), (sq_pm _ _ Q2), (sq_pm _ _ Q3). apply POLY. }
    exists q1, (q_scale g q2), (q_scale g q3). split.
    - destruct (Z.ltb_spec 1 g); [reflexivity|]. assert (HG : g = 1) by lia. rewrite HG. unfold q_scale. rewrite !Z.mul_1_l.
      now destruct q2, q3.
    - split.
      + unfold q_scale. cbn [qa]. rewrite Ea. transitivity (g * g * (a1 * (qa q1 * qa q1) + b * (qa q2 * qa q2) + c * (qa q3 * qa q3))); [ring|]. rewrite SS. ring.
      + unfold q_scale. cbn [qa]. destruct N as [N|[N|N]]; [now left|right; left|right; right]; (apply mul_nz; [clear - G; lia|exact N]). }
  assert (TE : forall m q, qa (q_transform m q) = q_eval q (m11 m) (m21 m)) by reflexivity.
  assert (SG : forall n, 0 < a * n -> 0 < a1 * n).
  { intros n H. rewrite Ea in H. apply (Z.mul_pos_cancel_l (g * g)); [exact GP|]. clear - H. lia. }
  destruct (Z.ltb_spec 0 (a * b)) as [AB|AB]; [|destruct (Z.ltb_spec 0 (a * c)) as [AC|AC]].
  - destruct (q_reduce_def qz) as (q' & M & -> & Q0 & QE). { rewrite DDZ. specialize (SG b AB). clear - SG. lia. }
    repeat (rewrite bind_Ok; cbv beta iota).
    apply (FIN _ _ _ (m11 M) (m21 M)); [now left|now left|exact QE|]. right; right. clear - Q0; lia.
  - destruct (q_reduce_def qy) as (q' & M & -> & Q0 & QE). { rewrite DDY. specialize (SG c AC). clear - SG. lia. }
    repeat (rewrite bind_Ok; cbv beta iota).
    apply (FIN _ _ _ (m11 M) (m21 M)); [now left|exact QE|now left|]. right; left. clear - Q0; lia.
  - destruct (q_reduce_def qx) as (q' & M & -> & Q0 & QE).
    { rewrite DDX. 
      assert (BC : 0 < b * c); [|clear - BC; lia].
      clear - A0 B0 C0 S1 S2 AB AC.
      destruct (Z.lt_trichotomy a 0) as [A|[A|A]]; [|lia|].
      - assert (0 < b) by (apply Z.nle_gt; intros H; assert (0 < a * b) by (apply Z.mul_neg_neg; lia); lia).
        assert (0 < c) by (apply Z.nle_gt; intros H'; assert (0 < a * c) by (apply Z.mul_neg_neg; lia); lia).
        now apply Z.mul_pos_pos.
      - assert (b < 0) by (apply Z.nle_gt; intros H; assert (0 < a * b) by (apply Z.mul_pos_pos; lia); lia).
        assert (c < 0) by (apply Z.nle_gt; intros H'; assert (0 < a * c) by (apply Z.mul_pos_pos; lia); lia).
        now apply Z.mul_neg_neg. }
    repeat (rewrite bind_Ok; cbv beta iota).
    apply (FIN _ _ _ (m11 M) (m21 M)); [exact QE|now left|now left|]. left. clear - Q0; lia.
Qed.

(** ** new_legendre_reduce *)
Lemma abs_sol a b c x y z : leg_sol a b c (x, y, z) -> leg_sol a b c (Z.abs x, Z.abs y, Z.abs z).
Proof.
  intros (E & NZ). split; [now rewrite !abs_sq|]. unfold nonzero3 in *. lia.
Qed.

(** a primitive solution with z = 0 *)
Lemma z_zero a b c x y : cop a b -> a <> 0 -> b <> 0 -> msol a b c (x, y, 0) -> Z.abs a = y * y /\ Z.abs b = x * x /\ (0 < a <-> b < 0).
Proof.
  intros C A0 B0 ((E & NZ) & P).
  assert (E' : a * (x * x) = - (b * (y * y))) by (clear - E; lia). clear E.
  assert (CXY : cop x y).
  { apply cop_intro. intros d _ D1 D2. apply P; auto. apply Z.divide_0_r. }
  assert (CX2 : cop (x * x) (y * y)) by (apply cop_mul; apply cop_mul_l; exact CXY).
  assert (D1 : (a | y * y)) by (apply (cop_gauss a b); [exact C|]; exists (- (x * x)); rewrite <- (Z.opp_involutive (b * (y * y))), <- E'; ring).
  assert (D2 : (y * y | a)) by (apply (cop_gauss (y * y) (x * x)); [now apply cop_sym|]; exists (- b); transitivity (a * (x * x)); [ring|]; rewrite E'; ring).
  assert (D3 : (b | x * x)) by (apply (cop_gauss b a); [now apply cop_sym|]; exists (- (y * y)); rewrite E'; ring).
  assert (D4 : (x * x | b)) by (apply (cop_gauss (x * x) (y * y)); [exact CX2|]; exists (- a); transitivity (- - (b * (y * y))); [ring|]; rewrite <- E'; ring).
  assert (Y2 : Z.abs a = y * y).
  { pose proof (Z.square_nonneg y). apply Z.divide_antisym_nonneg; [lia|lia| |]; [now apply Z.divide_abs_l|now apply Z.divide_abs_r]. }
  assert (X2 : Z.abs b = x * x).
  { pose proof (Z.square_nonneg x). apply Z.divide_antisym_nonneg; [lia|lia| |]; [now apply Z.divide_abs_l|now apply Z.divide_abs_r]. }
  split; [exact Y2|]. split; [exact X2|].
  rewrite <- X2, <- Y2 in E'. clear - E' A0 B0.
  split; intros H; apply Z.nle_gt; intros H'.
  - assert (0 < a * Z.abs b) by (apply Z.mul_pos_pos; lia). assert (0 <= b * Z.abs a) by (apply Z.mul_nonneg_nonneg; lia). lia.
  - assert (a * Z.abs b < 0) by (apply Z.mul_neg_pos; lia). assert (b * Z.abs a < 0) by (apply Z.mul_neg_pos; lia). lia.
Qed.

Lemma new_legendre_reduce_ok a b c s : leg_ok a b c -> msol a b c s ->
  exists s', new_legendre_reduce xgcd a b c s = Ok s' /\ msol a b c s'.
Proof.
  intros OK M. destruct s as [[x y] z]. unfold new_legendre_reduce. cbv zeta.
  match goal with |- context [let '(_, _) := ?t in _] => destruct t as [[which test] ok] eqn:EW end.
  destruct ok.
  { eexists. split; [reflexivity|exact M]. }
  assert (Z0 : z <> 0).
  { intros ->. pose proof OK as (A0 & B0 & C0 & CAB & _ & _ & S1 & S2).
    destruct (z_zero a b c x y CAB A0 B0 M) as (Y2 & X2 & SGN).
    assert (LE : forall m n, m <> 0 -> 0 < m * n -> Z.abs m <= m * n).
    { intros m n M0 P. assert (1 <= Z.abs n) by lia.
      assert (H1 : Z.abs m * 1 <= Z.abs m * Z.abs n) by (apply Z.mul_le_mono_nonneg_l; lia).
      rewrite <- Z.abs_mul in H1. lia. }
    revert EW.
    match goal with |- context [if ?t then _ else _] => destruct t eqn:T1 end.
    - intros EW. apply (f_equal snd) in EW. cbn [snd] in EW. apply Z.leb_gt in EW. rewrite <- X2 in EW.
      assert (BC : 0 < b * c).
      { apply orb_true_iff in T1. rewrite !andb_true_iff, !Z.ltb_lt in T1. destruct T1 as [((_ & T1) & T2)|((_ & T1) & T2)].
        - apply Z.mul_pos_pos; lia.
        - apply Z.mul_neg_neg; lia. }
      specialize (LE b c B0 BC). lia.
    - match goal with |- context [if ?t then _ else _] => destruct t eqn:T2 end.
      + intros EW. apply (f_equal snd) in EW. cbn [snd] in EW. apply Z.leb_gt in EW. rewrite <- Y2 in EW.
        assert (AC : 0 < a * c).
        { apply orb_true_iff in T2. rewrite !andb_true_iff, !Z.ltb_lt in T2. destruct T2 as [((_ & T2) & T3)|((_ & T2) & T3)].
          - apply Z.mul_pos_pos; lia.
          - apply Z.mul_neg_neg; lia. }
        specialize (LE a c A0 AC). lia.
      + exfalso. clear - T1 T2 SGN A0 B0 C0.
        apply orb_false_iff in T1 as [T1 T1']. apply orb_false_iff in T2 as [T2 T2'].
        rewrite !andb_false_iff, !Z.ltb_ge in T1, T1', T2, T2'. lia. }
  destruct (legendre_param_ok a b c x y z OK M Z0) as (qx & qy & qz & -> & SQ). rewrite bind_Ok. cbv beta iota.
  apply abs_sol in SQ.
  destruct (cancel_sol a b c _ _ _ SQ) as ([[nx ny] nz] & -> & SN & PN). rewrite bind_Ok. cbv beta iota.
  match goal with |- context [if (?t : bool) then Ok _ else legendre_reduce _ _ _ _ _] => destruct t end.
  - eexists. split; [reflexivity|now split].
  - apply legendre_reduce_ok; [exact OK|now split].
Qed.
End Red.
