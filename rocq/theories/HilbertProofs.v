(** local_hilbert: the prime 2, and the result for all primes. *)
From Coq Require Import ZArith Lia List Bool Znumtheory.
From Verif Require Import Base RatModel RatProofs MArithModel MArithProofs LegendreSpec LegendreMath JacobiMath SqrtModProofs
  KroneckerProofs HilbertModel LocSolSpec HilbertSpec LocSolArith LocSolLocal HilbertLocal.
Import ListNotations.
Open Scope Z_scope.
Open Scope res_scope.

(** ** the prime 2: a check over residues modulo 32 *)
Definition ans2 (al be : bool) (u v : Z) : bool :=
  let ans := (u + 1) mod 4 =? 0 in
  let ans := if ans then (v + 1) mod 4 =? 0 else ans in
  let ans := if al then (if omega8 v then negb ans else ans) else ans in
  if be then (if omega8 u then negb ans else ans) else ans.
Definition tw (al : bool) : Z := if al then 2 else 1.
Definition sqw (w : Z) : bool := (w mod 8 =? 1) || (w mod 32 =? 4).
Definition pts : list (Z * Z) := [(1, 0); (0, 1); (1, 1); (1, 2); (2, 1); (1, 3); (3, 1); (3, 3)].
Definition found2 (al be : bool) (u v : Z) : bool :=
  existsb (fun '(x, y) => sqw (tw al * u * x * x + tw be * v * y * y)) pts
  || (eqb al be && ((- (u * v)) mod 8 =? 1)).
Definition sqs : list (bool * Z) := [(false, 0); (false, 4); (true, 1); (true, 9)].
Definition blocked2 (al be : bool) (u v : Z) : bool :=
  forallb (fun '(px, x) => forallb (fun '(py, y) => forallb (fun '(pz, z) =>
    negb (px || py || pz) || negb ((tw al * u * x + tw be * v * y - z) mod 16 =? 0)) sqs) sqs) sqs.
Definition odds32 : list Z := [1;3;5;7;9;11;13;15;17;19;21;23;25;27;29;31].
Lemma check2_ok :
  forallb (fun al => forallb (fun be => forallb (fun u => forallb (fun v =>
    if ans2 al be u v then blocked2 al be u v else found2 al be u v) odds32) odds32) [true; false]) [true; false] = true.
Proof. vm_compute. reflexivity. Qed.

Lemma odd_in u : ~ (2 | u) -> In (u mod 32) odds32.
Proof.
  intros U. pose proof (Z.mod_pos_bound u 32 ltac:(lia)) as B. pose proof (Z.div_mod u 32 ltac:(lia)) as D.
  assert (O : ~ (2 | u mod 32)).
  { intros (k & K). apply U. exists (16 * (u / 32) + k). lia. }
  set (r := u mod 32) in *. clearbody r. clear D U u.
  assert (E : exists h, r = 2 * h + 1 /\ 0 <= h < 16).
  { destruct (Z.Even_or_Odd r) as [(h & H)|(h & H)].
    - exfalso. apply O. exists h. lia.
    - exists h. lia. }
  destruct E as (h & -> & H). clear O B.
  assert (C : h = 0 \/ h = 1 \/ h = 2 \/ h = 3 \/ h = 4 \/ h = 5 \/ h = 6 \/ h = 7 \/ h = 8 \/ h = 9 \/ h = 10 \/ h = 11
     \/ h = 12 \/ h = 13 \/ h = 14 \/ h = 15) by lia.
  repeat (destruct C as [->|C]; [cbn; tauto|]). rewrite C. cbn. tauto.
Qed.
Lemma mod_mod_32 u m : (m | 32) -> 0 < m -> (u mod 32) mod m = u mod m.
Proof.
  intros (k & K) M. pose proof (Z.div_mod u 32 ltac:(lia)) as D.
  assert (E : u = u mod 32 + (k * (u / 32)) * m)
    by (rewrite D at 1; rewrite K at 1; ring). rewrite E at 2. rewrite Z.mod_add by lia. reflexivity.
Qed.
Lemma mod_add_32 u k m : (m | 32) -> 0 < m -> (u mod 32 + k) mod m = (u + k) mod m.
Proof. intros D M. rewrite <- Zplus_mod_idemp_l. rewrite mod_mod_32 by auto. apply Zplus_mod_idemp_l. Qed.
Lemma ans2_mod al be u v : ans2 al be (u mod 32) (v mod 32) = ans2 al be u v.
Proof.
  unfold ans2, omega8.
  assert (D4 : (4 | 32)) by (exists 8; reflexivity). assert (D8 : (8 | 32)) by (exists 4; reflexivity).
  assert (S : forall u, (u mod 32 - 3) mod 8 = (u - 3) mod 8) by (intros w; apply (mod_add_32 w (-3) 8); auto; lia).
  rewrite !S, !mod_add_32 by (auto; lia). reflexivity.
Qed.

Lemma mod_congr w w' m k : 0 < m -> w = w' + m * k -> w mod m = w' mod m.
Proof. intros M ->. rewrite Z.mul_comm. apply Z.mod_add. lia. Qed.

Lemma sqw_square w : sqw w = true -> padic_square 2 w.
Proof.
  unfold sqw. intros H. apply orb_true_iff in H as [H|H]; apply Z.eqb_eq in H.
  - apply unit_square_2. pose proof (Z.div_mod w 8 ltac:(lia)). exists (w / 8). lia.
  - pose proof (Z.div_mod w 32 ltac:(lia)) as D. replace w with (2 * 2 * (1 + 8 * (w / 32))) by lia.
    apply square_scale, unit_square_2. exists (w / 32). ring.
Qed.
Lemma found2_cert al be u v : found2 al be (u mod 32) (v mod 32) = true -> hcert 2 (tw al * u) (tw be * v).
Proof.
  pose proof (Z.div_mod u 32 ltac:(lia)) as DU. pose proof (Z.div_mod v 32 ltac:(lia)) as DV.
  set (ru := u mod 32) in *. set (rv := v mod 32) in *. set (qu := u / 32) in *. set (qv := v / 32) in *.
  clearbody ru rv qu qv.
  unfold found2. intros H. apply orb_true_iff in H as [H|H].
  - apply existsb_exists in H as ((x & y) & I & H). left. exists x, y. split.
    + intros (-> & ->). cbn in I. repeat (destruct I as [I|I]; [discriminate I|]). exact I.
    + apply sqw_square. rewrite <- H. unfold sqw.
      set (w' := tw al * ru * x * x + tw be * rv * y * y).
      assert (E : tw al * u * x * x + tw be * v * y * y = w' + 32 * (tw al * qu * x * x + tw be * qv * y * y)).
      { unfold w'. rewrite DU, DV. ring. }
      rewrite E. rewrite (mod_congr (w' + 32 * _) w' 32 (tw al * qu * x * x + tw be * qv * y * y)) by (auto; lia).
      rewrite (mod_congr (w' + 32 * _) w' 8 (4 * (tw al * qu * x * x + tw be * qv * y * y))) by (try lia; ring). reflexivity.
  - apply andb_true_iff in H as (E & H). apply eqb_prop in E. subst be. apply Z.eqb_eq in H. right.
    replace (- (tw al * u * (tw al * v))) with (tw al * tw al * - (u * v)) by ring. apply square_scale, unit_square_2.
    rewrite <- (mod_congr (- (u * v)) (- (ru * rv)) 8 (4 * - (ru * qv + qu * rv + 32 * qu * qv))) in H.
    + pose proof (Z.div_mod (- (u * v)) 8 ltac:(lia)). exists (- (u * v) / 8). lia.
    + lia.
    + rewrite DU, DV. ring.
Qed.

Lemma square16 x : exists q k, x * x = q + 16 * k /\ In (Z.odd x, q) sqs.
Proof.
  destruct (Z.Even_or_Odd x) as [(h & ->)|(h & ->)].
  - rewrite Z.odd_mul. cbn [andb Z.odd]. destruct (Z.Even_or_Odd h) as [(i & ->)|(i & ->)].
    + exists 0, (i * i). split; [ring|cbn; tauto].
    + exists 4, (i * i + i). split; [ring|cbn; tauto].
  - replace (Z.odd (2 * h + 1)) with true by (rewrite Z.add_comm, Z.odd_add_mul_2; reflexivity).
    assert (C : exists i, h = 4 * i \/ h = 4 * i + 1 \/ h = 4 * i + 2 \/ h = 4 * i + 3).
    { exists (h / 4). pose proof (Z.div_mod h 4 ltac:(lia)). pose proof (Z.mod_pos_bound h 4 ltac:(lia)). lia. }
    destruct C as (i & [H|[H|[H|H]]]); rewrite H.
    + exists 1, (4 * i * i + i). split; [ring|cbn; tauto].
    + exists 9, (4 * i * i + 3 * i). split; [ring|cbn; tauto].
    + exists 9, (4 * i * i + 5 * i + 1). split; [ring|cbn; tauto].
    + exists 1, (4 * i * i + 7 * i + 3). split; [ring|cbn; tauto].
Qed.
Lemma blocked2_obs al be u v : blocked2 al be (u mod 32) (v mod 32) = true -> hobs 2 (tw al * u) (tw be * v).
Proof.
  pose proof (Z.div_mod u 32 ltac:(lia)) as DU. pose proof (Z.div_mod v 32 ltac:(lia)) as DV.
  set (ru := u mod 32) in *. set (rv := v mod 32) in *. set (qu := u / 32) in *. set (qv := v / 32) in *.
  clearbody ru rv qu qv. intros H x y z D. change (2 ^ 4) with 16 in D.
  destruct (square16 x) as (sx & kx & EX & IX), (square16 y) as (sy & ky & EY & IY), (square16 z) as (sz & kz & EZ & IZ).
  unfold blocked2 in H. rewrite forallb_forall in H. specialize (H _ IX). cbv beta iota in H.
  rewrite forallb_forall in H. specialize (H _ IY). cbv beta iota in H.
  rewrite forallb_forall in H. specialize (H _ IZ). cbv beta iota in H.
  assert (M : (tw al * ru * sx + tw be * rv * sy - sz) mod 16 = 0).
  { apply Z.mod_divide; [lia|]. destruct D as (d & D).
    exists (d - 2 * tw al * qu * sx - tw al * u * kx - 2 * tw be * qv * sy - tw be * v * ky + kz).
    replace (tw al * u * x * x) with (tw al * u * (x * x)) in D by ring.
    replace (tw be * v * y * y) with (tw be * v * (y * y)) in D by ring.
    rewrite EX, EY, EZ in D.
    replace (tw al * u * (sx + 16 * kx)) with (tw al * u * sx + 16 * (tw al * u * kx)) in D by ring.
    replace (tw be * v * (sy + 16 * ky)) with (tw be * v * sy + 16 * (tw be * v * ky)) in D by ring.
    replace (tw al * u * sx) with (tw al * ru * sx + 32 * (tw al * qu * sx)) in D by (rewrite DU; ring).
    replace (tw be * v * sy) with (tw be * rv * sy + 32 * (tw be * qv * sy)) in D by (rewrite DV; ring).
    clear - D. lia. }
  rewrite M in H. cbn [Z.eqb negb] in H. rewrite orb_false_r in H. apply negb_true_iff in H.
  apply orb_false_iff in H as (H & HZ). apply orb_false_iff in H as (HX & HY).
  assert (K : forall t, Z.odd t = false -> (2 | t)).
  { intros t T. assert (E : Z.even t = true) by (rewrite <- Z.negb_odd, T; reflexivity).
    apply Z.even_spec in E as (h & ->). exists h. ring. }
  auto.
Qed.
Lemma decide2 al be u v : ~ (2 | u) -> ~ (2 | v) ->
  if ans2 al be u v then hobs 2 (tw al * u) (tw be * v) else hcert 2 (tw al * u) (tw be * v).
Proof.
  intros U V. pose proof check2_ok as C.
  rewrite forallb_forall in C. specialize (C al ltac:(destruct al; cbn; tauto)).
  rewrite forallb_forall in C. specialize (C be ltac:(destruct be; cbn; tauto)).
  rewrite forallb_forall in C. specialize (C _ (odd_in u U)).
  rewrite forallb_forall in C. specialize (C _ (odd_in v V)). rewrite ans2_mod in C.
  destruct (ans2 al be u v); [apply blocked2_obs, C|apply found2_cert, C].
Qed.

(** ** all primes *)
Definition tp (p : Z) (al : bool) : Z := if al then p else 1.

Lemma split_parity p k u : 2 <= p -> 0 <= k -> exists i, 0 <= i /\
  u * p ^ k = p ^ i * p ^ i * (tp p (negb (Z.rem k 2 =? 0)) * u).
Proof.
  intros P K. rewrite Z.rem_mod_nonneg by lia. pose proof (Z.div_mod k 2 ltac:(lia)) as D.
  pose proof (Z.mod_pos_bound k 2 ltac:(lia)) as B. exists (k / 2). split; [apply Z.div_pos; lia|].
  rewrite <- pw_split by (apply Z.div_pos; lia).
  destruct (Z.eqb_spec (k mod 2) 0) as [E|E]; cbn [negb tp].
  - rewrite D at 1. rewrite E. replace (2 * (k / 2) + 0) with (k / 2 + k / 2) by ring. ring.
  - rewrite D at 1. replace (2 * (k / 2) + k mod 2) with (k / 2 + k / 2 + 1) by lia.
    rewrite (pw_split p (k / 2 + k / 2) 1), Z.pow_1_r by (pose proof (Z.div_pos k 2); lia). ring.
Qed.

(** the symbol for odd p *)
Definition ansp (p : Z) (al be : bool) (u v : Z) : bool :=
  let ans := al && be in
  let ans := if ans then (p + 1) mod 4 =? 0 else ans in
  let ans := if al then (if Lsym v p =? -1 then negb ans else ans) else ans in
  if be then (if Lsym u p =? -1 then negb ans else ans) else ans.
Lemma decidep p al be u v : prime p -> p <> 2 -> ~ (p | u) -> ~ (p | v) ->
  if ansp p al be u v then hobs p (tp p al * u) (tp p be * v) else hcert p (tp p al * u) (tp p be * v).
Proof.
  intros Hp P2 U V. pose proof (prime_odd p Hp P2) as op. unfold ansp, tp.
  destruct al, be; cbn [andb].
  - assert (UV : Lsym (- (u * v)) p = (if p mod 4 =? 1 then 1 else -1) * (Lsym u p * Lsym v p)).
    { replace (- (u * v)) with (-1 * (u * v)) by ring. rewrite !(Lsym_mul _ _ op), (Lsym_neg1 op). reflexivity. }
    assert (M : ((p + 1) mod 4 =? 0) = negb (p mod 4 =? 1)).
    { destruct (odd_mod4 p (proj2 op)) as [E|E]; rewrite <- Zplus_mod_idemp_l, E; reflexivity. }
    rewrite M. pose proof (cert_11 p Hp P2 u v U V) as C. pose proof (obs_11 p Hp P2 u v U V) as O. rewrite UV in C, O.
    destruct (Lsym_nz u p op U) as [LU|LU], (Lsym_nz v p op V) as [LV|LV]; rewrite LU, LV in *;
      destruct (p mod 4 =? 1); cbn in *; auto.
  - rewrite Z.mul_1_l. destruct (Lsym_nz v p op V) as [LV|LV]; rewrite LV; cbn.
    + apply (cert_10 p Hp P2 u v V LV).
    + apply (obs_10 p Hp P2 u v U V LV).
  - rewrite Z.mul_1_l. destruct (Lsym_nz u p op U) as [LU|LU]; rewrite LU; cbn.
    + apply hcert_sym, (cert_10 p Hp P2 v u U LU).
    + apply hobs_sym, (obs_10 p Hp P2 v u V U LU).
  - rewrite !Z.mul_1_l. apply (cert_00 p Hp P2); auto.
Qed.

Lemma finish p a b i j a' b' (ans : bool) : 2 <= p -> 0 <= i -> 0 <= j -> a' <> 0 ->
  a = p ^ i * p ^ i * a' -> b = p ^ j * p ^ j * b' ->
  (if ans then hobs p a' b' else hcert p a' b') ->
  (b2z ans = 0 /\ soluble_Qp p a b) \/ (b2z ans = 1 /\ ~ soluble_Qp p a b).
Proof.
  intros P I J A -> -> H. destruct ans; [right|left]; (split; [reflexivity|]).
  - apply obs_insoluble; auto.
  - pose proof (pw_pos p i P I). pose proof (pw_pos p j P J). apply cert_soluble; auto; lia.
Qed.

Theorem local_hilbert_ok a b p : a <> 0 -> b <> 0 -> prime p ->
  exists r, local_hilbert a b p = Ok r /\ ((r = 0 /\ soluble_Qp p a b) \/ (r = 1 /\ ~ soluble_Qp p a b)).
Proof.
  intros A B Hp. pose proof (prime_ge_2 p Hp) as P. unfold local_hilbert.
  destruct (Z.eqb_spec a 0); [contradiction|]. destruct (Z.eqb_spec b 0); [contradiction|].
  destruct (Z.leb_spec p 0); [lia|].
  destruct (divide_out_ok a p A) as (u & ka & -> & KA & EA & U); [lia|]. rewrite bind_Ok. cbv beta iota zeta.
  destruct (divide_out_ok b p B) as (v & kb & -> & KB & EB & V); [lia|]. rewrite bind_Ok. cbv beta iota zeta.
  destruct (split_parity p ka u P KA) as (i & I & EI). destruct (split_parity p kb v P KB) as (j & J & EJ).
  rewrite EI in EA. rewrite EJ in EB. clear EI EJ KA KB.
  set (al := negb (Z.rem ka 2 =? 0)) in *. set (be := negb (Z.rem kb 2 =? 0)) in *. clearbody al be.
  assert (TU : tp p al * u <> 0).
  { intros H0. rewrite H0, Z.mul_0_r in EA. contradiction. }
  destruct (Z.eqb_spec p 2) as [P2|P2].
  - subst p. exists (b2z (ans2 al be u v)). split; [reflexivity|].
    apply (finish 2 a b i j _ _ _ P I J TU EA EB). pose proof (decide2 al be u v U V) as D.
    unfold tp, tw in *. exact D.
  - pose proof (prime_odd p Hp P2) as op.
    destruct (legendre_prime v p Hp P2) as (lv & -> & LV). destruct (legendre_prime u p Hp P2) as (lu & -> & LU).
    apply (legendre_symbol_unique op) in LV. apply (legendre_symbol_unique op) in LU. subst lu lv.
    exists (b2z (ansp p al be u v)). split.
    + unfold ansp. destruct al, be; reflexivity.
    + apply (finish p a b i j _ _ _ P I J TU EA EB). apply decidep; auto.
Qed.
