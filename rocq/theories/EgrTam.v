(** ComponentGroup (egr.cc 35-51) against the component groups of the reduction types,
    and the concrete groups for the examples of PropertiesEgr. *)
From Coq Require Import ZArith Znumtheory Lia List Bool.
From Verif Require Import Base CurveModel TateModel TateSpec TateArith TamModel TamProofs GrpModel GrpLib GrpEx EgrModel EgrSpec.
Import ListNotations.
Open Scope Z_scope.

(** I*m with m even and Tamagawa number 1 or 2 *)
Definition exceptional (K : kodaira) (cp : Z) : Prop := exists m, K = KIs m /\ Z.even m = true /\ cp <> 4.

Lemma ten n : 0 <= n -> Z.rem (10 * n + 1) 10 = 1 /\ Z.quot (10 * n + 1 - 1) 10 = n /\ Z.rem (10 * n) 10 = 0.
Proof.
  intros N. replace (10 * n + 1 - 1) with (n * 10) by ring. rewrite Z.quot_mul by lia. rewrite !Z.rem_mod_nonneg by lia.
  replace (10 * n + 1) with (1 + n * 10) by ring. rewrite Z.mod_add by lia. rewrite (Z.mul_comm 10 n), Z.mod_mul by lia. auto.
Qed.
Lemma cgroup_code p c d K : prime p -> type_at p c d K ->
  (Z.rem (kcode d) 10 =? 1) && Z.even (Z.quot (kcode d - 1) 10) = match K with KIs m => Z.even m | _ => false end.
Proof.
  intros P T. pose proof T as (r & s & t & H & ->). destruct K as [n| | | |m| | |]; try reflexivity; cbn [pinch_code].
  - cbn [tate_form] in H. destruct H as (N & _). destruct (ten n ltac:(lia)) as (_ & _ & ->). reflexivity.
  - destruct (cp_star p c d m P T) as [M _]. destruct (ten m M) as (-> & -> & _). reflexivity.
Qed.
Section T.
Variables (E : curvedata) (l : list (Z * reduction)).
Hypothesis PR : forall p d, In (p, d) l -> prime p.
Hypothesis ND : NoDup (map fst l).
Lemma cgroup_at p d K : In (p, d) l -> type_at p (cv E) d K ->
  ComponentGroup E l p = match K with KIs m => if Z.even m then [2; 2] else [c_p d] | _ => [c_p d] end.
Proof.
  intros I T. pose proof (PR p d I) as P. pose proof (p0 p P) as G. unfold ComponentGroup. destruct (Z.eqb_spec p 0) as [F|_]; [lia|].
  rewrite (red_find_in l p d ND I), (cgroup_code p (cv E) d K P T). destruct K; reflexivity.
Qed.
Lemma cgroup_ok p d K : In (p, d) l -> type_at p (cv E) d K -> ComponentGroup E l p = comp_group K (c_p d) <-> ~ exceptional K (c_p d).
Proof.
  intros I T. rewrite (cgroup_at p d K I T).
  assert (N : forall K, (forall m, K <> KIs m) -> ~ exceptional K (c_p d)) by (intros K' N (m & F & _); exact (N m F)).
  destruct K as [n| | | |m| | |]; cbn [comp_group]; try (split; [intros _; apply N; discriminate|reflexivity]).
  destruct (Z.even m) eqn:EV; cbn [andb].
  - destruct (Z.eqb_spec (c_p d) 4) as [C|C].
    + split; [intros _ (m' & _ & _ & F); exact (F C)|reflexivity].
    + split; [discriminate|]. intros F. exfalso. apply F. exists m. auto.
  - split; [|reflexivity]. intros _ (m' & F & EV' & _). injection F as <-. congruence.
Qed.
(** the group returned always contains the component group *)
Lemma cgroup_embeds g good im p d K : In (p, d) l -> type_at p (cv E) d K -> component_map g good im (comp_group K (c_p d)) -> component_map g good im (ComponentGroup E l p).
Proof.
  intros I T CM. rewrite (cgroup_at p d K I T). destruct K as [n| | | |m| | |]; try exact CM. cbn [comp_group] in CM. destruct (Z.even m); [|exact CM]. cbn [andb] in CM.
  destruct (Z.eqb_spec (c_p d) 4) as [C|C]; [exact CM|]. destruct (cp_star p _ d m (PR p d I) T) as (_ & CS).
  destruct CM as [(n & phi & EQ & N & H & GP & _)|(f1 & f2 & EQ & _)]; [|discriminate EQ]. injection EQ as <-.
  right. destruct CS as [C2|[C4|[_ C1]]]; [|contradiction|].
  - rewrite C2 in *. exists phi, (fun _ => 0). split; [reflexivity|]. split; [exact H|]. split; [intros X Y; apply Z.divide_0_r|].
    intros X. rewrite GP. split; [intros D; split; [exact D|apply Z.divide_0_r]|tauto].
  - rewrite C1 in *. exists (fun _ => 0), (fun _ => 0). split; [reflexivity|]. split; [intros X Y; apply Z.divide_0_r|]. split; [intros X Y; apply Z.divide_0_r|].
    intros X. rewrite GP. split; [intros _; split; apply Z.divide_0_r|intros _; apply Z.divide_1_l].
Qed.
End T.

(** the two coordinates are homomorphisms *)
Lemma zz_fst a b n : (n | Zpos a) -> hom (zz a b) n (fun X => fst (proj1_sig X)).
Proof.
  intros [q Q] X Y. cbn [gadd zz zadd mk proj1_sig fst snd]. pose proof (Z_div_mod_eq_full (fst (proj1_sig X) + fst (proj1_sig Y)) (Zpos a)) as D.
  exists (- q * ((fst (proj1_sig X) + fst (proj1_sig Y)) / Zpos a)). replace (- q * ((fst (proj1_sig X) + fst (proj1_sig Y)) / Zpos a) * n) with (- (q * n) * ((fst (proj1_sig X) + fst (proj1_sig Y)) / Zpos a)) by ring. rewrite <- Q. lia.
Qed.
Lemma zz_snd a b n : (n | Zpos b) -> hom (zz a b) n (fun X => snd (proj1_sig X)).
Proof.
  intros [q Q] X Y. cbn [gadd zz zadd mk proj1_sig fst snd]. pose proof (Z_div_mod_eq_full (snd (proj1_sig X) + snd (proj1_sig Y)) (Zpos b)) as D.
  exists (- q * ((snd (proj1_sig X) + snd (proj1_sig Y)) / Zpos b)). replace (- q * ((snd (proj1_sig X) + snd (proj1_sig Y)) / Zpos b) * n) with (- (q * n) * ((snd (proj1_sig X) + snd (proj1_sig Y)) / Zpos b)) by ring. rewrite <- Q. lia.
Qed.
Lemma mod_div n x : n <> 0 -> (x mod n =? 0) = true <-> (n | x).
Proof. intros N. rewrite Z.eqb_eq. apply Z.mod_divide, N. Qed.
