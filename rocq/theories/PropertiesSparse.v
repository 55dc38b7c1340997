(** Sparse vectors: C25 *)
From Coq Require Import ZArith Znumtheory Lia List Bool Sorted.
From Verif Require Import Base ArithModel ArithProofs MArithModel LinModel LinSpec LinProofs LinElim LinKer LinAlg RatProofs
  SvecModel SvecSpec SvecProofs SvecOps SvecMod SvecMore PropertiesMArith PropertiesLin.
Import ListNotations.
Open Scope Z_scope.

(** named vectors made from dense ones, and what they denote (positions from 1) *)
Definition sparse0 (vs : nat -> list Z) : sstore := fun r => sv_of_vec (vs r).
Definition dense0 (vs : nat -> list Z) : dstore := fun r => (Z.of_nat (length (vs r)), fun k => if 1 <=? k then nth (Z.to_nat (k - 1)) (vs r) 0 else 0).
Lemma agree0 vs : agree (sparse0 vs) (dense0 vs).
Proof. intros r. apply (sv_of_vec_ok (vs r)). Qed.
Lemma goods0 vs : goods (sparse0 vs).
Proof. intros r. apply (sv_of_vec_ok (vs r)). Qed.
Lemma canons0 vs : canons (sparse0 vs).
Proof. intros r. apply (sv_of_vec_ok (vs r)). Qed.

(** * every history of exact operations denotes the dense history, for int, long
    and bigint, whenever the results fit; equality is equality of vectors if no
    vector was multiplied by 0 *)
Theorem C25_histories_partial xgcd S : three_types xgcd S -> forall vs p os st, legals (dense0 vs) os -> srun S p os (sparse0 vs) = Ok st ->
  (forall r, sd (st r) = fst (drun os (dense0 vs) r) /\ forall k, sv_elem (st r) k = snd (drun os (dense0 vs) r) k) /\
  (Forall noscale0 os -> forall r s, sv_eqb (st r) (st s) = true <->
     fst (drun os (dense0 vs) r) = fst (drun os (dense0 vs) s) /\ forall k, snd (drun os (dense0 vs) r) k = snd (drun os (dense0 vs) s) k).
Proof.
  intros T vs p os st L H. pose proof (three_exact _ _ T) as X.
  destruct (srun_exact S X p os _ (dense0 vs) st H (agree0 vs) (goods0 vs) L) as (A & G & C). split.
  - intros r. split; [apply (proj1 (A r))|intros k; apply (proj2 (A r))].
  - intros F r s. specialize (C (canons0 vs) F). apply sv_eqb_den; auto; apply A.
Qed.
Print Assumptions C25_histories_partial.
(** with bigint scalars all these histories are defined *)
Theorem C25_histories_total xgcd : forall vs p os, legals (dense0 vs) os -> Forall noself os -> Forall noscale0 os ->
  exists st, srun (sc_z xgcd) p os (sparse0 vs) = Ok st.
Proof.
  intros vs p os L F F'. apply (srun_total (sc_z xgcd) (exact_z xgcd) (total_z xgcd) p os _ (dense0 vs)); auto; [apply agree0|apply goods0|apply canons0].
Qed.
Print Assumptions C25_histories_total.
Definition ex_vs (r : nat) : list Z := match r with 0%nat => [5; 0; -3; 7] | 1%nat => [0; 2; 3; 0] | _ => [0; 0; 0; 0] end.
Definition ex_os : list sop := [OPlus 0 1; OAddSt 1 0 (-2); OSub 0 2 2; OScale 1 3; OCopy 2 1; OErase 2 1; OMinus 2 1; OPlus 0 0; OAdd 2 4 9; OSet 2 1 (-6); OMinus 1 1].
Example C25_histories_ex : legals (dense0 ex_vs) ex_os /\ Forall noself ex_os /\ Forall noscale0 ex_os /\ three_types xgcd_example sc_int /\
  match srun sc_int 0 ex_os (sparse0 ex_vs) with Ok st => map (fun r => sents (st r)) [0; 1; 2]%nat | _ => [] end = [[(1, 10); (4, 14)]; []; [(1, -6); (4, 9)]].
Proof.
  split; [cbn [ex_os legals legal]; repeat (split; [first [exact Logic.I | left; lia]|]); exact Logic.I|]. split; [unfold ex_os; repeat (apply Forall_cons; [first [exact Logic.I | left; lia]|]); apply Forall_nil|].
  split; [unfold ex_os; repeat (apply Forall_cons; [first [exact Logic.I | cbn [noscale0]; lia]|]); apply Forall_nil|].
  split; [left; reflexivity|]. vm_compute. reflexivity.
Qed.
(** set(i,0) does not clear the entry; after *=0 two equal vectors compare different;
    v.add_scalar_times(v,-1) uses an iterator to an erased element *)
Theorem C25_set_zero_refuted S : exists vs os st r k, srun S 0 os (sparse0 vs) = Ok st /\ os = [OSet r k 0] /\ sv_elem (st r) k <> snd (drun os (dense0 vs) r) k.
Proof.
  exists ex_vs, [OSet 0 1 0]. eexists. exists 0%nat, 1. split; [reflexivity|]. split; [reflexivity|]. vm_compute. discriminate.
Qed.
Print Assumptions C25_set_zero_refuted.
Theorem C25_equality_refuted xgcd S : three_types xgcd S -> exists vs os st r s, srun S 0 os (sparse0 vs) = Ok st /\ legals (dense0 vs) os /\
  drun os (dense0 vs) r = (1, fun k => 0 * snd (dense0 vs r) k) /\ (forall k, snd (drun os (dense0 vs) s) k = 0) /\ fst (drun os (dense0 vs) s) = 1 /\ sv_eqb (st r) (st s) = false.
Proof.
  intros T. exists (fun r => match r with 0%nat => [5] | _ => [0] end), [OScale 0 0]. destruct T as [->|[->| ->]]; eexists; exists 0%nat, 1%nat.
  all: split; [reflexivity|]; split; [cbn [legals legal]; auto|]; split; [reflexivity|]; split; [|split; reflexivity].
  all: intros k; cbn; destruct (1 <=? k); auto; destruct (Z.to_nat (k - 1)) as [|[|]]; reflexivity.
Qed.
Print Assumptions C25_equality_refuted.
Theorem C25_alias_refuted xgcd S : three_types xgcd S -> exists vs r, srun S 0 [OAddSt r r (-1)] (sparse0 vs) = UB.
Proof. intros T. exists ex_vs, 0%nat. destruct T as [->|[->| ->]]; reflexivity. Qed.
Print Assumptions C25_alias_refuted.

(** * histories modulo a prime: defined, congruent to the dense history, and the entries
    stay non-zero and smaller than p, so that eqmodp decides congruence *)
Lemma modular_neg xgcd S D p : modular xgcd S D p -> prime p -> forall a, Z.abs a < p -> s_mul S a (-1) = Ok (- a).
Proof.
  intros M P a H. destruct P as (P & _). destruct M as [(-> & _ & B)|[(-> & _ & B)|(-> & _ & _)]].
  - cbn [s_mul sc_int]. unfold mul32. rewrite c32_ok; [f_equal; lia|]. unfold in32, max32, min32 in *. lia.
  - cbn [s_mul sc_long]. rewrite mul64_ok; [f_equal; lia|]. unfold in64, max64, min64 in *. nia.
  - cbn [s_mul sc_z]. f_equal. lia.
Qed.
Definition small (p : Z) (vs : nat -> list Z) : Prop := forall r i, Z.abs (nth i (vs r) 0) < p.
Lemma reds0 p vs : small p vs -> redss p (sparse0 vs).
Proof.
  intros H r. destruct (sv_of_vec_ok (vs r)) as (G & C & _ & _ & De). split; auto. intros k x E. split; [|intros ->; eapply C; eauto].
  specialize (De k). unfold mval in De. fold (sparse0 vs r) in De. rewrite E in De. cbn [snd] in De. subst x. unfold vat. destruct (_ <=? _); auto. specialize (H r 0%nat). lia.
Qed.
Theorem C25_histories_mod_partial xgcd S D p : modular xgcd S D p -> prime p -> forall vs os, small p vs -> legalsp D p (dense0 vs) os ->
  exists st, srun S p os (sparse0 vs) = Ok st /\
  (forall r, sd (st r) = fst (drun os (dense0 vs) r) /\
     (forall k, cong p (sv_elem (st r) k) (snd (drun os (dense0 vs) r) k) /\ Z.abs (sv_elem (st r) k) < p) /\
     (forall k, In k (sv_support (st r)) <-> ~ cong p (snd (drun os (dense0 vs) r) k) 0)) /\
  (forall r s, exists b, sv_eqmodp S (st r) (st s) p = Ok b /\
     (b = true <-> fst (drun os (dense0 vs) r) = fst (drun os (dense0 vs) s) /\ forall k, cong p (snd (drun os (dense0 vs) r) k) (snd (drun os (dense0 vs) s) k))).
Proof.
  intros MO P vs os Sm L. pose proof (modular_ok _ _ _ _ MO P) as M.
  destruct (srun_mod S D p M (modular_neg _ _ _ _ MO P) os (sparse0 vs) (dense0 vs)) as (st & E & A & R).
  - intros r. destruct (agree0 vs r) as (A1 & A2). split; auto. intros k. rewrite A2. apply cong_refl.
  - apply reds0, Sm.
  - exact L.
  - exists st. split; auto. split.
    + intros r. destruct (A r) as (A1 & A2). destruct (R r) as (G & Rd). split; auto. split.
      * intros k. split; [apply A2|]. apply (reds_val S D p M); auto.
      * intros k. unfold sv_support. rewrite in_map_iff. specialize (A2 k). unfold mval in A2. split.
        -- intros ((k', x) & <- & Hx) C. cbn [fst] in *. apply In_mget in Hx; auto. rewrite Hx in A2. destruct (Rd _ _ Hx) as (L1 & L2). apply (small_nz p x); auto. eapply cong_trans; eauto.
        -- intros N. destruct (mget (sents (st r)) k) eqn:Q; [exists (k, z); split; auto; apply mget_In, Q|]. exfalso. apply N, cong_sym, A2.
    + intros r s. apply (sv_eqmodp_ok S D p M); auto; apply R.
Qed.
Print Assumptions C25_histories_mod_partial.
Definition ex_osp : list sop := [OAddStMod 0 1 50; OSubMod 1 0; OScaleMod 1 1000; OAddMod1 2 3 200; OSubMod1 2 1 96; OAddMod 2 2; OReduce 2; OAddStMod 1 1 40; OSet 0 2 7].
Example C25_histories_mod_ex : modular xgcd_example sc_int sym32 97 /\ prime 97 /\ small 97 ex_vs /\ legalsp sym32 97 (dense0 ex_vs) ex_osp /\
  match srun sc_int 97 ex_osp (sparse0 ex_vs) with Ok st => map (fun r => sents (st r)) [0; 1; 2]%nat | _ => [] end = [[(1, 5); (2, 7); (3, -47); (4, 7)]; [(1, -39); (2, 31); (3, 2); (4, -74)]; [(1, 2); (3, 12)]].
Proof.
  split; [left; split; [reflexivity|]; split; [reflexivity|]; unfold max32; lia|]. split; [exact prime97|]. split.
  { intros r i. destruct r as [|[|r]]; cbn [ex_vs]; do 4 (destruct i as [|i]; [cbn; lia|]); destruct i; cbn; lia. }
  split; [|vm_compute; reflexivity].
  assert (NC : forall a, 0 < a < 97 -> ~ cong 97 a 0) by (intros a H (k & Hk); lia).
  cbn [ex_osp legalsp legalp]. unfold sym32, max32. repeat match goal with |- _ /\ _ => split end; try exact Logic.I; try lia; try (left; lia); try (right; lia).
  - intros (k & Hk). lia.
  - right. apply NC. lia.
Qed.
(** multiplying by a multiple of p stores zeros, so the support is wrong *)
Theorem C25_scale_mod_refuted : exists vs os st r k, small 97 vs /\ os = [OScaleMod r 97] /\ srun sc_int 97 os (sparse0 vs) = Ok st /\
  In k (sv_support (st r)) /\ cong 97 (snd (drun os (dense0 vs) r) k) 0.
Proof.
  exists ex_vs, [OScaleMod 0 97]. eexists. exists 0%nat, 1. split; [apply C25_histories_mod_ex|]. split; [reflexivity|]. split; [reflexivity|]. split; [vm_compute; auto|].
  exists 5. reflexivity.
Qed.
Print Assumptions C25_scale_mod_refuted.
Theorem C25_alias_mod_refuted : exists vs r, small 2 vs /\ srun sc_int 2 [OAddMod r r] (sparse0 vs) = UB.
Proof. exists (fun _ => [1]), 0%nat. split; [intros r [|[|i]]; cbn; lia|reflexivity]. Qed.
Print Assumptions C25_alias_mod_refuted.
(** the version of add_scalar_times_mod_p used by the elimination: ons and offs are the
    positions gained and lost *)
Theorem C25_ons_offs xgcd S D p : modular xgcd S D p -> prime p -> forall v w c, D c ->
  (forall i, Z.abs (nth i v 0) < p) -> (forall i, Z.abs (nth i w 0) < p) -> length v = length w ->
  exists r on off, sv_addstmod_oo S false (sv_of_vec v) (sv_of_vec w) c p = Ok (r, on, off) /\
    (forall i, (i < length v)%nat -> cong p (sv_elem r (Z.of_nat i + 1)) (nth i v 0 + c * nth i w 0)) /\
    (forall k, In k on <-> exists i, k = Z.of_nat i + 1 /\ (i < length v)%nat /\ cong p (nth i v 0) 0 /\ ~ cong p (nth i v 0 + c * nth i w 0) 0) /\
    (forall k, In k off <-> exists i, k = Z.of_nat i + 1 /\ (i < length v)%nat /\ ~ cong p (nth i v 0) 0 /\ cong p (nth i v 0 + c * nth i w 0) 0).
Proof.
  intros MO P v w c Dc Hv Hw Ln. pose proof (modular_ok _ _ _ _ MO P) as M.
  assert (Q : forall u, (forall i, Z.abs (nth i u 0) < p) -> good (sv_of_vec u) /\ reds p (sents (sv_of_vec u)) /\ denp p (sv_of_vec u) (Z.of_nat (length u), vat u)).
  { intros u Hu. pose proof (reds0 p (fun _ => u) (fun r => Hu) 0%nat) as (G & R). split; auto. split; auto.
    destruct (sv_of_vec_ok u) as (_ & _ & _ & D1 & D2). split; auto. intros k. rewrite D2. apply cong_refl. }
  destruct (Q v Hv) as (Gv & Rv & Dv), (Q w Hw) as (Gw & Rw & Dw).
  destruct (sv_addstmod_oo_ok S D p M _ _ c _ _ Gv Gw Rv Rw Dv Dw Dc) as (r & on & off & E & (_ & _ & _ & O) & On & Off).
  exists r, on, off. split; auto. unfold dbin in *. cbn [fst snd] in *. rewrite Ln, Z.eqb_refl in *. cbn [snd] in *.
  assert (OUT : forall k, ~ (exists i, k = Z.of_nat i + 1 /\ (i < length w)%nat) -> vat v k = 0 /\ vat w k = 0).
  { intros k N. unfold vat. destruct (Z.leb_spec 1 k); auto. split; apply nth_overflow; destruct (Nat.le_gt_cases (length w) (Z.to_nat (k - 1))); try lia; exfalso; apply N; exists (Z.to_nat (k - 1)); lia. }
  assert (DEC : forall k, (exists i, k = Z.of_nat i + 1 /\ (i < length w)%nat) \/ ~ (exists i, k = Z.of_nat i + 1 /\ (i < length w)%nat)).
  { intros k. destruct (Z_le_dec 1 k), (Z_le_dec k (Z.of_nat (length w))); [left; exists (Z.to_nat (k - 1)); lia|right; intros (i & ? & ?); lia..]. }
  split.
  - intros i Hi. rewrite <- !vat_nth. apply O.
  - split; intros k; [rewrite On|rewrite Off]; split.
    1,3: intros (H1 & H2); destruct (DEC k) as [(i & -> & Hi)|N]; [exists i; rewrite !vat_nth in *; auto|];
      exfalso; destruct (OUT k N) as (V & W); rewrite V, W, Z.mul_0_r in *; first [apply H2, cong_refl|apply H1, cong_refl].
    all: intros (i & -> & Hi & H1 & H2); rewrite !vat_nth; auto.
Qed.
Print Assumptions C25_ons_offs.
Example C25_ons_offs_ex : sv_addstmod_oo sc_int false (sv_of_vec [1; 0; 3; 50]) (sv_of_vec [0; 2; 94; 1]) 1 97 = Ok (Sv 4 [(1, 1); (2, 2); (4, 51)], [2], [3]) /\ sym32 1.
Proof. split; [vm_compute; reflexivity|unfold sym32, max32; lia]. Qed.

(** * conversions, comparison with a dense vector, inner products, content *)
Theorem C25_conversions xgcd S : three_types xgcd S -> forall vs p os st, legals (dense0 vs) os -> srun S p os (sparse0 vs) = Ok st -> forall r n, fst (drun os (dense0 vs) r) = Z.of_nat n ->
  (forall k, snd (drun os (dense0 vs) r) k <> 0 -> 1 <= k <= Z.of_nat n) -> Forall noscale0 os ->
  (exists l, sv_as_vec (st r) = Ok l /\ length l = n /\ forall i, (i < n)%nat -> nth i l 0 = snd (drun os (dense0 vs) r) (Z.of_nat i + 1)) /\
  (forall w, sv_eq_vec (st r) w = true <-> length w = n /\ forall i, (i < n)%nat -> nth i w 0 = snd (drun os (dense0 vs) r) (Z.of_nat i + 1)) /\
  (forall s c, sv_dot S (st r) (st s) = Ok c -> c = sumn n (fun i => snd (drun os (dense0 vs) r) (Z.of_nat i + 1) * snd (drun os (dense0 vs) s) (Z.of_nat i + 1))) /\
  (forall w c, length w = n -> sv_dotv S (st r) w = Ok c -> c = sumn n (fun i => snd (drun os (dense0 vs) r) (Z.of_nat i + 1) * nth i w 0)).
Proof.
  intros T vs p os st L H r n En Hr F. pose proof (three_exact _ _ T) as X.
  destruct (srun_exact S X p os _ (dense0 vs) st H (agree0 vs) (goods0 vs) L) as (A & G & C). specialize (C (canons0 vs) F).
  destruct (A r) as (A1 & A2).
  assert (R : inrange n (sents (st r))). { intros k x Hx. apply Hr. rewrite <- A2. unfold mval. rewrite Hx. intros ->. eapply C; eauto. }
  split; [|split; [|split]].
  - apply sv_as_vec_ok; auto. split; cbn [fst snd]; auto. congruence.
  - intros w. rewrite (sv_eq_vec_ok _ _ _ (A r)), En. split; intros (H1 & H2).
    + assert (length w = n) by lia. subst n. auto.
    + subst n. auto.
  - intros s c E. apply (sv_dot_inv S X _ _ _ n) in E; auto. rewrite E. apply sumn_ext. intros i Hi. rewrite A2. rewrite (proj2 (A s)). reflexivity.
  - intros w c Ln E. subst n. apply (sv_dotv_inv S X) in E; auto. rewrite E. apply sumn_ext. intros i Hi. rewrite A2. reflexivity.
Qed.
Print Assumptions C25_conversions.
(** inner products modulo p *)
Theorem C25_dotmodp xgcd S D p : modular xgcd S D p -> prime p -> forall v w, length v = length w -> (forall i, Z.abs (nth i v 0) < p) -> (forall i, Z.abs (nth i w 0) < p) ->
  (exists r, sv_dotmodp S (sv_of_vec v) (sv_of_vec w) p = Ok r /\ cent p r /\ cong p r (sumn (length v) (fun i => nth i v 0 * nth i w 0))) /\
  (exists r, sv_dotvmodp S (sv_of_vec v) w p = Ok r /\ cent p r /\ cong p r (sumn (length v) (fun i => nth i v 0 * nth i w 0))).
Proof.
  intros MO P v w Ln Hv Hw. pose proof (modular_ok _ _ _ _ MO P) as M.
  pose proof (reds0 p (fun _ => v) (fun r => Hv) 0%nat) as (Gv & Rv). pose proof (reds0 p (fun _ => w) (fun r => Hw) 0%nat) as (Gw & Rw).
  destruct (sv_of_vec_ok v) as (_ & _ & Iv & _ & Dv). destruct (sv_of_vec_ok w) as (_ & _ & Iw & _ & Dw). split.
  - destruct (sv_dotmodp_ok S D p M _ _ (length v) Gv Gw Rv Rw Iv) as (r & E & C & K). exists r. split; auto. split; auto. eapply cong_trans; [exact K|].
    apply cong_eq, sumn_ext. intros i Hi. unfold sparse0. rewrite Dv, Dw. cbn [snd]. rewrite !vat_nth. reflexivity.
  - rewrite Ln in Iv. destruct (sv_dotvmodp_ok S D p M _ w Gv Rv) as (r & E & C & K); auto. exists r. split; auto. split; auto. rewrite Ln. eapply cong_trans; [exact K|].
    apply cong_eq, sumn_ext. intros i Hi. unfold sparse0. rewrite Dv. cbn [snd]. rewrite !vat_nth. reflexivity.
Qed.
Print Assumptions C25_dotmodp.
Lemma three_gcd xgcd S : three_types xgcd S -> forall a b g, s_gcd S a b = Ok g -> g = Z.gcd a b.
Proof.
  intros [->|[->| ->]] a b g E.
  - cbn [s_gcd sc_int] in E. apply bind_ok in E as (h & Eg & E). apply c32_inv in E. apply gcd_long_partial in Eg. destruct E; congruence.
  - cbn [s_gcd sc_long] in E. apply gcd_long_partial in E. auto.
  - cbn [s_gcd sc_z] in E. congruence.
Qed.
Theorem C25_make_primitive xgcd S : three_types xgcd S -> forall v c r, sv_primitive S (sv_of_vec v) = Ok (c, r) ->
  0 <= c /\ (forall i, (c | nth i v 0)) /\ (forall h, (forall i, (h | nth i v 0)) -> (h | c)) /\
  sd r = Z.of_nat (length v) /\ (forall i, c * sv_elem r (Z.of_nat i + 1) = nth i v 0) /\ (c <> 0 -> forall h, (forall i, (h | sv_elem r (Z.of_nat i + 1))) -> (h | 1)).
Proof.
  intros T v c r E. pose proof (three_exact _ _ T) as X. destruct (sv_of_vec_ok v) as (G & _ & _ & De).
  destruct (sv_primitive_inv S (three_gcd _ _ T) X _ _ _ _ E G De) as (P & D1 & D2 & G' & Sd & V). cbn [fst snd] in *.
  assert (D2' : forall h, (forall i, (h | nth i v 0)) -> (h | c)).
  { intros h H. apply D2. intros k. unfold vat. destruct (_ <=? _); auto using Z.divide_0_r. }
  assert (D1' : forall i, (c | nth i v 0)) by (intros i; rewrite <- vat_nth; auto).
  assert (V' : forall i, c * sv_elem r (Z.of_nat i + 1) = nth i v 0) by (intros i; rewrite <- vat_nth; apply V).
  split; [auto|]. split; [auto|]. split; [auto|]. split; [auto|]. split; [auto|]. intros N h H.
  destruct (Z.eq_dec h 0) as [->|Nh].
  - exfalso. assert (Z0 : forall i, nth i v 0 = 0) by (intros i; rewrite <- V'; specialize (H i); apply Z.divide_0_l in H; rewrite H; lia).
    apply N. apply Z.divide_0_l. apply D2'. intros i. rewrite Z0. apply Z.divide_refl.
  - assert (Dh : (c * h | c)). { apply D2'. intros i. rewrite <- V'. destruct (H i) as [q ->]. exists q. ring. }
    destruct Dh as [q Hq]. exists q. assert (Q : c * (q * h - 1) = 0) by lia. apply Z.mul_eq_0 in Q. lia.
Qed.
Print Assumptions C25_make_primitive.
Theorem C25_make_primitive_total xgcd : forall v, (exists i, nth i v 0 <> 0) -> exists c r, sv_primitive (sc_z xgcd) (sv_of_vec v) = Ok (c, r) /\ 0 < c.
Proof.
  intros v (i & N). destruct (sv_of_vec_ok v) as (G & _ & _ & De).
  apply (sv_primitive_tot (sc_z xgcd) (three_gcd xgcd _ (or_intror (or_intror eq_refl))) (total_z xgcd) (fun a b => eq_refl) _ _ G De). exists (Z.of_nat i + 1). cbn [snd]. rewrite vat_nth. auto.
Qed.
Print Assumptions C25_make_primitive_total.
(** after *=0 make_primitive divides by 0; first_index of the zero vector reads end() *)
Theorem C25_zero_vector_refuted xgcd S : three_types xgcd S -> (exists vs st, srun S 0 [OScale 0 0] (sparse0 vs) = Ok st /\ forall r, sv_primitive S (st 0%nat) <> Ok r) /\ sv_first (sv_of_vec [0; 0]) = UB.
Proof.
  intros T. split; [|reflexivity]. exists ex_vs. destruct T as [->|[->| ->]]; eexists; (split; [reflexivity|]); intros r; vm_compute; discriminate.
Qed.
Print Assumptions C25_zero_vector_refuted.
Example C25_conversions_ex : sv_as_vec (Sv 4 [(1, 10); (4, 14)]) = Ok [10; 0; 0; 14] /\ sv_eq_vec (Sv 4 [(1, 10); (4, 14)]) [10; 0; 0; 14] = true /\
  sv_dot sc_int (Sv 4 [(1, 10); (4, 14)]) (Sv 4 [(2, 3); (4, 5)]) = Ok 70 /\ sv_dotmodp sc_int (Sv 4 [(1, 10); (4, 14)]) (Sv 4 [(1, 3); (4, 5)]) 97 = Ok 3 /\
  sv_primitive sc_int (sv_of_vec [10; 0; -15]) = Ok (5, Sv 3 [(1, 2); (3, -3)]).
Proof. vm_compute. repeat split. Qed.
