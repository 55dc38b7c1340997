From Coq Require Import ZArith List Bool Lia Permutation.
From Verif Require Import FormsModel MinimSpec TestdModel.
Import ListNotations.
Open Scope Z_scope.

(** equal values give equal coefficients *)
Lemma coeffs a b c d e : (forall x z, r_eval (Qt a b c d e) x z = 0) -> a = 0 /\ b = 0 /\ c = 0 /\ d = 0 /\ e = 0.
Proof.
  intros H. pose proof (H 1 0) as H1. pose proof (H 0 1) as H2. pose proof (H 1 1) as H3. pose proof (H 1 (-1)) as H4. pose proof (H 2 1) as H5.
  unfold r_eval in *. cbn [ra rb rc rd re] in *. lia.
Qed.

Definition diff (g gs : quartic) (dd al be ga de : Z) : quartic :=
  let a := ra gs in let b := rb gs in let c := rc gs in let d := rd gs in let e := re gs in
  Qt (a * al * al * al * al + b * al * al * al * ga + c * al * al * ga * ga + d * al * ga * ga * ga + e * ga * ga * ga * ga - dd * dd * ra g)
     (4 * a * al * al * al * be + b * (al * al * al * de + 3 * al * al * be * ga) + 2 * c * (al * al * ga * de + al * be * ga * ga)
        + d * (3 * al * ga * ga * de + be * ga * ga * ga) + 4 * e * ga * ga * ga * de - dd * dd * rb g)
     (6 * a * al * al * be * be + 3 * b * (al * al * be * de + al * be * be * ga) + c * (al * al * de * de + 4 * al * be * ga * de + be * be * ga * ga)
        + 3 * d * (al * ga * de * de + be * ga * ga * de) + 6 * e * ga * ga * de * de - dd * dd * rc g)
     (4 * a * al * be * be * be + b * (3 * al * be * be * de + be * be * be * ga) + 2 * c * (al * be * de * de + be * be * ga * de)
        + d * (al * de * de * de + 3 * be * ga * de * de) + 4 * e * ga * de * de * de - dd * dd * rd g)
     (a * be * be * be * be + b * be * be * be * de + c * be * be * de * de + d * be * de * de * de + e * de * de * de * de - dd * dd * re g).
Lemma diff_eval g gs dd al be ga de x z :
  r_eval (diff g gs dd al be ga de) x z = r_eval gs (al * x + be * z) (ga * x + de * z) - dd * dd * r_eval g x z.
Proof. unfold diff, r_eval. cbn [ra rb rc rd re]. ring. Qed.

Lemma testd_ok g gs dd al be ga de : testd g gs dd al be ga de = true <->
  takes (Sum dd (Um al be ga de)) gs g.
Proof.
  assert (T : testd g gs dd al be ga de = true <->
    let q := diff g gs dd al be ga de in ra q = 0 /\ rb q = 0 /\ rc q = 0 /\ rd q = 0 /\ re q = 0).
  { unfold testd, diff. cbv zeta. cbn [ra rb rc rd re].
    repeat match goal with |- context [negb (?t =? 0)] =>
      destruct (Z.eqb_spec t 0); cbn [negb]; [|split; [discriminate|intros (? & ? & ? & ? & ?); exfalso; lia]] end.
    split; [intros _|reflexivity]. repeat split; lia. }
  rewrite T. clear T. cbv zeta. unfold takes. cbn [m00 sm m11 m12 m21 m22]. split.
  - intros (A & B & C & D & E) x z. pose proof (diff_eval g gs dd al be ga de x z) as H.
    unfold r_eval at 1 in H. rewrite A, B, C, D, E in H. lia.
  - intros H. assert (H0 : forall x z, r_eval (diff g gs dd al be ga de) x z = 0) by (intros x z; rewrite diff_eval, H; lia).
    destruct (diff g gs dd al be ga de) as [a b c d e]. cbn [ra rb rc rd re]. apply coeffs, H0.
Qed.

Lemma allperms_all p : Permutation p [0; 1; 2; 3]%nat <-> In p allperms.
Proof.
  split.
  - intros H. pose proof (Permutation_length H) as L. destruct p as [|a [|b [|c [|d [|]]]]]; try discriminate.
    assert (ND : NoDup [a; b; c; d]). { apply (Permutation_NoDup (Permutation_sym H)). repeat constructor; cbn; lia. }
    assert (R : forall x, In x [a; b; c; d] -> (x = 0 \/ x = 1 \/ x = 2 \/ x = 3)%nat).
    { intros x X. apply (Permutation_in _ H) in X. cbn in X. lia. }
    pose proof (R a ltac:(cbn; tauto)) as A. pose proof (R b ltac:(cbn; tauto)) as B. pose proof (R c ltac:(cbn; tauto)) as C. pose proof (R d ltac:(cbn; tauto)) as D.
    clear R H L. inversion ND as [|? ? N1 ND1]; subst. inversion ND1 as [|? ? N2 ND2]; subst. inversion ND2 as [|? ? N3 ND3]; subst.
    clear ND ND1 ND2 ND3. cbn in N1, N2, N3.
    destruct A as [->|[->|[->| ->]]], B as [->|[->|[->| ->]]]; try (exfalso; lia);
    destruct C as [->|[->|[->| ->]]]; try (exfalso; lia); destruct D as [->|[->|[->| ->]]]; try (exfalso; lia); unfold allperms; cbn [In]; tauto.
  - intros H. unfold allperms in H. cbn [In] in H.
    repeat (destruct H as [<-|H]; [apply NoDup_Permutation; [repeat constructor; cbn; lia|repeat constructor; cbn; lia|intros x; cbn; tauto]|]). contradiction.
Qed.
Lemma allperms_nodup : NoDup allperms.
Proof. unfold allperms. repeat constructor; cbn [In]; intuition discriminate. Qed.
