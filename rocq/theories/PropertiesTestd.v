(** C90: the test of an equivalence of quartics (mequiv.cc). *)
From Coq Require Import ZArith List Bool Lia Permutation.
From Verif Require Import FormsModel MinimSpec TestdModel TestdProofs.
Import ListNotations.
Open Scope Z_scope.

(** testd accepts exactly when gs(al x + be z, ga x + de z) = dd^2 g(x, z) for all x, z *)
Theorem C90_testd g gs dd al be ga de : testd g gs dd al be ga de = true <->
  forall x z, r_eval gs (al * x + be * z) (ga * x + de * z) = dd * dd * r_eval g x z.
Proof. apply testd_ok. Qed.
Print Assumptions C90_testd.
Example C90_testd_example :
  testd (Qt 30 32 24 8 2) (Qt 2 0 3 0 1) 1 1 1 2 0 = true /\
  testd (Qt 30 8 24 8 2) (Qt 2 0 3 0 1) 1 1 1 2 0 = false /\
  testd (Qt 1 2 3 4 5) (Qt 1 2 3 4 5) (-9) 3 0 0 3 = true /\ testd (Qt 15 26 24 14 5) (Qt 1 2 3 4 5) 1 1 0 1 1 = false.
Proof.
  split; [vm_compute; reflexivity|]. split; [vm_compute; reflexivity|]. split; vm_compute; reflexivity.
Qed.

(** allperms lists the 24 permutations of 0..3 once each; the first 8 are those that respect the pairs
    {0,1} and {2,3} (type I), the first 4 those that also keep the pairs in place (type III) *)
Theorem C90_allperms : NoDup allperms /\ length allperms = 24%nat /\
  (forall p, In p allperms <-> Permutation p [0; 1; 2; 3]%nat) /\
  (forall p, In p (firstn 8 allperms) <-> Permutation p [0; 1; 2; 3]%nat /\ ((nth 0 p 0 < 2)%nat <-> (nth 1 p 0 < 2)%nat)) /\
  (forall p, In p (firstn 4 allperms) <-> Permutation p [0; 1; 2; 3]%nat /\ (nth 0 p 0 < 2)%nat /\ (nth 1 p 0 < 2)%nat).
Proof.
  split; [exact allperms_nodup|]. split; [reflexivity|]. split; [intros p; symmetry; apply allperms_all|].
  split; intros p; rewrite allperms_all; unfold allperms; cbn [firstn In]; (split; [intros H; split; [tauto|]|intros (H & K)]).
  - repeat (destruct H as [<-|H]; [cbn; lia|]). contradiction.
  - repeat (destruct H as [<-|H]; [first [tauto|exfalso; cbn in K; lia]|]). contradiction.
  - repeat (destruct H as [<-|H]; [cbn; lia|]). contradiction.
  - repeat (destruct H as [<-|H]; [first [tauto|exfalso; cbn in K; lia]|]). contradiction.
Qed.
Print Assumptions C90_allperms.
