(** What the component group code should compute: subgroups spanned by lists of points,
    indices of subgroups, maps to component groups, orders of subgroups of a product
    of cyclic groups. *)
From Coq Require Import ZArith List Bool.
From Verif Require Import GrpModel GrpLib.
Import ListNotations.
Open Scope Z_scope.

Section Spec.
Variable g : grp.
(** c1 P1 + ... + cn Pn; missing coefficients are 0 *)
Fixpoint lc (cs : list Z) (L : list (el g)) : el g :=
  match cs, L with
  | c :: cs', P :: L' => gadd g (mul g c P) (lc cs' L')
  | _, _ => gz g
  end.
Definition span (L : list (el g)) (X : el g) : Prop := exists cs, X = lc cs L.
(** the subgroup T has index N in S: N representatives, inequivalent, covering S *)
Definition index_is (S T : el g -> Prop) (N : Z) : Prop :=
  exists R, Z.of_nat (length R) = N /\ Forall S R /\
    ForallOrdPairs (fun x y => ~ T (gadd g x (gneg g y))) R /\
    forall X, S X -> exists r, In r R /\ T (gadd g X (gneg g r)).

(** phi is a homomorphism to Z/n *)
Definition hom (n : Z) (phi : el g -> Z) : Prop := forall X Y, (n | phi (gadd g X Y) - (phi X + phi Y)).

(** The component group at p is embedded in the group with the structure G: a cyclic
    group Z/n or Z/2 x Z/2, the points with good reduction being the kernel; im is the
    map to Z/n when n >= 5 *)
Definition component_map (good : el g -> bool) (im : Z -> el g -> Z) (G : list Z) : Prop :=
  (exists n phi, G = [n] /\ 1 <= n /\ hom n phi /\ (forall X, good X = true <-> (n | phi X)) /\
     (5 <= n -> forall X, (n | im n X - phi X)))
  \/ (exists phi1 phi2, G = [2; 2] /\ hom 2 phi1 /\ hom 2 phi2 /\ (forall X, good X = true <-> (2 | phi1 X) /\ (2 | phi2 X))).
End Spec.

(** the j-th entry of the combination of the rows with coefficients cs *)
Fixpoint cmb (cs : list Z) (rows : list (list Z)) (j : nat) : Z :=
  match cs, rows with
  | c :: cs', r :: rows' => c * nth j r 0 + cmb cs' rows' j
  | _, _ => 0
  end.
(** two combinations agree in the product of the groups Z/m, m in mods *)
Definition same_image (mods : list Z) (rows : list (list Z)) (cs cs' : list Z) : Prop :=
  forall j, (j < length mods)%nat -> (nth j mods 0 | cmb cs rows j - cmb cs' rows j).
(** the rows generate a subgroup of order N of the product of the groups Z/m *)
Definition image_order (mods : list Z) (rows : list (list Z)) (N : Z) : Prop :=
  exists R, Z.of_nat (length R) = N /\ ForallOrdPairs (fun c c' => ~ same_image mods rows c c') R /\
    forall cs, exists c, In c R /\ same_image mods rows cs c.
