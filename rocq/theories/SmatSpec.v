(** What sparse matrices denote: dimensions with a function of row and column
    (both from 0); independent of the sparse representation. *)
From Coq Require Import ZArith List.
From Verif Require Import LinModel LinSpec SvecModel SmatModel.
Import ListNotations.
Open Scope Z_scope.

Record dmat := Dm { dnr : nat; dnc : nat; dent : nat -> nat -> Z }.
Definition dmstore := nat -> dmat.
Definition dmput (d : dmstore) (r : nat) (m : dmat) : dmstore := fun x => if (x =? r)%nat then m else d x.
Definition dmstore0 : dmstore := fun _ => Dm 0 0 (fun _ _ => 0).
Definition of_mat (m : mat) : dmat := Dm (nro m) (nco m) (fun i j => nth (i * nco m + j) (ents m) 0).
Definition diag (a : Z) (i j : nat) : Z := if (i =? j)%nat then a else 0.
(** the entry listed for column j (columns from 1 in the arrays of set_row) *)
Fixpoint listed (l : list (Z * Z)) (j : Z) : Z := match l with [] => 0 | (k, x) :: l => if k =? j then x else listed l j end.
Definition setrow_d (m : dmat) (i : nat) (f : nat -> Z) : dmat := Dm (dnr m) (dnc m) (fun a b => if (a =? i)%nat then f b else dent m a b).
Definition zip_d (g : Z -> Z -> Z) (m n : dmat) : dmat := if (dnr m =? dnr n)%nat then Dm (dnr m) (dnc m) (fun i j => g (dent m i j) (dent n i j)) else m.
Definition map_d (g : nat -> nat -> Z -> Z) (m : dmat) : dmat := Dm (dnr m) (dnc m) (fun i j => g i j (dent m i j)).
Definition mul_d (m n : dmat) : dmat := Dm (dnr m) (dnc n) (fun i j => sumn (dnc m) (fun k => dent m i k * dent n k j)).
(** the effect intended for each operation, the modular ones up to congruence.
    Adding matrices with different numbers of rows: no change. *)
Definition dmstep (d : dmstore) (o : mop) : dmstore :=
  match o with
  | MNew r nr nc => dmput d r (Dm nr nc (fun _ _ => 0))
  | MScalar r n a => dmput d r (Dm n n (diag a))
  | MOfMat r m | MLoad r m => dmput d r (of_mat m)
  | MAssign r s => dmput d r (d s)
  | MPlus r s => dmput d r (zip_d (fun x y => x + y) (d r) (d s))
  | MMinus r s => dmput d r (zip_d (fun x y => x - y) (d r) (d s))
  | MAddS r a => dmput d r (map_d (fun i j x => x + diag a i j) (d r))
  | MSubS r a | MSubMod r a => dmput d r (map_d (fun i j x => x - diag a i j) (d r))
  | MScale r a | MScaleMod r a => dmput d r (map_d (fun _ _ x => a * x) (d r))
  | MDiv r a => dmput d r (map_d (fun _ _ x => x / a) (d r))
  | MSetRow r i v => dmput d r (setrow_d (d r) i (fun j => nth j v 0))
  | MSetRowArr r i l => dmput d r (setrow_d (d r) i (fun j => listed l (Z.of_nat j + 1)))
  | MSelect r s rs => dmput d r (Dm (length rs) (dnc (d s)) (fun i j => dent (d s) (nth i rs 0%nat) j))
  | MTrans r s => dmput d r (Dm (dnc (d s)) (dnr (d s)) (fun i j => dent (d s) j i))
  | MMul r s t | MMulMod r s t => dmput d r (mul_d (d s) (d t))
  | MReduce r => d
  end.
Definition dmrun (os : list mop) (d : dmstore) : dmstore := fold_left dmstep os d.

(** increasing positions within 1..n *)
Fixpoint increasing (lo n : Z) (l : list (Z * Z)) : Prop := match l with [] => True | (k, _) :: l => lo <= k <= n /\ increasing (k + 1) n l end.
Definition full (m : mat) : Prop := length (ents m) = (nro m * nco m)%nat.
Definition mlegal (d : dmstore) (o : mop) : Prop :=
  match o with
  | MNew _ _ _ | MScalar _ _ _ | MAssign _ _ | MScale _ _ | MTrans _ _ => True
  | MOfMat _ m => full m
  | MPlus r s | MMinus r s => dnr (d r) = dnr (d s) -> dnc (d r) = dnc (d s)
  | MAddS r _ | MSubS r _ => (dnr (d r) <= dnc (d r))%nat
  | MDiv r a => a <> 0 /\ forall i j, (i < dnr (d r))%nat -> (j < dnc (d r))%nat -> (a | dent (d r) i j)
  | MSetRow r i v => (i < dnr (d r))%nat /\ length v = dnc (d r)
  | MSetRowArr r i l => (i < dnr (d r))%nat /\ increasing 1 (Z.of_nat (dnc (d r))) l
  | MSelect _ s rs => Forall (fun i => (i < dnr (d s))%nat) rs
  | MMul _ s t => dnc (d s) = dnr (d t)
  | MLoad _ _ | MReduce _ | MSubMod _ _ | MScaleMod _ _ | MMulMod _ _ _ => False
  end.
Fixpoint mlegals (d : dmstore) (os : list mop) : Prop := match os with [] => True | o :: os => mlegal d o /\ mlegals (dmstep d o) os end.
Definition mnozero (o : mop) : Prop := match o with MScalar _ _ a | MScale _ a => a <> 0 | _ => True end.
(** modulo p; D: the values the scalar type can reduce *)
Definition mlegalp (D : Z -> Prop) (p : Z) (d : dmstore) (o : mop) : Prop :=
  match o with
  | MNew _ _ _ | MAssign _ _ | MTrans _ _ | MReduce _ => True
  | MScalar _ _ a => Z.abs a < p /\ a <> 0
  | MOfMat _ m => full m /\ forall i, Z.abs (nth i (ents m) 0) < p
  | MLoad _ m => full m /\ forall i, D (nth i (ents m) 0)
  | MSubMod r a => Z.abs a < p /\ (dnr (d r) <= dnc (d r))%nat
  | MScaleMod _ a => Z.abs a < p /\ ~ cong p a 0
  | MSetRow r i v => (i < dnr (d r))%nat /\ length v = dnc (d r) /\ forall j, Z.abs (nth j v 0) < p
  | MSetRowArr r i l => (i < dnr (d r))%nat /\ increasing 1 (Z.of_nat (dnc (d r))) l /\ Forall (fun '(_, x) => Z.abs x < p) l
  | MSelect _ s rs => Forall (fun i => (i < dnr (d s))%nat) rs
  | MMulMod _ s t => dnc (d s) = dnr (d t)
  | MPlus _ _ | MMinus _ _ | MAddS _ _ | MSubS _ _ | MScale _ _ | MDiv _ _ | MMul _ _ _ => False
  end.
Fixpoint mlegalsp (D : Z -> Prop) (p : Z) (d : dmstore) (os : list mop) : Prop := match os with [] => True | o :: os => mlegalp D p d o /\ mlegalsp D p (dmstep d o) os end.
