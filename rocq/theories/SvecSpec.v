(** What sparse vectors denote: dimensions with functions from positions to
    integers; independent of the sparse representation. *)
From Coq Require Import ZArith List.
From Verif Require Import LinSpec SvecModel.
Import ListNotations.
Open Scope Z_scope.

Definition dvec := (Z * (Z -> Z))%type.
Definition dstore := nat -> dvec.
Definition dset (f : Z -> Z) (i a : Z) : Z -> Z := fun k => if k =? i then a else f k.
Definition dput (d : dstore) (r : nat) (v : dvec) : dstore := fun x => if (x =? r)%nat then v else d x.
Definition dbin (g : Z -> Z -> Z) (v w : dvec) : dvec := if fst v =? fst w then (fst v, fun k => g (snd v k) (snd w k)) else v.
(** the effect intended for each operation; the modular ones up to congruence.
    Vectors of different dimensions: no change. *)
Definition dstep (d : dstore) (o : sop) : dstore :=
  match o with
  | OSet r i a => dput d r (fst (d r), dset (snd (d r)) i a)
  | OErase r i => dput d r (fst (d r), dset (snd (d r)) i 0)
  | OAdd r i a | OAddMod1 r i a => dput d r (fst (d r), dset (snd (d r)) i (snd (d r) i + a))
  | OSub r i a | OSubMod1 r i a => dput d r (fst (d r), dset (snd (d r)) i (snd (d r) i - a))
  | OPlus r s | OAddMod r s => dput d r (dbin (fun x y => x + y) (d r) (d s))
  | OMinus r s | OSubMod r s => dput d r (dbin (fun x y => x - y) (d r) (d s))
  | OAddSt r s a | OAddStMod r s a => dput d r (dbin (fun x y => x + a * y) (d r) (d s))
  | OScale r a | OScaleMod r a => dput d r (fst (d r), fun k => a * snd (d r) k)
  | OClear r => dput d r (fst (d r), fun _ => 0)
  | OCopy r s => dput d r (d s)
  | OReduce r => d
  end.
Definition drun (os : list sop) (d : dstore) : dstore := fold_left dstep os d.

(** set(i,0) only where the entry is 0; no modular operation *)
Definition legal (d : dstore) (o : sop) : Prop :=
  match o with
  | OSet r i a => a <> 0 \/ snd (d r) i = 0
  | OAddMod1 _ _ _ | OSubMod1 _ _ _ | OAddMod _ _ | OSubMod _ _ | OAddStMod _ _ _ | OScaleMod _ _ | OReduce _ => False
  | _ => True
  end.
Fixpoint legals (d : dstore) (os : list sop) : Prop := match os with [] => True | o :: os => legal d o /\ legals (dstep d o) os end.
Definition noscale0 (o : sop) : Prop := match o with OScale _ a => a <> 0 | _ => True end.
Definition noself (o : sop) : Prop := match o with OAddSt r s a => r <> s \/ a <> -1 | _ => True end.
(** modulo p; D: the values the scalar type can reduce *)
Definition legalp (D : Z -> Prop) (p : Z) (d : dstore) (o : sop) : Prop :=
  match o with
  | OSet r i a => Z.abs a < p /\ (a <> 0 \/ cong p (snd (d r) i) 0)
  | OErase _ _ | OClear _ | OCopy _ _ | OReduce _ | OSubMod _ _ => True
  | OAddMod1 _ _ a => D a
  | OSubMod1 _ _ a => Z.abs a < p
  | OAddMod r s => r <> s \/ p <> 2
  | OAddStMod r s a => D a /\ (r <> s \/ ~ cong p (1 + a) 0)
  | OScaleMod _ a => D a /\ ~ cong p a 0
  | OAdd _ _ _ | OSub _ _ _ | OPlus _ _ | OMinus _ _ | OAddSt _ _ _ | OScale _ _ => False
  end.
Fixpoint legalsp (D : Z -> Prop) (p : Z) (d : dstore) (os : list sop) : Prop := match os with [] => True | o :: os => legalp D p d o /\ legalsp D p (dstep d o) os end.
