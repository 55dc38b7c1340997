(** What Tate's algorithm is to find (Silverman, Advanced Topics, IV.9.4): the
    Kodaira symbol of a curve at p, described by divisibility conditions on a
    suitable integral model, the number of components and the Tamagawa number.
    Independent of the model of the code. *)
From Coq Require Import ZArith List Bool.
From Verif Require Import CurveModel CurveProofs.
Import ListNotations.
Open Scope Z_scope.

Inductive kodaira := KI (n : Z) | KII | KIII | KIV | KIs (m : Z) | KIVs | KIIIs | KIIs.

(** number of irreducible components of the special fibre, without multiplicity *)
Definition components (K : kodaira) : Z :=
  match K with KI n => n | KII => 1 | KIII => 2 | KIV => 3 | KIs m => m + 5 | KIVs => 7 | KIIIs => 8 | KIIs => 9 end.

(** the code used in class Reduction_type, curve.h lines 205-222 *)
Definition pinch_code (K : kodaira) : Z :=
  match K with KI n => 10 * n | KII => 2 | KIII => 3 | KIV => 4 | KIs m => 10 * m + 1 | KIVs => 5 | KIIIs => 6 | KIIs => 7 end.

Definition choice (P : Prop) (y n x : Z) : Prop := (P /\ x = y) \/ (~ P /\ x = n).

(** Y^2 + a3 Y - a6 has a root modulo p after Y = p^k y and division by p^(2k) *)
Definition yroot (p k : Z) (c : curve) : Prop :=
  exists y, (p ^ (2 * k + 1) | (p ^ k * y) ^ 2 + a3 c * (p ^ k * y) - a6 c).
(** a2 X^2 + a4 X + a6 with X = p^(k-1) x, divided by p^(2k-1) *)
Definition xroot (p k : Z) (c : curve) : Prop :=
  exists x, (p ^ (2 * k) | a2 c * (p ^ (k - 1) * x) ^ 2 + a4 c * (p ^ (k - 1) * x) + a6 c).
(** X^3 + a2 X^2 + a4 X + a6 with X = p x, divided by p^3: the roots modulo p *)
Definition cubic_root (p : Z) (c : curve) (x : Z) : Prop :=
  (p ^ 4 | (p * x) ^ 3 + a2 c * (p * x) ^ 2 + a4 c * (p * x) + a6 c).
Definition cubic_disc (c : curve) : Z :=
  a2 c ^ 2 * a4 c ^ 2 - 4 * a4 c ^ 3 - 4 * a2 c ^ 3 * a6 c - 27 * a6 c ^ 2 + 18 * a2 c * a4 c * a6 c.

Definition tate_form (p : Z) (c : curve) (K : kodaira) (cp : Z) : Prop :=
  match K with
  | KI n => 1 <= n /\ (p | a3 c) /\ (p | a4 c) /\ (p | a6 c) /\ ~ (p | sb2 c) /\
      (p ^ n | sdisc c) /\ ~ (p ^ (n + 1) | sdisc c) /\
      choice (exists x, (p | x ^ 2 + a1 c * x - a2 c)) n (if Z.even n then 2 else 1) cp
  | KII => (p | a3 c) /\ (p | a4 c) /\ (p | a6 c) /\ (p | sb2 c) /\ ~ (p ^ 2 | a6 c) /\ cp = 1
  | KIII => (p | a3 c) /\ (p | a4 c) /\ (p ^ 2 | a6 c) /\ (p | sb2 c) /\ ~ (p ^ 3 | sb8 c) /\ cp = 2
  | KIV => (p | a3 c) /\ (p | a4 c) /\ (p ^ 2 | a6 c) /\ (p | sb2 c) /\ (p ^ 3 | sb8 c) /\ ~ (p ^ 3 | sb6 c) /\
      choice (yroot p 1 c) 3 1 cp
  | KIs m => (p | a1 c) /\ (p | a2 c) /\
      if m =? 0 then
        (p ^ 2 | a3 c) /\ (p ^ 2 | a4 c) /\ (p ^ 3 | a6 c) /\ ~ (p ^ 7 | cubic_disc c) /\
        exists l, NoDup l /\ (forall x, In x l <-> 0 <= x < p /\ cubic_root p c x) /\ cp = 1 + Z.of_nat (length l)
      else
        1 <= m /\ ~ (p ^ 2 | a2 c) /\
        if Z.odd m then
          let n := (m + 5) / 2 in
          (p ^ (n - 1) | a3 c) /\ (p ^ n | a4 c) /\ (p ^ (2 * n - 2) | a6 c) /\ ~ (p ^ (2 * n - 1) | sb6 c) /\
          choice (yroot p (n - 1) c) 4 2 cp
        else
          let n := (m + 4) / 2 in
          (p ^ n | a3 c) /\ (p ^ n | a4 c) /\ (p ^ (2 * n - 1) | a6 c) /\
          ~ (p ^ (2 * n + 1) | a4 c ^ 2 - 4 * a2 c * a6 c) /\ choice (xroot p n c) 4 2 cp
  | KIVs => (p | a1 c) /\ (p ^ 2 | a2 c) /\ (p ^ 2 | a3 c) /\ (p ^ 3 | a4 c) /\ (p ^ 4 | a6 c) /\ ~ (p ^ 5 | sb6 c) /\
      choice (yroot p 2 c) 3 1 cp
  | KIIIs => (p | a1 c) /\ (p ^ 2 | a2 c) /\ (p ^ 3 | a3 c) /\ (p ^ 3 | a4 c) /\ (p ^ 5 | a6 c) /\ ~ (p ^ 4 | a4 c) /\ cp = 2
  | KIIs => (p | a1 c) /\ (p ^ 2 | a2 c) /\ (p ^ 3 | a3 c) /\ (p ^ 4 | a4 c) /\ (p ^ 5 | a6 c) /\ ~ (p ^ 6 | a6 c) /\ cp = 1
  end.
