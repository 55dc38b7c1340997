(** The test of a rational equivalence of quartics: libsrc/mequiv.cc lines 98-136. *)
From Coq Require Import ZArith List Bool.
From Verif Require Import FormsModel.
Import ListNotations.
Open Scope Z_scope.

(** testd, lines 107-136: g has coefficients a..e, gs has as..es *)
Definition testd (g gs : quartic) (dd al be ga de : Z) : bool :=
  let a := ra g in let b := rb g in let c := rc g in let d := rd g in let e := re g in
  let as' := ra gs in let bs := rb gs in let cs := rc gs in let ds := rd gs in let es := re gs in
  let d2 := dd * dd in
  let al2 := al * al in let al3 := al2 * al in let al4 := al3 * al in
  let ga2 := ga * ga in let ga3 := ga2 * ga in let ga4 := ga3 * ga in
  let temp := ga4 * es + al * ga3 * ds + al2 * ga2 * cs + al3 * ga * bs + al4 * as' - d2 * a in
  if negb (temp =? 0) then false else
  let de2 := de * de in let de3 := de2 * de in let de4 := de3 * de in
  let be2 := be * be in let be3 := be2 * be in let be4 := be3 * be in
  let temp := de4 * es + be * de3 * ds + be2 * de2 * cs + be3 * de * bs + be4 * as' - d2 * e in
  if negb (temp =? 0) then false else
  let temp := 4 * ga3 * de * es + (3 * al * ga2 * de + be * ga3) * ds
              + 2 * (al2 * ga * de + al * be * ga2) * cs
              + (3 * al2 * be * ga + al3 * de) * bs + 4 * al3 * be * as' - d2 * b in
  if negb (temp =? 0) then false else
  let temp := 4 * ga * de3 * es + (3 * be * ga * de2 + al * de3) * ds
              + 2 * (be2 * ga * de + al * be * de2) * cs
              + (be3 * ga + 3 * al * be2 * de) * bs + 4 * al * be3 * as' - d2 * d in
  if negb (temp =? 0) then false else
  let temp := 6 * ga2 * de2 * es + 3 * (be * ga2 * de + al * ga * de2) * ds
              + (be2 * ga2 + 4 * al * be * ga * de + al2 * de2) * cs
              + 3 * (al * be2 * ga + al2 * be * de) * bs + 6 * al2 * be2 * as' - d2 * c in
  if negb (temp =? 0) then false else true.

(** allperms, lines 98-104 *)
Definition allperms : list (list nat) :=
  [[0;1;2;3];[1;0;2;3];[0;1;3;2];[1;0;3;2];
   [2;3;0;1];[2;3;1;0];[3;2;0;1];[3;2;1;0];
   [0;2;1;3];[0;2;3;1];[0;3;1;2];[0;3;2;1];
   [1;2;0;3];[1;2;3;0];[1;3;0;2];[1;3;2;0];
   [2;0;1;3];[2;0;3;1];[2;1;0;3];[2;1;3;0];
   [3;0;1;2];[3;0;2;1];[3;1;0;2];[3;1;2;0]]%nat.
