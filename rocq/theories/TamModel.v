(** Model of the Tamagawa numbers and exponents, libsrc/curvered.cc lines 332-442.
    The map reduct_array is the list of (prime, entry) made by TateModel.curvered. *)
From Coq Require Import ZArith List Bool.
From Verif Require Import Base MArithModel CurveModel TateModel.
Import ListNotations.
Open Scope Z_scope.

(** reduct_array.find(p) *)
Fixpoint red_find (l : list (Z * reduction)) (p : Z) : option reduction :=
  match l with [] => None | (q, d) :: l' => if q =? p then Some d else red_find l' p end.

(** local_Tamagawa_exponent, lines 334-348; code%20 is the C++ remainder *)
Definition local_Tamagawa_exponent (E : curvedata) (l : list (Z * reduction)) (p : Z) : Z :=
  if p =? 0 then conncomp E
  else match red_find l p with
       | None => 1
       | Some d => if negb (c_p d =? 4) then c_p d else if Z.rem (kcode d) 20 =? 1 then 2 else 4
       end.

(** global_Tamagawa_exponent, lines 356-370 *)
Fixpoint gte_loop (l : list (Z * reduction)) (ans : Z) : res Z :=
  match l with
  | [] => Ok ans
  | (_, d) :: l' => ans <- lcm_z ans (if Z.rem (kcode d) 20 =? 1 then 2 else c_p d) ;; gte_loop l' ans
  end.
Definition global_Tamagawa_exponent (E : curvedata) (l : list (Z * reduction)) (real_too : bool) : res Z :=
  gte_loop l (if real_too && (conncomp E =? 2) then 2 else 1).

(** tamagawa_primes, lines 373-379 (the conversion to long is left out) *)
Definition tamagawa_primes (pdivs : Z -> list Z) (E : curvedata) (l : list (Z * reduction)) (real_too : bool) : res (list Z) :=
  e <- global_Tamagawa_exponent E l real_too ;; Ok (pdivs e).

(** getc_p, lines 408-412: the test "?:" without middle operand gives 1 at a good prime *)
Definition getc_p (l : list (Z * reduction)) (p : Z) : Z :=
  match red_find l p with None => 1 | Some d => c_p d end.
(** all_cp, prodcp, lines 414-428 *)
Definition prodcp (l : list (Z * reduction)) : Z := fold_left (fun n x => n * c_p (snd x)) l 1.
(** local_Tamagawa_number, global_Tamagawa_number, lines 431-442 *)
Definition local_Tamagawa_number (E : curvedata) (l : list (Z * reduction)) (p : Z) : Z :=
  if p =? 0 then conncomp E else getc_p l p.
Definition global_Tamagawa_number (E : curvedata) (l : list (Z * reduction)) (real_too : bool) : Z :=
  prodcp l * (if real_too then conncomp E else 1).
