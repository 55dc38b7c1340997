(** Model of libsrc/eclib/rat.h (class rational: 64-bit longs) and
    libsrc/eclib/bigrat.h (class bigrational: NTL integers).
    No proofs in this file.  Streams and conversions to floating point are not
    modelled.  A (big)rational is its pair of fields (n, d). *)
From Coq Require Import ZArith Bool.
From Verif Require Import Base ArithModel.
Open Scope Z_scope.
Open Scope res_scope.

Definition rat : Type := Z * Z.

(** ** class rational *)

(** cancel, rat.h lines 85-90. *)
Definition rat_cancel (q : rat) : res rat :=
  let '(n, d) := q in
  g <- gcd_long n d ;;
  '(n, d) <- (if 1 <? g then n' <- quot64 n g ;; d' <- quot64 d g ;; Ok (n', d')
              else Ok (n, d)) ;;
  if d <? 0 then n' <- neg64 n ;; d' <- neg64 d ;; Ok (n', d') else Ok (n, d).

(** rational(long,long), lines 92-96. *)
Definition rat_make (n d : Z) : res rat := rat_cancel (n, d).

(** unary minus, lines 106-109. *)
Definition rat_neg (q : rat) : res rat :=
  let '(n, d) := q in n' <- neg64 n ;; rat_make n' d.

(** operator+(rational,rational), lines 193-196; += (114-120) computes the
    same numerator and denominator. *)
Definition rat_add (q1 q2 : rat) : res rat :=
  let '(n1, d1) := q1 in let '(n2, d2) := q2 in
  a <- mul64 n1 d2 ;; b <- mul64 n2 d1 ;; n <- add64 a b ;;
  d <- mul64 d1 d2 ;; rat_make n d.

(** operator-(rational,rational), lines 208-211; -= lines 128-134. *)
Definition rat_sub (q1 q2 : rat) : res rat :=
  let '(n1, d1) := q1 in let '(n2, d2) := q2 in
  a <- mul64 n1 d2 ;; b <- mul64 n2 d1 ;; n <- sub64 a b ;;
  d <- mul64 d1 d2 ;; rat_make n d.

(** operator*(rational,rational), lines 233-236; *= lines 142-148. *)
Definition rat_mul (q1 q2 : rat) : res rat :=
  let '(n1, d1) := q1 in let '(n2, d2) := q2 in
  n <- mul64 n1 n2 ;; d <- mul64 d1 d2 ;; rat_make n d.

(** operator/(rational,rational), lines 243-246. *)
Definition rat_div (q1 q2 : rat) : res rat :=
  let '(n1, d1) := q1 in let '(n2, d2) := q2 in
  n <- mul64 n1 d2 ;; d <- mul64 d1 n2 ;; rat_make n d.

(** operator+=(long), lines 122-126: no cancel. *)
Definition rat_addeq_long (q : rat) (m : Z) : res rat :=
  let '(n, d) := q in
  a <- mul64 d m ;; n' <- add64 n a ;; Ok (n', d).

(** recip, lines 181-184. *)
Definition rat_recip (q : rat) : res rat := let '(n, d) := q in rat_make d n.

(** operator==, lines 253-256. *)
Definition rat_eq (q1 q2 : rat) : res bool :=
  let '(n1, d1) := q1 in let '(n2, d2) := q2 in
  a <- mul64 n1 d2 ;; b <- mul64 n2 d1 ;; Ok (a =? b).

(** floor, lines 297-300, and ceil, lines 302-306. *)
Definition rat_floor (q : rat) : res Z :=
  let '(n, d) := q in
  r <- rem64 n d ;; m <- sub64 n r ;; quot64 m d.
Definition rat_ceil (q : rat) : res Z :=
  let '(n, d) := q in
  if d =? 1 then Ok n
  else r <- rem64 n d ;; m <- sub64 n r ;; f <- quot64 m d ;; add64 1 f.

(** ** class bigrational (NTL: gcd >= 0, / and % floor) *)

(** NTL operator/ and operator% raise an error on division by zero. *)
Definition zz_div (a b : Z) : res Z := if b =? 0 then Die else Ok (a / b).
Definition zz_mod (a b : Z) : res Z := if b =? 0 then Die else Ok (a mod b).

(** cancel, bigrat.h lines 91-96. *)
Definition brat_cancel (q : rat) : res rat :=
  let '(n, d) := q in
  let g := Z.gcd n d in
  '(n, d) <- (if 1 <? g then n' <- zz_div n g ;; d' <- zz_div d g ;; Ok (n', d')
              else Ok (n, d)) ;;
  if d <? 0 then Ok (- n, - d) else Ok (n, d).

Definition brat_make (n d : Z) : res rat := brat_cancel (n, d).
Definition brat_neg (q : rat) : res rat := let '(n, d) := q in brat_make (- n) d.
(** lines 191-194, 206-209, 231-234, 241-244 *)
Definition brat_add (q1 q2 : rat) : res rat :=
  let '(n1, d1) := q1 in let '(n2, d2) := q2 in brat_make (n1 * d2 + n2 * d1) (d1 * d2).
Definition brat_sub (q1 q2 : rat) : res rat :=
  let '(n1, d1) := q1 in let '(n2, d2) := q2 in brat_make (n1 * d2 - n2 * d1) (d1 * d2).
Definition brat_mul (q1 q2 : rat) : res rat :=
  let '(n1, d1) := q1 in let '(n2, d2) := q2 in brat_make (n1 * n2) (d1 * d2).
Definition brat_div (q1 q2 : rat) : res rat :=
  let '(n1, d1) := q1 in let '(n2, d2) := q2 in brat_make (n1 * d2) (d1 * n2).
(** operator+=(bigint), lines 131-135: no cancel *)
Definition brat_addeq_int (q : rat) (m : Z) : rat := let '(n, d) := q in (n + d * m, d).
(** lines 251-254, 261-264 *)
Definition brat_eq (q1 q2 : rat) : bool :=
  let '(n1, d1) := q1 in let '(n2, d2) := q2 in n1 * d2 =? n2 * d1.
Definition brat_lt (q1 q2 : rat) : bool :=
  let '(n1, d1) := q1 in let '(n2, d2) := q2 in n1 * d2 <? n2 * d1.
(** floor, ceil, lines 305-314 *)
Definition brat_floor (q : rat) : res Z :=
  let '(n, d) := q in r <- zz_mod n d ;; zz_div (n - r) d.
Definition brat_ceil (q : rat) : res Z :=
  let '(n, d) := q in
  if d =? 1 then Ok n
  else r <- zz_mod n d ;; f <- zz_div (n - r) d ;; Ok (1 + f).
