(** Model of libsrc/eclib/xmod.h (compiled without USE_DMOD, lines 105-272):
    arithmetic modulo the default 30-bit prime.  No proofs in this file. *)
From Coq Require Import ZArith List Bool.
From Verif Require Import Base ArithModel.
Import ListNotations.
Open Scope Z_scope.
Open Scope res_scope.

(** Constants, lines 112-115 and 205. *)
Definition BIGPRIME : Z := 1073741789.
Definition HALF_BIGPRIME : Z := Z.shiftr BIGPRIME 1.
Definition TWO_BIGPRIME : Z := 2147483578.
Definition INV_BIGPRIME : Z := 4294967436.

(** xmod(int,int), line 118, and xmod(long,long), line 119. *)
Definition xmod_int (a m : Z) : res Z := rem32 a m.
Definition xmod_long (a m : Z) : res Z := rem64 a m.

(** The while loops of mod0(int), lines 128 and 130. *)
Definition mod0_down (a : Z) : res (Z + Z) :=
  if HALF_BIGPRIME <? a then a' <- sub32 a BIGPRIME ;; Ok (inl a') else Ok (inr a).
Definition mod0_up (a : Z) : res (Z + Z) :=
  na <- neg32 a ;;
  if HALF_BIGPRIME <? na then a' <- add32 a BIGPRIME ;; Ok (inl a') else Ok (inr a).

(** mod0(int), lines 125-132. *)
Definition mod0_int (a : Z) : res Z :=
  a <- rem32 a BIGPRIME ;;
  if 0 <? a then while mod0_down W a else while mod0_up W a.

(** mod0(long), line 135. *)
Definition mod0_long (a : Z) : res Z := r <- rem64 a BIGPRIME ;; mod0_int (wrap32 r).

(** xmodmul0(int,int), lines 137-140. *)
Definition xmodmul0_int (a b : Z) : res Z :=
  ab <- mul64 a b ;; r <- rem64 ab BIGPRIME ;; rem32 (wrap32 r) BIGPRIME.

(** xmm0(int,int), lines 150-172. *)
Definition xmm0_int (a b : Z) : res Z :=
  if a =? 1 then Ok b
  else if a =? -1 then neg32 b
  else if b =? 1 then Ok a
  else if b =? -1 then neg32 a
  else
    a <- (if a <? 0 then add32 a BIGPRIME else Ok a) ;;
    b <- (if b <? 0 then add32 b BIGPRIME else Ok b) ;;
    ab <- mul64 a b ;;
    t <- mul64 INV_BIGPRIME (Z.shiftr ab 30) ;;
    u <- mul64 (Z.shiftr t 32) BIGPRIME ;;
    r <- sub64 ab u ;;
    v <- add32 (if TWO_BIGPRIME <=? r then BIGPRIME else 0)
               (if BIGPRIME <=? r then BIGPRIME else 0) ;;
    r <- sub64 r v ;;
    r <- (if HALF_BIGPRIME <? r then sub64 r BIGPRIME else Ok r) ;;
    Ok (wrap32 r).

(** xmm0(long,long), lines 174-177. *)
Definition xmm0_long (a b : Z) : res Z := ab <- mul64 a b ;; rem64 ab BIGPRIME.

(** xmodmul(int,int,int), lines 179-183. *)
Definition xmodmul_int (a b m : Z) : res Z :=
  if m =? BIGPRIME then xmm0_int a b
  else ab <- mul64 a b ;; r <- rem64 ab m ;; rem32 (wrap32 r) m.

(** xmodmul(long,long,long), lines 195-198. *)
Definition xmodmul_long (a b m : Z) : res Z :=
  ab <- mul64 a b ;; r <- rem64 ab m ;; rem64 r m.

(** table_invs, line 207. *)
Definition table_invs : list Z :=
  [0; 1; 536870895; 357913930; 805306342; 214748358; 178956965; 920350105;
   402653171; 477218573; 107374179; 97612890; 626349377; 330382089; 997045947;
   71582786; 738197480; 442128972; 775480181; 226050903].

(** Loop of invmod0, lines 234-238 (long) and 262-266 (int): state
    (a, b, oldx, x).  [ck] is the range check of the type used. *)
Definition inv0_step (ck : Z -> res Z) (s : Z * Z * Z * Z)
  : res ((Z * Z * Z * Z) + (Z * Z)) :=
  let '(a, b, oldx, x) := s in
  if b =? 0 then Ok (inr (a, oldx))
  else
    q <- ck (Z.quot a b) ;;
    qb <- ck (q * b) ;; c <- ck (a - qb) ;;
    qx <- ck (q * x) ;; newx <- ck (oldx - qx) ;;
    Ok (inl (b, c, x, newx)).

(** invmod0(long), lines 217-243, and invmod0(int), lines 245-271: the two
    overloads have the same text, at 64 and at 32 bits. *)
Definition invmod0_gen (ck : Z -> res Z) (a : Z) : res Z :=
  if (0 <? a) && (a <? 20) then get table_invs a
  else
    ma <- ck (- a) ;;
    if (0 <? ma) && (ma <? 20) then t <- get table_invs ma ;; ck (- t)
    else
      ma <- ck (ma + BIGPRIME) ;;
      if (0 <? ma) && (ma <? 20) then t <- get table_invs ma ;; ck (- t)
      else
        ma <- ck (a - BIGPRIME) ;;
        if (0 <? ma) && (ma <? 20) then get table_invs ma
        else
          '(g, oldx) <- while (inv0_step ck) W (a, BIGPRIME, 1, 0) ;;
          if g =? 1 then Ok oldx
          else if g =? -1 then ck (- oldx)
          else Ok 0.

Definition invmod0_int : Z -> res Z := invmod0_gen c32.
Definition invmod0_long : Z -> res Z := invmod0_gen c64.
