(** Model of libsrc/illl.cc: integral LLL reduction with respect to a diagonal Gram matrix.
    No proofs in this file.

    [b] is the list of n+1 vectors b[0..n] (b[0] the weights), [lam] the list of rows of
    lambda, [d] the array d[0..n].  Indexing of std::vector out of range is undefined, indexing
    of a vec_m throws.  The division of bigint is the parameter [div]: the theorems are about
    every division which is right when the divisor divides the dividend.  Loops whose number
    of rounds is not known beforehand (the recursion of step3, the main loop) have the bound
    [f]; the recursion is a tail call and is modelled as a loop. *)
From Coq Require Import ZArith List Bool.
From Verif Require Import Base MArithModel LinModel.
Import ListNotations.
Open Scope Z_scope.
Open Scope res_scope.

(** sdot, lines 29-37 *)
Definition sdot (b : list (list Z)) (i j : nat) : res Z :=
  g <- deref b 0 ;; bi <- deref b i ;; bj <- deref b j ;;
  mfold (fun ans k => x <- at_ g k ;; y <- at_ bi k ;; z <- at_ bj k ;; Ok (ans + x * y * z)) (seq 0 (length g)) 0.
(** lambda[i][j], reading and assignment *)
Definition lget (lam : list (list Z)) (i j : nat) : res Z := r <- deref lam i ;; deref r j.
Definition lset (lam : list (list Z)) (i j : nat) (x : Z) : res (list (list Z)) :=
  r <- deref lam i ;; r <- put r j [x] ;; put lam i [r].
(** v -= q*w, vec.cc lines 73-78 *)
Definition vsub (v : list Z) (q : Z) (w : list Z) : res (list Z) :=
  z <- mmap2 (fun wi vi => Ok (vi - q * wi)) w v ;; put v 0 z.

(** redi, lines 62-85 *)
Definition redi (k l : nat) (b lam : list (list Z)) (d : list Z) : res (list (list Z) * list (list Z)) :=
  lkl <- lget lam (k - 1) (l - 1) ;; dl <- deref d l ;;
  q <- roundover lkl dl ;;
  if q =? 0 then Ok (b, lam)
  else
    bk <- deref b k ;; bl <- deref b l ;; bk <- vsub bk q bl ;; b <- put b k [bk] ;;
    x <- lget lam (k - 1) (l - 1) ;; lam <- lset lam (k - 1) (l - 1) (x - q * dl) ;;
    lam <- mfold (fun lam i => x <- lget lam (k - 1) (i - 1) ;; y <- lget lam (l - 1) (i - 1) ;;
                               lset lam (k - 1) (i - 1) (x - q * y)) (seq 1 (l - 1)) lam ;;
    Ok (b, lam).

Section LLL.
Variable div : Z -> Z -> res Z.

(** swapi, lines 87-120 *)
Definition swapi (k kmax : nat) (b lam : list (list Z)) (d : list Z) : res (list (list Z) * list (list Z) * list Z) :=
  dk <- deref d k ;; dk1 <- deref d (k - 1) ;;
  u <- deref b (k - 1) ;; v <- deref b k ;; b <- put b (k - 1) [v] ;; b <- put b k [u] ;;
  lam <- mfold (fun lam j => t <- lget lam (k - 1) (j - 1) ;; s <- lget lam (k - 2) (j - 1) ;;
                             lam <- lset lam (k - 1) (j - 1) s ;; lset lam (k - 2) (j - 1) t) (seq 1 (k - 2)) lam ;;
  la <- lget lam (k - 1) (k - 2) ;;
  dk2 <- deref d (k - 2) ;;
  bb <- div (dk2 * dk + la * la) dk1 ;;
  lam <- mfold (fun lam i => t <- lget lam (i - 1) (k - 1) ;; s <- lget lam (i - 1) (k - 2) ;;
                             x <- div (dk * s - la * t) dk1 ;; lam <- lset lam (i - 1) (k - 1) x ;;
                             x <- lget lam (i - 1) (k - 1) ;;
                             y <- div (bb * t + la * x) dk ;; lset lam (i - 1) (k - 2) y) (seq (k + 1) (kmax - k)) lam ;;
  d <- put d (k - 1) [bb] ;;
  Ok (b, lam, d).

(** step3, lines 123-144: one call up to the recursive call (inl) or the end (inr) *)
Definition step3_body (kmax : nat) (st : nat * list (list Z) * list (list Z) * list Z)
  : res ((nat * list (list Z) * list (list Z) * list Z) + (nat * list (list Z) * list (list Z) * list Z)) :=
  let '(k, b, lam, d) := st in
  '(b, lam) <- redi k (k - 1) b lam d ;;
  dk <- deref d k ;; dk2 <- deref d (k - 2) ;; la <- lget lam (k - 1) (k - 2) ;; dk1 <- deref d (k - 1) ;;
  if 4 * (dk * dk2 + la * la) <? 3 * (dk1 * dk1) then
    '(b, lam, d) <- swapi k kmax b lam d ;;
    Ok (inl (if (k - 1 <? 2)%nat then 2%nat else (k - 1)%nat, b, lam, d))
  else
    '(b, lam) <- mfold (fun '(b, lam) l => redi k l b lam d) (rev (seq 1 (k - 2))) (b, lam) ;;
    Ok (inr (S k, b, lam, d)).
Definition step3 (f : nat) (kmax : nat) st := while (step3_body kmax) f st.

(** lines 167-187: row k of lambda and d[k]; None when the vectors are dependent *)
Definition row_entry (b lam : list (list Z)) (d : list Z) (k j : nat) : res Z :=
  u <- sdot b k j ;;
  mfold (fun u i => di <- deref d i ;; x <- lget lam (k - 1) (i - 1) ;; y <- lget lam (j - 1) (i - 1) ;;
                    dp <- deref d (i - 1) ;; div (di * u - x * y) dp) (seq 1 (j - 1)) u.
Definition row_step (b : list (list Z)) (k : nat) (st : option (list (list Z) * list Z)) (j : nat) : res (option (list (list Z) * list Z)) :=
  match st with
  | None => Ok None
  | Some (lam, d) =>
      u <- row_entry b lam d k j ;;
      if (j <? k)%nat then lam <- lset lam (k - 1) (j - 1) u ;; Ok (Some (lam, d))
      else if u =? 0 then Ok None else d <- put d k [u] ;; Ok (Some (lam, d))
  end.
Definition new_row (b lam : list (list Z)) (d : list Z) (k : nat) : res (option (list (list Z) * list Z)) :=
  mfold (row_step b k) (seq 1 k) (Some (lam, d)).

(** the main loop, lines 161-194; the result carries false when the message about dependent
    vectors is printed *)
Definition main_body (f n : nat) (st : nat * nat * list (list Z) * list (list Z) * list Z)
  : res ((nat * nat * list (list Z) * list (list Z) * list Z) + (list (list Z) * bool)) :=
  let '(k, kmax, b, lam, d) := st in
  if (n <? k)%nat then Ok (inr (b, true))
  else
    r <- (if (kmax <? k)%nat then new_row b lam d k else Ok (Some (lam, d))) ;;
    match r with
    | None => Ok (inr (b, false))
    | Some (lam, d) =>
        let kmax := if (kmax <? k)%nat then k else kmax in
        '(k, b, lam, d) <- step3 f kmax (k, b, lam, d) ;;
        Ok (inl (k, kmax, b, lam, d))
    end.
(** lll_reduce, lines 151-198 *)
Definition lll_reduce (f n : nat) (b : list (list Z)) : res (list (list Z) * bool) :=
  d <- put (zeros (n + 1)) 0 [1] ;;
  u <- sdot b 1 1 ;; d <- put d 1 [u] ;;
  while (main_body f n) f (2%nat, 1%nat, b, repeat (zeros n) n, d).
End LLL.
