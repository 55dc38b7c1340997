(** Minimalisation of quartics at a prime: libsrc/minim.cc lines 30-365. *)
From Coq Require Import ZArith List Bool.
From Verif Require Import Base FormsModel MArithModel.
Import ListNotations.
Open Scope Z_scope.
Open Scope res_scope.

Section M.
(** NTL's extended gcd, used by invmod (contract: xgcd_spec of MArithProofs) *)
Variable xgcd : Z -> Z -> Z * Z * Z.

(** div(p,n) and ndiv(p,n) of marith.h: is n divisible by p.  [divides(a,p,q,r)] is
    the same test with q = a/p; divide_exact(a,b,c) is c = a/b (floor), which only prints
    a message when the division is not exact. *)
Definition dv (p n : Z) : bool := n mod p =? 0.
Definition dv_all (p : Z) (g : quartic) : bool :=
  dv p (ra g) && dv p (rb g) && dv p (rc g) && dv p (rd g) && dv p (re g).

(** root_p, lines 30-68 *)
Definition root_p (g : quartic) (p : Z) : res Z :=
  let a := ra g in let b := rb g in let c := rc g in let d := rd g in let e := re g in
  if dv p a && dv p b then Ok (-1)
  else if dv p e && dv p d then Ok 0
  else if p =? 2 then Ok 1
  else if p =? 3 then
    if dv p a then mod_z (- b * e) p else mod_z (- a * d) p
  else
    let b2 := b * b in
    let ac := a * c in
    h <- mod_z (3 * b2 - 8 * ac) p ;;
    if h =? 0 then mod_z (- b * invmod_z xgcd (4 * a) p) p
    else if dv p a then mod_z (- c * invmod_z xgcd (3 * b) p) p
    else
      let t := invmod_z xgcd (4 * a * h) p in
      let r := b * b2 + 8 * (a * a) * d - 4 * ac * b in
      mod_z ((3 * r - b * h) * t) p.

(** the versions of xshift, zshift and m_invert that also update the matrix,
    transform.cc lines 92-119 *)
Definition st := (quartic * sunimod)%type.
Definition m_xshift (al : Z) (s : st) : st := (r_xshift al (fst s), Sum (m00 (snd s)) (um_xshift al (sm (snd s)))).
Definition m_zshift (ga : Z) (s : st) : st := (r_zshift ga (fst s), Sum (m00 (snd s)) (um_yshift ga (sm (snd s)))).
Definition m_invert (s : st) : st := (r_invert (fst s), Sum (m00 (snd s)) (um_invert (sm (snd s)))).

(** division of the coefficients by p^i with the matching scaling of the matrix *)
Definition scale_quad (p : Z) (s : st) : st :=
  let g := fst s in let p2 := p * p in
  (Qt (ra g) (rb g / p) (rc g / p2) (rd g / (p * p2)) (re g / (p2 * p2)),
   sum_uscale p2 (sum_xscale p (snd s))).
Definition scale_triple (p : Z) (s : st) : st :=
  let g := fst s in let p2 := p * p in
  (Qt (ra g * p2) (rb g) (rc g / p2) (rd g / (p2 * p2)) (re g / (p2 * p2 * p2)),
   sum_uscale (p * p2) (sum_xscale p2 (snd s))).

(** lines 94-105 *)
Definition case_p2 (p : Z) (s : st) : st :=
  let g := fst s in let p2 := p * p in
  (Qt (ra g / p2) (rb g / p2) (rc g / p2) (rd g / p2) (re g / p2), sum_uscale p (snd s)).

(** moving the multiple root to 0, lines 121-144 (g0 = g/p) and 191-214 (g0 = g) *)
Definition to_zero (p : Z) (g0 : quartic) (s : st) : res st :=
  if dv p (ra g0) && dv p (rb g0) then Ok (m_invert s)
  else if negb (dv p (re g0)) || negb (dv p (rd g0)) then
    al <- root_p g0 p ;; Ok (m_xshift al s)
  else Ok s.

(** all coefficients divisible by p, lines 107-182; the a0 in gamma is the one computed
    before the root was moved *)
Definition case_p (p : Z) (s : st) : res (bool * st) :=
  let g := fst s in
  let a0 := ra g / p in
  s <- to_zero p (Qt a0 (rb g / p) (rc g / p) (rd g / p) (re g / p)) s ;;
  let b0 := rb (fst s) / p in
  s <- (if negb (dv (p * p) (ra (fst s))) && negb (dv p b0) then
          ga <- mod_z (- a0 * invmod_z xgcd b0 p) p ;; Ok (m_zshift ga s)
        else Ok s) ;;
  if (p =? 2) && negb (dv 16 (re (fst s))) then Ok (false, s)
  else Ok (true, scale_quad p s).

(** lines 186-292 *)
Definition case_1 (p : Z) (s : st) : res (bool * st) :=
  s <- to_zero p (fst s) s ;;
  s <- (let g := fst s in
        if negb (dv p (ra g)) && negb (dv p (rb g)) then
          ga <- mod_z (- ra g * invmod_z xgcd (rb g) p) p ;; Ok (m_zshift ga s)
        else Ok s) ;;
  let g := fst s in
  if dv p (ra g) then
    beta <- (if p =? 3 then
               vpi <- val_z 3 (12 * ra g * re g - 3 * rb g * rd g + rc g * rc g) ;;
               let temp := if vpi =? 4 then - re g / 27 else - rc g / 9 in
               if negb (dv 3 temp) then m <- mod_z (temp * invmod_z xgcd (rb g) 3) 3 ;; Ok (3 * m) else Ok 0
             else
               let temp := - rc g / p in
               if negb (dv p temp) then m <- mod_z (temp * invmod_z xgcd (3 * rb g) p) p ;; Ok (p * m) else Ok 0) ;;
    Ok (true, scale_triple p (m_xshift beta s))
  else
    s <- (if p =? 3 then
            let b0 := rb g / 3 in
            if negb (dv p b0) then m <- mod_z (- b0 * invmod_z xgcd (ra g) p) p ;; Ok (m_xshift (3 * m) s) else Ok s
          else Ok s) ;;
    if (p =? 2) && negb (dv 16 (re (fst s))) then Ok (false, s)
    else Ok (true, scale_quad p s).

(** minim_p, lines 70-292 *)
Definition minim_p (p : Z) (s : st) : res (bool * st) :=
  let g := fst s in
  if dv_all (p * p) g then Ok (true, case_p2 p s)
  else if dv_all p g then case_p p s
  else case_1 p s.

(** is_nonmin, lines 294-305 *)
Definition is_nonmin (smallp vpi vpj vpd : Z) (assume_locsol : bool) : bool :=
  if negb assume_locsol then (7 <? vpi) && (11 <? vpj)
  else if smallp =? 3 then ((4 <? vpi) && (8 <? vpj)) || ((vpi =? 4) && (vpj =? 6) && (14 <? vpd))
  else (3 <? vpi) && (5 <? vpj).

(** the while loop of minim_all, lines 343-355; the fuel bounds the number of rounds *)
Fixpoint min_loop (fuel : nat) (p smallp : Z) (locsol nonmin : bool) (s : st) (I J vpi vpj vpd : Z) : res (st * Z * Z) :=
  if nonmin then
    match fuel with
    | O => OutOfFuel
    | S fuel =>
      '(success, s) <- minim_p p s ;;
      if (success : bool) then
        let vpi := vpi - 4 in let vpj := vpj - 6 in
        let I := I / p / p / p / p in let J := J / p / p / p / p / p / p in
        let vpd := if smallp =? 3 then vpd - 12 else vpd in
        min_loop fuel p smallp locsol (is_nonmin smallp vpi vpj vpd locsol) s I J vpi vpj vpd
      else min_loop fuel p smallp locsol false s I J vpi vpj vpd
    end
  else Ok (s, I, J).

(** one prime of minim_all, lines 313-374 (the test of lines 363-371 only prints) *)
Definition minim_one (p : Z) (locsol : bool) (s : st) (I J : Z) : res (st * Z * Z) :=
  let smallp := if p =? 2 then 2 else if p =? 3 then 3 else 1 in
  vpi <- (if I =? 0 then Ok 1000 else val_z p I) ;;
  vpj <- (if J =? 0 then Ok 1000 else val_z p J) ;;
  vpd <- (if smallp =? 3 then val_z p (4 * I * (I * I) - J * J) else Ok 0) ;;
  min_loop (S (Z.to_nat vpi)) p smallp locsol (is_nonmin smallp vpi vpj vpd locsol) s I J vpi vpj vpd.

(** minim_all, lines 307-376 *)
Fixpoint minim_all (plist : list Z) (locsol : bool) (s : st) (I J : Z) : res (st * Z * Z) :=
  match plist with
  | [] => Ok (s, I, J)
  | p :: ps => '(s, I, J) <- minim_one p locsol s I J ;; minim_all ps locsol s I J
  end.

End M.
