(** Model of the prime table, libsrc/arith.cc lines 30-191 and eclib/arith.h lines 33-90.
    No proofs.

    While the table is built, memory is a function from indices to bytes together with the
    size of the block; an access outside is undefined.  Pointers are indices; the index r may
    pass the end of the block without being used, which is not counted as an error.  The
    finished table is a list of bytes. *)
From Coq Require Import ZArith List Bool.
From Verif Require Import Base RatModel LinModel.
Import ListNotations.
Open Scope Z_scope.
Open Scope res_scope.

Definition mem := Z -> Z.
Definition rd (sz : Z) (m : mem) (i : Z) : res Z := if (0 <=? i) && (i <? sz) then Ok (m i) else UB.
Definition wr (sz : Z) (m : mem) (i v : Z) : res mem := if (0 <=? i) && (i <? sz) then Ok (fun j => if j =? i then v else m j) else UB.
(** init, line 68: for(s=r;s<fin;s+=k) *s=1 *)
Definition sv_mark (sz fin k : Z) (m : mem) (r : Z) : res mem :=
  while (fun '(m, s) => if s <? fin then m <- wr sz m s 1 ;; Ok (inl (m, s + k)) else Ok (inr m)) 70 (m, r).
(** line 67: do {r+=k; k+=2; r+=k;} while ( *++q ) *)
Definition sv_next (sz : Z) (m : mem) (q r k : Z) : res (Z * Z * Z) :=
  while (fun '(q, r, k) => let r := r + k in let k := k + 2 in let r := r + k in let q := q + 1 in
           t <- rd sz m q ;; if t =? 0 then Ok (inr (q, r, k)) else Ok (inl (q, r, k))) 70 (q, r, k).
(** lines 65-69 *)
Definition sv_sieve (sz fin : Z) (m : mem) : res mem :=
  while (fun '(m, q, r, k) => if r <? fin then '(q, r, k) <- sv_next sz m q r k ;; m <- sv_mark sz fin k m r ;; Ok (inl (m, q, r, k)) else Ok (inr m)) 70 (m, 0, 0, 1).
(** line 73: do q++; while ( *q ) *)
Definition sv_skip (sz : Z) (m : mem) (q : Z) : res Z :=
  while (fun q => let q := q + 1 in t <- rd sz m q ;; if t =? 0 then Ok (inr q) else Ok (inl q)) 70 q.
(** lines 71-77; an unsigned char is written *)
Definition sv_pack (sz fin : Z) (m : mem) (r q s : Z) : res (mem * Z * Z) :=
  while (fun '(m, r, q, s) => q <- sv_skip sz m q ;;
           if fin <=? q then Ok (inr (m, r, s)) else m <- wr sz m r ((2 * (q - s)) mod 256) ;; Ok (inl (m, r + 1, q, q))) 70 (m, r, q, s).
(** class primeclass, arith.h lines 35-55 *)
Record ptab := Pt { pt_d : list Z; pt_n : Z; pt_big : Z; pt_a : nat; pt_i : Z; pt_v : Z }.
(** init, lines 54-91 *)
Definition pt_init (maxnum : Z) : res ptab :=
  t <- add64 maxnum 257 ;;
  let size := Z.shiftr t 1 in
  if size + 1 <? 0 then Die
  else
    m <- sv_sieve (size + 1) size (fun _ => 0) ;;
    m <- wr (size + 1) m 0 2 ;; m <- wr (size + 1) m 1 1 ;;
    '(m, r, s) <- sv_pack (size + 1) size m 2 1 1 ;;
    m <- wr (size + 1) m r 0 ;;
    Ok (Pt (map (fun i => m (Z.of_nat i)) (seq 0 (Z.to_nat (r + 1)))) r (2 * s + 1) 0 0 0).
(** reset, line 98; advance, lines 100-105 *)
Definition pt_reset (t : ptab) : ptab := Pt (pt_d t) (pt_n t) (pt_big t) 0 0 0.
Definition pt_adv (t : ptab) : res (bool * ptab) :=
  d <- deref (pt_d t) (pt_a t) ;;
  if d =? 0 then Ok (false, t) else Ok (true, Pt (pt_d t) (pt_n t) (pt_big t) (pt_a t + 1) (pt_i t + 1) (pt_v t + d)).
(** number, lines 107-123 *)
Definition pt_number (t : ptab) (n : Z) : res (Z * ptab) :=
  let t := if n <? pt_i t then pt_reset t else t in
  t <- while (fun '(t, ok) => if (pt_i t <? n) && (ok : bool) then '(ok, t) <- pt_adv t ;; Ok (inl (t, ok)) else Ok (inr t)) 70 (t, true) ;;
  Ok (pt_v t, t).
(** getfirst, lines 125-141 *)
Definition pt_first (t : ptab) (n : Z) : res (list Z * ptab) :=
  '(ans, t) <- while (fun '(i, ok, ans, t) => if (i <? n) && (ok : bool) then '(ok, t) <- pt_adv t ;; Ok (inl (i + 1, ok, ans ++ [pt_v t], t)) else Ok (inr (ans, t))) 70 (0, true, [], pt_reset t) ;;
  Ok (ans, t).
(** class primevar, arith.h lines 67-90; pv_new(max,i) *)
Record pvar := Pv { pv_v : Z; pv_i : Z; pv_a : nat; pv_max : Z }.
Definition pv_new (t : ptab) (max i : Z) : res (pvar * ptab) :=
  '(v, t) <- pt_number t i ;; if i <? 0 then UB else Ok (Pv v i (Z.to_nat i) max, t).
Definition pv_next (t : ptab) (v : pvar) : res pvar :=
  i <- add64 (pv_i v) 1 ;;
  if pv_i v <=? pv_max v then d <- deref (pt_d t) (pv_a v) ;; Ok (Pv (pv_v v + d) i (pv_a v + 1) (pv_max v)) else Ok (Pv (pv_v v) i (pv_a v) (pv_max v)).
Definition pv_ok (v : pvar) : bool := pv_i v <=? pv_max v.
(** prime_pi, lines 144-150; ip is an int *)
Definition pt_pi (t : ptab) (p : Z) : res Z :=
  '(v, t) <- pv_new t (pt_n t) 1 ;;
  while (fun '(v, ip) => if pv_v v <? p then v <- pv_next t v ;; ip <- add32 ip 1 ;; Ok (inl (v, ip)) else Ok (inr ip)) 70 (v, 0).
(** primdiv, lines 153-168 *)
Definition pt_primdiv (t : ptab) (aa : Z) : res Z :=
  '(v, t) <- pv_new t (pt_n t) 1 ;;
  a <- abs64 aa ;;
  p <- while (fun '(v, p) => if pv_ok v && (p =? 0) then
                let q := pv_v v in v <- pv_next t v ;; r <- rem64 a q ;;
                if r =? 0 then Ok (inl (v, q)) else qq <- mul64 q q ;; Ok (inl (v, if a <? qq then a else p))
              else Ok (inr p)) 70 (v, 0) ;;
  Ok (if p =? 0 then a else p).
(** pdivs, lines 171-191 *)
Definition pt_divout (a p : Z) : res Z :=
  while (fun a => r <- rem64 a p ;; if r =? 0 then q <- quot64 a p ;; Ok (inl q) else Ok (inr a)) 70 a.
Definition pt_pdivs (t : ptab) (aa : Z) : res (list Z) :=
  '(v, t) <- pv_new t (pt_n t) 1 ;;
  a <- abs64 aa ;;
  '(a, l) <- while (fun '(v, a, l) => if (1 <? a) && pv_ok v then
                let p := pv_v v in v <- pv_next t v ;; r <- rem64 a p ;;
                if r =? 0 then a <- pt_divout a p ;; Ok (inl (v, a, l ++ [p]))
                else pp <- mul64 p p ;; if a <? pp then Ok (inl (v, 1, l ++ [a])) else Ok (inl (v, a, l))
              else Ok (inr (a, l))) 70 (v, a, []) ;;
  Ok (if 1 <? a then l ++ [a] else l).
