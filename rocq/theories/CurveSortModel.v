(** Isogeny class codes and the permutations of the printed tables: libsrc/curvesort.cc lines 28-291.
    Characters are their ASCII codes; int has 32 bits and overflow is undefined. *)
From Coq Require Import ZArith List Bool.
From Verif Require Import Base.
Import ListNotations.
Open Scope Z_scope.
Open Scope res_scope.

Definition int_chk (n : Z) : res Z := if (- 2 ^ 31 <=? n) && (n <? 2 ^ 31) then Ok n else UB.

(** codeletter_to_int, lines 266-271 *)
Fixpoint code_loop (n : Z) (code : list Z) : res Z :=
  match code with
  | [] => Ok n
  | c :: code => n <- int_chk (n * 26) ;; n <- int_chk (n + (c - 97)) ;; code_loop n code
  end.
Definition codeletter_to_int (code : list Z) : res Z := code_loop 0 code.

(** alphabet[r], curvesort.h line 37: 26 letters and the final 0 *)
Definition alphabet (r : Z) : res Z :=
  if (0 <=? r) && (r <? 26) then Ok (97 + r) else if r =? 26 then Ok 0 else UB.
(** the while loop of new_codeletter, lines 281-286; div truncates; the fuel bounds the number of rounds *)
Fixpoint letters_loop (fuel : nat) (n : Z) : res (list Z) :=
  if n =? 0 then Ok []
  else match fuel with
       | O => OutOfFuel
       | S fuel => c <- alphabet (Z.rem n 26) ;; l <- letters_loop fuel (Z.quot n 26) ;; Ok (c :: l)
       end.
(** new_codeletter, lines 275-290 (codeletter of curvesort.h line 54) *)
Definition new_codeletter (i : Z) : res (list Z) :=
  if i =? 0 then Ok [97]
  else l <- letters_loop (S (Z.to_nat (Z.log2 (Z.abs i)))) i ;; Ok (rev l).

(** the arrays of lines 28-97 with the levels that use them, lines 104-249 *)
Definition book_table : list (Z * list Z) :=
  [(56, [1; 0]);
   (77, [0; 2; 1]);
   (84, [1; 0]);
   (99, [0; 2; 1; 3]);
   (102, [0; 2; 1]);
   (106, [3; 0; 2; 1]);
   (110, [2; 1; 0]);
   (114, [2; 0; 1]);
   (116, [2; 0; 1]);
   (118, [0; 2; 3; 1]);
   (120, [1; 0]);
   (121, [2; 0; 1; 3]);
   (123, [1; 0]);
   (124, [1; 0]);
   (126, [1; 0]);
   (128, [0; 3; 2; 1]);
   (130, [0; 2; 1]);
   (132, [1; 0]);
   (136, [1; 0]);
   (140, [1; 0]);
   (141, [4; 1; 2; 0; 3]);
   (142, [4; 0; 1; 3; 2]);
   (144, [1; 0]);
   (147, [0; 2; 1]);
   (150, [2; 0; 1]);
   (153, [0; 3; 2; 1]);
   (154, [0; 2; 1]);
   (155, [2; 1; 0]);
   (158, [4; 0; 2; 1; 3]);
   (162, [0; 2; 1; 3]);
   (168, [1; 0]);
   (170, [3; 0; 4; 2; 1]);
   (171, [0; 3; 1; 2]);
   (174, [2; 4; 3; 1; 0]);
   (175, [2; 0; 1]);
   (178, [1; 0]);
   (182, [2; 4; 0; 3; 1]);
   (184, [3; 0; 1; 2]);
   (185, [1; 2; 0]);
   (186, [0; 2; 1]);
   (187, [1; 0]);
   (189, [0; 3; 1; 2]);
   (190, [1; 0; 2]);
   (192, [0; 2; 1; 3]);
   (195, [2; 3; 1; 0]);
   (196, [1; 0]);
   (198, [2; 4; 3; 0; 1]);
   (200, [1; 4; 2; 0; 3]);
   (201, [1; 2; 0]);
   (203, [1; 2; 0]);
   (205, [2; 0; 1]);
   (208, [3; 0; 1; 2]);
   (210, [3; 1; 2; 0; 4]);
   (212, [1; 0]);
   (214, [3; 1; 0; 2]);
   (219, [1; 2; 0]);
   (221, [1; 0]);
   (222, [4; 3; 0; 2; 1]);
   (234, [1; 2; 0; 3; 4]);
   (235, [2; 0; 1]);
   (236, [1; 0]);
   (238, [3; 0; 4; 2; 1]);
   (240, [1; 2; 0; 3]);
   (242, [1; 0]);
   (245, [2; 0; 1]);
   (246, [4; 5; 2; 0; 6; 3; 1]);
   (249, [1; 0]);
   (252, [1; 0]);
   (254, [3; 2; 0; 1]);
   (256, [1; 0; 2; 3]);
   (262, [1; 0]);
   (264, [3; 0; 1; 2]);
   (267, [1; 0]);
   (270, [1; 2; 3; 0]);
   (272, [0; 3; 1; 2]);
   (274, [2; 1; 0]);
   (278, [1; 0]);
   (285, [2; 0; 1]);
   (286, [1; 3; 0; 4; 2; 5]);
   (288, [0; 4; 2; 1; 3]);
   (291, [3; 1; 0; 2]);
   (294, [4; 5; 6; 2; 0; 1; 3]);
   (297, [3; 0; 2; 1]);
   (298, [1; 0]);
   (300, [0; 2; 3; 1]);
   (302, [1; 0; 2]);
   (304, [4; 2; 0; 1; 3; 5]);
   (306, [2; 1; 0; 3]);
   (312, [2; 0; 5; 1; 3; 4]);
   (315, [1; 0]);
   (318, [3; 2; 0; 4; 1]);
   (320, [4; 0; 1; 2; 3; 5]);
   (322, [1; 0; 3; 2]);
   (324, [0; 1; 3; 2]);
   (325, [4; 0; 1; 3; 2]);
   (326, [0; 2; 1]);
   (330, [0; 4; 3; 2; 1]);
   (333, [3; 0; 1; 2]);
   (336, [2; 0; 1; 4; 3; 5]);
   (338, [0; 3; 4; 2; 5; 1]);
   (339, [1; 0; 2]);
   (342, [5; 6; 3; 4; 0; 1; 2]);
   (345, [0; 4; 2; 3; 1; 5]);
   (348, [1; 3; 0; 2]);
   (350, [1; 5; 0; 3; 2; 4]);
   (352, [2; 4; 0; 1; 3; 5]);
   (354, [3; 2; 0; 1; 4; 5]);
   (360, [1; 2; 0; 4; 3]);
   (364, [1; 0]);
   (366, [5; 6; 1; 3; 0; 2; 4]);
   (368, [0; 4; 3; 1; 6; 5; 2]);
   (369, [1; 0]);
   (370, [0; 2; 1; 3]);
   (372, [0; 2; 3; 1]);
   (378, [6; 1; 4; 0; 7; 3; 5; 2]);
   (380, [1; 0]);
   (381, [1; 0]);
   (384, [1; 4; 2; 0; 3; 5; 6; 7]);
   (387, [2; 0; 1; 3; 4]);
   (390, [0; 5; 6; 3; 4; 1; 2]);
   (392, [4; 1; 0; 2; 3; 5]);
   (396, [1; 0; 2]);
   (400, [0; 5; 7; 2; 6; 3; 4; 1]);
   (402, [0; 1; 3; 2]);
   (404, [1; 0]);
   (405, [3; 0; 1; 5; 4; 2]);
   (406, [0; 2; 3; 1]);
   (408, [0; 3; 2; 1]);
   (410, [1; 3; 0; 2]);
   (414, [2; 3; 0; 1]);
   (418, [1; 0; 2]);
   (423, [4; 2; 5; 1; 3; 6; 0]);
   (425, [0; 3; 1; 2]);
   (426, [2; 0; 1]);
   (427, [1; 2; 0]);
   (432, [4; 6; 1; 0; 5; 7; 2; 3]);
   (434, [0; 4; 1; 3; 2]);
   (435, [1; 0; 2; 3]);
   (437, [1; 0]);
   (438, [5; 6; 0; 2; 1; 4; 3]);
   (440, [0; 3; 1; 2]);
   (441, [1; 0; 3; 4; 2; 5]);
   (442, [1; 4; 0; 2; 3]);
   (446, [0; 3; 2; 1]);
   (448, [0; 6; 1; 3; 4; 5; 7; 2]);
   (450, [5; 6; 3; 1; 4; 0; 2])].
Fixpoint book_find (level : Z) (t : list (Z * list Z)) : option (list Z) :=
  match t with
  | [] => None
  | (l, p) :: t => if l =? level then Some p else book_find level t
  end.
(** booknumber0, lines 99-254: reading outside the array is undefined *)
Definition booknumber0 (level form : Z) : res Z :=
  if level <? 56 then Ok form else if 450 <? level then Ok form
  else match book_find level book_table with
       | Some p => if form <? 0 then UB else match nth_error p (Z.to_nat form) with Some r => Ok r | None => UB end
       | None => Ok form
       end.
(** booknumber, lines 256-259 *)
Definition booknumber (level form : Z) : res Z := f <- int_chk (form - 1) ;; r <- booknumber0 level f ;; int_chk (1 + r).
