(** C83: 2- and 3-isogenous curves *)
From Coq Require Import ZArith Lia List Bool Sorted.
From mathcomp Require ssreflect fintype ssralg.
From Verif Require Import Base CurveModel CurveProofs MinimalProofs GroupLaw CoordRing PointsModel PointsProofs PointsGroup TorsModel TorsProofs IsogModel IsogSpec IsogProofs IsogField PropertiesTors.
Import ListNotations.
Open Scope Z_scope.
Local Notation TWOISOG r p E f := (twoisog r p E (sb2 E) (sb4 E) (sb6 E) f).
Local Notation THREEISOG r p E := (threeisog r p E (sb2 E) (sb4 E) (sb6 E) (sb8 E)).

(** [rational_isogeny E E' x0 Ker]: one map with coefficients in Q is, over every field of
    characteristic 0, a homomorphism from E to E' with kernel Ker.
    twoisog: one minimal curve for each rational point T of order 2, with kernel {O,T} *)
Theorem C83_twoisog introots pdivs E : introots_right introots -> pdivs_spec pdivs -> sdisc E <> 0 ->
  Z.odd (a1 E) = true \/ Z.odd (a3 E) = true \/ a1 E = 0 /\ a3 E = 0 ->
  exists f0, forall fuel, (f0 <= fuel)%nat -> exists Ts l, TWOISOG introots pdivs E fuel = Ok l /\ tors_list E (pt_order E 2) Ts /\
    Forall2 (fun T E' => minimal E' /\ normal E' /\
      rational_isogeny E E' (pX T, pZ T) (fun F P => P = Inf \/ P = Aff (fq F (pX T, pZ T)) (fq F (pY T, pZ T)))) Ts l.
Proof.
  intros IR PD HD O. destruct (twoisog_ok E HD pdivs PD introots IR O) as (f0 & H). exists f0. intros fuel Hf. destruct (H fuel Hf) as (Ts & l & El & TL & FA).
  exists Ts, l. split; [exact El|]. split; [exact TL|]. clear - FA HD. induction FA as [|T E' Ts l (xi & NZ & V & Hx & RT & U & r & s & v & HU & CA & MI & NO) _ IH]; constructor; [|exact IH].
  split; [exact MI|]. split; [exact NO|]. exists (3 * xi * xi + 2 * sb2 E * xi + 8 * sb4 E, 16), (U, 2), (r, 4), (s, 2), (v, 8). cbn [fst snd].
  repeat (split; [lia|]). intros F C0. exact (two_F C0 HD HU RT CA NZ V Hx).
Qed.
(** the models which CurveRed holds *)
Theorem C83_reduced_model E : normal E -> Z.odd (a1 E) = true \/ Z.odd (a3 E) = true \/ a1 E = 0 /\ a3 E = 0.
Proof. intros ([->| ->] & [->| ->] & _); auto. Qed.

(** threeisog: one minimal curve for each subgroup {O,T,-T} of order 3 with rational
    abscissa x(T) = xi/3; over every field of characteristic 0 these are all of them *)
Theorem C83_threeisog introots pdivs E : introots_right introots -> pdivs_spec pdivs -> sdisc E <> 0 ->
  exists xs l, THREEISOG introots pdivs E = Ok l /\ StronglySorted Z.lt xs /\
    Forall2 (fun xi E' => minimal E' /\ normal E' /\ rational_isogeny E E' (xi, 3) (fun F P => P = Inf \/ exists y, P = Aff (fq F (xi, 3)) y)) xs l /\
    (forall F xi y, char0 F -> In xi xs -> let T := Aff (fq F (xi, 3)) y in on_F F E T ->
       add_F F E T T = neg_F F E T /\ neg_F F E T <> T /\ forall y', on_F F E (Aff (fq F (xi, 3)) y') -> Aff (fq F (xi, 3)) y' = T \/ Aff (fq F (xi, 3)) y' = neg_F F E T) /\
    (forall F n d y, char0 F -> d <> 0 -> let T := Aff (fq F (n, d)) y in on_F F E T -> add_F F E T T = neg_F F E T ->
       exists xi, In xi xs /\ fq F (n, d) = fq F (xi, 3)).
Proof.
  intros IR PD HD. destruct (threeisog_ok E HD pdivs PD introots IR) as (xs & l & El & S & I & FA). exists xs, l. split; [exact El|]. split; [exact S|]. split; [|split].
  - clear - FA HD. induction FA as [|xi E' xs l (RT & U & r & s & v & HU & CA & MI & NO) _ IH]; constructor; [|exact IH].
    split; [exact MI|]. split; [exact NO|]. exists ((2 * xi + sb2 E) * xi + 3 * sb4 E, 3), (U, 3), (r, 9), (s, 3), (v, 27). cbn [fst snd].
    repeat (split; [lia|]). intros F C0. exact (three_F C0 HD HU RT CA).
  - intros F xi y C0 Ix T ON. exact (three_ker C0 HD (proj1 (I xi) Ix) ON).
  - intros F n d y C0 Hd T ON H. destruct (three_all C0 Hd ON H) as (xi & RT & Q). exists xi. split; [now apply I|exact Q].
Qed.

(** 14a1 (one 2-isogeny, two 3-isogenies) and 15a1 (three 2-isogenies) *)
Definition e14 := Cv 1 0 1 4 (-6).
Definition e15 := Cv 1 1 1 (-10) (-10).
Definition few (_ : Z) : list Z := [2; 3; 5; 7].
Example C83_ex : introots_right bf_introots /\ (exists pdivs, pdivs_spec pdivs) /\ (exists F, char0 F) /\
  (sdisc e14 <> 0 /\ Z.odd (a1 e14) = true /\ sdisc e15 <> 0 /\ Z.odd (a1 e15) = true) /\
  TWOISOG bf_introots few e14 10 = Ok [Cv 1 0 1 (-36) (-70)] /\
  THREEISOG bf_introots few e14 = Ok [Cv 1 0 1 (-1) 0; Cv 1 0 1 (-171) (-874)] /\
  TWOISOG bf_introots few e15 10 = Ok [Cv 1 1 1 35 (-28); Cv 1 1 1 (-135) (-660); Cv 1 1 1 (-5) 2].
Proof.
  split; [exact bf_introots_ok|]. split; [exact pdivs_exists|]. split; [eexists; exact char0_rat|].
  split; [split; [vm_compute; discriminate|]; split; [reflexivity|]; split; [vm_compute; discriminate|reflexivity]|].
  split; [vm_compute; reflexivity|]. split; [vm_compute; reflexivity|]. vm_compute; reflexivity.
Qed.
Print Assumptions C83_twoisog.
Print Assumptions C83_reduced_model.
Print Assumptions C83_threeisog.
