(** What the arguments of a command mean; independent of the model. *)
From Coq Require Import ZArith List.
Import ListNotations.
Open Scope Z_scope.

(** how arguments which are not options are treated *)
Inductive mode := Stop | Collect | Report.
(** c is an option letter of the string, without argument, with one, or with an optional one *)
Inductive kind := Plain | Required | Optional.
Definition okind (opts : list Z) (c : Z) (k : kind) : Prop :=
  c <> 58 /\ exists pre post, opts = pre ++ c :: post /\ ~ In c pre /\
  match k with
  | Plain => match post with 58 :: _ => False | _ => True end
  | Required => match post with 58 :: 58 :: _ => False | 58 :: _ => True | _ => False end
  | Optional => match post with 58 :: 58 :: _ => True | _ => False end
  end.
(** what is told to the caller: a letter, or a letter with an argument *)
Inductive event := Letter (c : Z) | WithArg (c : Z) (a : option (list Z)).
Definition told (e : event) (r : Z * option (list Z)) : Prop := match e with Letter c => fst r = c | WithArg c a => r = (c, a) end.
Definition isoption (s : list Z) : Prop := exists c t, s = 45 :: c :: t.
(** args gives the events evs and is divided into opn, which belong to options, and the
    operands rst; with Some s, the letters s of an option element are still to be read *)
Inductive parses (md : mode) (opts : list Z) : option (list Z) -> list (list Z) -> list event -> list (list Z) -> list (list Z) -> Prop :=
| ps_nil : parses md opts None [] [] [] []
| ps_dash l : parses md opts None ([45; 45] :: l) [] [[45; 45]] l
| ps_stop s l : md = Stop -> ~ isoption s -> parses md opts None (s :: l) [] [] (s :: l)
| ps_operand s l e o r : md = Collect -> ~ isoption s -> parses md opts None l e o r -> parses md opts None (s :: l) e o (s :: r)
| ps_report s l e o r : md = Report -> ~ isoption s -> parses md opts None l e o r -> parses md opts None (s :: l) (WithArg 0 (Some s) :: e) (s :: o) r
| ps_option c t l e o r : c :: t <> [45] -> parses md opts (Some (c :: t)) l e o r -> parses md opts None ((45 :: c :: t) :: l) e ((45 :: c :: t) :: o) r
| ps_done l e o r : parses md opts None l e o r -> parses md opts (Some []) l e o r
| ps_unknown c t l e o r : (forall k, ~ okind opts c k) -> parses md opts (Some t) l e o r -> parses md opts (Some (c :: t)) l (Letter 63 :: e) o r
| ps_plain c t l e o r : okind opts c Plain -> parses md opts (Some t) l e o r -> parses md opts (Some (c :: t)) l (Letter c :: e) o r
| ps_inside c t l e o r : okind opts c Required \/ okind opts c Optional -> t <> [] -> parses md opts None l e o r -> parses md opts (Some (c :: t)) l (WithArg c (Some t) :: e) o r
| ps_absent c l e o r : okind opts c Optional -> parses md opts None l e o r -> parses md opts (Some [c]) l (WithArg c None :: e) o r
| ps_next c a l e o r : okind opts c Required -> parses md opts None l e o r -> parses md opts (Some [c]) (a :: l) (WithArg c (Some a) :: e) (a :: o) r
| ps_missing c e o r : okind opts c Required -> parses md opts None [] e o r -> parses md opts (Some [c]) [] (Letter 63 :: e) o r.
