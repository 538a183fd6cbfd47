(** C73: what answers mean. *)
From Coq Require Import String Ascii ZArith List Bool.
From Verif Require Import Base ModelScan.
Import ListNotations.
Local Open Scope string_scope.
Local Open Scope list_scope.
Local Open Scope Z_scope.

Section Spec.
(** The blanks outside ASCII. *)
Variable other_blank : rune -> bool.
(** Tab, newline, vertical tab, form feed, carriage return, space. *)
Definition white (r : rune) : Prop := In r [9; 10; 11; 12; 13; 32] \/ (128 <= r /\ other_blank r = true).
(** A line that consists of a word in small or capital letters and blanks around it. *)
Definition says (line : list rune) (word : string) : Prop :=
  exists a m b, line = a ++ m ++ b /\ Forall white (a ++ b) /\ Forall2 (fun c x => c = x \/ c = x - 32) m (runes word).
(** The answer that a line gives to a question with a default answer. *)
Definition answers (default : bool) (line : list rune) (b : bool) : Prop :=
  (says line "" /\ b = default) \/ ((says line "y" \/ says line "yes") /\ b = true) \/ ((says line "n" \/ says line "no") /\ b = false).
(** No answer at all: the question is asked again. *)
Definition unclear (default : bool) (line : list rune) : Prop := forall b, ~ answers default line b.
End Spec.
(** What was typed begins with some lines and then another line, each ended by Enter. *)
Definition typed (input : list rune) (before : list (list rune)) (line : list rune) : Prop :=
  exists rest, input = concat (map (fun m => m ++ [10]) before) ++ line ++ 10 :: rest /\ Forall (fun m => ~ In 10 m) (line :: before).

