(** C67: what users can expect of `alda format`. *)
From Coq Require Import ZArith List Bool.
From Verif Require Import Base Num ModelScan SpecScan ModelParser SpecParser ModelFormat SpecFormat ModelFormatCommand.
Import ListNotations.
Local Open Scope Z_scope.

Section Spec.
Context {N : Num}.
(** A score that C46 is about. *)
Definition formattable (fmt : num -> list rune) (text : list rune) : Prop :=
  exists a, parse text = Parsed a /\ (forall ts, scan text = Scanned ts -> ~ zero_before_bar ts) /\
    everywhere (number_printed fmt) a /\ everywhere (fun n => ~ slurred_at_bar n) a.
(** Sensible flags: a line width that is not negative and blanks to indent with. *)
Definition sensible (g : flags) : Prop := 0 <= g_wrap g /\ blank_text (g_indent g).
(** The layout that is asked for: lines of 80 characters and two spaces unless given. *)
Definition asked_layout (g : flags) : config :=
  Config (if g_wrap g =? 0 then 80 else g_wrap g) (if (length (g_indent g) =? 0)%nat then [32; 32] else g_indent g).
(** What the file contains in the end. *)
Definition final (r : run) : list rune := last (r_contents r) [].
End Spec.
