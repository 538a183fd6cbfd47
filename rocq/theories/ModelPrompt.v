(** Model of questions (client/text/interaction.go). *)
From Coq Require Import String Ascii ZArith List Bool.
From Verif Require Import Base ModelScan ModelBox ModelUpdate.
Import ListNotations.
Local Open Scope string_scope.
Local Open Scope list_scope.
Local Open Scope Z_scope.

Section Prompt.
(** unicode.IsSpace and unicode.ToLower outside ASCII (interaction.go:26 through the strings package). *)
Variable other_blank : rune -> bool.
Variable other_lower : rune -> rune.

Definition is_blank (r : rune) : bool := if r <? 128 then (r =? 32) || ((9 <=? r) && (r <=? 13)) else other_blank r.
Definition lower (r : rune) : rune := if r <? 128 then (if (65 <=? r) && (r <=? 90) then r + 32 else r) else other_lower r.
Fixpoint drop_blanks (t : list rune) : list rune := match t with [] => [] | r :: t' => if is_blank r then drop_blanks t' else t end.
(** strings.TrimSpace (interaction.go:26). *)
Definition trim_space (t : list rune) : list rune := rev (drop_blanks (rev (drop_blanks t))).

(** interaction.go:26-33: what one line is taken for. *)
Definition reply (default : bool) (line : list rune) : option bool :=
  let w := map lower (trim_space line) in
  let is_ (s : string) := if list_eq_dec Z.eq_dec w (runes s) then true else false in
  if is_ "" then Some default
  else if is_ "y" || is_ "yes" then Some true
  else if is_ "n" || is_ "no" then Some false
  else None.

(** How a question ends: with an answer, or with a crash. *)
Inductive ending := Answered (b : bool) | Crashed.
Fixpoint ask_lines (default : bool) (lines : list (list rune)) : ending :=
  match lines with
  | [] => Crashed
  | l :: t => match reply default l with Some b => Answered b | None => ask_lines default t end
  end.
(** interaction.go:10-35, PromptForConfirmation; what is printed is left out. ReadString gives an error for what
    follows the last newline. *)
Definition ask (default : bool) (input : list rune) : ending := ask_lines default (removelast (split_lines input)).
(** update.go:465-484 promptAndInstallVersion and 385-397 installVersion, up to the
    assets to download and install, with the question and what is typed. *)
Definition prompt_and_install (platform : string) (assume_yes : bool) (input : list rune) (release : option json) : res (list asset) :=
  if assume_yes then install_version platform true release
  else match ask true input with
       | Answered b => install_version platform b release
       | Crashed => RPanic "EOF"
       end.
End Prompt.
