(** Model of how the version of the player is found out (client/system/process_management.go). *)
From Coq Require Import String Ascii ZArith List Bool.
From Verif Require Import Base ModelScan ModelDoctor.
Import ListNotations.
Local Open Scope string_scope.
Local Open Scope list_scope.
Local Open Scope Z_scope.

(** process_management.go:480, [^\r\n]. *)
Definition in_line (r : rune) : bool := negb ((r =? 13) || (r =? 10)).
Fixpoint after_word (w t : list rune) : option (list rune) :=
  match w, t with
  | [], _ => Some t
  | a :: w', b :: t' => if a =? b then after_word w' t' else None
  | _ :: _, [] => None
  end.
Fixpoint line_rest (t : list rune) : list rune := match t with r :: t' => if in_line r then r :: line_rest t' else [] | [] => [] end.
(** :480-488: the leftmost match of the regular expression; + takes as much as it can. *)
Definition version_here (t : list rune) : option (list rune) :=
  match after_word (runes "alda-player ") t with
  | Some rest => match line_rest rest with [] => None | v => Some v end
  | None => None
  end.
Fixpoint player_version (t : list rune) : option (list rune) :=
  match version_here t with
  | Some v => Some v
  | None => match t with [] => None | _ :: t' => player_version t' end
  end.
(** :464-499, AldaPlayerPath. [on_path]: LookPath succeeds; [info]: what `alda-player info`
    prints, if it succeeds. *)
Definition alda_player_path (client_version : list rune) (on_path : bool) (info : option (list rune)) : finding :=
  if on_path then
    match info with
    | Some out => match player_version out with
                  | Some v => Found (if list_eq_dec Z.eq_dec v client_version then true else false)
                  | None => Failed
                  end
    | None => Failed
    end
  else NotFound.
