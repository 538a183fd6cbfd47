(** Vocabulary for updating (C62). *)
From Coq Require Import ZArith Ascii String List Bool Arith.
From Verif Require Import Base ModelUpdate.
Import ListNotations.
Local Open Scope string_scope.
Local Open Scope list_scope.

(** A number in decimal. *)
Definition decimal_number (s : string) : Prop := s <> "" /\ Forall (fun c => In c (list_ascii_of_string "0123456789")) (list_ascii_of_string s).
(** The programs Alda consists of. *)
Definition programs : list string := ["alda"; "alda-player"; "alda.exe"; "alda-player.exe"].
(** A name with that of an old program in it. *)
Definition mentions_old (name : string) : Prop := exists before p time random after,
  In p programs /\ decimal_number time /\ decimal_number random /\ name = (before ++ (p ++ "." ++ time ++ "." ++ random ++ ".old") ++ after)%string.

(** A release: different files, all of them Alda's programs. *)
Definition release_of_alda (assets : list asset) : Prop := NoDup (map a_name assets) /\ Forall (fun a => In (a_name a) programs) assets.

Section SpecUpdate.
Variable served : string -> list Z.
(** Anything that can have happened to the directory since `alda update` began. *)
Definition happens windows (d : dir) (assets : list asset) (cs : list choice) (m : machine) : Prop :=
  acts served assets cs (begins windows d assets) = Some m.
(** Nothing is left to do, and nothing has failed. *)
Definition succeeded (m : machine) : Prop := m_todo m = [] /\ m_failed m = false.
(** Other `alda` commands. *)
Definition cleaning (c : choice) : Prop := match c with Lists | Cleans _ _ => True | _ => False end.
(** The file is (the beginning of) the new version; it can only be executed if it is all of it. *)
Definition becoming windows (a : asset) (f : file) : Prop :=
  (exists n, f_bytes f = firstn n (served (a_url a))) /\ (f_exec f = true -> windows = false /\ f_bytes f = served (a_url a)).
End SpecUpdate.
(** One `alda` process cleans up, from listing the directory to the last file. *)
Definition cleanup (m : machine) : list choice :=
  Lists :: repeat (Cleans (List.length (m_cleaning m)) true) (List.length (filter is_renamed (map fst (m_dir m)))).
