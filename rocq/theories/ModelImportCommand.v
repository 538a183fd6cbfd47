(** Model of `alda import` (client/cmd/import.go).

    Simplifications: files, the standard input and output are texts (the bytes of
    C58's UTF-8 encoding); different paths are different files; reading the XML
    (etree) is a parameter; a panic is an error; messages are left out. *)
From Coq Require Import String ZArith List Bool.
From Verif Require Import Base Num ModelPitch ModelDuration ModelInstruments ModelTypes ModelLisp ModelScan ModelParser ModelAst ModelFormat
  ModelScore ModelImporter ModelMusicXml ModelGen ModelFormatCommand.
Import ListNotations.
Local Open Scope string_scope.
Local Open Scope list_scope.
Local Open Scope Z_scope.

Definition files : Type := string -> option (list rune).
Definition put (fs : files) (p : string) (t : list rune) : files := fun q => if String.eqb q p then Some t else fs q.

(** import.go:15-35, the flags; an empty one is not given. *)
Record import_flags := ImportFlags { m_format : string; m_file : string; m_code : list rune; m_output : string }.

(** What the environment decides: the files, which of them can be read and be opened
    for writing, what is piped in (system/stdin.go:27-43), and, if writing fails, how
    much of the text is written. *)
Record import_env := ImportEnv { v_files : files; v_reads : string -> bool; v_opens : string -> bool; v_stdin : option (list rune); v_fails : option nat }.

(** What a run of the command does: all states of the files, in order, what is written
    to the standard output, and whether it succeeds. *)
Record import_run := ImportRun { n_states : list files; n_output : list rune; n_succeeds : bool }.

(** import.go:85-119: a file, or else a text, or else the standard input. *)
Definition import_source (g : import_flags) (v : import_env) : option (list rune) :=
  if negb (String.eqb (m_file g) "") then (if v_reads v (m_file g) then v_files v (m_file g) else None)
  else match m_code g with
       | [] => v_stdin v
       | t => Some t
       end.

Section ImportCommand.
Context {N : Num} {G : GNum N}.
Variable fmt : num -> list rune.
(** etree's ReadFromBytes: the top elements of the document, if it is one. *)
Variable xml : list rune -> option (list elem).
(** The importer's and the generator's parameters (ModelMusicXml, ModelGen). *)
Variable other : string -> num.
Variable part_order : nat -> list string -> list string.
Variable voice_order : nat -> list Z -> list Z.
Variable feq : num -> num -> bool.
Variable key_order : list ModelPitch.letter.

(** import.go:72-127 and importer.go:410-418: the tree. *)
Definition import_tree (g : import_flags) (v : import_env) : option node :=
  if negb (String.eqb (m_format g) "musicxml") then None
  else match import_source g v with
  | None => None
  | Some b =>
      match xml b with
      | None => None
      | Some doc =>
          match rbind (import_music_xml other part_order voice_order feq doc) (generate key_order) with
          | ROk a => Some a
          | _ => None
          end
      end
  end.

(** import.go:129-167: the file is opened, which makes or empties it, before the tree is
    formatted. *)
Definition import_command (g : import_flags) (v : import_env) : import_run :=
  let fs := v_files v in
  let d := Disk true true (v_fails v) in
  match import_tree g v with
  | None => ImportRun [fs] [] false
  | Some a =>
      if String.eqb (m_output g) "" then
        match format fmt default_config a with
        | Some t => ImportRun [fs] (firstn (written d t) t) (complete d)
        | None => ImportRun [fs] [] false
        end
      else if negb (v_opens v (m_output g)) then ImportRun [fs] [] false
      else
        let opened := [fs; put fs (m_output g) []] in
        match format fmt default_config a with
        | Some t => ImportRun (opened ++ map (put fs (m_output g)) (growing t (written d t))) [] (complete d)
        | None => ImportRun opened [] false
        end
  end.
End ImportCommand.
