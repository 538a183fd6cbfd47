(** C70: what users can expect of `alda import`. *)
From Coq Require Import String ZArith List Bool Permutation.
From Verif Require Import Base Num ModelPitch ModelDuration ModelInstruments ModelTypes ModelLisp ModelScan ModelParser SpecParser ModelAst ModelFormat SpecFormat ModelScore ModelImporter ModelMusicXml
  SpecScore SpecImporter SpecXmlScore SpecWritten ModelImportCommand.
Import ListNotations.
Local Open Scope string_scope.
Local Open Scope list_scope.
Local Open Scope Z_scope.

(** The data that is given to a run: a readable file; else, without a file, a text;
    else, without both, what is piped in. *)
Definition given (g : import_flags) (v : import_env) (b : list rune) : Prop :=
  (m_file g <> "" /\ v_reads v (m_file g) = true /\ v_files v (m_file g) = Some b) \/
  (m_file g = "" /\ m_code g = b /\ b <> []) \/
  (m_file g = "" /\ m_code g = [] /\ v_stdin v = Some b).
(** The files in the end. *)
Definition in_the_end (v : import_env) (r : import_run) : files := last (n_states r) (v_files v).
(** A text that plays certain notes. *)
Definition text_plays (t : list rune) (l : list (string * Z * xq * xq)) : Prop :=
  exists us, compile (N := XQ) t = ROk us /\ snd (exec us new_score) = Ok /\
    Permutation (map (as_heard (fst (exec us new_score))) (events (fst (exec us new_score)))) l.
(** Updates that C69 is about. *)
Definition writable (fmt : xq -> list rune) (us : list update) : Prop :=
  exists ps : list (@wpart XQ), us = score_updates ps /\ Forall (plain_part fmt) ps /\ Forall in_range us.
