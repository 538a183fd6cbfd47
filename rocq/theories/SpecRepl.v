(** Vocabulary for REPL sessions (C41-C43, C51). *)
From Coq Require Import ZArith List String Bool Permutation.
From Verif Require Import Base Num ModelPitch ModelDuration ModelInstruments ModelTypes ModelLisp
  ModelScore ModelOsc ModelRepl SpecScore SpecVars SpecParts SpecSolo SpecTiming SpecGlobals SpecOsc.
Import ListNotations.
Local Open Scope string_scope.
Local Open Scope list_scope.

Section SpecRepl.
Context {N : Num}.
Variable compile : string -> res (list update).

Definition asks (op : string) (r : request) : Prop := field "op" r = Some (Some op).
Definition asks_with (op code : string) (r : request) : Prop := asks op r /\ field "code" r = Some (Some code).

(** The answers of an exchange say that all went well, or that something went wrong. *)
Definition went_well (h : exchange) : Prop := map r_status (h_answers h) = [["done"]].
Definition went_wrong (h : exchange) : Prop := exists problems, map (fun a => (r_status a, r_problems a)) (h_answers h) = [(["done"; "error"], problems)].

(** A line of the session's text. *)
Definition line (code : string) : string := (trim code ++ newline)%string.
(** The text that a request, all going well, turns a text into. *)
Definition edits (r : request) (text : string) : string :=
  match field "op" r, field "code" r with
  | Some (Some "eval-and-play"), Some (Some code) => (text ++ line code)%string
  | Some (Some "load"), Some (Some code) => line code
  | Some (Some "new-score"), _ => ""
  | Some (Some "replay"), _ => line text
  | Some (Some "export"), _ => line text
  | _, _ => text
  end.

(** Evaluating [code] in this state gives an error. *)
Definition rejects (sv : server) (code : string) : Prop :=
  (exists m, compile code = RErr m) \/
  (exists us s m, compile code = ROk us /\ exec us (sv_score sv) = (s, Err m)).
(** The requests that only ask, or make no sense. *)
Definition harmless (r : request) : Prop :=
  (match field "op" r with Some (Some _) => False | _ => True end) \/
  (exists op, asks op r /\ ~ In op ["eval-and-play"; "export"; "load"; "new-score"; "replay"]) \/
  ((asks "eval-and-play" r \/ asks "load" r) /\ match field "code" r with Some (Some _) => False | _ => True end).

(** The requests of a log that went well. *)
Definition successful (h : exchange) : bool :=
  match h_answers h with [a] => match r_status a with [x] => String.eqb x "done" | _ => false end | _ => false end.
(** All went well, or it was an input that does not evaluate, or a request that only asks. *)
Definition ordinary (h : exchange) : Prop :=
  went_well h \/ (exists code, asks_with "eval-and-play" code (h_request h) /\ rejects (h_before h) code) \/ harmless (h_request h).

(** The notes of an exchange were sent: in one bundle, each once, relative to the
    offsets the parts had before; or nothing was sent. *)
Definition delivers (h : exchange) (batch : list note_event) : Prop :=
  (went_well h /\ exists b, h_sent h = [b] /\
     Permutation (filter is_note b) (map (note_message (sv_score (h_after h)) n0 (part_offsets (sv_score (h_before h)))) batch)) \/
  (went_wrong h /\ h_sent h = [] /\ batch = []).
(** An input that was evaluated and sent, or was not accepted. *)
Definition input_exchange (h : exchange) : Prop :=
  exists code, asks_with "eval-and-play" code (h_request h) /\ (went_well h \/ rejects (h_before h) code).
Definition ends_well (log : list exchange) : Prop := forall log' h, log = log' ++ [h] -> went_well h.

(** The same score but for the order of its events (sorting them for a
    transmission happens in place). *)
Definition same_music (s t : score) : Prop := t = set_events (events t) s /\ Permutation (events s) (events t).

(** The same session but for what the shared describe response holds. *)
Definition same_session (a b : server) : Prop :=
  sv_input a = sv_input b /\ sv_score a = sv_score b /\ sv_index a = sv_index b.

(** How many notes each exchange sent, and which went well. *)
Definition notes_sent (log : list exchange) : list nat :=
  map (fun h => List.length (filter is_note (List.concat (h_sent h)))) log.
Definition all_well (log : list exchange) : list bool := map successful log.
End SpecRepl.
