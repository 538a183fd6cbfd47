(** Vocabulary for REPL client sessions (C57). *)
From Coq Require Import ZArith String Ascii List Bool.
From Verif Require Import Base Num ModelPitch ModelDuration ModelInstruments ModelTypes ModelLisp ModelScore ModelOsc ModelRepl ModelReplClient SpecRepl.
Import ListNotations.
Local Open Scope string_scope.
Local Open Scope list_scope.

Section SpecReplClient.
Context {N : Num}.
Variable split : string -> option (list string).

(** The request IDs of a session are all different. *)
Definition fresh_ids (es : list entry) : Prop := NoDup (flat_map n_ids es).

(** The one exchange of an entry. *)
Definition exchanged (e : entry) (h : exchange) : Prop := n_log e = [h].

(** A request with the fields [r], and possibly a session and an ID. *)
Definition request_for (r : request) (h : exchange) : Prop :=
  exists extra, h_request h = r ++ extra /\ Forall (fun x => In (fst x) ["session"; "id"]) extra.

(** The line of an entry is the command [name], for the file [f]: the one in its
    argument, or without argument the file remembered. *)
Definition command_for (name f : string) (e : entry) : Prop :=
  exists args, understand (n_line e) = Command name args /\
    (split args = Some [f] \/ split args = Some [] /\ f = c_file (w_client (n_before e)) /\ f <> "").

(** The file remembered after an entry: the last one named. *)
Definition remembers (e : entry) : string :=
  match understand (n_line e) with
  | Command name args =>
      if existsb (String.eqb name) ["load"; "save"] then match split args with Some [f] => f | _ => c_file (w_client (n_before e)) end
      else c_file (w_client (n_before e))
  | _ => c_file (w_client (n_before e))
  end.

Definition written (hs : list happening) (files : list (string * string)) : list (string * string) :=
  fold_left (fun fs x => match x with Wrote f t => aset String.eqb f t fs | _ => fs end) hs files.

(** The operation of each command (:score has one for each argument). *)
Definition operations : list (string * string) :=
  [("export", "export"); ("instruments", "instruments"); ("load", "load"); ("new", "new-score"); ("parts", "score-data"); ("play", "replay");
   ("save", "score-text"); ("score", "score-text"); ("score", "score-data"); ("score", "score-events"); ("score", "score-ast");
   ("stop", "stop"); ("version", "describe")].

(** Words without blanks. *)
Fixpoint no_blank (s : string) : bool :=
  match s with EmptyString => true | String c t => negb (Ascii.eqb c " ") && no_blank t end.

(** The server carried the request out and said so; the client prints an error. *)
Definition done_unnoticed (op : string) (e : entry) : Prop :=
  exists r h, n_happened e = [Asked r None; Error] /\ n_log e = [h] /\ asks op (h_request h) /\ went_well h.
(** One response has not been read. *)
Definition one_unread (e : entry) : Prop := List.length (w_unread (n_after e)) = 1%nat.
End SpecReplClient.
