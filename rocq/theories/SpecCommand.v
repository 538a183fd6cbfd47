(** C65: what the commands of the command line are meant to do. *)
From Coq Require Import ZArith String List Bool Ascii.
From Verif Require Import Base Num ModelPitch ModelDuration ModelInstruments ModelTypes ModelLisp ModelScan ModelAst ModelScore ModelOsc ModelPool ModelCommand.
Import ListNotations.
Local Open Scope string_scope.
Local Open Scope list_scope.
Local Open Scope Z_scope.

Section Spec.
Context {N : Num}.
Variable w : world.
Variable l : line.

(** The text that a command line gives: a file's, the code, what is piped in. *)
Inductive given : list rune -> Prop :=
| G_file t : l_file l <> "" -> w_read w (l_file l) = Some t -> given t
| G_code : l_file l = "" -> l_code l <> [] -> given (l_code l)
| G_piped t : l_file l = "" -> l_code l = [] -> w_stdin w = Piped t -> given t.
(** It gives none. *)
Definition no_text : Prop := l_file l = "" /\ l_code l = [] /\ w_stdin w = NoInput.

(** The score of a text. *)
Definition score_of (t : list rune) (s : score) : Prop := exists us, compile t = ROk us /\ exec us new_score = (s, Ok).
(** Scores are sent as C29-C34 say. *)
Definition transmitting : Prop := forall t s, exists s', transmits t s s' (w_bundle w t s).

(** Ports of players chosen by the options, if they choose. *)
Inductive chosen : Z -> Prop :=
| C_port : l_port l <> -1 -> chosen (l_port l)
| C_id ps p : l_port l = -1 -> l_id l <> "" -> w_states w = Some ps -> In p ps -> p_id p = l_id l -> chosen (p_port p).
Definition undecided : Prop := l_port l = -1 /\ l_id l = "".
(** A player that says it is available. *)
Definition available (p : player) : Prop := In (Some p) (w_first w :: w_later w).
(** Where a score is to be played. *)
Definition meant (port : Z) : Prop := chosen port \/ (undecided /\ exists p, available p /\ port = p_port p).
(** Whom a message without a score concerns: the chosen player, or else all that
    are of the kind. *)
Definition concerned (kind : player -> bool) (ports : list Z) : Prop :=
  (exists port, chosen port /\ ports = [port]) \/
  (undecided /\ exists ps, w_states w = Some ps /\ ports = map p_port (filter kind ps)).
Definition active (p : player) : bool := String.eqb (p_state p) "active".
Definition anyone (_ : player) : bool := true.

(** The packets sent, in order: to which port, what, and whether it was received. *)
Definition packets (acts : list action) : list (Z * list msg * bool) :=
  flat_map (fun a => match a with Sent port ms ok => [(port, ms, ok)] | _ => [] end) acts.
Definition received (acts : list action) : list (Z * list msg) :=
  flat_map (fun a => match a with Sent port ms true => [(port, ms)] | _ => [] end) acts.

(** A player writes the file it is told to, as seen from its own directory; a file
    that can be opened is that, perhaps not yet completely, or was there before. *)
Definition writes (before : string -> option (list ascii)) (dir name : string) (midi : list ascii) : Prop :=
  forall path c, In (Some c) (w_opens w path) -> before path = Some c \/ (path = resolve dir name /\ exists rest, midi = c ++ rest).
End Spec.
