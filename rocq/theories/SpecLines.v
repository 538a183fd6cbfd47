(** Vocabulary for texts read line by line (C58). *)
From Coq Require Import ZArith String Ascii List Bool.
From Verif Require Import Base Num ModelTypes ModelScore ModelRepl ModelScan ModelAst ModelUtf8.
Import ListNotations.
Local Open Scope string_scope.
Local Open Scope list_scope.
Local Open Scope Z_scope.

Section SpecLines.
Context {N : Num}.
Implicit Types us : list update.

(** Whether a text with these updates leaves a group of voices open: a voice was
    begun, and neither V0: nor a new part came after it. *)
Definition voices_after (b : bool) (u : update) : bool :=
  match u with UVoice _ => true | UVoiceEnd | UPart _ _ => false | _ => b end.
Definition in_voices us : bool := fold_left voices_after us false.

(** Whether the first mention of voices or parts is V0: (the text that would
    close a group of voices left open before it). *)
Fixpoint closes_voices us : bool :=
  match us with
  | [] => false
  | UVoice n :: _ => n =? 0
  | UVoiceEnd :: _ | UPart _ _ :: _ => false
  | _ :: t => closes_voices t
  end.

(** A variable whose definition leaves a group of voices open: it goes on until
    the group is closed, however many lines that takes. *)
Fixpoint open_definition (u : update) : bool :=
  match u with
  | UVarDef _ us =>
      fold_left voices_after us false ||
      (fix last l := match l with [] => false | [x] => open_definition x | _ :: t => last t end) us
  | _ => false
  end.
Definition ends_open us : bool := match rev us with u :: _ => open_definition u | [] => false end.

(** The second text can follow the first on a line of its own: it says nothing,
    or it neither goes on with a definition nor closes voices left open. *)
Definition can_follow us vs : Prop :=
  vs = [] \/ ends_open us = false /\ (in_voices us = true -> closes_voices vs = false).
(** Each of these texts can be followed by the ones after it. *)
Fixpoint follow_on (uss : list (list update)) : Prop :=
  match uss with [] => True | us :: rest => can_follow us (List.concat rest) /\ follow_on rest end.

(** A text ending with the letter o for an octave, without its number. *)
Definition bare_octave (text : list rune) : Prop :=
  exists ts t n, scan text = Scanned ts /\ In t ts /\ tkind t = TOctSet n /\ ttext t = runes "o".
(** A text beginning with a barline. *)
Definition leading_bar (text : list rune) : Prop :=
  exists t ts, scan text = Scanned (t :: ts) /\ tkind t = TBarline.
(** A text that can be a line among others. *)
Definition tidy (text : list rune) : Prop := ~ bare_octave text /\ ~ leading_bar text.
(** The lines one after another, each ended by a newline. *)
Definition joined (texts : list (list rune)) : list rune := flat_map (fun t => t ++ [newline]) texts.
(** The inputs of a session, as the client sends them (without blanks around
    them), with their updates, when they can be lines of one text. *)
Definition orderly (log : list exchange) (uss : list (list update)) : Prop :=
  Forall2 (fun h us => exists code, field "code" (h_request h) = Some (Some code) /\ trim code = code /\
     compile_text code = ROk us /\ tidy (decode code)) log uss /\ follow_on uss.
End SpecLines.

(** A Unicode scalar value. *)
Definition scalar (r : rune) : Prop := 0 <= r < 1114112 /\ ~ 55296 <= r < 57344.
