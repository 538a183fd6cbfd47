(** Vocabulary for what one part plays. *)
From Coq Require Import ZArith List String Bool.
From Verif Require Import Base Num ModelPitch ModelDuration ModelInstruments ModelTypes ModelLisp
  ModelScore SpecScore SpecVars SpecParts.
Import ListNotations.

Section SpecSolo.
Context {N : Num}.

(** Everything about a note but the part and the MIDI channel. *)
Record heard := Heard {
  h_note : Z; h_off : num; h_dur : num; h_aud : num; h_vol : num; h_tvol : num; h_pan : num }.
Definition hear (e : note_event) : heard :=
  Heard (ev_note e) (ev_off e) (ev_dur e) (ev_aud e) (ev_vol e) (ev_tvol e) (ev_pan e).

(** The notes of one instrument instance, in order. *)
Definition notes_of (s : score) (o : pid) : list heard :=
  map hear (filter (fun e => Nat.eqb (ev_part e) o) (events s)).

(** A part without its MIDI channel. *)
Definition unchanneled (p : part) : part := set_pchan 0 p.

(** Updates that act on the current parts only: no voices, no part declarations. *)
Definition local_label (l : label) : Prop :=
  match l with LVoice _ | LEnd | LPart _ _ => False | _ => True end.
(** ... and moreover nothing played on some repetitions only. *)
Definition group_label (l : label) : Prop :=
  match l with LOnReps _ => False | _ => local_label l end.
(** ... and moreover no markers and no global attributes. *)
Definition plain_label (l : label) : Prop :=
  match l with LMark _ | LGlobal => False | _ => group_label l end.

(** The same for everything stored in variables. *)
Definition stored (L : label -> Prop) (s : score) : Prop :=
  forall n es, In (n, es) (variables s) -> Forall (upd_all L) es.

(** Number systems in which [==] is equality (exact numbers; not IEEE doubles,
    where 0 == -0). *)
Definition exact_equality : Prop := forall a b : num, neqb a b = true -> a = b.
End SpecSolo.
