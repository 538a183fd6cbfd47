(** Vocabulary for what is written being playable (C61). *)
From Coq Require Import ZArith QArith Qcanon List String Bool.
From Verif Require Import Base Num ModelPitch ModelDuration ModelInstruments ModelTypes ModelLisp ModelScan ModelAst ModelScore SpecScore SpecOsc SpecApply.
Import ListNotations.
Local Open Scope Z_scope.

(** The texts compile to these updates. *)
Definition compiled {N : Num} (texts : list (list rune)) (calls : list (list update)) : Prop :=
  Forall2 (fun text us => compile text = ROk us) texts calls.

(** MIDI has a value for everything about the note: its channel, pitch, velocity,
    instrument, and the volume and the panning of its track. *)
Record has_midi {N : Num} (s : score) (e : note_event) : Prop := HasMidi {
  hm_chan : 0 <= ev_chan e < 16;
  hm_note : byte (ev_note e);
  hm_velocity : byte (level (ev_vol e));
  hm_volume : byte (level (ev_tvol e));
  hm_panning : byte (level (ev_pan e));
  hm_patch : byte (patch_of s e);
  hm_audible : nltb n0 (ev_aud e) = true }.

(** Times are numbers, below 2^31-1 milliseconds (24 days); tempos are positive. *)
Record timely (s : @score XQ) (start : @num XQ) (notes : list (@note_event XQ)) : Prop := Timely {
  tl_tempos : forall x, In x (tempo_itinerary s) -> exists o b : Qc, x = (Fin o, Fin b) /\ (0 <= o)%Q /\ (o < 2147483647)%Q /\ (0 < b)%Q;
  tl_start : exists r : Qc, start = Fin r /\ (0 <= r)%Q;
  tl_notes : forall e, In e notes -> exists q a : Qc, ev_off e = Fin q /\ ev_aud e = Fin a /\ (q < 2147483647)%Q /\ (a < 2147483647)%Q }.
