(** Property theorems C61. *)
From Coq Require Import ZArith QArith Qcanon String List Bool Permutation Sorted.
From Verif Require Import Base Num ModelPitch ModelDuration ModelInstruments ModelTypes ModelLisp ModelScan ModelAst
  ModelScore ModelOsc SpecScore SpecGlobals SpecOsc ProofOsc ModelPlayer SpecPlayer ModelApply SpecApply ProofApplyEx SpecMidi ProofMidi.
Import ListNotations.
Local Open Scope string_scope.
Local Open Scope list_scope.
Local Open Scope Z_scope.

(** C61: whatever is written, MIDI has a value for everything about each note. *)
Theorem C61_values : forall texts calls e, @compiled XQ texts calls -> In e (events (session calls)) -> has_midi (session calls) e.
Proof. exact c61_values. Qed.
Print Assumptions C61_values.

(** C61: so whatever is written and not too long is performed as C59 and C60 say:
    what they assume of a score's notes and tempos holds. *)
Theorem C61_performed : forall texts calls t s' b start stop notes, @compiled XQ texts calls -> let s := session calls in
  transmits t s s' (ROk b) -> asked t s start stop notes -> t_sync t = [] -> Z.of_nat (List.length (parts s)) < 2 ^ 31 - 1 -> timely s start notes ->
  chronological (tempo_changes b) /\ exists en, set_tempos (tempo_changes b) new_engine = Some en /\
    ((forall e, In e notes -> lateness (en_tempos en) + onset start e + sounding e < 2 ^ 31) -> @performed XQ JXQ t s s' b start stop notes en).
Proof. exact c61_performed. Qed.
Print Assumptions C61_performed.

(** C61: from text to sound. Once the player plays, its sequence has the notes
    written, each once, with their pitches, velocities, instruments, volumes and
    panning. *)
Theorem C61_heard : forall texts calls t s' b start stop notes commands p en, @compiled XQ texts calls -> let s := session calls in
  transmits t s s' (ROk b) -> asked t s start stop notes -> t_sync t = [] -> Z.of_nat (List.length (parts s)) < 2 ^ 31 - 1 -> timely s start notes ->
  set_tempos (tempo_changes b) new_engine = Some en -> (forall e, In e notes -> lateness (en_tempos en) + onset start e + sounding e < 2 ^ 31) ->
  apart (en_tempos en) start notes -> Forall (Forall command) commands -> runs (sent b commands) p -> p_playing p = true ->
  Permutation (heard_in [] (en_events (p_engine p))) (map (should_be_heard (J := JXQ) (en_tempos en) s start) notes).
Proof. exact c61_heard. Qed.
Print Assumptions C61_heard.

Definition ex_texts : list (list rune) :=
  [runes "piano: (vol 50) c (panning 20) d (tempo! 90) e"; runes "violin: r c (mp) d
piano: (track-vol 100) c/e"].
Definition ex_midi : @score XQ := session (map compiles ex_texts).
Definition ex_midi_play : transmission (N := XQ) := Transmission "" "" 0 7 [] false false.
Definition ex_midi_all : list (@note_event XQ) := slice 0 7 (events ex_midi).
Definition ex_midi_notes : list (@note_event XQ) := filter (in_range n0 nmaxval) ex_midi_all.
Definition ex_midi_bundle : list (@msg XQ) := bundle_of ex_midi_play ex_midi n0 nmaxval (sort_events ex_midi_all).
Definition ex_midi_end : player (N := XQ) := auto 400 (sent ex_midi_bundle []).
Example C61_example :
  compiled ex_texts (map compiles ex_texts) /\
  (exists s', transmits ex_midi_play ex_midi s' (ROk ex_midi_bundle)) /\ asked ex_midi_play ex_midi n0 nmaxval ex_midi_notes /\
  timely ex_midi n0 ex_midi_notes /\ apart (en_tempos (engine_of ex_midi_bundle)) n0 ex_midi_notes /\
  runs (sent ex_midi_bundle []) ex_midi_end /\ p_playing ex_midi_end = true /\
  map (fun e => (ev_note e, level (ev_vol e), level (ev_tvol e), level (ev_pan e), patch_of ex_midi e)) ex_midi_notes =
    [(60, 64, 100, 64, 0); (62, 64, 100, 25, 0); (64, 64, 100, 25, 0); (60, 69, 100, 64, 40); (62, 59, 100, 64, 40); (60, 64, 127, 25, 0); (64, 64, 127, 25, 0)].
Proof.
  split; [|split; [|split; [|split; [|split; [|split]]]]].
  - apply compiles_ok. vm_compute. reflexivity.
  - apply (transmit_sorted ex_midi_play ex_midi 0 7 n0 nmaxval); vm_compute; reflexivity.
  - apply (asked_now ex_midi_play ex_midi 0 7 n0 nmaxval); vm_compute; reflexivity.
  - apply timelyb_ok. vm_compute. reflexivity.
  - apply apartb_ok. vm_compute. reflexivity.
  - apply auto_runs.
  - split; vm_compute; reflexivity.
Qed.

(** C61: not everything written ends: in [piano: c {c d}0 e], the cram lasts
    forever, and the notes after it are there, at no time at all. *)
Theorem C61_endless_refuted : compiled [endless] [compiles endless] /\ exists e, In e (events (session [compiles endless])) /\ ev_off e = PInf.
Proof. exact endless_refuted. Qed.
Print Assumptions C61_endless_refuted.
