(** Property theorems C64: the player's clock and the MIDI values in IEEE doubles. *)
From Coq Require Import ZArith String List Bool Sorted SpecFloat.
From Verif Require Import Base Num ModelPitch ModelDuration ModelInstruments ModelTypes ModelLisp ModelScan ModelAst
  ModelScore ModelOsc SpecScore SpecGlobals SpecOsc ModelPlayer SpecPlayer ModelApply SpecApply SpecMidi SpecIeee ProofTicks64 ProofMidi64.
Import ListNotations.
Local Open Scope string_scope.
Local Open Scope list_scope.
Local Open Scope Z_scope.

(** C64: computed in doubles, every rounding included, a later offset is never
    converted to an earlier tick. *)
Theorem C64_monotone : forall (hist : list (Z * @num B64)) x y, chronological64 hist -> 0 <= x -> x <= y -> y < 2 ^ 31 ->
  exists en a b, set_tempos hist new_engine = Some en /\
    ms_to_ticks (N := B64) (en_tempos en) (nofZ x) = Some a /\ ms_to_ticks (N := B64) (en_tempos en) (nofZ y) = Some b /\ 0 <= a <= b.
Proof. exact c64_mono. Qed.
Print Assumptions C64_monotone.

(** C64: so a note that the player can play is put into the sequence, its end not
    before its start. *)
Theorem C64_notes : forall (hist : list (Z * @num B64)) en c o k d a v, chronological64 hist -> set_tempos hist new_engine = Some en ->
  0 <= o -> 0 <= a -> o + a < 2 ^ 31 -> 0 <= c < 16 -> 0 <= k < 128 -> 0 <= v < 128 ->
  exists t1 t2, 0 <= t1 <= t2 /\
    schedule (N := B64) [ENote c o k d a v] en =
      (Engine (en_tempos en) (track_add t2 (NoteOff c k v) (track_add t1 (NoteOn c k v) (en_events en))), true).
Proof. exact c64_notes. Qed.
Print Assumptions C64_notes.

(** C64: a score computed in doubles has a MIDI value for everything about each
    note, whatever is written. *)
Theorem C64_values : forall texts calls (e : @note_event B64), @compiled B64 texts calls -> In e (events (session calls)) ->
  has_midi (session calls) e.
Proof. exact c64_values. Qed.
Print Assumptions C64_values.

(** Tempos of a tenth of a beat, and a third more than 100: neither is a whole
    number of ticks per millisecond. *)
Definition ex_tempos64 : list (Z * @num B64) := [(0, nlit 301 3); (100, nlit 1 10); (100, nlit 1873 10); (2501, nofZ 120)].
Definition ticks64 (hist : list (Z * @num B64)) (x : Z) : option Z :=
  match set_tempos hist new_engine with Some en => ms_to_ticks (N := B64) (en_tempos en) (nofZ x) | None => None end.
Example C64_example : chronological64 ex_tempos64 /\
  map (ticks64 ex_tempos64) [0; 1; 99; 100; 101; 2500; 2501; 2147483647] = [Some 0; Some 0; Some 21; Some 21; Some 21; Some 980; Some 980; Some 549756153].
Proof.
  split; [|vm_compute; reflexivity]. split.
  - repeat constructor; cbn; discriminate.
  - repeat constructor; try (cbn; discriminate || reflexivity); apply tempo64b_ok; vm_compute; reflexivity.
Qed.

Definition ex_texts64 : list (list rune) := [runes "piano: (vol 33.3) c (panning 66.67) d (mp) e {c d e}4 (track-vol 99.9) f"].
Definition ex_score64 : @score B64 := session (map compiles64 ex_texts64).
Example C64_values_example : compiled ex_texts64 (map compiles64 ex_texts64) /\
  map (fun e : @note_event B64 => (ev_note e, level (ev_vol e), level (ev_tvol e), level (ev_pan e))) (events ex_score64) =
    [(60, 42, 100, 64); (62, 42, 100, 85); (64, 59, 100, 85); (60, 59, 100, 85); (62, 59, 100, 85); (64, 59, 100, 85); (65, 59, 127, 85)].
Proof.
  split.
  - apply compiles64_ok. vm_compute. reflexivity.
  - vm_compute. reflexivity.
Qed.
