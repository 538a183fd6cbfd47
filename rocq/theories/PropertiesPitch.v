(** Property theorems C25-C27. *)
From Coq Require Import ZArith List Lia.
From Verif Require Import Base ModelPitch SpecPitch ProofPitch.
Import ListNotations.
Local Open Scope Z_scope.

(** C25: a written note denotes the MIDI number of its letter in its octave,
    plus its own accidentals or else those of the key, plus the transposition. *)
Theorem C25_pitch : forall p octave k transposition,
  in_int32 (pitch_spec p octave k transposition) ->
  calc_midi_note p octave k transposition = pitch_spec p octave k transposition.
Proof. exact calc_correct. Qed.
Print Assumptions C25_pitch.

Example C25_example :
  let k := ks_from_scale LE [] Lydian in
  in_int32 (pitch_spec (PLetter LA None) 4 k (-3)) /\
  pitch_spec (PLetter LA None) 4 k (-3) = 67 /\
  calc_midi_note (PLetter LA None) 4 k (-3) = 67 /\
  calc_midi_note (PLetter LA (Some [Natural])) 4 k (-3) = 66 /\
  calc_midi_note (PLetter LC None) 4 ks_empty 0 = 60.
Proof. vm_compute. repeat split; discriminate. Qed.

(** C25, in full: without the bound the result is the specification modulo 2^32. *)
Theorem C25_pitch_modulo : forall p octave k transposition,
  calc_midi_note p octave k transposition = wrap32 (pitch_spec p octave k transposition).
Proof. exact calc_wrap. Qed.
Print Assumptions C25_pitch_modulo.

(** Without the bound C25 is false: an absurd octave wraps into the MIDI range. *)
Theorem C25_unbounded_refuted : exists p o k t,
  in_int32 o /\ in_int32 t /\
  0 <= calc_midi_note p o k t <= 127 /\ calc_midi_note p o k t <> pitch_spec p o k t.
Proof. exact calc_overflow_witness. Qed.
Print Assumptions C25_unbounded_refuted.

(** C26: under the key signature of a named scale, the [i]-th letter above the
    tonic sounds the [i]-th interval of the mode above the tonic. *)
Theorem C26_scales : forall mode tonic accs i octave transposition,
  (i < 7)%nat ->
  -1000000 <= octave <= 1000000 -> -1000000 <= transposition <= 1000000 ->
  Z.of_nat (List.length accs) <= 1000000 ->
  let '(m, c) := steps_up tonic i in
  calc_midi_note (PLetter m None) (octave + c) (ks_from_scale tonic accs mode) transposition
  = calc_midi_note (PLetter tonic (Some accs)) octave ks_empty transposition
    + nth i (mode_pattern mode) 0.
Proof. exact named_scale. Qed.
Print Assumptions C26_scales.

(** C26 without bounds, on the semitones assigned to the letters. *)
Theorem C26_scales_unbounded : forall mode tonic accs i, (i < 7)%nat ->
  let '(m, c) := steps_up tonic i in
  white_key m + 12 * c + key_value (ks_from_scale tonic accs mode) m
  = white_key tonic + accs_value accs + nth i (mode_pattern mode) 0.
Proof. exact scale_degrees. Qed.
Print Assumptions C26_scales_unbounded.

Example C26_example :
  let k := ks_from_scale LE [Flat; Flat] Dorian in
  map (fun i => let '(m, c) := steps_up LE i in calc_midi_note (PLetter m None) (4 + c) k 0)
      (seq 0 7)
  = map (fun d => 62 + d) [0; 2; 3; 5; 7; 9; 10] /\
  calc_midi_note (PLetter LE (Some [Flat; Flat])) 4 ks_empty 0 = 62.
Proof. vm_compute. split; reflexivity. Qed.

(** C27: sharpening (flattening) moves every letter up (down) a semitone, and
    one undoes the other. *)
Theorem C27_shift : forall k, no_naturals k ->
  (forall l, key_value (sharpen k) l = key_value k l + 1) /\
  (forall l, key_value (flatten k) l = key_value k l - 1) /\
  (forall l, key_value (flatten (sharpen k)) l = key_value k l) /\
  (forall l, key_value (sharpen (flatten k)) l = key_value k l) /\
  no_naturals (sharpen k) /\ no_naturals (flatten k).
Proof. exact shift_key_spec. Qed.
Print Assumptions C27_shift.

Example C27_example :
  no_naturals (ks_from_scale LB [Flat; Flat] Locrian) /\
  key_value (ks_from_scale LB [Flat; Flat] Locrian) LB = -2 /\
  key_value (sharpen (ks_from_scale LB [Flat; Flat] Locrian)) LB = -1.
Proof.
  split; [|vm_compute; split; reflexivity].
  intros l a H. destruct l; vm_compute in H; inversion H; subst; cbn; intuition discriminate.
Qed.

(** Naturals in a key signature break the shift. *)
Theorem C27_naturals_refuted : exists k l, key_value (sharpen k) l <> key_value k l + 1.
Proof. exact shift_natural_witness. Qed.
Print Assumptions C27_naturals_refuted.
