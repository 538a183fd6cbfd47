(** Specification of pitches and scales, independent of the code's algorithms:
    the textbook definitions used to state C25-C27. *)
From Coq Require Import ZArith List.
From Verif Require Import Base ModelPitch.
Import ListNotations.
Local Open Scope Z_scope.

(** A sharp raises by a semitone, a flat lowers, a natural does neither. *)
Definition acc_value (a : accidental) : Z :=
  match a with Sharp => 1 | Flat => -1 | Natural => 0 end.
Definition accs_value (l : list accidental) : Z := fold_right (fun a n => acc_value a + n) 0 l.

(** Semitones above C of the white keys. *)
Definition white_key (l : letter) : Z :=
  match l with LC => 0 | LD => 2 | LE => 4 | LF => 5 | LG => 7 | LA => 9 | LB => 11 end.

(** What a key signature adds to a letter. *)
Definition key_value (k : keysig) (l : letter) : Z :=
  match ks_get k l with Some a => accs_value a | None => 0 end.

(** MIDI number of a written note: octave o starts at 12*(o+1) (so that C4 is
    60); own accidentals replace those of the key. *)
Definition pitch_spec (p : pitch) (o : Z) (k : keysig) (t : Z) : Z :=
  match p with
  | PLetter l (Some a) => 12 * (o + 1) + white_key l + accs_value a + t
  | PLetter l None => 12 * (o + 1) + white_key l + key_value k l + t
  | PMidi n => n + t
  end.

(** The next letter going up, and the letter [i] steps above. *)
Definition next_letter (l : letter) : letter :=
  match l with
  | LC => LD | LD => LE | LE => LF | LF => LG | LG => LA | LA => LB | LB => LC
  end.
(** Letter and number of octave boundaries (B to C) crossed after [i] steps. *)
Fixpoint steps_up (l : letter) (i : nat) : letter * Z :=
  match i with
  | O => (l, 0)
  | S j => let (m, c) := steps_up l j in
           (next_letter m, match m with LB => c + 1 | _ => c end)
  end.

(** Semitone patterns of the seven modes, from the tonic. *)
Definition mode_pattern (sc : scale) : list Z :=
  match sc with
  | Ionian     => [0; 2; 4; 5; 7; 9; 11]
  | Dorian     => [0; 2; 3; 5; 7; 9; 10]
  | Phrygian   => [0; 1; 3; 5; 7; 8; 10]
  | Lydian     => [0; 2; 4; 6; 7; 9; 11]
  | Mixolydian => [0; 2; 4; 5; 7; 9; 10]
  | Aeolian    => [0; 2; 3; 5; 7; 8; 10]
  | Locrian    => [0; 1; 3; 5; 6; 8; 10]
  end.

(** No letter of the key signature carries a natural sign. *)
Definition no_naturals (k : keysig) : Prop :=
  forall l a, ks_get k l = Some a -> ~ In Natural a.
