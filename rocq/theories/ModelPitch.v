(** Model of client/model/pitch.go and client/model/key.go. *)
From Coq Require Import ZArith List Bool.
From Verif Require Import Base.
Import ListNotations.
Local Open Scope Z_scope.

(** pitch.go:9-27, NoteLetter. *)
Inductive letter := LA | LB | LC | LD | LE | LF | LG.

(** pitch.go:79-90, Accidental. *)
Inductive accidental := Flat | Natural | Sharp.

Definition letter_eqb (a b : letter) : bool :=
  match a, b with
  | LA, LA | LB, LB | LC, LC | LD, LD | LE, LE | LF, LF | LG, LG => true
  | _, _ => false
  end.
Definition acc_eqb (a b : accidental) : bool :=
  match a, b with Flat, Flat | Natural, Natural | Sharp, Sharp => true | _, _ => false end.

(** pitch.go:29-31, NoteLetterIntervals. *)
Definition letter_interval (l : letter) : Z :=
  match l with LC => 0 | LD => 2 | LE => 4 | LF => 5 | LG => 7 | LA => 9 | LB => 11 end.

(** key.go:36-47, KeySignature: a Go map from NoteLetter to []Accidental.
    [None] is an absent key.  A record of seven fields instead of a map, so
    equality is structural. *)
Record keysig := KS {
  ksA : option (list accidental); ksB : option (list accidental);
  ksC : option (list accidental); ksD : option (list accidental);
  ksE : option (list accidental); ksF : option (list accidental);
  ksG : option (list accidental) }.

Definition ks_empty : keysig := KS None None None None None None None.

Definition ks_get (k : keysig) (l : letter) : option (list accidental) :=
  match l with
  | LA => ksA k | LB => ksB k | LC => ksC k | LD => ksD k
  | LE => ksE k | LF => ksF k | LG => ksG k
  end.

Definition ks_set (k : keysig) (l : letter) (v : option (list accidental)) : keysig :=
  match k with
  | KS a b c d e f g =>
      match l with
      | LA => KS v b c d e f g | LB => KS a v c d e f g | LC => KS a b v d e f g
      | LD => KS a b c v e f g | LE => KS a b c d v f g | LF => KS a b c d e v g
      | LG => KS a b c d e f v
      end
  end.

(** Indexing a Go map of slices: a missing key reads as the nil slice. *)
Definition ks_index (k : keysig) (l : letter) : list accidental :=
  match ks_get k l with Some a => a | None => [] end.

(** pitch.go:122-146, 189-192: PitchIdentifier.  [accs = None] is the nil
    slice (no accidentals written), [Some []] an empty one. *)
Inductive pitch :=
| PLetter (l : letter) (accs : option (list accidental))
| PMidi (n : Z).

(** pitch.go:177-184: the loop over the accidentals, int32 arithmetic. *)
Definition apply_accidental (n : Z) (a : accidental) : Z :=
  match a with
  | Flat => wrap32 (n - 1)
  | Sharp => wrap32 (n + 1)
  | Natural => n
  end.

(** pitch.go:164-187 and 201-205, CalculateMidiNote. *)
Definition calc_midi_note (p : pitch) (octave : Z) (k : keysig) (transposition : Z) : Z :=
  match p with
  | PLetter l accs =>
      let base := wrap32 (wrap32 (wrap32 (octave + 1) * 12) + letter_interval l) in
      let accidentals := match accs with None => ks_index k l | Some a => a end in
      wrap32 (fold_left apply_accidental accidentals base + transposition)
  | PMidi n => wrap32 (n + transposition)
  end.

(* ---------------------------- key.go ---------------------------- *)

(** key.go:10-34, ScaleType. *)
Inductive scale := Ionian | Dorian | Phrygian | Lydian | Mixolydian | Aeolian | Locrian.

(** key.go:112-124: the loop that copies accidentals, dropping the first one
    that is not [this].  Returns the copy and whether one was dropped. *)
Fixpoint shift_copy (this : accidental) (accs : list accidental) (containsThat : bool)
  : list accidental * bool :=
  match accs with
  | [] => ([], containsThat)
  | a :: t =>
      if acc_eqb a this || containsThat
      then let (r, c) := shift_copy this t containsThat in (a :: r, c)
      else shift_copy this t true
  end.

(** key.go:92-132: the new entry of one letter. *)
Definition shift_entry (this that : accidental) (e : option (list accidental))
  : option (list accidental) :=
  match e with
  | None => Some [this]
  | Some accs =>
      match accs with
      | [a] => if acc_eqb a that then None
               else let (r, c) := shift_copy this accs false in
                    Some (if c then r else r ++ [this])
      | _ => let (r, c) := shift_copy this accs false in
             Some (if c then r else r ++ [this])
      end
  end.

(** key.go:89-135, shiftKey. *)
Definition shift_key (k : keysig) (this that : accidental) : keysig :=
  fold_left (fun r l => ks_set r l (shift_entry this that (ks_get k l)))
            [LA; LB; LC; LD; LE; LF; LG] ks_empty.

(** key.go:137-145. *)
Definition flatten (k : keysig) : keysig := shift_key k Flat Sharp.
Definition sharpen (k : keysig) : keysig := shift_key k Sharp Flat.

(** key.go:147-153. *)
Definition order_of_flats : list letter := [LB; LE; LA; LD; LG; LC; LF].
Definition order_of_sharps : list letter := [LF; LC; LG; LD; LA; LE; LB].

(** key.go:158-175: the starting placement of a mode. *)
Definition scale_start (sc : scale) : Z :=
  match sc with
  | Ionian => -1 | Dorian => -3 | Phrygian => -5 | Lydian => 0
  | Mixolydian => -2 | Aeolian => -4 | Locrian => -6
  end.

(** Index of a letter in a list (the map built at key.go:179-181). *)
Fixpoint letter_index (l : letter) (ls : list letter) : Z :=
  match ls with
  | [] => 0
  | x :: t => if letter_eqb x l then 0 else 1 + letter_index l t
  end.

(** key.go:158-184, partialCircleOfFifths, read at one letter. *)
Definition circle_placement (sc : scale) (l : letter) : Z :=
  scale_start sc + letter_index l order_of_sharps.

(** key.go:205-210: the loop, [i] from 0; [order[i%len(order)]] is indexed
    modulo 7 so the lookup never falls outside the list. *)
Fixpoint circle_loop (order : list letter) (a : accidental) (i n : nat) (k : keysig) : keysig :=
  match n with
  | O => k
  | S m =>
      let l := nth (i mod List.length order)%nat order LA in
      circle_loop order a (S i) m (ks_set k l (Some (ks_index k l ++ [a])))
  end.

(** key.go:189-213, KeySignatureFromCircleOfFifths. *)
Definition ks_from_circle (fifths : Z) : keysig :=
  if fifths =? 0 then ks_empty
  else if fifths >? 0
       then circle_loop order_of_sharps Sharp 0 (Z.to_nat (Z.abs fifths)) ks_empty
       else circle_loop order_of_flats Flat 0 (Z.to_nat (Z.abs fifths)) ks_empty.

(** key.go:217-233, KeySignatureFromScale.  [accs] are the tonic's accidentals. *)
Definition ks_from_scale (l : letter) (accs : list accidental) (sc : scale) : keysig :=
  fold_left (fun k a => match a with
                        | Flat => flatten k | Sharp => sharpen k | Natural => k
                        end)
            accs (ks_from_circle (circle_placement sc l)).
