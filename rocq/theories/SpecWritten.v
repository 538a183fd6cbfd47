(** C69: scores of the kind that the MusicXML importer makes, and how they read
    once they have been written out as Alda text. *)
From Coq Require Import String ZArith List Bool.
From Verif Require Import Base Num ModelPitch ModelDuration ModelTypes ModelLisp ModelScan SpecScan ModelParser ModelAst ModelFormat SpecFormat SpecGen SpecImporter.
Import ListNotations.
Local Open Scope list_scope.
Local Open Scope Z_scope.

Section Spec.
Context {N : Num}.
Variable fmt : num -> list rune.

(** ** What is written *)
(** A length whose number is printed so that it reads as the same number. *)
Definition plain_length (c : component) : Prop :=
  match c with CLen x k => 0 <= k <= max_int32 /\ reads_back fmt false x | _ => False end.
Definition plain_duration (d : duration) : Prop :=
  match d with None => True | Some cs => cs <> [] /\ Forall plain_length cs end.
(** A note or rest. *)
Definition plain_note (u : update) : Prop :=
  match u with
  | UPrim (Note (PLetter _ accs) d _) => accs <> Some [] /\ plain_duration d
  | UPrim (Rest d) => plain_duration d
  | _ => False
  end.
Definition octave_change (u : update) : Prop :=
  match u with UPrim (Attr (POctave k)) => 0 <= k <= max_int32 | UPrim (Attr POctUp) | UPrim (Attr POctDown) => True | _ => False end.
(** The rest of a chord: octave changes and notes, a note at the end. *)
Fixpoint chord_more (es : list update) : Prop :=
  match es with
  | [] => False
  | [n] => plain_note n
  | x :: t => (plain_note x \/ octave_change x) /\ chord_more t
  end.
(** A chord of two or more notes, maybe with octave changes first. *)
Definition plain_chord (es : list update) : Prop :=
  Forall octave_change (fst (split_octaves es)) /\
  match snd (split_octaves es) with n :: t => plain_note n /\ chord_more t | [] => False end.
Definition plain_event (u : update) : Prop :=
  match u with
  | UBarline => True
  | UPrim (Attr (POctave _)) | UPrim (Attr POctUp) | UPrim (Attr POctDown) => octave_change u
  | UPrim (Attr (PDynamic m)) => In m (map fst dynamic_volumes)
  | UPrim (Attr (PKey k)) => plain_key k
  | UPrim (Attr (PTransp k)) => fmt (nofZ k) = itoa k /\ exists neg, reads_back fmt neg (nofZ k)
  | UChord es => plain_chord es
  | _ => plain_note u
  end.

(** A part: its names and alias, events, then voice groups, each followed by further
    events, and maybe a voice group that lasts to the end. *)
Definition voice : Type := Z * list update.
Record wpart := WPart { w_names : list string; w_alias : string; w_events : list update;
                        w_groups : list (list voice * list update); w_last : list voice }.
Definition voices_updates (vs : list voice) : list update := flat_map (fun v => UVoice (fst v) :: snd v) vs.
Definition wpart_updates (p : wpart) : list update :=
  UPart (w_names p) (w_alias p) :: w_events p
  ++ flat_map (fun g => voices_updates (fst g) ++ UVoiceEnd :: snd g) (w_groups p) ++ voices_updates (w_last p).
Definition score_updates (ps : list wpart) : list update := flat_map wpart_updates ps.

(** Names that can be written: two letters, then letters, digits and a few other
    characters. *)
Definition name_of (s : string) : Prop :=
  exists c c' t, Forall scalar (c :: c' :: t) /\ s = utf8 (c :: c' :: t) /\ letter c /\ letter c' /\ Forall (fun r => word_char r = true) t.
Definition alias_of (s : string) : Prop :=
  exists t, Forall scalar t /\ s = utf8 t /\ Forall (fun r => word_char r = true) t.
Definition plain_voice (v : voice) : Prop := 0 < fst v <= max_int32 /\ Forall plain_event (snd v).
Definition plain_part (p : wpart) : Prop :=
  w_names p <> [] /\ Forall name_of (w_names p) /\ alias_of (w_alias p) /\ Forall plain_event (w_events p) /\
  Forall (fun g => fst g <> [] /\ Forall plain_voice (fst g) /\ Forall plain_event (snd g)) (w_groups p) /\
  Forall plain_voice (w_last p).

(** A transposition by an int32 number of semitones. *)
Definition in_range (u : update) : Prop := match u with UPrim (Attr (PTransp k)) => - 2 ^ 31 <= k < 2 ^ 31 | _ => True end.

(** ** How it reads *)
(** Barlines right after a length are read as a part of the duration. *)
Definition ends_in_length (u : update) : bool :=
  match u with
  | UPrim (Note _ (Some _) false) | UPrim (Rest (Some _)) => true
  | _ => false
  end.
Definition add_bars (k : nat) (u : update) : update :=
  match u with
  | UPrim (Note p (Some cs) s) => UPrim (Note p (Some (cs ++ repeat CBar k)) s)
  | UPrim (Rest (Some cs)) => UPrim (Rest (Some (cs ++ repeat CBar k)))
  | _ => u
  end.
Fixpoint leading (us : list update) : nat := match us with UBarline :: t => S (leading t) | _ => O end.
Fixpoint unled (us : list update) : list update := match us with UBarline :: t => unled t | _ => us end.
Fixpoint on_last (f : update -> update) (es : list update) : list update :=
  match es with [] => [] | [x] => [f x] | x :: t => x :: on_last f t end.
Definition absorb (u : update) (t : list update) : list update :=
  match u with
  | UChord es => if ends_in_length (last es UNil) then UChord (on_last (add_bars (leading t)) es) :: unled t else u :: t
  | _ => if ends_in_length u then add_bars (leading t) u :: unled t else u :: t
  end.
(** Octave changes at the head of a chord stand before it; a transposition is a
    Lisp call. *)
Fixpoint as_read (us : list update) : list update :=
  match us with
  | [] => []
  | UChord es :: t => fst (split_octaves es) ++ absorb (UChord (snd (split_octaves es))) (as_read t)
  | UPrim (Attr (PTransp k)) :: t => ULisp [LSym "transpose"; LNum (nofZ k)] :: as_read t
  | u :: t => absorb u (as_read t)
  end.
Definition voice_read (v : voice) : voice := (fst v, as_read (snd v)).
Definition part_read (p : wpart) : wpart :=
  WPart (w_names p) (w_alias p) (as_read (w_events p))
    (map (fun g => (map voice_read (fst g), as_read (snd g))) (w_groups p)) (map voice_read (w_last p)).
End Spec.
