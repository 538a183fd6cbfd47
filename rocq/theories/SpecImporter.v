(** What C48 talks about: the events that the MusicXML importer produces, how
    they read once written out as Alda text, and what is heard. *)
From Coq Require Import ZArith List Bool String.
From Verif Require Import Base Num ModelPitch ModelDuration ModelInstruments ModelTypes ModelLisp ModelScore ModelImporter.
Import ListNotations.
Local Open Scope list_scope.
Local Open Scope Z_scope.

Section Spec.
Context {N : Num}.

(** The note or rest carries a length of its own, not only barlines. *)
Definition has_length (d : duration) : bool :=
  existsb (fun c => match c with CBar => false | _ => true end) (match d with Some l => l | None => [] end).

(** The importer writes pitched notes with a letter, unpitched percussion notes
    with the number of a MIDI key (from C1 = 24 on). *)
Definition pitch_written (percussion : bool) (p : pitch) : bool :=
  match p with
  | PLetter _ _ => negb percussion
  | PMidi n => percussion && (24 <=? n) && (n <=? 127)
  end.

(** The attributes that occur inside a voice: dynamics, and octave changes in
    pitched parts. *)
Definition voice_attr (percussion : bool) (u : part_update) : bool :=
  match u with
  | PDynamic _ => true
  | POctave _ | POctUp | POctDown => negb percussion
  | _ => false
  end.

Definition flat_event (percussion : bool) (u : update) : bool :=
  match u with
  | UPrim (Note p d _) => pitch_written percussion p && has_length d
  | UPrim (Rest d) => has_length d
  | UPrim (Attr a) => voice_attr percussion a
  | UBarline => true
  | _ => false
  end.

Definition note_or_rest_event (u : update) : bool :=
  match u with UPrim (Note _ _ _) | UPrim (Rest _) => true | _ => false end.

(** The events of a voice: notes, rests, dynamics, octave changes, barlines,
    chords that start with a note or rest, repeated sections and endings. *)
Fixpoint voice_event (percussion : bool) (u : update) : bool :=
  let all := (fix go (l : list update) : bool :=
                match l with [] => true | x :: t => voice_event percussion x && go t end) in
  match u with
  | UChord es => forallb (flat_event percussion) es
                 && match es with e :: _ => note_or_rest_event e | [] => false end
  | URepeat (USeq es) _ => all es
  | UOnReps _ (USeq es) => all es
  | USeq es => all es
  | _ => flat_event percussion u
  end.

(** The durations written on the notes and rests of an event. *)
Fixpoint durations_of (u : update) : list duration :=
  let all := (fix go (l : list update) : list duration :=
                match l with [] => [] | x :: t => durations_of x ++ go t end) in
  match u with
  | UPrim (Note _ d _) => [d]
  | UPrim (Rest d) => [d]
  | UChord es => all es
  | URepeat e _ => durations_of e
  | UOnReps _ e => durations_of e
  | USeq es => all es
  | _ => []
  end.

(** The numbers written in a duration. *)
Fixpoint comp_numbers (c : component) : list num :=
  match c with
  | CLen x _ => [x]
  | CBeats x | CMs x | CSec x => [x]
  | CBar => []
  | CDur None => []
  | CDur (Some l) => (fix go (l : list component) : list num :=
                        match l with [] => [] | x :: t => comp_numbers x ++ go t end) l
  end.
Definition numbers_of (us : list update) : list num :=
  flat_map (fun u => flat_map (fun d => comp_numbers (CDur d)) (durations_of u)) us.

(** Alda text has no place for an octave change at the head of a chord: written
    out, it stands before the chord. *)
Fixpoint split_octaves (l : list update) : list update * list update :=
  match l with
  | UPrim (Attr (POctave n)) :: t =>
      let (a, b) := split_octaves t in (UPrim (Attr (POctave n)) :: a, b)
  | _ => ([], l)
  end.
Fixpoint as_written (u : update) : list update :=
  let go := (fix go (l : list update) : list update :=
               match l with [] => [] | x :: t => as_written x ++ go t end) in
  match u with
  | UChord es => let (a, b) := split_octaves es in a ++ [UChord b]
  | URepeat (USeq es) n => [URepeat (USeq (go es)) n]
  | UOnReps rs (USeq es) => [UOnReps rs (USeq (go es))]
  | USeq es => [USeq (go es)]
  | _ => [u]
  end.
Definition text_of (us : list update) : list update := flat_map as_written us.

(** A repeat that the file never closes is played once. *)
Fixpoint finished (u : update) : update :=
  let go := (fix go (l : list update) : list update :=
               match l with [] => [] | x :: t => finished x :: go t end) in
  match u with
  | URepeat e n => URepeat (finished e) (if n =? 0 then 1 else n)
  | UOnReps rs e => UOnReps rs (finished e)
  | UChord es => UChord (go es)
  | USeq es => USeq (go es)
  | _ => u
  end.

(** The parts being written to: no global attribute is pending, all exist, have
    the given key signature, and are percussion or not. *)
Definition playing (percussion : bool) (k : keysig) (s : score) : Prop :=
  ga_offs (globals s) = [] /\
  forall p, In p (current s) ->
    (p < List.length (heap s))%nat /\ pkey (getp s p) = k /\
    iperc (pstock (getp s p)) = percussion.

(** Two scores are the same so far: everything is equal (notes, offsets,
    volumes, channels, ...) except for three things that are overwritten before
    they can be heard in an imported score.  These are the octave of a
    percussion part (every one of its notes is given by number), the barlines in
    a part's last written duration, and the note of an attribute to skip. *)
Definition audible_part (p : part) : part :=
  set_povr None
    (set_pdur (match pdur p with
               | Some l => Some (filter (fun c => match c with CBar => false | _ => true end) l)
               | None => None
               end)
       (set_poctave (if iperc (pstock p) then 0 else poctave p) p)).
Definition same_so_far (s t : score) : Prop :=
  set_heap (map audible_part (heap s)) s = set_heap (map audible_part (heap t)) t.

(** The import without the clean-up: only unfinished repeats are closed. *)
Definition plain (o : opt_state) (us : list update) : opt_state * list update := (o, map finished us).

(** What a part consists of: voices with the events above, key signatures
    (without accidentals for percussion) and transpositions. *)
Definition part_step (percussion : bool) (st : step) : bool :=
  match st with
  | SFlush vs _ => forallb (fun v => forallb (voice_event percussion) (snd v)) vs
  | SAttr (PKey k) => negb percussion
      || forallb (fun l => match ks_get k l with None => true | Some _ => false end) [LA; LB; LC; LD; LE; LF; LG]
  | SAttr (PTransp _) => true
  | SAttr _ => false
  end.
(** Several voices are brought to an end before an attribute of the part. *)
Fixpoint voices_ended (l : list step) : bool :=
  match l with
  | SFlush vs e :: t =>
      match t with [] => true | _ :: _ => (e || (List.length vs =? 1)%nat) && voices_ended t end
  | SAttr _ :: t => voices_ended t
  | [] => true
  end.
Definition step_numbers (st : step) : list num :=
  match st with SFlush vs _ => flat_map (fun v => numbers_of (snd v)) vs | SAttr _ => [] end.

(** Each part of the file declares an instrument of its own, and consists of
    what is described above. *)
Fixpoint importable (ps : list xml_part) (s : score) : Prop :=
  match ps with
  | [] => True
  | p :: t =>
      let r := exec [UPart (x_names p) (x_alias p)] s in
      snd r = Ok ->
      let new := List.length (heap s) in
      current (fst r) = [new] /\
      forallb (part_step (iperc (pstock (getp (fst r) new)))) (x_steps p) = true /\
      voices_ended (x_steps p) = true /\
      importable t (fst (exec (part_updates plain p) s))
  end.
End Spec.
