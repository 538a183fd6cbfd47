(** Model of the MusicXML importer's post-processing:
    client/interop/musicxml/importer/optimizer.go, util.go and the assembly of
    a part's updates in importer.go.  Reading the XML document itself
    (handlers.go) is not modelled here; the functions below start from the
    updates that the handlers have collected for every voice. *)
From Coq Require Import ZArith List Bool String.
From Verif Require Import Base Num ModelPitch ModelDuration ModelInstruments ModelTypes.
Import ListNotations.
Local Open Scope list_scope.
Local Open Scope Z_scope.

Section Importer.
Context {N : Num}.

(** deep.Equal on two float64 values: equal when they print the same to ten
    decimals (go-test/deep, FloatPrecision = 10).  Left open. *)
Variable feq : num -> num -> bool.

(** deep.Equal on two duration components: same dynamic type, equal fields. *)
Fixpoint same_comp (a b : component) {struct a} : bool :=
  match a, b with
  | CLen x m, CLen y n => feq x y && (m =? n)
  | CBeats x, CBeats y | CMs x, CMs y | CSec x, CSec y => feq x y
  | CBar, CBar => true
  | CDur None, CDur None => true
  | CDur (Some l), CDur (Some l') =>
      (fix go (l l' : list component) : bool :=
         match l, l' with
         | [], [] => true
         | x :: t, y :: t' => same_comp x y && go t t'
         | _, _ => false
         end) l l'
  | _, _ => false
  end.

(** deep.Equal on two durations; a nil slice differs from an empty one. *)
Definition same_dur (a b : duration) : bool := same_comp (CDur a) (CDur b).

(** deep.Equal on the accidentals of a note and the entry of a key signature
    (optimizer.go:86-92); reading a missing map entry gives the nil slice. *)
Definition same_accs (a b : option (list accidental)) : bool :=
  match a, b with
  | None, None => true
  | Some l, Some l' => if list_eq_dec (fun x y : accidental => ltac:(decide equality)) l l' then true else false
  | _, _ => false
  end.

(** deep.Equal on two key signatures (optimizer.go:73-75). *)
Definition same_key (a b : keysig) : bool :=
  forallb (fun l => same_accs (ks_get a l) (ks_get b l)) [LA; LB; LC; LD; LE; LF; LG].

(** optimizer.go:10-28, optimizer.  [o_notes] lists the letters whose state is
    true. *)
Record opt_state := Opt {
  o_notes : list letter  (* currentNoteState *);
  o_dur : duration  (* currentDuration *);
  o_oct : Z  (* currentOctave *);
  o_key : keysig  (* currentKeySignature *) }.

(** optimizer.go:40-52: resetNoteState, resetDuration, resetOctave. *)
Definition reset_notes (o : opt_state) : opt_state := Opt [] (o_dur o) (o_oct o) (o_key o).
Definition set_odur (d : duration) (o : opt_state) : opt_state := Opt (o_notes o) d (o_oct o) (o_key o).
Definition reset_dur : opt_state -> opt_state := set_odur None.
Definition set_ooct (n : Z) (o : opt_state) : opt_state := Opt (o_notes o) (o_dur o) n (o_key o).
Definition reset_oct : opt_state -> opt_state := set_ooct (-1).

(** optimizer.go:54-58, softReset. *)
Definition soft_reset (o : opt_state) : opt_state := reset_oct (reset_dur (reset_notes o)).

(** optimizer.go:30-38, newOptimizer. *)
Definition new_opt : opt_state := Opt [] None (-1) (ks_from_circle 0).

(** util.go:301-310, getNoteOrRestDuration. *)
Definition nr_dur (u : update) : duration :=
  match u with
  | UPrim (Note _ d _) | UPrim (Rest d) => d
  | _ => None
  end.

(** util.go:312-325, setNoteOrRestDuration. *)
Definition set_nr_dur (d : duration) (u : update) : update :=
  match u with
  | UPrim (Note p _ sl) => UPrim (Note p d sl)
  | UPrim (Rest _) => UPrim (Rest d)
  | _ => u
  end.

Definition is_cbar (c : component) : bool := match c with CBar => true | _ => false end.

(** util.go:327-342, isOrContainsBarline. *)
Definition has_bar (u : update) : bool :=
  match u with
  | UBarline => true
  | _ => existsb is_cbar (dcomps (nr_dur u))
  end.

(** util.go:37-65 and 67-92: the type assertions on the event of a repeat and
    of an ending.  Without a sequence there, the first traversal panics. *)
Fixpoint nested_ok (u : update) : bool :=
  let all := (fix go (l : list update) : bool :=
                match l with [] => true | x :: t => nested_ok x && go t end) in
  match u with
  | URepeat (USeq es) _ | UOnReps _ (USeq es) | UChord es | USeq es => all es
  | URepeat _ _ | UOnReps _ _ => false
  | _ => true
  end.

(** util.go:163-175, removeBarline: [Some] when the last component is a
    barline; an emptied slice becomes nil. *)
Definition remove_bar (d : duration) : option duration :=
  match d with
  | None => None
  | Some l => match rev l with
              | CBar :: r => Some (match r with [] => None | _ => Some (rev r) end)
              | _ => None
              end
  end.

(** util.go:155-209, standardizeBarlines.  Go walks the slice backwards and
    inserts; element by element the result is the same. *)
Fixpoint std_upd (u : update) : list update :=
  let go := (fix go (l : list update) : list update :=
               match l with [] => [] | x :: t => std_upd x ++ go t end) in
  match u with
  | UPrim (Note p d sl) =>
      match remove_bar d with
      | Some d' => [UPrim (Note p d' sl); UBarline]
      | None => [u]
      end
  | UPrim (Rest d) =>
      match remove_bar d with
      | Some d' => [UPrim (Rest d'); UBarline]
      | None => [u]
      end
  | URepeat (USeq es) n => [URepeat (USeq (go es)) n]
  | UOnReps rs (USeq es) => [UOnReps rs (USeq (go es))]
  | UChord es => [UChord (go es)]
  | USeq es => [USeq (go es)]
  | _ => [u]
  end.
Fixpoint std_list (l : list update) : list update :=
  match l with [] => [] | x :: t => std_upd x ++ std_list t end.

(** optimizer.go:65-118: the function [modify] of removeRedundantAccidentals. *)
Definition acc_modify (o : opt_state) (u : update) : opt_state * update :=
  let (o1, u1) :=
    match u with
    | UPrim (Attr (PKey k)) =>
        (if same_key (o_key o) k then o else Opt [] (o_dur o) (o_oct o) k, u)
    | UPrim (Note (PLetter l accs) d sl) =>
        if same_accs accs (ks_get (o_key o) l) then
          if existsb (letter_eqb l) (o_notes o) then (o, u)
          else (o, UPrim (Note (PLetter l None) d sl))
        else (Opt (l :: o_notes o) (o_dur o) (o_oct o) (o_key o), u)
    | _ => (o, u)
    end in
  (if has_bar u1 then reset_notes o1 else o1, u1).

(** optimizer.go:60-134, removeRedundantAccidentals. *)
Fixpoint acc_upd (o : opt_state) (u : update) : opt_state * update :=
  let go := (fix go (o : opt_state) (l : list update) : opt_state * list update :=
               match l with
               | [] => (o, [])
               | x :: t => let (o1, x') := acc_upd o x in
                           let (o2, t') := go o1 t in (o2, x' :: t')
               end) in
  match u with
  | URepeat (USeq es) n => let (o', es') := go o es in (o', URepeat (USeq es') n)
  | UOnReps rs (USeq es) => let (o', es') := go o es in (o', UOnReps rs (USeq es'))
  | UChord es => let (o', es') := go o es in (o', UChord es')
  | USeq es => let (o', es') := go o es in (o', USeq es')
  | _ => acc_modify o u
  end.
Fixpoint acc_list (o : opt_state) (l : list update) : opt_state * list update :=
  match l with
  | [] => (o, [])
  | x :: t => let (o1, x') := acc_upd o x in
              let (o2, t') := acc_list o1 t in (o2, x' :: t')
  end.

(** util.go:267-299, toLetterAndAccidentalsAndOctave.  [/] and [%] truncate
    towards zero; the loop over the (unordered) map keeps the letter with the
    largest interval not above the remainder, starting from C. *)
Definition laa_letter (rem : Z) : letter :=
  fold_left (fun best l => if (letter_interval l <=? rem) && (letter_interval best <? letter_interval l)
                           then l else best) [LA; LB; LC; LD; LE; LF; LG] LC.
Definition laa (n : Z) : letter * option (list accidental) * Z :=
  let m := wrap32 (n - 24) in
  let rem := Z.rem m 12 in
  let l := laa_letter rem in
  (l, match Z.to_nat (rem - letter_interval l) with
      | O => None
      | k => Some (repeat Sharp k)
      end, wrap32 (Z.quot m 12 + 1)).

(** optimizer.go:187-247, translateMidiNotePitches.  Go collects the octave
    changes and inserts them afterwards, each before its note. *)
Fixpoint mid_upd (o : opt_state) (u : update) : opt_state * list update :=
  let go := (fix go (o : opt_state) (l : list update) : opt_state * list update :=
               match l with
               | [] => (o, [])
               | x :: t => let (o1, x') := mid_upd o x in
                           let (o2, t') := go o1 t in (o2, x' ++ t')
               end) in
  match u with
  | UPrim (Note (PMidi n) d sl) =>
      let '(l, accs, oct) := laa n in
      let u' := UPrim (Note (PLetter l accs) d sl) in
      (if has_bar u' then reset_oct o else set_ooct oct o,
       if oct =? o_oct o then [u'] else [UPrim (Attr (POctave oct)); u'])
  | URepeat (USeq es) n =>
      let (o', es') := go (reset_oct o) es in (reset_oct o', [URepeat (USeq es') n])
  | UOnReps rs (USeq es) =>
      let (o', es') := go (reset_oct o) es in (reset_oct o', [UOnReps rs (USeq es')])
  | UChord es => let (o', es') := go (reset_oct o) es in (reset_oct o', [UChord es'])
  | USeq es => let (o', es') := go (reset_oct o) es in (reset_oct o', [USeq es'])
  | _ => (if has_bar u then reset_oct o else o, [u])
  end.
Fixpoint mid_list (o : opt_state) (l : list update) : opt_state * list update :=
  match l with
  | [] => (o, [])
  | x :: t => let (o1, x') := mid_upd o x in
              let (o2, t') := mid_list o1 t in (o2, x' ++ t')
  end.

(** optimizer.go:144-165: the function [modify] of removeRedundantDurations. *)
Definition dur_modify (o : opt_state) (u : update) : opt_state * update :=
  if has_bar u then (reset_dur o, u)
  else
    let d := nr_dur u in
    match dcomps d with
    | [] => (o, u)
    | _ =>
        (set_odur d o,
         match dcomps (o_dur o) with
         | [] => u
         | _ => if same_dur (o_dur o) d then set_nr_dur None u else u
         end)
    end.

(** optimizer.go:136-185, removeRedundantDurations. *)
Fixpoint dur_upd_opt (o : opt_state) (u : update) : opt_state * update :=
  let go := (fix go (o : opt_state) (l : list update) : opt_state * list update :=
               match l with
               | [] => (o, [])
               | x :: t => let (o1, x') := dur_upd_opt o x in
                           let (o2, t') := go o1 t in (o2, x' :: t')
               end) in
  match u with
  | URepeat (USeq es) n => let (o', es') := go (reset_dur o) es in (reset_dur o', URepeat (USeq es') n)
  | UOnReps rs (USeq es) => let (o', es') := go (reset_dur o) es in (reset_dur o', UOnReps rs (USeq es'))
  | UChord es => let (o', es') := go (reset_dur o) es in (reset_dur o', UChord es')
  | USeq es => let (o', es') := go (reset_dur o) es in (reset_dur o', USeq es')
  | _ => dur_modify o u
  end.
Fixpoint dur_list (o : opt_state) (l : list update) : opt_state * list update :=
  match l with
  | [] => (o, [])
  | x :: t => let (o1, x') := dur_upd_opt o x in
              let (o2, t') := dur_list o1 t in (o2, x' :: t')
  end.

(** optimizer.go:249-281, handleUnfinishedRepeats. *)
Definition close_times (n : Z) : Z := if n =? 0 then 1 else n.
Fixpoint close_upd (u : update) : update :=
  let go := (fix go (l : list update) : list update :=
               match l with [] => [] | x :: t => close_upd x :: go t end) in
  match u with
  | URepeat (USeq es) n => URepeat (USeq (go es)) (close_times n)
  | UOnReps rs (USeq es) => UOnReps rs (USeq (go es))
  | UChord es => UChord (go es)
  | USeq es => USeq (go es)
  | _ => u
  end.
Definition close_list : list update -> list update := map close_upd.

(** optimizer.go:283-305, optimize, without the panic of the type assertions. *)
Definition optimize_list (o : opt_state) (us : list update) : opt_state * list update :=
  let u1 := std_list us in
  let (o2, u2) := acc_list o u1 in
  let (o3, u3) := mid_list o2 u2 in
  let (o4, u4) := dur_list o3 u3 in
  (soft_reset o4, close_list u4).

(** optimizer.go:283-305, optimize. *)
Definition optimize (o : opt_state) (us : list update) : res (opt_state * list update) :=
  if forallb nested_ok us then ROk (optimize_list o us)
  else RPanic "interface conversion".

(** importer.go:140-154, isEffectivelyEmpty. *)
Definition effectively_empty (us : list update) : bool :=
  match us with
  | [] => true
  | [URepeat (USeq []) _] => true
  | _ => false
  end.

(** What the handlers of one part ask for, in order: to flush the voices
    collected so far (importer.go:48-91, collapseVoices; [voices] in order of
    voice number, with the flag [end]), or to add an attribute to the part
    (importer.go:235-243, appendPartAttrs, after its flush). *)
Inductive step :=
| SFlush (voices : list (Z * list update)) (end_ : bool)
| SAttr (u : part_update).

(** The loop of importer.go:63-80 over the voices.  [opt] is the optimizer. *)
Fixpoint flush_voices (opt : opt_state -> list update -> opt_state * list update)
                      (o : opt_state) (vs : list (Z * list update)) : opt_state * list update :=
  match vs with
  | [] => (o, [])
  | (n, us) :: t =>
      if effectively_empty us then flush_voices opt o t
      else let (o1, us') := opt o us in
           let (o2, r) := flush_voices opt o1 t in
           (o2, UVoice n :: us' ++ r)
  end.

(** importer.go:48-91, collapseVoices, and importer.go:235-243. *)
Definition do_step (opt : opt_state -> list update -> opt_state * list update)
                   (o : opt_state) (st : step) : opt_state * list update :=
  match st with
  | SFlush [(_, us)] _ => if effectively_empty us then (o, []) else opt o us
  | SFlush vs e =>
      let (o', r) := flush_voices opt o vs in
      (o', if e && negb (forallb (fun v => effectively_empty (snd v)) vs) then r ++ [UVoiceEnd] else r)
  | SAttr u => opt o [UPrim (Attr u)]
  end.
Fixpoint do_steps (opt : opt_state -> list update -> opt_state * list update)
                  (o : opt_state) (l : list step) : list update :=
  match l with
  | [] => []
  | st :: t => let (o', r) := do_step opt o st in r ++ do_steps opt o' t
  end.

(** importer.go:93-102, generateScoreUpdates of a part. *)
Record xml_part := XPart { x_names : list string; x_alias : string; x_steps : list step }.
Definition part_updates (opt : opt_state -> list update -> opt_state * list update)
                        (p : xml_part) : list update :=
  UPart (x_names p) (x_alias p) :: do_steps opt new_opt (x_steps p).

(** importer.go:172-189, generateScoreUpdates of the whole import; the parts
    come in order of their IDs. *)
Definition import_updates (opt : opt_state -> list update -> opt_state * list update)
                          (ps : list xml_part) : list update :=
  flat_map (part_updates opt) ps.
End Importer.
