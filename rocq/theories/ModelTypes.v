(** The data types of client/model: part updates, score updates, Lisp forms,
    parts, note events and scores.  Source contexts (file, line, column) are
    omitted everywhere: they only decorate error messages. *)
From Coq Require Import ZArith List String Bool.
From Verif Require Import Base Num ModelPitch ModelDuration ModelInstruments.
Import ListNotations.
Local Open Scope Z_scope.

Section Types.
Context {N : Num}.

(** attributes.go:230-516, the PartUpdate implementations. *)
Inductive part_update :=
| PTempo (t : num)            (* TempoSet *)
| PMetric (ratio : num)       (* MetricModulation *)
| POctave (n : Z)             (* OctaveSet *)
| POctUp                      (* OctaveUp *)
| POctDown                    (* OctaveDown *)
| PVolume (v : num)           (* VolumeSet *)
| PTrackVol (v : num)         (* TrackVolumeSet *)
| PDynamic (m : string)       (* DynamicMarking *)
| PPan (v : num)              (* PanningSet *)
| PQuant (v : num)            (* QuantizationSet *)
| PDurSet (d : duration)      (* DurationSet *)
| PKey (k : keysig)           (* KeySignatureSet *)
| PTransp (n : Z)             (* TranspositionSet *)
| PRefPitch (f : num)         (* ReferencePitchSet *)
| PChannel (n : Z).           (* MidiChannelSet *)

(** The dynamic type of a PartUpdate, as compared by reflect.TypeOf
    (attributes.go:145). *)
Inductive pu_kind :=
| KTempo | KMetric | KOctave | KOctUp | KOctDown | KVolume | KTrackVol | KDynamic
| KPan | KQuant | KDurSet | KKey | KTransp | KRefPitch | KChannel.

Definition kind_of (u : part_update) : pu_kind :=
  match u with
  | PTempo _ => KTempo | PMetric _ => KMetric | POctave _ => KOctave
  | POctUp => KOctUp | POctDown => KOctDown | PVolume _ => KVolume
  | PTrackVol _ => KTrackVol | PDynamic _ => KDynamic | PPan _ => KPan
  | PQuant _ => KQuant | PDurSet _ => KDurSet | PKey _ => KKey
  | PTransp _ => KTransp | PRefPitch _ => KRefPitch | PChannel _ => KChannel
  end.

Definition kind_eqb (a b : pu_kind) : bool :=
  match a, b with
  | KTempo, KTempo | KMetric, KMetric | KOctave, KOctave | KOctUp, KOctUp
  | KOctDown, KOctDown | KVolume, KVolume | KTrackVol, KTrackVol
  | KDynamic, KDynamic | KPan, KPan | KQuant, KQuant | KDurSet, KDurSet
  | KKey, KKey | KTransp, KTransp | KRefPitch, KRefPitch | KChannel, KChannel => true
  | _, _ => false
  end.

(** The score updates that evaluating a Lisp form can produce:
    note.go:10-17 (Note), note.go:212-215 (Rest), attributes.go:14-17
    (AttributeUpdate), attributes.go:171-174 (GlobalAttributeUpdate). *)
Inductive prim :=
| Note (p : pitch) (d : duration) (slurred : bool)
| Rest (d : duration)
| Attr (u : part_update)
| GAttr (u : part_update).

(** lisp.go: the LispForm implementations that occur as values or syntax.
    LispAny and LispVariadic only occur in signatures. *)
Inductive lform :=
| LNil
| LQuoted (f : lform)
| LSym (s : string)
| LNum (n : num)
| LStr (s : string)
| LUpd (p : prim)          (* LispScoreUpdate *)
| LPitch (p : pitch)
| LDur (c : component)     (* LispDuration *)
| LList (l : list lform)
| LFun (name : string)     (* LispFunction, all built in *)
| LQuoteForm.              (* LispSpecialFormQuote *)

(** The ScoreUpdate implementations. *)
Inductive update :=
| UPrim (p : prim)
| UNil                                                (* LispNil *)
| ULisp (els : list lform)                            (* LispList *)
| UBarline                                            (* Barline *)
| UChord (es : list update)                           (* chord.go *)
| UCram (es : list update) (d : duration)             (* cram.go *)
| URepeat (e : update) (times : Z)                    (* repeat.go *)
| UOnReps (rs : list (Z * Z)) (e : update)            (* repetitions.go *)
| USeq (es : list update)                             (* event_sequence.go *)
| UMarker (name : string)                             (* marker.go:10 *)
| UAtMarker (name : string)                           (* marker.go:69 *)
| UVarDef (name : string) (es : list update)          (* variable.go:34 *)
| UVarRef (name : string)                             (* variable.go:103 *)
| UVoice (n : Z)                                      (* voice.go:67 *)
| UVoiceEnd                                           (* voice.go:122 *)
| UPart (names : list string) (alias : string).       (* part.go:14 *)

(** A *Part pointer is an index into the score's heap. *)
Definition pid := nat.

(** note.go:41-51, NoteEvent; [ev_part] is the origin part. *)
Record note_event := NoteEvent {
  ev_part : pid; ev_chan : Z; ev_note : Z; ev_off : num; ev_dur : num;
  ev_aud : num; ev_vol : num; ev_tvol : num; ev_pan : num }.

(** part.go:38-89, Part.  The score back-reference is omitted (the score is a
    separate argument of every function). *)
Record part := Part {
  pname : string  (* Name *);
  pstock : instrument  (* StockInstrument *);
  pmaster : bool  (* TempoRole == Master *);
  ptempo : num  (* Tempo *);
  pkey : keysig  (* KeySignature *);
  ptransp : Z  (* Transposition *);
  prefpitch : num  (* ReferencePitch *);
  pcur : num  (* CurrentOffset *);
  plast : num  (* LastOffset *);
  poctave : Z  (* Octave *);
  pvol : num  (* Volume *);
  ptvol : num  (* TrackVolume *);
  ppan : num  (* Panning *);
  pchan : Z  (* MidiChannel *);
  pexplicit : bool  (* HasExplicitMidiChannel *);
  pquant : num  (* Quantization *);
  pdur : duration  (* Duration *);
  pscale : num  (* TimeScale *);
  ptvals : list (num * num)  (* TempoValues *);
  povr : option part_update  (* localAttributeOverride *);
  prep : Z  (* currentRepetition *);
  ptmpl : option pid  (* voiceTemplate *);
  porigin : pid  (* origin *);
  pvoices : nat  (* voices *) }.

(** attributes.go:64-69, GlobalAttributes: a map from offset to updates and the
    sorted list of its offsets. *)
Record global_attrs := GA {
  ga_itin : list (num * list part_update);
  ga_offs : list num }.

(** score.go:50-62, Score.  Pointers are heap indices. *)
Record score := Score {
  heap : list part  (* the memory cells of all *Part ever allocated *);
  vheap : list (list (Z * pid))  (* the memory cells of all *Voices *);
  parts : list pid  (* Parts *);
  current : list pid  (* CurrentParts *);
  aliases : list (string * list pid)  (* Aliases *);
  events : list note_event  (* Events *);
  globals : global_attrs  (* GlobalAttributes *);
  markers : list (string * num)  (* Markers *);
  variables : list (string * list update)  (* Variables *);
  usage : list (list pid)  (* midiChannelUsage *);
  chordmode : bool  (* chordMode *) }.

(** Functional field updates. *)
Definition set_pname (v : string) (r : part) : part :=
  Part v (pstock r) (pmaster r) (ptempo r) (pkey r) (ptransp r) (prefpitch r) (pcur r) (plast r) (poctave r) (pvol r) (ptvol r) (ppan r) (pchan r) (pexplicit r) (pquant r) (pdur r) (pscale r) (ptvals r) (povr r) (prep r) (ptmpl r) (porigin r) (pvoices r).
Definition set_pstock (v : instrument) (r : part) : part :=
  Part (pname r) v (pmaster r) (ptempo r) (pkey r) (ptransp r) (prefpitch r) (pcur r) (plast r) (poctave r) (pvol r) (ptvol r) (ppan r) (pchan r) (pexplicit r) (pquant r) (pdur r) (pscale r) (ptvals r) (povr r) (prep r) (ptmpl r) (porigin r) (pvoices r).
Definition set_pmaster (v : bool) (r : part) : part :=
  Part (pname r) (pstock r) v (ptempo r) (pkey r) (ptransp r) (prefpitch r) (pcur r) (plast r) (poctave r) (pvol r) (ptvol r) (ppan r) (pchan r) (pexplicit r) (pquant r) (pdur r) (pscale r) (ptvals r) (povr r) (prep r) (ptmpl r) (porigin r) (pvoices r).
Definition set_ptempo (v : num) (r : part) : part :=
  Part (pname r) (pstock r) (pmaster r) v (pkey r) (ptransp r) (prefpitch r) (pcur r) (plast r) (poctave r) (pvol r) (ptvol r) (ppan r) (pchan r) (pexplicit r) (pquant r) (pdur r) (pscale r) (ptvals r) (povr r) (prep r) (ptmpl r) (porigin r) (pvoices r).
Definition set_pkey (v : keysig) (r : part) : part :=
  Part (pname r) (pstock r) (pmaster r) (ptempo r) v (ptransp r) (prefpitch r) (pcur r) (plast r) (poctave r) (pvol r) (ptvol r) (ppan r) (pchan r) (pexplicit r) (pquant r) (pdur r) (pscale r) (ptvals r) (povr r) (prep r) (ptmpl r) (porigin r) (pvoices r).
Definition set_ptransp (v : Z) (r : part) : part :=
  Part (pname r) (pstock r) (pmaster r) (ptempo r) (pkey r) v (prefpitch r) (pcur r) (plast r) (poctave r) (pvol r) (ptvol r) (ppan r) (pchan r) (pexplicit r) (pquant r) (pdur r) (pscale r) (ptvals r) (povr r) (prep r) (ptmpl r) (porigin r) (pvoices r).
Definition set_prefpitch (v : num) (r : part) : part :=
  Part (pname r) (pstock r) (pmaster r) (ptempo r) (pkey r) (ptransp r) v (pcur r) (plast r) (poctave r) (pvol r) (ptvol r) (ppan r) (pchan r) (pexplicit r) (pquant r) (pdur r) (pscale r) (ptvals r) (povr r) (prep r) (ptmpl r) (porigin r) (pvoices r).
Definition set_pcur (v : num) (r : part) : part :=
  Part (pname r) (pstock r) (pmaster r) (ptempo r) (pkey r) (ptransp r) (prefpitch r) v (plast r) (poctave r) (pvol r) (ptvol r) (ppan r) (pchan r) (pexplicit r) (pquant r) (pdur r) (pscale r) (ptvals r) (povr r) (prep r) (ptmpl r) (porigin r) (pvoices r).
Definition set_plast (v : num) (r : part) : part :=
  Part (pname r) (pstock r) (pmaster r) (ptempo r) (pkey r) (ptransp r) (prefpitch r) (pcur r) v (poctave r) (pvol r) (ptvol r) (ppan r) (pchan r) (pexplicit r) (pquant r) (pdur r) (pscale r) (ptvals r) (povr r) (prep r) (ptmpl r) (porigin r) (pvoices r).
Definition set_poctave (v : Z) (r : part) : part :=
  Part (pname r) (pstock r) (pmaster r) (ptempo r) (pkey r) (ptransp r) (prefpitch r) (pcur r) (plast r) v (pvol r) (ptvol r) (ppan r) (pchan r) (pexplicit r) (pquant r) (pdur r) (pscale r) (ptvals r) (povr r) (prep r) (ptmpl r) (porigin r) (pvoices r).
Definition set_pvol (v : num) (r : part) : part :=
  Part (pname r) (pstock r) (pmaster r) (ptempo r) (pkey r) (ptransp r) (prefpitch r) (pcur r) (plast r) (poctave r) v (ptvol r) (ppan r) (pchan r) (pexplicit r) (pquant r) (pdur r) (pscale r) (ptvals r) (povr r) (prep r) (ptmpl r) (porigin r) (pvoices r).
Definition set_ptvol (v : num) (r : part) : part :=
  Part (pname r) (pstock r) (pmaster r) (ptempo r) (pkey r) (ptransp r) (prefpitch r) (pcur r) (plast r) (poctave r) (pvol r) v (ppan r) (pchan r) (pexplicit r) (pquant r) (pdur r) (pscale r) (ptvals r) (povr r) (prep r) (ptmpl r) (porigin r) (pvoices r).
Definition set_ppan (v : num) (r : part) : part :=
  Part (pname r) (pstock r) (pmaster r) (ptempo r) (pkey r) (ptransp r) (prefpitch r) (pcur r) (plast r) (poctave r) (pvol r) (ptvol r) v (pchan r) (pexplicit r) (pquant r) (pdur r) (pscale r) (ptvals r) (povr r) (prep r) (ptmpl r) (porigin r) (pvoices r).
Definition set_pchan (v : Z) (r : part) : part :=
  Part (pname r) (pstock r) (pmaster r) (ptempo r) (pkey r) (ptransp r) (prefpitch r) (pcur r) (plast r) (poctave r) (pvol r) (ptvol r) (ppan r) v (pexplicit r) (pquant r) (pdur r) (pscale r) (ptvals r) (povr r) (prep r) (ptmpl r) (porigin r) (pvoices r).
Definition set_pexplicit (v : bool) (r : part) : part :=
  Part (pname r) (pstock r) (pmaster r) (ptempo r) (pkey r) (ptransp r) (prefpitch r) (pcur r) (plast r) (poctave r) (pvol r) (ptvol r) (ppan r) (pchan r) v (pquant r) (pdur r) (pscale r) (ptvals r) (povr r) (prep r) (ptmpl r) (porigin r) (pvoices r).
Definition set_pquant (v : num) (r : part) : part :=
  Part (pname r) (pstock r) (pmaster r) (ptempo r) (pkey r) (ptransp r) (prefpitch r) (pcur r) (plast r) (poctave r) (pvol r) (ptvol r) (ppan r) (pchan r) (pexplicit r) v (pdur r) (pscale r) (ptvals r) (povr r) (prep r) (ptmpl r) (porigin r) (pvoices r).
Definition set_pdur (v : duration) (r : part) : part :=
  Part (pname r) (pstock r) (pmaster r) (ptempo r) (pkey r) (ptransp r) (prefpitch r) (pcur r) (plast r) (poctave r) (pvol r) (ptvol r) (ppan r) (pchan r) (pexplicit r) (pquant r) v (pscale r) (ptvals r) (povr r) (prep r) (ptmpl r) (porigin r) (pvoices r).
Definition set_pscale (v : num) (r : part) : part :=
  Part (pname r) (pstock r) (pmaster r) (ptempo r) (pkey r) (ptransp r) (prefpitch r) (pcur r) (plast r) (poctave r) (pvol r) (ptvol r) (ppan r) (pchan r) (pexplicit r) (pquant r) (pdur r) v (ptvals r) (povr r) (prep r) (ptmpl r) (porigin r) (pvoices r).
Definition set_ptvals (v : list (num * num)) (r : part) : part :=
  Part (pname r) (pstock r) (pmaster r) (ptempo r) (pkey r) (ptransp r) (prefpitch r) (pcur r) (plast r) (poctave r) (pvol r) (ptvol r) (ppan r) (pchan r) (pexplicit r) (pquant r) (pdur r) (pscale r) v (povr r) (prep r) (ptmpl r) (porigin r) (pvoices r).
Definition set_povr (v : option part_update) (r : part) : part :=
  Part (pname r) (pstock r) (pmaster r) (ptempo r) (pkey r) (ptransp r) (prefpitch r) (pcur r) (plast r) (poctave r) (pvol r) (ptvol r) (ppan r) (pchan r) (pexplicit r) (pquant r) (pdur r) (pscale r) (ptvals r) v (prep r) (ptmpl r) (porigin r) (pvoices r).
Definition set_prep (v : Z) (r : part) : part :=
  Part (pname r) (pstock r) (pmaster r) (ptempo r) (pkey r) (ptransp r) (prefpitch r) (pcur r) (plast r) (poctave r) (pvol r) (ptvol r) (ppan r) (pchan r) (pexplicit r) (pquant r) (pdur r) (pscale r) (ptvals r) (povr r) v (ptmpl r) (porigin r) (pvoices r).
Definition set_ptmpl (v : option pid) (r : part) : part :=
  Part (pname r) (pstock r) (pmaster r) (ptempo r) (pkey r) (ptransp r) (prefpitch r) (pcur r) (plast r) (poctave r) (pvol r) (ptvol r) (ppan r) (pchan r) (pexplicit r) (pquant r) (pdur r) (pscale r) (ptvals r) (povr r) (prep r) v (porigin r) (pvoices r).
Definition set_porigin (v : pid) (r : part) : part :=
  Part (pname r) (pstock r) (pmaster r) (ptempo r) (pkey r) (ptransp r) (prefpitch r) (pcur r) (plast r) (poctave r) (pvol r) (ptvol r) (ppan r) (pchan r) (pexplicit r) (pquant r) (pdur r) (pscale r) (ptvals r) (povr r) (prep r) (ptmpl r) v (pvoices r).
Definition set_pvoices (v : nat) (r : part) : part :=
  Part (pname r) (pstock r) (pmaster r) (ptempo r) (pkey r) (ptransp r) (prefpitch r) (pcur r) (plast r) (poctave r) (pvol r) (ptvol r) (ppan r) (pchan r) (pexplicit r) (pquant r) (pdur r) (pscale r) (ptvals r) (povr r) (prep r) (ptmpl r) (porigin r) v.
Definition set_heap (v : list part) (r : score) : score :=
  Score v (vheap r) (parts r) (current r) (aliases r) (events r) (globals r) (markers r) (variables r) (usage r) (chordmode r).
Definition set_vheap (v : list (list (Z * pid))) (r : score) : score :=
  Score (heap r) v (parts r) (current r) (aliases r) (events r) (globals r) (markers r) (variables r) (usage r) (chordmode r).
Definition set_parts (v : list pid) (r : score) : score :=
  Score (heap r) (vheap r) v (current r) (aliases r) (events r) (globals r) (markers r) (variables r) (usage r) (chordmode r).
Definition set_current (v : list pid) (r : score) : score :=
  Score (heap r) (vheap r) (parts r) v (aliases r) (events r) (globals r) (markers r) (variables r) (usage r) (chordmode r).
Definition set_aliases (v : list (string * list pid)) (r : score) : score :=
  Score (heap r) (vheap r) (parts r) (current r) v (events r) (globals r) (markers r) (variables r) (usage r) (chordmode r).
Definition set_events (v : list note_event) (r : score) : score :=
  Score (heap r) (vheap r) (parts r) (current r) (aliases r) v (globals r) (markers r) (variables r) (usage r) (chordmode r).
Definition set_globals (v : global_attrs) (r : score) : score :=
  Score (heap r) (vheap r) (parts r) (current r) (aliases r) (events r) v (markers r) (variables r) (usage r) (chordmode r).
Definition set_markers (v : list (string * num)) (r : score) : score :=
  Score (heap r) (vheap r) (parts r) (current r) (aliases r) (events r) (globals r) v (variables r) (usage r) (chordmode r).
Definition set_variables (v : list (string * list update)) (r : score) : score :=
  Score (heap r) (vheap r) (parts r) (current r) (aliases r) (events r) (globals r) (markers r) v (usage r) (chordmode r).
Definition set_usage (v : list (list pid)) (r : score) : score :=
  Score (heap r) (vheap r) (parts r) (current r) (aliases r) (events r) (globals r) (markers r) (variables r) v (chordmode r).
Definition set_chordmode (v : bool) (r : score) : score :=
  Score (heap r) (vheap r) (parts r) (current r) (aliases r) (events r) (globals r) (markers r) (variables r) (usage r) v.

(** A part that no code reaches; only used as the default of heap lookups,
    which the well-formedness theorem (C21) shows is never taken. *)
Definition dead_part : part :=
  Part ""%string (Instr ""%string 0 false) false n0 ks_empty 0 n0 n0 n0 0 n0 n0 n0 0 false
       n0 None n0 [] None 0 None 0%nat 0%nat.

(** Reading and writing through a *Part pointer. *)
Definition getp (s : score) (p : pid) : part := nth p (heap s) dead_part.
Definition setp (p : pid) (v : part) (s : score) : score :=
  set_heap (upd_nth p v (heap s)) s.
Definition modp (p : pid) (f : part -> part) (s : score) : score := setp p (f (getp s p)) s.
(** Reading and writing a *Voices cell. *)
Definition getv (s : score) (v : nat) : list (Z * pid) := nth v (vheap s) [].
Definition setv (v : nat) (x : list (Z * pid)) (s : score) : score :=
  set_vheap (upd_nth v x (vheap s)) s.

(** score.go:113-122, NewScore. *)
Definition new_score : score :=
  Score [] [] [] [] [] [] (GA [] []) [] [] (repeat [] 16) false.

(** Outcome of updating a score: no error, an error value, a Go panic, a loop
    that never ends ([Hang]), or the model's own recursion budget exhausted
    ([OutOfFuel], shown unreachable). *)
Inductive outcome :=
| Ok | Err (msg : string) | Panic (msg : string) | Hang | OutOfFuel.
End Types.
