(** Model of client/model/instruments.go: the table of stock instruments.
    The two lists are copied entry for entry from instruments.go:36-216. *)
From Coq Require Import ZArith List String Bool.
From Verif Require Import Base.
Import ListNotations.
Local Open Scope string_scope.

(** instruments.go:16-20, MidiInstrument. *)
Record instrument := Instr { iname : string; ipatch : Z; iperc : bool }.

(** instruments.go:36-212, midiNonPercussionInstruments: name and aliases. *)
Definition midi_non_percussion : list (string * list string) := [
  ("midi-acoustic-grand-piano", ["midi-piano"; "piano"]);
  ("midi-bright-acoustic-piano", []);
  ("midi-electric-grand-piano", []);
  ("midi-honky-tonk-piano", []);
  ("midi-electric-piano-1", []);
  ("midi-electric-piano-2", []);
  ("midi-harpsichord", ["harpsichord"]);
  ("midi-clavi", ["midi-clavinet"; "clavinet"]);
  ("midi-celesta", ["celesta"; "celeste"; "midi-celeste"]);
  ("midi-glockenspiel", ["glockenspiel"]);
  ("midi-music-box", ["music-box"]);
  ("midi-vibraphone", ["vibraphone"; "vibes"; "midi-vibes"]);
  ("midi-marimba", ["marimba"]);
  ("midi-xylophone", ["xylophone"]);
  ("midi-tubular-bells", ["tubular-bells"]);
  ("midi-dulcimer", ["dulcimer"]);
  ("midi-drawbar-organ", []);
  ("midi-percussive-organ", []);
  ("midi-rock-organ", []);
  ("midi-church-organ", ["organ"]);
  ("midi-reed-organ", []);
  ("midi-accordion", ["accordion"]);
  ("midi-harmonica", ["harmonica"]);
  ("midi-tango-accordion", []);
  ("midi-acoustic-guitar-nylon", ["midi-acoustic-guitar"; "acoustic-guitar"; "guitar"]);
  ("midi-acoustic-guitar-steel", []);
  ("midi-electric-guitar-jazz", []);
  ("midi-electric-guitar-clean", ["electric-guitar-clean"]);
  ("midi-electric-guitar-palm-muted", []);
  ("midi-electric-guitar-overdrive", ["electric-guitar-overdrive"]);
  ("midi-electric-guitar-distorted", ["electric-guitar-distorted"]);
  ("midi-electric-guitar-harmonics", ["electric-guitar-harmonics"]);
  ("midi-acoustic-bass", ["acoustic-bass"; "upright-bass"]);
  ("midi-electric-bass-finger", ["electric-bass-finger"; "electric-bass"]);
  ("midi-electric-bass-pick", ["electric-bass-pick"]);
  ("midi-fretless-bass", ["fretless-bass"]);
  ("midi-bass-slap", []);
  ("midi-bass-pop", []);
  ("midi-synth-bass-1", []);
  ("midi-synth-bass-2", []);
  ("midi-violin", ["violin"]);
  ("midi-viola", ["viola"]);
  ("midi-cello", ["cello"]);
  ("midi-contrabass", ["string-bass"; "arco-bass"; "double-bass"; "contrabass"; "midi-string-bass"; "midi-arco-bass"; "midi-double-bass"]);
  ("midi-tremolo-strings", []);
  ("midi-pizzicato-strings", []);
  ("midi-orchestral-harp", ["harp"; "orchestral-harp"; "midi-harp"]);
  ("midi-timpani", ["timpani"]);
  ("midi-string-ensemble-1", []);
  ("midi-string-ensemble-2", []);
  ("midi-synth-strings-1", []);
  ("midi-synth-strings-2", []);
  ("midi-choir-aahs", []);
  ("midi-voice-oohs", []);
  ("midi-synth-voice", []);
  ("midi-orchestra-hit", []);
  ("midi-trumpet", ["trumpet"]);
  ("midi-trombone", ["trombone"]);
  ("midi-tuba", ["tuba"]);
  ("midi-muted-trumpet", []);
  ("midi-french-horn", ["french-horn"]);
  ("midi-brass-section", []);
  ("midi-synth-brass-1", []);
  ("midi-synth-brass-2", []);
  ("midi-soprano-saxophone", ["midi-soprano-sax"; "soprano-saxophone"; "soprano-sax"]);
  ("midi-alto-saxophone", ["midi-alto-sax"; "alto-saxophone"; "alto-sax"]);
  ("midi-tenor-saxophone", ["midi-tenor-sax"; "tenor-saxophone"; "tenor-sax"]);
  ("midi-baritone-saxophone", ["midi-baritone-sax"; "midi-bari-sax"; "baritone-saxophone"; "baritone-sax"; "bari-sax"]);
  ("midi-oboe", ["oboe"]);
  ("midi-english-horn", ["english-horn"]);
  ("midi-bassoon", ["bassoon"]);
  ("midi-clarinet", ["clarinet"]);
  ("midi-piccolo", ["piccolo"]);
  ("midi-flute", ["flute"]);
  ("midi-recorder", ["recorder"]);
  ("midi-pan-flute", ["pan-flute"]);
  ("midi-bottle", ["bottle"]);
  ("midi-shakuhachi", ["shakuhachi"]);
  ("midi-whistle", ["whistle"]);
  ("midi-ocarina", ["ocarina"]);
  ("midi-square-lead", ["square"; "square-wave"; "square-lead"; "midi-square"; "midi-square-wave"]);
  ("midi-saw-wave", ["sawtooth"; "saw-wave"; "saw-lead"; "midi-sawtooth"; "midi-saw-lead"]);
  ("midi-calliope-lead", ["calliope-lead"; "calliope"; "midi-calliope"]);
  ("midi-chiffer-lead", ["chiffer-lead"; "chiffer"; "chiff"; "midi-chiffer"; "midi-chiff"]);
  ("midi-charang", ["charang"]);
  ("midi-solo-vox", []);
  ("midi-fifths", ["midi-sawtooth-fifths"]);
  ("midi-bass-and-lead", ["midi-bass+lead"]);
  ("midi-synth-pad-new-age", ["midi-pad-new-age"; "midi-new-age-pad"]);
  ("midi-synth-pad-warm", ["midi-pad-warm"; "midi-warm-pad"]);
  ("midi-synth-pad-polysynth", ["midi-pad-polysynth"; "midi-polysynth-pad"]);
  ("midi-synth-pad-choir", ["midi-pad-choir"; "midi-choir-pad"]);
  ("midi-synth-pad-bowed", ["midi-pad-bowed"; "midi-bowed-pad"; "midi-pad-bowed-glass"; "midi-bowed-glass-pad"]);
  ("midi-synth-pad-metallic", ["midi-pad-metallic"; "midi-metallic-pad"; "midi-pad-metal"; "midi-metal-pad"]);
  ("midi-synth-pad-halo", ["midi-pad-halo"; "midi-halo-pad"]);
  ("midi-synth-pad-sweep", ["midi-pad-sweep"; "midi-sweep-pad"]);
  ("midi-fx-rain", ["midi-fx-ice-rain"; "midi-rain"; "midi-ice-rain"]);
  ("midi-fx-soundtrack", ["midi-soundtrack"]);
  ("midi-fx-crystal", ["midi-crystal"]);
  ("midi-fx-atmosphere", ["midi-atmosphere"]);
  ("midi-fx-brightness", ["midi-brightness"]);
  ("midi-fx-goblins", ["midi-fx-goblin"; "midi-goblins"; "midi-goblin"]);
  ("midi-fx-echoes", ["midi-fx-echo-drops"; "midi-echoes"; "midi-echo-drops"]);
  ("midi-fx-sci-fi", ["midi-sci-fi"]);
  ("midi-sitar", ["sitar"]);
  ("midi-banjo", ["banjo"]);
  ("midi-shamisen", ["shamisen"]);
  ("midi-koto", ["koto"]);
  ("midi-kalimba", ["kalimba"]);
  ("midi-bagpipes", ["bagpipes"]);
  ("midi-fiddle", []);
  ("midi-shehnai", ["shehnai"; "shahnai"; "shenai"; "shanai"; "midi-shahnai"; "midi-shenai"; "midi-shanai"]);
  ("midi-tinkle-bell", ["midi-tinker-bell"]);
  ("midi-agogo", []);
  ("midi-steel-drums", ["midi-steel-drum"; "steel-drums"; "steel-drum"]);
  ("midi-woodblock", []);
  ("midi-taiko-drum", []);
  ("midi-melodic-tom", []);
  ("midi-synth-drum", []);
  ("midi-reverse-cymbal", []);
  ("midi-guitar-fret-noise", []);
  ("midi-breath-noise", []);
  ("midi-seashore", []);
  ("midi-bird-tweet", []);
  ("midi-telephone-ring", []);
  ("midi-helicopter", []);
  ("midi-applause", []);
  ("midi-gunshot", ["midi-gun-shot"])
].

(** instruments.go:214-216, midiPercussionInstruments. *)
Definition midi_percussion : list (string * list string) := [
  ("midi-percussion", ["percussion"])
].

(** instruments.go:236-245: the entries contributed by one row; [i] is the
    index in the table, which becomes the patch number. *)
Fixpoint np_entries (i : Z) (rows : list (string * list string)) : list (string * instrument) :=
  match rows with
  | [] => []
  | (n, al) :: t =>
      map (fun k => (k, Instr n i false)) (n :: al) ++ np_entries (i + 1)%Z t
  end.

(** instruments.go:247-255. *)
Definition perc_entries (rows : list (string * list string)) : list (string * instrument) :=
  flat_map (fun '(n, al) => map (fun k => (k, Instr n 0%Z true)) (n :: al)) rows.

(** instruments.go:234-256: the init loop fills a map by assignment, so a later
    assignment to the same key wins. *)
Definition stock_instruments : list (string * instrument) :=
  fold_left (fun m '(k, v) => aset String.eqb k v m)
            (np_entries 0%Z midi_non_percussion ++ perc_entries midi_percussion) [].

(** instruments.go:263-271, stockInstrument. *)
Definition stock_instrument (id : string) : option instrument :=
  aget String.eqb id stock_instruments.

(** instruments.go:278-285, stockInstrumentName. *)
Definition stock_instrument_name (id : string) : option string :=
  option_map iname (stock_instrument id).

(** instruments.go:220-232, InstrumentsList. *)
Definition instruments_list : list string :=
  map fst midi_non_percussion ++ map fst midi_percussion.
