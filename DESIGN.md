# Formal model of alda-lang/alda in Rocq (Coq 8.16.1)

## 1. What is modelled and how

The Go client (`/repo/client`) and the logic of the Kotlin player (`/repo/player`) are modelled,
function by function, as total computable Gallina functions. Every definition in a `Model*.v`
file carries a comment citing the file and lines it models and the simplifications made.

| File | Models |
|---|---|
| `Num.v` | float64 as an abstract interface `Num`; instances `XQ` (exact extended rationals: finite, +Inf, -Inf, NaN) and `B64` (IEEE binary64 through the standard library's `SpecFloat`) |
| `ModelPitch.v` | `model/pitch.go`, `model/key.go` |
| `ModelDuration.v` | `model/duration.go`, `model/barline.go` |
| `ModelInstruments.v` | `model/instruments.go` (the full table) |
| `ModelScore.v` | `model/score.go note.go part.go voice.go attributes.go midi.go chord.go cram.go repeat.go repetitions.go event_sequence.go marker.go variable.go` |
| `ModelLisp.v` | `model/lisp.go` |
| `ModelOsc.v` | `transmitter/osc.go transmitter.go` |
| `ModelApply.v` | `player/.../Player.kt`: `applyUpdates`, `awaitActiveTasks`, the packets' thread and the threads of the tracks, interleaved message by message |
| `ModelRepl.v` | `repl/server.go` |
| `ModelReplClient.v` | `repl/client.go`: input lines, commands, requests and answers (not the terminal, help texts, history or the first connection) |
| `ModelPlayer.v` | `player/.../MidiEngine.kt Player.kt Parser.kt Events.kt StateManager.kt` |
| `ModelScan.v`, `ModelParser.v`, `ModelAst.v` | `parser/scanner.go`, `parser/parser.go`, `parser/ast.go` |
| `ModelUtf8.v` | the conversion of the input's bytes to runes (`[]rune(input)`, `parser/scanner.go`) |
| `ModelFormat.v` | `parser/format.go` (printing of numbers, `strconv.FormatFloat`, is a parameter) |
| `ModelGen.v` | `parser/gen.go`, `KeySignature.String` of `model/key.go` (map order a parameter) |
| `ModelImporter.v` | `interop/musicxml/importer/optimizer.go`, the parts of `util.go` it uses, `importer.go` (`collapseVoices`, `generateScoreUpdates`) |
| `ModelMusicXml.v` | `interop/musicxml/importer/handlers.go importer.go util.go nested_index.go` (a document is a tree of elements; map orders and the reading of non-digit numbers are parameters) |
| `ModelPool.v` | `system/process_management.go` and the state files |
| `ModelCommand.v` | `cmd/play.go stop.go shutdown.go export.go` (the commands as a whole) |
| `ModelFormatCommand.v`, `ModelImportCommand.v` | `cmd/format.go`, `cmd/import.go` (files and system calls are parameters) |
| `ModelTelemetry.v` | `cmd/telemetry.go`, the part of `cmd/root.go` around it, as concurrent processes |
| `ModelShowTree.v` | `parser/ast.go`: `HumanReadableAST`, `JSON`, `String` |
| `ModelBox.v` | `text/formatting.go`: `Boxed` |
| `ModelPrompt.v` | `text/interaction.go`, `promptAndInstallVersion` of `cmd/update.go` |
| `ModelDoctor.v` | `installCorrectAldaPlayerVersion` of `cmd/update.go`, the two steps of `cmd/doctor.go` about installing the player |
| `ModelPlayerVersion.v` | `AldaPlayerPath` of `system/process_management.go` |
| `ModelTypes.v` | the data types of `model/*.go` |

`Spec*.v` files hold small specifications written without reference to the model's helpers,
`Proof*.v` files hold the proofs, `Properties*.v` files hold only the property theorems (closed
by `exact`), each followed by `Print Assumptions`, and examples showing that the hypotheses are
met by concrete, non-trivial cases.

### Modelling decisions

* **Pointers.** `*Part` and `*Voices` values are indices into heaps kept in the score
  (`heap`, `vheap`), because the code compares parts by pointer and replaces part objects by
  clones (voices). Pointer equality is index equality. Slices are lists. The sharing of one
  backing array between `CurrentParts` and an alias entry is not modelled (it is only observable
  through the JSON view while a voice group is open; at the end of the group every entry with
  the same origin is overwritten anyway).
* **Errors.** An update returns the new score together with `Ok`, `Err`, `Panic` or `OutOfFuel`:
  Go keeps the mutations made before an error, so does the model.
* **Numbers.** `int32` is `Z` with explicit wrap-around (`wrap32`). `float64` is an arbitrary
  instance of the class `Num` (a bare record of operations without laws): structural theorems are
  proved for *every* instance, hence also for IEEE binary64. Theorems that need arithmetic are
  stated for exact extended rationals `XQ` (no rounding, no overflow, one zero, but
  with Inf/NaN and division by zero as in IEEE).
* **Recursion.** Updates are a nested inductive type, the interpreter is structurally recursive;
  following a variable reference costs one unit of fuel; running out is the explicit outcome
  `OutOfFuel`, proved unreachable (C16).
* **Maps.** Go maps are association lists with the same lookup/insert behaviour; where Go
  iterates over a map, the result is order independent or the model is parameterised by the order.
* **sort.Slice.** Modelled as *any* permutation sorted by the comparison function (relation), the
  theorems hold for all of them.
* **External effects** (sockets, processes, clock) are parameters (oracles) of the models.

## 2. Plan per property

* C01-C03 (channels, playable notes): invariant on the heap, channel usage table and event list;
  preserved by every update (induction on the update, any fuel); lifted to all reachable scores.
* C04, C05: induction on updates; prefix order on event lists; algebra of `run_list`.
* C06-C08: closed forms over lists of notes/rests by induction, exact rationals.
* C09: chord closed form by induction over members. C10-C11: cram: telescoping sum of scaled
  durations over `XQ`.
* C12, C13: unrolling; per-repetition selection function as spec.
* C14: two-run lockstep between the group run and the solo run (`ProofSolo.v`: what each part
  does; `ProofSoloOk.v`: the solo run succeeds too, since the group's channel is free for it);
  the version with endings and the converse are refuted by witnesses.
* C15, C16: closedness invariant on the variable store, fuel monotonicity.
* C17, C18: the sorted itinerary as a list; windows partition half-open intervals.
* C19-C21: heap invariant for voices, frame lemmas. C22-C23: invariants over declarations.
* C24-C28: direct computation and induction over accidental lists / components.
* C29-C35: the bundle as a fold over any sorted permutation; spec = filter/map, state replay.
* C36-C40: tempo itinerary invariants; per-track batch fold with arbitrary clock; interleaving
  model with explicit steps for clear; message codec.
* C41-C43: REPL state machine over abstract parser, the score model and transmissions.
* C44-C46: scanner/parser/formatter functions on character lists, fuel by input length.
* C46: the formatter's calls carry the tokens they write; well-formedness of what was written and line numbers
  are invariants of the calls; induction on the grammar of C45 shows that what is written reads as the same tree.
* C52-C53: conversion of syntax trees, by induction on the grammar of C45; C52 then uses C21.
* C54: generated trees: induction on updates, with the updates of the voice group being built as invariant; induction on
  the grammar of C45 shows that the updates of a text can be written and that the same tree is built.
* C47: evaluator and signature matching.
* C48: each optimizer pass is a simulation between runs of the events before and after it, relating scores that
  differ only in what is overwritten before it can be heard; the four passes compose.  Whole files: the relation is a
  congruence for opening, running and ending voices, declaring parts and setting part attributes; induction on the
  steps of a part and on the parts.
* C55: the loop that splits a length into note values, in rational arithmetic: a grid on which the tolerances are exact,
  and a bound for all other lengths.
* C56: a reader of scores by cursor (`SpecXmlScore.v`) against the importer.  Invariant of a part while it is read: every
  voice's updates play the sounds read so far, end at the voice's beat count and leave the octave the importer
  believes; every step of the importer keeps it.  The parts' updates, cleaned by C48, are then played: instruments are
  new, so parts do not meet.
* C49-C50: pool/expiry state machines with oracles for pings and clocks.
* C57: a relation for sessions of the REPL client with a server that others use too, late and lost answers, and files.
  Invariant: every unread answer carries the ID of an earlier request, so that a matching ID means the answer is one's
  own.  What a line asks for is read off its command.  `:load` after `:save` is C43's replay argument.
* C58: the scanner is shown to treat a newline as the end of any token it may stand after, except an octave letter without
  a number, so the tokens of joined texts are the joined tokens; the parser is shown to read the first text's events
  and then go on where it would have started, by induction on fuel with the state of open voices and definitions.
  `decode` is proved the inverse of UTF-8 encoding.  This discharges, for the real compiler, the line by line hypothesis
  of `C43_reproduces` and `C57_reload`.
* C59: a small-step relation for the player process (the packets' thread, and for each track its queue, its threads and its lock, down to single
  messages added to the sequence). An invariant relates the sequence to a log of who added what; the log, track by track, is what the bundle says,
  and a stable insertion by ticks keeps what matters per channel. Termination by a measure that every step of the player decreases. Hypotheses
  about conversion of offsets to ticks are discharged for exact numbers (`C59_exact`), for doubles they are stated.
* C60: `SpecTime.v` says, independently of the player, when a tick of a MIDI sequence of 128 ticks per quarter note sounds (sum over its tempo
  messages). By induction over the history of tempo changes that time stays within the slack of the offset asked for; files by a lemma on
  sequences cut at their first note.
* C61: one invariant of levels (`ProofLevels.v`), with the set of levels a parameter, carried through parts, globals, variables, notes and
  updates; `ProofWritten.v` carries it from the numbers of a text to the updates the compiler makes of it; every number scanned is finite, so the
  levels are in [0, 1] and round to bytes. Tempo messages are a sorted image of the itinerary (C33), so chronological, and C59/C60 apply.
  Exact numbers only; C64 has the MIDI values for doubles.
* C62: `ModelUpdate.v` models the update as a program of file operations on a directory, each of which may fail, interleaved with any number of
  processes cleaning up; a crash is a prefix of a run. Invariant: the assets before the current one are done, those after it untouched, and
  the current one is at a stage that says what is under its name. The regular expression is proved to accept exactly `mentions_old`.
  Directories inside Alda's directory, permissions other than the execute bit, and two updates at the same time are left out.
* C63: `ModelManage.v` models the loop and the handler as two programs whose steps are the accesses to `server.player` and the calls to the
  outside; answers are chosen by the schedule. Four invariants over the events so far. Assignments of a `PlayerState` are taken to be atomic;
  the port that messages are sent to is identified with the player it was read from.
* C64: the model's doubles are the standard library's `SpecFloat`; `ProofIeee.v` shows that its operations are those of Flocq's
  `BinarySingleNaN`, whose correctness theorems (each result is the rounding of the exact one) and monotonicity of rounding do the rest.
  The ticks of an entry are a double rounded to a whole number, so converting them to a double and back changes nothing, also above 2^53 and
  at the end of the range. For the MIDI values the proof of C61 is repeated with doubles between 0 and 1. These theorems rest on the
  standard library's axioms of the real numbers (section 5).
* C65: the commands are functions from a command line and a world (files, standard input, known players, which one becomes available when,
  outcome of each message, states of the output file while it is awaited) to the messages, output and ending. The texts are compiled and
  executed by the model of C52 and C11; what is sent is specified by the relation of C29-C34, which the proof passes through as a
  hypothesis about the world (met by the model's transmitter: `a_bundle_ok`). Not modelled: log output, the colours, the Windows cases.
  `-c ""` is the same as no `-c`, here as in the code, so `alda play -c ""` resumes playback.
* C66: processes are small-step machines (one system call per step, each with an outcome chosen by the environment) that share the
  status file; a history is any sequence of starts, steps, sending of pending requests and kills. The claims are invariants relating the
  file, the places of all processes and the events so far. Nobody but alda writes or removes the file, except where a history begins with
  other contents.
* C67: the command as a function from flags, disk behaviour and the old text to all contents the file goes through; C46 does the rest.
* C68: a frame invariant on the primitive steps (a section touches only the current parts, their origins, events and channels) and a
  relation between the run of the score and the run of one part on its own, kept by declarations (which look at names, aliases and
  instruments only) and, with the machinery of C14, by the sections that the part takes part in. Chord mode is off between updates.
* C69: for every event as it reads, its tokens and a derivation in the grammar of C45's specification; the printer of C46 gives those tokens
  back in any layout, C54 gives the updates of the tree, and the printer gets the same operations for the score as written and as read.
  That both play the same is shown with the relation of C48 (equal up to barlines in a part's last length).
  Together with C56 this gives the notes of the document for the text of its import (`C69_document`, for imports of this kind).
* C70: the command as a function from flags, environment and all files to all states the files go through; C69 and C56 do the rest. Reading
  the XML text itself (etree) is a parameter.
* C71: lines are cut at newlines, depth, type, position and literal are read back from a line, and the tree from the depths. Which kind of
  literal a node has follows from its type for every tree of C45's grammar, by induction on derivations.
* C72: splitting is the inverse of joining; the rest is counting. Removing terminal codes (stripansi) is a parameter.
* C73: by induction on the lines typed. Blanks and small letters outside ASCII are parameters; of the letters it is assumed that none but
  those of i and k has a small letter in ASCII, as in Unicode.
* C74: by cases on what is found, with C73 for the questions. What is found before and after, whether an installation succeeds (C62 is about
  its steps), and what each question reads are parameters.
* C75: the leftmost match of the regular expression is characterized by induction on the output. The PATH and the output are parameters.

## 3. Trusted base

Coq's kernel (no axioms of our own; `Print Assumptions` beneath every theorem says what it rests on;
see section 5), the faithfulness of the model (section 1 and the comments citing the code) and the
simplifications named there. Not modelled: JSON rendering (except as a value in C71), logging, the doctor (except in C74), version and
instruments commands, HTTP, terminal UI of the REPL client, XML decoding, audio output, OS process and socket behaviour
beyond the stated oracles, Go runtime limits (memory, slice capacity).

## 4. Findings

Behaviours of the code for which the obvious full claim is false. Those with a theorem name are
proved on the model with a concrete witness; the statement in `properties.jsonl` names the exception.

| Theorem | Behaviour |
|---|---|
| `C10_unannotated_refuted` | `{{c d}2 e}4` takes too long: the inner duration is measured with a different default length than the one played |
| `C13_nested_refuted` | a repeat inside a repeated body leaves its own repetition counter behind, so `[[c]*2 d'1]*2` never plays `d` |
| `C14_converse_refuted` | sixteen melodic instruments that can each play a note cannot play it as a group (no MIDI channel left) |
| `C13_group_refuted`, `C14_endings_refuted` | with several current parts an event with repetition ranges is played once per part *by every part* |
| `C18_two_refuted`, `C18_voice_refuted` | only the last local attribute change overrides a global one; the override is lost when a voice starts |
| `C21_unsafe_refuted` | a repeat of 2147483647 times never ends (int32 loop counter); channel 16 and a declaration without names panic |
| `C22_alias_refuted`, `C22_unmixed_refuted`, `C22_resume_refuted` | corner cases of aliases in part declarations |
| `C25_unbounded_refuted` | pitch arithmetic wraps at 32 bits, so an absurd octave can sound as an ordinary note |
| `C27_naturals_refuted` | naturals in a key signature are not shifted |
| `C31_volume_refuted`, `C35_*_refuted` | track volume / tempo messages that are not sent or not exact |
| `C36_late_refuted`, `C36_dense_refuted` | late or very dense tempo changes break the tick conversion |
| `C37_order_refuted`, `C37_silent_refuted`, `C37_range_refuted`, `C38_waiting_refuted` | batches of one track can be reordered by threads; a batch without notes resets the start; a batch waiting for the lock survives a clear |
| `C42_score_refuted`, `C42_unsent_refuted`, `C43_lost_refuted`, `C51_describe_refuted` | REPL sessions: a failed evaluation keeps part of the score, loses events, or describes it wrongly |
| `C44_alias_refuted` | the error for a missing closing quote of an alias is constructed and dropped |
| `C45_empty_cram_refuted`, `C52_untamed_refuted` | `{}` panics the parser; `()` and `(quote)` panic the Lisp interpreter; `[]*2147483647` never ends |
| `C53_wrapped_refuted` | repetition ranges on a voice group wrap the group in a sequence (harmless) |
| `C46_slurred_refuted`, `C46_zero_refuted` | `c4\|~/e` is formatted as `c4~ \| / e`, which does not parse; `c4*0 \| d` is formatted as `c4 \| d`, which moves the barline into the note's duration |
| `C47_quantization_refuted`, `C47_slow_refuted`, `C47_junk_refuted` | quantization above 100 accepted, tempos between 0 and 1 rejected, one trailing junk character of a note length accepted |
| `C48_drums_in_key_refuted`, `C48_low_keys_refuted`, `C48_without_text_refuted` | imported percussion notes are shifted by a key signature; key numbers below 24 are translated wrongly; an octave change put at the head of a chord shortens it when the updates are not written out as text |
| `C55_fine_refuted`, `C55_too_long_refuted`, `C55_divisions_refuted` | with more than 24 divisions some imported lengths are off; a note longer than 40000 quarter notes hangs the importer; divisions above 127 (480 is common) are read as 127 |
| `C56_natural_refuted`, `C56_octave_change_refuted`, `C56_key_change_refuted` | MusicXML pitches: a natural without a printed sign in a key that alters its letter plays altered; `<octave-change>` is ignored; after a key change and a rest a note is played five octaves too high |
| `C56_dynamics_refuted`, `C56_forward_refuted`, `C56_pianos_refuted` | MusicXML positions: a dynamic mark after a backup cancels the backup; a forward with a voice may not move; two kinds of piano parts play one after the other |
| `C56_twice_refuted`, `C56_repeat_refuted` | music before a change of key and transposition is played twice; a second repeat repeats the first one too |
| `C56_trio_refuted`, `C56_voice_refuted`, `C56_voice_number_refuted` | three parts for one instrument give code that does not run; no voice 1, or a voice above 127, crashes the importer |
| `C57_lost_refuted`, `C57_late_refuted` | REPL client: `:load` of a broken file followed by `:save` empties the file; after one late answer every command is carried out but reported as an error |
| `C58_octave_refuted` | a bare `o` is accepted as a line, but the session's text can then not be read again: replay and load fail |
| `C58_bar_refuted` | a barline at the start of a line is taken into the duration ending the line before (same sound, other updates) |
| `C58_definition_refuted`, `C58_voices_refuted` | on replay, a definition that leaves voices open swallows later lines; `V0:` on its own line starts voice 0 instead of closing voices |
| `C59_sound_refuted` | of two percussion parts starting notes at the same tick, one can be heard with the other's volume (threads of different tracks interleave on one channel) |
| `C59_late_refuted` | tempo changes within the first tick make the player take itself to be later than 0 and play everything late |
| `C60_drift_refuted` | every tempo change is rounded to a whole tick, later ones counted from it: with the tempo set every 5 ms, what should sound after 2 s sounds after 3.1 s |
| `C60_slow_refuted` | tempos below 3.58 bpm count for the ticks but give no tempo message: at 3 bpm, what should sound after 20 s sounds after half a second |
| `C61_endless_refuted` | the length 0 of a cram is not validated (that of a note is): `piano: c {c d}0 e` gives notes at infinite offsets |
| `C62_lost_refuted` | `alda update` renames the old program before copying the new one and does not rename it back when that fails; every `alda` command removes renamed programs: then neither version is left |
| `C62_half_refuted` | types of assets are checked one by one while installing: a release with an unknown type leaves a new `alda` with an old `alda-player` |
| `C62_foreign_refuted` | the regular expression for old programs is not anchored: `my-alda.2024.11.old-scores.zip` in Alda's directory is deleted by the next `alda` command |
| `C63_told_refuted` | `managePlayers` asks for the state of the player and then stores it; if the handler shuts the player down and unsets it in between, the dying player is put back and the next score is sent to it (the comment in `shutdownPlayer` says the worst case is replacing the player twice) |
| `C63_export_refuted` | after that race `:export` loads the score into the dying player and asks its replacement, which has nothing, for the file |
| `C65_resume_refuted` | `alda play` without a text stops at the first active player that cannot be reached: the later ones stay paused |
| `C65_stop_refuted` | `alda stop` and `alda shutdown` succeed although no player received anything |
| `C65_elsewhere_refuted` | `alda export -o a.mid` gives the player the relative name, which it resolves in its own directory, the one its spawner was in: the file lands there, and after a minute's wait the command succeeds without saying anything |
| `C65_existing_refuted` | if the output file is already there, `alda export` reports it as exported before the player has written it |
| `C65_partial_refuted` | `alda export` to the standard output copies the file as soon as it can be opened: what the player has not written yet is missing |
| `C66_first_refuted` | `alda telemetry --disable`, as the first command of an installation, sends a report itself before disabling |
| `C66_unreadable_refuted` | a status file that cannot be read once, or whose "disabled" is followed by a newline, is overwritten with "enabled", and the same command sends a report |
| `C66_race_refuted` | a first command that is still running when telemetry is disabled writes "enabled" over it: commands run later send reports |
| `C66_overlap_refuted` | the file is emptied before it is written: a command that reads it during a second `--disable` takes it for unreadable and enables telemetry |
| `C67_wrap_refuted` | `alda format -o -w -1` checks the width after it has opened, and so emptied, the file: it fails and the score is gone |
| `C67_indent_refuted` | `alda format -i "e "` adds a note to every indented line |
| `C67_write_refuted` | the new text is formatted into a buffer "in case of error", but the file has been emptied before: a full disk or a kill loses the score |
| `C68_global_refuted`, `C68_variable_refuted`, `C68_marker_refuted` | (by design) a global attribute, variable or marker set in one part's section changes what another part plays |
| `C69_exactly_refuted` | an imported score's text does not compile to the very same updates: a barline after a length becomes a part of the length (harmless) |
| `C70_existing_refuted` | `alda import -o` empties an existing file without asking before it writes: if writing fails, the old contents are lost |
| `C73_last_line_refuted` | `printf yes \| alda update` crashes: an answer that is not ended by a newline is not taken |
| `C54_alias_refuted`, `C54_group_refuted`, `C54_stray_end_refuted` | an empty alias is dropped; a voice group played on some repetitions gets brackets; an end of voices without a voice is a nil dereference |
| `C49_twice_refuted`, `C49_misnamed_refuted` | two clients can find the same player; a state file with the wrong name is believed |

Seen while reading, not stated as theorems: attribute changes inside a cram are ignored when its
inner length is measured and a zero inner length divides by zero; `chordMode` and `TimeScale` are not
restored after an error inside a chord or cram; a jump back to a marker at a global attribute's offset
does not apply the attribute again; `sort.Slice` is not stable and reorders `score.Events` in place;
`keySignatureFromAccidentals` looks only at the first rune of a word; `c|`, a tab after a note letter
and `[c o5]` are rejected by the scanner although they look harmless.

## 5. Trusted base and assumptions per theorem

* Coq 8.16.1's kernel (and its VM, used by `vm_compute` in examples and witnesses).
* `Print Assumptions` below every property theorem but the three of C64 says "Closed under the global
  context": they use no axiom, neither one of our own nor one of the standard library. `C64_monotone`,
  `C64_notes` and `C64_values` use the axioms of the standard library's real numbers:
  `ClassicalDedekindReals.sig_not_dec`, `ClassicalDedekindReals.sig_forall_dec`,
  `FunctionalExtensionality.functional_extensionality_dep` and `Classical_Prop.classic`. Flocq, which they
  import, adds none. (`vcheck` lists the constants of
  `Coq.ssr.ssrunder`, which are module parameters of a loaded standard library file, not used by any theorem, and those of
  `Coq.Reals.Rdefinitions`, which the standard library seals in modules.)
* The correspondence between the Go/Kotlin sources and the `Model*.v` files, which was established by
  reading; each definition cites the lines it models and its simplifications.
* Not modelled: log output, colours and help texts, source positions in errors of the score engine, the
  file system and sockets (parameters), fused multiply-add that a Go compiler may use on some platforms,
  the JVM's MIDI sequencer behind the player (taken to play events at the tick they are scheduled for),
  JSON rendering of the score, the doctor command.
* Seeded wrong programs: `seeded/LOG.jsonl`, one line per edited copy of the model.
