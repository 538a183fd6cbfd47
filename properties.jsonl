{"id": "C01", "title": "Instruments never collide on a MIDI channel", "statement": "In any score that has been built up by applying score updates, if two notes belong to different instrument parts and were assigned the same MIDI channel other than the percussion channel 9, then their audible time spans do not intersect.", "quantifier": "every finite sequence of score updates (of any length and nesting) applied to an empty score, whether or not some of them fail", "why_tests_cant": "The allocator reuses the 15 channels depending on the whole history of notes; tests exercise a few fixed scores with 16-17 instruments, the claim is about every history.", "anchors": ["client/model/midi.go:assignMidiChannel", "client/model/midi.go:complexCheck", "client/model/note.go:addNoteOrRest"]}
{"id": "C02", "title": "Percussion and channel 9 coincide, channels are valid", "statement": "Every note of a score is assigned a channel between 0 and 15, and it is channel 9 exactly when the instrument playing it is the percussion instrument.", "quantifier": "every finite sequence of score updates whose explicit midi-channel attributes are in 0-15 (what the language accepts)", "why_tests_cant": "Depends on every code path through which a channel can be chosen or remembered (explicit attribute, global attribute, voices, sharing).", "anchors": ["client/model/midi.go:determineMidiChannel", "client/model/attributes.go:MidiChannelSet.updatePart"]}
{"id": "C03", "title": "Only playable notes are emitted", "statement": "Every note in the score has a MIDI note number between 0 and 127 and a strictly positive audible duration; a note whose pitch falls outside 0-127 makes the update fail and adds nothing for that part.", "quantifier": "every finite sequence of score updates", "why_tests_cant": "Octave, key signature, accidentals and transposition combine over unbounded histories.", "anchors": ["client/model/note.go:addNoteOrRest", "client/model/pitch.go:CalculateMidiNote"]}
{"id": "C04", "title": "Emitted notes are permanent", "statement": "Applying any further update, successful or failing, never changes, removes or reorders the notes already in the score; it only appends.", "quantifier": "every score state and every update, including nested and failing ones", "why_tests_cant": "Ranges over all states and all (recursively nested) updates.", "anchors": ["client/model/score.go:Score.Update", "client/model/note.go:addNoteOrRest"]}
{"id": "C05", "title": "The first failing update stops the score", "statement": "When a list of updates is applied, the outcome is that of applying them one by one up to the first failure: later updates have no effect, and a successful result means all of them were applied, so applying a concatenation equals applying the pieces in turn.", "quantifier": "every score and every two lists of updates", "why_tests_cant": "Ranges over all lists and all positions of a failure.", "anchors": ["client/model/score.go:Score.Update", "client/model/event_sequence.go:UpdateScore"]}
{"id": "C06", "title": "Sequential timing", "statement": "When one part plays a sequence of notes and rests, each note starts at the part's starting offset plus the sum of the full durations of all events before it, and afterwards the part stands at the starting offset plus the total; a rest advances time exactly like a note of the same length but emits nothing.", "quantifier": "every list of notes and rests with any tied durations, any tempo, time scale and quantization (exact arithmetic)", "why_tests_cant": "Arbitrary length sequences and arbitrary durations; tests use a handful of literal sequences.", "anchors": ["client/model/note.go:addNoteOrRest", "client/model/duration.go:Duration.Ms"]}
{"id": "C07", "title": "Durations are sticky", "statement": "A note or rest without a written duration lasts as long as the most recent explicit duration of that part (or the part's default), and writing the duration explicitly everywhere gives exactly the same score.", "quantifier": "every list of notes and rests for every set of current parts", "why_tests_cant": "Statement about all histories of explicit/implicit durations.", "anchors": ["client/model/note.go:effectiveDuration", "client/model/note.go:updateDefaultDuration"]}
{"id": "C08", "title": "Slurs and quantization affect only the audible length", "statement": "A slurred note sounds for its full duration, an unslurred one for its duration times the part's quantization; in either case the next event starts after the full duration.", "quantifier": "every note, part state, quantization and tempo", "why_tests_cant": "All numeric values, including quantization above 1 or 0.", "anchors": ["client/model/note.go:addNoteOrRest"]}
{"id": "C09", "title": "Chord timing", "statement": "All notes of a chord start at the same offset, the offset at which the part stood, and the next event starts after the shortest note or rest of the chord.", "quantifier": "every chord made of any number of notes and rests with any durations, for every set of current parts", "why_tests_cant": "Any number of chord members and any durations.", "anchors": ["client/model/chord.go:Chord.UpdateScore"]}
{"id": "C10", "title": "A cram fits exactly into its outer duration", "statement": "A cram expression takes exactly its outer duration, whatever notes, rests, chords and nested crams are inside, and its notes are placed in proportion to their written lengths, in exact arithmetic and provided nested crams are followed by notes with written durations. (Without that it fails: after a nested cram with its own duration, a note without one is measured with the duration before the cram but played with the nested cram's, so {{c d}2 e}4 takes too long.)", "quantifier": "every cram over notes, rests, chords and (fully annotated) nested crams with positive total inner duration (exact arithmetic)", "why_tests_cant": "Arbitrary nesting and arbitrary inner events; the scaling factor depends on all of them.", "anchors": ["client/model/cram.go:timeScale", "client/model/cram.go:Cram.UpdateScore"]}
{"id": "C11", "title": "A cram leaves no trace in the part's state", "statement": "After a cram expression the part's time scale is what it was before, and its default duration is the cram's own duration when written, otherwise the default duration before the cram.", "quantifier": "every cram expression with any events that succeeds, for every set of current parts", "why_tests_cant": "Any nesting of events inside.", "anchors": ["client/model/cram.go:Cram.UpdateScore"]}
{"id": "C12", "title": "Repeat is n-fold sequencing", "statement": "Repeating an event n times emits exactly the notes of writing the event n times in sequence and leaves the parts in the same state.", "quantifier": "every event that contains no repetition-dependent endings, every n", "why_tests_cant": "All n and all events.", "anchors": ["client/model/repeat.go:Repeat.UpdateScore"]}
{"id": "C13", "title": "Numbered endings play on exactly the listed repetitions", "statement": "For one instrument, repeating a sequence in which events carry repetition ranges (and that contains no further repeat) equals the sequence of its per-repetition selections: an event is played on repetition k exactly when k lies in one of its ranges. (With a repeat inside the body, or with several current instruments, it fails: an inner repeat leaves its own counter behind, and an ending is played once per instrument by every instrument.)", "quantifier": "every sequence of plain events and events with repetition ranges, every number of repetitions, one instrument", "why_tests_cant": "All ranges, all repetition counts.", "anchors": ["client/model/repetitions.go:OnRepetitions", "client/model/repeat.go:Repeat.UpdateScore"]}
{"id": "C14", "title": "A group plays like its members on their own", "statement": "Whatever a group of instruments plays without error, each of its instruments can play on its own without error. It then receives exactly the notes (offset, length, pitch, volume, panning) and ends in exactly the state, MIDI channels aside, that it has in the group, for updates without repetition ranges. (An event with repetition ranges is played once per current instrument by every one of them. The converse direction fails when the group runs out of MIDI channels.)", "quantifier": "every update built from notes, rests, attributes, chords, crams, sequences, repeats and variables, every group of distinct parts", "why_tests_cant": "Relational claim about two executions for every program and every group.", "anchors": ["client/model/note.go:addNoteOrRest", "client/model/cram.go", "client/model/repetitions.go:OnRepetitions.UpdateScore"]}
{"id": "C15", "title": "Variables capture their value at definition time", "statement": "A variable reference plays exactly the events the variable had when it was defined, with variables mentioned inside the definition resolved at definition time; redefining those inner variables later has no effect on it.", "quantifier": "every score, every definition and every later sequence of definitions of other variables", "why_tests_cant": "All chains of definitions and redefinitions.", "anchors": ["client/model/variable.go:VariableDefinition.UpdateScore", "client/model/variable.go:VariableReference"]}
{"id": "C16", "title": "Variables can never make playback run forever", "statement": "Every stored variable value is free of variable references, so dereferencing always terminates whatever was defined (including self-referential looking definitions), and an undefined variable is reported as an error.", "quantifier": "every finite sequence of score updates", "why_tests_cant": "A termination claim over all histories of definitions.", "anchors": ["client/model/variable.go:VariableValue", "client/model/event_sequence.go:VariableValue"]}
{"id": "C17", "title": "Each global attribute is applied exactly once when a part passes it", "statement": "As a part moves forward through notes and rests, every global attribute change recorded at an offset is applied to it exactly once, when the part first reaches or passes that offset, in order of offset and of recording.", "quantifier": "every set of recorded global attributes, every forward movement cut into any number of steps", "why_tests_cant": "All itineraries and all step sizes; the window logic has boundary cases at every recorded offset.", "anchors": ["client/model/attributes.go:GlobalAttributes.InWindow", "client/model/attributes.go:ApplyGlobalAttributes", "client/model/attributes.go:GlobalAttributes.Record"]}
{"id": "C18", "title": "A local attribute change overrides a simultaneous global one", "statement": "If a part sets an attribute locally just before a note or rest, then a global change of the same kind taking effect at that point is not applied to that part, while global changes of other kinds are. (Only the last local change counts, so of two local changes the first is overridden by a global one, and a change right before a voice marker is forgotten.)", "quantifier": "every part, attribute kind, itinerary", "why_tests_cant": "All combinations of attribute kinds and windows.", "anchors": ["client/model/attributes.go:AttributeUpdate.UpdateScore", "client/model/attributes.go:ApplyGlobalAttributes"]}
{"id": "C19", "title": "Voices start together from the same state", "statement": "Every voice of a voice group starts with the part's offset, octave, tempo, default duration and other attributes as they were at the start of the group, whatever the other voices did, and returning to a voice continues where that voice stopped.", "quantifier": "every sequence of voice markers and per-voice events", "why_tests_cant": "All numbers and orders of voices and all events inside them.", "anchors": ["client/model/voice.go:NewVoice", "client/model/voice.go:VoiceMarker.UpdateScore"]}
{"id": "C20", "title": "A voice group ends with its longest voice", "statement": "At the end of a voice group the part continues from the voice that reached the furthest offset (ties broken in favour of the voice that was started last, then the earliest), and no voice remains open.", "quantifier": "every voice group with any number of voices", "why_tests_cant": "All voice counts, orders and offsets.", "anchors": ["client/model/voice.go:VoiceGroupEndMarker.UpdateScore"]}
{"id": "C21", "title": "No reachable score makes voice handling panic", "statement": "Switching to a voice and ending a voice group never fail; every part the score refers to exists; and no sequence of updates makes the engine panic or hang, with these exceptions: a repeat of 2147483647 or more times, which never ends, S-expressions with an empty call or empty quote, which panic, and two updates no score text produces (a MIDI channel above 15 and a declaration without names).", "quantifier": "every finite sequence of score updates", "why_tests_cant": "An invariant over all reachable states.", "anchors": ["client/model/voice.go:NewVoice", "client/model/part.go:determineParts"]}
{"id": "C22", "title": "Part declarations resolve names consistently", "statement": "As long as aliases are given to single instruments: declaring an instrument without alias creates it once and afterwards always resumes the same instance, and an alias always denotes the same parts. A single declaration never redefines an alias, never mixes aliased and unaliased use of one instrument, and unknown instruments are rejected, each time leaving the score as it was apart from closing the open voices. (Declaring a group can break the first three: refuted.)", "quantifier": "every score reached by any sequence of declarations and other updates", "why_tests_cant": "All declaration histories.", "anchors": ["client/model/part.go:determineParts", "client/model/part.go:PartDeclaration.UpdateScore"]}
{"id": "C23", "title": "One tempo master, no duplicate parts, one track per part", "statement": "A score with at least one part has exactly one tempo master, lists no part twice, and gives every part its own track number between 1 and the number of parts, to which all notes of the part are sent.", "quantifier": "every finite sequence of score updates", "why_tests_cant": "Invariant over all histories, voices replace part objects along the way.", "anchors": ["client/model/part.go:PartDeclaration.UpdateScore", "client/model/score.go:Tracks", "client/model/voice.go:VoiceGroupEndMarker.UpdateScore"]}
{"id": "C24", "title": "Markers", "statement": "Jumping to a marker puts every current part at exactly the offset recorded under the name (the most recent definition), and fails without moving any part when the marker does not exist; defining a marker fails without recording anything when no part is current or the current parts disagree on their offset.", "quantifier": "every score and marker name", "why_tests_cant": "All states, all part groups.", "anchors": ["client/model/marker.go"]}
{"id": "C25", "title": "Pitch calculation", "statement": "A note letter in an octave denotes the MIDI number of that letter in that octave, plus one per sharp and minus one per flat of its own accidentals, or those of the key signature only when it has none of its own (a natural cancels the key), plus the transposition, as long as the sum fits in 32 bits. (Beyond that it wraps around, so an absurd octave can sound as an ordinary note.)", "quantifier": "every letter, accidental list, key signature, octave and transposition for which no 32-bit overflow occurs", "why_tests_cant": "Unbounded accidental lists, octaves and transpositions.", "anchors": ["client/model/pitch.go:CalculateMidiNote"]}
{"id": "C26", "title": "Named scales give the right key signature", "statement": "For every tonic with any number of sharps or flats and every mode, the seven letters under the computed key signature form, starting from the tonic, exactly the interval pattern of the mode.", "quantifier": "every tonic letter, every list of accidentals, all seven modes", "why_tests_cant": "Unbounded accidentals; tests check a few keys.", "anchors": ["client/model/key.go:KeySignatureFromScale", "client/model/key.go:shiftKey"]}
{"id": "C27", "title": "Sharpening or flattening a key moves every letter by one semitone", "statement": "Raising or lowering a key signature without naturals shifts every one of the seven letters by exactly one semitone, and the two operations undo each other's effect on pitch. (A natural in the key signature breaks this.)", "quantifier": "every key signature of sharps and flats (no natural signs), any number per letter, even mixed", "why_tests_cant": "All key signatures, of unbounded accidentals.", "anchors": ["client/model/key.go:Sharpen", "client/model/key.go:Flatten"]}
{"id": "C28", "title": "Duration arithmetic", "statement": "A note length 1/d with n dots lasts (4/d)*(2-1/2^n) beats; tied durations add up irrespective of grouping; a barline inside a duration contributes nothing; beats scale inversely with tempo while second and millisecond lengths ignore it; validation accepts exactly the positive lengths.", "quantifier": "every duration, tempo, number of dots (exact arithmetic)", "why_tests_cant": "All numbers of components and dots.", "anchors": ["client/model/duration.go"]}
{"id": "C29", "title": "Every selected note is transmitted exactly once", "statement": "The OSC bundle for a score contains exactly one note message for every note whose offset lies in the selected range (from inclusive, to exclusive, and index range), with its channel, pitch, rounded relative offset, durations and velocity, on the track of its part, and no other note message, whatever order the unstable sort leaves simultaneous notes in.", "quantifier": "every score, every transmission option and every result order the sort is allowed to produce", "why_tests_cant": "All scores and all tie orders of an unstable sort.", "anchors": ["client/transmitter/osc.go:ScoreToOSCBundle"]}
{"id": "C30", "title": "Control changes keep every note's instrument, volume and panning right", "statement": "At each note message, the last preceding patch, volume and panning messages on its channel carry exactly that note's patch (except on channel 9), track volume and panning.", "quantifier": "every score, options and admissible sort order", "why_tests_cant": "The state per channel depends on the whole preceding event order.", "anchors": ["client/transmitter/osc.go:ScoreToOSCBundle"]}
{"id": "C31", "title": "No redundant control changes", "statement": "A patch message is sent on a channel only if it is the first there or its value differs from the previous one. A volume or panning message is sent only for the first note on a channel or for a note whose level differs from that of the previous note there (two levels that differ can round to the same MIDI value: then the message repeats the previous one). Nothing else is sent with the notes.", "quantifier": "every score, options and admissible sort order", "why_tests_cant": "As above.", "anchors": ["client/transmitter/osc.go:ScoreToOSCBundle"]}
{"id": "C32", "title": "Excerpt boundaries partition the score", "statement": "For any time points a <= b <= c, the notes sent for the excerpt a-b together with those sent for b-c are the notes sent for a-c, no note being lost or sent twice.", "quantifier": "every score and all range boundaries", "why_tests_cant": "All offsets including those lying exactly on a boundary.", "anchors": ["client/transmitter/osc.go:ScoreToOSCBundle"]}
{"id": "C33", "title": "Tempo messages of an excerpt", "statement": "A full transmission sends a tempo message for the tempo in force at the start of the excerpt and for every tempo change inside it and no other, in chronological order, and none in incremental (REPL) transmissions.", "quantifier": "every tempo itinerary and excerpt boundaries", "why_tests_cant": "All itineraries and boundaries.", "anchors": ["client/transmitter/osc.go:tempoMessages", "client/model/score.go:TempoItinerary"]}
{"id": "C34", "title": "Play and shutdown messages", "statement": "A bundle ends with a play message unless it is load-only, and, exactly for one-off transmissions, with a single shutdown message timed ten seconds after the audible end of the last sounding note.", "quantifier": "every score and option combination", "why_tests_cant": "Needs a maximum over all notes of any score.", "anchors": ["client/transmitter/osc.go:ScoreToOSCBundle"]}
{"id": "C35", "title": "The tempo itinerary reflects the tempos played", "statement": "The exported tempo map starts with 120 at offset 0 unless overridden. At every offset where a global attribute sets a tempo it contains the last tempo set there, a global metric modulation counting from the last global tempo set before it; at every other offset it contains the tempo the master part set there, if any, and nothing else. Music without tempo changes, global attributes and voices leaves it alone. (It is not always what is played: a local tempo next to a global one, a second global modulation, and the tempos of voices that end early are missing from it.)", "quantifier": "every score", "why_tests_cant": "All histories of local and global tempo changes.", "anchors": ["client/model/score.go:TempoItinerary", "client/model/part.go:RecordTempoValue"]}
{"id": "C36", "title": "Player: millisecond to tick conversion keeps order", "statement": "The player's conversion of millisecond offsets to sequencer ticks is defined and monotone after any chronological history of tempo changes, so events are never reordered and a note-off never precedes its note-on; if no two tempo changes fall on the same tick, converting back is within one tick. (Without these restrictions it fails: a tempo change received after a later one makes the conversion go backwards, and tempo changes a few milliseconds apart never advance the ticks.)", "quantifier": "every list of tempo changes received in chronological order and every offset", "why_tests_cant": "All tempo histories.", "anchors": ["player/src/main/kotlin/io/alda/player/MidiEngine.kt:msToTicks", "MidiEngine.kt:addTempoEntry"]}
{"id": "C37", "title": "Player: successive batches on a track follow one another", "statement": "Every batch of events sent to a track is scheduled exactly once, is on its way, or still waits, whatever the threads and the clock do (unless the track is cleared or scheduling throws); batches are scheduled in the order received if each one's thread reaches the track's lock before the next batch is taken off the queue; no event of a later batch starts before the end of a note of an earlier one, and within a batch relative offsets are preserved, provided every batch contains a note and ends within the 32-bit range. (Without these restrictions it fails: two threads may reach the lock in the other order; after a batch without notes the next starts from the beginning; a note beyond MIDI's range loses the rest of its batch.)", "quantifier": "every sequence of batches and every clock behaviour", "why_tests_cant": "All schedules of the clock and all batch contents.", "anchors": ["player/src/main/kotlin/io/alda/player/Player.kt:scheduleEvents", "Player.kt:adjustStartOffset"]}
{"id": "C38", "title": "Player: clearing a track drops what was not yet scheduled", "statement": "After a clear message, events received before it that were still waiting in the track's queue are never scheduled; only batches already taken off the queue may be. (A batch that waits for the track's lock when the track is cleared is scheduled all the same.)", "quantifier": "every interleaving of batches, clear and the scheduling threads", "why_tests_cant": "All interleavings.", "anchors": ["player/src/main/kotlin/io/alda/player/Player.kt:Track.clear", "Player.kt:era"]}
{"id": "C39", "title": "Player: MIDI export shifts the music to start at zero", "statement": "In an exported MIDI file the first note or control change is at tick 0, no event has a negative position, the distances between all events from the first note or control change on are those of the sequence, and earlier events are at tick 0.", "quantifier": "every track content", "why_tests_cant": "All sequences.", "anchors": ["player/src/main/kotlin/io/alda/player/MidiEngine.kt:export"]}
{"id": "C40", "title": "Client messages are understood by the player", "statement": "Every sequence of OSC messages the client produces is understood by the player's parser: per track the events with the same channel, offset and values in the same order, the same system events, and play, stop, shutdown and ping exactly if asked for.", "quantifier": "every message the client can send", "why_tests_cant": "All argument values and track numbers; involves printing and re-reading track numbers in addresses.", "anchors": ["client/transmitter/osc.go", "player/src/main/kotlin/io/alda/player/Parser.kt"]}
{"id": "C41", "title": "REPL: every new note is sent exactly once", "statement": "In a REPL session, over any sequence of inputs each of which was evaluated and sent or failed to evaluate, the notes of the score are divided into one batch per input that went well, plus the notes of failed inputs that have not been sent yet; each input that went well sends exactly its batch, each note once and relative to where its part stood before, and after it nothing is left unsent.", "quantifier": "every sequence of inputs", "why_tests_cant": "All session histories.", "anchors": ["client/repl/server.go:updateScoreWithInput", "client/repl/server.go:evalAndPlay"]}
{"id": "C42", "title": "REPL: a failed evaluation has no effect", "statement": "Input that fails to evaluate leaves the session's text and the record of what has been sent unchanged, sends nothing and is answered with an error; input that fails to parse changes nothing at all. (Not true beyond this: the events before the failing one remain in the score and their notes are sent along with the next input; and an input whose evaluation succeeds but whose transmission fails is kept in the text and its notes are never sent.)", "quantifier": "every session and every failing input", "why_tests_cant": "All histories.", "anchors": ["client/repl/server.go:updateScoreWithInput"]}
{"id": "C43", "title": "REPL: the score text reproduces the score", "statement": "The session's text consists of the successfully evaluated inputs in order (a load replaces it, a new score empties it), the score is that of evaluating those inputs in order, a successful replay leaves the score of the text, and the server answers each request exactly once, in order of arrival, unless handling a request crashes the process, which parsing to safe updates excludes; requests that only ask, are unknown or malformed change nothing. (Not true of a replay or export that fails after the reset, which leaves an empty session.)", "quantifier": "every sequence of requests", "why_tests_cant": "All request histories.", "anchors": ["client/repl/server.go:handleRequests", "client/repl/server.go:updateScoreWithInput"]}
{"id": "C44", "title": "The scanner always terminates and never skips input", "statement": "Scanning any text terminates. A text that is, in order, a sequence of white space, comments and correctly written tokens gives exactly those tokens, each with its own text, line and column, followed by the end-of-file token, and in only one way; any other text gives an error at a position of the text. (The closing quote of an alias is not insisted on: any character that cannot be in a name is taken for it.)", "quantifier": "every character sequence", "why_tests_cant": "All strings.", "anchors": ["client/parser/scanner.go"]}
{"id": "C45", "title": "The parser always terminates", "statement": "Parsing any text terminates, with either exactly the syntax tree the grammar assigns to the text's tokens (every text the grammar describes is accepted, and has one tree only) or an error at a position of the text; every event uses at least one token. The words of the grammar (pitches, accidentals, repetition ranges, part names and aliases, voice markers) stand for what they say. (An empty cram expression makes the parser panic; nothing else does.)", "quantifier": "every token sequence", "why_tests_cant": "All token sequences.", "anchors": ["client/parser/parser.go"]}
{"id": "C46", "title": "Formatting preserves meaning", "statement": "Formatting the tree of a score succeeds, and parsing the formatted text gives the same tree up to source positions; hence the formatted text means the same updates to the score, and formatting it again changes nothing. Exceptions: a note slurred after the barline that ends its duration (`c4|~`), `*0` right before a barline (`c4*0 | d`), and numbers that cannot be printed as decimals (infinite ones).", "quantifier": "every text that parses, every line width, every indentation made of blanks", "why_tests_cant": "All programs, all line widths; the formatter breaks lines anywhere, while line ends matter for variable definitions.", "anchors": ["client/parser/format.go", "client/parser/parser.go", "client/parser/scanner.go"]}
{"id": "C47", "title": "AldaLisp attributes accept exactly their documented ranges", "statement": "Attribute functions given any numbers, strings, quoted symbols or lists accept exactly: a percentage 0-100 (volume, track volume, panning), a non-negative percentage (quantization), a number from 1 up (tempo, reference pitch, durations), two of them (tempo), a 32-bit whole number (octave, transposition), a channel 0-15, 'up/'down (octave), nothing (dynamic markings); they produce an update with the converted value, the variants with ! the same for all parts, and report an error otherwise. Note lengths written in strings are read as written; dynamic markings stand for the documented volumes to within one percent. (The documentation is not followed in that quantization above 100 is accepted, a tempo between 0 and 1 rejected, and a stray character after a note length accepted.)", "quantifier": "every argument list", "why_tests_cant": "All numeric values.", "anchors": ["client/model/lisp.go"]}
{"id": "C48", "title": "MusicXML import: optimisation does not change the music", "statement": "The clean-up that the MusicXML importer runs on every voice (moving barlines out of durations, dropping redundant accidentals and durations, writing percussion notes by letter and octave, closing repeats) leaves the played notes unchanged: written out as Alda text, the cleaned events of a voice produce the same note events, offsets, channels and outcome as the events before the clean-up, from every state of the parts, and leave the score in a state that sounds the same from then on. The same holds for whole imported files: several parts, each with voices, key signatures and transpositions in any order, where every part declares an instrument of its own. Exceptions, for which it fails: a percussion part under a key signature with accidentals, percussion key numbers below 24, and playing the cleaned updates directly instead of writing them out as text.", "quantifier": "every list of imported events of a voice (nested repeats, endings, chords, octave changes, dynamics, barlines), pitched or percussion, every key signature for pitched parts, every set of current parts and score state, exact arithmetic", "why_tests_cant": "A program transformation must be right for every program; the passes interact through state carried across events.", "anchors": ["client/interop/musicxml/importer/optimizer.go", "client/interop/musicxml/importer/util.go", "client/interop/musicxml/importer/importer.go: collapseVoices"]}
{"id": "C49", "title": "Player pool", "statement": "Filling the pool looks at the state files once and starts exactly as many players as are missing to three according to them, whatever other processes do. A player returned as available was announced as ready by a state file at most two minutes old and has just answered a ping; before that, every unreachable player's state file was deleted and the pool filled. The search ends if no new players announce themselves meanwhile and state files have their usual names. (Players already started but without a state file are not counted, so filling twice in a row starts six; a state file without .json in its name makes the search endless.)", "quantifier": "every set of state files and every reachability behaviour", "why_tests_cant": "All process states and crash points.", "anchors": ["client/system/process_management.go:FillPlayerPool", "client/system/process_management.go:FindAvailablePlayer"]}
{"id": "C50", "title": "Player expiry never moves backwards", "statement": "A player's expiry time never decreases, and a player expires only after its timeout has passed since its start, since every packet received and since the moment every scheduled event was to be played.", "quantifier": "every sequence of messages and clock readings", "why_tests_cant": "All histories.", "anchors": ["player/src/main/kotlin/io/alda/player/StateManager.kt:delayExpiration"]}
{"id": "C51", "title": "REPL: answers can be matched to requests", "statement": "Every answer of the REPL server carries the id and the session of the request it answers, if the request has them; and, except for describe, carries none if it has none.", "quantifier": "every request and every session state", "why_tests_cant": "The answer is assembled by merging maps, some shared between requests; only an argument about every operation and every previous request shows that nothing leaks from one to another.", "anchors": ["client/repl/server.go: respond, respondDone, respondErrors, ops"]}
{"id": "C52", "title": "No text crashes the program", "statement": "Every text either is rejected with the parser's error or becomes score updates: converting a parsed score to updates never fails. Evaluating any number of texts one after the other ends with success or an error value, never with a crash or an endless loop, as long as no text contains '{}', '()', '(quote)' or a repeat count of 2147483647 or more.", "quantifier": "every text (list of Unicode code points) and every history of texts evaluated before", "why_tests_cant": "It combines every possible syntax tree, every Lisp form and every engine state.", "anchors": ["client/parser/ast.go: ASTNode.Updates, duration", "client/parser/parser.go: Parse", "client/model/lisp.go: Eval", "client/model/score.go: Update"]}
{"id": "C53", "title": "Reading a score loses and invents nothing", "statement": "When a text is accepted, its score updates, read from left to right, consist of exactly the notes with their accidentals, note lengths, barlines, slurs, rests, octave changes, bracketed groups, crams, repeat counts (of at least 1), repetition ranges, names, aliases, voices, markers and Lisp forms of the text, in the order written; except that a voice group ended with 'V0:' and directly followed by repetition ranges is put into a group of its own.", "quantifier": "every text", "why_tests_cant": "Arbitrary nesting and interleaving of all constructs; a dropped or reordered child in one combination is invisible to examples of others.", "anchors": ["client/parser/ast.go: ASTNode.Updates, duration", "client/parser/parser.go"]}
{"id": "C54", "title": "Generated Alda means what it was generated from", "statement": "Every list of score updates that Alda can express is turned into a syntax tree, and reading that tree gives the same updates; dynamics and key signatures come back as Lisp calls that evaluate to them, in whatever order the key signature's letters are visited. This includes the updates of every accepted text. For texts without an empty alias and without 'V0:' directly followed by repetition numbers, the tree is the one the text was parsed to, and (under the conditions of C46) formatting it gives a text with the same updates.", "quantifier": "every list of updates that can be written; every accepted text; every iteration order of the key signature map", "why_tests_cant": "Arbitrary nesting of events, voice groups and parts; the iteration order of a Go map is random.", "anchors": ["client/parser/gen.go: GenerateASTFromScoreUpdates, mapTopLevel, mapInnerEvents, mapIsolatedUpdate", "client/parser/ast.go: ASTNode.Updates", "client/model/key.go: KeySignature.String"]}
{"id": "C55", "title": "Imported MusicXML durations are exact", "statement": "When a MusicXML file is imported, an element of d divisions in a part with D divisions per quarter note is given an Alda duration of exactly d/D quarter notes, if D is at most 24 and the note is not too long (undotted: at most 40000 quarter notes; with k dots: 2^k*d below 10000). For any D the duration is off by less than a twenty-fourth of a quarter note. Exceptions: longer undotted notes hang the importer, and a number of divisions above 127 is read as 127.", "quantifier": "every element with a whole number of divisions, any number of dots, any number of divisions per quarter note", "why_tests_cant": "Unboundedly many combinations of divisions, durations and dots; the splitting into note lengths is a search loop with tolerances.", "anchors": ["client/interop/musicxml/importer/handlers.go: translateDuration, divisionsHandler", "client/interop/musicxml/importer/util.go: idiomaticDuration, roundIfCloseEnough"]}
{"id": "C56", "title": "An imported MusicXML score plays its notes", "statement": "Importing a MusicXML score and playing the Alda code made from it plays exactly the notes of the score: each with its part's instrument, its pitch (key, transposition and accidentals applied), and the beginning and length that the cursor rules of MusicXML (backup, forward, chords, measures, divisions) give it at 120 bpm, whatever order the importer visits its maps in. This covers scores of at most 15 parts with different instruments, voices 1 to 127 including a voice 1, at most 24 divisions per quarter note, keys and transpositions given before the music, dynamics, rests and dots. Left out, because they play something else or fail: unprinted naturals in a key that alters the letter, octave-change, dynamics just after a backup or forward, forwards with a voice, key changes in mid-piece, repeats without a beginning, several parts with one instrument, voice numbers above 127; and ties, grace notes, percussion and repeats in general.", "quantifier": "every score document of that kind: any number of measures, notes, voices and unimportant elements; every order of the maps", "why_tests_cant": "Unboundedly many documents; the result depends on the random iteration order of Go maps, on the splitting of lengths and on the bookkeeping of octaves, beats and voices over the whole piece.", "anchors": ["client/interop/musicxml/importer/importer.go: ImportMusicXML, generateScoreUpdates", "client/interop/musicxml/importer/handlers.go: scorePartHandler, partHandler, measureHandler, noteHandler, backupHandler, forwardHandler, translateNote, padVoiceToPresent", "client/interop/musicxml/importer/optimizer.go"]}
{"id": "C57", "title": "The REPL client acts on its own answers and touches only the files named", "statement": "In a REPL session over the network, what the client takes for the answer to a request is the server's answer to that very request, whatever arrives late and whatever other clients do meanwhile. Each line makes the server do the operation of its command, or evaluate the line when it is not a command (a command is a colon and a word; :play takes from and to at most once each). Files change only by :save, which writes the session's text as it was when the server answered, to the file named or the one last named, and by :export. After a successful :load the session has the file's text and the score the file makes, so a session of evaluations saved and loaded again has the same music when its text compiles line by line. Two things a user might expect fail: a :load that the server rejects leaves an empty session which :save writes over the file; and once one answer comes late, every later command is carried out by the server but reported as an error.", "quantifier": "every sequence of input lines, every compiler, every way of splitting arguments, every interleaving with other clients, timeouts, lost and late responses, failing file writes and files edited meanwhile; request IDs assumed distinct", "why_tests_cant": "The interleaving of clients, late answers and file contents is unbounded, and the failures need rare timing.", "anchors": ["client/repl/client.go: RunClient, sendRequest, handleCommand, replCommands", "client/repl/server.go: handleRequests"]}
{"id": "C58", "title": "A text read line by line means what the lines mean", "statement": "When two texts compile, the text made of the one, a newline and the other compiles to the updates of the first followed by those of the second, and so for any number of lines; the text of a REPL session therefore compiles, replaying it gives the music the session played, and so does saving and loading it. Characters are those that were encoded, whatever bytes surround a newline. There are four exceptions, each shown to be one: a line ending in an octave letter o without its number is accepted but the longer text is not; a line that begins with a barline after one that ends in a note length has the barline taken into the duration; a variable definition that leaves voices open takes in the lines after it, so notes that sounded are silent on replay; V0: on a line of its own begins a voice 0 instead of closing the voices of earlier lines, so its notes move.", "quantifier": "every pair and every sequence of texts that compile (any characters), and every REPL session of successful evaluations", "why_tests_cant": "Every token can end one line and every token can begin the next, and voices, definitions, comments and S-expressions span lines; tests only join a few.", "anchors": ["client/parser/scanner.go: Scan", "client/parser/parser.go: variableDefinition, voiceGroup, partEvents, duration, topLevel", "client/parser/ast.go", "client/repl/server.go: updateScoreWithInput, replay, load"]}
{"id": "C59", "title": "What is played and exported is the score", "statement": "When the player is sent a score for the first time and any commands after it, then, whatever its threads do when: once it plays, its sequence has the start and the end of every note of the score (or excerpt) exactly once, at the ticks its tempos give, on its channel and with its velocity, and the score's tempo changes; every note is heard with its own instrument, volume and panning, provided that no two parts start notes on the same channel at the same tick; every file written has the same, counted from the first note. The player finishes: there is always a step it can take, only so many of them, and in the end the files asked for are written in order and it plays if it was last told to. The provisos are needed: of two percussion parts (which share a channel) that start notes at the same tick, one can be heard with the other's volume, depending on the threads; and tempo changes within the first tick make the player play everything late.", "quantifier": "every score, excerpt, sequence of commands and schedule of the player's threads, where MIDI has values for the notes and the tempos can be converted (which they can, in exact arithmetic, if chronological)", "why_tests_cant": "Each track has its own queue, threads and lock, all adding to one sequence while the packets' thread goes on; tests see one interleaving.", "anchors": ["client/transmitter/osc.go: TransmitScore", "player/src/main/kotlin/io/alda/player/Player.kt: Track, applyUpdates, awaitActiveTasks, playerThread", "player/src/main/kotlin/io/alda/player/MidiEngine.kt: scheduleMidiMsg, setTempo, export", "player/src/main/kotlin/io/alda/player/Parser.kt"]}
{"id": "C60", "title": "Notes sound at their times", "statement": "Played by a MIDI sequencer, or as a standard MIDI file, what the player sequences sounds when the score says: each note starts and ends at its offset (in a file: as long after the first note as in the score) up to half a tick for every tempo set so far and half a microsecond for every quarter note, whatever the tempo changes are and however often they come, as long as they are no slower than a tempo message can say (3.58 beats per minute). Both provisos show: the half ticks can add up (with the tempo set every 5 ms, what should sound after 2 s sounds after 3.1 s), and slower tempos are dropped from the sequence though they count for the ticks (at 3 beats per minute what should sound after 20 s sounds after half a second).", "quantifier": "every score whose tempo changes are chronological and can be said in MIDI, every excerpt, sequence of commands and schedule of the player's threads; exact arithmetic", "why_tests_cant": "The error accumulates over the history of tempo changes; a test would have to sum the tempo messages of a sequence, for all histories.", "anchors": ["player/src/main/kotlin/io/alda/player/MidiEngine.kt: msToTicks, setTempo, setSequencerTempo, export", "player/src/main/kotlin/io/alda/player/Player.kt: applyUpdates", "client/transmitter/osc.go: TransmitScore"]}
{"id": "C61", "title": "Whatever is written can be played", "statement": "Whatever texts are compiled and evaluated one after the other, MIDI has a value for everything about each note of the score: its channel is one of the 16, its pitch, velocity, instrument and the volume and panning of its track are between 0 and 127, and it lasts a positive time. So what the other properties assume of a score that is played and exported (its tempo changes reach the player in order, the player takes them all, its notes can be sequenced) holds of everything written that is not too long: once the player plays, its sequence has exactly the notes written, each with its pitch, velocity, instrument, volume and panning, provided no two parts start notes on one channel at the same tick. Too long means offsets, or lengths, of 24 days or more, or none at all: `piano: c {c d}0 e` is accepted, its cram lasts forever, and the notes after it are in the score at an infinite offset.", "quantifier": "every sequence of texts that compile, every excerpt, sequence of commands and schedule of the player's threads; exact arithmetic", "why_tests_cant": "The claim joins the scanner, parser, Lisp evaluator, score and player; attribute values come from everywhere (Lisp, dynamics, variables, global attributes, clones of parts) and a test follows one path.", "anchors": ["client/model/lisp.go: percentage, volume, track-volume, panning", "client/model/attributes.go: VolumeSet, TrackVolumeSet, PanningSet, DynamicMarking", "client/model/part.go: NewPart, Clone", "client/model/instruments.go: stockInstruments", "client/parser/scanner.go: parseNumber", "client/transmitter/osc.go: TransmitScore", "player/src/main/kotlin/io/alda/player/Player.kt: applyUpdates"]}
{"id": "C62", "title": "Updating leaves nothing half done", "statement": "Whenever `alda update` stops (it succeeds, any of its steps fails, the process is killed between any two of them, or while copying after any number of bytes), and whatever other `alda` commands clean up in the background meanwhile: files in Alda's directory that are neither Alda's programs nor look like old ones are as they were; under a program's name there is nothing, the old version, or the beginning of the new version, which is executable only once it is complete; if it succeeded, all programs are exactly what was downloaded, and executable; if downloading failed, no program was touched; and as long as no `alda` command has cleaned up, each old version is still there, in its place or renamed. Cleaning up removes exactly the files whose names have that of an old program in them. What is installed is the release selected, if confirmed. Not so: when installing fails after the old program was renamed, the next `alda` command removes the old one, and neither version is left; an asset of an unknown type is only noticed when its turn comes, so a failed update can leave a new `alda` with an old `alda-player`; a file of the user's such as my-alda.2024.11.old-scores.zip is removed too.", "quantifier": "every release of Alda's programs, contents of the directory, failure and crash point of the update, interleaving with any number of `alda` commands cleaning up", "why_tests_cant": "A test would have to fail every system call, kill the process at every instruction and schedule concurrent commands; the property is about all of these.", "anchors": ["client/cmd/update.go: installAsset, downloadAndInstallAssets, downloadAssets, versionAssets, checkForUpdates", "client/cmd/root.go: cleanUpRenamedExecutables", "client/system/dirs.go: RenamedExecutable, IsRenamedExecutable, FindRenamedExecutables"]}
{"id": "C63", "title": "A REPL session keeps a working player", "statement": "However a REPL server's request handler and its player-managing loop are scheduled: as long as the player in use stays there, answers pings and no reset is asked for, every message goes to that player and no other is looked for. When it has gone or no longer answers, and another is available, that one is in use from the end of the loop's second turn on. A player in use at the end of a turn has answered a ping in that turn, unless there was one in a turn that began within the last second. Nothing is sent to a player that was told to shut down, provided the handler does not forget the player just while the loop is asking about it. Not so otherwise: the loop then puts the dying player back, the next score is sent to it and lost, and an export can be asked of a player that was sent no score, so that the file is empty.", "quantifier": "every interleaving of the two threads, at every access to the shared player, every sequence of requests, every behaviour of the player processes and their state files, every timing of turns", "why_tests_cant": "The race needs a request between two statements of the loop; no test controls that, and the property is about all interleavings and all ways players fail.", "anchors": ["client/repl/player_management.go: managePlayers, withTransmitter, transmitter, shutdownPlayer, unsetPlayer, hasPlayer", "client/repl/server.go: resetState, handleRequests, load, export"]}
{"id": "C64", "title": "Rounding errors reorder nothing and leave no MIDI range", "statement": "Computed in IEEE double precision, with every rounding of every operation, the player's conversion of millisecond offsets to ticks is defined, not negative and monotone after any chronological history of tempo changes, so no note ends before it starts; and whatever texts are compiled and evaluated, each note of the score has a channel below 16, a pitch, velocity, instrument, volume and panning between 0 and 127 and lasts a positive time.", "quantifier": "every chronological list of tempo changes at Int32 offsets whose tempos are doubles from 2^-149 to 2^128 (every positive single-precision tempo is), every two Int32 offsets from 0 on; every sequence of texts that compile", "why_tests_cant": "Each conversion rounds six times and its result feeds the next tempo's entry; whether two roundings can cross is a question about all doubles.", "anchors": ["player/src/main/kotlin/io/alda/player/MidiEngine.kt: msToTicks, addTempoEntry, setTempo", "client/model/lisp.go: percentage", "client/transmitter/osc.go: TransmitScore"]}
{"id": "C65", "title": "Commands reach exactly the players they are meant for", "statement": "`alda play` with a text sends the requested excerpt of that text's score, once and followed by the order to play, to one player: the one chosen by port or id, or else one that reported itself available; or it fails and no player receives anything; and it does succeed when the text has a score, the excerpt exists and the player can be reached. Without a text it tells the chosen player, or else each active player in turn, to go on, failing at the first that cannot be reached (the later ones are then not told). `alda stop` and `alda shutdown` send one message to the chosen player, or else to each known player, whether or not the others can be reached (and succeed even if none was); with an unknown id they fail and send nothing. `alda export` loads the excerpt into one available player, asks it for the file, and always shuts that player down afterwards; if no file was there before, what it writes to its standard output is the player's file or an initial part of it, and it reports the file as written only when the player writes to that same place (a relative name with a player started in another directory ends in success without a file).", "quantifier": "every command line of the four commands, every text, set of known players, outcome of each message, availability history and sequence of file states while the command waits", "why_tests_cant": "Which players are there, which of them can be reached, when one becomes available and how much of the file exists when it is opened are chosen by the environment, in every combination with the options.", "anchors": ["client/cmd/play.go: playCmd", "client/cmd/stop.go: stopCmd", "client/cmd/shutdown.go: shutdownCmd", "client/cmd/export.go: exportCmd", "client/system/process_management.go: FindPlayerByID, FindAvailablePlayer, ReadPlayerStates, spawnPlayer", "client/util/await.go: Await"]}
{"id": "C66", "title": "Nothing is reported about users who were not told or have refused", "statement": "In every history that begins with a new installation, with any number of alda commands running at the same time, failing system calls and commands killed at any point: before a usage report is sent, the telemetry notice has been shown or `alda telemetry --enable` run; a report contains the operating system, architecture, version and the name of the command that was run, none of its arguments; help, wrong usage and `alda` without a command send none; and a command run with ALDA_DISABLE_TELEMETRY=yes sends none and shows no notice. If `alda telemetry --disable` (or --enable), run alone, says so, the setting is made. Once it is \"disabled\" and nothing is running, no command sends a report or changes the setting, as long as the setting can be read and no command that changes it is run. (A setting that cannot be read, or is followed by a newline, is replaced by \"enabled\"; a command already running, or one that overlaps with a second --disable, may do so too; the first --disable of an installation reports itself.)", "quantifier": "every number and interleaving of processes, every command line, every outcome of each system call (including partial writes), every point at which a process is killed", "why_tests_cant": "The setting is a file that several processes check and then write, in steps; what they may do to each other depends on the schedule.", "anchors": ["client/cmd/telemetry.go: readTelemetryStatus, writeTelemetryStatus, informUserOfTelemetryIfNeeded, showTelemetryStatus, telemetryCmd, sendTelemetryRequest", "client/cmd/root.go: sendTelemetry, rootCmd, startBackgroundActivity", "client/system/dirs.go: QueryConfig"]}
{"id": "C67", "title": "Formatting a file does not lose the score", "statement": "`alda format` without -o never changes the file; with it, a file that is not a score, or cannot be read or opened, is not changed either. For every score of C46, line width that is not negative and indentation made of blanks, the command succeeds if no system call fails; the text that it then puts out or into the file means the same score as the old one and has the layout that was asked for, by default 80 characters and two spaces; and the file is at all times the old one or a beginning of the new one, in the end one of the two unless writing fails. (A negative line width, or a failure or kill after the file has been opened, leaves an empty or incomplete file; an indentation that is not blank becomes part of the score.)", "quantifier": "every text, every combination of flags, every outcome of the system calls, every moment at which the file is looked at or the command killed", "why_tests_cant": "That overwriting preserves the meaning is a claim about all scores; that nothing is lost is one about all failures and kill points.", "anchors": ["client/cmd/format.go: formatCmd", "client/parser/format.go: FormatASTToCode"]}
{"id": "C68", "title": "A part plays what is written in its own sections", "statement": "A score consists of any accepted text followed by sections, each a part declaration (instruments, groups, aliases; new or known) and what is written below it. If no section defines a marker or variable, sets a global attribute, uses voices or plays anything on some repetitions only, then rewriting one section changes nothing for the parts that do not take part in it: each plays the same notes at the same times, as loud, as long and with the same panning, and ends in the same state; only MIDI channels may differ. Every part can moreover be played on its own, everybody else's sections being left empty, and then plays what it plays in the score. (Global attributes, variables and markers set in a section do reach other parts.)", "quantifier": "every accepted text before, every list of sections, every rewriting of one of them, every part, every number system", "why_tests_cant": "It compares all pairs of scores that differ in what other parts do; sharing of state between parts shows up only in particular combinations of declarations, groups and channel assignments.", "anchors": ["client/model/part.go: PartDeclaration.UpdateScore, determineParts", "client/model/note.go: addNoteOrRest", "client/model/midi.go: assignMidiChannel"]}
{"id": "C69", "title": "Imported scores, written as Alda text, read as and play the same score", "statement": "A score of the kind that the MusicXML importer makes (parts with notes and rests of any lengths, ties, dots, slurs and accidentals, chords, octave settings and octave steps up and down, key signatures, dynamics, transpositions, barlines and voice groups; repeated sections are not included) can always be turned into a tree and printed as Alda text, in any layout; the text is always accepted and compiles to the same updates in the same order. Only their form may differ: barlines right after a length are read as a part of that length, octave changes at the head of a chord stand before the chord, and key signatures, dynamics and transpositions are S-expressions that evaluate to them. Played after anything that leaves no global attribute pending, the text gives the very notes that the updates give, and the same result; in particular, if a document of the kind that C56 covers imports as such a score, the text made from it plays the notes of the document. Numbers must be printed so that they read as the same numbers.", "quantifier": "every list of parts with any events, voices and voice groups of that kind, every indentation and line width, every number format that reads back, every order of key signature letters, every number system", "why_tests_cant": "The text depends on where lines are wrapped, on what stands next to what (a barline after a length, an octave before a chord, a voice after a tie) and on the numbers; all combinations in scores of any size have to come out as tokens that read back as intended.", "anchors": ["client/parser/gen.go: GenerateASTFromScoreUpdates", "client/parser/format.go: FormatASTToCode", "client/cmd/import.go", "client/parser/parser.go: Parse"]}
{"id": "C70", "title": "Importing a document gives a file that plays it, and harms no other file", "statement": "`alda import` takes its data from the given file, else the given text, else the standard input. If that is a document that C56 covers and its import is of the kind that C69 covers, a run that succeeds has written a text that plays exactly the notes of the document, to the standard output or, with -o, to the output file; it succeeds if no system call fails; and the output file is at all times as it was before or a beginning of that text. For any data whatsoever, no file but the output file is ever changed, no file at all without -o, and nothing is changed or put out if the format is not supported, no data can be read, the data is no XML document, the importer does not accept it or the output file cannot be opened. (An existing output file is replaced without asking, and is lost if writing fails.)", "quantifier": "every document, every combination of flags, every contents of all files, every outcome of the system calls, every moment at which the files are looked at or the command killed", "why_tests_cant": "It is a claim about the notes of all documents through importer, code generator, formatter and parser together, and about all failures and kill points.", "anchors": ["client/cmd/import.go: importCmd", "client/interop/musicxml/importer/importer.go: ImportMusicXML", "client/system/stdin.go: ReadStdin", "client/parser/gen.go: GenerateASTFromScoreUpdates", "client/parser/format.go: FormatASTToCode"]}
{"id": "C71", "title": "The printed syntax tree determines the score", "statement": "The tree that `alda parse -o ast-human` prints for a text (and the REPL's `:score ast` for a score), and the JSON value that `-o ast` prints, say everything about its structure: if two accepted texts give the same print, whatever the source positions in it, their trees are equal node by node, and both compile to the same score. This assumes that different literals of the same kind (two texts, two numbers, two integers, two characters) are shown differently, and for ast-human each on one line, as Go's quoted and shortest formats do; a number and an integer, or a text and a character, may look alike.", "quantifier": "every pair of accepted texts, every nesting of nodes, every source positions, every way to show literals that tells them apart", "why_tests_cant": "It is a claim about all pairs of trees: no two different nestings, types or literals may run together in the indented text.", "anchors": ["client/parser/ast.go: HumanReadableAST, ASTNode.JSON, ASTNodeType.String", "client/text/formatting.go: Indent", "client/cmd/parse.go: parseCmd"]}
{"id": "C72", "title": "Messages in a box are framed whole", "statement": "Every message that alda prints in a box (the telemetry notice, update announcements) comes out as a top border, an empty line, all lines of the message in order and unchanged except for spaces added after them, an empty line and a bottom border. All these lines have the same visible width, which is exactly what the longest line of the message needs, provided that terminal colour codes end in the line in which they begin. (Width is counted in characters, as in the code.)", "quantifier": "every message with any number of lines of any lengths, every kind of terminal codes", "why_tests_cant": "The frame has to fit all combinations of line lengths and invisible codes.", "anchors": ["client/text/formatting.go: Boxed, lineLength", "client/cmd/telemetry.go", "client/cmd/update.go"]}
{"id": "C73", "title": "Questions are answered by what was typed", "statement": "A yes-or-no question (installing an update, installing the player) is answered by the first line typed that is an answer: y or yes, n or no, in small or capital letters and with blanks around it, or a blank line for the default answer. Any other line asks again, however often, and nothing else counts as consent. Without --yes, alda update installs the files of a release exactly if that answer is yes or the blank line that means it. The question fails exactly if the input ends before such a line has been ended by a newline. (So an answer that is not ended by a newline, as in printf yes | alda update, is not taken but crashes the client.)", "quantifier": "every input, of any number of lines and any characters, and either default answer", "why_tests_cant": "There are infinitely many inputs, and all that are not an answer must not be taken for one.", "anchors": ["client/text/interaction.go: PromptForConfirmation", "client/cmd/update.go: promptAndInstallVersion", "client/cmd/doctor.go"]}
{"id": "C74", "title": "The doctor installs only the right player, and only when asked to", "statement": "The checks of alda doctor install nothing but the player (alda-player or alda-player.exe) from the release of alda's own version for this computer. If the server names one, it is installed exactly if the player is missing and the question about that is answered with yes (or a blank line), or the player has another version and the question about that is. If the player is there and has the same version, nothing is installed whatever is typed. If a release lists several players, the last one is taken.", "quantifier": "every answer of the release server, every input, everything that can be found before and after an installation, whether or not installing succeeds", "why_tests_cant": "The combinations of what is found, served and typed are infinite.", "anchors": ["client/cmd/doctor.go: doctorCmd", "client/cmd/update.go: installCorrectAldaPlayerVersion", "client/text/interaction.go: PromptForConfirmation", "client/system/process_management.go: AldaPlayerPath"]}
{"id": "C75", "title": "The player's version is read from what it says", "statement": "The player counts as missing (so that the doctor offers to install it) exactly if it is not on the PATH. It counts as found exactly if it is there, runs, and its output names a version (the rest of a line after 'alda-player '), and as having the client's version exactly if the first version named is the client's, to the end of the line. What the player really prints is understood for every version and log path and with either kind of line end.", "quantifier": "every output of any length, every client version, every log path", "why_tests_cant": "The player's output contains paths and versions that can be anything, including the text searched for.", "anchors": ["client/system/process_management.go: AldaPlayerPath", "player/src/main/kotlin/io/alda/player/Main.kt: Info"]}
