{
 "claims": [
  {
   "property": "C01",
   "status": "proved",
   "theorems": [
    "C01_no_collision",
    "C01_no_collision_exact",
    "C01_no_collision_ieee"
   ],
   "note": "Any number system with a transitive order; instantiated to exact numbers and IEEE doubles. Any sequence of update calls, failing or not."
  },
  {
   "property": "C02",
   "status": "proved",
   "theorems": [
    "C02_channels"
   ],
   "note": "Also without the restriction on explicit channels: an out-of-range channel panics instead of emitting."
  },
  {
   "property": "C03",
   "status": "proved",
   "theorems": [
    "C03_playable",
    "C03_out_of_range"
   ],
   "note": ""
  },
  {
   "property": "C04",
   "status": "proved",
   "theorems": [
    "C04_permanent"
   ],
   "note": ""
  },
  {
   "property": "C05",
   "status": "proved",
   "theorems": [
    "C05_concatenation",
    "C05_first_failure",
    "C05_sequence"
   ],
   "note": ""
  },
  {
   "property": "C06",
   "status": "proved",
   "theorems": [
    "C06_sequence"
   ],
   "note": "For every number system; hypotheses: not inside a failed chord, no recorded global attribute (C17 treats those)."
  },
  {
   "property": "C07",
   "status": "proved",
   "theorems": [
    "C07_sticky"
   ],
   "note": "Scores are equal in every field, for all current parts at once; no global default-duration change pending."
  },
  {
   "property": "C08",
   "status": "proved",
   "theorems": [
    "C08_audible",
    "C08_slur"
   ],
   "note": "For every number system and reachable score, global attributes included."
  },
  {
   "property": "C09",
   "status": "proved",
   "theorems": [
    "C09_chord",
    "C09_shortest"
   ],
   "note": "C09_chord for every number system; C09_shortest: in exact arithmetic the fold is the least length."
  },
  {
   "property": "C10",
   "status": "proved",
   "theorems": [
    "C10_cram",
    "C10_unannotated_refuted"
   ],
   "note": "Exact arithmetic, every nesting depth. The annotation requirement of the property is necessary: C10_unannotated_refuted shows {{c d}2 e}4 overruns."
  },
  {
   "property": "C11",
   "status": "proved",
   "theorems": [
    "C11_no_trace"
   ],
   "note": "For every cram whose events (and stored variables) act on the current parts only: no voices or part declarations inside."
  },
  {
   "property": "C12",
   "status": "proved",
   "theorems": [
    "C12_repeat"
   ],
   "note": "Same outcome and same score up to the repetition counters, for every event without endings (voices, part declarations, variables included) and every n below 2^31-1."
  },
  {
   "property": "C13",
   "status": "proved",
   "theorems": [
    "C13_endings",
    "C13_nested_refuted",
    "C13_group_refuted"
   ],
   "note": "For one instrument and bodies without inner repeats; both restrictions are necessary (refuted otherwise)."
  },
  {
   "property": "C14",
   "status": "proved",
   "theorems": [
    "C14_group",
    "C14_group_shared",
    "C14_endings_refuted",
    "C14_converse_refuted"
   ],
   "note": "Two-run lockstep: the solo run succeeds whenever the group run does, and agrees with it up to channels. For any number system without markers and global attributes; with them for exact arithmetic (IEEE 0 and -0 are == but different). Repetition ranges are a refuted exception; the converse (members succeed, so the group does) is refuted."
  },
  {
   "property": "C15",
   "status": "proved",
   "theorems": [
    "C15_captured"
   ],
   "note": "Value captured at definition; later updates must not define the same variable again (also not from inside other variables)."
  },
  {
   "property": "C16",
   "status": "proved",
   "theorems": [
    "C16_no_references",
    "C16_one_level",
    "C16_terminates",
    "C16_undefined"
   ],
   "note": ""
  },
  {
   "property": "C17",
   "status": "proved",
   "theorems": [
    "C17_orders",
    "C17_step",
    "C17_once",
    "C17_record",
    "C17_kept"
   ],
   "note": "For every number system with linear comparisons (exact numbers and IEEE doubles both shown to be such); the record's evolution in exact arithmetic."
  },
  {
   "property": "C18",
   "status": "proved",
   "theorems": [
    "C18_override",
    "C18_two_refuted",
    "C18_voice_refuted"
   ],
   "note": "For the change written immediately before the note or rest. Stronger readings are false of the code: with two local changes only the last overrides, and a voice marker in between drops the override."
  },
  {
   "property": "C19",
   "status": "proved",
   "theorems": [
    "C19_start",
    "C19_return"
   ],
   "note": "Each voice starts from the state of the part at the start of the group; switching back to a voice number resumes that voice."
  },
  {
   "property": "C20",
   "status": "proved",
   "theorems": [
    "C20_longest",
    "C20_closed",
    "C20_declaration"
   ],
   "note": "The group ends where its furthest voice ends, no voice stays open, and a part declaration ends the group too."
  },
  {
   "property": "C21",
   "status": "proved",
   "theorems": [
    "C21_voice",
    "C21_voice_end",
    "C21_pointers",
    "C21_no_panic",
    "C21_unsafe_refuted"
   ],
   "note": "No panic or hang for updates satisfying [safe], i.e. everything the parser produces except 2^31-1 repetitions and Lisp forms that crash the interpreter; the refutation shows the conditions are needed."
  },
  {
   "property": "C22",
   "status": "proved",
   "theorems": [
    "C22_resume",
    "C22_alias",
    "C22_taken",
    "C22_mixing",
    "C22_unmixed",
    "C22_unknown",
    "C22_alias_refuted",
    "C22_unmixed_refuted",
    "C22_resume_refuted"
   ],
   "note": "Resume and alias stability for histories in which only single instruments get (undotted) aliases; rejections for every history. Group declarations that break the rules are exhibited by the _refuted theorems."
  },
  {
   "property": "C23",
   "status": "proved",
   "theorems": [
    "C23_one_master",
    "C23_no_duplicates",
    "C23_tracks",
    "C23_stable"
   ],
   "note": "Track numbers are int32, hence the hypothesis of fewer than 2^31 parts."
  },
  {
   "property": "C24",
   "status": "proved",
   "theorems": [
    "C24_jump",
    "C24_undefined",
    "C24_define",
    "C24_unclear_exact",
    "C24_unclear_ieee",
    "C24_persists"
   ],
   "note": ""
  },
  {
   "property": "C25",
   "status": "proved",
   "theorems": [
    "C25_pitch",
    "C25_pitch_modulo"
   ],
   "note": "Exact; without the 32-bit bound it is false (C25_unbounded_refuted)."
  },
  {
   "property": "C26",
   "status": "proved",
   "theorems": [
    "C26_scales",
    "C26_scales_unbounded"
   ],
   "note": ""
  },
  {
   "property": "C27",
   "status": "proved",
   "theorems": [
    "C27_shift"
   ],
   "note": "For every key signature without natural signs (C27_naturals_refuted shows the restriction is needed)."
  },
  {
   "property": "C28",
   "status": "proved",
   "theorems": [
    "C28_length",
    "C28_dots",
    "C28_grouping",
    "C28_order",
    "C28_barline",
    "C28_tempo",
    "C28_validation"
   ],
   "note": "Exact rational arithmetic."
  },
  {
   "property": "C29",
   "status": "proved",
   "theorems": [
    "C29_notes",
    "C29_laws"
   ],
   "note": "Any number type with a linear order (exact numbers and IEEE doubles have one), any order of simultaneous notes."
  },
  {
   "property": "C30",
   "status": "proved",
   "theorems": [
    "C30_controls"
   ],
   "note": "Any admissible sort order; percussion channel without patch."
  },
  {
   "property": "C31",
   "status": "proved",
   "theorems": [
    "C31_exact",
    "C31_patch",
    "C31_volume_refuted"
   ],
   "note": "Exact list of note and control messages; patch messages always change the patch; volume and panning can repeat after rounding (refutation)."
  },
  {
   "property": "C32",
   "status": "proved",
   "theorems": [
    "C32_partition"
   ],
   "note": "Any boundaries a <= b <= c given as offsets, markers or minutes."
  },
  {
   "property": "C33",
   "status": "proved",
   "theorems": [
    "C33_tempos"
   ],
   "note": "Any itinerary with non-negative offsets; none in incremental transmissions."
  },
  {
   "property": "C34",
   "status": "proved",
   "theorems": [
    "C34_end"
   ],
   "note": "Audible ends must not be NaN."
  },
  {
   "property": "C35",
   "status": "proved",
   "theorems": [
    "C35_global",
    "C35_modulation",
    "C35_own",
    "C35_recorded",
    "C35_announced",
    "C35_kept",
    "C35_both_refuted",
    "C35_voice_refuted",
    "C35_modulation_refuted"
   ],
   "note": "Global changes, the leading part's own changes, and everything else; the ways the map can differ from the tempo played are refutations."
  },
  {
   "property": "C36",
   "status": "proved",
   "theorems": [
    "C36_monotone",
    "C36_notes",
    "C36_back",
    "C36_late_refuted",
    "C36_dense_refuted"
   ],
   "note": "Exact arithmetic (XQ). Exceptions in the statement are proved to be necessary by the _refuted theorems."
  },
  {
   "property": "C37",
   "status": "proved",
   "theorems": [
    "C37_once",
    "C37_order",
    "C37_apart",
    "C37_order_refuted",
    "C37_silent_refuted",
    "C37_range_refuted"
   ],
   "note": "Any interleaving of the threads' steps and any clock readings."
  },
  {
   "property": "C38",
   "status": "proved",
   "theorems": [
    "C38_cleared",
    "C38_later",
    "C38_waiting_refuted"
   ],
   "note": "Any interleaving."
  },
  {
   "property": "C39",
   "status": "proved",
   "theorems": [
    "C39_export"
   ],
   "note": "Every sequence reachable by tempo messages and scheduled events."
  },
  {
   "property": "C40",
   "status": "proved",
   "theorems": [
    "C40_understood",
    "C40_scores"
   ],
   "note": "OSC byte encoding is the libraries' and not modelled."
  },
  {
   "property": "C41",
   "status": "proved",
   "theorems": [
    "C41_once",
    "C41_once_ieee"
   ],
   "note": "C41_example. For every number system with a linear order, and IEEE doubles."
  },
  {
   "property": "C42",
   "status": "proved",
   "theorems": [
    "C42_rejected",
    "C42_unparsed",
    "C42_score_refuted",
    "C42_unsent_refuted"
   ],
   "note": "Statement amended: the score keeps the events before the failing one (C42_score_refuted), a failed transmission keeps the text (C42_unsent_refuted). C42_example."
  },
  {
   "property": "C43",
   "status": "proved",
   "theorems": [
    "C43_text",
    "C43_lines",
    "C43_score",
    "C43_replay",
    "C43_reproduces",
    "C43_answers",
    "C43_alive",
    "C43_harmless",
    "C43_lost_refuted"
   ],
   "note": "Statement amended with the exceptions proved. C43_example."
  },
  {
   "property": "C44",
   "status": "proved",
   "theorems": [
    "C44_scan",
    "C44_accepts",
    "C44_unambiguous",
    "C44_alias_refuted"
   ],
   "note": "scan = the grammar of SpecScan, both directions"
  },
  {
   "property": "C45",
   "status": "proved",
   "theorems": [
    "C45_parse",
    "C45_accepts",
    "C45_unambiguous",
    "C45_progress",
    "C45_vocabulary",
    "C45_empty_cram_refuted"
   ],
   "note": "Scanner and parser together, against a grammar given as relations between tokens and trees (SpecParser); C45_vocabulary says what the words shared by grammar and parser mean. Source contexts of tree nodes are not modelled."
  },
  {
   "property": "C46",
   "status": "proved",
   "theorems": [
    "C46_round_trip",
    "C46_idempotent",
    "C46_meaning",
    "C46_slurred_refuted",
    "C46_zero_refuted"
   ],
   "note": "for every printer of numbers that prints the score's numbers so that they read back (strconv.FormatFloat is a parameter)"
  },
  {
   "property": "C47",
   "status": "proved",
   "theorems": [
    "C47_attributes",
    "C47_one_meaning",
    "C47_lengths",
    "C47_markings",
    "C47_quantization_refuted",
    "C47_slow_refuted",
    "C47_junk_refuted"
   ],
   "note": "Arguments as written literals; exact rational numbers."
  },
  {
   "property": "C48",
   "status": "proved",
   "theorems": [
    "C48_cleanup_keeps_notes",
    "C48_import_keeps_notes",
    "C48_drums_in_key_refuted",
    "C48_low_keys_refuted",
    "C48_without_text_refuted"
   ],
   "note": "per voice, from any state and for states that agree on everything audible, and for whole imported files; the comparison of numbers is a parameter that must not confuse two numbers of the file"
  },
  {
   "property": "C49",
   "status": "proved",
   "theorems": [
    "C49_fill",
    "C49_fill_works",
    "C49_available",
    "C49_ends",
    "C49_twice_refuted",
    "C49_misnamed_refuted"
   ],
   "note": "Other processes, failures and replies are arbitrary oracles."
  },
  {
   "property": "C50",
   "status": "proved",
   "theorems": [
    "C50_monotone",
    "C50_expires"
   ],
   "note": "Clock below 2^62 so that Long arithmetic does not overflow."
  },
  {
   "property": "C51",
   "status": "proved",
   "theorems": [
    "C51_ids",
    "C51_describe",
    "C51_describe_refuted"
   ],
   "note": "C51_example. Exception for describe proved."
  },
  {
   "property": "C52",
   "status": "proved",
   "theorems": [
    "C52_compile",
    "C52_no_crash",
    "C52_untamed_refuted"
   ],
   "note": "For every text and every number format. The named exceptions are shown real (C52_untamed_refuted, C45_empty_cram_refuted)."
  },
  {
   "property": "C53",
   "status": "proved",
   "theorems": [
    "C53_says",
    "C53_wrapped_refuted"
   ],
   "note": "marks of tokens and of updates are defined independently in SpecAst.v."
  },
  {
   "property": "C54",
   "status": "proved",
   "theorems": [
    "C54_written",
    "C54_text",
    "C54_tree",
    "C54_formatted"
   ],
   "note": "refuted: C54_alias_refuted, C54_group_refuted (the tree differs, the updates do not), C54_stray_end_refuted (an end of voices without a voice crashes)"
  },
  {
   "property": "C55",
   "status": "proved",
   "theorems": [
    "C55_exact",
    "C55_close",
    "C55_fine_refuted",
    "C55_too_long_refuted",
    "C55_divisions_refuted"
   ],
   "note": "exact arithmetic; numbers that are not strings of digits are left to an oracle"
  },
  {
   "property": "C56",
   "status": "proved",
   "theorems": [
    "C56_sounds",
    "C56_natural_refuted",
    "C56_octave_change_refuted",
    "C56_dynamics_refuted",
    "C56_forward_refuted",
    "C56_key_change_refuted",
    "C56_twice_refuted",
    "C56_repeat_refuted",
    "C56_pianos_refuted",
    "C56_trio_refuted",
    "C56_voice_refuted",
    "C56_voice_number_refuted"
   ],
   "note": "The fragment is the domain of SpecXmlScore.read_score. Rational arithmetic; documents are trees of elements, the XML syntax is not modelled; the generated text is represented by its updates (text_of)."
  },
  {
   "property": "C57",
   "status": "proved",
   "theorems": [
    "C57_own",
    "C57_sends",
    "C57_files",
    "C57_remembers",
    "C57_load",
    "C57_reload",
    "C57_play",
    "C57_command",
    "C57_code",
    "C57_lost_refuted",
    "C57_late_refuted"
   ],
   "note": "compile and the shell-like splitting of arguments are parameters; request IDs (UUIDs) are assumed distinct"
  },
  {
   "property": "C58",
   "status": "proved",
   "theorems": [
    "C58_join",
    "C58_lines",
    "C58_utf8",
    "C58_bytes",
    "C58_session",
    "C58_replay",
    "C58_reload",
    "C58_octave_refuted",
    "C58_bar_refuted",
    "C58_definition_refuted",
    "C58_voices_refuted"
   ],
   "note": "For the whole compiler (scanner, parser, AST to updates) over any characters, and for REPL sessions with the real compiler in place of C43's and C57's arbitrary one. The four _refuted theorems show the exceptions named in the statement."
  },
  {
   "property": "C59",
   "status": "proved",
   "theorems": [
    "C59_notes",
    "C59_sound",
    "C59_export",
    "C59_done",
    "C59_exact",
    "C59_sound_refuted",
    "C59_late_refuted"
   ],
   "note": "for every schedule of the player's threads; the provisos (channels shared at one tick; tempo changes within a tick) are shown to be needed"
  },
  {
   "property": "C60",
   "status": "proved",
   "theorems": [
    "C60_time",
    "C60_play",
    "C60_export",
    "C60_drift_refuted",
    "C60_slow_refuted"
   ],
   "note": "exact numbers; error bound of half a tick per tempo change proved, and shown to be reached"
  },
  {
   "property": "C61",
   "status": "proved",
   "theorems": [
    "C61_values",
    "C61_performed",
    "C61_heard",
    "C61_endless_refuted"
   ],
   "note": "Exact arithmetic (XQ). C61_values: every text, no tameness assumed. C61_performed/C61_heard assume times finite and below 2^31-1 ms (timely), which C61_endless_refuted shows is needed."
  },
  {
   "property": "C62",
   "status": "proved",
   "theorems": [
    "C62_others",
    "C62_whole",
    "C62_done",
    "C62_download",
    "C62_kept",
    "C62_cleaned",
    "C62_choice",
    "C62_lost_refuted",
    "C62_half_refuted",
    "C62_foreign_refuted"
   ],
   "note": "Every run, prefix of a run (crash) and interleaving with cleaning processes. Assets are assumed to be Alda's four program names, distinct."
  },
  {
   "property": "C63",
   "status": "proved",
   "theorems": [
    "C63_same",
    "C63_recovers",
    "C63_answers",
    "C63_told",
    "C63_told_refuted",
    "C63_export_refuted"
   ],
   "note": "all interleavings of the two threads; assignments of the player state are atomic"
  },
  {
   "property": "C64",
   "status": "proved",
   "theorems": [
    "C64_monotone",
    "C64_notes",
    "C64_values"
   ],
   "note": "IEEE doubles; uses the standard library's axioms of the real numbers"
  },
  {
   "property": "C65",
   "status": "proved",
   "theorems": [
    "C65_play",
    "C65_plays",
    "C65_resume",
    "C65_stop",
    "C65_shutdown",
    "C65_export",
    "C65_output"
   ],
   "note": "Refutations: C65_resume_refuted, C65_stop_refuted, C65_elsewhere_refuted, C65_existing_refuted, C65_partial_refuted."
  },
  {
   "property": "C66",
   "status": "proved",
   "theorems": [
    "C66_sent",
    "C66_silent",
    "C66_off",
    "C66_set"
   ],
   "note": "Refutations: C66_first_refuted, C66_unreadable_refuted, C66_race_refuted, C66_overlap_refuted."
  },
  {
   "property": "C67",
   "status": "proved",
   "theorems": [
    "C67_formats",
    "C67_layout",
    "C67_untouched"
   ],
   "note": "Refutations: C67_wrap_refuted, C67_indent_refuted, C67_write_refuted."
  },
  {
   "property": "C68",
   "status": "proved",
   "theorems": [
    "C68_edit",
    "C68_alone",
    "C68_global_refuted",
    "C68_variable_refuted",
    "C68_marker_refuted"
   ],
   "note": "Sections without voices, numbered endings and definitions; the accepted text before them is arbitrary except that the variables in it obey the same restriction."
  },
  {
   "property": "C69",
   "status": "proved",
   "theorems": [
    "C69_text",
    "C69_plays",
    "C69_document",
    "C69_exactly_refuted"
   ],
   "note": "C69_text over any number system and number format that reads back; C69_plays and C69_document over exact numbers. C69_document takes as a hypothesis that the import is of the kind described; it is not shown that every import without repeated sections is."
  },
  {
   "property": "C70",
   "status": "proved",
   "theorems": [
    "C70_imports",
    "C70_untouched"
   ],
   "note": "C70_imports over exact numbers, for documents whose import is of the kind of C69. Refutation: C70_existing_refuted."
  },
  {
   "property": "C71",
   "status": "proved",
   "theorems": [
    "C71_tree",
    "C71_json"
   ],
   "note": "How literals look (JSON and the #v format) is a parameter that tells them apart; JSON is modelled as a value, its text is encoding/json's."
  },
  {
   "property": "C72",
   "status": "proved",
   "theorems": [
    "C72_box",
    "C72_lines"
   ],
   "note": "Removing terminal codes is a parameter."
  },
  {
   "property": "C73",
   "status": "proved",
   "theorems": [
    "C73_question",
    "C73_crash",
    "C73_consent",
    "C73_last_line_refuted"
   ],
   "note": "Characters outside ASCII: which are blanks and what their small letters are is a parameter; the refuted theorem is the exception named in the statement."
  },
  {
   "property": "C74",
   "status": "proved",
   "theorems": [
    "C74_player",
    "C74_repairs",
    "C74_healthy"
   ],
   "note": "C74_player and C74_repairs are the two directions; how an installation proceeds is C62."
  },
  {
   "property": "C75",
   "status": "proved",
   "theorems": [
    "C75_finding",
    "C75_missing",
    "C75_agrees"
   ],
   "note": "Output is a list of characters; running the player is a parameter."
  }
 ]
}