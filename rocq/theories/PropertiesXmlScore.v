(** Property theorems C56. *)
From Coq Require Import ZArith QArith Qcanon Ascii String List Bool Permutation.
From Verif Require Import Base Num ModelPitch ModelDuration ModelInstruments ModelTypes ModelLisp ModelScore ModelImporter ModelMusicXml
  SpecImporter SpecMusicXml SpecXmlScore ProofXmlDoc.
Import ListNotations.
Local Open Scope string_scope.
Local Open Scope list_scope.
Local Open Scope Z_scope.

(** C56: the Alda code made from a MusicXML document plays the notes of the
    document, each with its instrument, pitch, beginning and length, and
    nothing else; in whatever order the importer visits its maps. *)
Theorem C56_sounds :
  forall M other part_order voice_order feq doc l,
  1 <= M <= 24 -> (forall k vs, Permutation vs (voice_order k vs)) -> (forall x y, feq x y = true -> x = y) ->
  read_score M doc = Some l ->
  exists us, import_music_xml other part_order voice_order feq doc = ROk us /\
    let r := exec (text_of us) new_score in
    snd r = Ok /\ Permutation (map (as_heard (fst r)) (events (fst r))) (map (in_ms M) l).
Proof. exact (fun M o po vo feq doc l HM Hv Hf H => import_sounds M HM o po vo Hv feq doc l Hf H). Qed.
Print Assumptions C56_sounds.

Definition leaf (t x : string) : elem := Elem t [] x [].
Definition node (t : string) (cs : list elem) : elem := Elem t [] "" cs.
Definition pitch (s : string) (a o : string) : elem := node "pitch" [leaf "step" s; leaf "alter" a; leaf "octave" o].
Definition note (cs : list elem) (d v : string) : elem := node "note" (cs ++ [leaf "duration" d; leaf "voice" v]).
Definition backup (d : string) : elem := node "backup" [leaf "duration" d].
Definition forward (d : string) : elem := node "forward" [leaf "duration" d].
Definition dynamics (k : string) : elem := node "direction" [node "direction-type" [node "dynamics" [leaf k ""]]].
Definition score_part (id program : string) : elem :=
  Elem "score-part" [("id", id)] "" [leaf "part-name" id; Elem "midi-instrument" [] "" [leaf "midi-program" program]].
Definition part (id : string) (ms : list elem) : elem := Elem "part" [("id", id)] "" ms.
Definition sheet (sps ps : list elem) : list elem := [node "score-partwise" (node "part-list" sps :: ps)].
Definition no_float (s : string) : @num XQ := n0.
(** The notes that an import plays: instrument, key, beginning and length in milliseconds, rounded. *)
Definition plays (doc : list elem) : list (string * Z * Z * Z) :=
  match import_music_xml (N := XQ) no_float (fun _ l => rev l) (fun _ l => rev l) neqb doc with
  | ROk us => let (s, o) := exec (text_of us) new_score in
              map (fun e => match as_heard s e with (i, k, t, d) => (i, k, xq_round32 t, xq_round32 d) end) (events s)
  | _ => []
  end.
(** How an import ends: a result to be played, an error or a crash; then how playing it ends. *)
Definition ends (doc : list elem) : res outcome :=
  rmap (fun us => snd (exec (text_of us) new_score)) (import_music_xml (N := XQ) no_float (fun _ l => rev l) (fun _ l => rev l) neqb doc).

(** Two parts: a clarinet in B flat in D major, with a chord and two voices that
    overlap, and a cello in G minor; triplets, dots and dynamics. *)
Definition ex_duo : list elem :=
  sheet [score_part "P1" "72"; score_part "P2" "43"]
    [part "P1"
       [node "measure"
          [node "attributes" [leaf "divisions" "6"; node "key" [leaf "fifths" "2"]; node "transpose" [leaf "diatonic" "-1"; leaf "chromatic" "-2"]];
           dynamics "mf";
           note [pitch "F" "1" "5"] "6" "1"; note [leaf "chord" ""; pitch "A" "0" "5"] "6" "1";
           note [pitch "C" "0" "5"; leaf "accidental" "natural"] "2" "1"; note [pitch "D" "0" "5"] "2" "1"; note [pitch "E" "-1" "5"] "2" "1";
           backup "6"; note [pitch "G" "0" "4"; leaf "dot" ""] "9" "2"];
        node "measure" [forward "3"; note [pitch "C" "1" "5"] "12" "1"; leaf "barline" ""]];
     part "P2"
       [node "measure"
          [node "attributes" [leaf "divisions" "4"; node "key" [leaf "fifths" "-2"]];
           note [leaf "rest" ""] "4" "1"; note [pitch "B" "-1" "2"] "7" "1"]]].
Example C56_ex :
  option_map (map (fun x => (fst x, s_key (snd x), s_on (snd x), s_len (snd x)))) (read_score 12 ex_duo) =
    Some [("midi-clarinet", 76, 0, 12); ("midi-clarinet", 79, 0, 12); ("midi-clarinet", 70, 12, 4); ("midi-clarinet", 72, 16, 4); ("midi-clarinet", 73, 20, 4);
          ("midi-clarinet", 65, 12, 18); ("midi-clarinet", 71, 36, 24); ("midi-cello", 46, 12, 21)] /\
  plays ex_duo =
    [("midi-clarinet", 76, 0, 500); ("midi-clarinet", 79, 0, 500); ("midi-clarinet", 70, 500, 167); ("midi-clarinet", 72, 667, 167); ("midi-clarinet", 73, 833, 167);
     ("midi-clarinet", 71, 1500, 1000); ("midi-clarinet", 65, 500, 750); ("midi-cello", 46, 500, 875)].
Proof. vm_compute. split; reflexivity. Qed.

(** What is left out of C56 plays differently from what is written. *)
Definition plain (s o d v : string) : elem := note [node "pitch" [leaf "step" s; leaf "octave" o]] d v.
Definition solo (l : list elem) : list elem := sheet [score_part "P1" "72"] [part "P1" [node "measure" l]].
Definition key (f : string) : elem := node "key" [leaf "fifths" f].
Definition keys_of (doc : list elem) : list Z := map (fun x => snd (fst (fst x))) (plays doc).
Definition starts_of (doc : list elem) : list Z := map (fun x => snd (fst x)) (plays doc).

(** The pitch of a note is not enough: C in D major, which needs no sign if the
    bar has shown one before, becomes C sharp unless the sign is written out. *)
Definition ex_natural : list elem := solo [node "attributes" [key "2"]; plain "C" "4" "1" "1"].
Theorem C56_natural_refuted : exists doc, doc = ex_natural /\ keys_of doc = [61].
Proof. exact (ex_intro _ ex_natural (conj eq_refl (@eq_refl (list Z) ([61]) <: keys_of ex_natural = [61]))). Qed.
Print Assumptions C56_natural_refuted.

(** The octaves of a transposition are ignored: this should play an octave lower. *)
Definition ex_octave_change : list elem := solo [node "attributes" [node "transpose" [leaf "chromatic" "0"; leaf "octave-change" "-1"]]; plain "D" "4" "1" "1"].
Theorem C56_octave_change_refuted : exists doc, doc = ex_octave_change /\ keys_of doc = [62].
Proof. exact (ex_intro _ ex_octave_change (conj eq_refl (@eq_refl (list Z) ([62]) <: keys_of ex_octave_change = [62]))). Qed.
Print Assumptions C56_octave_change_refuted.

(** A dynamic mark after a backup takes the backup back: the second voice comes at
    two seconds, not at one. *)
Definition ex_dynamics : list elem := solo [plain "C" "4" "2" "1"; plain "C" "4" "2" "1"; backup "2"; dynamics "mf"; plain "D" "5" "1" "2"].
Theorem C56_dynamics_refuted : exists doc, doc = ex_dynamics /\ starts_of doc = [0; 1000; 2000].
Proof. exact (ex_intro _ ex_dynamics (conj eq_refl (@eq_refl (list Z) ([0; 1000; 2000]) <: starts_of ex_dynamics = [0; 1000; 2000]))). Qed.
Print Assumptions C56_dynamics_refuted.

(** A forward with a voice number moves by nothing in a voice that has to be padded:
    D comes at one second, not at one and a half. *)
Definition ex_forward : list elem := solo [plain "C" "4" "2" "1"; plain "C" "4" "2" "1"; backup "2"; node "forward" [leaf "duration" "1"; leaf "voice" "2"]; plain "D" "4" "1" "2"].
Theorem C56_forward_refuted : exists doc, doc = ex_forward /\ starts_of doc = [0; 1000; 1000].
Proof. exact (ex_intro _ ex_forward (conj eq_refl (@eq_refl (list Z) ([0; 1000; 1000]) <: starts_of ex_forward = [0; 1000; 1000]))). Qed.
Print Assumptions C56_forward_refuted.

(** After a change of key followed by a rest, the octave is lost: D in the octave of
    middle C is played five octaves higher. *)
Definition ex_key_change : list elem := solo [plain "C" "4" "1" "1"; node "attributes" [key "1"]; note [leaf "rest" ""] "1" "1"; plain "D" "4" "1" "1"].
Theorem C56_key_change_refuted : exists doc, doc = ex_key_change /\ keys_of doc = [60; 122].
Proof. exact (ex_intro _ ex_key_change (conj eq_refl (@eq_refl (list Z) ([60; 122]) <: keys_of ex_key_change = [60; 122]))). Qed.
Print Assumptions C56_key_change_refuted.

(** Music before a change of both key and transposition is played twice. *)
Definition ex_twice : list elem := solo [plain "C" "4" "1" "1"; node "attributes" [key "1"; node "transpose" [leaf "chromatic" "1"]]; plain "D" "4" "1" "1"].
Theorem C56_twice_refuted : exists doc, doc = ex_twice /\ keys_of doc = [60; 60; 63].
Proof. exact (ex_intro _ ex_twice (conj eq_refl (@eq_refl (list Z) ([60; 60; 63]) <: keys_of ex_twice = [60; 60; 63]))). Qed.
Print Assumptions C56_twice_refuted.

Definition repeat_bar (d : string) : elem := node "barline" [Elem "repeat" [("direction", d)] "" []].
(** The second of two repeats repeats the first one as well: C C D D becomes
    C C D C C D. *)
Definition ex_repeat : list elem := solo [plain "C" "4" "1" "1"; repeat_bar "backward"; plain "D" "4" "1" "1"; repeat_bar "backward"].
Theorem C56_repeat_refuted : exists doc, doc = ex_repeat /\ keys_of doc = [60; 60; 62; 60; 60; 62].
Proof. exact (ex_intro _ ex_repeat (conj eq_refl (@eq_refl (list Z) ([60; 60; 62; 60; 60; 62]) <: keys_of ex_repeat = [60; 60; 62; 60; 60; 62]))). Qed.
Print Assumptions C56_repeat_refuted.

(** A part without a MIDI program and a part with the program of the piano are
    played one after the other. *)
Definition ex_pianos : list elem := sheet [Elem "score-part" [("id", "P1")] "" []; score_part "P2" "1"] (map (fun i => part i [node "measure" [plain "C" "4" "1" "1"]]) ["P1"; "P2"]).
Theorem C56_pianos_refuted : exists doc, doc = ex_pianos /\ starts_of doc = [0; 500].
Proof. exact (ex_intro _ ex_pianos (conj eq_refl (@eq_refl (list Z) ([0; 500]) <: starts_of ex_pianos = [0; 500]))). Qed.
Print Assumptions C56_pianos_refuted.

(** Three parts for the same instrument give code that does not run. *)
Definition ex_trio : list elem := sheet (map (fun i => score_part i "72") ["P1"; "P2"; "P3"]) (map (fun i => part i [node "measure" [plain "C" "4" "1" "1"]]) ["P1"; "P2"; "P3"]).
Theorem C56_trio_refuted : exists doc, doc = ex_trio /\ ends doc = ROk (Err "ambiguous instrument reference").
Proof. exact (ex_intro _ ex_trio (conj eq_refl (@eq_refl (res outcome) (ROk (Err "ambiguous instrument reference")) <: ends ex_trio = ROk (Err "ambiguous instrument reference")))). Qed.
Print Assumptions C56_trio_refuted.

(** A part with a key and without a voice 1 crashes the importer. *)
Definition ex_voice : list elem := solo [node "attributes" [key "2"]; plain "D" "4" "2" "2"].
Theorem C56_voice_refuted : exists doc, doc = ex_voice /\ ends doc = RPanic "nil pointer dereference".
Proof. exact (ex_intro _ ex_voice (conj eq_refl (@eq_refl (res outcome) (RPanic "nil pointer dereference") <: ends ex_voice = RPanic "nil pointer dereference"))). Qed.
Print Assumptions C56_voice_refuted.

(** So does a voice number above 127. *)
Definition ex_voice_number : list elem := solo [plain "C" "4" "2" "1"; plain "C" "4" "2" "128"].
Theorem C56_voice_number_refuted : exists doc, doc = ex_voice_number /\ ends doc = RPanic "nil pointer dereference".
Proof. exact (ex_intro _ ex_voice_number (conj eq_refl (@eq_refl (res outcome) (RPanic "nil pointer dereference") <: ends ex_voice_number = RPanic "nil pointer dereference"))). Qed.
Print Assumptions C56_voice_number_refuted.
