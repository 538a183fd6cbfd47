(** Property theorems C58. *)
From Coq Require Import ZArith String Ascii List Bool Permutation.
From Verif Require Import Base Num ModelPitch ModelDuration ModelInstruments ModelTypes ModelLisp ModelScore ModelOsc ModelRepl
  SpecScore SpecVars SpecParts SpecSolo SpecTiming SpecGlobals SpecOsc SpecRepl ProofGlobals ProofRepl ModelReplClient SpecReplClient ProofReplClient
  ModelScan ModelAst ModelUtf8 SpecLines ProofLines ProofUtf8 ProofLinesRepl.
Import ListNotations.
Local Open Scope string_scope.
Local Open Scope list_scope.

(** C58: a text followed by another on the next line reads like the one and then
    the other. *)
Theorem C58_join : forall {N : Num} (a b : list rune) ua ub, compile a = ROk ua -> compile b = ROk ub ->
  can_follow ua ub -> ~ bare_octave a -> ~ leading_bar b ->
  compile (a ++ newline :: b) = ROk (ua ++ ub).
Proof. exact (fun N a b ua ub H1 H2 H3 H4 H5 => proj1 (compile_join a b ua ub H1 H2 H3 H4 H5)). Qed.
Print Assumptions C58_join.

(** C58: likewise any number of lines. *)
Theorem C58_lines : forall {N : Num} (texts : list (list rune)) uss,
  Forall2 (fun t us => compile t = ROk us /\ tidy t) texts uss -> follow_on uss ->
  compile (joined texts) = ROk (List.concat uss).
Proof. exact (fun N texts uss H F => proj1 (compile_lines texts uss H F)). Qed.
Print Assumptions C58_lines.

(** C58: the characters of a text are those that were encoded; and a newline is
    one whatever bytes surround it. *)
Theorem C58_utf8 : forall rs, Forall scalar rs -> decode (utf8 rs) = rs.
Proof. exact decode_utf8. Qed.
Print Assumptions C58_utf8.
Theorem C58_bytes : forall s t, decode (s ++ String "010" t)%string = decode s ++ newline :: decode t.
Proof. exact decode_newline. Qed.
Print Assumptions C58_bytes.

(** C58: the text of a REPL session reads like the inputs did. *)
Theorem C58_session : forall (N : Num) rs sv log uss, serves compile_text new_server rs sv log ->
  Forall (fun h => asks "eval-and-play" (h_request h) /\ went_well h) log -> orderly log uss ->
  compile_text (sv_input sv) = ROk (List.concat uss).
Proof. exact @c58_session. Qed.
Print Assumptions C58_session.

(** C58: so replaying it gives the same music, *)
Theorem C58_replay : forall (N : Num) rs sv log uss r sv' out res ans, serves compile_text new_server rs sv log ->
  Forall (fun h => asks "eval-and-play" (h_request h) /\ went_well h) log -> orderly log uss ->
  handles compile_text sv r sv' out res ans -> asks "replay" r -> map r_status ans = [["done"]] ->
  same_music (sv_score sv) (sv_score sv').
Proof. exact @c58_replay. Qed.
Print Assumptions C58_replay.

(** C58: and so does loading it after it was saved. *)
Theorem C58_reload : forall (N : Num) split w lines w' es, converses compile_text split w lines w' es -> w_unread w = [] -> fresh_ids es ->
  forall e f r a rs sv log uss, In e es -> command_for split "load" f e -> aget String.eqb f (w_files (n_before e)) = Some (sv_input sv) ->
  In (Asked r (Some a)) (n_happened e) -> r_status a = ["done"] ->
  serves compile_text new_server rs sv log -> Forall (fun h => asks "eval-and-play" (h_request h) /\ went_well h) log -> orderly log uss ->
  same_music (sv_score sv) (sv_score (w_server (n_after e))).
Proof. exact @c58_reload. Qed.
Print Assumptions C58_reload.

(** A session in which voices and a comment span lines. *)
Example C58_example : let codes := ["piano: (tempo 100) c"; "V1: e # first"; "g4~8"; "V2: c d"; "foo = V1: c V0: d"; "violin ""solo"":"; "foo | [a b]*2"; "V0: %end"] in
  let x := played (N := B64) compile_text codes in
  serves compile_text new_server (map play codes) (fst x) (snd x) /\
  Forall (fun h => asks "eval-and-play" (h_request h) /\ went_well h) (snd x) /\ orderly (snd x) (map updates_of codes) /\
  List.length (events (sv_score (fst x))) = 11%nat /\ List.length (List.concat (map (@updates_of B64) codes)) = 16%nat.
Proof.
  cbv zeta. split; [apply played_serves; vm_compute; reflexivity|]. split; [apply well_check_ok; vm_compute; reflexivity|]. split; [|split; vm_compute; reflexivity].
  apply orderly_check; [vm_compute; reflexivity|vm_compute; reflexivity|]. apply follow_check_ok. vm_compute. reflexivity.
Qed.

(** C58: an "o" without a number is read as octave 0 at the end of a text only: a
    session with it is accepted, but its text is not. *)
Theorem C58_octave_refuted : exists codes sv log m, serves (compile_text (N := B64)) new_server (map play codes) sv log /\
  Forall (fun h => asks "eval-and-play" (h_request h) /\ went_well h) log /\ compile_text (N := B64) (sv_input sv) = RErr m.
Proof. exact c58_octave_refuted. Qed.
Print Assumptions C58_octave_refuted.

(** C58: a barline at the start of a line after a note length is taken into the
    note's duration. *)
Theorem C58_bar_refuted : exists a b (ua ub us : list (@update B64)), compile a = ROk ua /\ compile b = ROk ub /\ can_follow ua ub /\ ~ bare_octave (N := B64) a /\
  compile (a ++ newline :: b) = ROk us /\ List.length us <> List.length (ua ++ ub).
Proof. exact c58_bar_refuted. Qed.
Print Assumptions C58_bar_refuted.

(** C58: a definition that leaves voices open takes in what is on the lines after
    it: evaluated line by line, the notes below are played; replayed, they are
    not. *)
Theorem C58_definition_refuted : exists codes sv log us s, serves (compile_text (N := B64)) new_server (map play codes) sv log /\
  Forall (fun h => asks "eval-and-play" (h_request h) /\ went_well h) log /\
  compile_text (N := B64) (sv_input sv) = ROk us /\ exec us new_score = (s, Ok) /\
  List.length (events (sv_score sv)) = 2%nat /\ List.length (events s) = 0%nat.
Proof. exact c58_definition_refuted. Qed.
Print Assumptions C58_definition_refuted.

(** C58: V0: on a line of its own begins a voice with the number 0 instead of
    closing the voices of the lines before: its notes start where those do. *)
Theorem C58_voices_refuted : exists codes sv log us s, serves (compile_text (N := B64)) new_server (map play codes) sv log /\
  Forall (fun h => asks "eval-and-play" (h_request h) /\ went_well h) log /\
  compile_text (N := B64) (sv_input sv) = ROk us /\ exec us new_score = (s, Ok) /\
  early (sv_score sv) = [(60%Z, true); (62%Z, false); (64%Z, true)] /\ early s = [(60%Z, true); (62%Z, false); (64%Z, false)].
Proof. exact c58_voices_refuted. Qed.
Print Assumptions C58_voices_refuted.
