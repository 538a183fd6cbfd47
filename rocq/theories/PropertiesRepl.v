(** Property theorems C41-C43 and C51.  [compile] stands for the scanner, parser
    and AST-to-updates translation: the theorems hold whatever it does. *)
From Coq Require Import ZArith List String Bool Permutation.
From Verif Require Import Base Num ModelPitch ModelDuration ModelInstruments ModelTypes ModelLisp
  ModelScore ModelOsc ModelRepl SpecScore SpecVars SpecParts SpecSolo SpecTiming SpecGlobals SpecOsc SpecRepl ProofGlobals ProofOsc ProofRepl.
Import ListNotations.
Local Open Scope string_scope.
Local Open Scope list_scope.

(** C41: over evaluations that went well or were rejected, the notes of the score
    fall into one batch for each evaluation that went well, and those not sent
    yet; each batch is what that evaluation sent.  Nothing is unsent after an
    evaluation that went well. *)
Theorem C41_once : forall (N : Num) compile, linear_order -> nisnan n0 = false -> nisnan nmaxval = false ->
  forall rs sv log, serves compile new_server rs sv log ->
  Forall (input_exchange compile) log -> (forall e, In e (events (sv_score sv)) -> in_range n0 nmaxval e = true) ->
  exists batches unsent, Forall2 delivers log batches /\ Permutation (List.concat batches ++ unsent) (events (sv_score sv)) /\
    (ends_well log -> unsent = []).
Proof. exact @c41. Qed.
Print Assumptions C41_once.

Theorem C41_once_ieee : forall compile rs sv log, serves (N := B64) compile new_server rs sv log ->
  Forall (input_exchange compile) log -> (forall e, In e (events (sv_score sv)) -> in_range n0 nmaxval e = true) ->
  exists batches unsent, Forall2 delivers log batches /\ Permutation (List.concat batches ++ unsent) (events (sv_score sv)) /\
    (ends_well log -> unsent = []).
Proof. exact (fun compile => @c41 B64 compile linear_B64 (proj1 nonan_B64) (proj2 nonan_B64)). Qed.
Print Assumptions C41_once_ieee.

Example C41_example : let x := played (N := B64) toy ["piano: c"; "??"; "d"] in
  serves toy new_server (map play ["piano: c"; "??"; "d"]) (fst x) (snd x) /\
  all_well (snd x) = [true; false; true] /\ notes_sent (snd x) = [1; 0; 1] /\
  forallb (in_range n0 nmaxval) (events (sv_score (fst x))) = true /\ List.length (events (sv_score (fst x))) = 2%nat.
Proof.
  cbv zeta. split; [apply (played_serves toy ["piano: c"; "??"; "d"]); vm_compute; reflexivity|].
  split; [vm_compute; reflexivity|]. split; [vm_compute; reflexivity|]. split; vm_compute; reflexivity.
Qed.

(** C42: input that does not evaluate changes neither the text nor what counts
    as sent, sends nothing and is answered with an error. *)
Theorem C42_rejected : forall (N : Num) compile sv r sv' out res ans code, handles compile sv r sv' out res ans ->
  asks_with "eval-and-play" code r -> rejects compile sv code ->
  sv_input sv' = sv_input sv /\ sv_index sv' = sv_index sv /\ out = [] /\ exists m, ans = [respond_error r m].
Proof. exact @c42_rejected. Qed.
Print Assumptions C42_rejected.

(** C42: input that does not parse changes nothing at all. *)
Theorem C42_unparsed : forall (N : Num) compile sv r sv' out res ans code m, handles compile sv r sv' out res ans ->
  asks_with "eval-and-play" code r -> compile code = RErr m -> sv' = sv.
Proof. exact @c42_unparsed. Qed.
Print Assumptions C42_unparsed.

Example C42_example : let sv := fst (played (N := B64) toy ["piano: c"]) in
  rejects toy sv "e f oops" /\ rejects toy sv "??" /\ sv_input sv = line "piano: c" /\
  exists sv', handles toy sv (play "e f oops") sv' [] (Failed "undefined variable") [respond_error (play "e f oops") "undefined variable"].
Proof.
  cbv zeta. assert (K : snd (exec (N := B64) [toy_note LE; toy_note LF; UVarRef "oops"] (sv_score (fst (played (N := B64) toy ["piano: c"])))) = Err "undefined variable")
    by (vm_compute; reflexivity).
  destruct (exec [toy_note LE; toy_note LF; UVarRef "oops"] (sv_score (fst (played (N := B64) toy ["piano: c"])))) as [s o] eqn:E. cbn [snd] in K. subst o.
  split; [right; exists [toy_note LE; toy_note LF; UVarRef "oops"], s, "undefined variable"; split; [reflexivity|exact E]|].
  split; [left; exists "syntax error"; reflexivity|]. split; [vm_compute; reflexivity|].
  exists (set_score s (fst (played (N := B64) toy ["piano: c"]))). eapply H_op; [reflexivity|].
  apply (O_play toy _ (play "e f oops") "e f oops" _ [] (Failed "undefined variable")); [reflexivity|].
  eapply EV_bad; [unfold ModelRepl.update_score; change (toy "e f oops") with (ROk [toy_note (N := B64) LE; toy_note LF; UVarRef "oops"]); cbv iota beta; rewrite E; reflexivity|discriminate].
Qed.

(** C42 does not hold of the score: the notes before the failing event stay in
    it, and are sent with the next input. *)
Theorem C42_score_refuted : exists (compile : string -> res (list (@update B64))) before bad after sv log sv' log',
  serves compile new_server (before ++ [bad] ++ after) sv log /\ serves compile new_server (before ++ after) sv' log' /\
  all_well log = [true; false; true] /\ all_well log' = [true; true] /\
  notes_sent log = [1; 0; 3]%nat /\ notes_sent log' = [1; 1]%nat.
Proof. exact c42_score_refuted. Qed.
Print Assumptions C42_score_refuted.

(** Nor of input that evaluates but whose transmission fails: it is answered with
    an error, is in the text, and its notes count as sent. *)
Theorem C42_unsent_refuted : exists (compile : string -> res (list (@update B64))) sv r,
  handles compile new_server r sv [] (Failed "no route") [respond_error r "no route"] /\ asks_with "eval-and-play" "piano: c" r /\
  sv_input sv = line "piano: c" /\ sv_index sv = Z.of_nat (List.length (events (sv_score sv))) /\ List.length (events (sv_score sv)) = 1%nat.
Proof. exact c42_unsent_refuted. Qed.
Print Assumptions C42_unsent_refuted.

(** C43: the text is made by the requests that went well, in order. *)
Theorem C43_text : forall (N : Num) compile sv rs sv' log, serves compile sv rs sv' log -> Forall (ordinary compile) log ->
  sv_input sv' = fold_left (fun t r => edits r t) (map h_request (filter successful log)) (sv_input sv).
Proof. exact @c43_input. Qed.
Print Assumptions C43_text.

(** C43: in particular, of evaluations only, it is their inputs, one to a line. *)
Theorem C43_lines : forall (N : Num) compile sv rs sv' log codes, serves compile sv rs sv' log -> Forall went_well log ->
  Forall2 (asks_with "eval-and-play") codes rs ->
  sv_input sv' = fold_left (fun t c => t ++ line c)%string codes (sv_input sv).
Proof. exact @c43_lines. Qed.
Print Assumptions C43_lines.

(** C43: and the score is that of the inputs in order, up to the order of its
    events. *)
Theorem C43_score : forall (N : Num) compile rs sv log, serves compile new_server rs sv log ->
  Forall (fun h => asks "eval-and-play" (h_request h) /\ went_well h) log ->
  exists uss, Forall2 (fun h us => exists code, field "code" (h_request h) = Some (Some code) /\ compile code = ROk us) log uss /\
    exec (List.concat uss) new_score = (session uss, Ok) /\ same_music (session uss) (sv_score sv).
Proof. exact @c43_score. Qed.
Print Assumptions C43_score.

(** C43: a replay that goes well leaves the score of the text. *)
Theorem C43_replay : forall (N : Num) compile sv r sv' out res ans, handles compile sv r sv' out res ans ->
  asks "replay" r -> map r_status ans = [["done"]] ->
  exists us s, compile (sv_input sv) = ROk us /\ exec us new_score = (s, Ok) /\ same_music s (sv_score sv').
Proof. exact @c43_replay. Qed.
Print Assumptions C43_replay.

(** C43: which is the score as it was, if the text is translated line by line. *)
Theorem C43_reproduces : forall (N : Num) compile rs sv log r sv' out res ans, serves compile new_server rs sv log ->
  Forall (fun h => asks "eval-and-play" (h_request h) /\ went_well h) log ->
  (forall uss, Forall2 (fun h us => exists code, field "code" (h_request h) = Some (Some code) /\ compile code = ROk us) log uss ->
     compile (sv_input sv) = ROk (List.concat uss)) ->
  handles compile sv r sv' out res ans -> asks "replay" r -> map r_status ans = [["done"]] ->
  same_music (sv_score sv) (sv_score sv').
Proof. exact @c43_reproduces. Qed.
Print Assumptions C43_reproduces.

(** C43: requests are answered once each, in order; if the process dies, while
    handling the last. *)
Theorem C43_answers : forall (N : Num) compile sv rs sv' log, serves compile sv rs sv' log ->
  map h_request log = firstn (List.length log) rs /\
  ((List.length log = List.length rs /\ Forall (fun h => List.length (h_answers h) = 1%nat) log) \/
   exists log' h, log = log' ++ [h] /\ Forall (fun h => List.length (h_answers h) = 1%nat) log' /\ h_answers h = []).
Proof. exact @c43_answers. Qed.
Print Assumptions C43_answers.

(** C43: it does not die, if parsing does not crash and gives safe updates. *)
Theorem C43_alive : forall (N : Num) compile,
  (forall text, match compile text with ROk us => Forall safe us | RErr _ => True | RPanic _ => False end) ->
  forall rs sv log, serves compile new_server rs sv log ->
  List.length log = List.length rs /\ Forall2 (fun r h => h_request h = r /\ List.length (h_answers h) = 1%nat) rs log.
Proof. exact @c43_alive. Qed.
Print Assumptions C43_alive.

(** C43: requests that only ask, are unknown or malformed change nothing. *)
Theorem C43_harmless : forall (N : Num) compile sv r sv' out res ans, handles compile sv r sv' out res ans -> harmless r ->
  same_session sv' sv /\ (out = [] \/ asks "stop" r /\ out = [[MStop]]).
Proof. exact @c43_harmless. Qed.
Print Assumptions C43_harmless.

Example C43_example : let x := played (N := B64) toy ["piano: c"; "??"; "d"] in
  serves toy new_server (map play ["piano: c"; "??"; "d"]) (fst x) (snd x) /\
  all_well (snd x) = [true; false; true] /\ sv_input (fst x) = (line "piano: c" ++ line "d")%string /\
  (exists us, toy (N := B64) (sv_input (fst x)) = ROk us /\ List.length us = 3%nat) /\
  harmless [("op", Some "score-text")] /\ harmless [("op", Some "blah")] /\ harmless [("op", None)] /\ harmless [("op", Some "load")] /\
  (forall text, match toy (N := B64) text with ROk us => Forall safe us | RErr _ => True | RPanic _ => False end).
Proof.
  cbv zeta. split; [apply (played_serves toy ["piano: c"; "??"; "d"]); vm_compute; reflexivity|].
  split; [vm_compute; reflexivity|]. assert (E : sv_input (fst (played (N := B64) toy ["piano: c"; "??"; "d"])) = (line "piano: c" ++ line "d")%string) by (vm_compute; reflexivity).
  split; [exact E|]. split; [rewrite E; eexists; split; reflexivity|].
  split; [right; left; exists "score-text"; split; [reflexivity|cbn; intuition discriminate]|].
  split; [right; left; exists "blah"; split; [reflexivity|cbn; intuition discriminate]|].
  split; [left; exact I|]. split; [right; right; split; [right; reflexivity|exact I]|].
  intros text. unfold toy. repeat match goal with |- context [if ?b then _ else _] => destruct b end; try exact I;
    repeat (apply Forall_cons || apply Forall_nil); cbn; intuition discriminate.
Qed.

(** C43: a replay (or export) that fails after the session was reset, say because
    no player becomes available, leaves an empty session: the text is lost. *)
Theorem C43_lost_refuted : exists (compile : string -> res (list (@update B64))) rs r sv log,
  serves compile new_server (rs ++ [r]) sv log /\ asks "replay" r /\
  all_well log = [true; true; false] /\ map (fun h => sv_input (h_after h)) log = [line "piano: c"; (line "piano: c" ++ line "d")%string; ""].
Proof. exact c43_lost_refuted. Qed.
Print Assumptions C43_lost_refuted.

(** C51: answers carry the id and session of their request ... *)
Theorem C51_ids : forall (N : Num) compile sv r sv' out res ans a, handles compile sv r sv' out res ans -> In a ans ->
  ~ asks "describe" r -> r_id a = field "id" r /\ r_session a = field "session" r.
Proof. exact @c51. Qed.
Print Assumptions C51_ids.

(** ... for describe requests too if they have them ... *)
Theorem C51_describe : forall (N : Num) compile sv r sv' out res ans a v, handles compile sv r sv' out res ans -> In a ans ->
  (field "id" r = Some v -> r_id a = Some v) /\ (field "session" r = Some v -> r_session a = Some v).
Proof. exact @c51_describe. Qed.
Print Assumptions C51_describe.

Example C51_example : exists sv', handles (N := B64) toy new_server [("op", Some "score-text"); ("id", Some "3")] sv' [] Done
  [respond_done [("op", Some "score-text"); ("id", Some "3")] (DText "")].
Proof. exists new_server. eapply H_op; [reflexivity|]. apply O_text. Qed.

(** ... but a describe request without an id is answered with a previous one's. *)
Theorem C51_describe_refuted : exists (compile : string -> res (list (@update B64))) r1 r2 sv h1 h2,
  serves compile new_server [r1; r2] sv [h1; h2] /\ field "id" r2 = None /\ map r_id (h_answers h2) = [Some (Some "7")].
Proof. exact c51_describe_refuted. Qed.
Print Assumptions C51_describe_refuted.
