(** Property theorems C57.  [compile] stands for the scanner, parser and
    AST-to-updates translation, [split] for the splitting of arguments into
    words: the theorems hold whatever they do. *)
From Coq Require Import ZArith String Ascii List Bool Permutation.
From Verif Require Import Base Num ModelPitch ModelDuration ModelInstruments ModelTypes ModelLisp ModelScore ModelOsc ModelRepl
  SpecScore SpecVars SpecParts SpecSolo SpecTiming SpecGlobals SpecOsc SpecRepl ProofGlobals ProofRepl ModelReplClient SpecReplClient ProofReplClient.
Import ListNotations.
Local Open Scope string_scope.
Local Open Scope list_scope.

(** C57: what the client takes for the answer to a request is the server's answer
    to that request, whatever arrives late and whatever others ask. *)
Theorem C57_own : forall (N : Num) compile split w lines w' es, converses compile split w lines w' es -> w_unread w = [] -> fresh_ids es ->
  forall e r a, In e es -> In (Asked r (Some a)) (n_happened e) ->
  exists h, exchanged e h /\ request_for r h /\ In a (h_answers h) /\ w_server (n_after e) = h_after h.
Proof. exact @c57_own. Qed.
Print Assumptions C57_own.

(** C57: a line makes the server do the operation of its command, or evaluate it
    if it is not a command; :play passes its times on, :load the file. *)
Theorem C57_sends : forall (N : Num) compile split w lines w' es, converses compile split w lines w' es -> w_unread w = [] -> fresh_ids es ->
  forall e h, In e es -> In h (n_log e) ->
  match understand (n_line e) with
  | Code s => asks_with "eval-and-play" s (h_request h)
  | Command name args => exists o, In (name, o) operations /\ asks o (h_request h) /\
      (name = "play" -> exists l from to, split args = Some l /\ play_args l None None = Some (from, to) /\
         option_field "from" (h_request h) = from /\ option_field "to" (h_request h) = to) /\
      (name = "load" -> exists f t, command_for split "load" f e /\ aget String.eqb f (w_files (n_before e)) = Some t /\ asks_with "load" t (h_request h))
  | _ => False
  end.
Proof. exact @c57_sends. Qed.
Print Assumptions C57_sends.

(** C57: the client changes files only by :save, which writes the session's text
    as it is when the server answers, and :export, which writes what the server
    sends; to the file named, or for :save the one last named. *)
Theorem C57_files : forall (N : Num) compile split w lines w' es, converses compile split w lines w' es -> w_unread w = [] -> fresh_ids es ->
  Forall (fun e => w_files (n_after e) = written (n_happened e) (w_files (n_before e)) /\
    forall f t, In (Wrote f t) (n_happened e) -> exists h, exchanged e h /\
      (command_for split "save" f e /\ asks "score-text" (h_request h) /\ t = sv_input (h_before h) \/
       command_for split "export" f e /\ asks "export" (h_request h) /\ exists a, In a (h_answers h) /\ r_data a = DBinary t)) es.
Proof. exact @c57_files. Qed.
Print Assumptions C57_files.

Theorem C57_remembers : forall (N : Num) compile split w lines w' es, converses compile split w lines w' es -> w_unread w = [] -> fresh_ids es ->
  Forall (fun e => c_file (w_client (n_after e)) = remembers split e) es.
Proof. exact @c57_remembers. Qed.
Print Assumptions C57_remembers.

(** C57: after :load of a file, answered with success, the session has the text
    of the file and the score the file makes. *)
Theorem C57_load : forall (N : Num) compile split w lines w' es, converses compile split w lines w' es -> w_unread w = [] -> fresh_ids es ->
  forall e f t r a, In e es -> command_for split "load" f e -> aget String.eqb f (w_files (n_before e)) = Some t ->
  In (Asked r (Some a)) (n_happened e) -> r_status a = ["done"] ->
  exists h us s, exchanged e h /\ asks_with "load" t (h_request h) /\ sv_input (h_after h) = line t /\
    compile t = ROk us /\ exec us new_score = (s, Ok) /\ same_music s (sv_score (h_after h)).
Proof. exact @c57_load. Qed.
Print Assumptions C57_load.

(** C57: a session of evaluations, saved and loaded again, has the same music, if
    the text compiles as its lines do one by one. *)
Theorem C57_reload : forall (N : Num) compile split w lines w' es, converses compile split w lines w' es -> w_unread w = [] -> fresh_ids es ->
  forall e f r a rs sv log, In e es -> command_for split "load" f e -> aget String.eqb f (w_files (n_before e)) = Some (sv_input sv) ->
  In (Asked r (Some a)) (n_happened e) -> r_status a = ["done"] ->
  serves compile new_server rs sv log -> Forall (fun h => asks "eval-and-play" (h_request h) /\ went_well h) log ->
  (forall uss, Forall2 (fun h us => exists code, field "code" (h_request h) = Some (Some code) /\ compile code = ROk us) log uss ->
     compile (sv_input sv) = ROk (List.concat uss)) ->
  same_music (sv_score sv) (sv_score (w_server (n_after e))).
Proof. exact @c57_reload. Qed.
Print Assumptions C57_reload.

(** Two lines are evaluated, saved to a file and loaded from it, a mistyped
    command among them. *)
Example C57_example : let lines := [("piano: c", "1"); ("d", "2"); (":save my.alda", "3"); (":sav", "4"); (":new", "5"); (":load", "6"); (":save other.alda", "7")] in
  let x := ran (N := B64) [] lines in
  converses toy words (begins []) (map fst lines) (fst x) (snd x) /\ w_unread (begins (N := B64) []) = [] /\ fresh_ids (snd x) /\
  map (fun e => List.length (n_happened e)) (snd x) = [1; 1; 2; 1; 1; 1; 2]%nat /\
  flat_map (fun e => map r_status (flat_map h_answers (n_log e))) (snd x) = [["done"]; ["done"]; ["done"]; ["done"]; ["done"]; ["done"]] /\
  w_files (fst x) = [("my.alda", line "piano: c" ++ line "d"); ("other.alda", line "piano: c" ++ line "d")]%string /\
  map (fun e => List.length (events (sv_score (w_server (n_after e))))) (snd x) = [1; 2; 2; 2; 0; 2; 2]%nat /\
  toy (N := B64) (line "piano: c" ++ line "d")%string = ROk (List.concat [[UPart ["piano"] ""; toy_note LC]; [toy_note LD]]).
Proof.
  cbv zeta. split; [apply ran_ok; vm_compute; reflexivity|]. split; [reflexivity|].
  match goal with |- fresh_ids (snd ?x) /\ _ => assert (E : flat_map n_ids (snd x) = ["1"; "2"; "3"; "5"; "6"; "7"]) by (vm_compute; reflexivity) end.
  split; [unfold fresh_ids; rewrite E; repeat constructor; cbn; intuition discriminate|].
  split; [vm_compute; reflexivity|]. split; [vm_compute; reflexivity|]. split; [vm_compute; reflexivity|]. split; [vm_compute; reflexivity|reflexivity].
Qed.

(** C57: the arguments of :play are accepted exactly in these forms. *)
Theorem C57_play : forall l from to, play_args l None None = Some (from, to) <->
  match from, to with
  | None, None => l = []
  | Some a, None => l = ["from"; a]
  | None, Some b => l = ["to"; b]
  | Some a, Some b => l = ["from"; a; "to"; b] \/ l = ["to"; b; "from"; a]
  end.
Proof. exact c57_play. Qed.
Print Assumptions C57_play.

(** C57: a line is a command when it starts with a colon and a word. *)
Theorem C57_command : forall line name args, understand line = Command name args <->
  name <> "" /\ no_blank name = true /\ (trim line = (":" ++ name)%string /\ args = "" \/ trim line = (":" ++ name ++ " " ++ args)%string).
Proof. exact c57_command. Qed.
Print Assumptions C57_command.

(** C57: it is code, without the blanks around it, when it does not start with a
    colon (or is only a colon) and does not say quit, exit or bye. *)
Theorem C57_code : forall line s, understand line = Code s <->
  s = trim line /\ ~ In s ["quit"; "exit"; "bye"] /\ (forall t, s = String ":" t -> t = "").
Proof. exact c57_code. Qed.
Print Assumptions C57_code.

Example C57_lines : understand "  :play  from 0:05 " = Command "play" " from 0:05" /\ understand " c8 d e " = Code "c8 d e" /\
  understand "quit " = Quit /\ understand ": save" = Unclear /\ understand ":" = Code ":" /\
  play_args ["to"; "0:10"; "from"; "0:05"] None None = Some (Some "0:05", Some "0:10") /\ play_args ["from"] None None = None.
Proof. repeat apply conj; reflexivity. Qed.

(** C57 does not protect files: :load of a file the server rejects leaves an
    empty session whose :save empties the file. *)
Theorem C57_lost_refuted : exists (compile : string -> res (list (@update B64))) split w w' es, w_unread w = [] /\
  converses compile split w [":load my.alda"; ":save"] w' es /\ fresh_ids es /\
  w_files w = [("my.alda", "piano: c oops")] /\ w_files w' = [("my.alda", "")].
Proof. exact c57_lost_refuted. Qed.
Print Assumptions C57_lost_refuted.

(** C57 does not recover: once one answer is late, any number of commands are
    carried out by the server and reported as errors by the client. *)
Theorem C57_late_refuted : forall (N : Num) compile split n, exists w w' es, w_unread w = [] /\ converses compile split w (repeat ":new" n) w' es /\ fresh_ids es /\
  List.length es = n /\ Forall (done_unnoticed "new-score") es /\ Forall one_unread es.
Proof. exact @c57_late_refuted. Qed.
Print Assumptions C57_late_refuted.
