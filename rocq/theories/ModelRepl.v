(** client/repl: the REPL server. *)
From Coq Require Import ZArith List String Ascii Bool.
From Verif Require Import Base Num ModelPitch ModelDuration ModelInstruments ModelTypes ModelLisp ModelScore ModelOsc.
Import ListNotations.
Local Open Scope string_scope.
Local Open Scope list_scope.

Section Repl.
Context {N : Num}.
(** parser.ParseString followed by ast.Updates(). *)
Variable compile : string -> res (list update).

(** server.go:37-58, Server: the text, the score, the index of the first event
    not yet sent.  [player] changes at any time in another goroutine
    (player_management.go:116-195), so whether there is one is decided anew each
    time it is looked at.  [d_session] and [d_id] are the entries that
    [respond] leaves in the shared map describeResponse (server.go:343). *)
Record server := Server {
  sv_input : string; sv_score : score; sv_index : Z;
  d_session : option (option string); d_id : option (option string) }.
Definition set_score (s : score) (sv : server) : server :=
  Server (sv_input sv) s (sv_index sv) (d_session sv) (d_id sv).

(** server.go:111-123, the state of a new server or of one that was reset. *)
Definition blank (sv : server) : server := Server "" new_score 0 (d_session sv) (d_id sv).
Definition new_server : server := Server "" new_score 0 None None.

(** A decoded bencode message: the values are strings ([Some]) or something
    else ([None]). *)
Definition request := list (string * option string).
Definition field (k : string) (r : request) : option (option string) := aget String.eqb k r.

(** What a response can carry besides its status (server.go:364-533).  Data that
    is printed by code not modelled is represented by what is printed. *)
Inductive data :=
| DNone | DSession (uuid : string) | DDescribe | DShrug | DBinary (bytes : string) | DInstruments
| DScore (s : score) | DEvents (us : list update) | DAst (text : string) | DText (text : string).
(** server.go:64-109, respond. *)
Record response := Response {
  r_status : list string; r_problems : list string;
  r_session : option (option string); r_id : option (option string); r_data : data }.

Definition respond (r : request) (status problems : list string) (d : data) : response :=
  Response status problems (field "session" r) (field "id" r) d.
Definition respond_done (r : request) (d : data) : response := respond r ["done"] [] d.
Definition respond_errors (r : request) (problems : list string) : response :=
  respond r ["done"; "error"] problems DNone.
Definition respond_error (r : request) (problem : string) : response := respond_errors r [problem].

(** validation.go:36-57, requestFieldSpec.validate of a required string. *)
Definition validate (k : string) (r : request) : list string :=
  match field k r with
  | None => ["Request field missing: " ++ k]%string
  | Some (Some _) => []
  | Some None => ["Expected """ ++ k ++ """ to be of type `string`"]%string
  end.

(** unicode.IsSpace, the ASCII part (the multi-byte spaces are not trimmed by
    the model). *)
Definition is_space (c : ascii) : bool :=
  let n := nat_of_ascii c in (((9 <=? n) && (n <=? 13)) || (n =? 32))%nat.
Fixpoint trim_left (s : string) : string :=
  match s with
  | String c t => if is_space c then trim_left t else s
  | EmptyString => ""
  end.
Fixpoint trim_right (s : string) : string :=
  match s with
  | String c t => match trim_right t with
                  | EmptyString => if is_space c then "" else String c ""
                  | t' => String c t'
                  end
  | EmptyString => ""
  end.
(** strings.TrimSpace. *)
Definition trim (s : string) : string := trim_right (trim_left s).
Definition newline : string := String "010"%char "".

(** How a handler's action ended: no error, an error value, or the end of the
    server process (a panic nobody recovers from, or an endless loop). *)
Inductive result := Done | Failed (problem : string) | Dead.

(** server.go:561-616, updateScoreWithInput. *)
Definition update_score (code : string) (sv : server) : server * result * transmission :=
  let t := Transmission "" "" (sv_index sv) (-1) (part_offsets (sv_score sv)) false false in
  match compile code with
  | RErr m => (sv, Failed m, t)
  | RPanic _ => (sv, Dead, t)
  | ROk us =>
      match exec us (sv_score sv) with
      | (s, Ok) => (Server (sv_input sv ++ trim code ++ newline)%string s (Z.of_nat (List.length (events s)))
                           (d_session sv) (d_id sv), Done, t)
      | (s, Err m) => (set_score s sv, Failed m, t)
      | (s, _) => (set_score s sv, Dead, t)
      end
  end.

(** What a transmitter sends in one go: a bundle or a single message. *)
Definition sent := list (list msg).

(** osc.go:434-449, TransmitScore: the bundle may fail to be delivered. *)
Inductive sends_score (t : transmission) (sv : server) : server -> sent -> result -> Prop :=
| SS_sent s b : transmits t (sv_score sv) s (ROk b) -> sends_score t sv (set_score s sv) [b] Done
| SS_lost s b m : transmits t (sv_score sv) s (ROk b) -> sends_score t sv (set_score s sv) [] (Failed m)
| SS_error s m : transmits t (sv_score sv) s (RErr m) -> sends_score t sv (set_score s sv) [] (Failed m)
| SS_panic s m : transmits t (sv_score sv) s (RPanic m) -> sends_score t sv (set_score s sv) [] Dead.

(** osc.go:94-126: a single message, which may fail to be delivered. *)
Inductive sends_message (m : msg) : sent -> result -> Prop :=
| SM_sent : sends_message m [[m]] Done
| SM_lost e : sends_message m [] (Failed e).

(** server.go:111-123, resetState, and player_management.go:197-219. *)
Inductive resets (sv : server) : server -> sent -> result -> Prop :=
| RS_alone : resets sv (blank sv) [] Done
| RS_shutdown out : sends_message (MShutdown 0) out Done -> resets sv (blank sv) out Done
| RS_failed out e : sends_message (MShutdown 0) out (Failed e) -> resets sv sv out (Failed e)
| RS_timeout e : resets sv sv [] (Failed e).

(** Additional options (transmitter.go:46-66 and 110-120). *)
Definition with_options (from to : option string) (load : bool) (t : transmission) : transmission :=
  Transmission (match from with Some f => f | None => t_from t end)
               (match to with Some x => x | None => t_to t end)
               (t_fromi t) (t_toi t) (t_sync t) (t_oneoff t) (load || t_load t).

(** server.go:618-638, evalAndPlay.  Waiting for a player may time out
    (player_management.go:55-77, withTransmitter). *)
Inductive evals (code : string) (from to : option string) (sv : server) : server -> sent -> result -> Prop :=
| EV_timeout e : evals code from to sv sv [] (Failed e)
| EV_bad sv1 r t : update_score code sv = (sv1, r, t) -> r <> Done -> evals code from to sv sv1 [] r
| EV_sent sv1 t sv2 out r : update_score code sv = (sv1, Done, t) ->
    sends_score (with_options from to false t) sv1 sv2 out r -> evals code from to sv sv2 out r.

(** server.go:663-669: the greatest rounded offset of a part. *)
Definition new_offset (s : score) : Z :=
  fold_left (fun acc x => Z.max acc (nround32 (snd x))) (part_offsets s) 0%Z.

(** server.go:640-679, load: reset, evaluate, send without playing, set the
    offset. *)
Inductive loads (code : string) (sv : server) : server -> sent -> result -> Prop :=
| LD_reset sv1 o1 r : resets sv sv1 o1 r -> r <> Done -> loads code sv sv1 o1 r
| LD_timeout sv1 o1 e : resets sv sv1 o1 Done -> loads code sv sv1 o1 (Failed e)
| LD_bad sv1 o1 sv2 r t : resets sv sv1 o1 Done -> update_score code sv1 = (sv2, r, t) -> r <> Done -> loads code sv sv2 o1 r
| LD_unsent sv1 o1 sv2 t sv3 o2 r : resets sv sv1 o1 Done -> update_score code sv1 = (sv2, Done, t) ->
    sends_score (with_options None None true t) sv2 sv3 o2 r -> r <> Done -> loads code sv sv3 (o1 ++ o2) r
| LD_sent sv1 o1 sv2 t sv3 o2 o3 r : resets sv sv1 o1 Done -> update_score code sv1 = (sv2, Done, t) ->
    sends_score (with_options None None true t) sv2 sv3 o2 Done ->
    sends_message (MOffset (new_offset (sv_score sv3))) o3 r -> loads code sv sv3 (o1 ++ o2 ++ o3) r.

(** server.go:685-713, replay. *)
Inductive replays (from to : option string) (sv : server) : server -> sent -> result -> Prop :=
| RP_reset sv1 o1 r : resets sv sv1 o1 r -> r <> Done -> replays from to sv sv1 o1 r
| RP_eval sv1 o1 sv2 o2 r : resets sv sv1 o1 Done -> evals (sv_input sv) from to sv1 sv2 o2 r ->
    replays from to sv sv2 (o1 ++ o2) r.

(** server.go:720-773, export: reload, ask for a file, read it. *)
Inductive exports (sv : server) : server -> sent -> result -> Prop :=
| EX_load sv1 o r : loads (sv_input sv) sv sv1 o r -> r <> Done -> exports sv sv1 o r
| EX_failed sv1 o e : loads (sv_input sv) sv sv1 o Done -> exports sv sv1 o (Failed e)
| EX_asked sv1 o file r : loads (sv_input sv) sv sv1 o Done -> r <> Dead -> exports sv sv1 (o ++ [[MExport file]]) r.

(** How an action's result is answered. *)
Definition answer (r : request) (res : result) (d : data) : list response :=
  match res with Done => [respond_done r d] | Failed m => [respond_error r m] | Dead => [] end.

(** An optional string field; other values are ignored (server.go:452-468). *)
Definition option_field (k : string) (r : request) : option string :=
  match field k r with Some (Some s) => Some s | _ => None end.

(** server.go:364-533, ops: what each operation does and answers. *)
Inductive operates (sv : server) (r : request) : string -> server -> sent -> result -> list response -> Prop :=
| O_clone u : operates sv r "clone" sv [] Done [respond_done r (DSession u)]
| O_describe : (* respond writes into the shared map *)
    let ses := match field "session" r with Some v => Some v | None => d_session sv end in
    let i := match field "id" r with Some v => Some v | None => d_id sv end in
    operates sv r "describe" (Server (sv_input sv) (sv_score sv) (sv_index sv) ses i) [] Done
      [Response ["done"] [] ses i DDescribe]
| O_eval : operates sv r "eval" sv [] Done [respond_done r DShrug]
| O_play_bad : validate "code" r <> [] -> operates sv r "eval-and-play" sv [] Done [respond_errors r (validate "code" r)]
| O_play code sv' out res : field "code" r = Some (Some code) -> evals code None None sv sv' out res ->
    operates sv r "eval-and-play" sv' out res (answer r res DNone)
| O_export sv' out res bytes : exports sv sv' out res -> operates sv r "export" sv' out res (answer r res (DBinary bytes))
| O_instruments : operates sv r "instruments" sv [] Done [respond_done r DInstruments]
| O_load_bad : validate "code" r <> [] -> operates sv r "load" sv [] Done [respond_errors r (validate "code" r)]
| O_load code sv' out res : field "code" r = Some (Some code) -> loads code sv sv' out res ->
    operates sv r "load" sv' out res (answer r res DNone)
| O_new sv' out res : resets sv sv' out res -> operates sv r "new-score" sv' out res (answer r res DNone)
| O_replay sv' out res : replays (option_field "from" r) (option_field "to" r) sv sv' out res ->
    operates sv r "replay" sv' out res (answer r res DNone)
| O_data : operates sv r "score-data" sv [] Done [respond_done r (DScore (sv_score sv))]
| O_events_ok us : compile (sv_input sv) = ROk us -> operates sv r "score-events" sv [] Done [respond_done r (DEvents us)]
| O_events_bad m : compile (sv_input sv) = RErr m -> operates sv r "score-events" sv [] Done [respond_error r m]
| O_events_dead m : compile (sv_input sv) = RPanic m -> operates sv r "score-events" sv [] Dead []
| O_ast_ok : operates sv r "score-ast" sv [] Done [respond_done r (DAst (sv_input sv))]
| O_ast_bad m : operates sv r "score-ast" sv [] Done [respond_error r m]
| O_text : operates sv r "score-text" sv [] Done [respond_done r (DText (sv_input sv))]
| O_stop out res : sends_message MStop out res -> operates sv r "stop" sv out res (answer r res DNone)
| O_stop_timeout e : operates sv r "stop" sv [] (Failed e) [respond_error r e].

Definition ops : list string :=
  ["clone"; "describe"; "eval"; "eval-and-play"; "export"; "instruments"; "load"; "new-score"; "replay";
   "score-data"; "score-events"; "score-ast"; "score-text"; "stop"].

(** server.go:536-559, handleRequests: one request. *)
Inductive handles (sv : server) (r : request) : server -> sent -> result -> list response -> Prop :=
| H_malformed : validate "op" r <> [] -> handles sv r sv [] Done [respond_errors r (validate "op" r)]
| H_unknown op : field "op" r = Some (Some op) -> ~ In op ops ->
    handles sv r sv [] Done [respond r ["done"; "error"; "unknown-op"] [] DNone]
| H_op op sv' out res ans : field "op" r = Some (Some op) -> operates sv r op sv' out res ans -> handles sv r sv' out res ans.

(** The loop: requests are handled one at a time, in the order in which they
    come out of the queue, until the process dies. *)
Record exchange := Exchange { h_request : request; h_before : server; h_after : server; h_sent : sent; h_answers : list response }.
Inductive serves : server -> list request -> server -> list exchange -> Prop :=
| SV_idle sv : serves sv [] sv []
| SV_next sv r rs sv1 out res ans sv2 log : handles sv r sv1 out res ans -> res <> Dead -> serves sv1 rs sv2 log ->
    serves sv (r :: rs) sv2 (Exchange r sv sv1 out ans :: log)
| SV_dead sv r rs sv1 out ans : handles sv r sv1 out Dead ans -> serves sv (r :: rs) sv1 [Exchange r sv sv1 out ans].
End Repl.
