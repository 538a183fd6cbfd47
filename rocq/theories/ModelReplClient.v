(** client/repl/client.go: the REPL client, one connection to a server. *)
From Coq Require Import ZArith String Ascii List Bool.
From Verif Require Import Base Num ModelPitch ModelDuration ModelInstruments ModelTypes ModelLisp ModelScore ModelOsc ModelRepl.
Import ListNotations.
Local Open Scope string_scope.
Local Open Scope list_scope.

Section ReplClient.
Context {N : Num}.
Variable compile : string -> res (list update).
(** shlex.Split; [None] is an error. *)
Variable split : string -> option (list string).

(** client.go:46-64, Client; the connection and its address are in [world]. *)
Record client := Client { c_running : bool; c_session : string; c_file : string }.
Definition set_file (f : string) (c : client) : client := Client (c_running c) (c_session c) f.

(** The client, the server at the other end, the responses sent to the client
    and not read by it, and the files.  [w_alive]: the server process has not
    died. *)
Record world := World {
  w_client : client; w_server : server; w_alive : bool; w_unread : list response; w_files : list (string * string) }.
Definition set_client (c : client) (w : world) : world := World c (w_server w) (w_alive w) (w_unread w) (w_files w).
Definition write (f text : string) (w : world) : world :=
  World (w_client w) (w_server w) (w_alive w) (w_unread w) (aset String.eqb f text (w_files w)).

(** client.go:640-645: every request carries the session, if there is one, and
    a new ID. *)
Definition full_request (c : client) (id : string) (r : request) : request :=
  r ++ (if String.eqb (c_session c) "" then [] else [("session", Some (c_session c))]) ++ [("id", Some id)].

(** What other clients make the server do in the meantime; it may die of it. *)
Inductive others : server -> server -> bool -> Prop :=
| OT_none sv : others sv sv true
| OT_next sv r sv1 out res ans sv2 b : handles compile sv r sv1 out res ans -> res <> Dead -> others sv1 sv2 b -> others sv sv2 b
| OT_dead sv r sv1 out ans : handles compile sv r sv1 out Dead ans -> others sv sv1 false.

(** client.go:653-659: reading a response within 30 seconds.  bencode.Decode reads
    through a buffer of its own, so what has arrived along with a response may
    be lost. *)
Inductive reads : list response -> list response -> option response -> Prop :=
| RD_timeout u : reads u u None
| RD_response a lost rest : reads (a :: lost ++ rest) rest (Some a).

(** client.go:671-678: the ID is compared. *)
Definition accepted (id : string) (a : option response) : option response :=
  match a with
  | Some x => match r_id x with
              | Some (Some i) => if String.eqb i id then Some x else None
              | _ => None
              end
  | None => None
  end.

(** client.go:632-697, sendRequest: with what the server did for it, and what was
    accepted as the answer ([None]: an error).  A request is handled before the
    client's next one; what comes late is in [w_unread]. *)
Inductive sends_request (id : string) (r : request) (w : world) : world -> option exchange -> option response -> Prop :=
| SR_unsent : sends_request id r w w None None
| SR_dead sv u a : w_alive w = true -> others (w_server w) sv false -> reads (w_unread w) u a ->
    sends_request id r w (World (w_client w) sv false u (w_files w)) None (accepted id a)
| SR_handled sv sv' out res ans u a : w_alive w = true -> others (w_server w) sv true ->
    handles compile sv (full_request (w_client w) id r) sv' out res ans -> reads (w_unread w ++ ans) u a ->
    sends_request id r w (World (w_client w) sv' (match res with Dead => false | _ => true end) u (w_files w))
      (Some (Exchange (full_request (w_client w) id r) sv sv' out ans)) (accepted id a).

(** What is done with the data of an answer: it is shown or ignored, it is
    written to a file, or it is not what was expected. *)
Inductive use := Show | Write (file text : string) | Unusable.
(** What a command comes to.  [Fail]: an error message, nothing else. *)
Inductive act := Fail | Print | Stop | Ask (r : request) (u : data -> use).

Definition op (o : string) : request := [("op", Some o)].

(** client.go:305-330: the arguments of :play. *)
Fixpoint play_args (args : list string) (from to : option string) : option (option string * option string) :=
  match args with
  | [] => Some (from, to)
  | [_] => None
  | k :: v :: rest =>
      if String.eqb k "from" then match from with Some _ => None | None => play_args rest (Some v) to end
      else if String.eqb k "to" then match to with Some _ => None | None => play_args rest from (Some v) end
      else None
  end.
Definition opt_field (k : string) (v : option string) : request := match v with Some x => [(k, Some x)] | None => [] end.

Definition commands : list string :=
  ["export"; "help"; "instruments"; "load"; "new"; "parts"; "play"; "quit"; "save"; "score"; "stop"; "version"].

(** The file of :load and :save (client.go:216-226 and 363-373): the argument,
    which is remembered, or the one remembered. *)
Definition file_of (c : client) (args : list string) : option client :=
  match args with
  | [] => if String.eqb (c_file c) "" then None else Some c
  | [f] => Some (set_file f c)
  | _ => None
  end.

Definition show_text (d : data) : use := match d with DText _ => Show | _ => Unusable end.
Definition show_score (d : data) : use := match d with DScore _ => Show | _ => Unusable end.
Definition show_events (d : data) : use := match d with DEvents _ => Show | _ => Unusable end.
Definition show_ast (d : data) : use := match d with DAst _ => Show | _ => Unusable end.

(** client.go:79-515 and 544-551: the commands.  Printing is not modelled. *)
Definition plan (w : world) (name args : string) : client * act :=
  let c := w_client w in
  if String.eqb name "export" then
    (c, match split args with
        | Some [f] => Ask (op "export") (fun d => match d with DBinary b => Write f b | _ => Unusable end)
        | _ => Fail
        end)
  else if String.eqb name "help" then
    (c, match split args with
        | Some [] => Print
        | Some l => if existsb (String.eqb (String.concat " " l)) commands then Print else Fail
        | None => Fail
        end)
  else if String.eqb name "instruments" then
    (c, Ask (op "instruments") (fun d => match d with DInstruments => Show | _ => Unusable end))
  else if String.eqb name "load" then
    match split args with
    | None => (c, Fail)
    | Some l => match file_of c l with
                | None => (c, Fail)
                | Some c1 => (c1, match aget String.eqb (c_file c1) (w_files w) with
                                  | None => Fail
                                  | Some text => Ask (op "load" ++ [("code", Some text)]) (fun _ => Show)
                                  end)
                end
    end
  else if String.eqb name "new" then (c, Ask (op "new-score") (fun _ => Show))
  else if String.eqb name "parts" then (c, Ask (op "score-data") show_score)
  else if String.eqb name "play" then
    (c, match split args with
        | None => Fail
        | Some l => match play_args l None None with
                    | None => Fail
                    | Some (from, to) => Ask (op "replay" ++ opt_field "from" from ++ opt_field "to" to) (fun _ => Show)
                    end
        end)
  else if String.eqb name "quit" then (c, Stop)
  else if String.eqb name "save" then
    match split args with
    | None => (c, Fail)
    | Some l => match file_of c l with
                | None => (c, Fail)
                | Some c1 => (c1, Ask (op "score-text") (fun d => match d with DText t => Write (c_file c1) t | _ => Unusable end))
                end
    end
  else if String.eqb name "score" then
    (c, match split args with
        | Some [] => Ask (op "score-text") show_text
        | Some [sub] =>
            if String.eqb sub "text" then Ask (op "score-text") show_text
            else if String.eqb sub "data" then Ask (op "score-data") show_score
            else if String.eqb sub "events" then Ask (op "score-events") show_events
            else if String.eqb sub "ast" then Ask (op "score-ast") show_ast
            else if String.eqb sub "info" then Ask (op "score-data") show_score
            else Fail
        | _ => Fail
        end)
  else if String.eqb name "stop" then (c, Ask (op "stop") (fun _ => Show))
  else if String.eqb name "version" then
    (c, Ask (op "describe") (fun d => match d with DDescribe => Show | _ => Unusable end))
  else (c, Fail).

(** client.go:1113-1144: the regular expression ^:([^ ]+) ?(.* )$ on a line (no
    line breaks), and the rest of the main loop. *)
Inductive input := Command (name args : string) | Unclear | Quit | Code (text : string).
Fixpoint until_space (s : string) : string * string :=
  match s with
  | EmptyString => ("", "")
  | String c t => if Ascii.eqb c " " then ("", t) else let (a, b) := until_space t in (String c a, b)
  end.
Definition understand (line : string) : input :=
  let s := trim line in
  match s with
  | String c (String d t) =>
      if Ascii.eqb c ":" then
        let (name, args) := until_space (String d t) in
        if String.eqb name "" then Unclear else Command name args
      else if existsb (String.eqb s) ["quit"; "exit"; "bye"] then Quit
      else Code s
  | _ => if existsb (String.eqb s) ["quit"; "exit"; "bye"] then Quit else Code s
  end.

(** What happens: a request and the accepted answer; a file is written; an error
    is printed. *)
Inductive happening := Asked (r : request) (a : option response) | Wrote (file text : string) | Error.

(** An action.  Writing a file may fail. *)
Inductive carries_out (w : world) : act -> world -> list happening -> list exchange -> list string -> Prop :=
| CO_fail : carries_out w Fail w [Error] [] []
| CO_print : carries_out w Print w [] [] []
| CO_stop : carries_out w Stop (set_client (Client false (c_session (w_client w)) (c_file (w_client w))) w) [] [] []
| CO_lost id r u w1 x : sends_request id r w w1 x None ->
    carries_out w (Ask r u) w1 [Asked r None; Error] (match x with Some h => [h] | None => [] end) [id]
| CO_unusable id r u w1 x a : sends_request id r w w1 x (Some a) -> u (r_data a) = Unusable ->
    carries_out w (Ask r u) w1 [Asked r (Some a); Error] (match x with Some h => [h] | None => [] end) [id]
| CO_show id r u w1 x a : sends_request id r w w1 x (Some a) -> u (r_data a) = Show ->
    carries_out w (Ask r u) w1 [Asked r (Some a)] (match x with Some h => [h] | None => [] end) [id]
| CO_write id r u w1 x a f t : sends_request id r w w1 x (Some a) -> u (r_data a) = Write f t ->
    carries_out w (Ask r u) (write f t w1) [Asked r (Some a); Wrote f t] (match x with Some h => [h] | None => [] end) [id]
| CO_unwritten id r u w1 x a f t : sends_request id r w w1 x (Some a) -> u (r_data a) = Write f t ->
    carries_out w (Ask r u) w1 [Asked r (Some a); Error] (match x with Some h => [h] | None => [] end) [id].

(** client.go:1094-1147: one line of input. *)
Definition action (w : world) (line : string) : client * act :=
  if String.eqb line "" then (w_client w, Print)
  else match understand line with
       | Command name args => plan w name args
       | Unclear => (w_client w, Fail)
       | Quit => (w_client w, Stop)
       | Code s => (w_client w, Ask (op "eval-and-play" ++ [("code", Some s)]) (fun _ => Show))
       end.

(** A session: lines are entered while the client is running; in between, files
    may be changed by other programs.  [n_ids] are the new request IDs. *)
Record entry := Entry {
  n_line : string; n_before : world; n_after : world; n_happened : list happening; n_log : list exchange; n_ids : list string }.
Inductive converses : world -> list string -> world -> list entry -> Prop :=
| SN_end w : converses w [] w []
| SN_over w lines : c_running (w_client w) = false -> converses w lines w []
| SN_edited w f text lines w2 es : converses (write f text w) lines w2 es -> converses w lines w2 es
| SN_line w line lines w1 hs log ids w2 es : c_running (w_client w) = true ->
    carries_out (set_client (fst (action w line)) w) (snd (action w line)) w1 hs log ids ->
    converses w1 lines w2 es -> converses w (line :: lines) w2 (Entry line w w1 hs log ids :: es).
End ReplClient.
