(** client/cmd: play, stop, shutdown and export. *)
From Coq Require Import ZArith String List Bool Ascii.
From Verif Require Import Base Num ModelPitch ModelDuration ModelInstruments ModelTypes ModelLisp ModelScan ModelAst ModelScore ModelOsc ModelPool.
Import ListNotations.
Local Open Scope string_scope.
Local Open Scope list_scope.
Local Open Scope Z_scope.

Section Command.
Context {N : Num}.

(** play.go:18-23 and 25-57, stop.go:13-30, shutdown.go:12-21, export.go:24-68:
    the options of a command line (an absent one has its default: "" or -1);
    whether there are arguments besides them; the format and the file of an
    export.  Texts are given as runes (C53 is about decoding). *)
Record line := Line {
  l_args : bool; l_file : string; l_code : list rune; l_port : Z; l_id : string;
  l_from : string; l_to : string; l_format : string; l_output : string }.

(** stdin.go:24-44, ReadStdin. *)
Inductive stdin := NoInput | Unreadable | Piped (text : list rune).

(** What is outside of the command.
    - [w_read]: os.ReadFile ([None] = an error);
    - [w_states]: ReadPlayerStates, called at most once ([None] = an error);
    - [w_first], [w_later]: what FindAvailablePlayer answers each time it is asked
      until one is found or the time is up (util.Await; C49 is about the answers);
    - [w_bundle]: ScoreToOSCBundle (C29-C34: see [SpecCommand.transmitting]);
    - [w_delivers k port]: whether the [k]th packet sent reaches a player;
    - [w_tmp]: the temporary file of an export ([None]: cannot be made);
    - [w_cwd]: the directory the command is run in;
    - [w_opens]: what the file with the given path contains each time it is
      opened, until there is one or the time is up ([None] = it cannot be opened). *)
Record world := World {
  w_read : string -> option (list rune); w_stdin : stdin;
  w_states : option (list player);
  w_first : option player; w_later : list (option player);
  w_bundle : transmission -> score -> res (list msg);
  w_delivers : nat -> Z -> bool;
  w_tmp : option string;
  w_cwd : string;
  w_opens : string -> list (option (list ascii)) }.

(** What a command does, in order: packets sent to ports (an OSC message or a
    bundle of them), what it says, what it writes to its standard output. *)
Inductive action := Sent (port : Z) (packet : list msg) (ok : bool) | Said (what : string) | Output (content : list ascii).
(** How it ends: [Fails] is an error message and a non-zero exit status. *)
Inductive ending := Done | Fails | Crashes.

Variable w : world.

(** await.go:10-27, Await: the first success, if any. *)
Fixpoint await {A} (l : list (option A)) : option A :=
  match l with [] => None | Some a :: _ => Some a | None :: l => await l end.

Inductive source := Nothing | Failing | Text (text : list rune).
(** play.go:152-165 and export.go:104-113. *)
Definition read_source (l : line) : source :=
  if negb (String.eqb (l_file l) "") then match w_read w (l_file l) with Some t => Text t | None => Failing end
  else match l_code l with
       | [] => match w_stdin w with NoInput => Nothing | Unreadable => Failing | Piped t => Text t end
       | c => Text c
       end.

(** play.go:167-212 and export.go:115-132: parse, make updates, apply them to a
    new score. *)
Definition make_score (t : list rune) : res score :=
  match compile t with
  | ROk us => match exec us new_score with
              | (s, Ok) => ROk s
              | (_, Err m) => RErr m
              | (_, Panic m) => RPanic m
              | _ => RPanic "does not end"
              end
  | RErr m => RErr m
  | RPanic m => RPanic m
  end.

(** process_management.go:415-445, FindPlayerByID. *)
Definition find_by_id (id : string) : option player :=
  match w_states w with Some ps => find (fun p => String.eqb (p_id p) id) ps | None => None end.
Definition unknown (port : Z) : player := Player "unknown" "unknown" port.

(** play.go:224-278. *)
Definition play_targets (resume : bool) (l : line) : option (list player) :=
  if negb (l_port l =? -1) then Some [unknown (l_port l)]
  else if negb (String.eqb (l_id l) "") then match find_by_id (l_id l) with Some p => Some [p] | None => None end
  else if resume then match w_states w with Some ps => Some (filter (fun p => String.eqb (p_state p) "active") ps) | None => None end
  else match await (w_first w :: w_later w) with Some p => Some [p] | None => None end.

(** play.go:285-308: [k] packets have been sent so far. *)
Fixpoint send_all (k : nat) (packet : res (list msg)) (ps : list player) : list action * ending :=
  match ps with
  | [] => ([Said "Playing..."], Done)
  | p :: ps =>
      match packet with
      | ROk ms =>
          let ok := w_delivers w k (p_port p) in
          if ok then let (a, e) := send_all (S k) packet ps in (Sent (p_port p) ms true :: a, e)
          else ([Sent (p_port p) ms false], Fails)
      | RErr _ => ([], Fails)
      | RPanic _ => ([], Crashes)
      end
  end.

(** play.go:291-301: the options of the transmission. *)
Definition play_options (l : line) : transmission := Transmission (l_from l) (l_to l) 0 (-1) [] true false.
Definition export_options (l : line) : transmission := Transmission (l_from l) (l_to l) 0 (-1) [] false true.

(** play.go:131-317. *)
Definition play (l : line) : list action * ending :=
  if l_args l then ([], Fails)
  else match read_source l with
  | Failing => ([], Fails)
  | Nothing =>
      match play_targets true l with
      | Some ps => send_all 0 (ROk [MPlay]) ps
      | None => ([], Fails)
      end
  | Text t =>
      match make_score t with
      | RErr _ => ([], Fails)
      | RPanic _ => ([], Crashes)
      | ROk s =>
          match play_targets false l with
          | Some ps => send_all 0 (w_bundle w (play_options l) s) ps
          | None => ([], Fails)
          end
      end
  end.

(** stop.go:39-63 and shutdown.go:31-55. *)
Definition command_targets (l : line) : option (list player) :=
  if negb (l_port l =? -1) then Some [unknown (l_port l)]
  else if negb (String.eqb (l_id l) "") then match find_by_id (l_id l) with Some p => Some [p] | None => None end
  else w_states w.
(** stop.go:65-78 and shutdown.go:57-70: failures are only logged. *)
Fixpoint tell_all (k : nat) (m : msg) (ps : list player) : list action :=
  match ps with
  | [] => []
  | p :: ps => Sent (p_port p) [m] (w_delivers w k (p_port p)) :: tell_all (S k) m ps
  end.
Definition tell (what : string) (m : msg) (l : line) : list action * ending :=
  match command_targets l with
  | Some ps => (Said what :: tell_all 0 m ps, Done)
  | None => ([Said what], Fails)
  end.
(** stop.go:34-80. *)
Definition stop (l : line) : list action * ending := tell "Stopping playback." MStop l.
(** shutdown.go:26-73. *)
Definition shutdown (l : line) : list action * ending := tell "Shutting down player processes." (MShutdown 0) l.

(** What a file name means to a process, given the directory it runs in. *)
Definition resolve (dir f : string) : string :=
  match f with String "/" _ => f | _ => dir ++ "/" ++ f end.

(** export.go:224-257: after the score has been loaded and the export asked for.
    The file is read as it is when it is opened. *)
Definition await_file (l : line) (f : string) : list action * ending :=
  match await (w_opens w (resolve (w_cwd w) f)) with
  | None => ([], Done)
  | Some content =>
      if negb (String.eqb (l_output l) "") then ([Said ("Exported score to " ++ l_output l)], Done)
      else ([Output content], Done)
  end.
(** export.go:184-206: the file that the player is to write. *)
Definition export_file (l : line) : option string := if negb (String.eqb (l_output l) "") then Some (l_output l) else w_tmp w.

(** export.go:90-260; the player is told to shut down at the end, once it has the
    score (defer, 176-182). *)
Definition export (l : line) : list action * ending :=
  if negb (String.eqb (l_format l) "midi") then ([], Fails)
  else match read_source l with
  | Failing | Nothing => ([], Fails)
  | Text t =>
      match make_score t with
      | RErr _ => ([], Fails)
      | RPanic _ => ([], Crashes)
      | ROk s =>
          match await (w_first w :: w_later w) with
          | None => ([], Fails)
          | Some p =>
              match w_bundle w (export_options l) s with
              | RErr _ => ([], Fails)
              | RPanic _ => ([], Crashes)
              | ROk ms =>
                  if w_delivers w 0 (p_port p) then
                    let last k := Sent (p_port p) [MShutdown 0] (w_delivers w k (p_port p)) in
                    match export_file l with
                    | None => ([Sent (p_port p) ms true; last 1%nat], Fails)
                    | Some f =>
                        if w_delivers w 1 (p_port p) then
                          let (a, e) := await_file l f in
                          (Sent (p_port p) ms true :: Sent (p_port p) [MExport f] true :: Said "Exporting..." :: a ++ [last 2%nat], e)
                        else ([Sent (p_port p) ms true; Sent (p_port p) [MExport f] false; last 2%nat], Fails)
                    end
                  else ([Sent (p_port p) ms false], Fails)
              end
          end
      end
  end.
End Command.
