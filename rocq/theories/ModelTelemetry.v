(** Model of telemetry: who is told what, what is remembered and what is reported
    (client/cmd/telemetry.go, client/cmd/root.go), for any number of alda commands
    that run at the same time and share the status file.

    Simplifications: the commands other than telemetry are a name and arguments;
    the contents of the request are its four fields, not their JSON encoding;
    whether the request arrives does not matter and is left out.  A command that
    is killed at any point is a step of its own. *)
From Coq Require Import String List Bool.
Import ListNotations.
Local Open Scope string_scope.
Local Open Scope list_scope.

(** A command line, as far as telemetry is concerned.
    - [Usage n]: help is asked for, the command is unknown or its flags are wrong:
      root.go:156-173 and 189-196, UsageFunc and HelpFunc, which run one or more
      times ([n] is one less) but not PersistentPreRunE;
    - [Plain name args n]: a command of root.go:238-256 other than telemetry, or
      "alda" itself, which goes on to show its usage [n] times (root.go:342-345,
      help/errors.go);
    - [Telemetry enable disable]: `alda telemetry`. *)
Inductive command := Usage (n : nat) | Plain (name : string) (args : list string) (n : nat) | Telemetry (enable disable : bool).

(** What a command has to do:
    - [Inform]: telemetry.go:133-146, informUserOfTelemetryIfNeeded;
    - [Send]: root.go:88-120, sendTelemetry;
    - [Apply]: telemetry.go:198-229, the telemetry command's RunE. *)
Inductive task := Inform | Send (name : string) | Apply (enable disable : bool).

(** root.go:293-332, PersistentPreRunE (the other things it does are C49's and
    C62's), followed by RunE. *)
Definition program (c : command) : list task :=
  match c with
  | Usage n => repeat Inform (S n)
  | Plain name _ n => Inform :: Send name :: repeat Inform n
  | Telemetry enable disable => [Inform; Send "telemetry"; Apply enable disable]
  end.

(** Where a process is within the first of its tasks. *)
Inductive place := Begin | Querying | Reading | Noticing | Creating (status : string) | Writing (status : string) | Reporting (status : string).

(** A process.  [p_silent]: ALDA_DISABLE_TELEMETRY is "yes"; [p_pending]: a request
    that has been handed to a background activity and is not yet sent (root.go:35-47,
    115-119; main.go:34 waits for it). *)
Record process := Process { p_command : command; p_silent : bool; p_at : place; p_todo : list task; p_pending : option string }.

(** What can be observed. *)
Inductive event :=
| Started (command : command) (silent : bool)
| Noticed                                        (* the notice is shown *)
| Sent (request : list (string * string))        (* a request is sent to api.alda.io *)
| Reported (status : string)                     (* "Telemetry is ..." *)
| Failed.

(** telemetry.go:53-57 and 63-94; [Unreadable] is an error. *)
Inductive status := NotInformed | Enabled | Disabled | Unreadable.
(** telemetry.go:86-93. *)
Definition status_of (content : string) : status :=
  if String.eqb content "enabled" then Enabled else if String.eqb content "disabled" then Disabled else Unreadable.

(** How a system call ends; for a write that fails, how many bytes it has written. *)
Inductive outcome := Good | Bad (written : nat).

(** The platform and version that requests name (runtime.GOOS, GOARCH, ClientVersion). *)
Record build := Build { b_os : string; b_arch : string; b_version : string }.
(** telemetry.go:237-242, the payload. *)
Definition payload (b : build) (name : string) : list (string * string) :=
  [("os", b_os b); ("arch", b_arch b); ("version", b_version b); ("command", name)].

Definition at_place (a : place) (p : process) : process := Process (p_command p) (p_silent p) a (p_todo p) (p_pending p).
(** The first task is done. *)
Definition next (p : process) : process := Process (p_command p) (p_silent p) Begin (tl (p_todo p)) (p_pending p).
(** The command is over: RunE has failed (main.go:28-31), the requests are waited for. *)
Definition give_up (p : process) : process := Process (p_command p) (p_silent p) Begin [] (p_pending p).
(** The request is handed to the background: root.go:115-119. *)
Definition request (name : string) (p : process) : process := Process (p_command p) (p_silent p) Begin (tl (p_todo p)) (Some name).

(** What a task does with the status that readTelemetryStatus gives it:
    telemetry.go:133-146, root.go:96-119, telemetry.go:160-178. *)
Definition on_status (t : task) (s : status) (p : process) : process * list event :=
  match t, s with
  | Inform, (NotInformed | Unreadable) => (at_place Noticing p, [])
  | Inform, (Enabled | Disabled) => (next p, [])
  | Send name, (NotInformed | Enabled) => (request name p, [])
  | Send _, (Disabled | Unreadable) => (next p, [])
  | Apply _ _, NotInformed => (at_place Noticing p, [])
  | Apply _ _, Enabled => (at_place (Reporting "enabled") p, [])
  | Apply _ _, Disabled => (at_place (Reporting "disabled") p, [])
  | Apply _ _, Unreadable => (give_up p, [Failed])
  end.

(** What follows writing the status: telemetry.go:127-130 (a failure is only
    logged), 167-170, 209-226. *)
Definition on_written (t : task) (s : string) (ok : bool) (p : process) : process * list event :=
  match t with
  | Apply false false => (at_place (Reporting "enabled") p, [])
  | Apply _ _ => if ok then (at_place (Reporting s) p, []) else (give_up p, [Failed])
  | _ => (next p, [])
  end.

(** One step of a process; the status file is [None] if it does not exist. *)
Definition process_step (file : option string) (p : process) (o : outcome) : option (option string * process * list event) :=
  let keep := fun x : process * list event => Some (file, fst x, snd x) in
  match p_todo p with
  | [] => None
  | t :: _ =>
      match p_at p with
      (* telemetry.go:67-73 *)
      | Begin =>
          let ask := if p_silent p then keep (on_status t Disabled p) else keep (at_place Querying p, []) in
          match t with
          (* root.go:92-94 *)
          | Send name => if String.eqb name "alda" then keep (next p, []) else ask
          (* telemetry.go:199-225 *)
          | Apply true true => keep (give_up p, [Failed])
          | Apply true false => keep (at_place (Creating "enabled") p, [])
          | Apply false true => keep (at_place (Creating "disabled") p, [])
          | Inform | Apply false false => ask
          end
      (* telemetry.go:75-79 and dirs.go:125-133: only "does not exist" counts *)
      | Querying =>
          match file, o with
          | None, Good => keep (on_status t NotInformed p)
          | _, _ => keep (at_place Reading p, [])
          end
      (* telemetry.go:81-93 *)
      | Reading =>
          match file, o with
          | Some c, Good => keep (on_status t (status_of c) p)
          | _, _ => keep (on_status t Unreadable p)
          end
      (* telemetry.go:112-130 *)
      | Noticing => keep (at_place (Creating "enabled") p, [Noticed])
      (* telemetry.go:96-110: MkdirAll and WriteFile, which opens the file, making
         it empty, and then writes *)
      | Creating s =>
          match o with
          | Good => Some (Some "", at_place (Writing s) p, [])
          | Bad _ => keep (on_written t s false p)
          end
      | Writing s =>
          match o with
          | Good => Some (Some s, fst (on_written t s true p), snd (on_written t s true p))
          | Bad n => Some (Some (substring 0 n s), fst (on_written t s false p), snd (on_written t s false p))
          end
      (* telemetry.go:148-150 *)
      | Reporting s => keep (next p, [Reported s])
      end
  end.

(** All processes, numbered in the order in which they are started. *)
Record system := System { s_file : option string; s_processes : list process }.
(** [Runs i o]: process [i] makes a step; [Posts i]: its request is sent; [Dies i]:
    it is killed. *)
Inductive label := Starts (c : command) (silent : bool) | Runs (i : nat) (o : outcome) | Posts (i : nat) | Dies (i : nat).

Fixpoint set_nth {A} (l : list A) (i : nat) (a : A) : list A :=
  match l, i with
  | [], _ => []
  | _ :: l, O => a :: l
  | x :: l, S i => x :: set_nth l i a
  end.

Definition system_step (b : build) (s : system) (l : label) : option (system * list (nat * event)) :=
  let ps := s_processes s in
  match l with
  | Starts c silent => Some (System (s_file s) (ps ++ [Process c silent Begin (program c) None]), [(length ps, Started c silent)])
  | Runs i o =>
      match nth_error ps i with
      | Some p =>
          match process_step (s_file s) p o with
          | Some (file, p', es) => Some (System file (set_nth ps i p'), map (fun e => (i, e)) es)
          | None => None
          end
      | None => None
      end
  | Posts i =>
      match nth_error ps i with
      | Some p =>
          match p_pending p with
          | Some name => Some (System (s_file s) (set_nth ps i (Process (p_command p) (p_silent p) (p_at p) (p_todo p) None)), [(i, Sent (payload b name))])
          | None => None
          end
      | None => None
      end
  | Dies i =>
      match nth_error ps i with
      | Some p => Some (System (s_file s) (set_nth ps i (Process (p_command p) (p_silent p) Begin [] None)), [])
      | None => None
      end
  end.

(** A history: the events, numbered by process, of a sequence of steps. *)
Fixpoint history (b : build) (s : system) (ls : list label) : option (system * list (nat * event)) :=
  match ls with
  | [] => Some (s, [])
  | l :: ls =>
      match system_step b s l with
      | Some (s', es) => match history b s' ls with Some (s'', es') => Some (s'', es ++ es') | None => None end
      | None => None
      end
  end.
