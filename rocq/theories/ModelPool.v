(** Model of client/system/process_management.go: the pool of player processes.
    Other processes run at the same time, so everything that is not the
    function's own doing (what other processes do to the state files in between,
    whether a player answers, whether a process starts, whether file operations
    fail) is an oracle [world], consulted with a step number. *)
From Coq Require Import ZArith List String Ascii Bool.
From Verif Require Import Base ModelLisp.
Import ListNotations.
Local Open Scope string_scope.
Local Open Scope list_scope.

(** What is in a state file: nothing yet, not (readable) JSON, or a state
    (process_management.go:122-128; expiry and PID dropped). *)
Inductive content := CEmpty | CBroken | CState (state : string) (port : Z).
(** A file in the directory of this client's version; [f_age]: nanoseconds since
    it was modified, at the time it is looked at. *)
Record pfile := PFile { f_name : string; f_age : Z; f_content : content }.
(** process_management.go:122-128, PlayerState. *)
Record player := Player { p_id : string; p_state : string; p_port : Z }.

(** What happens, in order. *)
Inductive action :=
| Looked (fs : list pfile)                 (* the directory as read, stale files gone *)
| Pinged (port : Z) (ok : bool)
| Forgot (id : string) (fs : list pfile)   (* state file deleted; what is left *)
| Started (ok : bool).

Record world := World {
  w_disabled : bool;                                  (* ALDA_DISABLE_SPAWNING=yes *)
  w_others : nat -> list pfile -> list pfile;         (* other processes and time, before step n *)
  w_on_path : nat -> bool;                            (* AldaPlayerPath succeeds *)
  w_readable : nat -> bool;                           (* the directory can be made and listed *)
  w_deletable : nat -> bool;
  w_answers : nat -> Z -> bool;                       (* a ping gets through (within the timeout) *)
  w_starts : nat -> bool                              (* a process can be started *)
}.
Record pool := Pool { now : nat; files : list pfile; trace : list action }.
Definition log (a : action) (s : pool) : pool := Pool (S (now s)) (files s) (trace s ++ [a]).

(** time.Minute*2 in nanoseconds (process_management.go:66). *)
Definition stale_after : Z := 120000000000.
Definition fresh (f : pfile) : bool := (f_age f <=? stale_after)%Z.

(** strings.Replace(s, ".json", "", 1). *)
Fixpoint starts_with (p l : list ascii) : option (list ascii) :=
  match p, l with
  | [], _ => Some l
  | a :: p, b :: l => if Ascii.eqb a b then starts_with p l else None
  | _, [] => None
  end.
Fixpoint replace_first (p l : list ascii) : list ascii :=
  match starts_with p l with
  | Some r => r
  | None => match l with [] => [] | c :: t => c :: replace_first p t end
  end.
Definition id_of (name : string) : string := unchars (replace_first (chars ".json") (chars name)).

(** process_management.go:186-230, the callback of ReadPlayerStates. *)
Definition player_of (f : pfile) : option player :=
  match f_content f with
  | CState st port => Some (Player (id_of (f_name f)) st port)
  | _ => None
  end.
Fixpoint players_of (fs : list pfile) : list player :=
  match fs with
  | [] => []
  | f :: t => match player_of f with Some p => p :: players_of t | None => players_of t end
  end.

Section Pool.
Variable w : world.

(** process_management.go:186-230, ReadPlayerStates: clean up stale files
    (39-93; failures there are only logged), list the directory, parse each file. *)
Definition read_states (s : pool) : pool * option (list player) :=
  let fs := filter fresh (w_others w (now s) (files s)) in
  if w_readable w (now s) then (log (Looked fs) (Pool (now s) fs (trace s)), Some (players_of fs))
  else (Pool (S (now s)) fs (trace s), None).

(** process_management.go:25-37, DeletePlayerStateFile. *)
Definition delete_state (id : string) (s : pool) : pool * bool :=
  let fs := filter (fun f => negb (String.eqb (f_name f) (id ++ ".json"))) (w_others w (now s) (files s)) in
  if w_deletable w (now s) then (log (Forgot id fs) (Pool (now s) fs (trace s)), true)
  else (Pool (S (now s)) (w_others w (now s) (files s)) (trace s), false).

(** process_management.go:545-562: start [n] processes and wait for all the
    results up to the first error (all are started in any case). *)
Fixpoint start_players (n : nat) (s : pool) : pool * bool :=
  match n with
  | O => (s, true)
  | S n =>
      let ok := w_starts w (now s) in
      let (s', r) := start_players n (log (Started ok) s) in
      (s', ok && r)
  end.

Definition counts (p : player) : bool := String.eqb (p_state p) "ready" || String.eqb (p_state p) "starting".

(** process_management.go:522-565, FillPlayerPool; [false] = an error. *)
Definition fill_pool (s : pool) : pool * bool :=
  if w_disabled w then (s, true)
  else if w_on_path w (now s) then
    match read_states (Pool (S (now s)) (files s) (trace s)) with
    | (s', Some ps) => start_players (3 - List.length (filter counts ps)) s'
    | (s', None) => (s', false)
    end
  else (Pool (S (now s)) (files s) (trace s), false).

Inductive found := Available (p : player) | NoneAvailable | Failed.

(** process_management.go:376-408, FindAvailablePlayer.  It calls itself after
    an unanswered ping; [None] = out of fuel. *)
Fixpoint find_player (fuel : nat) (s : pool) : pool * option found :=
  match fuel with
  | O => (s, None)
  | S fuel =>
      match read_states s with
      | (s1, None) => (s1, Some Failed)
      | (s1, Some ps) =>
          match find (fun p => String.eqb (p_state p) "ready") ps with
          | None => (s1, Some NoneAvailable)
          | Some p =>
              let ok := w_answers w (now s1) (p_port p) in
              let s2 := log (Pinged (p_port p) ok) s1 in
              if ok then (s2, Some (Available p))
              else match delete_state (p_id p) s2 with
                   | (s3, false) => (s3, Some Failed)
                   | (s3, true) =>
                       match fill_pool s3 with
                       | (s4, false) => (s4, Some Failed)
                       | (s4, true) => find_player fuel s4
                       end
                   end
          end
      end
  end.
End Pool.
