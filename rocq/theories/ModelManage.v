(** client/repl/player_management.go: the two threads of a REPL server that share
    [server.player], the one that handles the requests (one after the other,
    server.go:535-560) and the one that looks after the player. *)
From Coq Require Import ZArith String List Bool.
From Verif Require Import Base.
Import ListNotations.
Local Open Scope Z_scope.
Local Open Scope string_scope.
Local Open Scope list_scope.

(** system/process_management.go:125-131, PlayerState; the fields that are not used
    here are left out. *)
Record pstate := PState { p_id : string; p_port : Z }.
(** player_management.go:99-101, the zero value. *)
Definition no_player : pstate := PState "" 0.
(** :86-88, hasPlayer. *)
Definition has (p : pstate) : bool := negb (p_port p =? 0)%Z.

(** What FindPlayerByID answers (system/process_management.go:420-450). *)
Inductive lookup := Found (p : pstate) | NotFound | OtherError.

(** What is sent to a player. *)
Inductive message := Shutdown | Score | Offset | Export | Stop.

(** What happens between the server and the outside, and the turns of the loop. *)
Inductive event :=
| EAsked (id : string) (a : lookup)           (* FindPlayerByID *)
| EFound (a : option pstate)                  (* findAvailablePlayer *)
| EPinged (now : Z) (p : pstate) (ok : bool)  (* the ping of the turn that began at [now] *)
| ESent (p : pstate) (m : message) (ok : bool)
| EUnset (busy : bool)                        (* the request handler forgets the player *)
| ETurned (now : Z) (p : pstate).             (* the end of a turn, with the player then *)

(** The places in managePlayers (:116-195) between two accesses to what is shared
    or outside.  Filling the pool (:124-132) and sleeping (:193) do not touch it.
    An assignment of a PlayerState is taken to be one access. *)
Inductive mpc :=
| MTop                  (* :121-136 *)
| MIdent                (* :137, reading server.player.ID *)
| MAsking (id : string) (* :137, in FindPlayerByID *)
| MStore (p : pstate)   (* :145 *)
| MForget               (* :153 *)
| MCheck                (* :159 *)
| MFinding              (* :160, in findAvailablePlayer *)
| MTake (p : pstate)    (* :165 *)
| MDue                  (* :169 *)
| MTrans                (* :172 and :41, hasPlayer in transmitter() *)
| MPort                 (* :46, reading server.player.Port *)
| MPinging (p : pstate) (* :174-177 *)
| MDrop                 (* :183 *)
| MEnd.                 (* :193 *)

(** What the request handler is about to do with the player. *)
Inductive job := JShutdown | JSend.
(** The places in what it does: none, withTransmitter waiting (:60-71, :41), reading
    the port (:46), having a transmitter (:75), and shutdownPlayer about to forget
    the player (:216).  A transmitter has just the port; the identity of the player
    is carried along to tell what is sent to whom. *)
Inductive hpc := HIdle | HWait (j : job) | HRead (j : job) | HHave (j : job) (p : pstate) | HUnset.

(** [ping] is lastPing (:118, long ago at first), [now] that of the current turn
    (:121), both in milliseconds. *)
Record shared := Shared { player : pstate; mgr : mpc; now : Z; ping : option Z; hnd : hpc }.
Definition start : shared := Shared no_player MTop 0 None HIdle.

Definition set_player (p : pstate) (s : shared) : shared := Shared p (mgr s) (now s) (ping s) (hnd s).
Definition at_m (m : mpc) (s : shared) : shared := Shared (player s) m (now s) (ping s) (hnd s).
Definition at_h (h : hpc) (s : shared) : shared := Shared (player s) (mgr s) (now s) (ping s) h.
Definition begins (t : Z) (s : shared) : shared := Shared (player s) (mgr s) t (ping s) (hnd s).
Definition pinged (s : shared) : shared := Shared (player s) (mgr s) (now s) (Some (now s)) (hnd s).

(** :169, whether pinging is due: pingInterval (:17) is one second. *)
Definition due (s : shared) : bool :=
  match ping s with None => true | Some t => (1000 <? now s - t)%Z end.

(** What the scheduler and the world decide. *)
Inductive choice :=
| MStep                                (* the manager goes on by itself *)
| MTime (t : Z)                        (* a turn begins at this time *)
| MAnswer (a : lookup) | MAvailable (a : option pstate) | MReply (ok : bool)
| HStart (j : job)                     (* the handler is about to need the player *)
| HPoll | HGiveUp | HPort              (* in withTransmitter *)
| HSend (m : message) (ok : bool)      (* transmits something *)
| HDone                                (* its transmitting is over *)
| HForget.

(** Whether the manager has asked about a player, or has an answer it has not stored. *)
Definition busy (m : mpc) : bool :=
  match m with MAsking _ | MStore _ | MTake _ => true | _ => false end.

(** :116-195, one access of managePlayers. *)
Definition manages (c : choice) (s : shared) : option (shared * list event) :=
  match mgr s, c with
  | MTop, MTime t => Some (at_m (if has (player s) then MIdent else MCheck) (begins t s), [])
  | MIdent, MStep => Some (at_m (MAsking (p_id (player s))) s, [])
  | MAsking id, MAnswer a =>
      Some (at_m (match a with Found p => MStore p | NotFound => MForget | OtherError => MCheck end) s, [EAsked id a])
  | MStore p, MStep => Some (at_m MCheck (set_player p s), [])
  | MForget, MStep => Some (at_m MCheck (set_player no_player s), [])
  | MCheck, MStep => Some (at_m (if has (player s) then MDue else MFinding) s, [])
  | MFinding, MAvailable a => Some (at_m (match a with Some p => MTake p | None => MDue end) s, [EFound a])
  | MTake p, MStep => Some (at_m MDue (set_player p s), [])
  | MDue, MStep => Some (at_m (if has (player s) && due s then MTrans else MEnd) s, [])
  | MTrans, MStep => Some (at_m (if has (player s) then MPort else MPinging no_player) s, [])
  | MPort, MStep => Some (at_m (MPinging (player s)) s, [])
  | MPinging p, MReply ok => Some (at_m (if ok then MEnd else MDrop) (pinged s), [EPinged (now s) p ok])
  | MDrop, MStep => Some (at_m MEnd (set_player no_player s), [])
  | MEnd, MStep => Some (at_m MTop s, [ETurned (now s) (player s)])
  | _, _ => None
  end.

(** withTransmitter (:55-76), shutdownPlayer (:197-219) and its only caller resetState
    (server.go:111-117), which asks hasPlayer first; what the other callers transmit
    (server.go:516-526, 618-679, 747-753) is any number of messages. *)
Definition handles (c : choice) (s : shared) : option (shared * list event) :=
  match hnd s, c with
  | HIdle, HStart JShutdown => Some (at_h (if has (player s) then HWait JShutdown else HIdle) s, [])
  | HIdle, HStart JSend => Some (at_h (HWait JSend) s, [])
  | HWait j, HPoll => Some (at_h (if has (player s) then HRead j else HWait j) s, [])
  | HWait j, HGiveUp => if has (player s) then None else Some (at_h HIdle s, [])
  | HRead j, HPort => Some (at_h (HHave j (player s)) s, [])
  | HHave JShutdown p, HSend Shutdown ok => Some (at_h (if ok then HUnset else HIdle) s, [ESent p Shutdown ok])
  | HHave JSend p, HSend Shutdown ok => None
  | HHave JSend p, HSend m ok => Some (s, [ESent p m ok])
  | HHave JSend p, HDone => Some (at_h HIdle s, [])
  | HUnset, HForget => Some (at_h HIdle (set_player no_player s), [EUnset (busy (mgr s))])
  | _, _ => None
  end.

(** One step of either thread. *)
Definition steps (c : choice) (s : shared) : option (shared * list event) :=
  match c with
  | MStep | MTime _ | MAnswer _ | MAvailable _ | MReply _ => manages c s
  | _ => handles c s
  end.

(** A run: what happens, in order, and the state it leads to. *)
Fixpoint run (cs : list choice) (s : shared) : option (shared * list event) :=
  match cs with
  | [] => Some (s, [])
  | c :: r => match steps c s with
              | None => None
              | Some (s', e) => match run r s' with None => None | Some (s'', es) => Some (s'', e ++ es) end
              end
  end.
