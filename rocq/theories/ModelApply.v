(** player/src/main/kotlin/io/alda/player/Player.kt: what the player process does
    with the packets it receives, one thread for the packets and several for each
    track, down to the single messages they add to the sequence.  Patterns (which
    the client never sends) are not modelled. *)
From Coq Require Import ZArith List String Bool.
From Verif Require Import Base Num ModelScore ModelOsc ModelPlayer.
Import ListNotations.
Local Open Scope Z_scope.

Section Apply.
Context {N : Num} {J : JNum N}.

(** What applyUpdates (Player.kt:351-430) does, in order. *)
Inductive instr :=
| IShutdown                        (* isRunning = false *)
| IStop                            (* stopSequencer *)
| IClear                           (* every track's clear *)
| IOffset (off : Z)                (* awaitActiveTasks, setSequencerOffset *)
| IClearTrack (t : Z)
| ITempo (off : Z) (bpm : num)     (* setTempo *)
| IPut (t : Z) (es : list event)   (* activeTasks + 1, into the track's queue *)
| IExport (file : string)          (* awaitActiveTasks, export *)
| IEnd (off : Z)                   (* scheduleShutdown *)
| IPlay.                           (* unless playing: awaitActiveTasks, isPlaying = true *)
Definition program (u : updates) : list instr :=
  (if u_shutdown u then [IShutdown] else []) ++
  (if u_stop u then [IStop] else []) ++
  (if u_clear u then [IClear] else []) ++
  flat_map (fun y => match y with YOffset o => [IOffset o] | _ => [] end) (u_system u) ++
  map IClearTrack (u_clears u) ++
  flat_map (fun y => match y with YTempo o b => [ITempo o b] | _ => [] end) (u_system u) ++
  map (fun x => IPut (fst x) (snd x)) (u_tracks u) ++
  flat_map (fun y => match y with YExport f => [IExport f] | _ => [] end) (u_system u) ++
  flat_map (fun y => match y with YShutdown o => [IEnd o] | _ => [] end) (u_system u) ++
  (if u_play u then [IPlay] else []).

(** A track (Player.kt:25-60, 258-316): its queue, the batches taken off it by
    threads that have not reached the lock, those in line for the (fair) lock; the
    messages the thread holding the lock has yet to add, with the start offset it
    will leave; activeTasks and startOffset. *)
Record lane := Lane {
  ln_queue : list (list event); ln_threads : list (list event); ln_line : list (list event);
  ln_busy : option (list (Z * midi) * Z); ln_active : Z; ln_start : Z }.
Definition new_lane : lane := Lane [] [] [] None 0 0.
(** Player.kt:49-57, clear: batches already taken off the queue go on (the
    comparison of eras compares the AtomicInteger with itself). *)
Definition clear_lane (l : lane) : lane := Lane [] (ln_threads l) (ln_line l) (ln_busy l) 0 0.
(** Player.kt:306, activeTasks after a batch. *)
Definition one_less (n : Z) : Z := if n =? 0 then 0 else n - 1.

(** The process: packets not yet taken from playerQueue, what remains to be done
    for the one taken, the sequence, the tracks (created when first mentioned),
    isPlaying, the sequencer's position in ticks, isRunning, and the files
    written. *)
Record player := Player {
  p_inbox : list (list osc); p_todo : list instr; p_engine : engine; p_lanes : list (Z * lane);
  p_playing : bool; p_tick : Z; p_running : bool; p_files : list (string * list (Z * midi)) }.

Definition set_todo l p := Player (p_inbox p) l (p_engine p) (p_lanes p) (p_playing p) (p_tick p) (p_running p) (p_files p).
Definition set_engine en p := Player (p_inbox p) (p_todo p) en (p_lanes p) (p_playing p) (p_tick p) (p_running p) (p_files p).
Definition set_lanes l p := Player (p_inbox p) (p_todo p) (p_engine p) l (p_playing p) (p_tick p) (p_running p) (p_files p).
Definition set_playing b p := Player (p_inbox p) (p_todo p) (p_engine p) (p_lanes p) b (p_tick p) (p_running p) (p_files p).
Definition set_tick t p := Player (p_inbox p) (p_todo p) (p_engine p) (p_lanes p) (p_playing p) t (p_running p) (p_files p).
Definition set_running b p := Player (p_inbox p) (p_todo p) (p_engine p) (p_lanes p) (p_playing p) (p_tick p) b (p_files p).
Definition set_files l p := Player (p_inbox p) (p_todo p) (p_engine p) (p_lanes p) (p_playing p) (p_tick p) (p_running p) l.

(** Player.kt:319-326, track. *)
Definition lane_of (t : Z) (p : player) : lane := match aget Z.eqb t (p_lanes p) with Some l => l | None => new_lane end.
Definition set_lane (t : Z) (l : lane) (p : player) : player := set_lanes (aset Z.eqb t l (p_lanes p)) p.
(** MidiEngine.kt:225-227 with the rounding of its callers (Player.kt:180,
    MidiEngine.kt:299): the offset the sequencer is at; an Int. *)
Definition now_at (en : engine) (tick : Z) : option Z :=
  match ticks_to_ms (en_tempos en) tick with Some x => Some (wrap32 (jround x)) | None => None end.
(** Player.kt:341-349, awaitActiveTasks is past.  (Only the thread that waits puts
    batches into queues, so once a track is idle it remains so.) *)
Definition idle (p : player) : bool := forallb (fun x => ln_active (snd x) <=? 0) (p_lanes p).

(** One instruction; [None]: it waits (or throws, which ends the thread).  Writing
    a file is taken to succeed. *)
Definition obey (i : instr) (p : player) : option player :=
  match i with
  | IShutdown => Some (set_running false p)
  | IStop => Some (set_playing false p)
  | IClear => Some (set_lanes (map (fun x => (fst x, clear_lane (snd x))) (p_lanes p)) p)
  | IOffset o =>
      if idle p then match ms_to_ticks (en_tempos (p_engine p)) (nofZ o) with Some t => Some (set_tick t p) | None => None end
      else None
  | IClearTrack t => Some (set_lane t (clear_lane (lane_of t p)) p)
  | ITempo o b => match set_tempo o b (p_engine p) with Some en => Some (set_engine en p) | None => None end
  | IPut t es =>
      let l := lane_of t p in
      Some (set_lane t (Lane (ln_queue l ++ [es]) (ln_threads l) (ln_line l) (ln_busy l) (ln_active l + 1) (ln_start l)) p)
  | IExport f => if idle p then Some (set_files (p_files p ++ [(f, exported (en_events (p_engine p)))]) p) else None
  | IEnd o =>
      match now_at (p_engine p) (p_tick p) with
      | Some now => match schedule_msg (wrap32 (now + o)) Shutdown (p_engine p) with Some en => Some (set_engine en p) | None => None end
      | None => None
      end
  | IPlay => if p_playing p then Some p else if idle p then Some (set_playing true p) else None
  end.

(** What the threads of a track do. *)
Inductive lane_action :=
| LTake             (* the track's thread takes a batch off the queue and starts a thread *)
| LLineUp (i : nat) (* the i-th of these calls lock *)
| LBegin            (* the first in line gets the lock and places its events *)
| LAdd              (* it adds a message to the sequence; if it cannot, it throws *)
| LFinish.          (* it writes the start offset and unlocks *)
Definition lane_act (a : lane_action) (t : Z) (p : player) : option player :=
  match aget Z.eqb t (p_lanes p) with
  | None => None
  | Some (Lane q th li bu ac st) =>
      match a, q, li, bu with
      | LTake, b :: q, _, _ => Some (set_lane t (Lane q (th ++ [b]) li bu ac st) p)
      | LLineUp i, _, _, _ =>
          match remove_nth i th with
          | Some (b, th') => Some (set_lane t (Lane q th' (li ++ [b]) bu ac st) p)
          | None => None
          end
      | LBegin, _, b :: li, None =>
          match now_at (p_engine p) (p_tick p) with
          | Some now =>
              let (es, next) := place now (p_playing p) st b in
              Some (set_lane t (Lane q th li (Some (flat_map messages_of es, next)) ac st) p)
          | None => Some (set_lane t (Lane q th li None (one_less ac) st) p)
          end
      | LAdd, _, _, Some ((o, m) :: ms, next) =>
          match schedule_msg o m (p_engine p) with
          | Some en => Some (set_lane t (Lane q th li (Some (ms, next)) ac st) (set_engine en p))
          | None => Some (set_lane t (Lane q th li None (one_less ac) st) p)
          end
      | LFinish, _, _, Some ([], next) => Some (set_lane t (Lane q th li None (one_less ac) next) p)
      | _, _, _, _ => None
      end
  end.

(** A step of the process: the packets' thread (Player.kt:432-445) takes a packet
    or does the next thing, a track's thread does something, and, once it is
    playing, time passes and continuation messages are added
    (MidiEngine.kt:362-378; at any offset).  A batch of length 0 is possible. *)
Inductive moves (p : player) : player -> Prop :=
| M_packet l rest : p_todo p = [] -> p_inbox p = l :: rest ->
    moves p (Player rest (program (parse_updates l)) (p_engine p) (p_lanes p) (p_playing p) (p_tick p) (p_running p) (p_files p))
| M_instr i l q : p_todo p = i :: l -> obey i (set_todo l p) = Some q -> moves p q
| M_lane a t q : lane_act a t p = Some q -> moves p q
| M_time t : p_playing p = true -> p_tick p <= t -> moves p (set_tick t p)
| M_continue o en : p_playing p = true -> schedule_msg o Continue (p_engine p) = Some en -> moves p (set_engine en p).
Inductive runs (p : player) : player -> Prop :=
| Runs_none : runs p p
| Runs_more q r : runs p q -> moves q r -> runs p r.

(** A player process that has just been started, with these packets to come. *)
Definition fresh (packets : list (list osc)) : player := Player packets [] new_engine [] false 0 true [].
End Apply.
