(** player/src/main/kotlin/io/alda/player: the player process.  Patterns (which the
    client never sends) are not modelled: batches consist of notes, patch, volume
    and panning changes. *)
From Coq Require Import ZArith QArith Qround Qcanon List String Ascii Bool Decimal DecimalString SpecFloat.
From Verif Require Import Base Num ModelPitch ModelDuration ModelInstruments ModelTypes ModelLisp ModelScore ModelOsc.
Import ListNotations.
Local Open Scope string_scope.
Local Open Scope list_scope.
Local Open Scope Z_scope.

(* ------------------------- numbers of the JVM ------------------------- *)

(** Math.round(double): half up, saturating at 64 bits; 0 for NaN. *)
Class JNum (N : Num) := { jround : @num N -> Z }.
Definition clamp64 (z : Z) : Z := Z.max (- 2 ^ 63) (Z.min (2 ^ 63 - 1) z).
Definition half_up (q : Q) : Z := Qfloor (q + (1 # 2)).
Definition jround_XQ (x : xq) : Z :=
  match x with Fin q => clamp64 (half_up q) | PInf => 2 ^ 63 - 1 | NInf => - 2 ^ 63 | NaN => 0 end.
Definition jround_B64 (x : spec_float) : Z :=
  match b64_toQ x with
  | Some q => clamp64 (half_up q)
  | None => match x with S754_infinity s => if s then - 2 ^ 63 else 2 ^ 63 - 1 | _ => 0 end
  end.
#[global] Instance JXQ : JNum XQ := Build_JNum XQ jround_XQ.
#[global] Instance JB64 : JNum B64 := Build_JNum B64 jround_B64.

(** Collection.takeWhile. *)
Fixpoint take_while {A} (f : A -> bool) (l : list A) : list A :=
  match l with
  | [] => []
  | x :: t => if f x then x :: take_while f t else []
  end.
(** List.last, which throws on an empty list. *)
Fixpoint last_of {A} (l : list A) : option A :=
  match l with
  | [] => None
  | [x] => Some x
  | _ :: t => last_of t
  end.

Section Player.
Context {N : Num} {J : JNum N}.

(* ------------------------- MidiEngine.kt: time ------------------------- *)

(** MidiEngine.kt:109-111.  The tempo is a Float; its products and quotients here
    are exact or in Double, so it is kept as a number. *)
Record tempo_entry := TempoEntry { te_off : Z; te_bpm : num; te_ticks : Z }.

(** MidiEngine.kt:175-177. *)
Definition first_tempos : list tempo_entry := [TempoEntry 0 (nofZ 120) 0].

(** MidiEngine.kt:180-188, addTempoEntry: before the first entry that is later. *)
Fixpoint add_entry (e : tempo_entry) (l : list tempo_entry) : list tempo_entry :=
  match l with
  | [] => [e]
  | x :: t => if te_off e <? te_off x then e :: l else x :: add_entry e t
  end.

(** MidiEngine.kt:190-196. *)
Definition entry_by_offset (l : list tempo_entry) (ms : num) : option tempo_entry :=
  last_of (take_while (fun e => nleb (nofZ (te_off e)) ms) l).
Definition entry_by_ticks (l : list tempo_entry) (ticks : Z) : option tempo_entry :=
  last_of (take_while (fun e => te_ticks e <=? ticks) l).

(** MidiEngine.kt:48 and 211: RESOLUTION is 128. *)
Definition ms_per_tick (e : tempo_entry) : num := ndiv (nofZ 60000) (nmul (te_bpm e) (nofZ 128)).

(** MidiEngine.kt:206-215, msToTicks; [None] is NoSuchElementException. *)
Definition ms_to_ticks (l : list tempo_entry) (ms : num) : option Z :=
  if neqb ms n0 then Some 0
  else match entry_by_offset l ms with
       | Some e => Some (jround (nadd (nofZ (te_ticks e)) (ndiv (nsub ms (nofZ (te_off e))) (ms_per_tick e))))
       | None => None
       end.

(** MidiEngine.kt:217-223, ticksToMs. *)
Definition ticks_to_ms (l : list tempo_entry) (ticks : Z) : option num :=
  match entry_by_ticks l ticks with
  | Some e => Some (nadd (nofZ (te_off e)) (nmul (nofZ (ticks - te_ticks e)) (ms_per_tick e)))
  | None => None
  end.

(* ------------------------- MidiEngine.kt: the sequence ------------------------- *)

(** The messages of the sequence's only track (MidiEngine.kt:76-86, 141-157,
    260-303, 405-435).  The end-of-track event that javax.sound.midi.Track keeps
    at the end is not represented. *)
Inductive midi :=
| NoteOn (chan note vel : Z) | NoteOff (chan note vel : Z) | Control (chan which value : Z) | Program (chan patch : Z)
| SetTempo (uspq : Z) | Continue | Pending (name : string) | Shutdown.

Record engine := Engine { en_tempos : list tempo_entry; en_events : list (Z * midi) }.
Definition new_engine : engine := Engine first_tempos [].

(** javax.sound.midi.Track.add: events are kept in order of their ticks, new ones
    after the others at the same tick. *)
Fixpoint track_add (t : Z) (m : midi) (l : list (Z * midi)) : list (Z * midi) :=
  match l with
  | [] => [(t, m)]
  | (t', m') :: r => if t <? t' then (t, m) :: l else (t', m') :: track_add t m r
  end.

(** MidiEngine.kt:141-157, setTempoMessage: too slow tempos are not set. *)
Definition tempo_message (bpm : num) : midi :=
  let uspq := jround (ndiv (nofZ 60000000) bpm) in
  if 16777215 <? uspq then Continue else SetTempo uspq.

(** MidiEngine.kt:253-258, setTempo. *)
Definition set_tempo (off : Z) (bpm : num) (en : engine) : option engine :=
  match ms_to_ticks (en_tempos en) (nofZ off) with
  | Some t => Some (Engine (add_entry (TempoEntry off bpm t) (en_tempos en)) (track_add t (tempo_message bpm) (en_events en)))
  | None => None
  end.

(** javax.sound.midi.ShortMessage's constructor: channels below 16, data bytes
    below 128; it throws otherwise. *)
Definition valid_midi (m : midi) : bool :=
  let byte x := (0 <=? x) && (x <? 128) in
  let chan x := (0 <=? x) && (x <? 16) in
  match m with
  | NoteOn c a b | NoteOff c a b | Control c a b => chan c && byte a && byte b
  | Program c a => chan c && byte a
  | _ => true
  end.

(** MidiEngine.kt:260-267, scheduleMidiMsg and the first half of
    scheduleShortMsg. *)
Definition schedule_msg (off : Z) (m : midi) (en : engine) : option engine :=
  if valid_midi m then
    match ms_to_ticks (en_tempos en) (nofZ off) with
    | Some t => Some (Engine (en_tempos en) (track_add t m (en_events en)))
    | None => None
    end
  else None.

(* ------------------------- Events.kt ------------------------- *)

(** Events.kt:19 and Parser.kt:152-220: the events of a track. *)
Inductive event :=
| ENote (chan off note dur aud vel : Z)
| EPatch (chan off patch : Z)
| EVolume (chan off vol : Z)
| EPanning (chan off pan : Z).
Definition e_off (e : event) : Z :=
  match e with ENote _ o _ _ _ _ | EPatch _ o _ | EVolume _ o _ | EPanning _ o _ => o end.

(** Events.kt:21-23, addOffset (an Int, which wraps). *)
Definition add_offset (n : Z) (e : event) : event :=
  match e with
  | ENote c o k d a v => ENote c (wrap32 (o + n)) k d a v
  | EPatch c o p => EPatch c (wrap32 (o + n)) p
  | EVolume c o v => EVolume c (wrap32 (o + n)) v
  | EPanning c o p => EPanning c (wrap32 (o + n)) p
  end.
(** Events.kt:25-31, endOffset. *)
Definition end_offset (e : event) : Z :=
  match e with ENote _ o _ d _ _ => wrap32 (o + d) | _ => 0 end.

(** Events.kt:41-74, schedule, and MidiEngine.kt:405-435: what is put into the
    sequence and at which offsets. *)
Definition messages_of (e : event) : list (Z * midi) :=
  match e with
  | ENote c o k d a v => [(o, NoteOn c k v); (wrap32 (o + a), NoteOff c k v)]
  | EPatch c o p => [(o, Program c p)]
  | EVolume c o v => [(o, Control c 11 v)]
  | EPanning c o p => [(o, Control c 10 p)]
  end.
(** Messages are added one by one; at the first that cannot be, an exception
    leaves the others out ([false]). *)
Fixpoint schedule_msgs (l : list (Z * midi)) (en : engine) : engine * bool :=
  match l with
  | [] => (en, true)
  | (o, m) :: t => match schedule_msg o m en with
                   | Some en' => schedule_msgs t en'
                   | None => (en, false)
                   end
  end.
Definition schedule (es : list event) (en : engine) : engine * bool :=
  schedule_msgs (flat_map messages_of es) en.

(* ------------------------- Player.kt: tracks ------------------------- *)

(** Player.kt:177-195, adjustStartOffset, given the sequencer's offset (rounded; an
    Int) and whether it is playing. *)
Definition adjust (offset : Z) (playing : bool) (start : Z) : Z :=
  let now := wrap32 offset in
  let s := if start <? now then now else start in
  if playing && (wrap32 (s - now) <? 500) then wrap32 (s + 500) else s.

(** Player.kt:252-255: the start offset after the events that were scheduled. *)
Definition next_start (start : Z) (scheduled : list event) : Z :=
  match map end_offset scheduled with
  | [] => start
  | x :: t => fold_left Z.max t x
  end.

(** Player.kt:197-256, scheduleEvents without patterns: the events with their
    final offsets, and the new start offset. *)
Definition place (now : Z) (playing : bool) (start : Z) (es : list event) : list event * Z :=
  let placed := map (add_offset (adjust now playing start)) es in (placed, next_start start placed).

(** A track's batches of events (Player.kt:25-60 and 258-316): those still in the
    queue, those taken off it by threads that have not reached the lock, those in
    line for the (fair) lock, the one being scheduled with the start offset that
    was read; and what has been scheduled, the latest first. *)
Record placement := Placement { pl_batch : list event; pl_start : Z; pl_events : list event; pl_next : Z }.
Record track := Track {
  tr_queue : list (list event); tr_threads : list (list event); tr_line : list (list event);
  tr_busy : option (list event * Z); tr_start : Z; tr_done : list placement }.
Definition new_track : track := Track [] [] [] None 0 [].

(** What can happen to a track, in any order. *)
Inductive action :=
| APut (b : list event)           (* applyUpdates, phase 3 *)
| ATake                           (* the track's thread *)
| ALineUp (i : nat)               (* the i-th thread calls lock *)
| ABegin                          (* the first in line gets the lock and reads the start offset *)
| AFinish (now : Z) (playing : bool)  (* it schedules its events, writes the start offset and unlocks *)
| AFail                           (* it throws while scheduling and unlocks *)
| AClear.                         (* Track.clear *)

Fixpoint remove_nth {A} (i : nat) (l : list A) : option (A * list A) :=
  match l, i with
  | [], _ => None
  | x :: t, O => Some (x, t)
  | x :: t, S i => match remove_nth i t with Some (y, t') => Some (y, x :: t') | None => None end
  end.

(** One action.  The comparison of the eras before and after waiting
    (Player.kt:292-300) compares the AtomicInteger with itself: it always
    succeeds. *)
Definition act (a : action) (t : track) : option track :=
  match a, t with
  | APut b, Track q th li bu st dn => Some (Track (q ++ [b]) th li bu st dn)
  | ATake, Track (b :: q) th li bu st dn => Some (Track q (th ++ [b]) li bu st dn)
  | ALineUp i, Track q th li bu st dn =>
      match remove_nth i th with
      | Some (b, th') => Some (Track q th' (li ++ [b]) bu st dn)
      | None => None
      end
  | ABegin, Track q th (b :: li) None st dn => Some (Track q th li (Some (b, st)) st dn)
  | AFinish now playing, Track q th li (Some (b, s)) st dn =>
      let (es, next) := place now playing s b in
      Some (Track q th li None next (Placement b (adjust now playing s) es next :: dn))
  | AFail, Track q th li (Some (b, s)) st dn => Some (Track q th li None st dn)
  | AClear, Track q th li bu st dn => Some (Track [] th li bu 0 dn)
  | _, _ => None
  end.
Fixpoint acts (l : list action) (t : track) : option track :=
  match l with
  | [] => Some t
  | a :: l => match act a t with Some t' => acts l t' | None => None end
  end.

(* ------------------------- MidiEngine.kt: export ------------------------- *)

(** MidiEngine.kt:99-107 and 465-472: the earliest note or control change. *)
Definition counts (m : midi) : bool := match m with NoteOn _ _ _ | Control _ _ _ => true | _ => false end.
Definition earliest (l : list (Z * midi)) : Z :=
  fold_left (fun acc x => if counts (snd x) then Z.min acc (fst x) else acc) l (2 ^ 63 - 1).
(** MidiEngine.kt:474-478: the copy that is written to the file. *)
Definition exported (l : list (Z * midi)) : list (Z * midi) :=
  fold_left (fun acc x => track_add (Z.max 0 (fst x - earliest l)) (snd x) acc) l [].

(* ------------------------- StateManager.kt ------------------------- *)

(** StateManager.kt:17-19 and 62-67: the expiry; [timeout] is the random
    inactivityTimeoutMs.  Long arithmetic does not overflow for clocks below
    2^62. *)
Definition first_expiry (timeout clock : Z) : Z := clock + timeout.
(** StateManager.kt:124-132, delayExpiration. *)
Definition delay (timeout point expiry : Z) : Z :=
  if expiry <? point + timeout then point + timeout else expiry.
(** What delays it: a packet or ping (Receiver.kt:43, Parser.kt:89-93), with the
    system clock; a scheduled message (MidiEngine.kt:277-280), with its offset, the
    system clock and the sequencer's offset. *)
Inductive signal := SPacket (clock : Z) | SSchedule (off clock current : Z).
Definition signal_point (s : signal) : Z :=
  match s with SPacket c => c | SSchedule off c cur => c + (off - cur) end.
Definition expiry_after (timeout start : Z) (l : list signal) : Z :=
  fold_left (fun x s => delay timeout (signal_point s) x) l (first_expiry timeout start).
(** StateManager.kt:122, isExpired. *)
Definition expired (expiry clock : Z) : bool := expiry <? clock.

(* ------------------------- messages ------------------------- *)

(** An OSC message: an address and arguments.  The encoding of arguments as bytes
    is the libraries'. *)
Inductive arg := AInt (z : Z) | AFloat (x : num) | AString (s : string).
Record osc := Osc { o_address : string; o_args : list arg }.

(** fmt.Sprintf("%d", n). *)
Definition decimal (n : Z) : string := NilZero.string_of_int (Z.to_int n).

(** client/transmitter/osc.go:19-94. *)
Definition encode (m : msg) : osc :=
  let on track what := ("/track/" ++ decimal track ++ "/midi/" ++ what)%string in
  match m with
  | MPing => Osc "/ping" []
  | MExport f => Osc "/system/midi/export" [AString f]
  | MPlay => Osc "/system/play" []
  | MStop => Osc "/system/stop" []
  | MShutdown o => Osc "/system/shutdown" [AInt o]
  | MOffset o => Osc "/system/offset" [AInt o]
  | MTempo o x => Osc "/system/tempo" [AInt o; AFloat x]
  | MPatch t c o p => Osc (on t "patch") [AInt c; AInt o; AInt p]
  | MNote t c o k d a v => Osc (on t "note") [AInt c; AInt o; AInt k; AInt d; AInt a; AInt v]
  | MVolume t c o v => Osc (on t "volume") [AInt c; AInt o; AInt v]
  | MPanning t c o p => Osc (on t "panning") [AInt c; AInt o; AInt p]
  end.

(** Parser.kt:8-27: what a packet's messages add up to. *)
Inductive system_event :=
| YShutdown (off : Z) | YOffset (off : Z) | YTempo (off : Z) (bpm : num) | YExport (file : string).
Record updates := Updates {
  u_ping : bool; u_shutdown : bool; u_play : bool; u_stop : bool; u_clear : bool;
  u_system : list system_event; u_clears : list Z; u_tracks : list (Z * list event) }.
Definition no_updates : updates := Updates false false false false false [] [] [].

(** Parser.kt:43-48, addTrackEvent. *)
Definition add_event (t : Z) (e : event) (u : updates) : updates :=
  let old := match aget Z.eqb t (u_tracks u) with Some l => l | None => [] end in
  Updates (u_ping u) (u_shutdown u) (u_play u) (u_stop u) (u_clear u) (u_system u) (u_clears u)
          (aset Z.eqb t (old ++ [e]) (u_tracks u)).
Definition add_system (y : system_event) (u : updates) : updates :=
  Updates (u_ping u) (u_shutdown u) (u_play u) (u_stop u) (u_clear u) (u_system u ++ [y]) (u_clears u) (u_tracks u).

(** Parser.kt:57-62: /track/(\d+), the number and the rest of the address.  A
    number beyond Int makes toInt throw. *)
Fixpoint strip (p s : string) : option string :=
  match p, s with
  | EmptyString, _ => Some s
  | String a p, String b s => if Ascii.eqb a b then strip p s else None
  | _, _ => None
  end.
Fixpoint digits (s : string) : string * string :=
  match s with
  | String c t => if is_digit c then let (d, r) := digits t in (String c d, r) else (EmptyString, s)
  | EmptyString => (EmptyString, EmptyString)
  end.
Definition track_address (s : string) : option (option Z * string) :=
  match strip "/track/" s with
  | Some t =>
      match digits t with
      | (EmptyString, _) => None
      | (d, r) => match NilZero.uint_of_string d with
                  | Some n => let z := Z.of_uint n in Some (if z <? 2 ^ 31 then Some z else None, r)
                  | None => None
                  end
      end
  | None => None
  end.

(** Parser.kt:71-341, parse, without the pattern messages.  Unknown addresses and
    wrong or missing arguments change nothing (superfluous arguments are ignored). *)
Definition parse (m : osc) (u : updates) : updates :=
  let is a := String.eqb (o_address m) a in
  if is "/ping" then Updates true (u_shutdown u) (u_play u) (u_stop u) (u_clear u) (u_system u) (u_clears u) (u_tracks u)
  else if is "/system/shutdown" then
    match o_args m with
    | AInt o :: _ => if o =? 0 then Updates (u_ping u) true (u_play u) (u_stop u) (u_clear u) (u_system u) (u_clears u) (u_tracks u)
                     else add_system (YShutdown o) u
    | _ => u
    end
  else if is "/system/play" then Updates (u_ping u) (u_shutdown u) true (u_stop u) (u_clear u) (u_system u) (u_clears u) (u_tracks u)
  else if is "/system/stop" then Updates (u_ping u) (u_shutdown u) (u_play u) true (u_clear u) (u_system u) (u_clears u) (u_tracks u)
  else if is "/system/offset" then match o_args m with AInt o :: _ => add_system (YOffset o) u | _ => u end
  else if is "/system/clear" then Updates (u_ping u) (u_shutdown u) (u_play u) (u_stop u) true (u_system u) (u_clears u) (u_tracks u)
  else if is "/system/tempo" then match o_args m with AInt o :: AFloat x :: _ => add_system (YTempo o x) u | _ => u end
  else if is "/system/midi/export" then match o_args m with AString f :: _ => add_system (YExport f) u | _ => u end
  else match track_address (o_address m) with
  | Some (Some t, what) =>
      if String.eqb what "/clear" then
        Updates (u_ping u) (u_shutdown u) (u_play u) (u_stop u) (u_clear u) (u_system u)
                (if existsb (Z.eqb t) (u_clears u) then u_clears u else u_clears u ++ [t]) (u_tracks u)
      else if String.eqb what "/midi/patch" then
        match o_args m with AInt c :: AInt o :: AInt p :: _ => add_event t (EPatch c o p) u | _ => u end
      else if String.eqb what "/midi/note" then
        match o_args m with
        | AInt c :: AInt o :: AInt k :: AInt d :: AInt a :: AInt v :: _ => add_event t (ENote c o k d a v) u
        | _ => u
        end
      else if String.eqb what "/midi/volume" then
        match o_args m with AInt c :: AInt o :: AInt v :: _ => add_event t (EVolume c o v) u | _ => u end
      else if String.eqb what "/midi/panning" then
        match o_args m with AInt c :: AInt o :: AInt p :: _ => add_event t (EPanning c o p) u | _ => u end
      else u
  | _ => u
  end.
(** Parser.kt:344-348, parseUpdates. *)
Definition parse_updates (l : list osc) : updates := fold_left (fun u m => parse m u) l no_updates.
End Player.
