(** Vocabulary for the player (C36-C40, C50). *)
From Coq Require Import ZArith QArith Qcanon List String Bool Sorted.
From Verif Require Import Base Num ModelPitch ModelDuration ModelInstruments ModelTypes ModelLisp ModelScore ModelOsc ModelPlayer.
Import ListNotations.
Local Open Scope Z_scope.

(* ------------------------- C36 ------------------------- *)

(** Tempo messages (offset in ms, beats per minute), one after another. *)
Fixpoint set_tempos {N : Num} {J : JNum N} (l : list (Z * num)) (en : engine) : option engine :=
  match l with
  | [] => Some en
  | (o, b) :: l => match set_tempo o b en with Some en' => set_tempos l en' | None => None end
  end.
(** In chronological order, with positive tempos. *)
Definition chronological (l : list (Z * @num XQ)) : Prop :=
  StronglySorted (fun a b => fst a <= fst b) l /\
  Forall (fun x => 0 <= fst x /\ exists b : Qc, snd x = Fin b /\ (0 < b)%Qc) l.
(** No two tempo changes at different offsets within one tick. *)
Definition spread {N : Num} (l : list tempo_entry) : Prop :=
  forall a b, In a l -> In b l -> te_ticks a = te_ticks b -> te_off a = te_off b.

(** The engines that tempo messages and scheduled events lead to. *)
Inductive reaches {N : Num} {J : JNum N} : engine -> Prop :=
| R_new : reaches new_engine
| R_tempo o b en en' : reaches en -> set_tempo o b en = Some en' -> reaches en'
| R_schedule o m en en' : reaches en -> schedule_msg o m en = Some en' -> reaches en'.

(* ------------------------- C37, C38 ------------------------- *)

(** The batches a list of actions puts into the queue. *)
Definition puts (l : list action) : list (list event) :=
  flat_map (fun a => match a with APut b => [b] | _ => [] end) l.
Definition no_clear (l : list action) : Prop := ~ In AClear l.
Definition no_failure (l : list action) : Prop := ~ In AFail l.
(** The batches on their way: being scheduled, in line, in threads. *)
Definition on_the_way (t : track) : list (list event) :=
  match tr_busy t with Some (b, _) => [b] | None => [] end ++ tr_line t ++ tr_threads t.
(** What has been scheduled, in the order it was. *)
Definition history (t : track) : list placement := rev (tr_done t).

Definition is_enote (e : event) : bool := match e with ENote _ _ _ _ _ _ => true | _ => false end.
Definition duration_of (e : event) : Z := match e with ENote _ _ _ d _ _ => d | _ => 0 end.
(** A batch with notes, of sensible offsets and durations, that ends within the
    range of Int. *)
Definition musical (p : placement) : Prop :=
  existsb is_enote (pl_batch p) = true /\ 0 <= pl_start p /\
  Forall (fun e => 0 <= e_off e /\ 0 <= duration_of e /\ pl_start p + e_off e + duration_of e < 2 ^ 31) (pl_batch p).
(** Whenever a batch is taken off the queue, the threads of those before it are in
    line already. *)
Fixpoint orderly (l : list action) (t : track) : Prop :=
  match l with
  | [] => True
  | a :: l => (a = ATake -> tr_threads t = []) /\ match act a t with Some t' => orderly l t' | None => True end
  end.

(* ------------------------- C40 ------------------------- *)

(** What the player should make of a message. *)
Definition event_of {N : Num} (m : msg) : option (Z * event) :=
  match m with
  | MPatch t c o p => Some (t, EPatch c o p)
  | MNote t c o k d a v => Some (t, ENote c o k d a v)
  | MVolume t c o v => Some (t, EVolume c o v)
  | MPanning t c o p => Some (t, EPanning c o p)
  | _ => None
  end.
Definition system_of {N : Num} (m : msg) : list system_event :=
  match m with
  | MTempo o x => [YTempo o x]
  | MOffset o => [YOffset o]
  | MShutdown o => if o =? 0 then [] else [YShutdown o]
  | MExport f => [YExport f]
  | _ => []
  end.
Definition events_for {N : Num} (t : Z) (ms : list msg) : list event :=
  flat_map (fun m => match event_of m with Some (t', e) => if t' =? t then [e] else [] | None => [] end) ms.
Definition track_events {N : Num} (u : updates) (t : Z) : list event :=
  match aget Z.eqb t (u_tracks u) with Some l => l | None => [] end.
(** Track numbers are not negative and fit in Int. *)
Definition numbered {N : Num} (m : msg) : Prop :=
  match event_of m with Some (t, _) => 0 <= t < 2 ^ 31 | None => True end.
(** The player's state after messages: per track, the events in the order they were
    sent; the system events; and what else was asked for. *)
Definition adds_up {N : Num} (ms : list msg) (u : updates) : Prop :=
  (forall t, track_events u t = events_for t ms) /\ u_system u = flat_map system_of ms /\
  (u_ping u = true <-> In MPing ms) /\ (u_shutdown u = true <-> In (MShutdown 0) ms) /\
  (u_play u = true <-> In MPlay ms) /\ (u_stop u = true <-> In MStop ms) /\ u_clear u = false /\ u_clears u = [].
