(** Vocabulary for what the player's sequence contains (C59). *)
From Coq Require Import ZArith QArith Qcanon List String Bool.
From Verif Require Import Base Num ModelPitch ModelDuration ModelInstruments ModelTypes ModelLisp ModelScore SpecGlobals ModelOsc SpecOsc ModelPlayer SpecPlayer ModelApply.
Import ListNotations.
Local Open Scope Z_scope.

(** The last value [f] finds in a list. *)
Definition last_value {A B} (f : A -> option B) (l : list A) : option B :=
  fold_left (fun acc x => match f x with Some v => Some v | None => acc end) l None.
(** What a message says about a channel: its instrument, or a controller's value
    (11 is expression, which Alda uses for the volume of a track; 10 panning). *)
Definition program_on (ch : Z) (x : Z * midi) : option Z :=
  match snd x with Program c v => if c =? ch then Some v else None | _ => None end.
Definition control_on (which ch : Z) (x : Z * midi) : option Z :=
  match snd x with Control c w v => if (c =? ch) && (w =? which) then Some v else None | _ => None end.

(** A note as whoever plays the sequence hears it: when it starts (in ticks), its
    channel, pitch and velocity, and the instrument (which means nothing on the
    percussion channel), volume and panning then in force on its channel. *)
Record heard_note := Heard {
  h_tick : Z; h_chan : Z; h_note : Z; h_vel : Z; h_patch : option Z; h_vol : option Z; h_pan : option Z }.
Fixpoint heard_in (before l : list (Z * midi)) : list heard_note :=
  match l with
  | [] => []
  | x :: t =>
      match snd x with
      | NoteOn c k v =>
          [Heard (fst x) c k v (if c =? 9 then None else last_value (program_on c) before)
                 (last_value (control_on 11 c) before) (last_value (control_on 10 c) before)]
      | _ => []
      end ++ heard_in (before ++ [x]) t
  end.
(** The starts and the ends of notes: ticks, channels, pitches (and velocities). *)
Definition starts_in (l : list (Z * midi)) : list (Z * Z * Z * Z) :=
  flat_map (fun x => match snd x with NoteOn c k v => [(fst x, c, k, v)] | _ => [] end) l.
Definition ends_in (l : list (Z * midi)) : list (Z * Z * Z) :=
  flat_map (fun x => match snd x with NoteOff c k _ => [(fst x, c, k)] | _ => [] end) l.

(** The changes of tempo: ticks and microseconds per quarter note. *)
Definition tempos_in (l : list (Z * midi)) : list (Z * Z) :=
  flat_map (fun x => match snd x with SetTempo u => [(fst x, u)] | _ => [] end) l.

Section SpecApply.
Context {N : Num} {J : JNum N}.

(** The tempo changes among messages. *)
Definition tempo_changes (b : list msg) : list (Z * num) :=
  flat_map (fun m => match m with MTempo o x => [(o, x)] | _ => [] end) b.
(** The tick of an offset in milliseconds. *)
Definition tick (l : list tempo_entry) (z : Z) : Z := match ms_to_ticks l (nofZ z) with Some t => t | None => 0 end.
(** The offset that the player, before it has started to play, takes itself to be
    at; everything is that late. *)
Definition lateness (l : list tempo_entry) : Z :=
  match ticks_to_ms l 0 with Some x => Z.max 0 (wrap32 (jround x)) | None => 0 end.

(** When a note starts, relative to the start of the excerpt, and how long it
    sounds, in whole milliseconds. *)
Definition onset (start : num) (e : note_event) : Z := nround32 (relative start [] e).
Definition sounding (e : note_event) : Z := nround32 (ev_aud e).

(** A note's place in the sequence, and how it should be heard. *)
Definition on_tick l start e : Z := tick l (lateness l + onset start e).
Definition off_tick l start e : Z := tick l (lateness l + onset start e + sounding e).
Definition should_start l start e := (on_tick l start e, ev_chan e, ev_note e, level (ev_vol e)).
Definition should_end l start e := (off_tick l start e, ev_chan e, ev_note e).
Definition should_be_heard l (s : score) start e : heard_note :=
  Heard (on_tick l start e) (ev_chan e) (ev_note e) (level (ev_vol e))
        (if ev_chan e =? 9 then None else Some (patch_of s e)) (Some (level (ev_tvol e))) (Some (level (ev_pan e))).

(** MIDI has values for it, and its place can be computed. *)
Definition byte (z : Z) : Prop := 0 <= z < 128.
Record playable (l : list tempo_entry) (s : score) (start : num) (e : note_event) : Prop := Playable {
  pb_chan : 0 <= ev_chan e < 16;
  pb_values : byte (ev_note e) /\ byte (level (ev_vol e)) /\ byte (level (ev_tvol e)) /\ byte (level (ev_pan e)) /\ byte (patch_of s e);
  pb_time : 0 <= onset start e /\ 0 <= sounding e /\ lateness l + onset start e + sounding e < 2 ^ 31;
  pb_ticks : exists a b, ms_to_ticks l (nofZ (lateness l + onset start e)) = Some a /\
                         ms_to_ticks l (nofZ (lateness l + onset start e + sounding e)) = Some b /\ a <= b < 2 ^ 63 }.
(** Notes that start no later are at ticks no later. *)
Definition in_step (l : list tempo_entry) (start : num) (notes : list note_event) : Prop :=
  forall e f, In e notes -> In f notes -> nltb (ev_off f) (ev_off e) = false -> on_tick l start e <= on_tick l start f.
(** No two parts use a channel at the same tick. *)
Definition apart (l : list tempo_entry) (start : num) (notes : list note_event) : Prop :=
  forall e f, In e notes -> In f notes -> ev_chan e = ev_chan f -> ev_part e <> ev_part f -> on_tick l start e <> on_tick l start f.

(** The tick of the first note, and the same things counted from it. *)
Definition first_tick l start (notes : list note_event) (d : Z) : Prop :=
  (exists e, In e notes /\ on_tick l start e = d) /\ forall e, In e notes -> d <= on_tick l start e.
Definition start_from d (x : Z * Z * Z * Z) := let '(t, c, k, v) := x in (t - d, c, k, v).
Definition end_from d (x : Z * Z * Z) := let '(t, c, k) := x in (t - d, c, k).
Definition tempo_from d (x : Z * Z) := (Z.max 0 (fst x - d), snd x).
Definition heard_from d h : heard_note := Heard (h_tick h - d) (h_chan h) (h_note h) (h_vel h) (h_patch h) (h_vol h) (h_pan h).

(** Messages other than those of a score: commands, which may follow it. *)
Definition command (m : msg) : Prop := match m with MTempo _ _ => False | _ => event_of m = None end.
(** The player has been sent this bundle, and commands after it. *)
Definition sent (b : list msg) (commands : list (list msg)) : player := fresh (map encode b :: map (map encode) commands).
(** Commands that are carried out at once, or as soon as the tracks are done. *)
Definition simple (m : msg) : Prop :=
  match m with MExport _ | MPlay | MStop | MPing => True | MShutdown o => o = 0 | _ => False end.
(** The files asked for. *)
Definition files_asked (l : list msg) : list string := flat_map (fun m => match m with MExport f => [f] | _ => [] end) l.
(** A step of the player's own, whatever time does. *)
Inductive works (p : player) : player -> Prop :=
| W_packet l rest : p_todo p = [] -> p_inbox p = l :: rest ->
    works p (Player rest (program (parse_updates l)) (p_engine p) (p_lanes p) (p_playing p) (p_tick p) (p_running p) (p_files p))
| W_instr i l q : p_todo p = i :: l -> obey i (set_todo l p) = Some q -> works p q
| W_lane a t q : lane_act a t p = Some q -> works p q.
Definition finished (p : player) : Prop := p_todo p = [] /\ p_inbox p = [].
(** Whether the player is to play after a packet: what the packet says, if
    anything; to play, if it says both. *)
Definition playing_after (was : bool) (l : list msg) : bool :=
  existsb (fun m => match m with MPlay => true | _ => false end) l ||
  (was && negb (existsb (fun m => match m with MStop => true | _ => false end) l)).
(** If it says when the player is to end, that offset has a tick. *)
Definition can_end (l : list tempo_entry) (m : msg) : Prop :=
  match m with
  | MShutdown o => exists x k, ticks_to_ms l 0 = Some x /\ ms_to_ticks l (nofZ (wrap32 (wrap32 (jround x) + o))) = Some k
  | _ => True
  end.

(** The first transmission of a score to a player: [b] is what is sent of [s] and
    [notes] the notes asked for; the player can set the tempos (which gives [en]),
    knows where it is, and can play each note. *)
Record performed t (s s' : score) (b : list msg) (start stop : num) (notes : list note_event) (en : engine) : Prop := Performed {
  pf_sent : transmits t s s' (ROk b);
  pf_asked : asked t s start stop notes;
  pf_first : t_sync t = [];
  pf_parts : Z.of_nat (List.length (parts s)) < 2 ^ 31 - 1;
  pf_tempos : set_tempos (tempo_changes b) new_engine = Some en;
  pf_now : exists x, ticks_to_ms (en_tempos en) 0 = Some x;
  pf_notes : Forall (playable (en_tempos en) s start) notes }.
End SpecApply.
(** A note that starts in the excerpt, less than 2^31-1 milliseconds after it does. *)
Definition placed_at (start : @num XQ) (e : note_event) : Prop :=
  exists q r : Qc, ev_off e = Fin q /\ start = Fin r /\ (0 <= q - r)%Q /\ (q - r < 2147483647)%Q.
