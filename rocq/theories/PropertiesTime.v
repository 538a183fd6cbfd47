(** Property theorems C60. *)
From Coq Require Import ZArith QArith Qabs Qcanon String List Bool Permutation Sorted.
From Verif Require Import Base Num ModelPitch ModelDuration ModelInstruments ModelTypes ModelLisp
  ModelScore ModelOsc SpecScore SpecGlobals SpecOsc ProofOsc ModelPlayer SpecPlayer ModelApply SpecApply ProofApplyEx SpecTime ProofTime
  PropertiesVars PropertiesTiming PropertiesApply.
Import ListNotations.
Local Open Scope string_scope.
Local Open Scope list_scope.
Local Open Scope Z_scope.

(** C60: an offset in milliseconds becomes a tick that sounds, by the tempo
    messages the player has sequenced, at that offset: up to half a tick for each
    tempo so far, and half a microsecond for each quarter note. *)
Theorem C60_time : forall hist en z t, chronological hist -> Forall quick hist -> set_tempos hist new_engine = Some en -> 0 <= z ->
  ms_to_ticks (en_tempos en) (nofZ z) = Some t -> t < 2 ^ 63 - 1 ->
  (Qabs (sounds_at (tempos_in (en_events en)) t - inject_Z z) <= slack hist z + inject_Z t / 256000)%Q.
Proof. exact c60_time. Qed.
Print Assumptions C60_time.

(** C60: so each note of a score that is played starts and ends at its own time. *)
Theorem C60_play : forall t s s' b start stop notes en commands p e,
  @performed XQ JXQ t s s' b start stop notes en -> chronological (tempo_changes b) -> Forall quick (tempo_changes b) ->
  Forall (Forall command) commands -> runs (sent b commands) p -> p_playing p = true -> In e notes -> off_tick (en_tempos en) start e < 2 ^ 63 - 1 ->
  let l := en_tempos en in let ts := tempos_in (en_events (p_engine p)) in let z := lateness l + onset start e in
  (Qabs (sounds_at ts (on_tick l start e) - inject_Z z) <= slack (tempo_changes b) z + inject_Z (on_tick l start e) / 256000)%Q /\
  (Qabs (sounds_at ts (off_tick l start e) - inject_Z (z + sounding e)) <= slack (tempo_changes b) (z + sounding e) + inject_Z (off_tick l start e) / 256000)%Q.
Proof. exact c60_play. Qed.
Print Assumptions C60_play.

(** C60: and in the files the player writes, as long after the first note as in
    the score. *)
Theorem C60_export : forall t s s' b start stop notes en commands p f data d e0 e,
  @performed XQ JXQ t s s' b start stop notes en -> chronological (tempo_changes b) -> Forall quick (tempo_changes b) ->
  Forall (Forall command) commands -> runs (sent b commands) p -> In (f, data) (p_files p) ->
  first_tick (en_tempos en) start notes d -> In e0 notes -> on_tick (en_tempos en) start e0 = d -> In e notes -> off_tick (en_tempos en) start e < 2 ^ 63 - 1 ->
  let l := en_tempos en in let h := tempo_changes b in let z0 := lateness l + onset start e0 in let z := lateness l + onset start e in
  (Qabs (sounds_at (tempos_in data) (on_tick l start e - d) - inject_Z (onset start e - onset start e0)) <=
     (slack h z + slack h z0) + inject_Z (on_tick l start e + d) / 256000)%Q /\
  (Qabs (sounds_at (tempos_in data) (off_tick l start e - d) - inject_Z (onset start e + sounding e - onset start e0)) <=
     (slack h (z + sounding e) + slack h z0) + inject_Z (off_tick l start e + d) / 256000)%Q.
Proof. exact c60_export. Qed.
Print Assumptions C60_export.

(** The score of C59's example, in exact numbers: the piano's last note,
    at 1500 ms, starts at tick 352 (the tempo changes at 1000 ms from 120 to 90). *)
Definition ex_time_play : transmission (N := XQ) := Transmission "" "" 0 6 [] true false.
Definition ex_time_notes : list (@note_event XQ) := slice 0 6 (events (session (N := XQ) ex_apply)).
Definition ex_time_asked : list (@note_event XQ) := filter (in_range n0 nmaxval) ex_time_notes.
Definition ex_time_bundle : list (@msg XQ) := bundle_of ex_time_play (session ex_apply) n0 nmaxval (sort_events ex_time_notes).
Definition ex_time_end : player (N := XQ) := auto 400 (sent ex_time_bundle [[MExport "a.mid"]]).
Definition ex_time_file : list (Z * midi) := match p_files ex_time_end with x :: _ => snd x | [] => [] end.
Example C60_example :
  (exists s', performed ex_time_play (session ex_apply) s' ex_time_bundle n0 nmaxval ex_time_asked (engine_of ex_time_bundle)) /\
  chronological (tempo_changes ex_time_bundle) /\ Forall quick (tempo_changes ex_time_bundle) /\
  first_tick (en_tempos (engine_of ex_time_bundle)) n0 ex_time_asked 128 /\
  runs (sent ex_time_bundle [[MExport "a.mid"]]) ex_time_end /\ p_playing ex_time_end = true /\ map fst (p_files ex_time_end) = ["a.mid"] /\
  map (on_tick (en_tempos (engine_of ex_time_bundle)) n0) ex_time_asked = [128; 256; 352; 128; 256; 256] /\
  map (onset n0) ex_time_asked = [500; 1000; 1500; 500; 1000; 1000] /\ lateness (en_tempos (engine_of ex_time_bundle)) = 0 /\
  Qred (sounds_at (tempos_in (en_events (p_engine ex_time_end))) 352) = (6000001 # 4000)%Q /\
  Qred (sounds_at (tempos_in ex_time_file) (352 - 128)) = (4000001 # 4000)%Q /\ Qred (slack (tempo_changes ex_time_bundle) 1500) = (625 # 96)%Q.
Proof.
  split; [|split; [|split; [|split; [|split]]]].
  - apply (performed_now ex_time_play (session ex_apply) 0 6 n0 nmaxval); vm_compute; reflexivity.
  - apply chronqb_ok. vm_compute. reflexivity.
  - apply quickb_ok. vm_compute. reflexivity.
  - apply first_tickb_ok. vm_compute. reflexivity.
  - apply auto_runs.
  - repeat split; vm_compute; reflexivity.
Qed.

(** C60: half a tick for each tempo adds up. With the same tempo set every 5 ms,
    what should sound after 2 s sounds after 3.125 s. *)
Theorem C60_drift_refuted : chronological crowded /\ Forall quick crowded /\
  exists en, set_tempos crowded new_engine = Some en /\ ms_to_ticks (en_tempos en) (nofZ 2000) = Some 400 /\ (sounds_at (tempos_in (en_events en)) 400 == 3125)%Q.
Proof. exact drift_refuted. Qed.
Print Assumptions C60_drift_refuted.

(** C60: a tempo too slow for a tempo message is not sequenced: at 3 beats per
    minute, what should sound after 20 s sounds after half a second. *)
Theorem C60_slow_refuted : chronological [(0, nofZ 3)] /\
  exists en, set_tempos (N := XQ) [(0, nofZ 3)] new_engine = Some en /\ ms_to_ticks (en_tempos en) (nofZ 20000) = Some 128 /\ (sounds_at (tempos_in (en_events en)) 128 == 500)%Q.
Proof. exact slow_refuted. Qed.
Print Assumptions C60_slow_refuted.
