(** Property theorems C59. *)
From Coq Require Import ZArith String List Bool Permutation Sorted.
From Verif Require Import Base Num ModelPitch ModelDuration ModelInstruments ModelTypes ModelLisp
  ModelScore ModelOsc SpecScore SpecGlobals SpecOsc ProofOsc ModelPlayer SpecPlayer ModelApply SpecApply ProofApplyExact ProofApplyEx
  PropertiesEvents PropertiesVars PropertiesTiming PropertiesOsc PropertiesPlayer.
Import ListNotations.
Local Open Scope string_scope.
Local Open Scope list_scope.
Local Open Scope Z_scope.

(** C59: whatever the player's threads do when, once it plays, its sequence has
    the starts and the ends of the notes asked for, each once, and the tempo
    changes. *)
Theorem C59_notes : forall (N : Num) (J : JNum N), linear_order -> forall t s s' b start stop notes en commands p,
  performed t s s' b start stop notes en -> Forall (Forall command) commands -> runs (sent b commands) p -> p_playing p = true ->
  Permutation (starts_in (en_events (p_engine p))) (map (should_start (en_tempos en) start) notes) /\
  Permutation (ends_in (en_events (p_engine p))) (map (should_end (en_tempos en) start) notes) /\
  tempos_in (en_events (p_engine p)) = tempos_in (en_events en).
Proof. exact @played_notes. Qed.
Print Assumptions C59_notes.

(** C59: and each is heard with its instrument, volume and panning, if no two
    parts start notes on the same channel at the same tick. *)
Theorem C59_sound : forall (N : Num) (J : JNum N), linear_order -> levels_agree -> forall t s s' b start stop notes en commands p,
  performed t s s' b start stop notes en -> Forall (Forall command) commands -> in_step (en_tempos en) start notes -> apart (en_tempos en) start notes ->
  runs (sent b commands) p -> p_playing p = true ->
  Permutation (heard_in [] (en_events (p_engine p))) (map (should_be_heard (en_tempos en) s start) notes).
Proof. exact @played_heard. Qed.
Print Assumptions C59_sound.

(** C59: the same holds of the files the player writes, counted from the first
    note. *)
Theorem C59_export : forall (N : Num) (J : JNum N), linear_order -> levels_agree -> forall t s s' b start stop notes en commands p f data d,
  performed t s s' b start stop notes en -> Forall (Forall command) commands -> runs (sent b commands) p -> In (f, data) (p_files p) -> first_tick (en_tempos en) start notes d ->
  Permutation (starts_in data) (map (fun e => start_from d (should_start (en_tempos en) start e)) notes) /\
  Permutation (ends_in data) (map (fun e => end_from d (should_end (en_tempos en) start e)) notes) /\
  tempos_in data = map (tempo_from d) (tempos_in (en_events en)) /\
  (in_step (en_tempos en) start notes -> apart (en_tempos en) start notes ->
   Permutation (heard_in [] data) (map (fun e => heard_from d (should_be_heard (en_tempos en) s start e)) notes)).
Proof. exact @filed. Qed.
Print Assumptions C59_export.

(** C59: the player finishes what it is sent: some step of its own is possible
    until it has, and there are only so many; then it has written the files it was
    asked for, in order, and plays if it was last told to. *)
Theorem C59_done : forall (N : Num) (J : JNum N), linear_order -> forall t s s' b start stop notes en commands,
  performed t s s' b start stop notes en -> Forall (can_end (en_tempos en)) b -> Forall (Forall simple) commands ->
  exists left : player -> nat, forall p, runs (sent b commands) p ->
    (forall q, works p q -> (left q < left p)%nat) /\ (forall q, moves p q -> (left q <= left p)%nat) /\
    (finished p \/ exists q, works p q) /\
    (finished p -> map fst (p_files p) = files_asked (concat commands) /\ p_playing p = fold_left playing_after (b :: commands) false).
Proof. exact @done. Qed.
Print Assumptions C59_done.

(** C59, of exact numbers: what the theorems above assume of the tempos holds of
    all chronological tempo changes; nothing is late if they are spread out. *)
Theorem C59_exact : forall hist, chronological hist ->
  exists en, set_tempos hist new_engine = Some en /\ (exists x, ticks_to_ms (en_tempos en) 0 = Some x) /\
    (spread (en_tempos en) -> lateness (en_tempos en) = 0) /\
    (forall a b, 0 <= a <= b -> exists i j, ms_to_ticks (en_tempos en) (nofZ a) = Some i /\ ms_to_ticks (en_tempos en) (nofZ b) = Some j /\ i <= j < 2 ^ 63) /\
    (forall start notes, (forall e, In e notes -> placed_at start e) -> in_step (en_tempos en) start notes).
Proof. exact exact_ok. Qed.
Print Assumptions C59_exact.

(** piano: r c (panning 20) d e   violin: r c (tempo! 90) d   midi-percussion: r r c *)
Definition rest_ {N : Num} : update := UPrim (Rest (Some [CLen (nofZ 4) 0])).
Definition ex_apply {N : Num} : list (list update) :=
  [ [UPart ["piano"] ""; rest_; note_ LC; UPrim (Attr (PPan (nlit 1 5))); note_ LD; note_ LE];
    [UPart ["violin"] ""; rest_; note_ LC; UPrim (GAttr (PTempo (nofZ 90))); note_ LD];
    [UPart ["midi-percussion"] ""; rest_; rest_; note_ LC] ].
Definition ex_play : transmission (N := B64) := Transmission "" "" 0 6 [] true false.
Definition ex_notes : list (@note_event B64) := slice 0 6 (events (session (N := B64) ex_apply)).
Definition ex_asked : list (@note_event B64) := filter (in_range n0 nmaxval) ex_notes.
Definition ex_bundle : list (@msg B64) := bundle_of ex_play (session ex_apply) n0 nmaxval (sort_events ex_notes).
Definition ex_commands : list (list (@msg B64)) := [[MExport "a.mid"]; [MStop; MExport "b.mid"]; [MPlay]].
Definition ex_end : player (N := B64) := auto 400 (sent ex_bundle ex_commands).
Definition ex_file : list (Z * midi) := match p_files ex_end with x :: _ => snd x | [] => [] end.

Example C59_example :
  (exists s', performed ex_play (session ex_apply) s' ex_bundle n0 nmaxval ex_asked (engine_of ex_bundle)) /\
  in_step (en_tempos (engine_of ex_bundle)) n0 ex_asked /\ apart (en_tempos (engine_of ex_bundle)) n0 ex_asked /\
  first_tick (en_tempos (engine_of ex_bundle)) n0 ex_asked 128 /\ Forall (can_end (en_tempos (engine_of ex_bundle))) ex_bundle /\
  Forall (Forall command) ex_commands /\ Forall (Forall simple) ex_commands /\
  runs (sent ex_bundle ex_commands) ex_end /\ p_playing ex_end = true /\ map fst (p_files ex_end) = ["a.mid"; "b.mid"] /\
  starts_in (en_events (p_engine ex_end)) = [(128, 0, 60, 69); (128, 1, 60, 69); (256, 0, 62, 69); (256, 1, 62, 69); (256, 9, 60, 69); (352, 0, 64, 69)] /\
  ends_in ex_file = [(115, 0, 60); (115, 1, 60); (214, 0, 62); (243, 1, 62); (243, 9, 60); (310, 0, 64)] /\
  tempos_in ex_file = [(0, 500000); (128, 666667)].
Proof.
  split; [|split; [|split; [|split; [|split; [|split; [|split; [|split]]]]]]].
  - apply (performed_now ex_play (session ex_apply) 0 6 n0 nmaxval); vm_compute; reflexivity.
  - apply in_stepb_ok. vm_compute. reflexivity.
  - apply apartb_ok. vm_compute. reflexivity.
  - apply first_tickb_ok. vm_compute. reflexivity.
  - apply endb_ok. vm_compute. reflexivity.
  - repeat constructor.
  - repeat constructor.
  - apply auto_runs.
  - repeat split; vm_compute; reflexivity.
Qed.

(** C59, when two parts do start notes on the same channel (as two percussion
    parts must) at the same tick: one may be heard with the other's volume. *)
Theorem C59_sound_refuted : exists (t : transmission (N := B64)) s s' b start stop notes en p,
  performed t s s' b start stop notes en /\ in_step (en_tempos en) start notes /\ runs (sent b []) p /\ p_playing p = true /\
  ~ Permutation (heard_in [] (en_events (p_engine p))) (map (should_be_heard (en_tempos en) s start) notes).
Proof. exact two_parts_refuted. Qed.
Print Assumptions C59_sound_refuted.

(** C59, when tempo changes crowd around the start: the player plays everything
    late (here by 60 ms). *)
Theorem C59_late_refuted : chronological dense /\
  exists en, set_tempos dense new_engine = Some en /\ lateness (en_tempos en) = 60.
Proof. exact late_refuted. Qed.
Print Assumptions C59_late_refuted.
