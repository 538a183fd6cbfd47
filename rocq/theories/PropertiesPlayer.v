(** C36-C40, C50: the player. *)
From Coq Require Import ZArith QArith Qcanon Qabs List String Bool Permutation Sorted Lia.
From Verif Require Import Base Num ModelPitch ModelDuration ModelInstruments ModelTypes ModelLisp ModelScore ModelOsc SpecOsc ModelPlayer SpecPlayer.
From Verif Require Import ProofPlayer ProofPackets ProofTicks PropertiesOsc.
Import ListNotations.
Local Open Scope string_scope.
Local Open Scope list_scope.
Local Open Scope Z_scope.

(* ------------------------- C36 ------------------------- *)

(** C36: after any chronological history of tempo changes, offsets are converted
    to ticks, and a later offset never to an earlier tick. *)
Theorem C36_monotone : forall hist (x y : Qc), chronological hist -> (0 <= x)%Qc -> (x <= y)%Qc ->
  exists en a b, set_tempos hist new_engine = Some en /\
    ms_to_ticks (en_tempos en) (Fin x) = Some a /\ ms_to_ticks (en_tempos en) (Fin y) = Some b /\ 0 <= a <= b.
Proof. exact c36_mono. Qed.
Print Assumptions C36_monotone.

(** A note that the player can play is put into the sequence, its end not before
    its start. *)
Theorem C36_notes : forall hist en c o k d a v, chronological hist -> set_tempos hist new_engine = Some en ->
  0 <= o -> 0 <= a -> o + a < 2 ^ 31 -> 0 <= c < 16 -> 0 <= k < 128 -> 0 <= v < 128 ->
  exists t1 t2, 0 <= t1 <= t2 /\
    schedule [ENote c o k d a v] en =
      (Engine (en_tempos en) (track_add t2 (NoteOff c k v) (track_add t1 (NoteOn c k v) (en_events en))), true).
Proof. exact c36_notes. Qed.
Print Assumptions C36_notes.

(** Converting back is within a tick (of the tempo at the offset), if no two tempo
    changes share a tick. *)
Theorem C36_back : forall hist en (x : Qc) t, chronological hist -> set_tempos hist new_engine = Some en -> spread (en_tempos en) ->
  (0 <= x)%Qc -> ms_to_ticks (en_tempos en) (Fin x) = Some t -> t < 2 ^ 63 - 1 ->
  exists e (b y : Qc), entry_by_offset (en_tempos en) (Fin x) = Some e /\ te_bpm e = Fin b /\
    ticks_to_ms (en_tempos en) t = Some (Fin y) /\ (Qabs (y - x) <= 60000 / (b * 128))%Q.
Proof. exact c36_back. Qed.
Print Assumptions C36_back.

(** Tempo changes at offsets, in whole beats per minute. *)
Definition bpms (l : list (Z * Z)) : list (Z * @num XQ) := map (fun x => (fst x, nofZ (snd x))) l.
Definition ex_tempos : list (Z * @num XQ) := bpms [(0, 60); (1000, 200); (1000, 90); (2500, 120)].
Definition ticks_after (hist : list (Z * @num XQ)) (x : Z) : option Z :=
  match set_tempos hist new_engine with Some en => ms_to_ticks (en_tempos en) (nofZ x) | None => None end.
Example C36_example : chronological ex_tempos /\
  (exists en, set_tempos ex_tempos new_engine = Some en /\ spread (en_tempos en)) /\
  map (ticks_after ex_tempos) [0; 500; 1000; 1500; 2500; 3000] = [Some 0; Some 64; Some 128; Some 224; Some 416; Some 544].
Proof.
  split; [apply chronb_chron; reflexivity|]. split; [apply tempos_spread; vm_compute; reflexivity|vm_compute; reflexivity].
Qed.

(** Out of order the conversion goes backwards: after a tempo change at 1000 ms,
    one at 500 ms. *)
Theorem C36_late_refuted : exists hist x y a b, x <= y /\
  ticks_after (bpms hist) x = Some a /\ ticks_after (bpms hist) y = Some b /\ b < a.
Proof. exists [(1000, 120); (500, 240)], 999, 1000, 383, 256. split; [lia|]. split; [vm_compute; reflexivity|]. split; [vm_compute; reflexivity|lia]. Qed.
Print Assumptions C36_late_refuted.

(** Tempo changes a few milliseconds apart do not advance the ticks: converting
    back is off by many ticks (here: offset 0 comes back as 60 ms; a tick is 7.8 ms). *)
Definition dense : list (Z * @num XQ) :=
  bpms (map (fun n => (3 * Z.of_nat n, 60)) (seq 0 21)).
Theorem C36_dense_refuted : chronological dense /\ ticks_after dense 0 = Some 0 /\
  exists en y, set_tempos dense new_engine = Some en /\ ticks_to_ms (en_tempos en) 0 = Some y /\ neqb y (nofZ 60) = true.
Proof.
  split; [apply chronb_chron; reflexivity|]. split; [vm_compute; reflexivity|apply tempos_back; vm_compute; reflexivity].
Qed.
Print Assumptions C36_dense_refuted.

(* ------------------------- C37 ------------------------- *)

(** C37: whatever the threads and the clock do, as long as the track is not
    cleared and nothing throws, every batch put into a track's queue is
    scheduled once, on its way, or still in the queue. *)
Theorem C37_once : forall l t, acts l new_track = Some t -> no_clear l -> no_failure l ->
  Permutation (puts l) (map pl_batch (history t) ++ on_the_way t ++ tr_queue t).
Proof. exact c37_once. Qed.
Print Assumptions C37_once.

(** In the order received, if every batch's thread is in line for the lock before
    the next batch is taken off the queue. *)
Theorem C37_order : forall l t, acts l new_track = Some t -> no_clear l -> no_failure l -> orderly l new_track ->
  puts l = map pl_batch (history t) ++ on_the_way t ++ tr_queue t.
Proof. exact c37_order. Qed.
Print Assumptions C37_order.

(** No event of a batch scheduled later starts before the end of a note of a batch
    scheduled earlier, and within a batch all offsets are shifted alike. *)
Theorem C37_apart : forall l t, acts l new_track = Some t -> no_clear l -> Forall musical (history t) ->
  ForallOrdPairs (fun p q => forall e e', In e (pl_events p) -> In e' (pl_events q) -> is_enote e = true ->
                             e_off e + duration_of e <= e_off e') (history t) /\
  Forall (fun p => Forall2 (fun e e' => e_off e' = pl_start p + e_off e /\ duration_of e' = duration_of e) (pl_batch p) (pl_events p)) (history t).
Proof. exact c37_apart. Qed.
Print Assumptions C37_apart.

Definition ex_batch1 : list event := [EPatch 0 0 24; ENote 0 0 60 500 450 64; ENote 0 500 64 500 450 64].
Definition ex_batch2 : list event := [EVolume 0 0 100; ENote 0 0 67 1000 900 64].
Definition ex_acts : list action :=
  [APut ex_batch1; ATake; ALineUp 0; APut ex_batch2; ABegin; ATake; ALineUp 0; AFinish 0 false; APut []; ABegin; AFinish 700 true].
Example C37_example : exists t, acts ex_acts new_track = Some t /\ no_clear ex_acts /\ no_failure ex_acts /\ orderly ex_acts new_track /\
  Forall musical (history t) /\ map pl_start (history t) = [0; 1500] /\ tr_queue t = [[]].
Proof.
  eexists. split; [reflexivity|]. split; [intros K; cbn in K; intuition discriminate|]. split; [intros K; cbn in K; intuition discriminate|].
  split; [cbn; repeat split; intros; reflexivity || discriminate|].
  split; [|split; reflexivity].
  repeat (constructor; [split; [reflexivity|split; [cbn; lia|repeat (constructor; [cbn; lia|]); constructor]]|]). constructor.
Qed.

(** Two threads that have taken batches off the queue may reach the lock in the
    other order: the second batch is then scheduled first. *)
Theorem C37_order_refuted : exists l t, acts l new_track = Some t /\ no_clear l /\ no_failure l /\
  puts l = [ex_batch1; ex_batch2] /\ map pl_batch (history t) = [ex_batch2; ex_batch1].
Proof.
  exists [APut ex_batch1; APut ex_batch2; ATake; ATake; ALineUp 1; ALineUp 0; ABegin; AFinish 0 false; ABegin; AFinish 0 false].
  eexists. split; [reflexivity|]. split; [intros K; cbn in K; intuition discriminate|]. split; [intros K; cbn in K; intuition discriminate|]. split; reflexivity.
Qed.
Print Assumptions C37_order_refuted.

(** After a batch without notes, the next batch starts from the beginning: its
    notes overlap those of the first. *)
Theorem C37_silent_refuted : exists l t, acts l new_track = Some t /\ no_clear l /\ no_failure l /\ orderly l new_track /\
  puts l = [ex_batch1; [EVolume 0 0 100]; ex_batch2] /\
  map pl_start (history t) = [0; 1000; 0] /\ tr_queue t = [] /\ on_the_way t = [].
Proof.
  exists [APut ex_batch1; APut [EVolume 0 0 100]; APut ex_batch2;
          ATake; ALineUp 0; ABegin; AFinish 0 false; ATake; ALineUp 0; ABegin; AFinish 0 false; ATake; ALineUp 0; ABegin; AFinish 0 false].
  eexists. split; [reflexivity|]. split; [intros K; cbn in K; intuition discriminate|]. split; [intros K; cbn in K; intuition discriminate|].
  split; [cbn; repeat split; intros; reflexivity || discriminate|]. repeat split; reflexivity.
Qed.
Print Assumptions C37_silent_refuted.

(** A note beyond MIDI's range throws: what follows it in the batch is lost. *)
Theorem C37_range_refuted : exists es en, schedule (N := XQ) es new_engine = (en, false) /\
  es = [ENote 0 0 60 500 450 64; ENote 0 500 128 500 450 64; ENote 0 1000 64 500 450 64] /\
  map snd (en_events en) = [NoteOn 0 60 64; NoteOff 0 60 64].
Proof.
  exists [ENote 0 0 60 500 450 64; ENote 0 500 128 500 450 64; ENote 0 1000 64 500 450 64]. eexists. split; [reflexivity|]. split; [reflexivity|]. reflexivity.
Qed.
Print Assumptions C37_range_refuted.

(* ------------------------- C38 ------------------------- *)

(** C38: of the batches received before a clear, only those already on their way
    to being scheduled are scheduled after it; those waiting in the queue never. *)
Theorem C38_cleared : forall l1 l2 t1 t, acts l1 new_track = Some t1 -> acts (AClear :: l2) t1 = Some t ->
  exists new rest, tr_done t = new ++ tr_done t1 /\ Permutation (on_the_way t1 ++ puts l2) (map pl_batch new ++ rest).
Proof. exact c38. Qed.
Print Assumptions C38_cleared.

(** In particular, if none was on its way, only what is received later. *)
Theorem C38_later : forall l1 l2 t1 t, acts l1 new_track = Some t1 -> on_the_way t1 = [] -> acts (AClear :: l2) t1 = Some t ->
  exists new rest, tr_done t = new ++ tr_done t1 /\ Permutation (puts l2) (map pl_batch new ++ rest).
Proof. exact c38_later. Qed.
Print Assumptions C38_later.

Example C38_example : exists t1 t, acts [APut ex_batch1; APut ex_batch1] new_track = Some t1 /\ on_the_way t1 = [] /\ tr_queue t1 = [ex_batch1; ex_batch1] /\
  acts (AClear :: [APut ex_batch2; ATake; ALineUp 0; ABegin; AFinish 0 false]) t1 = Some t /\ map pl_batch (tr_done t) = [ex_batch2].
Proof. eexists. eexists. split; [reflexivity|]. split; [reflexivity|]. split; [reflexivity|]. split; reflexivity. Qed.

(** A batch whose thread waits for the lock when the track is cleared is scheduled
    all the same. *)
Theorem C38_waiting_refuted : exists t1 t, acts [APut ex_batch1; ATake; ALineUp 0] new_track = Some t1 /\ tr_done t1 = [] /\
  acts (AClear :: [ABegin; AFinish 0 false]) t1 = Some t /\ map pl_batch (tr_done t) = [ex_batch1].
Proof. eexists. eexists. split; [reflexivity|]. split; [reflexivity|]. split; reflexivity. Qed.
Print Assumptions C38_waiting_refuted.

(* ------------------------- C39 ------------------------- *)

(** C39: exporting shifts all events by the same number of ticks, to the left, so
    that the first note or control change is at 0; those before it are moved to
    0.  Nothing is lost, added or reordered. *)
Theorem C39_export : forall (N : Num) (J : JNum N) en, reaches en ->
  existsb (fun x => counts (snd x)) (en_events en) = true -> Forall (fun x => fst x < 2 ^ 63 - 1) (en_events en) ->
  exists d, Forall2 (fun x x' => snd x' = snd x /\ 0 <= fst x' /\ (counts (snd x) = true -> d <= fst x) /\
                                 (d <= fst x -> fst x' = fst x - d) /\ (fst x <= d -> fst x' = 0)) (en_events en) (exported (en_events en)) /\
    (exists x', In x' (exported (en_events en)) /\ counts (snd x') = true /\ fst x' = 0).
Proof. exact @c39. Qed.
Print Assumptions C39_export.

Definition ex_engine : engine (N := XQ) :=
  fst (schedule [EPatch 0 1000 24; ENote 0 1500 60 500 450 64]
    (match set_tempo 0 (nofZ 90) new_engine with Some en => en | None => new_engine end)).
Example C39_example : reaches ex_engine /\ existsb (fun x => counts (snd x)) (en_events ex_engine) = true /\
  forallb (fun x => fst x <? 2 ^ 63 - 1) (en_events ex_engine) = true /\
  map fst (en_events ex_engine) = [0; 192; 288; 374] /\ map fst (exported (en_events ex_engine)) = [0; 0; 0; 86].
Proof.
  split; [|split; [vm_compute; reflexivity|split; [vm_compute; reflexivity|split; vm_compute; reflexivity]]].
  apply schedule_reaches, tempo_reaches.
Qed.

(* ------------------------- C40 ------------------------- *)

(** C40: the player's state after receiving messages of the client is what the
    messages say: per track, the same events in the same order, the same system
    events, and play, stop, shutdown and ping exactly if asked for. *)
Theorem C40_understood : forall (N : Num) ms, Forall numbered ms -> adds_up ms (parse_updates (map encode ms)).
Proof. exact @parse_adds. Qed.
Print Assumptions C40_understood.

(** In particular whatever is sent for a score (of fewer than 2^31 - 1 parts). *)
Theorem C40_scores : forall (N : Num) t s s' b, transmits t s s' (ROk b) -> Z.of_nat (List.length (parts s)) < 2 ^ 31 - 1 ->
  adds_up b (parse_updates (map encode b)).
Proof. exact @c40_bundle. Qed.
Print Assumptions C40_scores.

Definition ex_msgs : list (@msg XQ) :=
  [MTempo 0 (nofZ 120); MPatch 12 0 0 24; MNote 12 0 0 60 500 450 64; MNote 1 1 0 60 500 450 64; MNote 12 0 500 62 500 450 64; MPlay; MShutdown 9000].
Example C40_example : Forall numbered ex_msgs /\
  map (fun m => o_address (encode m)) ex_msgs =
    ["/system/tempo"; "/track/12/midi/patch"; "/track/12/midi/note"; "/track/1/midi/note"; "/track/12/midi/note"; "/system/play"; "/system/shutdown"] /\
  events_for 12 ex_msgs = [EPatch 0 0 24; ENote 0 0 60 500 450 64; ENote 0 500 62 500 450 64].
Proof. split; [repeat (constructor; [cbn; try exact I; lia|]); constructor|]. split; reflexivity. Qed.

(* ------------------------- C50 ------------------------- *)

(** C50: the expiry never moves backwards. *)
Theorem C50_monotone : forall timeout start l l', expiry_after timeout start l <= expiry_after timeout start (l ++ l').
Proof. exact c50_monotone. Qed.
Print Assumptions C50_monotone.

(** A player expires exactly when the timeout has passed since the start, since
    every packet (at clock time [c]), and since the time at which every scheduled
    event was to be played: scheduled at [c], with the sequencer at [cur], to be
    played at [off] (in milliseconds). *)
Theorem C50_expires : forall timeout start l clock, expired (expiry_after timeout start l) clock = true <->
  start + timeout < clock /\
  (forall c, In (SPacket c) l -> c + timeout < clock) /\
  (forall off c cur, In (SSchedule off c cur) l -> c + (off - cur) + timeout < clock).
Proof. exact c50_expires. Qed.
Print Assumptions C50_expires.

Example C50_example : let l := [SPacket 5000; SSchedule 60000 5100 0; SPacket 6000] in
  expiry_after 1000 0 l = 66100 /\ expired (expiry_after 1000 0 l) 66101 = true /\ expired (expiry_after 1000 0 l) 66100 = false.
Proof. repeat split. Qed.
