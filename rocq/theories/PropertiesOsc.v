(** Property theorems C29-C35. *)
From Coq Require Import ZArith List String Bool Permutation Sorted.
From Verif Require Import Base Num ModelPitch ModelDuration ModelInstruments ModelTypes ModelLisp
  ModelScore ModelOsc SpecScore SpecVars SpecParts SpecSolo SpecTiming SpecGlobals SpecOsc ProofTiming ProofGlobals ProofOsc ProofTempo
  PropertiesEvents PropertiesVars PropertiesTiming.
Import ListNotations.
Local Open Scope string_scope.
Local Open Scope list_scope.

(** The laws of numbers used below hold of exact numbers and of IEEE doubles. *)
Theorem C29_laws : (@linear_order XQ /\ @levels_agree XQ /\ @max_law XQ) /\ (@linear_order B64 /\ @levels_agree B64 /\ @max_law B64).
Proof. exact (conj (conj linear_XQ (conj levels_XQ max_XQ)) (conj linear_B64 (conj levels_B64 max_B64))). Qed.
Print Assumptions C29_laws.

(** C29: whatever order the sort leaves simultaneous notes in, the note messages
    are those of the notes asked for, each once. *)
Theorem C29_notes : forall (N : Num), linear_order -> forall t s s' b start stop notes,
  transmits t s s' (ROk b) -> asked t s start stop notes ->
  Permutation (filter is_note b) (map (note_message s start (t_sync t)) notes).
Proof. exact @c29. Qed.
Print Assumptions C29_notes.

(** C30: at each note message, the last patch (but for percussion), volume and
    panning messages on its channel are the note's. *)
Theorem C30_controls : forall (N : Num), linear_order -> levels_agree -> forall t s s' b start stop notes,
  transmits t s s' (ROk b) -> asked t s start stop notes ->
  Permutation (heard [] b) (map (intended s start (t_sync t)) notes).
Proof. exact @c30. Qed.
Print Assumptions C30_controls.

(** C31: the note and control messages are exactly these: in an order by offset,
    each note preceded by its patch (but for percussion), volume and panning
    where they differ from those of the previous note on the channel. *)
Theorem C31_exact : forall (N : Num), linear_order -> forall t s s' b start stop notes,
  transmits t s s' (ROk b) -> asked t s start stop notes ->
  exists es, Permutation notes es /\ StronglySorted (fun a b => nltb (ev_off b) (ev_off a) = false) es /\
    filter (fun m => is_note m || is_control m)%bool b = sends s start (t_sync t) [] es.
Proof. exact @c31. Qed.
Print Assumptions C31_exact.

(** C31: a patch message always changes the patch of its channel. *)
Theorem C31_patch : forall (N : Num), linear_order -> forall t s s' b start stop notes p tr ch off v q,
  transmits t s s' (ROk b) -> asked t s start stop notes ->
  b = p ++ MPatch tr ch off v :: q -> latest (patch_on ch) p <> Some v.
Proof. exact @c31_patch. Qed.
Print Assumptions C31_patch.

(** piano: c (panning 20) d %m e (panning! 60) f (tempo 60) g   violin: c d (tempo! 90) e f   midi-percussion: r1 c *)
Definition ex_osc {N : Num} : list (list update) :=
  [ [UPart ["piano"] ""; note_ LC; UPrim (Attr (PPan (nlit 1 5))); note_ LD; UMarker "m"; note_ LE; UPrim (Attr (PTempo (nofZ 60))); note_ LG];
    [UPart ["violin"] ""; note_ LC; note_ LD; UPrim (GAttr (PTempo (nofZ 90))); note_ LE; note_ LF];
    [UPart ["midi-percussion"] ""; UPrim (Rest (Some [CLen (nofZ 1) 0%Z])); note_ LC] ].
Definition ex_sent {N : Num} (m : msg) : list Z :=
  (match m with
  | MNote a b c d e f g => [1; a; b; c; d; e; f; g] | MPatch a b c d => [2; a; b; c; d] | MVolume a b c d => [3; a; b; c; d]
  | MPanning a b c d => [4; a; b; c; d] | MTempo a _ => [5; a] | MPlay => [6] | MShutdown a => [7; a] | _ => [] end)%Z.
(** A one-off transmission of everything (in the order played), and excerpts. *)
Definition ex_all : transmission (N := B64) := Transmission "" "" 0 4 [] true false.
Definition ex_ab : transmission (N := B64) := Transmission "" "m" 0 4 [] false false.
Definition ex_bc : transmission (N := B64) := Transmission "m" "0:03" 0 4 [] false true.
Definition ex_ac : transmission (N := B64) := Transmission "" "0:03" 0 4 [] true false.

Example C29_example : let s := session (N := B64) ex_osc in
  (exists s', transmits ex_bc s s' (ROk (bundle_of ex_bc s (nofZ 1000) (nofZ 3000) (slice 0 4 (events s))))) /\
  asked ex_bc s (nofZ 1000) (nofZ 3000) (filter (in_range (nofZ 1000) (nofZ 3000)) (slice 0 4 (events s))) /\
  map ex_sent (bundle_of ex_bc s (nofZ 1000) (nofZ 3000) (slice 0 4 (events s))) =
    [[5; 0]; [5; 500]; [2; 1; 0; 0; 0]; [3; 1; 0; 0; 100]; [4; 1; 0; 0; 25]; [1; 1; 0; 0; 64; 500; 450; 69];
     [1; 1; 0; 500; 67; 1000; 900; 69]]%Z /\
  map ex_sent (bundle_of ex_all s n0 nmaxval (slice 0 4 (events s))) =
    [[5; 0]; [5; 1000]; [5; 1500]; [2; 1; 0; 0; 0]; [3; 1; 0; 0; 100]; [4; 1; 0; 0; 64]; [1; 1; 0; 0; 60; 500; 450; 69];
     [4; 1; 0; 500; 25]; [1; 1; 0; 500; 62; 500; 450; 69]; [1; 1; 0; 1000; 64; 500; 450; 69];
     [1; 1; 0; 1500; 67; 1000; 900; 69]; [6]; [7; 12400]]%Z.
Proof.
  cbv zeta. split; [|split; [|split; vm_compute; reflexivity]].
  - apply transmit_now; vm_compute; reflexivity.
  - apply asked_now; vm_compute; reflexivity.
Qed.

(** C31, for volumes and panning: two levels that differ may round to the same
    MIDI value, which is then sent again. *)
Theorem C31_volume_refuted : exists (t : transmission (N := B64)) s s' b p tr ch off v q,
  transmits t s s' (ROk b) /\ b = p ++ MVolume tr ch off v :: q /\ latest (volume_on ch) p = Some v.
Proof. exact c31_volume_refuted. Qed.
Print Assumptions C31_volume_refuted.

(** C32: the notes of a-b and of b-c are those of a-c, and their messages are
    the same but for the offsets. *)
Theorem C32_partition : forall (N : Num), linear_order -> forall t1 t2 t3 s s1 s2 s3 b1 b2 b3 a b c n1 n2 n3,
  t_fromi t1 = t_fromi t3 -> t_fromi t2 = t_fromi t3 -> t_toi t1 = t_toi t3 -> t_toi t2 = t_toi t3 ->
  transmits t1 s s1 (ROk b1) -> transmits t2 s s2 (ROk b2) -> transmits t3 s s3 (ROk b3) ->
  asked t1 s a b n1 -> asked t2 s b c n2 -> asked t3 s a c n3 -> nleb a b = true -> nleb b c = true ->
  Permutation (n1 ++ n2) n3 /\
  Permutation (map timeless (filter is_note b1 ++ filter is_note b2)) (map timeless (filter is_note b3)).
Proof. exact @c32. Qed.
Print Assumptions C32_partition.

Example C32_example : let s := session (N := B64) ex_osc in
  (exists s1, transmits ex_ab s s1 (ROk (bundle_of ex_ab s n0 (nofZ 1000) (slice 0 4 (events s))))) /\
  (exists s2, transmits ex_bc s s2 (ROk (bundle_of ex_bc s (nofZ 1000) (nofZ 3000) (slice 0 4 (events s))))) /\
  (exists s3, transmits ex_ac s s3 (ROk (bundle_of ex_ac s n0 (nofZ 3000) (slice 0 4 (events s))))) /\
  asked ex_ab s n0 (nofZ 1000) (filter (in_range n0 (nofZ 1000)) (slice 0 4 (events s))) /\
  asked ex_bc s (nofZ 1000) (nofZ 3000) (filter (in_range (nofZ 1000) (nofZ 3000)) (slice 0 4 (events s))) /\
  asked ex_ac s n0 (nofZ 3000) (filter (in_range n0 (nofZ 3000)) (slice 0 4 (events s))) /\
  List.length (filter (in_range n0 (nofZ 1000)) (slice 0 4 (events s))) = 2 /\
  List.length (filter (in_range (nofZ 1000) (nofZ 3000)) (slice 0 4 (events s))) = 2.
Proof.
  cbv zeta. split; [apply transmit_now; vm_compute; reflexivity|]. split; [apply transmit_now; vm_compute; reflexivity|].
  split; [apply transmit_now; vm_compute; reflexivity|]. split; [apply asked_now; vm_compute; reflexivity|].
  split; [apply asked_now; vm_compute; reflexivity|]. split; [apply asked_now; vm_compute; reflexivity|]. split; vm_compute; reflexivity.
Qed.

(** C33: none in incremental transmissions; else, in chronological order, the
    tempo changes that are in force at the start or inside the excerpt. *)
Theorem C33_tempos : forall (N : Num), linear_order -> forall t s s' b start stop notes,
  transmits t s s' (ROk b) -> asked t s start stop notes ->
  (t_sync t <> [] -> filter is_tempo b = []) /\
  (t_sync t = [] -> nleb n0 start = true -> (forall x, In x (tempo_itinerary s) -> nleb n0 (fst x) = true) ->
   exists l, Permutation (tempo_itinerary s) l /\ StronglySorted (fun a b => nltb (fst b) (fst a) = false) l /\
     filter is_tempo b = map (tempo_message start) (filter (fun x => concerns (tempo_itinerary s) start stop (fst x)) l)).
Proof. exact @c33. Qed.
Print Assumptions C33_tempos.

Example C33_example : let s := session (N := B64) ex_osc in
  forallb (fun x => nleb n0 (fst x)) (tempo_itinerary s) = true /\ @nleb B64 n0 (nofZ 1000) = true /\
  map (fun x => (fst x, snd x)) (tempo_itinerary s) = [(n0, nofZ 120); (nofZ 1500, nofZ 60); (nofZ 1000, nofZ 90)].
Proof. cbv zeta. split; [vm_compute; reflexivity|]. split; vm_compute; reflexivity. Qed.

(** C34: nothing but tempo, control and note messages, then play unless only
    loading, then, for a one-off transmission, a shutdown ten seconds after the
    last note has stopped sounding. *)
Theorem C34_end : forall (N : Num), linear_order -> max_law -> forall t s s' b start stop notes,
  transmits t s s' (ROk b) -> asked t s start stop notes ->
  nisnan n0 = false -> (forall e, In e notes -> nisnan (audible_end start (t_sync t) e) = false) ->
  exists body last, greatest last (map (audible_end start (t_sync t)) notes) /\
    b = body ++ (if t_load t then [] else [MPlay]) ++
        (if t_oneoff t then [MShutdown (nround32 (nadd last (nofZ 10000)))] else []) /\
    Forall (fun m => is_note m || is_control m || is_tempo m = true)%bool body.
Proof. exact @c34. Qed.
Print Assumptions C34_end.

Example C34_example : let s := session (N := B64) ex_osc in
  (exists s', transmits ex_all s s' (ROk (bundle_of ex_all s n0 nmaxval (slice 0 4 (events s))))) /\
  asked ex_all s n0 nmaxval (filter (in_range n0 nmaxval) (slice 0 4 (events s))) /\
  forallb (fun e => negb (nisnan (audible_end n0 [] e))) (slice 0 4 (events s)) = true.
Proof.
  cbv zeta. split; [apply transmit_now; vm_compute; reflexivity|]. split; [apply asked_now; vm_compute; reflexivity|vm_compute; reflexivity].
Qed.

(** C35: a global tempo change is in the tempo map, the last one at its offset. *)
Theorem C35_global : forall (N : Num), linear_order -> forall s o t l1 l2,
  timeline s = l1 ++ (o, PTempo t) :: l2 -> silent_at o l2 -> nisnan o = false -> at_tempo s o = Some t.
Proof. exact @c35_global. Qed.
Print Assumptions C35_global.

(** C35: a global metric modulation is taken to start from the last global
    tempo set before it. *)
Theorem C35_modulation : forall (N : Num), linear_order -> forall s o r l1 l2,
  timeline s = l1 ++ (o, PMetric r) :: l2 -> silent_at o l2 -> nisnan o = false ->
  at_tempo s o = Some (nmul (last_set l1) r).
Proof. exact @c35_modulation. Qed.
Print Assumptions C35_modulation.

(** C35: where no global change sets a tempo, the map has the tempo recorded by
    the leading part, or else 120 at offset 0, or else nothing. *)
Theorem C35_own : forall (N : Num), linear_order -> forall calls q o, let s := session calls in
  leads s q -> silent_at o (timeline s) ->
  at_tempo s o = match own_tempo s q o with Some t => Some t | None => if neqb n0 o then Some (nofZ 120) else None end.
Proof. exact @c35_own. Qed.
Print Assumptions C35_own.

(** C35: a tempo change of the leading part is recorded at its offset. *)
Theorem C35_recorded : forall (N : Num), linear_order -> forall calls t q s', let s := session calls in
  leads s q -> In q (current s) -> nisnan (pcur (getp s q)) = false ->
  exec [UPrim (Attr (PTempo t))] s = (s', Ok) ->
  leads s' q /\ timeline s' = timeline s /\
  forall o, own_tempo s' q o = if neqb (pcur (getp s q)) o then Some t else own_tempo s q o.
Proof. exact @c35_recorded. Qed.
Print Assumptions C35_recorded.

(** C35: a global tempo change is recorded at the offset of the current part
    (exact arithmetic). *)
Theorem C35_announced : forall calls t p rest s', let s := session (N := XQ) calls in
  current s = p :: rest -> nisnan (pcur (getp s p)) = false -> exec [UPrim (GAttr (PTempo t))] s = (s', Ok) ->
  at_tempo s' (pcur (getp s p)) = Some t.
Proof. exact (@c35_announced XQ linear_XQ exact_XQ). Qed.
Print Assumptions C35_announced.

(** C35: anything without tempo changes, global attributes and voices leaves
    the tempo map alone, even if it fails. *)
Theorem C35_kept : forall (N : Num), linear_order -> forall calls later q o, let s := session calls in
  leads s q -> no_voices s -> stored tempo_free s -> Forall (Forall (upd_all tempo_free)) later ->
  leads (continue s later) q /\ at_tempo (continue s later) o = at_tempo s o /\
  own_tempo (continue s later) q o = own_tempo s q o /\ timeline (continue s later) = timeline s.
Proof. exact @c35_kept. Qed.
Print Assumptions C35_kept.

Example C35_example : let s := session (N := B64) ex_osc in
  parts s = [0; 1; 2] /\ pmaster (getp s 0) = true /\
  (map fst (timeline s), map (fun x => sets_tempo (snd x)) (timeline s)) = ([nofZ 1000], [true]) /\
  (at_tempo s (nofZ 1000), at_tempo s (nofZ 1500), at_tempo s n0, at_tempo s (nofZ 500)) =
    (Some (nofZ 90), Some (nofZ 60), Some (nofZ 120), None) /\
  map (fun p => getv s (pvoices (getp s p))) (parts s) = [[]; []; []] /\ map fst (variables s) = [] /\
  Forall (Forall (upd_all tempo_free)) [[UPart ["flute"] ""; note_ (N := B64) LC]].
Proof.
  cbv zeta. do 6 (split; [vm_compute; reflexivity|]). repeat (apply Forall_cons || apply Forall_nil); cbn; auto.
Qed.

(** C35 fails where the leading part and a global attribute set the tempo at
    the same offset: the part plays its own tempo, the map has the global one. *)
Theorem C35_both_refuted : exists calls, let s := session (N := B64) calls in
  leads s 0 /\ own_tempo s 0 n0 = Some (nofZ 200) /\ ptempo (getp s 0) = nofZ 200 /\
  map (fun e => ev_dur e) (events s) = [nofZ 300] /\ at_tempo s n0 = Some (nofZ 60).
Proof. exact c35_both_refuted. Qed.
Print Assumptions C35_both_refuted.

(** C35 fails in voices: the tempo changes of a voice that ends before another
    are lost. *)
Theorem C35_voice_refuted : exists calls, let s := session (N := B64) calls in
  map (fun e => (ev_off e, ev_dur e)) (events s) = [(n0, nofZ 500); (nofZ 500, nofZ 250); (n0, nofZ 500); (nofZ 500, nofZ 500)] /\
  parts s = [3] /\ map (fun x => (fst x, snd x)) (tempo_itinerary s) = [(n0, nofZ 120)].
Proof. exact c35_voice_refuted. Qed.
Print Assumptions C35_voice_refuted.

(** C35 fails for two global metric modulations: the second one is applied to
    the tempo before the first. *)
Theorem C35_modulation_refuted : exists calls, let s := session (N := B64) calls in
  leads s 0 /\ ptempo (getp s 0) = nofZ 480 /\ at_tempo s (nofZ 500) = Some (nofZ 240) /\ at_tempo s (nofZ 750) = Some (nofZ 240).
Proof. exact c35_modulation_refuted. Qed.
Print Assumptions C35_modulation_refuted.
