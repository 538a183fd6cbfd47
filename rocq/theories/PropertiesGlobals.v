(** Property theorems C17 and C18. *)
From Coq Require Import ZArith List String Bool.
From Verif Require Import Base Num ModelPitch ModelDuration ModelInstruments ModelTypes ModelLisp
  ModelScore SpecScore SpecVars SpecParts SpecSolo SpecTiming SpecGlobals ProofTiming ProofGlobals PropertiesEvents PropertiesVars PropertiesTiming.
Import ListNotations.
Local Open Scope string_scope.
Local Open Scope list_scope.

(** The theorems hold for every number system with linearly ordered
    comparisons: the exact numbers and the IEEE doubles are such. *)
Theorem C17_orders : @linear_order XQ /\ @linear_order B64.
Proof. exact (conj linear_XQ linear_B64). Qed.
Print Assumptions C17_orders.

(** violin: c (tempo! 60) (volume! 0.5) c (tempo! 90)   piano: c *)
Definition ex_glob {N : Num} : list (list update) :=
  [ [UPart ["violin"] ""; note_ LC; UPrim (GAttr (PTempo (nofZ 60))); UPrim (GAttr (PVolume (nlit 1 2))); note_ LC;
     UPrim (GAttr (PTempo (nofZ 90)))]; [UPart ["piano"] ""; note_ LC] ].

(** C17, one event: exactly the changes recorded after the part's previous
    event started, up to the part's offset, are made before the event, in order
    of offset and of recording. *)
Theorem C17_step : forall (N : Num), linear_order -> forall calls i s' p, let s := session calls in
  between_events s -> In p (current s) -> nisnan (pcur (getp s p)) = false -> no_override s p ->
  exec [play i] s = (s', Ok) ->
  exists q, applied (due (timeline s) (plast (getp s p)) (pcur (getp s p))) (getp s p) = ROk q /\
    settings (getp s' p) = settings q /\ pdur (getp s' p) = meant (it_dur i) (pdur q) /\
    plast (getp s' p) = pcur (getp s p) /\ no_override s' p.
Proof. exact @c17_step. Qed.
Print Assumptions C17_step.

(** C17, any number of events: as long as the part moves forward, the changes
    made on the way are those recorded after where the part was, up to where
    its last event started, each exactly once and in order. *)
Theorem C17_once : forall (N : Num), linear_order -> forall calls l s' p, let s := session calls in
  between_events s -> In p (current s) -> no_override s p -> goes_forward s p l ->
  exec (map play l) s = (s', Ok) ->
  exists q, applied (due (timeline s) (plast (getp s p)) (plast (getp s' p))) (getp s p) = ROk q /\
    settings (getp s' p) = settings q.
Proof. exact @c17. Qed.
Print Assumptions C17_once.

Example C17_example :
  let s := session (N := B64) ex_glob in let l := [item_ LC false None; item_ LD false None; item_ LE false None] in
  chordmode s = false /\ current s = [1]%nat /\ (match povr (getp s 1) with None => true | Some _ => false end) = true /\
  nleb (plast (getp s 1)) (pcur (getp s 1)) = true /\
  (forall k, (k < 3)%nat -> nleb (pcur (getp (after_items s l k) 1)) (pcur (getp (after_items s l (S k)) 1)) = true) /\
  map fst (timeline s) = map nofZ [500; 500; 1500]%Z /\
  snd (exec (map play l) s) = Ok /\
  (ptempo (getp s 1), ptempo (getp (fst (exec (map play l) s)) 1)) = (nofZ 120, nofZ 90).
Proof.
  cbv zeta. do 4 (split; [vm_compute; reflexivity|]). split; [|split; [vm_compute; reflexivity|split; vm_compute; reflexivity]].
  intros k H. do 3 (destruct k as [|k]; [vm_compute; reflexivity|]). exfalso. do 3 apply PeanoNat.Nat.succ_lt_mono in H. inversion H.
Qed.

(** C17: recording a change puts it after all those at the same or an earlier
    offset (exact arithmetic) and does nothing else; nothing else changes the
    record. *)
Theorem C17_record : forall calls u s' p rest, let s := session (N := XQ) calls in
  current s = p :: rest -> nisnan (pcur (getp s p)) = false -> exec [UPrim (GAttr u)] s = (s', Ok) ->
  timeline s' = placed_at (pcur (getp s p)) u (timeline s) /\ heap s' = heap s /\ events s' = events s.
Proof. exact (@c17_record XQ linear_XQ exact_XQ). Qed.
Print Assumptions C17_record.
Theorem C17_kept : forall (N : Num) calls us s' o, let s := session calls in
  Forall (upd_all not_global) us -> stored not_global s -> exec us s = (s', o) -> timeline s' = timeline s.
Proof. exact @c17_kept. Qed.
Print Assumptions C17_kept.

Example C17_record_example :
  let s := session (N := XQ) ex_glob in
  current s = [1]%nat /\ nisnan (pcur (getp s 1)) = false /\ snd (exec [UPrim (GAttr (PTempo (nofZ 61)))] s) = Ok /\
  List.length (timeline s) = 3%nat /\ List.length (variables s) = 0%nat.
Proof. cbv zeta. repeat split; vm_compute; reflexivity. Qed.

(** C18: a local change just before a note or rest wins over the simultaneous
    global changes of the same kind; those of other kinds are made. *)
Theorem C18_override : forall (N : Num), linear_order -> forall calls u i s' p, let s := session calls in
  between_events s -> In p (current s) -> nisnan (pcur (getp s p)) = false ->
  exec [UPrim (Attr u); play i] s = (s', Ok) ->
  exists p1 q, update_part u false (getp s p) = ROk p1 /\
    applied (filter (fun v => negb (same_kind u v)) (due (timeline s) (plast (getp s p)) (pcur (getp s p)))) p1 = ROk q /\
    settings (getp s' p) = settings q /\ pdur (getp s' p) = meant (it_dur i) (pdur q) /\ no_override s' p.
Proof. exact @c18. Qed.
Print Assumptions C18_override.

Example C18_example :
  let s := session (N := B64) ex_glob in let us := [UPrim (Attr (PTempo (nofZ 200))); note_ LC] in
  chordmode s = false /\ current s = [1]%nat /\ nisnan (pcur (getp s 1)) = false /\ snd (exec us s) = Ok /\
  (ptempo (getp (fst (exec us s)) 1), pvol (getp (fst (exec us s)) 1)) = (nofZ 200, nlit 1 2).
Proof. cbv zeta. repeat split; vm_compute; reflexivity. Qed.

(** It is false of two local changes: only the last one counts as an override,
    so the global tempo wins over the local one. *)
Theorem C18_two_refuted : exists us,
  let s := session (N := B64) ex_glob in
  us = [UPrim (Attr (PTempo (nofZ 200))); UPrim (Attr (PPan (nlit 1 4))); note_ LC] /\
  snd (exec us s) = Ok /\ ptempo (getp (fst (exec us s)) 1) = nofZ 60.
Proof. eexists. cbv zeta. split; [reflexivity|]. split; vm_compute; reflexivity. Qed.
Print Assumptions C18_two_refuted.

(** ... and of a local change right before a voice, which the copy of the part
    forgets. *)
Theorem C18_voice_refuted : exists us,
  let s := session (N := B64) ex_glob in
  us = [UPrim (Attr (PTempo (nofZ 200))); UVoice 1; note_ LC] /\
  snd (exec us s) = Ok /\
  map (fun p => ptempo (getp (fst (exec us s)) p)) (current (fst (exec us s))) = [nofZ 60].
Proof. eexists. cbv zeta. split; [reflexivity|]. split; vm_compute; reflexivity. Qed.
Print Assumptions C18_voice_refuted.
