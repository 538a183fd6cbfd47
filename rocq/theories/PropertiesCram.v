(** Property theorems C10. *)
From Coq Require Import ZArith QArith Qcanon List String Bool.
From Verif Require Import Base Num ModelPitch ModelDuration ModelInstruments ModelTypes ModelLisp
  ModelScore SpecScore SpecVars SpecParts SpecSolo SpecTiming SpecCram ProofCram PropertiesEvents PropertiesVars PropertiesTiming.
Import ListNotations.
Local Open Scope string_scope.
Local Open Scope list_scope.

(** C10: in exact arithmetic a cram (of notes, rests, chords and nested crams)
    takes exactly its own duration, whatever is inside, and its notes are where
    [placed] puts them: in proportion to the lengths that are written. *)
Theorem C10_cram : forall calls l d s' p t q f off,
  let s := session (N := XQ) calls in let df := pdur (getp s p) in let e := EvCram l d in
  between_events s -> no_globals s -> In p (current s) ->
  ptempo (getp s p) = Fin t -> pquant (getp s p) = Fin q -> pscale (getp s p) = Fin f ->
  pcur (getp s p) = Fin off -> (0 < f)%Qc ->
  lasting t df -> proper t e -> annotated true e <> None ->
  xq_leb (Fin (ms t (meant d df) * f)%Qc) xq_maxval = true ->
  exec [written e] s = (s', Ok) ->
  pcur (getp s' p) = Fin (off + ms t (meant d df) * f)%Qc /\
  exists new, notes_of s' (instance s p) = notes_of s (instance s p) ++ new /\
    map times new = map as_num (placed t q off f df e).
Proof. exact c10. Qed.
Print Assumptions C10_cram.

(** {c8 {d e f}2 <r g>4 a}1 *)
Definition ex_nested : list cev :=
  [EvItem (item_ LC false (len_ 8)); EvCram [EvItem (item_ LD false None); EvItem (item_ LE false None); EvItem (item_ LF false None)] (len_ 2);
   EvChord (rest_ (len_ 4)) [item_ LG false None]; EvItem (item_ LA true None)].
Example C10_example :
  let s := session (N := XQ) ex_duo in let t := Q2Qc 60 in
  current s = [1; 2]%nat /\
  (ptempo (getp s 1%nat), pscale (getp s 1%nat), pcur (getp s 1%nat)) = (Fin t, Fin (Q2Qc 1), Fin (Q2Qc 1000)) /\
  lasting t (pdur (getp s 1%nat)) /\ proper t (EvCram ex_nested (len_ 1%Z)) /\
  annotated true (EvCram ex_nested (len_ 1%Z)) = Some false /\
  snd (exec [written (EvCram ex_nested (len_ 1%Z))] s) = Ok /\
  neqb (pcur (getp (fst (exec [written (EvCram ex_nested (len_ 1%Z))] s)) 1%nat)) (nofZ 5000) = true.
Proof.
  assert (L : forall d, In d [1; 2; 4; 8]%Z -> lasting (Q2Qc 60) (len_ d)).
  { intros d H. cbn in H. destruct H as [<-|[<-|[<-|[<-|[]]]]]; (split; [|split]); vm_compute; reflexivity. }
  cbv zeta. split; [vm_compute; reflexivity|]. split; [vm_compute; reflexivity|].
  split; [change (lasting (Q2Qc 60) (len_ 4)); apply L; cbn; tauto|].
  split; [|split; [reflexivity|split; vm_compute; reflexivity]].
  cbn [proper ex_nested it_dur item_ rest_ len_]. repeat split; try discriminate; try (apply L; cbn; tauto); try (constructor; [exact I|constructor]); exact I.
Qed.

(** Without the annotation the claim is false: in {{c d}2 e}4 the inner duration
    of e is taken to be the one before the cram, but e is played with the
    duration of the nested cram, so the cram takes too long (4/3 of a beat). *)
Theorem C10_unannotated_refuted : exists e,
  let s := session (N := XQ) ex_duo in
  e = EvCram [EvCram [EvItem (item_ LC false None); EvItem (item_ LD false None)] (len_ 2); EvItem (item_ LE false None)] (len_ 4) /\
  proper (Q2Qc 60) e /\ snd (exec [written e] s) = Ok /\
  qc_eqb (ms (Q2Qc 60) (len_ 4)) (Q2Qc 1000) = true /\
  neqb (pcur (getp s 1%nat)) (nofZ 1000) = true /\
  neqb (pcur (getp (fst (exec [written e] s)) 1%nat)) (Fin (Q2Qc (7000 # 3))) = true.
Proof.
  eexists. cbv zeta. split; [reflexivity|]. split.
  - assert (L : forall d, In d [2; 4]%Z -> lasting (Q2Qc 60) (len_ d)).
    { intros d H. cbn in H. destruct H as [<-|[<-|[]]]; (split; [|split]); vm_compute; reflexivity. }
    cbn [proper it_dur item_ len_]. repeat split; try discriminate; try (apply L; cbn; tauto); exact I.
  - repeat split; vm_compute; reflexivity.
Qed.
Print Assumptions C10_unannotated_refuted.
