(** Property theorems C23 and C24. *)
From Coq Require Import ZArith List String Bool.
From Verif Require Import Base Num ModelPitch ModelDuration ModelInstruments ModelTypes ModelLisp
  ModelScore SpecScore SpecVars SpecParts ProofEvents ProofTracks PropertiesEvents PropertiesVars.
Import ListNotations.
Local Open Scope string_scope.
Local Open Scope list_scope.

(** C23: exactly one tempo master... *)
Theorem C23_one_master : forall (N : Num) calls, let s := session calls in parts s <> [] ->
  exists q, In q (parts s) /\ pmaster (getp s q) = true /\
    forall r, In r (parts s) -> pmaster (getp s r) = true -> r = q.
Proof. exact @c23_master. Qed.
Print Assumptions C23_one_master.

(** ... no instrument instance listed twice... *)
Theorem C23_no_duplicates : forall (N : Num) calls, let s := session calls in
  NoDup (map (instance s) (parts s)).
Proof. exact @c23_distinct. Qed.
Print Assumptions C23_no_duplicates.

(** ... the i-th part has track number i+1, only parts have tracks, and every
    note belongs to a part with a track between 1 and the number of parts... *)
Theorem C23_tracks : forall (N : Num) calls, let s := session calls in
  (Z.of_nat (List.length (parts s)) <= max_int32)%Z ->
  (forall i p, nth_error (parts s) i = Some p ->
     track_of s (instance s p) = Some (Z.of_nat i + 1)%Z) /\
  (forall o k, track_of s o = Some k -> exists p, In p (parts s) /\ instance s p = o) /\
  (forall e, In e (events s) -> exists k, track_of s (ev_part e) = Some k /\
      (1 <= k <= Z.of_nat (List.length (parts s)))%Z).
Proof. exact @c23_tracks. Qed.
Print Assumptions C23_tracks.

(** ... and a part keeps its track number for the rest of the session. *)
Theorem C23_stable : forall (N : Num) calls later o k,
  track_of (session calls) o = Some k -> track_of (session (calls ++ later)) o = Some k.
Proof. exact @c23_stable. Qed.
Print Assumptions C23_stable.

Example C23_example :
  let s := session (N := B64) [ex_voices; [UPart ["cello"] ""; note_ LC]] in
  map (instance s) (parts s) = [2; 3; 10]%nat /\ parts s = [5; 7; 10]%nat /\
  tracks s = [(2%nat, 1); (3%nat, 2); (10%nat, 3)]%Z /\
  map (fun p => pmaster (getp s p)) (parts s) = [true; false; false] /\
  (Z.of_nat (List.length (parts s)) <= max_int32)%Z.
Proof. vm_compute. repeat split; discriminate. Qed.

(** C24: jumping to a marker puts every current part at the recorded offset... *)
Theorem C24_jump : forall (N : Num) calls name off s', let s := session calls in
  marker s name = Some off -> exec [UAtMarker name] s = (s', Ok) ->
  current s' = current s /\ events s' = events s /\
  forall p, In p (current s) -> pcur (getp s' p) = off /\ plast (getp s' p) = pcur (getp s p).
Proof. exact @c24_jump. Qed.
Print Assumptions C24_jump.

(** ... jumping to a marker that does not exist is an error that moves no part
    and adds no note... *)
Theorem C24_undefined : forall (N : Num) name s, marker s name = None ->
  exists m, snd (exec [UAtMarker name] s) = Err m /\
    let s' := fst (exec [UAtMarker name] s) in
    events s' = events s /\ forall p, pcur (getp s' p) = pcur (getp s p).
Proof. exact @c24_undefined. Qed.
Print Assumptions C24_undefined.

(** ... a successful definition records the common offset of the current parts
    under its name and touches no other marker... *)
Theorem C24_define : forall (N : Num) name s s', exec [UMarker name] s = (s', Ok) ->
  exists p rest, current s = p :: rest /\
    (forall q, In q rest -> neqb (pcur (getp s q)) (pcur (getp s p)) = true) /\
    marker s' name = Some (pcur (getp s p)) /\ forall n, n <> name -> marker s' n = marker s n.
Proof. exact @c24_define. Qed.
Print Assumptions C24_define.

(** ... a definition without current parts, or with two current parts at
    different offsets, is an error that changes nothing... *)
Theorem C24_unclear_exact : forall name (s : @score XQ),
  (current s = [] \/ exists p q, In p (current s) /\ In q (current s) /\ p <> q /\
     neqb (pcur (getp s p)) (pcur (getp s q)) = false /\ neqb (pcur (getp s q)) (pcur (getp s p)) = false) ->
  exists m, exec [UMarker name] s = (s, Err m).
Proof. exact (@c24_unclear XQ euclid_XQ). Qed.
Print Assumptions C24_unclear_exact.

Theorem C24_unclear_ieee : forall name (s : @score B64),
  (current s = [] \/ exists p q, In p (current s) /\ In q (current s) /\ p <> q /\
     neqb (pcur (getp s p)) (pcur (getp s q)) = false /\ neqb (pcur (getp s q)) (pcur (getp s p)) = false) ->
  exists m, exec [UMarker name] s = (s, Err m).
Proof. exact (@c24_unclear B64 euclid_B64). Qed.
Print Assumptions C24_unclear_ieee.

(** ... and the most recent definition stays in force: nothing but a new
    definition under that name changes it. *)
Theorem C24_persists : forall (N : Num) calls later x, let s := session calls in
  Forall (Forall (not_marking x)) later ->
  (forall n es, In (n, es) (variables s) -> Forall (not_marking x) es) ->
  marker (continue s later) x = marker s x.
Proof. exact @c24_persists. Qed.
Print Assumptions C24_persists.

Definition ex_marker {N : Num} : list (list update) :=
  [ [UPart ["piano"] ""; note_ LC; UMarker "verse"; note_ LD; note_ LE];
    [UPart ["violin"] ""; note_ LC; note_ LG; note_ LG] ].
Example C24_example :
  let s := session (N := B64) ex_marker in
  marker s "verse" = Some (nofZ 500) /\
  snd (exec [UAtMarker "verse"] s) = Ok /\
  map (fun p => pcur (getp s p)) (current s) = [nofZ 1500] /\
  map (fun p => pcur (getp (fst (exec [UAtMarker "verse"] s)) p)) (current s) = [nofZ 500] /\
  Forall (Forall (not_marking "verse")) [[UMarker "chorus"; UAtMarker "verse"; note_ (N := B64) LC]].
Proof.
  cbv zeta. do 4 (split; [vm_compute; reflexivity|]).
  repeat constructor; discriminate.
Qed.
