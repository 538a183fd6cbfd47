(** Property theorems C19 and C20. *)
From Coq Require Import ZArith List String Bool.
From Verif Require Import Base Num ModelPitch ModelDuration ModelInstruments ModelTypes ModelLisp
  ModelScore SpecScore SpecVars SpecParts SpecSolo SpecTiming SpecGlobals SpecVoices ProofGlobals ProofGroups PropertiesEvents PropertiesVars PropertiesTiming.
Import ListNotations.
Local Open Scope string_scope.
Local Open Scope list_scope.

(** C19: a voice entered for the first time, after any other voices of the
    group, starts with the state its instrument had before the group. *)
Theorem C19_start : forall (N : Num) calls secs m s2, let s := session calls in
  no_open_voice s -> stored (without m) s -> Forall (upd_all (without m)) (sections secs) ->
  exec (sections secs ++ [UVoice m]) s = (s2, Ok) ->
  forall i, option_map music (playing s2 i) = option_map music (playing s i).
Proof. exact @c19_start. Qed.
Print Assumptions C19_start.

(** C19: a voice entered again goes on with the state it was left in, whatever
    the other voices did. *)
Theorem C19_return : forall (N : Num) calls m body s1 secs s3, let s := session calls in stored local_label s ->
  Forall (upd_all local_label) body -> Forall (upd_all (without m)) (sections secs) ->
  exec (UVoice m :: body) s = (s1, Ok) -> exec (sections secs ++ [UVoice m]) s1 = (s3, Ok) ->
  forall i, playing s3 i = playing s1 i.
Proof. exact @c19_return. Qed.
Print Assumptions C19_return.

(** V1: (tempo 240) o5 c d  V2: (octave 2) e2   for a duo in the middle of a piece *)
Definition ex_body {N : Num} : list update := [UPrim (Attr (PTempo (nofZ 240))); UPrim (Attr (POctave 5)); note_ LC; note_ LD].
Definition ex_secs {N : Num} : list (Z * list update) :=
  [(1%Z, ex_body); (2%Z, [UPrim (Attr (POctave 2)); play (item_ LE false (len_ 2))])].

Example C19_example :
  let s := session (N := B64) ex_duo in
  no_open_voice s /\ stored (without 3) s /\ stored local_label s /\
  Forall (upd_all local_label) (ex_body (N := B64)) /\
  Forall (upd_all (without 3)) (sections (ex_secs (N := B64))) /\
  snd (exec (sections ex_secs ++ [UVoice 3]) s) = Ok /\
  (let s1 := fst (exec (UVoice 3 :: ex_body) s) in
   snd (exec (UVoice 3 :: ex_body) s) = Ok /\ snd (exec (sections ex_secs ++ [UVoice 3]) s1) = Ok /\
   map (fun p => pcur (getp s1 p)) (current s1) = map nofZ [1500; 1500]%Z /\
   map (fun p => pcur (getp s p)) (current s) = map nofZ [1000; 1000]%Z).
Proof.
  cbv zeta. split; [|split; [|split; [|split; [|split]]]].
  - intros p Hp. change (current (session (N := B64) ex_duo)) with [1; 2]%nat in Hp.
    destruct Hp as [<-|[<-|[]]]; vm_compute; reflexivity.
  - intros n es H. vm_compute in H. destruct H.
  - intros n es H. vm_compute in H. destruct H.
  - repeat constructor.
  - repeat constructor; discriminate.
  - do 4 (split; [vm_compute; reflexivity|]). vm_compute; reflexivity.
Qed.

(** C20: at the end of the voice group an instrument goes on from the voice
    that reached furthest (the one started last if none reaches further, else
    the first of those that do); one without voices goes on as before; no note
    is lost. *)
Theorem C20_longest : forall (N : Num), linear_order -> forall calls s' o, let s := session calls in
  exec [UVoiceEnd] s = (s', o) ->
  o = Ok /\ events s' = events s /\
  map (instance s') (current s') = map (instance s) (current s) /\
  (forall p, In p (current s) -> voices_of s p = [] ->
     option_map music (playing s' (instance s p)) = option_map music (playing s (instance s p))) /\
  (forall p, In p (current s) -> voices_of s p <> [] ->
     (forall x, In x (voices_of s p) -> nisnan (pcur (getp s (snd x))) = false) ->
     exists v, furthest s (voices_of s p) v /\
       option_map music (playing s' (instance s p)) = Some (music (unchanneled (getp s v)))).
Proof. exact @c20. Qed.
Print Assumptions C20_longest.

(** C20: no voice remains open, the instruments and what the aliases denote
    stay the same, and each instrument of the group is resumed later with the
    state it goes on with now; the others are not touched. *)
Theorem C20_closed : forall (N : Num) calls s' o, let s := session calls in
  exec [UVoiceEnd] s = (s', o) ->
  (forall p, In p (parts s') \/ In p (current s') -> voices_of s' p = []) /\
  map (instance s') (parts s') = map (instance s) (parts s) /\
  (forall i, In i (map (instance s) (current s)) -> resumed s' i = playing s' i) /\
  (forall i, ~ In i (map (instance s) (current s)) -> resumed s' i = resumed s i) /\
  (forall a, map (instance s') (named_parts s' a) = map (instance s) (named_parts s a) /\
             incl (named_parts s' a) (parts s')).
Proof. exact @c20_rest. Qed.
Print Assumptions C20_closed.

(** C20: a part declaration ends an open voice group in the same way. *)
Theorem C20_declaration : forall (N : Num) calls names alias, let s := session calls in
  exec [UPart names alias] s = exec [UVoiceEnd; UPart names alias] s.
Proof. exact @c20_part. Qed.
Print Assumptions C20_declaration.

(** Three voices: the second reaches furthest, the third ties with it, the
    first is the shortest; then the third is the shortest. *)
Example C20_example :
  let grp l := [UPart ["violin"; "cello"] ""; note_ LC; UVoice 1; note_ LC; UVoice 2; note_ LC; note_ LD; UVoice 3; note_ LE] ++ l in
  let s3 := session (N := B64) [grp [note_ LF]] in let s2 := session (N := B64) [grp []] in
  map (fun p => map (fun x => (fst x, pcur (getp s3 (snd x)))) (voices_of s3 p)) (current s3) =
    [[(1%Z, nofZ 1000); (2%Z, nofZ 1500); (3%Z, nofZ 1500)]; [(1%Z, nofZ 1000); (2%Z, nofZ 1500); (3%Z, nofZ 1500)]] /\
  current (fst (exec [UVoiceEnd] s3)) = map (fun p => snd (nth 2 (voices_of s3 p) (0%Z, 0%nat))) (current s3) /\
  current (fst (exec [UVoiceEnd] s2)) = map (fun p => snd (nth 1 (voices_of s2 p) (0%Z, 0%nat))) (current s2).
Proof. cbv zeta. split; [vm_compute; reflexivity|]. split; vm_compute; reflexivity. Qed.
