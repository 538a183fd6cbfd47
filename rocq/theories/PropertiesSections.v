(** Property theorems C68. *)
From Coq Require Import ZArith List String Bool.
From Verif Require Import Base Num ModelPitch ModelDuration ModelInstruments ModelTypes ModelLisp
  ModelScore SpecScore SpecVars SpecParts SpecSolo SpecSections ProofSections PropertiesEvents PropertiesVars PropertiesTiming.
Import ListNotations.
Local Open Scope string_scope.
Local Open Scope list_scope.

(** C68: after any accepted text [us0] come the sections [a], a section under the
    declaration [names], and the sections [b].  Rewriting that one section changes
    nothing for a part [p] that does not take part in it: [p] plays the same notes
    and ends in the same state, up to the choice of MIDI channels. *)
Theorem C68_edit : forall (N : Num) us0 a names alias body body' b s0 s1 s1' t p,
  exec us0 new_score = (s0, Ok) -> stored own_label s0 ->
  let xs := a ++ MkSection names alias body :: b in
  let ys := a ++ MkSection names alias body' :: b in
  Forall (fun x => Forall (upd_all own_label) (sec_body x)) xs ->
  Forall (fun x => Forall (upd_all own_label) (sec_body x)) ys ->
  exec (written xs) s0 = (s1, Ok) -> exec (written ys) s0 = (s1', Ok) ->
  exec (written a ++ [UPart names alias]) s0 = (t, Ok) -> ~ In p (current t) ->
  In p (parts s1) -> In p (parts s1') ->
  instance s1' p = instance s1 p /\
  notes_of s1' (instance s1 p) = notes_of s1 (instance s1 p) /\
  unchanneled (getp s1' p) = unchanneled (getp s1 p).
Proof. exact @c68_edit. Qed.
Print Assumptions C68_edit.

(** C68: every part of a score can be played on its own, with the sections of the
    others left empty, and then plays what it plays in the score. *)
Theorem C68_alone : forall (N : Num) us0 xs s0 s1 p,
  exec us0 new_score = (s0, Ok) -> stored own_label s0 ->
  Forall (fun x => Forall (upd_all own_label) (sec_body x)) xs ->
  exec (written xs) s0 = (s1, Ok) -> In p (parts s1) ->
  exists s2, alone p xs s0 = (s2, Ok) /\
    notes_of s2 (instance s1 p) = notes_of s1 (instance s1 p) /\
    unchanneled (getp s2 p) = unchanneled (getp s1 p).
Proof. exact @c68. Qed.
Print Assumptions C68_alone.

(** A variable is defined; then piano: c [x]*3, violin and cello: (tempo) c
    <d e>, piano: c. *)
Definition ex_before {N : Num} : list update :=
  [UVarDef "x" [note_ LG; note_ LA]].
Definition ex_piano {N : Num} : section := MkSection ["piano"] "" [note_ LC; URepeat (UVarRef "x") 3%Z].
Definition ex_strings1 {N : Num} : section :=
  MkSection ["violin"; "cello"] "" [UPrim (Attr (PTempo (nofZ 60))); note_ LC; UChord [note_ LD; note_ LE]].
Definition ex_again {N : Num} : section := MkSection ["piano"] "" [note_ LC].

Example C68_example :
  let s0 := fst (exec (N := B64) ex_before new_score) in
  let xs := [ex_piano] ++ ex_strings1 :: [ex_again] in
  let ys := [ex_piano] ++ MkSection ["violin"; "cello"] "" [note_ LB] :: [ex_again] in
  snd (exec (N := B64) ex_before new_score) = Ok /\ stored own_label s0 /\
  Forall (fun x => Forall (upd_all own_label) (sec_body x)) xs /\
  Forall (fun x => Forall (upd_all own_label) (sec_body x)) ys /\
  snd (exec (written xs) s0) = Ok /\ snd (exec (written ys) s0) = Ok /\
  snd (exec (written [ex_piano] ++ [UPart ["violin"; "cello"] ""]) s0) = Ok /\
  current (fst (exec (written [ex_piano] ++ [UPart ["violin"; "cello"] ""]) s0)) = [1; 2]%nat /\
  parts (fst (exec (written xs) s0)) = [0; 1; 2]%nat /\ parts (fst (exec (written ys) s0)) = [0; 1; 2]%nat /\
  map (fun o => List.length (notes_of (fst (exec (written xs) s0)) o)) [0; 1; 2]%nat = [8; 3; 3]%nat /\
  map (fun o => List.length (notes_of (fst (exec (written ys) s0)) o)) [0; 1; 2]%nat = [8; 1; 1]%nat /\
  map (fun o => List.length (notes_of (fst (alone 2 xs s0)) o)) [0; 1; 2]%nat = [0; 0; 3]%nat.
Proof.
  cbv zeta. split; [vm_compute; reflexivity|]. split.
  { assert (E : variables (fst (exec (N := B64) ex_before new_score)) = [("x", [note_ LG; note_ LA])]) by reflexivity.
    intros n es H. rewrite E in H. destruct H as [H|[]]. inversion H; subst. repeat constructor. }
  split; [repeat constructor|]. split; [repeat constructor|].
  do 8 (split; [vm_compute; reflexivity|]). vm_compute. reflexivity.
Qed.

(** Parts do communicate: by global attributes, ... *)
Theorem C68_global_refuted : exists (body body' : list (@update B64)) (b : list section) (p : pid),
  let xs := [] ++ MkSection ["piano"] "" body :: b in
  let ys := [] ++ MkSection ["piano"] "" body' :: b in
  Forall (fun x => Forall (upd_all local_label) (sec_body x)) (xs ++ ys) /\
  snd (exec (written xs) new_score) = Ok /\ snd (exec (written ys) new_score) = Ok /\
  ~ In p (current (fst (exec [UPart ["piano"] ""] (new_score (N := B64))))) /\
  In p (parts (fst (exec (written xs) new_score))) /\ In p (parts (fst (exec (written ys) new_score))) /\
  map h_note (notes_of (fst (exec (written xs) new_score)) p) <> map h_note (notes_of (fst (exec (written ys) new_score)) p).
Proof.
  exists [UPrim (GAttr (POctave 6))], [UPrim (GAttr (POctave 3))], [MkSection ["violin"] "" [note_ LC]], 1%nat. cbv zeta.
  split; [repeat constructor|]. split; [vm_compute; reflexivity|]. split; [vm_compute; reflexivity|].
  split; [|split; [|split]].
  - vm_compute. intros [H|[]]. discriminate.
  - vm_compute. right. left. reflexivity.
  - vm_compute. right. left. reflexivity.
  - vm_compute. discriminate.
Qed.
Print Assumptions C68_global_refuted.

(** ... by variables ... *)
Theorem C68_variable_refuted : exists (body body' : list (@update B64)) (b : list section) (p : pid),
  let xs := [] ++ MkSection ["piano"] "" body :: b in
  let ys := [] ++ MkSection ["piano"] "" body' :: b in
  Forall (fun x => Forall (upd_all plain_label) (sec_body x)) (xs ++ ys) /\
  snd (exec (written xs) new_score) = Ok /\ snd (exec (written ys) new_score) = Ok /\
  ~ In p (current (fst (exec [UPart ["piano"] ""] (new_score (N := B64))))) /\
  In p (parts (fst (exec (written xs) new_score))) /\ In p (parts (fst (exec (written ys) new_score))) /\
  map h_note (notes_of (fst (exec (written xs) new_score)) p) <> map h_note (notes_of (fst (exec (written ys) new_score)) p).
Proof.
  exists [UVarDef "x" [note_ LC]], [UVarDef "x" [note_ LD]], [MkSection ["violin"] "" [UVarRef "x"]], 1%nat. cbv zeta.
  split; [repeat constructor|]. split; [vm_compute; reflexivity|]. split; [vm_compute; reflexivity|].
  split; [|split; [|split]].
  - vm_compute. intros [H|[]]. discriminate.
  - vm_compute. right. left. reflexivity.
  - vm_compute. right. left. reflexivity.
  - vm_compute. discriminate.
Qed.
Print Assumptions C68_variable_refuted.

(** ... and by markers: without the marker the other part cannot be played at all. *)
Theorem C68_marker_refuted : exists (body : list (@update B64)) (b : list section),
  let xs := MkSection ["piano"] "" body :: b in
  let ys := MkSection ["piano"] "" [] :: b in
  Forall (fun x => Forall (upd_all local_label) (sec_body x)) (xs ++ ys) /\
  snd (exec (written xs) new_score) = Ok /\ snd (exec (written ys) new_score) <> Ok.
Proof.
  exists [note_ LC; UMarker "m"], [MkSection ["violin"] "" [UAtMarker "m"; note_ LC]]. cbv zeta.
  split; [repeat constructor|]. split; [vm_compute; reflexivity|]. vm_compute. discriminate.
Qed.
Print Assumptions C68_marker_refuted.
