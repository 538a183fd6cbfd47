(** Property theorems C48. *)
From Coq Require Import ZArith String List Bool.
From Verif Require Import Base Num ModelPitch ModelDuration ModelInstruments ModelTypes ModelLisp
  ModelScore ModelImporter SpecScore SpecVars SpecImporter ProofImporter5 ProofImporter7 PropertiesVars.
Import ListNotations.
Local Open Scope string_scope.
Local Open Scope list_scope.
Local Open Scope Z_scope.

(** C48: take the events that the importer has collected for a voice.  Written
    out after the clean-up, they are heard exactly as they would be without it,
    and so is whatever follows them: the scores stay the same so far.
    [feq] is the comparison of numbers used by the clean-up; it may not confuse
    two numbers written in the voice. *)
Theorem C48_cleanup_keeps_notes :
  forall (feq : num -> num -> bool) percussion o us (s t : @score XQ),
  forallb (voice_event percussion) us = true ->
  (forall x y, In x (numbers_of us) -> In y (numbers_of us) -> feq x y = true -> x = y) ->
  o_oct o = -1 -> o_dur o = None ->
  (percussion = true -> forall l, ks_get (o_key o) l = None) ->
  playing percussion (o_key o) s -> same_so_far s t ->
  let plain := exec (map finished us) s in
  let cleaned := exec (text_of (snd (optimize_list feq o us))) t in
  same_so_far (fst plain) (fst cleaned) /\ snd plain = snd cleaned /\
  (snd plain = Ok -> playing percussion (o_key o) (fst plain)).
Proof. exact c48_voice. Qed.
Print Assumptions C48_cleanup_keeps_notes.

Definition g_major : keysig := ks_from_circle 1.
Definition f_sharp (n : Z) : @update XQ := UPrim (Note (PLetter LF (Some [Sharp])) (Some [CLen (nofZ n) 0]) false).
Definition f_natural (n : Z) : @update XQ := UPrim (Note (PLetter LF (Some [Natural])) (Some [CLen (nofZ n) 0]) false).
Definition key_ (p : Z) (n : Z) : @update XQ := UPrim (Note (PMidi p) (Some [CLen (nofZ n) 0]) false).
(** [f+4 (o5) f+4 f_4 f+4/f+8 |] twice, then a tied note across a barline *)
Definition ex_voice : list (@update XQ) :=
  [URepeat (USeq [f_sharp 4; UPrim (Attr (POctave 5)); f_sharp 4; f_natural 4; UChord [f_sharp 4; f_sharp 8]; UBarline]) 2;
   UPrim (Note (PLetter LG None) (Some [CLen (nofZ 2) 0; CBar; CLen (nofZ 2) 0]) false); f_sharp 2; f_sharp 2].
Definition ex_state : @score XQ := session [[UPart ["piano"] ""; UPrim (Attr (PKey g_major))]].
Definition ex_drums : list (@update XQ) :=
  [key_ 36 4; UChord [key_ 42 8; key_ 38 8]; URepeat (USeq [key_ 46 8; key_ 36 8]) 0].
Definition ex_kit : @score XQ := session [[UPart ["midi-percussion"] ""]].
Definition in_g : opt_state := Opt [] None (-1) g_major.
(** What was written: accidentals, and whether there is a length. *)
Fixpoint shown (u : @update XQ) : list (Z + option nat * bool) :=
  let all := (fix go (l : list (@update XQ)) := match l with [] => [] | x :: t => shown x ++ go t end) in
  let len (d : @duration XQ) := match d with Some _ => true | None => false end in
  match u with
  | UPrim (Note (PLetter _ a) d _) => [inr (match a with Some x => Some (List.length x) | None => None end, len d)]
  | UPrim (Attr (POctave n)) => [inl n]
  | UChord es | USeq es => all es
  | URepeat e n => inl (100 + n) :: shown e
  | UBarline => [inl (-1)]
  | _ => []
  end.
Definition sounding_keys (r : @score XQ * outcome) : list Z := map ev_note (events (fst r)).

Example C48_example :
  forallb (voice_event false) ex_voice = true /\ forallb (voice_event true) ex_drums = true /\
  snd (exec (map finished ex_voice) ex_state) = Ok /\ snd (exec (map finished ex_drums) ex_kit) = Ok /\
  flat_map shown (text_of (snd (optimize_list neqb in_g ex_voice))) =
    [inl 102; inr (None, true); inl 5; inr (None, false); inr (Some 1%nat, false); inr (Some 1%nat, true); inr (Some 1%nat, true);
     inl (-1); inr (None, true); inr (None, true); inr (None, false)] /\
  flat_map shown (text_of (snd (optimize_list neqb new_opt ex_drums))) =
    [inl 2; inr (None, true); inl 2; inr (Some 1%nat, true); inr (None, false); inl 101; inl 2; inr (Some 1%nat, true); inr (None, false)] /\
  sounding_keys (exec (text_of (snd (optimize_list neqb in_g ex_voice))) ex_state) = [66; 78; 77; 78; 78; 78; 78; 77; 78; 78; 79; 78; 78] /\
  sounding_keys (exec (text_of (snd (optimize_list neqb new_opt ex_drums))) ex_kit) = [36; 42; 38; 46; 36].
Proof. repeat split; vm_compute; reflexivity. Qed.
Example C48_example_hypotheses :
  playing false (o_key in_g) ex_state /\ playing true (o_key new_opt) ex_kit /\
  (forall l, ks_get (o_key new_opt) l = None) /\
  (forall x y : @num XQ, neqb x y = true -> x = y).
Proof.
  split; [apply one_playing; vm_compute; reflexivity|]. split; [apply one_playing; vm_compute; reflexivity|].
  split; [intros []; reflexivity|exact xq_eqb_eq].
Qed.

(** The same for a whole file: several parts, each with several voices, key
    signatures and transpositions.  Read as Alda text, the import with the
    clean-up plays the notes of the import without it. *)
Theorem C48_import_keeps_notes :
  forall (feq : num -> num -> bool) calls ps (t : @score XQ),
  let s := session calls in
  let numbers := flat_map (fun p => flat_map step_numbers (x_steps p)) ps in
  importable ps s ->
  (forall x y, In x numbers -> In y numbers -> feq x y = true -> x = y) ->
  ga_offs (globals s) = [] -> same_so_far s t ->
  let plainly := exec (import_updates plain ps) s in
  let cleaned := exec (text_of (import_updates (optimize_list feq) ps)) t in
  events (fst plainly) = events (fst cleaned) /\ snd plainly = snd cleaned /\
  same_so_far (fst plainly) (fst cleaned).
Proof. exact c48_import. Qed.
Print Assumptions C48_import_keeps_notes.

(** A piano part in G major with two voices, later in C major, and drums. *)
Definition ex_file : list (@xml_part XQ) :=
  [XPart ["piano"] ""
     [SFlush [(1, [])] true; SAttr (PKey g_major);
      SFlush [(1, ex_voice); (2, [f_sharp 1; f_natural 1])] true; SAttr (PKey ks_empty); SAttr (PTransp 2);
      SFlush [(1, [UPrim (Attr (POctave 3)); f_sharp 4; f_natural 4]); (2, [f_natural 2])] false];
   XPart ["midi-percussion"] "" [SFlush [(1, ex_drums)] false]].
Example C48_import_example :
  importable ex_file (session []) /\ ga_offs (globals (@session XQ [])) = [] /\
  snd (exec (import_updates plain ex_file) (session [])) = Ok /\
  sounding_keys (exec (text_of (import_updates (optimize_list neqb) ex_file)) (session []))
    = [66; 78; 77; 78; 78; 78; 78; 77; 78; 78; 79; 78; 78; 66; 65; 56; 55; 79; 36; 42; 38; 46; 36].
Proof.
  split.
  - cbn [importable ex_file]. intros _. do 3 (split; [vm_compute; reflexivity|]).
    intros _. do 3 (split; [vm_compute; reflexivity|]). exact I.
  - repeat split; vm_compute; reflexivity.
Qed.

(** The exceptions: a percussion part in a key with accidentals, ... *)
Theorem C48_drums_in_key_refuted : exists (s : @score XQ) us,
  forallb (voice_event true) us = true /\ playing true (o_key in_g) s /\
  sounding_keys (exec (map finished us) s) = [41] /\
  sounding_keys (exec (text_of (snd (optimize_list neqb in_g us))) s) = [42].
Proof.
  exists (session [[UPart ["midi-percussion"] ""; UPrim (Attr (PKey g_major))]]), [key_ 41 4].
  split; [reflexivity|]. split; [|split; vm_compute; reflexivity].
  apply one_playing; vm_compute; reflexivity.
Qed.
Print Assumptions C48_drums_in_key_refuted.

(** ... key numbers below 24, ... *)
Theorem C48_low_keys_refuted : exists (s : @score XQ) us,
  playing true (o_key new_opt) s /\
  sounding_keys (exec (map finished us) s) = [23; 12] /\
  sounding_keys (exec (text_of (snd (optimize_list neqb new_opt us))) s) = [24; 12].
Proof.
  exists ex_kit, [key_ 23 4; key_ 12 4].
  split; [|split; vm_compute; reflexivity].
  apply one_playing; vm_compute; reflexivity.
Qed.
Print Assumptions C48_low_keys_refuted.

(** ... and playing the cleaned-up updates without writing them out as text:
    an octave change at the head of a chord then counts as a member with the
    length of the note before. *)
Theorem C48_without_text_refuted : exists (s : @score XQ) us,
  forallb (voice_event true) us = true /\
  let ends r := map (fun p => pcur (getp (fst r) p)) (current (fst r)) in
  let same a b := forallb (fun '(x, y) => neqb x y) (combine a b) in
  same (ends (exec (map finished us) s)) [nofZ 1750] = true /\
  same (ends (exec (text_of (snd (optimize_list neqb new_opt us))) s)) [nofZ 1750] = true /\
  same (ends (exec (snd (optimize_list neqb new_opt us)) s)) [nofZ 1500] = true.
Proof.
  exists ex_kit, [key_ 36 8; UChord [key_ 42 4; key_ 38 4]; key_ 36 2].
  cbv zeta. repeat split; vm_compute; reflexivity.
Qed.
Print Assumptions C48_without_text_refuted.
