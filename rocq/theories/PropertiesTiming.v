(** Property theorems C06-C09, C11 and C14. *)
From Coq Require Import ZArith List String Bool.
From Verif Require Import Base Num ModelPitch ModelDuration ModelInstruments ModelTypes ModelLisp
  ModelScore SpecScore SpecVars SpecParts SpecSolo SpecTiming ProofTiming PropertiesEvents PropertiesVars.
Import ListNotations.
Local Open Scope string_scope.
Local Open Scope list_scope.

Definition len_ {N : Num} (d : Z) : @duration N := Some [CLen (nofZ d) 0%Z].
Definition item_ {N : Num} (l : letter) (sl : bool) (d : @duration N) : item := Item (Some (PLetter l None, sl)) d.
Definition rest_ {N : Num} (d : @duration N) : item := Item None d.
(** A duo in the middle of a piece. *)
Definition ex_duo {N : Num} : list (list update) :=
  [ [UPart ["piano"] ""; note_ LC]; [UPart ["violin"; "cello"] ""; UPrim (Attr (PTempo (nofZ 60))); note_ LC] ].
(** c8 d (slurred) r2 e *)
Definition ex_line {N : Num} : list item :=
  [item_ LC false (len_ 8); item_ LD true None; rest_ (len_ 2); item_ LE false None].

(** C06: as long as no global attribute is recorded, every note of a sequence
    of notes and rests starts at the part's offset plus the lengths of the
    events before it, and the part ends after all of them; this for every
    current part at once. *)
Theorem C06_sequence : forall (N : Num) calls l s' p, let s := session calls in
  between_events s -> no_globals s -> In p (current s) -> exec (map play l) s = (s', Ok) ->
  let q := getp s p in let lens := lengths (ptempo q) (pscale q) (pdur q) l in
  pcur (getp s' p) = start (pcur q) lens (List.length l) /\
  exists new, notes_of s' (instance s p) = notes_of s (instance s p) ++ new /\
    map times new = sounding (pquant q) l (map (start (pcur q) lens) (seq 0 (List.length l))) lens.
Proof. exact @c06. Qed.
Print Assumptions C06_sequence.

Example C06_example :
  let s := session (N := B64) ex_duo in
  chordmode s = false /\ ga_offs (globals s) = [] /\ current s = [1; 2]%nat /\
  snd (exec (map play ex_line) s) = Ok /\
  map (fun p => pcur (getp (fst (exec (map play ex_line) s)) p)) (current s) = map nofZ [6000; 6000]%Z.
Proof. cbv zeta. repeat split; vm_compute; reflexivity. Qed.

(** C07: writing out every duration (the last written one, at first the one in
    force) gives exactly the same score and outcome. *)
Theorem C07_sticky : forall (N : Num) calls l d, let s := session calls in
  (forall p, In p (current s) -> pdur (getp s p) = Some d) -> dur_valid (Some d) = true ->
  (forall off us d', In (off, us) (ga_itin (globals s)) -> ~ In (PDurSet d') us) ->
  exec (map play (spelled (Some d) l)) s = exec (map play l) s.
Proof. exact @c07. Qed.
Print Assumptions C07_sticky.

Example C07_example :
  let s := session (N := B64) ex_duo in
  map (fun p => pdur (getp s p)) (current s) = [len_ (N := B64) 4; len_ 4] /\
  dur_valid (len_ (N := B64) 4) = true /\ ga_itin (globals s) = [] /\
  spelled (len_ (N := B64) 4) ex_line =
    [item_ LC false (len_ 8); item_ LD true (len_ 8); rest_ (len_ 2); item_ LE false (len_ 2)].
Proof. cbv zeta. split; [reflexivity|]. split; [reflexivity|]. split; reflexivity. Qed.

(** C08: after a note or rest the part stands after its full length, whether it
    is slurred or not; the note sounds for its full length when slurred and for
    the length times the quantization otherwise. *)
Theorem C08_audible : forall (N : Num) calls i s' p, let s := session calls in
  between_events s -> In p (current s) -> exec [play i] s = (s', Ok) ->
  let q := getp s' p in
  let len := nmul (dur_ms_of (ptempo q) (pdur q)) (pscale q) in
  pcur q = nadd (pcur (getp s p)) len /\ plast q = pcur (getp s p) /\
  exists new, notes_of s' (instance s p) = notes_of s (instance s p) ++ new /\
    map times new = sounding (pquant q) [i] [pcur (getp s p)] [len].
Proof. exact @c08. Qed.
Print Assumptions C08_audible.

(** Slurring a note changes nothing in the parts' state. *)
Theorem C08_slur : forall (N : Num) calls pi d s1 s2 p, let s := session calls in
  In p (current s) -> exec [UPrim (Note pi d true)] s = (s1, Ok) -> exec [UPrim (Note pi d false)] s = (s2, Ok) ->
  unchanneled (getp s1 p) = unchanneled (getp s2 p).
Proof. exact @c08_slur. Qed.
Print Assumptions C08_slur.

Example C08_example :
  let s := session (N := B64) ex_duo in
  let run_ i := exec [play i] s in
  snd (run_ (item_ LC true (len_ 2))) = Ok /\ snd (run_ (item_ LC false (len_ 2))) = Ok /\
  map (fun h => times h) (skipn 1 (notes_of (fst (run_ (item_ LC true (len_ 2)))) 1)) = [(nofZ 1000, nofZ 2000, nofZ 2000)] /\
  map (fun h => times h) (skipn 1 (notes_of (fst (run_ (item_ LC false (len_ 2)))) 1)) = [(nofZ 1000, nofZ 2000, nofZ 1800)].
Proof. cbv zeta. repeat split; vm_compute; reflexivity. Qed.

(** C09: all notes of a chord start where the part stood, and the part moves on
    by the least of the lengths... *)
Theorem C09_chord : forall (N : Num) calls l s' p, let s := session calls in
  In p (current s) -> exec [UChord (map play l)] s = (s', Ok) ->
  exists d, (no_globals s -> d = pdur (getp s p)) /\
  let q := getp s' p in let lens := lengths (ptempo q) (pscale q) d l in
  pcur q = nadd (pcur (getp s p)) (fold_left nmin lens nmaxval) /\ plast q = pcur (getp s p) /\
  between_events s' /\ pdur q = inforce_after d l /\
  exists new, notes_of s' (instance s p) = notes_of s (instance s p) ++ new /\
    map times new = sounding (pquant q) l (map (fun _ => pcur (getp s p)) l) lens.
Proof. exact @c09. Qed.
Print Assumptions C09_chord.

(** ... which in exact arithmetic is the length of the shortest note or rest. *)
Theorem C09_shortest : forall calls l s' p, let s := session (N := XQ) calls in
  In p (current s) -> no_globals s -> l <> [] -> exec [UChord (map play l)] s = (s', Ok) ->
  let q := getp s' p in let lens := lengths (ptempo q) (pscale q) (pdur (getp s p)) l in
  Forall representable lens ->
  exists m, shortest m lens /\ pcur q = xq_add (pcur (getp s p)) m.
Proof. exact c09_exact. Qed.
Print Assumptions C09_shortest.

Example C09_example :
  let s := session (N := XQ) ex_duo in
  let l := [item_ LC false (len_ 2); item_ LE true (len_ 8); item_ LG false None] in
  ga_offs (globals s) = [] /\ snd (exec [UChord (map play l)] s) = Ok /\
  map (fun p => xq_eqb (pcur (getp (fst (exec [UChord (map play l)] s)) p)) (xq_ofZ 1500)) (current s) = [true; true] /\
  forallb (fun p => forallb (fun x => match x with Fin _ => xq_leb x xq_maxval | _ => false end)
     (lengths (ptempo (getp s p)) (pscale (getp s p)) (pdur (getp s p)) l)) (current s) = true.
Proof. cbv zeta. repeat split; vm_compute; reflexivity. Qed.

(** C11: a cram over anything that acts on the current parts only restores the
    time scale, and the default duration unless the cram has one itself. *)
Theorem C11_no_trace : forall (N : Num) calls es d s' p, let s := session calls in
  Forall (upd_all local_label) es -> stored local_label s ->
  In p (current s) -> exec [UCram es d] s = (s', Ok) ->
  pscale (getp s' p) = pscale (getp s p) /\ pdur (getp s' p) = meant d (pdur (getp s p)).
Proof. exact @c11. Qed.
Print Assumptions C11_no_trace.

Definition ex_cram {N : Num} : list update :=
  [play (item_ LC false (len_ 8)); UCram [note_ LD; note_ LE; UChord [note_ LC; note_ LG]] None; UPrim (Attr (POctave 5))].
Example C11_example :
  let s := session (N := B64) ex_duo in
  Forall (upd_all local_label) (ex_cram (N := B64)) /\ stored local_label s /\
  snd (exec [UCram ex_cram (len_ 2)] s) = Ok /\ snd (exec [UCram ex_cram None] s) = Ok.
Proof.
  cbv zeta. split; [repeat constructor|]. split.
  { assert (E : variables (session (N := B64) ex_duo) = []) by reflexivity. intros n es H. rewrite E in H. destruct H. }
  split; vm_compute; reflexivity.
Qed.

(** C14: whatever a group plays, each of its instruments can play on its own, and
    then gets the same notes and ends in the same state, up to the choice of MIDI
    channels.  For any number system when no marker or global attribute is set... *)
Theorem C14_group : forall (N : Num) calls us s1 p, let s := session calls in
  Forall (upd_all plain_label) us -> stored plain_label s -> In p (current s) ->
  exec us s = (s1, Ok) ->
  exists s2, exec us (set_current [p] s) = (s2, Ok) /\
  notes_of s1 (instance s p) = notes_of s2 (instance s p) /\
  unchanneled (getp s1 p) = unchanneled (getp s2 p).
Proof. exact @c14. Qed.
Print Assumptions C14_group.

(** ... and for exact numbers also with markers and global attributes, which end
    up the same too. *)
Theorem C14_group_shared : forall calls us s1 p, let s := session (N := XQ) calls in
  Forall (upd_all group_label) us -> stored group_label s -> In p (current s) ->
  exec us s = (s1, Ok) ->
  exists s2, exec us (set_current [p] s) = (s2, Ok) /\
  notes_of s1 (instance s p) = notes_of s2 (instance s p) /\
  unchanneled (getp s1 p) = unchanneled (getp s2 p) /\
  globals s1 = globals s2 /\ markers s1 = markers s2 /\ variables s1 = variables s2.
Proof. exact (@c14_shared XQ exact_XQ). Qed.
Print Assumptions C14_group_shared.

Example C14_example :
  let s := session (N := B64) ex_duo in
  let us := [UVarDef "x" [note_ LG]; UCram ex_cram None; URepeat (USeq [UVarRef "x"; note_ LA]) 3] in
  Forall (upd_all plain_label) us /\ stored plain_label s /\ current s = [1; 2]%nat /\
  snd (exec us s) = Ok /\ snd (exec us (set_current [1%nat] s)) = Ok /\
  map (fun o => List.length (notes_of (fst (exec us s)) o)) [1; 2]%nat = [12; 12]%nat.
Proof.
  cbv zeta. split; [repeat constructor|]. split.
  { assert (E : variables (session (N := B64) ex_duo) = []) by reflexivity. intros n es H. rewrite E in H. destruct H. }
  repeat split; vm_compute; reflexivity.
Qed.

(** Endings break C14: with two current parts, an event with repetition ranges
    is played twice for each of them. *)
Theorem C14_endings_refuted : exists (us : list (@update B64)) (s : @score B64) (p : pid),
  s = session ex_duo /\ In p (current s) /\
  Forall (upd_all local_label) us /\
  snd (exec us s) = Ok /\ snd (exec us (set_current [p] s)) = Ok /\
  List.length (notes_of (fst (exec us s)) (instance s p)) <>
  List.length (notes_of (fst (exec us (set_current [p] s))) (instance s p)).
Proof.
  exists [URepeat (UOnReps [(1, 1)]%Z (note_ LC)) 1], (session ex_duo), 1%nat.
  split; [reflexivity|]. split; [vm_compute; left; reflexivity|].
  split; [repeat constructor|].
  split; [vm_compute; reflexivity|]. split; [vm_compute; reflexivity|]. vm_compute. discriminate.
Qed.
Print Assumptions C14_endings_refuted.

(** The converse fails: sixteen instruments that could each play a note alone
    cannot play it together, for want of MIDI channels. *)
Definition ex_sixteen {N : Num} : list (list update) :=
  [[UPart ["piano"; "violin"; "viola"; "cello"; "flute"; "oboe"; "clarinet"; "bassoon"; "trumpet"; "trombone"; "tuba";
           "banjo"; "kalimba"; "shamisen"; "koto"; "ocarina"] ""]]%string.
Theorem C14_converse_refuted : exists (us : list (@update B64)) (s : @score B64),
  s = session ex_sixteen /\ List.length (current s) = 16%nat /\
  Forall (upd_all plain_label) us /\ snd (exec us s) <> Ok /\
  forallb (fun p => match snd (exec us (set_current [p] s)) with Ok => true | _ => false end) (current s) = true.
Proof.
  exists [note_ LC], (session ex_sixteen). split; [reflexivity|]. split; [vm_compute; reflexivity|].
  split; [repeat constructor|]. split; [vm_compute; discriminate|vm_compute; reflexivity].
Qed.
Print Assumptions C14_converse_refuted.
