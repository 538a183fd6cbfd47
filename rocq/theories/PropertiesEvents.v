(** Property theorems C01-C05. *)
From Coq Require Import ZArith List String Bool.
From Verif Require Import Base Num ModelPitch ModelDuration ModelInstruments ModelTypes ModelLisp
  ModelScore SpecScore ProofEvents.
Import ListNotations.
Local Open Scope string_scope.
Local Open Scope list_scope.

(** A session used by the examples: two instruments share channel 3 at
    different times, a percussion part plays, and one call fails half way. *)
Definition q4 {N : Num} : @duration N := Some [CLen (nofZ 4) 0%Z].
Definition note_ {N : Num} (l : letter) : update := UPrim (Note (PLetter l None) q4 false).
Definition ex_calls {N : Num} : list (list update) :=
  [ [UPart ["piano"] ""; UPrim (Attr (PChannel 3)); note_ LC; note_ LE];
    [UPart ["midi-percussion"] ""; note_ LC];
    [UPart ["violin"] ""; UPrim (Rest (Some [CLen (nofZ 2) 0%Z])); UPrim (Attr (PChannel 3)); note_ LG;
     UPrim (Attr (POctave 40)); note_ LC; note_ LD];
    [UPrim (Attr (POctave 4)); UChord [note_ LC; note_ LE]] ].

(** C01, for every ordered number system, in particular for exact numbers and
    for IEEE doubles: two notes of different parts on one channel other than 9
    never sound at the same time. *)
Theorem C01_no_collision : forall (N : Num), @ordered N -> forall calls e f,
  In e (events (session calls)) -> In f (events (session calls)) ->
  ev_part e <> ev_part f -> ev_chan e = ev_chan f -> ev_chan e <> 9%Z ->
  forall t, ~ (sounds e t /\ sounds f t).
Proof. exact @c01. Qed.
Print Assumptions C01_no_collision.

Theorem C01_no_collision_exact : forall calls e f,
  In e (events (N := XQ) (session calls)) -> In f (events (session calls)) ->
  ev_part e <> ev_part f -> ev_chan e = ev_chan f -> ev_chan e <> 9%Z ->
  forall t, ~ (sounds e t /\ sounds f t).
Proof. exact (@c01 XQ ordered_XQ). Qed.
Print Assumptions C01_no_collision_exact.

Theorem C01_no_collision_ieee : forall calls e f,
  In e (events (N := B64) (session calls)) -> In f (events (session calls)) ->
  ev_part e <> ev_part f -> ev_chan e = ev_chan f -> ev_chan e <> 9%Z ->
  forall t, ~ (sounds e t /\ sounds f t).
Proof. exact (@c01 B64 ordered_B64). Qed.
Print Assumptions C01_no_collision_ieee.

(** The hypotheses hold of the first piano note and the violin note. *)
Example C01_example :
  match events (N := B64) (session ex_calls) with
  | e :: _ :: _ :: f :: _ =>
      ev_part e <> ev_part f /\ ev_chan e = ev_chan f /\ ev_chan e = 3%Z /\
      ev_off e = nofZ 0 /\ ev_off f = nofZ 1000
  | _ => False
  end /\ List.length (events (N := B64) (session ex_calls)) = 6%nat.
Proof. vm_compute. repeat split; discriminate. Qed.

(** C02: channels are valid, and channel 9 is exactly percussion. *)
Theorem C02_channels : forall (N : Num) calls e, In e (events (session calls)) ->
  (0 <= ev_chan e <= 15)%Z /\
  (ev_chan e = 9%Z <-> plays_percussion (session calls) (ev_part e)).
Proof. exact @c02. Qed.
Print Assumptions C02_channels.

Example C02_example :
  map (fun e => (ev_part e, ev_chan e)) (events (N := B64) (session ex_calls))
  = [(0%nat, 3%Z); (0%nat, 3%Z); (1%nat, 9%Z); (2%nat, 3%Z); (2%nat, 3%Z); (2%nat, 3%Z)] /\
  iperc (pstock (getp (N := B64) (session ex_calls) 1)) = true.
Proof. vm_compute. split; reflexivity. Qed.

(** C03: only playable notes are emitted... *)
Theorem C03_playable : forall (N : Num) calls e, In e (events (session calls)) ->
  (0 <= ev_note e <= 127)%Z /\ nltb n0 (ev_aud e) = true.
Proof. exact @c03. Qed.
Print Assumptions C03_playable.

(** ... and an audible note out of range makes the update fail, adding no note
    (global attributes due at that point are applied first). *)
Theorem C03_out_of_range : forall (N : Num) pi d (slurred : bool) s s1 pd rest,
  chordmode s = false -> apply_globals s = (s1, Ok) -> current s = pd :: rest ->
  dur_valid d = true ->
  let p := getp s1 pd in
  let ms := nmul (dur_ms_of (ptempo p) (effective_dur d p)) (pscale p) in
  let n := calc_midi_note pi (poctave p) (pkey p) (ptransp p) in
  nltb n0 (if slurred then ms else nmul ms (pquant p)) = true ->
  (n < 0 \/ 127 < n)%Z ->
  exists m, exec [UPrim (Note pi d slurred)] s = (s1, Err m) /\ events s1 = events s.
Proof. exact @c03_range. Qed.
Print Assumptions C03_out_of_range.

(** The third call of the example fails exactly so: [o40 c] adds nothing and
    the [d] after it is not played. *)
Example C03_example :
  let s := session (N := B64) (firstn 2 ex_calls) in
  let r := exec (nth 2 ex_calls []) s in
  (match snd r with Err _ => True | _ => False end) /\
  List.length (events (fst r)) = S (List.length (events s)).
Proof. vm_compute. split; reflexivity. Qed.

(** C04: whatever is applied to whatever score, with whatever outcome, the notes
    already there stay, in place and in order. *)
Theorem C04_permanent : forall (N : Num) us s, exists new,
  events (fst (exec us s)) = events s ++ new.
Proof. exact @c04. Qed.
Print Assumptions C04_permanent.

Definition shown (s : @score B64) : list (nat * Z * Z) :=
  map (fun e => (ev_part e, ev_chan e, ev_note e)) (events s).
Example C04_example :
  let s := session (N := B64) (firstn 2 ex_calls) in
  shown s = [(0%nat, 3, 60); (0%nat, 3, 64); (1%nat, 9, 60)]%Z /\
  shown (fst (exec (nth 2 ex_calls []) s)) = shown s ++ [(2%nat, 3, 67)]%Z /\
  snd (exec (nth 2 ex_calls []) s) <> Ok.
Proof. vm_compute. repeat split; discriminate. Qed.

(** C05: a list of updates runs up to its first failure. *)
Theorem C05_concatenation : forall (N : Num) a b s,
  exec (a ++ b) s = match exec a s with
                    | (s1, Ok) => exec b s1
                    | failure => failure
                    end.
Proof. exact @c05_app. Qed.
Print Assumptions C05_concatenation.

Theorem C05_first_failure : forall (N : Num) us s s' o, exec us s = (s', o) ->
  (o = Ok <-> forall a b, us = a ++ b -> snd (exec a s) = Ok) /\
  (failed o -> exists a u b s1, us = a ++ u :: b /\ exec a s = (s1, Ok) /\ exec [u] s1 = (s', o)).
Proof. exact @c05_first_failure. Qed.
Print Assumptions C05_first_failure.

Theorem C05_sequence : forall (N : Num) es s, exec [USeq es] s = exec es s.
Proof. exact @c05_sequence. Qed.
Print Assumptions C05_sequence.

Example C05_example :
  let s := session (N := B64) (firstn 2 ex_calls) in
  shown (fst (exec (nth 2 ex_calls []) s)) = shown (fst (exec (firstn 6 (nth 2 ex_calls [])) s)) /\
  snd (exec (firstn 5 (nth 2 ex_calls [])) s) = Ok /\
  snd (exec (firstn 6 (nth 2 ex_calls [])) s) <> Ok.
Proof. vm_compute. repeat split; discriminate. Qed.
