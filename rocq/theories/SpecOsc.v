(** Vocabulary for transmissions (C29-C35). *)
From Coq Require Import ZArith List String Bool Permutation.
From Verif Require Import Base Num ModelPitch ModelDuration ModelInstruments ModelTypes ModelLisp
  ModelScore ModelOsc SpecScore SpecVars SpecParts SpecSolo SpecTiming SpecGlobals.
Import ListNotations.
Local Open Scope Z_scope.

Section SpecOsc.
Context {N : Num}.

(** From inclusive, to exclusive. *)
Definition in_range (start stop : num) (e : note_event) : bool := nleb start (ev_off e) && nltb (ev_off e) stop.

(** Which notes a transmission is about: index range, then time range. *)
Record asked (t : transmission) (s : score) (start stop : num) (notes : list note_event) : Prop := Asked {
  as_time : time_range t s = ROk (start, stop);
  as_notes : exists lo hi, event_range t s = ROk (lo, hi) /\ notes = filter (in_range start stop) (slice lo hi (events s));
  as_regular : nisnan start = false /\ nisnan stop = false /\ forall e, In e (events s) -> nisnan (ev_off e) = false }.

(** A level between 0 and 1 as a MIDI value. *)
Definition level (x : num) : Z := nround32 (nmul x (nofZ 127)).
Definition patch_of (s : score) (e : note_event) : Z := ipatch (pstock (getp s (ev_part e))).
Definition track_no (s : score) (e : note_event) : Z := match track_of s (ev_part e) with Some n => n | None => 0 end.
(** The offset relative to the start of the excerpt and to the part's sync offset. *)
Definition relative (start : num) (sync : list (pid * num)) (e : note_event) : num :=
  nsub (nsub (ev_off e) start) (match aget Nat.eqb (ev_part e) sync with Some x => x | None => n0 end).
Definition note_message (s : score) (start : num) (sync : list (pid * num)) (e : note_event) : msg :=
  MNote (track_no s e) (ev_chan e) (nround32 (relative start sync e)) (ev_note e)
        (nround32 (ev_dur e)) (nround32 (ev_aud e)) (level (ev_vol e)).

Definition is_note (m : msg) : bool := match m with MNote _ _ _ _ _ _ _ => true | _ => false end.
Definition is_tempo (m : msg) : bool := match m with MTempo _ _ => true | _ => false end.
Definition is_control (m : msg) : bool := match m with MPatch _ _ _ _ | MVolume _ _ _ _ | MPanning _ _ _ _ => true | _ => false end.

(** What a receiver that handles the messages one after the other has last been
    told about a channel. *)
Definition latest {A} (f : msg -> option A) (l : list msg) : option A :=
  fold_left (fun acc m => match f m with Some x => Some x | None => acc end) l None.
Definition patch_on (ch : Z) (m : msg) : option Z :=
  match m with MPatch _ c _ v => if c =? ch then Some v else None | _ => None end.
Definition volume_on (ch : Z) (m : msg) : option Z :=
  match m with MVolume _ c _ v => if c =? ch then Some v else None | _ => None end.
Definition panning_on (ch : Z) (m : msg) : option Z :=
  match m with MPanning _ c _ v => if c =? ch then Some v else None | _ => None end.
(** The note messages, each with the patch, volume and panning then in force on
    its channel (patches mean nothing on the percussion channel). *)
Fixpoint heard (before l : list msg) : list (msg * option Z * option Z * option Z) :=
  match l with
  | [] => []
  | m :: t =>
      match m with
      | MNote _ ch _ _ _ _ _ =>
          [(m, if ch =? 9 then None else latest (patch_on ch) before, latest (volume_on ch) before, latest (panning_on ch) before)]
      | _ => []
      end ++ heard (before ++ [m]) t
  end.
Definition intended (s : score) (start : num) (sync : list (pid * num)) (e : note_event) : msg * option Z * option Z * option Z :=
  (note_message s start sync e, if ev_chan e =? 9 then None else Some (patch_of s e),
   Some (level (ev_tvol e)), Some (level (ev_pan e))).

(** Equal numbers have equal levels. *)
Definition levels_agree : Prop := forall a b, neqb a b = true -> level a = level b.

(** The last of the notes before on a channel. *)
Definition last_on (ch : Z) (l : list note_event) : option note_event :=
  fold_left (fun acc e => if ev_chan e =? ch then Some e else acc) l None.
Definition differs {A} (eqb : A -> A -> bool) (f : note_event -> A) (prev : option note_event) (e : note_event) : bool :=
  match prev with Some p => negb (eqb (f e) (f p)) | None => true end.
(** The messages for notes sent in this order: before a note, those of patch,
    volume and panning that differ from the previous note on its channel. *)
Fixpoint sends (s : score) (start : num) (sync : list (pid * num)) (before l : list note_event) : list msg :=
  match l with
  | [] => []
  | e :: t =>
      let prev := last_on (ev_chan e) before in
      let r := nround32 (relative start sync e) in
      (if negb (ev_chan e =? 9) && differs Z.eqb (patch_of s) prev e then [MPatch (track_no s e) (ev_chan e) r (patch_of s e)] else []) ++
      (if differs neqb ev_tvol prev e then [MVolume (track_no s e) (ev_chan e) r (level (ev_tvol e))] else []) ++
      (if differs neqb ev_pan prev e then [MPanning (track_no s e) (ev_chan e) r (level (ev_pan e))] else []) ++
      [note_message s start sync e] ++ sends s start sync (before ++ [e]) t
  end.

(** When a note stops sounding, relative to the start of the excerpt. *)
Definition audible_end (start : num) (sync : list (pid * num)) (e : note_event) : num :=
  nadd (relative start sync e) (ev_aud e).
(** [m] is the greatest of 0 and these. *)
Definition greatest (m : num) (l : list num) : Prop :=
  (m = n0 \/ In m l) /\ nleb n0 m = true /\ forall x, In x l -> nleb x m = true.
(** The larger of two numbers. *)
Definition max_law : Prop := forall a b, nisnan a = false -> nisnan b = false ->
  (nmax a b = a \/ nmax a b = b) /\ nleb a (nmax a b) = true /\ nleb b (nmax a b) = true.

(** Everything of a note message but its offset. *)
Definition timeless (m : msg) : msg :=
  match m with MNote tr ch _ n d a v => MNote tr ch 0 n d a v | _ => m end.

(** The tempo change [o] is in force at [start], or inside the excerpt. *)
Definition concerns (tempos : list (num * num)) (start stop o : num) : bool :=
  nltb o stop &&
  (nltb start o || (nleb o start && forallb (fun x => negb (nltb o (fst x) && nleb (fst x) start)) tempos)).
Definition tempo_message (start : num) (x : num * num) : msg :=
  MTempo (nround32 (if nltb (nsub (fst x) start) n0 then n0 else nsub (fst x) start)) (nfloat32 (snd x)).
(** The exported tempo map at an offset. *)
Definition at_tempo (s : score) (o : num) : option num := aget neqb o (tempo_itinerary s).
Definition sets_tempo (u : part_update) : bool := match u with PTempo _ | PMetric _ => true | _ => false end.
(** None of these changes sets a tempo at [o]. *)
Definition silent_at (o : num) (tl : list (num * part_update)) : Prop :=
  forall o' u, In (o', u) tl -> sets_tempo u = true -> neqb o' o = false.
(** The last tempo set outright by these changes, or 120. *)
Definition last_set (tl : list (num * part_update)) : num :=
  fold_left (fun acc x => match snd x with PTempo t => t | _ => acc end) tl (nofZ 120).
(** The part that leads the tempo of the score. *)
Definition leads (s : score) (q : pid) : Prop := In q (parts s) /\ pmaster (getp s q) = true.
(** The tempo changes the part itself made, by offset. *)
Definition own_tempo (s : score) (q : pid) (o : num) : option num := aget neqb o (ptvals (getp s q)).
(** No tempo changes, no global attributes, no voices. *)
Definition tempo_free (l : label) : Prop :=
  match l with LTempo | LGlobal | LVoice _ => False | _ => True end.
Definition no_voices (s : score) : Prop := forall p, In p (parts s) -> getv s (pvoices (getp s p)) = [].
End SpecOsc.
