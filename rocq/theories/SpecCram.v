(** What a cram expression should sound like, in exact arithmetic (C10). *)
From Coq Require Import ZArith QArith Qcanon List String Bool.
From Verif Require Import Base Num ModelPitch ModelDuration ModelInstruments ModelTypes ModelLisp
  ModelScore SpecScore SpecVars SpecParts SpecSolo SpecTiming.
Import ListNotations.
Local Open Scope Qc_scope.

Notation xitem := (@item XQ).
Notation xduration := (@duration XQ).

(** Notes and rests, (non-empty) chords of them, and crams of all these. *)
Inductive cev :=
| EvItem (i : xitem)
| EvChord (i : xitem) (l : list xitem)
| EvCram (l : list cev) (d : xduration).
Fixpoint written (e : cev) : @update XQ :=
  match e with
  | EvItem i => play i
  | EvChord i l => UChord (map play (i :: l))
  | EvCram l d => UCram (map written l) d
  end.

(** A duration in milliseconds at a tempo (0 if it is not a number). *)
Definition ms (t : Qc) (d : xduration) : Qc :=
  match dur_ms_of (N := XQ) (Fin t) d with Fin q => q | _ => 0 end.
(** It lasts for a positive time that a float64 can hold. *)
Definition lasting (t : Qc) (d : xduration) : Prop :=
  dur_ms_of (N := XQ) (Fin t) d = Fin (ms t d) /\ 0 < ms t d /\ xq_leb (Fin (ms t d)) xq_maxval = true.

Fixpoint least (x : Qc) (l : list Qc) : Qc :=
  match l with [] => x | y :: t => least (if qc_ltb x y then x else y) t end.

(** The time an event asks for, given the duration in force... *)
Definition weight (t : Qc) (dflt : xduration) (e : cev) : Qc :=
  match e with
  | EvItem i => ms t (meant (it_dur i) dflt)
  | EvChord i l => let d := meant (it_dur i) dflt in least (ms t d) (map (ms t) (meants d l))
  | EvCram _ d => ms t (meant d dflt)
  end.
(** ... and the duration in force after it. *)
Definition after (dflt : xduration) (e : cev) : xduration :=
  match e with
  | EvItem i => meant (it_dur i) dflt
  | EvChord i l => inforce_after dflt (i :: l)
  | EvCram _ d => meant d dflt
  end.
Fixpoint total (t : Qc) (dflt : xduration) (l : list cev) : Qc :=
  match l with [] => 0 | e :: r => weight t dflt e + total t (after dflt e) r end.

(** The note of an item, if any and if it sounds at all: offset, length,
    audible length. *)
Definition sound_of (q : Qc) (i : xitem) (off len : Qc) : list (Qc * Qc * Qc) :=
  match it_note i with
  | Some (_, slurred) =>
      let a := if slurred then len else len * q in
      if qc_ltb 0 a then [(off, len, a)] else []
  | None => []
  end.

(** The notes of an event that starts at [off] with every length multiplied by
    [f]: the events of a cram follow one another, multiplied so that together
    they fill the time the cram itself is given. *)
Fixpoint placed (t q off f : Qc) (dflt : xduration) (e : cev) {struct e} : list (Qc * Qc * Qc) :=
  match e with
  | EvItem i => sound_of q i off (ms t (meant (it_dur i) dflt) * f)
  | EvChord i l =>
      flat_map (fun '(j, d) => sound_of q j off (ms t d * f)) (combine (i :: l) (meants dflt (i :: l)))
  | EvCram l d =>
      let f' := f * ms t (meant d dflt) / total t dflt l in
      (fix go (l : list cev) (off : Qc) (dflt : xduration) {struct l} : list (Qc * Qc * Qc) :=
         match l with
         | [] => []
         | e :: r => placed t q off f' dflt e ++ go r (off + weight t dflt e * f') (after dflt e)
         end) l off dflt
  end.
Definition as_num (x : Qc * Qc * Qc) : xq * xq * xq := let '(a, b, c) := x in (Fin a, Fin b, Fin c).

(** Fully annotated: the event that follows a nested cram with a duration of its
    own has a duration, too.  [b]: no annotation needed here.  The result is
    the same for the next event; [None] = an annotation is missing. *)
Fixpoint annotated (b : bool) (e : cev) {struct e} : option bool :=
  match e with
  | EvItem i | EvChord i _ => match it_dur i with Some _ => Some true | None => if b then Some true else None end
  | EvCram l d =>
      match (fix go (b : bool) (l : list cev) {struct l} : option bool :=
               match l with
               | [] => Some b
               | e :: r => match annotated b e with Some b' => go b' r | None => None end
               end) true l with
      | None => None
      | Some _ => match d with Some _ => Some false | None => if b then Some true else None end
      end
  end.

(** No cram is empty, and every written duration is [lasting]. *)
Fixpoint proper (t : Qc) (e : cev) {struct e} : Prop :=
  let ok d := match d with Some _ => lasting t d | None => True end in
  match e with
  | EvItem i => ok (it_dur i)
  | EvChord i l => ok (it_dur i) /\ Forall (fun j => ok (it_dur j)) l
  | EvCram l d =>
      l <> [] /\ ok d /\
      (fix go (l : list cev) {struct l} : Prop := match l with [] => True | e :: r => proper t e /\ go r end) l
  end.
