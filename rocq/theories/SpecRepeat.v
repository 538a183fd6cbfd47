(** Vocabulary for repeats and endings. *)
From Coq Require Import ZArith List String Bool.
From Verif Require Import Base Num ModelPitch ModelDuration ModelInstruments ModelTypes ModelLisp
  ModelScore SpecScore SpecVars SpecParts SpecSolo.
Import ListNotations.

Section SpecRepeat.
Context {N : Num}.

(** The score with the repetition counters of all parts forgotten (only endings
    look at them). *)
Definition counterless (s : score) : score := set_heap (map (set_prep 0) (heap s)) s.
Definition same_but_counters (r r' : score * outcome) : Prop :=
  snd r = snd r' /\ counterless (fst r) = counterless (fst r').

(** No endings. *)
Definition no_endings (l : label) : Prop := match l with LOnReps _ => False | _ => True end.

(** What a body of a repeat may contain for C13: endings, but no repeats,
    voices, part declarations or variable definitions. *)
Definition body_label (l : label) : Prop :=
  match l with LTimes _ | LVoice _ | LEnd | LPart _ _ | LDef _ => False | _ => True end.
(** What variables may contain: moreover no endings. *)
Definition var_label (l : label) : Prop :=
  match l with LOnReps _ => False | LDef _ => True | _ => body_label l end.

(** Repetition [k] is in one of the ranges. *)
Definition on_repetition (k : Z) (rs : list (Z * Z)) : bool :=
  existsb (fun r => Z.leb (fst r) k && Z.leb k (snd r)) rs.

(** The body as written out for repetition [k]: endings that include [k] are
    kept without their ranges, the others left out. *)
Fixpoint written_out (k : Z) (u : update) {struct u} : update :=
  match u with
  | UOnReps rs e => if on_repetition k rs then written_out k e else USeq []
  | UCram es d => UCram (map (written_out k) es) d
  | USeq es => USeq (map (written_out k) es)
  | URepeat e n => URepeat (written_out k e) n
  | _ => u
  end.
(** Endings occur inside sequences and crams, not inside chords (the grammar
    does not allow them there). *)
Fixpoint no_endings_in_chords (u : update) {struct u} : Prop :=
  let all := (fix go (l : list update) : Prop :=
                match l with [] => True | e :: t => no_endings_in_chords e /\ go t end) in
  match u with
  | UChord es => Forall (upd_all no_endings) es
  | UCram es _ | USeq es => all es
  | UOnReps _ e | URepeat e _ => no_endings_in_chords e
  | _ => True
  end.
(** All repetitions 1..n written out. *)
Definition all_written_out (n : nat) (u : update) : list update :=
  map (fun k => written_out (Z.of_nat k) u) (seq 1 n).
End SpecRepeat.
