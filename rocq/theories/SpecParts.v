(** Vocabulary for parts, tracks and markers. *)
From Coq Require Import ZArith List String Bool.
From Verif Require Import Base Num ModelPitch ModelDuration ModelInstruments ModelTypes ModelLisp
  ModelScore SpecScore SpecVars.
Import ListNotations.

Section SpecParts.
Context {N : Num}.

(** The identity of the instrument instance a part (or one of its voices)
    belongs to; note events carry it. *)
Definition instance (s : score) (p : pid) : pid := porigin (getp s p).

(** The track number sent to the player for an instance. *)
Definition track_of (s : score) (o : pid) : option Z := aget Nat.eqb o (tracks s).

Definition marker (s : score) (name : string) : option num := aget String.eqb name (markers s).

(** No definition of marker [m] anywhere inside. *)
Definition not_marking (m : string) : update -> Prop := upd_all (fun l => l <> LMark m).
End SpecParts.
