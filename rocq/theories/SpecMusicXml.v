(** What a MusicXML document says, for C55. *)
From Coq Require Import ZArith QArith Qcanon String List Bool.
From Verif Require Import Base Num ModelPitch ModelDuration ModelTypes ModelMusicXml.
Import ListNotations.
Local Open Scope string_scope.
Local Open Scope Z_scope.

(** The duration of an element, in divisions. *)
Definition units (e : elem) : option Z :=
  match find_child "duration" e with Some c => digits (text c) | None => None end.

(** The number of dots of a note. *)
Definition dots (e : elem) : Z := Z.of_nat (List.length (find_children "dot" e)).

(** [d] lasts [q] quarter notes. *)
Definition lasts (d : @duration XQ) (q : Q) : Prop := dur_beats d = Some (Fin (Q2Qc q)).
