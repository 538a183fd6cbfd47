(** Vocabulary for part declarations (C22). *)
From Coq Require Import ZArith List String Bool.
From Verif Require Import Base Num ModelPitch ModelDuration ModelInstruments ModelTypes ModelLisp
  ModelScore SpecScore SpecVars SpecParts SpecSolo.
Import ListNotations.
Local Open Scope string_scope.

Section SpecDeclare.
Context {N : Num}.

(** The stock instrument of a part. *)
Definition kind (s : score) (p : pid) : string := iname (pstock (getp s p)).
(** What an alias denotes, as instrument instances. *)
Definition denotes (s : score) (a : string) : list pid := map (instance s) (named_parts s a).
Definition aliased (s : score) (p : pid) : Prop := exists a ps, In (a, ps) (aliases s) /\ In p ps.
(** The instances that are playing. *)
Definition players (s : score) : list pid := map (instance s) (current s).

(** The name of an instrument or a defined alias. *)
Definition known (s : score) (n : string) : Prop := stock_instrument n <> None \/ named_parts s n <> [].

(** Aliases are given to single instruments only and contain no dot. *)
Definition tame (l : label) : Prop :=
  match l with
  | LPart names a => a = "" \/ (List.length names = 1%nat /\ dot_access a = false)
  | _ => True
  end.
(** ... and moreover instruments are declared one by one. *)
Definition one_by_one (l : label) : Prop :=
  match l with LPart names a => List.length names = 1%nat /\ dot_access a = false | _ => True end.
(** ... and moreover [n] is never defined as an alias. *)
Definition tame_but (n : string) (l : label) : Prop :=
  tame l /\ match l with LPart _ a => a <> n | _ => True end.
End SpecDeclare.
