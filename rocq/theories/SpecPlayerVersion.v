(** C75: the version that a player says it has. *)
From Coq Require Import String Ascii ZArith List Bool.
From Verif Require Import Base ModelScan.
Import ListNotations.
Local Open Scope string_scope.
Local Open Scope list_scope.
Local Open Scope Z_scope.

Definition line_end (r : rune) : Prop := r = 10 \/ r = 13.
(** After [pre], the output names a version [v], which goes on to the end of its line. *)
Definition names (out pre v : list rune) : Prop :=
  exists post, out = pre ++ runes "alda-player " ++ v ++ post /\ v <> [] /\ Forall (fun r => ~ line_end r) v /\
    (post = [] \/ exists r t, post = r :: t /\ line_end r).
(** The first version that it names. *)
Definition says_version (out v : list rune) : Prop :=
  exists pre, names out pre v /\ forall pre' v', names out pre' v' -> (length pre <= length pre')%nat.
