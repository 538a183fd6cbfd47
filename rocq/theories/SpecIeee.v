(** C64: what is assumed of tempos and offsets held in IEEE doubles. *)
From Coq Require Import ZArith List Sorted SpecFloat.
From Verif Require Import Base Num.
Local Open Scope Z_scope.

(** A tempo that the player can be sent (OSC carries it in single precision):
    a double from the least to beyond the greatest positive single. *)
Definition tempo64 (b : @num B64) : Prop :=
  valid_binary 53 1024 b = true /\ nleb (npow2 (-149)) b = true /\ nleb b (npow2 128) = true.
(** Tempo changes in chronological order, their offsets Int32 values. *)
Definition chronological64 (l : list (Z * @num B64)) : Prop :=
  StronglySorted (fun a b => fst a <= fst b) l /\ Forall (fun x => 0 <= fst x < 2 ^ 31 /\ tempo64 (snd x)) l.
