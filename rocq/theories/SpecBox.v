(** C72: what a message in a box looks like. *)
From Coq Require Import ZArith List Bool.
From Verif Require Import Base ModelScan ModelBox.
Import ListNotations.
Local Open Scope Z_scope.

(** Box characters and spaces. *)
Definition frame_char (r : rune) : Prop := In r [space; horizontal; vertical; corner_tl; corner_tr; corner_bl; corner_br].
(** Terminal codes in a line end in that line: what stands around it stays visible. *)
Definition self_contained (strip : list rune -> list rune) (l : list rune) : Prop :=
  forall a b, Forall frame_char a -> Forall frame_char b -> length (strip (a ++ l ++ b)) = (length a + length (strip l) + length b)%nat.
