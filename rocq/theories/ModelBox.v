(** Model of messages in a box (client/text/formatting.go). *)
From Coq Require Import ZArith List Bool.
From Verif Require Import Base ModelScan ModelShowTree.
Import ListNotations.
Local Open Scope Z_scope.

(** strings.Split(t, "\n"). *)
Fixpoint split_lines (t : list rune) : list (list rune) :=
  match t with
  | [] => [[]]
  | r :: t' =>
      if r =? newline then [] :: split_lines t'
      else match split_lines t' with [] => [[r]] | l :: ls => (r :: l) :: ls end
  end.

(** The characters that boxes are made of. *)
Definition horizontal : rune := 9472.
Definition vertical : rune := 9474.
Definition corner_tl : rune := 9484.
Definition corner_tr : rune := 9488.
Definition corner_bl : rune := 9492.
Definition corner_br : rune := 9496.

Section Box.
(** The stripansi package: a text without terminal codes. *)
Variable strip : list rune -> list rune.

(** formatting.go:25-27, lineLength. *)
Definition line_length (l : list rune) : nat := length (strip l).
(** formatting.go:36-43. *)
Definition longest (ls : list (list rune)) : nat := fold_left (fun m l => if (m <? line_length l)%nat then line_length l else m) ls 0%nat.

(** formatting.go:33-67, Boxed; the lines that are written one by one there are joined here. *)
Definition boxed (t : list rune) : list rune :=
  let ls := split_lines t in
  let w := longest ls in
  let blank := vertical :: repeat space (w + 2) ++ [vertical] in
  join_lines
    ((corner_tl :: repeat horizontal (w + 2) ++ [corner_tr]) :: blank ::
     map (fun l => [vertical; space] ++ l ++ repeat space (w - line_length l) ++ [space; vertical]) ls ++
     [blank; corner_bl :: repeat horizontal (w + 2) ++ [corner_br]]).
End Box.
