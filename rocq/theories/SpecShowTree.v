(** C71: which literals a tree has. *)
From Coq Require Import ZArith List Bool.
From Verif Require Import Base Num ModelScan ModelParser.
Import ListNotations.

Section Spec.
Context {N : Num}.
(** All literals in a tree. *)
Fixpoint literals (n : node) : list literal :=
  match n with Node _ l ch => l :: flat_map literals ch end.
(** Both integers, both numbers, both texts or both characters. *)
Definition same_kind (x y : literal) : Prop :=
  match x, y with
  | LitInt _, LitInt _ | LitNum _, LitNum _ | LitText _, LitText _ | LitRune _, LitRune _ => True
  | _, _ => False
  end.
(** Different literals of the same kind are shown differently. *)
Definition distinct {A : Type} (show : literal -> A) (a b : node) : Prop :=
  forall x y, In x (literals a) -> In y (literals b) -> same_kind x y -> show x = show y -> x = y.
(** Literals are shown on one line, and different ones of the same kind differently. *)
Definition told_apart (show : literal -> list rune) (a b : node) : Prop :=
  (forall x, In x (literals a) \/ In x (literals b) -> ~ In newline (show x)) /\
  distinct show a b.
End Spec.
