(** What the formatter's round trip depends on. *)
From Coq Require Import String Ascii ZArith List Bool.
From Verif Require Import Base Num ModelScan ModelParser SpecScan.
Import ListNotations.
Local Open Scope list_scope.
Local Open Scope Z_scope.

Section Spec.
Context {N : Num}.

(** A property holds of every node of a tree. *)
Fixpoint everywhere (P : node -> Prop) (n : node) : Prop :=
  P n /\ (let (_, _, ch) := n in (fix all l := match l with [] => True | c :: t => everywhere P c /\ all t end) ch).

(** A note that is slurred although its duration ends with a barline: "c4|~". *)
Definition slurred_at_bar (n : node) : Prop :=
  nty n = NoteNode /\ In TieNode (map nty (nch n)) /\
  exists d cs, In d (nch n) /\ nty d = DurationNode /\ nch d = cs ++ [barline].

(** The text [fmt x] is a decimal number that reads as [x]. *)
Definition reads_back (fmt : num -> list rune) (neg : bool) (x : num) : Prop :=
  exists ds fs t, digits ds /\ ds <> [] /\ decimal ds fs t /\
    fmt x = (if neg then [rn "-"] else []) ++ t /\ float_of neg ds fs = x.

(** The number in a node, if any, is printed so that it reads as the same number;
    only numbers in S-expressions may be negative.  (Infinite numbers, which
    result from reading far too large ones, are not.) *)
Definition number_printed (fmt : num -> list rune) (n : node) : Prop :=
  match n with
  | Node LispNumberNode (LitNum x) _ => exists neg, reads_back fmt neg x
  | Node _ (LitNum x) _ => reads_back fmt false x
  | _ => True
  end.

(** Somewhere "*0" comes right before a barline. *)
Definition zero_before_bar (ts : list token) : Prop :=
  exists p t b q, ts = p ++ t :: b :: q /\ tkind t = TRepeat 0 /\ tkind b = TBarline.

(** A text of spaces, tabs and line ends. *)
Definition blank_text (t : list rune) : Prop := Forall (fun r => In r [space; tab; newline; creturn]) t.
End Spec.
