(** Specification of durations over exact rationals (C28): a tree of written
    lengths, its number of beats and its fixed milliseconds. *)
From Coq Require Import ZArith QArith Qcanon List.
From Verif Require Import Base Num ModelDuration.
Import ListNotations.
Local Open Scope Qc_scope.

Inductive xdur :=
| XLen (d : Qc) (dots : nat)   (* 1/d note with dots *)
| XBeats (q : Qc)
| XMs (q : Qc)
| XSec (q : Qc)
| XBar
| XTied (l : list xdur).

(** The model's component standing for a written length. *)
Fixpoint embed (x : xdur) : @component XQ :=
  match x with
  | XLen d k => CLen (Fin d) (Z.of_nat k)
  | XBeats q => CBeats (Fin q)
  | XMs q => CMs (Fin q)
  | XSec q => CSec (Fin q)
  | XBar => CBar
  | XTied l => CDur (Some (map embed l))
  end.

Definition two : Qc := Q2Qc 2.
Definition four : Qc := Q2Qc 4.

(** Every dot adds half of what the previous one added. *)
Fixpoint half_pow (n : nat) : Qc := match n with O => 1 | S m => half_pow m / two end.
Fixpoint dotted (n : nat) : Qc := match n with O => 1 | S m => dotted m + half_pow (S m) end.

Definition sum_qc {A} (f : A -> Qc) : list A -> Qc :=
  fix go l := match l with [] => 0 | x :: t => f x + go t end.

(** Beats of the tempo-dependent lengths. *)
Fixpoint beats (x : xdur) : Qc :=
  match x with
  | XLen d k => four / d * dotted k
  | XBeats q => q
  | XMs _ | XSec _ | XBar => 0
  | XTied l => sum_qc beats l
  end.
(** Milliseconds of the tempo-independent lengths. *)
Fixpoint fixed_ms (x : xdur) : Qc :=
  match x with
  | XMs q => q
  | XSec q => q * Q2Qc 1000
  | XLen _ _ | XBeats _ | XBar => 0
  | XTied l => sum_qc fixed_ms l
  end.

(** Total milliseconds at a tempo in beats per minute. *)
Definition ms_at (t : Qc) (x : xdur) : Qc := beats x * (Q2Qc 60000 / t) + fixed_ms x.

(** Every denominator is non-zero, every number of dots an int32. *)
Fixpoint meaningful (x : xdur) : Prop :=
  match x with
  | XLen d k => d <> 0 /\ (Z.of_nat k <= max_int32)%Z
  | XTied l => fold_right (fun y P => meaningful y /\ P) True l
  | _ => True
  end.

(** Every written length is positive. *)
Fixpoint positive_lengths (x : xdur) : Prop :=
  match x with
  | XLen d _ => 0 < d
  | XBeats q | XMs q | XSec q => 0 < q
  | XBar => True
  | XTied l => fold_right (fun y P => positive_lengths y /\ P) True l
  end.
