(** Vocabulary for the times at which MIDI sequences and files sound (C60). *)
From Coq Require Import ZArith QArith Qcanon List.
From Verif Require Import Base Num ModelPlayer SpecPlayer SpecApply.
Import ListNotations.
Local Open Scope Z_scope.

(** When a tick of a standard MIDI file of 128 ticks per quarter note is reached,
    in 128ths of a microsecond: a quarter note takes [us] microseconds until the
    first change of tempo (ticks and microseconds per quarter note). *)
Fixpoint reached (l : list (Z * Z)) (from us t : Z) : Z :=
  match l with
  | (k, us') :: r => if k <=? t then (k - from) * us + reached r k us' t else (t - from) * us
  | [] => (t - from) * us
  end.
(** In milliseconds, from the start of the file; without tempo messages the tempo
    is 120. *)
Definition sounds_at (l : list (Z * Z)) (t : Z) : Q := inject_Z (reached l 0 500000 t) / 128000.

(** Half a tick in milliseconds; those of the tempos in force before an offset. *)
Definition half_tick (b : @num XQ) : Q := match b with Fin q => 30000 / (128 * this q) | _ => 0 end.
Fixpoint slack_of (l : list (Z * @num XQ)) (z : Z) : Q :=
  match l with [] => 0 | (o, b) :: r => (if o <? z then half_tick b else 0) + slack_of r z end.
Definition slack (hist : list (Z * @num XQ)) (z : Z) : Q := slack_of ((0, nofZ 120) :: hist) z.
(** A tempo message has three bytes. *)
Definition quick (x : Z * @num XQ) : Prop := exists b : Qc, snd x = Fin b /\ (60000000 <= 16777215 * this b)%Q.
