(** Vocabulary for the timing properties: what a listener of one part expects. *)
From Coq Require Import ZArith List String Bool.
From Verif Require Import Base Num ModelPitch ModelDuration ModelInstruments ModelTypes ModelLisp
  ModelScore SpecScore SpecVars SpecParts SpecSolo.
Import ListNotations.

Section SpecTiming.
Context {N : Num}.

(** A written note (pitch, slurred?) or rest with its written duration, if any. *)
Record item := Item { it_note : option (pitch * bool); it_dur : duration }.
Definition play (i : item) : update :=
  UPrim (match it_note i with
         | Some (pi, sl) => Note pi (it_dur i) sl
         | None => Rest (it_dur i)
         end).

(** The duration meant: the written one, or else the one in force. *)
Definition meant (written inforce : duration) : duration :=
  match written with Some _ => written | None => inforce end.

(** The durations meant by a list of items, and the one in force afterwards. *)
Fixpoint meants (inforce : duration) (l : list item) : list duration :=
  match l with
  | [] => []
  | i :: t => let d := meant (it_dur i) inforce in d :: meants d t
  end.
Definition inforce_after (inforce : duration) (l : list item) : duration :=
  fold_left (fun d i => meant (it_dur i) d) l inforce.

(** The same items with every duration written. *)
Fixpoint spelled (inforce : duration) (l : list item) : list item :=
  match l with
  | [] => []
  | i :: t => let d := meant (it_dur i) inforce in Item (it_note i) d :: spelled d t
  end.

(** Their lengths in milliseconds, at a tempo and a time scale. *)
Definition lengths (tempo scale : num) (inforce : duration) (l : list item) : list num :=
  map (fun d => nmul (dur_ms_of tempo d) scale) (meants inforce l).

(** Where the i-th event starts if each starts when the previous one ends. *)
Definition start (off : num) (lens : list num) (i : nat) : num := fold_left nadd (firstn i lens) off.

(** How long a note of the given full length sounds. *)
Definition audible (quant : num) (slurred : bool) (len : num) : num :=
  if slurred then len else nmul len quant.

(** The (offset, duration, audible duration) expected of the notes of a list of
    items, given the offset and the full length of each; notes that would not
    sound at all are not played. *)
Definition sounding (quant : num) (l : list item) (offs lens : list num) : list (num * num * num) :=
  flat_map (fun '(i, (off, len)) =>
              match it_note i with
              | Some (_, sl) => let a := audible quant sl len in if nltb n0 a then [(off, len, a)] else []
              | None => []
              end) (combine l (combine offs lens)).
Definition times (h : heard) : num * num * num := (h_off h, h_dur h, h_aud h).

(** No global attribute has been recorded. *)
Definition no_globals (s : score) : Prop := ga_offs (globals s) = [].

(** Not inside a chord (a failed call can leave the score in the middle of one). *)
Definition between_events (s : score) : Prop := chordmode s = false.

(** The least element of a list. *)
Definition shortest (x : num) (l : list num) : Prop := In x l /\ forall y, In y l -> nleb x y = true.
End SpecTiming.

(** A finite length not beyond the largest float64. *)
Definition representable (x : xq) : Prop := exists q, x = Fin q /\ xq_leb x xq_maxval = true.
