(** Model of client/model/duration.go and the duration side of barline.go. *)
From Coq Require Import ZArith List Bool.
From Verif Require Import Base Num.
Import ListNotations.
Local Open Scope Z_scope.

Section Duration.
Context {N : Num}.

(** duration.go:13-187 (DurationComponent implementations) and barline.go
    (a Barline is a component of zero length).  [Duration] is itself a
    component; a nil component slice is [None]. *)
Inductive component :=
| CLen (denominator : num) (dots : Z)     (* NoteLength *)
| CBeats (q : num)                        (* NoteLengthBeats *)
| CMs (q : num)                           (* NoteLengthMs *)
| CSec (q : num)                          (* NoteLengthSeconds *)
| CBar                                    (* Barline *)
| CDur (d : option (list component)).     (* Duration *)

Definition duration := option (list component).

Definition dcomps (d : duration) : list component :=
  match d with Some l => l | None => [] end.

(** duration.go:75-77, NoteLength.Beats; [-nl.Dots] is int32 negation. *)
Definition note_length_beats (den : num) (dots : Z) : num :=
  nmul (ndiv (nofZ 4) den) (nsub (nofZ 2) (npow2 (wrap32 (- dots)))).

(** duration.go:113-115, NoteLengthBeats.Ms. *)
Definition beats_ms (q tempo : num) : num := nmul q (ndiv (nofZ 60000) tempo).

(** Ms of every component kind (duration.go:81,113,150,180,224; barline.go:39). *)
Fixpoint comp_ms (tempo : num) (c : component) {struct c} : num :=
  match c with
  | CLen den dots => beats_ms (note_length_beats den dots) tempo
  | CBeats q => beats_ms q tempo
  | CMs q => q
  | CSec q => nmul q (nofZ 1000)
  | CBar => n0
  | CDur d =>
      match d with
      | None => n0
      | Some l => (fix go (l : list component) (acc : num) : num :=
                     match l with
                     | [] => acc
                     | x :: t => go t (nadd acc (comp_ms tempo x))
                     end) l n0
      end
  end.

(** duration.go:222-232, Duration.Ms. *)
Definition dur_ms_of (tempo : num) (d : duration) : num :=
  fold_left (fun acc c => nadd acc (comp_ms tempo c)) (dcomps d) n0.

(** Beats (duration.go:75,107,144,174,212; barline.go:31); [None] = panic. *)
Fixpoint comp_beats (c : component) {struct c} : option num :=
  match c with
  | CLen den dots => Some (note_length_beats den dots)
  | CBeats q => Some q
  | CMs _ | CSec _ => None
  | CBar => Some n0
  | CDur d =>
      match d with
      | None => Some n0
      | Some l => (fix go (l : list component) (acc : num) : option num :=
                     match l with
                     | [] => Some acc
                     | x :: t => match comp_beats x with
                                 | Some b => go t (nadd acc b)
                                 | None => None
                                 end
                     end) l n0
      end
  end.

Definition dur_beats (d : duration) : option num := comp_beats (CDur d).

(** Validate (duration.go:55,90,122,159,189); barline.go has an empty
    Validate.  [true] = no error. *)
Fixpoint comp_valid (c : component) {struct c} : bool :=
  match c with
  | CLen den _ => negb (nleb den n0)
  | CBeats q | CMs q | CSec q => negb (nleb q n0)
  | CBar => true
  | CDur d =>
      match d with
      | None => true
      | Some l => (fix go (l : list component) : bool :=
                     match l with [] => true | x :: t => comp_valid x && go t end) l
      end
  end.

Definition dur_valid (d : duration) : bool := comp_valid (CDur d).
End Duration.
