(** C68: what "playing only one's own sections" means. *)
From Coq Require Import ZArith List String Bool Arith.
From Verif Require Import Base Num ModelPitch ModelDuration ModelInstruments ModelTypes ModelScore SpecScore SpecVars SpecSolo.
Import ListNotations.

Section SpecSections.
Context {N : Num}.

(** A section of a score: a part declaration and what is written below it. *)
Record section := MkSection { sec_names : list string; sec_alias : string; sec_body : list update }.

(** The score made of the sections, one after the other. *)
Definition written (xs : list section) : list update :=
  flat_map (fun x => UPart (sec_names x) (sec_alias x) :: sec_body x) xs.

(** The same score as the part [p] would have it on its own: all declarations are
    kept; a section that [p] does not take part in is left empty; in the others
    [p] is the only one who plays. *)
Fixpoint alone (p : pid) (xs : list section) (s : score) : score * outcome :=
  match xs with
  | [] => (s, Ok)
  | x :: t =>
      seqo (exec [UPart (sec_names x) (sec_alias x)] s) (fun s =>
      seqo (if existsb (Nat.eqb p) (current s) then exec (sec_body x) (set_current [p] s) else (s, Ok))
           (alone p t))
  end.

(** Nothing by which parts communicate: no markers defined, no global attributes, no
    variables defined; no voices; nothing played on some repetitions only. *)
Definition own_label (l : label) : Prop :=
  match l with LDef _ => False | _ => plain_label l end.
End SpecSections.
