(** What C54 depends on. *)
From Coq Require Import String ZArith List Bool.
From Verif Require Import Base Num ModelPitch ModelDuration ModelTypes ModelLisp ModelScan ModelAst.
Import ListNotations.
Local Open Scope Z_scope.

(** A Unicode scalar value; text that Go has read consists of them. *)
Definition scalar (r : rune) : Prop := 0 <= r < 55296 \/ 57344 <= r < 1114112.
(** A string that is the encoding of a text. *)
Definition encoded (s : string) : Prop := exists rs, Forall scalar rs /\ s = utf8 rs.

Section Spec.
Context {N : Num}.

(** Somewhere the empty alias is written, as in piano "": *)
Definition empty_alias (ts : list token) : Prop := exists t, In t ts /\ tkind t = TAlias [].

(** ** What can be written as Alda *)
(** A key signature of sharps and flats. *)
Definition plain_accs (accs : list accidental) : Prop := accs <> [] /\ Forall (fun a => a <> Natural) accs.
Definition plain_key (k : keysig) : Prop := forall l accs, ks_get k l = Some accs -> plain_accs accs.
(** A length: a denominator with dots, milliseconds, seconds, or a barline. *)
Definition length_writable (c : component) : Prop :=
  match c with CLen _ k => 0 <= k | CMs _ | CSec _ | CBar => True | _ => False end.
Definition dur_writable (d : duration) : Prop :=
  match d with None => True | Some cs => cs <> [] /\ Forall length_writable cs end.
Definition prim_writable (p : prim) : Prop :=
  match p with
  | Note (PLetter _ accs) d _ => accs <> Some [] /\ dur_writable d
  | Rest d => dur_writable d
  | Attr (POctave _) | Attr POctUp | Attr POctDown => True
  | Attr (PDynamic m) => In m (map fst dynamic_volumes)
  | Attr (PKey k) => plain_key k
  | _ => False
  end.
(** ... and those that the text of a score contains. *)
Definition prim_in_text (p : prim) : Prop :=
  match p with
  | Note (PLetter _ accs) d _ => accs <> Some [] /\ dur_writable d
  | Rest d => dur_writable d
  | Attr (POctave _) | Attr POctUp | Attr POctDown => True
  | _ => False
  end.
Fixpoint form_writable (f : lform) : Prop :=
  match f with
  | LSym s | LStr s => encoded s
  | LNum _ => True
  | LQuoted g => form_writable g
  | LList l => (fix all l := match l with [] => True | x :: t => form_writable x /\ all t end) l
  | _ => False
  end.
(** An end of a voice group only where a voice has begun; a part begins outside
    voices. *)
Fixpoint ends_right (inside : bool) (us : list update) : bool :=
  match us with
  | [] => true
  | UVoice _ :: t => ends_right true t
  | UVoiceEnd :: t => inside && ends_right false t
  | UPart _ _ :: t => ends_right false t
  | _ :: t => ends_right inside t
  end.
Definition is_event (u : update) : Prop :=
  match u with UVoice _ | UVoiceEnd | UPart _ _ => False | _ => True end.
Section Writable.
Variable prim_ok : prim -> Prop.
Fixpoint writable (u : update) : Prop :=
  let all := fix all (l : list update) : Prop := match l with [] => True | x :: t => writable x /\ all t end in
  match u with
  | UPrim p => prim_ok p
  | ULisp els => form_writable (LList els)
  | UBarline | UVoice _ | UVoiceEnd => True
  | UChord es => es <> [] /\ ends_right false es = true /\ all es
  | UCram es d => ends_right false es = true /\ dur_writable d /\ all es
  | USeq es => ends_right false es = true /\ all es
  | URepeat e _ => is_event e /\ writable e
  | UOnReps rs e => rs <> [] /\ is_event e /\ writable e
  | UMarker s | UAtMarker s | UVarRef s => encoded s
  | UVarDef s es => encoded s /\ ends_right false es = true /\ all es
  | UPart _ _ | UNil => False
  end.
Definition score_writable (us : list update) : Prop :=
  ends_right false us = true /\
  Forall (fun u => match u with
                   | UPart names alias => names <> [] /\ Forall encoded names /\ encoded alias
                   | _ => writable u
                   end) us.
End Writable.

(** [u'] is [u], except that dynamics and key signatures may have become
    S-expressions that evaluate to them. *)
Inductive reads_as : update -> update -> Prop :=
| ra_same u : reads_as u u
| ra_dynamic m els : eval (LList els) = ROk (LUpd (Attr (PDynamic m))) -> reads_as (UPrim (Attr (PDynamic m))) (ULisp els)
| ra_key k els : eval (LList els) = ROk (LUpd (Attr (PKey k))) -> reads_as (UPrim (Attr (PKey k))) (ULisp els)
| ra_chord es es' : Forall2 reads_as es es' -> reads_as (UChord es) (UChord es')
| ra_cram es es' d : Forall2 reads_as es es' -> reads_as (UCram es d) (UCram es' d)
| ra_seq es es' : Forall2 reads_as es es' -> reads_as (USeq es) (USeq es')
| ra_def s es es' : Forall2 reads_as es es' -> reads_as (UVarDef s es) (UVarDef s es')
| ra_repeat e e' k : reads_as e e' -> reads_as (URepeat e k) (URepeat e' k)
| ra_on_reps rs e e' : reads_as e e' -> reads_as (UOnReps rs e) (UOnReps rs e').
End Spec.
