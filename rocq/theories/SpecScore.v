(** Vocabulary for the properties of scores. *)
From Coq Require Import ZArith List String Bool.
From Verif Require Import Base Num ModelPitch ModelDuration ModelInstruments ModelTypes ModelLisp
  ModelScore.
Import ListNotations.

Section SpecScore.
Context {N : Num}.

(** A score being built by any number of calls of Score.Update, each with any
    list of updates; a failing call keeps what it did so far and the next call
    goes on from there. *)
Definition session (calls : list (list update)) : score :=
  fold_left (fun s us => fst (exec us s)) calls new_score.

(** The note sounds at time [t]: from its offset for its audible duration. *)
Definition sounds (e : note_event) (t : num) : Prop :=
  nleb (ev_off e) t = true /\ nltb t (nadd (ev_off e) (ev_aud e)) = true.

(** The only law of numbers the channel property needs. *)
Definition ordered : Prop :=
  forall a b c : num, nleb a b = true -> nltb b c = true -> nltb a c = true.

(** Instrument of a part. *)
Definition plays_percussion (s : score) (p : pid) : Prop := iperc (pstock (getp s p)) = true.

Definition failed (o : outcome) : Prop := o <> Ok.
(** Labels of what an update can do, for properties about restricted updates:
    set an explicit channel, set a global attribute, define a marker, jump to a
    marker, define or use a variable, repeat something a number of times, play
    something on some repetitions only, crash in the Lisp interpreter, switch to
    a voice, end a voice group, declare parts, set the tempo (but not globally). *)
Inductive label :=
| LChan (c : Z) | LMark (name : string) | LDef (name : string) | LRef (name : string)
| LTimes (n : Z) | LOnReps (rs : list (Z * Z)) | LGlobal | LJump (name : string) | LLispPanic
| LVoice (n : Z) | LEnd | LPart (names : list string) (alias : string) | LTempo.

Definition pu_all (L : label -> Prop) (u : part_update) : Prop :=
  match u with PChannel c => L (LChan c) | _ => True end.
Definition prim_all (L : label -> Prop) (q : prim) : Prop :=
  match q with Attr (PTempo _) | Attr (PMetric _) => L LTempo | Attr u => pu_all L u | GAttr u => L LGlobal /\ pu_all L u | _ => True end.

(** Everything an update and the events inside it do is allowed by [L]. *)
Fixpoint upd_all (L : label -> Prop) (u : update) {struct u} : Prop :=
  let all := (fix go (l : list update) : Prop :=
                match l with [] => True | e :: t => upd_all L e /\ go t end) in
  match u with
  | UPrim q => prim_all L q
  | ULisp els => match eval_update els with
                 | ROk (Some q) => prim_all L q
                 | RPanic _ => L LLispPanic
                 | _ => True
                 end
  | UChord es | UCram es _ | USeq es => all es
  | UVarDef n es => L (LDef n) /\ all es
  | UVarRef n => L (LRef n)
  | UMarker n => L (LMark n)
  | URepeat e n => L (LTimes n) /\ upd_all L e
  | UOnReps rs e => L (LOnReps rs) /\ upd_all L e
  | UVoice n => L (LVoice n)
  | UVoiceEnd => L LEnd
  | UPart names alias => L (LPart names alias)
  | UAtMarker n => L (LJump n)
  | UNil | UBarline => True
  end.
End SpecScore.
