(** Vocabulary for the properties of variables and of crash freedom. *)
From Coq Require Import ZArith List String Bool.
From Verif Require Import Base Num ModelPitch ModelDuration ModelInstruments ModelTypes ModelLisp
  ModelScore SpecScore.
Import ListNotations.

Section SpecVars.
Context {N : Num}.

(** More calls of Score.Update on a score. *)
Definition continue (s : score) (calls : list (list update)) : score :=
  fold_left (fun s us => fst (exec us s)) calls s.

(** No variable reference anywhere inside. *)
Definition no_refs : update -> Prop :=
  upd_all (fun l => match l with LRef _ => False | _ => True end).

(** No definition of [x] anywhere inside. *)
Definition not_defining (x : string) : update -> Prop := upd_all (fun l => l <> LDef x).

Definition lookup (s : score) (x : string) : option (list update) := aget String.eqb x (variables s).

(** [resolves vars u v]: [v] is [u] with every variable reference replaced by
    the events the variable has in [vars] and every Lisp form by its value. *)
Inductive resolves (vars : list (string * list update)) : update -> update -> Prop :=
| R_ref n es : aget String.eqb n vars = Some es -> resolves vars (UVarRef n) (USeq es)
| R_lisp els q : eval_update els = ROk (Some q) -> resolves vars (ULisp els) (UPrim q)
| R_lisp_nil els : eval_update els = ROk None -> resolves vars (ULisp els) UNil
| R_prim q : resolves vars (UPrim q) (UPrim q)
| R_nil : resolves vars UNil UNil
| R_barline : resolves vars UBarline UBarline
| R_marker n : resolves vars (UMarker n) (UMarker n)
| R_at_marker n : resolves vars (UAtMarker n) (UAtMarker n)
| R_voice n : resolves vars (UVoice n) (UVoice n)
| R_voice_end : resolves vars UVoiceEnd UVoiceEnd
| R_chord es vs : Forall2 (resolves vars) es vs -> resolves vars (UChord es) (UChord vs)
| R_cram es vs d : Forall2 (resolves vars) es vs -> resolves vars (UCram es d) (UCram vs d)
| R_seq es vs : Forall2 (resolves vars) es vs -> resolves vars (USeq es) (USeq vs)
| R_def n es vs : Forall2 (resolves vars) es vs -> resolves vars (UVarDef n es) (UVarDef n vs)
| R_repeat e v n : resolves vars e v -> resolves vars (URepeat e n) (URepeat v n)
| R_onreps rs e v : resolves vars e v -> resolves vars (UOnReps rs e) (UOnReps rs v).

(** What the parser and the Lisp attribute functions never let through: explicit
    channels out of range, a part declaration without names, 2^31-1
    repetitions, a Lisp form on which the interpreter crashes. *)
Definition safe : update -> Prop :=
  upd_all (fun l => match l with
                    | LChan c => (0 <= c <= 15)%Z
                    | LPart names _ => names <> []
                    | LTimes n => n <> max_int32
                    | LLispPanic => False
                    | _ => True
                    end).

(** An outcome the caller can handle: success or an error value. *)
Definition handled (o : outcome) : Prop :=
  match o with Ok | Err _ => True | Panic _ | Hang | OutOfFuel => False end.
End SpecVars.
