(** Vocabulary for voice groups (C19, C20). *)
From Coq Require Import ZArith List String Bool.
From Verif Require Import Base Num ModelPitch ModelDuration ModelInstruments ModelTypes ModelLisp
  ModelScore SpecScore SpecVars SpecParts SpecSolo.
Import ListNotations.

Section SpecVoices.
Context {N : Num}.

(** The open voices of a part with their numbers, in the order they were started. *)
Definition voices_of (s : score) (p : pid) : list (Z * pid) := getv s (pvoices (getp s p)).
Definition no_open_voice (s : score) : Prop := forall p, In p (current s) -> voices_of s p = [].

(** The state of an instance among the parts [l]: every attribute but the
    channel last used. *)
Definition state_in (l : list pid) (s : score) (i : pid) : option part :=
  option_map (fun p => unchanneled (getp s p)) (find (fun p => Nat.eqb (instance s p) i) l).
(** The state an instance plays on with, and the one it will be resumed with. *)
Definition playing (s : score) (i : pid) : option part := state_in (current s) s i.
Definition resumed (s : score) (i : pid) : option part := state_in (parts s) s i.
(** Offsets, tempo, octave, ... : all but the bookkeeping of voices and the
    mark left by a local attribute change just before (C18). *)
Definition music (p : part) : part := set_ptmpl None (set_pvoices 0 (set_povr None p)).

(** Updates that stay inside the voice group; and that never enter voice [m]. *)
Definition in_group (l : label) : Prop := match l with LEnd | LPart _ _ => False | _ => True end.
Definition without (m : Z) (l : label) : Prop := in_group l /\ l <> LVoice m.

(** [V1: ... V2: ... V1: ...] *)
Definition sections (secs : list (Z * list update)) : list update :=
  flat_map (fun '(n, us) => UVoice n :: us) secs.

(** [v] is the voice of [vs] that reaches furthest: the one started last
    if none reaches further, else the first of those that reach furthest. *)
Definition furthest (s : score) (vs : list (Z * pid)) (v : pid) : Prop :=
  let off x := pcur (getp s (snd x)) in
  exists n,
    (exists before, vs = before ++ [(n, v)] /\ forall x, In x before -> nltb (off (n, v)) (off x) = false) \/
    (exists before after, vs = before ++ (n, v) :: after /\ after <> [] /\
       (forall x, In x before -> nltb (off x) (off (n, v)) = true) /\
       (forall x, In x after -> nltb (off (n, v)) (off x) = false) /\
       nltb (off (last after (n, v))) (off (n, v)) = true).
End SpecVoices.
