(** Vocabulary for global attributes (C17, C18). *)
From Coq Require Import ZArith List String Bool.
From Verif Require Import Base Num ModelPitch ModelDuration ModelInstruments ModelTypes ModelLisp
  ModelScore SpecScore SpecVars SpecParts SpecSolo SpecTiming.
Import ListNotations.

Section SpecGlobals.
Context {N : Num}.

(** The comparisons [<] and [<=] are those of a linear order on the values that
    are equal to themselves (not NaN), and false for the others. *)
Record linear_order : Prop := Linear {
  lo_lt : forall a b, nltb a b = true -> nleb a b = true /\ nleb b a = false;
  lo_le : forall a b, nleb a b = true -> nisnan a = false /\ nisnan b = false /\ nltb b a = false;
  lo_total : forall a b, nisnan a = false -> nisnan b = false -> nltb a b = false -> nleb b a = true;
  lo_trans : forall a b c, nleb a b = true -> nleb b c = true -> nleb a c = true;
  lo_eq : forall a b, neqb a b = true <-> nleb a b = true /\ nleb b a = true }.

(** The recorded global attribute changes with their offsets, as stored. *)
Definition timeline (s : score) : list (num * part_update) :=
  flat_map (fun o => map (pair o) (ga_at (globals s) o)) (ga_offs (globals s)).
(** Recording a change: after those at the same or an earlier offset. *)
Definition placed_at (off : num) (u : part_update) (tl : list (num * part_update)) : list (num * part_update) :=
  filter (fun '(o, _) => nleb o off) tl ++ (off, u) :: filter (fun '(o, _) => negb (nleb o off)) tl.
(** Those after [st], up to and including [en], in order. *)
Definition due (tl : list (num * part_update)) (st en : num) : list part_update :=
  map snd (filter (fun '(o, _) => nltb st o && nleb o en)%bool tl).

(** Making a list of changes to a part, in order. *)
Definition applied (us : list part_update) (p : part) : res part :=
  fold_left (fun r u => rbind r (update_part u true)) us (ROk p).

(** Everything of a part that playing notes and rests does not itself change:
    all but the offsets, the default duration, the assigned channel and the
    pending local override. *)
Definition settings (p : part) : part :=
  set_pdur None (set_pcur n0 (set_plast n0 (set_pchan 0 (set_povr None p)))).

(** No local attribute change since the last event. *)
Definition no_override (s : score) (p : pid) : Prop := povr (getp s p) = None.

(** The score after the first [k] items. *)
Definition after_items (s : score) (l : list item) (k : nat) : score := fst (exec (map play (firstn k l)) s).
(** The part never goes backwards on the way. *)
Definition goes_forward (s : score) (p : pid) (l : list item) : Prop :=
  nleb (plast (getp s p)) (pcur (getp s p)) = true /\
  forall k, (k < List.length l)%nat ->
    nleb (pcur (getp (after_items s l k) p)) (pcur (getp (after_items s l (S k)) p)) = true.

Definition same_kind (u v : part_update) : bool := kind_eqb (kind_of u) (kind_of v).
Definition not_global (l : label) : Prop := l <> LGlobal.
End SpecGlobals.
