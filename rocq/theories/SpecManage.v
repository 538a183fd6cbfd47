(** Words to state C63 with. *)
From Coq Require Import ZArith String List Bool.
From Verif Require Import Base ModelManage.
Import ListNotations.
Local Open Scope Z_scope.
Local Open Scope list_scope.

(** The player was told to shut down. *)
Definition told (es : list event) (id : string) : Prop :=
  exists p, In (ESent p Shutdown true) es /\ p_id p = id.

(** A world in order: what is found by an identity has it and players have one; a
    player that was told to shut down is not offered as available; and nothing
    reaches a player that does not exist. *)
Definition in_order (es : list event) : Prop :=
  (forall id p, In (EAsked id (Found p)) es -> p_id p = id /\ id <> ""%string) /\
  (forall a p b, es = a ++ EFound (Some p) :: b -> ~ told a (p_id p) /\ p_id p <> ""%string) /\
  (forall p m, In (ESent p m true) es -> p_id p <> ""%string).

(** The request handler never forgets the player while the manager is in the middle
    of asking about one. *)
Definition undisturbed (es : list event) : Prop := ~ In (EUnset true) es.

(** The player [p] lives and answers, and nobody tells it to shut down. *)
Definition healthy (p : pstate) (es : list event) : Prop :=
  (forall a, In (EAsked (p_id p) a) es -> a = Found p \/ a = OtherError) /\
  (forall t q ok, In (EPinged t q ok) es -> q = p -> ok = true) /\
  (forall q ok, ~ In (ESent q Shutdown ok) es).

(** Only [q] is there and answers. *)
Definition only (q : pstate) (es : list event) : Prop :=
  (forall id p, In (EAsked id (Found p)) es -> p_id p = id) /\
  (forall a, In (EAsked (p_id q) a) es -> a = Found q) /\
  (forall a, In (EFound a) es -> a = Some q) /\
  (forall t p ok, In (EPinged t p ok) es -> ok = true <-> p = q).

(** The ends of the turns of the loop: when each began, and the player then. *)
Fixpoint turns (es : list event) : list (Z * pstate) :=
  match es with
  | [] => []
  | ETurned t p :: r => (t, p) :: turns r
  | _ :: r => turns r
  end.

(** What happened since the end of the last turn. *)
Definition this_turn (es : list event) : list event :=
  fold_left (fun acc e => match e with ETurned _ _ => [] | _ => acc ++ [e] end) es [].

(** The handler does nothing. *)
Definition by_manager (c : choice) : Prop :=
  match c with MStep | MTime _ | MAnswer _ | MAvailable _ | MReply _ => True | _ => False end.

(** Turns begin more than a second after each other. *)
Fixpoint spaced (last : Z) (cs : list choice) : Prop :=
  match cs with
  | [] => True
  | MTime t :: r => 1000 < t - last /\ spaced t r
  | _ :: r => spaced last r
  end.
