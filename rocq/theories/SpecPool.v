(** What is expected of the player pool (C49). *)
From Coq Require Import ZArith List String Ascii Bool.
From Verif Require Import Base ModelPool.
Import ListNotations.
Local Open Scope string_scope.
Local Open Scope list_scope.

(** Files announcing a player that is ready, or on its way. *)
Definition says (st : string) (f : pfile) : bool := match f_content f with CState s _ => String.eqb s st | _ => false end.
Definition on_hand (fs : list pfile) : nat := List.length (filter (fun f => says "ready" f || says "starting" f) fs).

(** A state file named as players name them: an id (without ".json" in it), then ".json". *)
Definition named (f : pfile) (id : string) : Prop := f_name f = (id ++ ".json")%string.

(** Filling the pool: look at the directory, then start as many players as are
    missing to three. *)
Definition filling (oks : list bool) (tr : list action) : Prop :=
  exists fs, tr = Looked fs :: map Started oks /\ List.length oks = 3 - on_hand fs.

(** The player [p] is announced as ready by a file in [fs] that is not stale. *)
Definition announced_ready (p : player) (fs : list pfile) : Prop :=
  exists f, In f fs /\ (f_age f <= 120 * 1000000000)%Z /\ f_content f = CState "ready" (p_port p) /\ p_id p = id_of (f_name f).

(** Unsuccessful attempts: each looked at the directory, pinged a player
    announced there as ready without success, and deleted its state file; then
    the pool was filled (unless spawning is disabled). *)
Inductive attempts (disabled : bool) : list action -> Prop :=
| att_none : attempts disabled []
| att_one fs p left oks tr rest :
    announced_ready p fs ->
    (forall f, In f left -> f_name f <> (p_id p ++ ".json")%string) ->
    (if disabled then tr = [] else filling oks tr /\ forallb (fun ok => ok) oks = true) ->
    attempts disabled rest ->
    attempts disabled (Looked fs :: Pinged (p_port p) false :: Forgot (p_id p) left :: tr ++ rest).

(** Names as the players choose them. *)
Definition usual_name (f : pfile) : Prop := exists id, named f id /\ ~ In "."%char (list_ascii_of_string id).
(** Other processes announce no new ready players meanwhile. *)
Definition no_newcomers (w : world) : Prop :=
  forall n fs f, In f (w_others w n fs) -> says "ready" f = true ->
    exists g, In g fs /\ f_name g = f_name f /\ says "ready" g = true.
