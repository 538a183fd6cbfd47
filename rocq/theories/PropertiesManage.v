(** Property theorems C63. *)
From Coq Require Import ZArith String List Bool.
From Verif Require Import Base ModelManage SpecManage ProofManage.
Import ListNotations.
Local Open Scope Z_scope.
Local Open Scope list_scope.

(** C63: as long as the player stays and answers and no reset is asked for, everything
    goes to that player, however the threads are scheduled; no other is looked for. *)
Theorem C63_same : forall p cs s s' es, player s = p -> has p = true -> mgr s = MTop -> hnd s = HIdle ->
  run cs s = Some (s', es) -> healthy p es ->
  player s' = p /\ (forall q m ok, In (ESent q m ok) es -> q = p) /\ (forall a, ~ In (EFound a) es).
Proof. exact same. Qed.
Print Assumptions C63_same.

(** C63: when it has gone or stopped answering, and another one is available, that one
    is used from the end of the second turn on. *)
Theorem C63_recovers : forall q last cs s s' es, has q = true -> mgr s = MTop -> Forall by_manager cs -> run cs s = Some (s', es) ->
  (forall t, ping s = Some t -> t <= last) -> spaced last cs -> only q es ->
  forall t1 p1 rest, turns es = (t1, p1) :: rest -> forall t p, In (t, p) rest -> p = q.
Proof. exact recovers. Qed.
Print Assumptions C63_recovers.

(** C63: a player in use at the end of a turn has answered a ping in this turn, or none
    was due since there was one in a turn that began within the last second. *)
Theorem C63_answers : forall cs s es, run cs start = Some (s, es) ->
  forall a t p b, es = a ++ ETurned t p :: b -> has p = true ->
  In (EPinged t p true) (this_turn a) \/
  ((forall t' q ok, ~ In (EPinged t' q ok) (this_turn a)) /\ exists t' q ok, In (EPinged t' q ok) a /\ t - t' <= 1000).
Proof. exact answers. Qed.
Print Assumptions C63_answers.

(** C63: nothing is sent to a player that was told to shut down, if the server never
    forgets it while it is being asked for. *)
Theorem C63_told : forall cs s es, run cs start = Some (s, es) -> in_order es -> undisturbed es ->
  forall a p m ok b, es = a ++ ESent p m ok :: b -> ~ told a (p_id p).
Proof. exact not_told. Qed.
Print Assumptions C63_told.

(** C63 is false otherwise: the manager can put back the player that was told to shut
    down, and a score is sent to it. *)
Theorem C63_told_refuted : exists cs s es a b, run cs start = Some (s, es) /\ in_order es /\
  es = a ++ ESent player_a Score true :: b /\ told a (p_id player_a).
Proof. exact told_refuted. Qed.
Print Assumptions C63_told_refuted.

(** And an export can be asked of a player that was sent nothing. *)
Theorem C63_export_refuted : exists cs s es a, run cs start = Some (s, es) /\ in_order es /\
  es = a ++ [ESent player_b Export true] /\ In (ESent player_a Score true) a /\ (forall m ok, ~ In (ESent player_b m ok) a).
Proof. exact export_refuted. Qed.
Print Assumptions C63_export_refuted.

(** A score is played and then exported by a fresh player. *)
Example C63_example_told : exists s es, run quiet start = Some (s, es) /\ in_order es /\ undisturbed es /\ told es "aaa" /\
  In (ESent player_b Score true) es /\ In (ESent player_b Export true) es /\ In (ETurned 1000 player_a) es.
Proof. exact quiet_example. Qed.
(** A player goes on while scores are sent at odd moments. *)
Example C63_example_same : (exists es, run (finds 1000 player_a) start = Some (settled, es)) /\ player settled = player_a /\ mgr settled = MTop /\ hnd settled = HIdle /\
  exists s es, run going_on settled = Some (s, es) /\ healthy player_a es /\ In (ESent player_a Score true) es.
Proof. exact (conj settled_reached going_example). Qed.
(** A player stops answering and is replaced. *)
Example C63_example_recovers : mgr settled = MTop /\ Forall by_manager replacing /\ ping settled = Some 1000 /\ spaced 1000 replacing /\
  exists s es, run replacing settled = Some (s, es) /\ only player_b es /\ turns es = [(3000, no_player); (5000, player_b); (7000, player_b)].
Proof. exact replacing_example. Qed.
