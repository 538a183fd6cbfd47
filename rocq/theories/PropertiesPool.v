(** C49: the player pool. *)
From Coq Require Import ZArith List String Ascii Bool Lia.
From Verif Require Import Base ModelPool SpecPool ProofPool.
Import ListNotations.
Local Open Scope string_scope.
Local Open Scope list_scope.

(** C49: whatever other processes do, filling the pool looks at the state files
    once and starts exactly as many players as are missing to three; it succeeds
    iff all of them start.  It does nothing if spawning is disabled or something
    else fails first. *)
Theorem C49_fill : forall w s s' ok, fill_pool w s = (s', ok) ->
  exists tr, trace s' = trace s ++ tr /\
    ((tr = [] /\ (ok = true -> w_disabled w = true)) \/
     (w_disabled w = false /\ exists oks, filling oks tr /\ ok = forallb (fun b => b) oks)).
Proof. exact fill_trace. Qed.
Print Assumptions C49_fill.

(** If spawning works, filling succeeds. *)
Theorem C49_fill_works : forall w,
  (forall n, w_on_path w n = true) -> (forall n, w_readable w n = true) -> (forall n, w_starts w n = true) ->
  forall s, snd (fill_pool w s) = true.
Proof. exact fill_works. Qed.
Print Assumptions C49_fill_works.

(** Whatever other processes do, a player returned as available was announced as
    ready by a state file at most two minutes old and has just answered a ping.
    Before that, every player that did not answer was forgotten and the pool
    filled.  "No players available" is the answer only if no state file announces
    a ready player. *)
Theorem C49_available : forall w fuel s s' r, find_player w fuel s = (s', Some r) ->
  exists tr last, trace s' = trace s ++ tr ++ last /\ attempts (w_disabled w) tr /\
    match r with
    | Available p => exists fs, last = [Looked fs; Pinged (p_port p) true] /\ announced_ready p fs
    | NoneAvailable => exists fs, last = [Looked fs] /\ forall f, In f fs -> says "ready" f = false
    | Failed => True
    end.
Proof. exact find_trace. Qed.
Print Assumptions C49_available.

(** Looking for a player ends, after at most one attempt per state file, if no
    new players announce themselves as ready meanwhile and files have their usual
    names. *)
Theorem C49_ends : forall w, no_newcomers w -> forall s,
  (forall f, In f (files s) -> says "ready" f = true -> usual_name f) ->
  exists s' r, find_player w (S (List.length (files s))) s = (s', Some r).
Proof. exact find_ends. Qed.
Print Assumptions C49_ends.

(** Four state files: one ready player that is gone, one busy, one stale, one
    ready player that answers (on port 4); nothing else happens. *)
Definition ex_files : list pfile :=
  [PFile "abc.json" 5 (CState "ready" 1); PFile "bcd.json" 5 (CState "active" 2);
   PFile "cde.json" 200000000000 (CState "ready" 3); PFile "def.json" 7 (CState "ready" 4); PFile "efg.json" 7 CEmpty].
Definition ex_world : world :=
  World false (fun _ fs => fs) (fun _ => true) (fun _ => true) (fun _ => true) (fun _ port => Z.eqb port 4) (fun _ => true).
Definition brief (a : action) : string * Z :=
  match a with
  | Looked fs => ("looked", Z.of_nat (List.length fs))
  | Pinged port ok => ((if ok then "reached" else "missed"), port)
  | Forgot id fs => ("forgot " ++ id, Z.of_nat (List.length fs))%string
  | Started ok => ((if ok then "started" else "not started"), 0%Z)
  end.
Example C49_example : no_newcomers ex_world /\ (forall f, In f ex_files -> says "ready" f = true -> usual_name f) /\
  snd (find_player ex_world 6 (Pool 0 ex_files [])) = Some (Available (Player "def" "ready" 4)) /\
  map brief (trace (fst (find_player ex_world 6 (Pool 0 ex_files [])))) =
    [("looked", 4); ("missed", 1); ("forgot abc", 3); ("looked", 3); ("started", 0); ("started", 0); ("looked", 3); ("reached", 4)]%Z.
Proof.
  split; [intros n fs f I S; exists f; auto|]. split; [|split; vm_compute; reflexivity].
  intros f I S. exists (substring 0 3 (f_name f)). clear S. cbn in I.
  repeat (destruct I as [<- |I]; [split; [reflexivity|cbn; intuition discriminate]|]).
  destruct I.
Qed.

(** Players already started are not counted until they have written a state
    file: filling twice in a row starts twice as many. *)
Theorem C49_twice_refuted : exists w s, files s = [] /\
  map brief (trace (fst (fill_pool w (fst (fill_pool w s))))) =
    [("looked", 0); ("started", 0); ("started", 0); ("started", 0); ("looked", 0); ("started", 0); ("started", 0); ("started", 0)]%Z.
Proof. exists ex_world, (Pool 0 [] []). split; [reflexivity|vm_compute; reflexivity]. Qed.
Print Assumptions C49_twice_refuted.

(** A state file without ".json" in its name cannot be forgotten: if it announces
    a ready player that does not answer, looking for a player never ends. *)
Theorem C49_misnamed_refuted : exists w s, no_newcomers w /\ forall fuel, snd (find_player w fuel s) = None.
Proof.
  exists (World true (fun _ fs => fs) (fun _ => true) (fun _ => true) (fun _ => true) (fun _ _ => false) (fun _ => true)).
  exists (Pool 0 [PFile "abc" 0 (CState "ready" 1)] []). split; [intros n fs f I S; exists f; auto|].
  intros fuel. generalize 0, (@nil action). induction fuel as [|fuel IH]; intros n tr; [reflexivity|].
  cbn [find_player]. apply IH.
Qed.
Print Assumptions C49_misnamed_refuted.
