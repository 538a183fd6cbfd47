(** Property theorems C15, C16 and C21. *)
From Coq Require Import ZArith List String Bool.
From Verif Require Import Base Num ModelPitch ModelDuration ModelInstruments ModelTypes ModelLisp
  ModelScore SpecScore SpecVars ProofEvents ProofVars ProofSafe PropertiesEvents.
Import ListNotations.
Local Open Scope string_scope.
Local Open Scope list_scope.

(** [a = c d], then [b = a e], then a piano part. *)
Definition ex_vars {N : Num} : list (list update) :=
  [ [UVarDef "a" [note_ LC; note_ LD]]; [UPart ["piano"] ""] ].
Definition ex_def {N : Num} : list update := [UVarRef "a"; note_ LE].
(** Later [a] is redefined. *)
Definition ex_later {N : Num} : list (list update) := [ [UVarDef "a" [note_ LG; note_ LG; note_ LG]] ].

(** C15: after a definition of [x], and whatever happens later short of
    redefining [x], a reference to [x] plays the captured events: those of the
    definition with references replaced by the values variables had at that
    moment and Lisp forms by their values. *)
Theorem C15_captured : forall (N : Num) calls x es s1,
  exec [UVarDef x es] (session calls) = (s1, Ok) ->
  exists vs, Forall2 (resolves (variables (session calls))) es vs /\
    forall later, Forall (Forall (not_defining x)) later ->
      (forall n ws, In (n, ws) (variables s1) -> Forall (not_defining x) ws) ->
      exec [UVarRef x] (continue s1 later) = exec vs (continue s1 later).
Proof. exact @c15. Qed.
Print Assumptions C15_captured.

Example C15_example :
  let s := session (N := B64) ex_vars in
  let s1 := fst (exec [UVarDef "b" ex_def] s) in
  snd (exec [UVarDef "b" ex_def] s) = Ok /\
  Forall (Forall (not_defining "b")) (ex_later (N := B64)) /\
  (forall n ws, In (n, ws) (variables s1) -> Forall (not_defining "b") ws) /\
  shown (fst (exec [UVarRef "b"] (continue s1 ex_later))) = [(0%nat, 0, 60); (0%nat, 0, 62); (0%nat, 0, 64)]%Z /\
  shown (fst (exec [UVarRef "a"] (continue s1 ex_later))) = [(0%nat, 0, 67); (0%nat, 0, 67); (0%nat, 0, 67)]%Z.
Proof.
  cbv zeta. split; [vm_compute; reflexivity|]. split; [repeat constructor; discriminate|]. split.
  - assert (E : variables (fst (exec [UVarDef "b" ex_def] (session (N := B64) ex_vars)))
                = [("a", [note_ LC; note_ LD]); ("b", [USeq [note_ LC; note_ LD]; note_ LE])]) by reflexivity.
    rewrite E. intros n ws [H|[H|[]]]; injection H as <- <-; repeat constructor.
  - split; vm_compute; reflexivity.
Qed.

(** C16: stored variables contain no references... *)
Theorem C16_no_references : forall (N : Num) calls x es,
  lookup (session calls) x = Some es -> Forall no_refs es.
Proof. exact @c16_closed. Qed.
Print Assumptions C16_no_references.

(** ... so that one level of dereferencing is all there ever is: a larger budget
    of nested dereferences changes nothing and the budget is never exhausted... *)
Theorem C16_one_level : forall (N : Num) calls us k,
  run_all (S k) us (session calls) = exec us (session calls).
Proof. exact @c16_depth. Qed.
Print Assumptions C16_one_level.

Theorem C16_terminates : forall (N : Num) calls us, snd (exec us (session calls)) <> OutOfFuel.
Proof. exact @c16_terminates. Qed.
Print Assumptions C16_terminates.

(** ... and an undefined variable is an error that changes nothing. *)
Theorem C16_undefined : forall (N : Num) x s, lookup s x = None ->
  exists m, exec [UVarRef x] s = (s, Err m).
Proof. exact @c16_undefined. Qed.
Print Assumptions C16_undefined.

(** [a = a] without an earlier [a] fails; after [a = c d], [a = a a] doubles it. *)
Example C16_example :
  (match snd (exec (N := B64) [UVarDef "a" [UVarRef "a"]] new_score) with Err _ => True | _ => False end) /\
  let s := session (N := B64) (ex_vars ++ [[UVarDef "a" [UVarRef "a"; UVarRef "a"]]]) in
  option_map (@List.length _) (lookup s "a") = Some 2%nat /\
  List.length (events (fst (exec [UVarRef "a"] s))) = 4%nat /\
  snd (exec [UVarRef "a"] s) = Ok /\
  (match lookup s "x" with None => true | Some _ => false end) = true.
Proof. vm_compute. repeat split. Qed.

(** C21: switching to a voice and ending a voice group never fail in a score
    reached through updates, whatever came before... *)
Theorem C21_voice : forall (N : Num) calls n, snd (exec [UVoice n] (session calls)) = Ok.
Proof. exact @c21_voice. Qed.
Print Assumptions C21_voice.

Theorem C21_voice_end : forall (N : Num) calls, snd (exec [UVoiceEnd] (session calls)) = Ok.
Proof. exact @c21_voice_end. Qed.
Print Assumptions C21_voice_end.

(** ... every pointer reachable from the score leads to an allocated part... *)
Theorem C21_pointers : forall (N : Num) calls, let s := session calls in
  let live p := (p < List.length (heap s))%nat in
  Forall live (current s) /\ Forall live (parts s) /\
  (forall a ps, In (a, ps) (aliases s) -> Forall live ps) /\
  (forall p, live p -> live (porigin (getp s p)) /\
     (forall t, ptmpl (getp s p) = Some t -> live t) /\
     (forall n v, In (n, v) (getv s (pvoices (getp s p))) -> live v)) /\
  (forall e, In e (events s) -> live (ev_part e)).
Proof. exact @c21_pointers. Qed.
Print Assumptions C21_pointers.

(** ... and updates the parser can produce (see [safe]) never crash or hang the
    engine: the outcome is success or an error value. *)
Theorem C21_no_panic : forall (N : Num) calls us, Forall (Forall safe) calls -> Forall safe us ->
  handled (snd (exec us (session calls))).
Proof. exact @c21_safe. Qed.
Print Assumptions C21_no_panic.

(** The conditions in [safe] are needed: an explicit channel 16, a declaration
    without names or an endless repeat do not end in an error value. *)
Theorem C21_unsafe_refuted : exists us1 us2 us3 : list (@update B64),
  (exists m, snd (exec us1 new_score) = Panic m) /\
  (exists m, snd (exec us2 new_score) = Panic m) /\
  snd (exec us3 new_score) = Hang.
Proof.
  exists [UPart ["piano"] ""; UPrim (Attr (PChannel 16)); note_ LC], [UPart [] ""],
         [URepeat UNil max_int32].
  split; [eexists; vm_compute; reflexivity|].
  split; [eexists; vm_compute; reflexivity|].
  exact (@c21_hang B64).
Qed.
Print Assumptions C21_unsafe_refuted.

Definition ex_voices {N : Num} : list update :=
  [UPart ["piano"; "violin"] "duo"; UVoice 1; note_ LC; UVoice 2; UPrim (Attr (POctave 5)); note_ LE;
   UVoice 1; note_ LD; UVoiceEnd; URepeat (UCram [note_ LC; note_ LE] q4) 3;
   UPart ["duo.piano"] ""; UPrim (Attr (PChannel 5)); note_ LG].
Example C21_example : Forall safe (ex_voices (N := B64)) /\
  snd (exec (N := B64) ex_voices new_score) = Ok /\
  List.length (events (fst (exec (N := B64) ex_voices new_score))) = 19%nat.
Proof.
  split; [|split; vm_compute; reflexivity].
  repeat constructor; cbn; try discriminate; try (split; discriminate).
Qed.
