(** Property theorems C12 and C13. *)
From Coq Require Import ZArith List String Bool.
From Verif Require Import Base Num ModelPitch ModelDuration ModelInstruments ModelTypes ModelLisp
  ModelScore SpecScore SpecVars SpecParts SpecSolo SpecTiming SpecRepeat ProofRepeat PropertiesEvents PropertiesVars
  PropertiesTiming.
Import ListNotations.
Local Open Scope string_scope.
Local Open Scope list_scope.

(** C12: repeating an event without endings [n] times has the outcome of writing
    it [n] times, and gives the same score in every respect but the repetition
    counters, which only endings look at. *)
Theorem C12_repeat : forall (N : Num) calls e n, let s := session calls in
  upd_all no_endings e -> stored no_endings s -> (n < max_int32)%Z ->
  same_but_counters (exec [URepeat e n] s) (exec (repeat e (Z.to_nat n)) s).
Proof. exact @c12. Qed.
Print Assumptions C12_repeat.

Example C12_example :
  let s := session (N := B64) ex_duo in
  let e := USeq [note_ LC; UVoice 1; note_ LE; UVoice 2; UCram ex_cram None; UVoiceEnd; URepeat (note_ LD) 2] in
  upd_all no_endings e /\ stored no_endings s /\
  snd (exec [URepeat e 3] s) = Ok /\ List.length (events (fst (exec [URepeat e 3] s))) = 57%nat.
Proof.
  cbv zeta. split; [repeat constructor|]. split.
  { assert (E : variables (session (N := B64) ex_duo) = []) by reflexivity. intros n es H. rewrite E in H. destruct H. }
  split; vm_compute; reflexivity.
Qed.

(** C13: for one instrument, repeating a body with endings equals the sequence
    of the bodies written out for the repetitions 1..n. *)
Theorem C13_endings : forall (N : Num) calls e n p, let s := session calls in
  current s = [p] -> upd_all body_label e -> no_endings_in_chords e -> stored var_label s ->
  (Z.of_nat n < max_int32)%Z ->
  same_but_counters (exec [URepeat e (Z.of_nat n)] s) (exec (all_written_out n e) s).
Proof. exact @c13. Qed.
Print Assumptions C13_endings.

Definition ex_endings {N : Num} : update :=
  USeq [note_ LC; UOnReps [(1, 1); (3, 4)]%Z (USeq [note_ LD; note_ LE]); UOnReps [(2, 2)]%Z (UCram [note_ LF; UOnReps [(1, 1)]%Z (note_ LG)] None)].
Example C13_example :
  let s := session (N := B64) ex_calls in
  current s = [2%nat] /\ upd_all body_label (ex_endings (N := B64)) /\ no_endings_in_chords (ex_endings (N := B64)) /\
  stored var_label s /\ snd (exec [URepeat ex_endings 3] s) = Ok /\
  (List.length (events (fst (exec [URepeat ex_endings 3] s))) - List.length (events s) = 8)%nat /\
  map (fun k => written_out k (ex_endings (N := B64))) [1; 2]%Z =
   [USeq [note_ LC; USeq [note_ LD; note_ LE]; USeq []]; USeq [note_ LC; USeq []; UCram [note_ LF; USeq []] None]].
Proof.
  cbv zeta. split; [vm_compute; reflexivity|]. split; [repeat constructor|]. split; [repeat constructor|]. split.
  { assert (E : variables (session (N := B64) ex_calls) = []) by reflexivity. intros n es H. rewrite E in H. destruct H. }
  split; [vm_compute; reflexivity|]. split; [vm_compute; reflexivity|]. reflexivity.
Qed.

(** With a repeat inside the body the claim fails: the inner repeat leaves its
    own counter behind.  In [[c]*2 d'1]*2, d is never played. *)
Theorem C13_nested_refuted : exists calls (e : @update B64) (n : nat) p,
  let s := session calls in
  current s = [p] /\ snd (exec [URepeat e (Z.of_nat n)] s) = Ok /\ snd (exec (all_written_out n e) s) = Ok /\
  List.length (events (fst (exec [URepeat e (Z.of_nat n)] s))) <> List.length (events (fst (exec (all_written_out n e) s))).
Proof.
  exists [[UPart ["piano"] ""]], (USeq [URepeat (note_ LC) 2; UOnReps [(1, 1)]%Z (note_ LD)]), 2%nat, 0%nat.
  cbv zeta. split; [vm_compute; reflexivity|]. split; [vm_compute; reflexivity|]. split; [vm_compute; reflexivity|].
  vm_compute. discriminate.
Qed.
Print Assumptions C13_nested_refuted.

(** With two current instruments it fails too: the event of an ending is played
    once per instrument by every instrument. *)
Theorem C13_group_refuted : exists calls (e : @update B64) (n : nat),
  let s := session calls in
  upd_all body_label e /\ snd (exec [URepeat e (Z.of_nat n)] s) = Ok /\ snd (exec (all_written_out n e) s) = Ok /\
  List.length (events (fst (exec [URepeat e (Z.of_nat n)] s))) <> List.length (events (fst (exec (all_written_out n e) s))).
Proof.
  exists ex_duo, (UOnReps [(1, 1)]%Z (note_ LD)), 1%nat.
  cbv zeta. split; [repeat constructor|]. split; [vm_compute; reflexivity|]. split; [vm_compute; reflexivity|].
  vm_compute. discriminate.
Qed.
Print Assumptions C13_group_refuted.
