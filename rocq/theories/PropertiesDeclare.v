(** Property theorems C22. *)
From Coq Require Import ZArith List String Bool.
From Verif Require Import Base Num ModelPitch ModelDuration ModelInstruments ModelTypes ModelLisp
  ModelScore SpecScore SpecVars SpecParts SpecSolo SpecDeclare ProofDeclare PropertiesEvents.
Import ListNotations.
Local Open Scope string_scope.
Local Open Scope list_scope.

(** C22: whatever happens in between, declaring [n] again without alias brings
    back the same instances (tame history: aliases go to single instruments). *)
Theorem C22_resume : forall (N : Num) calls later n s1 s3, let s := session calls in
  Forall (Forall (upd_all tame)) calls -> stored (tame_but n) s -> Forall (Forall (upd_all (tame_but n))) later ->
  exec [UPart [n] ""] s = (s1, Ok) -> exec [UPart [n] ""] (continue s1 later) = (s3, Ok) ->
  players s3 = players s1.
Proof. exact @c22_resume. Qed.
Print Assumptions C22_resume.

(** C22: an alias goes on denoting the same instances. *)
Theorem C22_alias : forall (N : Num) calls later a, let s := session calls in
  Forall (Forall (upd_all tame)) calls -> Forall (Forall (upd_all tame)) later -> denotes s a <> [] ->
  denotes (continue s later) a = denotes s a.
Proof. exact @c22_alias. Qed.
Print Assumptions C22_alias.

(** C22: a taken alias cannot be given to another instrument, nor an aliased
    instrument renamed; the declaration only ends the open voices.  In any
    session. *)
Theorem C22_taken : forall (N : Num) calls n a, let s := session calls in
  a <> "" -> denotes s a <> [] \/ denotes s n <> [] ->
  exists m, exec [UPart [n] a] s = (fst (exec [UVoiceEnd] s), Err m).
Proof. exact @c22_taken. Qed.
Print Assumptions C22_taken.

(** C22: an instrument in use under an alias cannot be declared without one,
    and an instrument in use without alias cannot be declared with one.  In any
    session. *)
Theorem C22_mixing : forall (N : Num) calls n a p, let s := session calls in
  In p (parts s) -> stock_instrument_name n = Some (kind s p) ->
  (a = "" /\ exists b, named_parts s b = [p]) \/ (a <> "" /\ ~ aliased s p) ->
  exists m, exec [UPart [n] a] s = (fst (exec [UVoiceEnd] s), Err m).
Proof. exact @c22_mixing. Qed.
Print Assumptions C22_mixing.

(** C22: when instruments are declared one by one, two parts of one instrument
    both have aliases. *)
Theorem C22_unmixed : forall (N : Num) calls p q, let s := session calls in
  Forall (Forall (upd_all one_by_one)) calls ->
  In p (parts s) -> In q (parts s) -> p <> q -> kind s p = kind s q -> aliased s p /\ aliased s q.
Proof. exact @c22_unmixed. Qed.
Print Assumptions C22_unmixed.

(** C22: a declaration with a name that is neither an instrument nor an alias
    is rejected and only ends the open voices.  In any session. *)
Theorem C22_unknown : forall (N : Num) calls names a n, let s := session calls in
  In n names -> ~ known s n ->
  exists m, exec [UPart names a] s = (fst (exec [UVoiceEnd] s), Err m).
Proof. exact @c22_unknown. Qed.
Print Assumptions C22_unknown.

(** Two aliased pianos, a violin, a group in between. *)
Definition ex_parts {N : Num} : list (list update) :=
  [[UPart ["piano"] "left"; note_ LC; UPart ["piano"] "right"; note_ LD]; [UPart ["violin"] ""; note_ LE]].
Definition ex_later {N : Num} : list (list update) :=
  [[UPart ["left"; "right"] ""; UVoice 1; note_ LC; UVoice 2; note_ LD; UPart ["violin"; "cello"] ""; UVoice 1; note_ LC]; [UPart ["cello"] ""]].
Example C22_resume_example :
  Forall (Forall (upd_all tame)) (@ex_parts B64) /\ Forall (Forall (upd_all (tame_but "violin"))) (@ex_later B64) /\
  let s := session (N := B64) ex_parts in
  let (s1, o1) := exec [UPart ["violin"] ""] s in let (s3, o3) := exec [UPart ["violin"] ""] (continue s1 ex_later) in
  o1 = Ok /\ o3 = Ok /\ players s3 = players s1 /\ List.length (players s3) = 1%nat /\
  current s3 <> current s1 /\ List.length (parts s3) = 4%nat.
Proof.
  split; [repeat (apply Forall_cons || apply Forall_nil); cbn; unfold tame_but, tame; intuition discriminate|].
  split; [repeat (apply Forall_cons || apply Forall_nil); cbn; unfold tame_but, tame; intuition discriminate|].
  vm_compute. intuition discriminate.
Qed.
Example C22_alias_example :
  let s := session (N := B64) ex_parts in let s' := continue s ex_later in
  map (denotes s') ["left"; "right"; "left.piano"] = map (denotes s) ["left"; "right"; "left.piano"] /\
  map (fun a => List.length (denotes s a)) ["left"; "right"; "left.piano"; "cello"] = [1; 1; 1; 0]%nat /\
  map (kind s) (parts s) = ["midi-acoustic-grand-piano"; "midi-acoustic-grand-piano"; "midi-violin"] /\
  stock_instrument_name "piano" = Some "midi-acoustic-grand-piano" /\
  snd (exec [UPart ["piano"] ""] s) <> Ok /\ snd (exec [UPart ["violin"] "v"] s) <> Ok /\
  snd (exec [UPart ["cello"] "left"] s) <> Ok /\ snd (exec [UPart ["cello"; "celo"] ""] s) <> Ok /\
  snd (exec [UPart ["cello"] "v"] s) = Ok.
Proof. vm_compute. intuition discriminate. Qed.

(** Declarations of groups escape the rules: a group can redefine an alias. *)
Theorem C22_alias_refuted : exists (calls : list (list (@update B64))) us (a : string), let s := session calls in
  denotes s a <> [] /\ snd (exec us s) = Ok /\ denotes (fst (exec us s)) a <> denotes s a.
Proof. exists [[UPart ["piano"] "foo"]], [UPart ["violin"; "cello"] "foo"], "foo". vm_compute. intuition discriminate. Qed.
Print Assumptions C22_alias_refuted.

(** A group can use an instrument without alias although it has one. *)
Theorem C22_unmixed_refuted : exists (calls : list (list (@update B64))) p q, let s := session calls in
  snd (exec (List.concat calls) (session (N := B64) [])) = Ok /\
  In p (parts s) /\ In q (parts s) /\ p <> q /\ kind s p = kind s q /\ aliased s p /\ ~ aliased s q.
Proof.
  exists [[UPart ["piano"] "foo"]; [UPart ["piano"; "violin"] ""]], 0%nat, 1%nat. cbv zeta.
  split; [vm_compute; reflexivity|].
  split; [vm_compute; auto|]. split; [vm_compute; auto|]. split; [discriminate|]. split; [vm_compute; reflexivity|].
  rewrite !aliased_iff. vm_compute. split; [reflexivity|discriminate].
Qed.
Print Assumptions C22_unmixed_refuted.

(** An alias of a group can make an instrument that was there unreachable by
    its name. *)
Theorem C22_resume_refuted : exists (calls : list (list (@update B64))) n, let s := session calls in
  snd (exec [UPart [n] ""] s) = Ok /\
  snd (exec (UPart [n] "" :: List.concat [[UPart ["piano"; "violin"] "foo"]]) s) = Ok /\
  snd (exec [UPart [n] ""] (continue s [[UPart [n] ""]; [UPart ["piano"; "violin"] "foo"]])) <> Ok.
Proof. exists [], "piano". vm_compute. intuition discriminate. Qed.
Print Assumptions C22_resume_refuted.
