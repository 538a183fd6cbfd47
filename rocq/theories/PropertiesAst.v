(** C52, C53: from the text of a score to its updates. *)
From Coq Require Import String Ascii ZArith List Bool.
From Verif Require Import Base Num ModelPitch ModelDuration ModelInstruments ModelTypes ModelScore SpecScore SpecVars ModelScan SpecScan
  ModelParser SpecParser ModelAst SpecAst ProofAst ProofAstTree.
Import ListNotations.
Local Open Scope string_scope.
Local Open Scope list_scope.
Local Open Scope Z_scope.

(** C52: every text either becomes updates or is rejected with a parse error; the
    conversion of a parsed tree never fails.  A crash needs an empty cram
    expression in the text. *)
Theorem C52_compile : forall {N : Num} (input : list rune),
  match compile input with
  | ROk us => exists a, parse input = Parsed a
  | RErr m => exists line col, parse input = ParseError m line col
  | RPanic _ => exists ts, scan input = Scanned ts /\ empty_cram ts
  end.
Proof. exact @compile_cases. Qed.
Print Assumptions C52_compile.

(** Evaluating tame texts one after the other, whatever they say, never crashes
    or hangs: it ends with success or an error value. *)
Theorem C52_no_crash : forall {N : Num} (inputs : list (list rune)) (input : list rune),
  Forall tame_text inputs -> tame_text input ->
  match compile input with
  | ROk us => forall calls, Forall2 (fun i c => compile i = ROk c) inputs calls -> handled (snd (exec us (session calls)))
  | RErr _ => True
  | RPanic _ => False
  end.
Proof. exact @tame_run. Qed.
Print Assumptions C52_no_crash.

(** A tame text that is rejected, and one that plays notes after it. *)
Definition ex_text : list rune :=
  runes "piano/violin: (tempo 90) o4 c4~|8.~/>e+ {c r 500ms}2 V1: [a b'1,3]*3 %m V2: g~ V0: @m" ++ [newline] ++ runes "cello: foo = (vol 5) d".
Example ex_tame : tame_text (N := B64) ex_text /\ tame_text (N := B64) (runes "c ]") /\
  match compile (N := B64) ex_text with ROk us => List.length us | _ => 0%nat end = 14%nat /\
  match compile (N := B64) (runes "c ]") with RErr _ => True | _ => False end.
Proof.
  split; [apply tame_text_ok; vm_compute; reflexivity|]. split; [apply tame_text_ok; vm_compute; reflexivity|].
  split; [vm_compute; reflexivity|]. vm_compute. exact I.
Qed.

(** The exceptions are real: "()" and "(quote)" crash, "[]*2147483647" hangs
    (and "{}" crashes the parser: C45_empty_cram_refuted). *)
Example ex_outcome_of : forall {N : Num} input,
  outcome_of input = match compile input with ROk us => Some (snd (exec us new_score)) | _ => None end.
Proof. reflexivity. Qed.
Theorem C52_untamed_refuted : forall {N : Num},
  (exists m, outcome_of (runes "()") = Some (Panic m)) /\
  (exists m, outcome_of (runes "(quote)") = Some (Panic m)) /\
  outcome_of (runes "[]*2147483647") = Some Hang.
Proof. exact @untamed. Qed.
Print Assumptions C52_untamed_refuted.

(** C53: read from left to right, the updates say exactly what the text's tokens
    say: every note, accidental, length, barline, slur, rest, octave, group,
    repeat, repetition range, name, alias, voice, marker and Lisp form, in the
    order written. *)
Theorem C53_says : forall {N : Num} (input : list rune) us ts,
  compile input = ROk us -> scan input = Scanned ts -> plain ts ->
  flat_map update_marks us = marks false ts.
Proof. exact @compile_marks. Qed.
Print Assumptions C53_says.

Example ex_says : match scan (N := B64) ex_text with
  | Scanned ts => (plain_check ts, List.length (marks false ts), List.length (filter (fun m => match m with MSlur => true | _ => false end) (marks false ts)))
  | _ => (false, 0%nat, 0%nat) end = (true, 41%nat, 2%nat).
Proof. vm_compute. reflexivity. Qed.
Example ex_plain : forall {N : Num} ts, plain_check ts = true -> plain ts.
Proof. exact @plain_check_ok. Qed.

(** Repetition ranges on a voice group: the group is wrapped in a sequence that
    is not written. *)
Theorem C53_wrapped_refuted : forall {N : Num}, exists input us ts,
  compile input = ROk us /\ scan input = Scanned ts /\
  List.length (flat_map update_marks us) <> List.length (marks false ts).
Proof. exact @wrapped. Qed.
Print Assumptions C53_wrapped_refuted.
