(** Property theorems C67: `alda format`. *)
From Coq Require Import String Ascii ZArith List Bool.
From Verif Require Import Base Num ModelPitch ModelDuration ModelInstruments ModelTypes ModelLisp ModelScan SpecScan ModelParser SpecParser ModelAst ModelFormat SpecFormat ProofFormatTop
  ModelFormatCommand SpecFormatCommand ProofFormatCommand.
Import ListNotations.
Local Open Scope string_scope.
Local Open Scope list_scope.
Local Open Scope Z_scope.

(** C67: with sensible flags, whatever fails, the file is unchanged or, once it has
    been written, contains a text that means the same; if the command succeeds,
    it has put that text into the file or out, and it does if nothing fails; while it
    writes, the file contains the start of that text. *)
Theorem C67_formats : forall {N : Num} (fmt : num -> list rune) g d old, formattable fmt old -> sensible g ->
  let r := format_command fmt g d old in
  exists t, compile t = compile old /\
    (r_succeeds r = true -> (g_overwrite g = true /\ final r = t) \/ (g_overwrite g = false /\ r_output r = t)) /\
    (d_fails d = None -> final r = old \/ final r = t) /\
    (d_reads d = true -> d_opens d = true -> d_fails d = None -> r_succeeds r = true) /\
    forall c, In c (r_contents r) -> c = old \/ exists rest, t = c ++ rest.
Proof. exact @c67_formats. Qed.
Print Assumptions C67_formats.

(** C67: a run that succeeds gives the text in the layout that was asked for. *)
Theorem C67_layout : forall {N : Num} (fmt : num -> list rune) g d old, formattable fmt old -> sensible g ->
  let r := format_command fmt g d old in r_succeeds r = true ->
  exists a t, parse old = Parsed a /\ format fmt (asked_layout g) a = Some t /\
    (if g_overwrite g then final r = t /\ r_output r = [] else r_output r = t).
Proof. exact @c67_layout. Qed.
Print Assumptions C67_layout.

(** C67: without -o, or if the file is not a score or cannot be read or written,
    it is never changed. *)
Theorem C67_untouched : forall {N : Num} (fmt : num -> list rune) g d old,
  g_overwrite g = false \/ (forall a, parse old <> Parsed a) \/ d_reads d = false \/ d_opens d = false /\ g_overwrite g = true ->
  r_contents (format_command fmt g d old) = [old].
Proof. exact @c67_untouched. Qed.
Print Assumptions C67_untouched.

Definition fine_disk : disk := Disk true true None.
Definition small : list rune := runes "piano: c4   d".
Example small_formattable : formattable (N := XQ) int_text small.
Proof.
  exists (tree_of small). split; [apply parses_ok; vm_compute; reflexivity|]. split; [apply no_zero_bar_ok; vm_compute; reflexivity|]. split.
  - apply (all_nodes_everywhere int_printed); [apply int_printed_ok|vm_compute; reflexivity].
  - apply (all_nodes_everywhere slur_ok); [intros n; apply slur_ok_ok|vm_compute; reflexivity].
Qed.
Example C67_example : formattable (N := XQ) int_text small /\ sensible (Flags true 120 [tab]) /\
  r_succeeds (format_command (N := XQ) int_text (Flags true 120 [tab]) fine_disk small) = true /\
  final (format_command (N := XQ) int_text (Flags true 120 [tab]) fine_disk small) = runes "piano:" ++ newline :: tab :: runes "c4 d" ++ [newline].
Proof.
  split; [exact small_formattable|]. split; [split; [discriminate|constructor; [cbn; auto|constructor]]|]. split; vm_compute; reflexivity.
Qed.

(** With a negative line width the command fails and leaves an empty file. *)
Theorem C67_wrap_refuted : exists g old, formattable (N := XQ) int_text old /\ blank_text (g_indent g) /\
  let r := format_command (N := XQ) int_text g fine_disk old in r_succeeds r = false /\ final r = [] /\ old <> [].
Proof.
  exists (Flags true (-1) []), small. split; [exact small_formattable|]. split; [constructor|]. split; [vm_compute; reflexivity|]. split; [vm_compute; reflexivity|discriminate].
Qed.
Print Assumptions C67_wrap_refuted.

(** Indenting with something else than blanks adds it to the score. *)
Definition count_of (t : list rune) : nat := match @compile XQ t with ROk us => length us | _ => 0%nat end.
Theorem C67_indent_refuted : exists g old, formattable (N := XQ) int_text old /\
  let r := format_command (N := XQ) int_text g fine_disk old in r_succeeds r = true /\ @compile XQ (final r) <> @compile XQ old.
Proof.
  exists (Flags true 80 (runes "e ")), small. split; [exact small_formattable|]. split; [vm_compute; reflexivity|].
  intro H. assert (E : count_of (final (format_command (N := XQ) int_text (Flags true 80 (runes "e ")) fine_disk small)) = count_of small) by (unfold count_of; rewrite H; reflexivity).
  vm_compute in E. discriminate.
Qed.
Print Assumptions C67_indent_refuted.

(** The file is emptied before the new text is written: if the disk is full, or the
    command is killed then, the score is lost. *)
Theorem C67_write_refuted : exists g d old, formattable (N := XQ) int_text old /\ sensible g /\ d_reads d = true /\ d_opens d = true /\ old <> [] /\
  final (format_command (N := XQ) int_text g d old) = [] /\ In [] (r_contents (format_command (N := XQ) int_text g fine_disk old)).
Proof.
  exists (Flags true 80 []), (Disk true true (Some 0%nat)), small. split; [exact small_formattable|]. split; [split; [discriminate|constructor]|].
  split; [reflexivity|]. split; [reflexivity|]. split; [discriminate|]. split; [vm_compute; reflexivity|]. vm_compute. right; left; reflexivity.
Qed.
Print Assumptions C67_write_refuted.
