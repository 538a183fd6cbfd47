(** C46: the formatter. *)
From Coq Require Import String Ascii ZArith List Bool.
From Verif Require Import Base Num ModelScan SpecScan ModelParser SpecParser ModelAst ModelFormat SpecFormat ProofFormatTop.
Import ListNotations.
Local Open Scope string_scope.
Local Open Scope list_scope.
Local Open Scope Z_scope.

(** C46: take any text that parses, in which no "*0" stands right before a
    barline and no slurred note has a barline at the end of its duration, whose
    numbers are printed so that they read as the same numbers.  For every line
    width and every indentation made of blanks, formatting its tree succeeds
    and the formatted text parses to the same tree. *)
Theorem C46_round_trip : forall {N : Num} (fmt : num -> list rune) (cfg : config) (input : list rune) (a : node),
  parse input = Parsed a ->
  (forall ts, scan input = Scanned ts -> ~ zero_before_bar ts) ->
  blank_text (c_indent cfg) ->
  everywhere (number_printed fmt) a ->
  everywhere (fun n => ~ slurred_at_bar n) a ->
  exists text, format fmt cfg a = Some text /\ parse text = Parsed a.
Proof. exact @format_parse. Qed.
Print Assumptions C46_round_trip.

(** Formatting the formatted text changes nothing. *)
Theorem C46_idempotent : forall {N : Num} (fmt : num -> list rune) (cfg : config) (input : list rune) (a : node) text,
  parse input = Parsed a ->
  (forall ts, scan input = Scanned ts -> ~ zero_before_bar ts) ->
  blank_text (c_indent cfg) ->
  everywhere (number_printed fmt) a ->
  everywhere (fun n => ~ slurred_at_bar n) a ->
  format fmt cfg a = Some text -> exists a', parse text = Parsed a' /\ format fmt cfg a' = Some text.
Proof. exact @format_again. Qed.
Print Assumptions C46_idempotent.

(** The formatted text means the same updates to the score. *)
Theorem C46_meaning : forall {N : Num} (fmt : num -> list rune) (cfg : config) (input : list rune) (a : node) text,
  parse input = Parsed a ->
  (forall ts, scan input = Scanned ts -> ~ zero_before_bar ts) ->
  blank_text (c_indent cfg) ->
  everywhere (number_printed fmt) a ->
  everywhere (fun n => ~ slurred_at_bar n) a ->
  format fmt cfg a = Some text -> compile text = compile input.
Proof. exact @format_compile. Qed.
Print Assumptions C46_meaning.

(** A slurred note whose duration ends with a barline inside a chord, "c4|~/e":
    the formatted text does not parse. *)
Theorem C46_slurred_refuted : exists input a text, @parse XQ input = Parsed a /\
  (forall ts, @scan XQ input = Scanned ts -> ~ zero_before_bar ts) /\ everywhere (number_printed int_text) a /\
  format int_text default_config a = Some text /\ forall b, @parse XQ text <> Parsed b.
Proof. exact slurred_refuted. Qed.
Print Assumptions C46_slurred_refuted.

(** A note repeated 0 times before a barline, "c4*0 | d": the barline becomes
    part of the note's duration. *)
Theorem C46_zero_refuted : exists input a text b, @parse XQ input = Parsed a /\
  everywhere (number_printed int_text) a /\ everywhere (fun n => ~ slurred_at_bar n) a /\
  format int_text default_config a = Some text /\ @parse XQ text = Parsed b /\ b <> a.
Proof. exact zero_refuted. Qed.
Print Assumptions C46_zero_refuted.

(** A score with parts, an alias, a chord, nested sequences and cram
    expressions, variables, voices, S-expressions, markers and repetitions
    meets the conditions. *)
Definition score : list rune :=
  runes "piano/violin ""duo"": (tempo! 120) [c4~|2 > / e+ '1-3,4]*2 %mark {r [g]}8 | "
  ++ newline :: runes "foo = {r c}4 d" ++ newline :: runes "V1: (vol! 5 '(a b)) @mark"
  ++ newline :: runes "V2: foo*3 o3 d8. < e V0: d" ++ newline :: runes "cello: c4500ms r2s".
Example C46_round_trip_example :
  @parse XQ score = Parsed (tree_of score) /\
  (forall ts, @scan XQ score = Scanned ts -> ~ zero_before_bar ts) /\ blank_text (c_indent default_config) /\
  everywhere (number_printed int_text) (tree_of score) /\ everywhere (fun n => ~ slurred_at_bar n) (@tree_of XQ score).
Proof.
  split; [apply parses_ok; vm_compute; reflexivity|]. split; [apply no_zero_bar_ok; vm_compute; reflexivity|].
  split; [exact default_blank|]. split.
  - apply (all_nodes_everywhere int_printed); [apply int_printed_ok|vm_compute; reflexivity].
  - apply (all_nodes_everywhere slur_ok); [intros n; apply slur_ok_ok|vm_compute; reflexivity].
Qed.
Example C46_format_example :
  format int_text default_config (@tree_of XQ (runes "piano: c4 / > e [d e]*2 foo = {r c}4" ++ newline :: runes "V1: d V2: e")) =
  Some (runes "piano:" ++ newline :: runes "  c4 / > e" ++ newline :: runes "  [" ++ newline :: runes "    d e" ++ newline :: runes "  ] *2"
        ++ newline :: runes "  foo = { r c }4" ++ newline :: runes "  V1:" ++ newline :: runes "    d" ++ newline :: runes "  V2:" ++ newline :: runes "    e" ++ [newline]).
Proof. vm_compute. reflexivity. Qed.
