(** C44: the scanner. *)
From Coq Require Import ZArith List String Ascii Bool Lia.
From Verif Require Import Base Num ModelScan SpecScan ProofScan.
Import ListNotations.
Local Open Scope string_scope.
Local Open Scope list_scope.
Local Open Scope Z_scope.

(** C44: scanning any text ends.  Either the text is, in order, a sequence of
    blanks, comments and correctly written tokens, and the result is exactly
    those tokens, each with its own text, line and column, followed by the
    end-of-file token; or the result is an error at a position of the text. *)
Theorem C44_scan : forall {N : Num} (input : list rune),
  match scan input with
  | Scanned ts => exists ps, text_of ps = input /\ well_formed 0 ps /\ ts = tokens_at [] ps
  | ScanError _ line col => exists a b, input = a ++ b /\ line = line_after a /\ col = column_after a
  | ScanFuel => False
  end.
Proof. exact @scan_total. Qed.
Print Assumptions C44_scan.

(** Every sequence of correctly written pieces is accepted. *)
Theorem C44_accepts : forall {N : Num} (ps : list piece), well_formed 0 ps ->
  scan (text_of ps) = Scanned (tokens_at [] ps).
Proof. exact @scan_accepts. Qed.
Print Assumptions C44_accepts.

(** A text has only one reading as tokens. *)
Theorem C44_unambiguous : forall {N : Num} (ps ps' : list piece), well_formed 0 ps -> well_formed 0 ps' ->
  text_of ps = text_of ps' -> tokens_at [] ps = tokens_at [] ps'.
Proof. exact @pieces_unique. Qed.
Print Assumptions C44_unambiguous.

(** The tokens of a text, without their literals. *)
Definition shown {N : Num} (r : scan_result) : option (list (list rune * Z * Z)) :=
  match r with Scanned ts => Some (map (fun t => (ttext t, tline t, tcol t)) ts) | _ => None end.

Example ex_scanned :
  shown (N := XQ) (scan (runes "piano: (vol 50) # hi" ++ [newline] ++ runes " c4. e/g~2s'1-3*2 ]")) = None /\
  shown (N := XQ) (scan (runes "piano: (vol 50) # hi" ++ [newline] ++ runes " c4. e/g~2s *2 ]")) =
  Some [(runes "piano", 1, 1); (runes ":", 1, 6); (runes "(", 1, 8); (runes "vol", 1, 9); (runes "50", 1, 13); (runes ")", 1, 15);
        (runes "c", 2, 2); (runes "4.", 2, 3); (runes "e", 2, 6); (runes "/", 2, 7); (runes "g", 2, 8); (runes "~", 2, 9);
        (runes "2s", 2, 10); (runes "*2", 2, 13); (runes "]", 2, 16); ([], 2, 17)].
Proof. split; vm_compute; reflexivity. Qed.

Example ex_well_formed : exists ps, well_formed (N := XQ) 0 ps /\ text_of ps = runes "[c*2 d]'1,3-5" /\ List.length ps = 7%nat.
Proof.
  exists [Lexeme TSeqOpen [rn "["]; Lexeme (TNote (rn "c")) [rn "c"]; Lexeme (TRepeat 2) (runes "*2"); Blank space;
          Lexeme (TNote (rn "d")) [rn "d"]; Lexeme TSeqClose [rn "]"]; Lexeme (TReps [(1, 1); (3, 5)]) (runes "'1,3-5")].
  split; [|split; vm_compute; reflexivity].
  split; [apply (lx_simple "["); constructor|].
  split; [constructor; [vm_compute; split; discriminate|reflexivity]|].
  split; [apply (lx_repeat 0 (runes "2")); [repeat constructor; vm_compute; discriminate|discriminate|reflexivity]|].
  split; [left; reflexivity|].
  split; [constructor; [vm_compute; split; discriminate|reflexivity]|].
  split; [apply (lx_simple "]"); constructor|].
  split; [|exact I].
  apply (lx_repetitions [(1, 1); (3, 5)] (runes "1,3-5") true); [|exact I|exact I|discriminate].
  apply (rngs_more (1, 1) (runes "1") false [(3, 5)] (runes "3-5") true).
  - apply (rng_one (runes "1")); [repeat constructor; vm_compute; discriminate|discriminate].
  - apply rngs_last. apply (rng_two (runes "3") (runes "5")); solve [repeat constructor; vm_compute; discriminate|discriminate].
Qed.

(** The scanner does not insist on the closing quote of an alias: any rune that
    cannot be part of a name is taken for it. *)
Theorem C44_alias_refuted : exists text,
  List.length (filter (Z.eqb quote_mark) text) = 1%nat /\
  shown (N := XQ) (scan text) = Some [(runes "violin", 1, 1); (quote_mark :: runes "solo!", 1, 8); (runes ":", 1, 14); ([], 1, 15)].
Proof.
  exists (runes "violin " ++ quote_mark :: runes "solo!:"). split; vm_compute; reflexivity.
Qed.
Print Assumptions C44_alias_refuted.
