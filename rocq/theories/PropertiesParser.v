(** C45: the parser. *)
From Coq Require Import String Ascii ZArith List Bool.
From Verif Require Import Base Num ModelScan SpecScan ModelParser SpecParser ProofParser ProofParseText.
Import ListNotations.
Local Open Scope string_scope.
Local Open Scope list_scope.
Local Open Scope Z_scope.

(** C45: parsing any text ends, with the tree that the grammar gives the text's
    tokens, or with an error at a position of the text, or (only if the text
    contains an empty cram expression) with a panic. *)
Theorem C45_parse : forall {N : Num} (input : list rune),
  match parse input with
  | Parsed a => exists ts, scan input = Scanned ts /\ score_tree ts a
  | ParseError _ line col => exists a b, input = a ++ b /\ line = line_after a /\ col = column_after a
  | ParsePanic => exists ts, scan input = Scanned ts /\ empty_cram ts
  | ParseFuel => False
  end.
Proof. exact @parse_total. Qed.
Print Assumptions C45_parse.

(** Every text whose tokens the grammar describes is accepted. *)
Theorem C45_accepts : forall {N : Num} (input : list rune) ts a,
  scan input = Scanned ts -> score_tree ts a -> parse input = Parsed a.
Proof. exact @parse_accepts. Qed.
Print Assumptions C45_accepts.

(** The grammar is unambiguous. *)
Theorem C45_unambiguous : forall {N : Num} (ts : list token) a b, score_tree ts a -> score_tree ts b -> a = b.
Proof. exact @tree_unique. Qed.
Print Assumptions C45_unambiguous.

(** Each event uses at least one token. *)
Theorem C45_progress : forall {N : Num} (ts : list token) n r, event ts n r -> exists t u, ts = t :: u ++ r.
Proof. exact @event_uses_a_token. Qed.
Print Assumptions C45_progress.

(** The words that the grammar shares with the parser mean what they say: where
    a part declaration starts, where a voice ends, and the trees of the parts of
    an event. *)
Theorem C45_vocabulary : forall {N : Num},
  (forall ts : list token, looks_like_part ts = true <->
     exists t u r, ts = t :: u :: r /\ tkind t = TName /\
       ((exists a, tkind u = TAlias a) \/ tkind u = TSeparator \/ tkind u = TColon)) /\
  (forall ts : list token, ends_voice ts = true <->
     ts = [] \/ looks_like_part ts = true \/ (exists t r, ts = t :: r /\
       (tkind t = TEOF \/ (exists n, tkind t = TVoice n) \/ tkind t = TSeqClose \/ tkind t = TCramClose))) /\
  (forall n k, repeat_node n k = Node RepeatNode NoLit [n; Node TimesNode (LitInt k) []]) /\
  (forall den, length_node (TLength den 0) = Some (Node NoteLengthNode NoLit [Node DenominatorNode (LitNum den) []])) /\
  (forall den dots, (0 < dots)%Z -> length_node (TLength den dots) =
     Some (Node NoteLengthNode NoLit [Node DenominatorNode (LitNum den) []; Node DotsNode (LitInt dots) []])) /\
  (forall q, length_node (TMs q) = Some (Node NoteLengthMsNode (LitNum q) [])) /\
  (forall q, length_node (TSeconds q) = Some (Node NoteLengthSecondsNode (LitNum q) [])) /\
  (forall k n, length_node k = Some n -> (exists d m, k = TLength d m) \/ (exists q, k = TMs q) \/ (exists q, k = TSeconds q)) /\
  (forall k n, accidental_node k = Some n <->
     k = TFlat /\ n = Node FlatNode NoLit [] \/ k = TNatural /\ n = Node NaturalNode NoLit [] \/ k = TSharp /\ n = Node SharpNode NoLit []) /\
  (forall l d, note_node l [] d false =
     Node NoteNode NoLit (Node NoteLetterAndAccidentalsNode NoLit [Node NoteLetterNode (LitRune l) []] :: d)) /\
  (forall l a accs d, note_node l (a :: accs) d false =
     Node NoteNode NoLit (Node NoteLetterAndAccidentalsNode NoLit
       [Node NoteLetterNode (LitRune l) []; Node NoteAccidentalsNode NoLit (a :: accs)] :: d)) /\
  (forall l accs d, exists c, note_node l accs d false = Node NoteNode NoLit c /\
     note_node l accs d true = Node NoteNode NoLit (c ++ [Node TieNode NoLit []])) /\
  (barline = Node BarlineNode NoLit []) /\
  (forall n rs, on_repetitions n rs = Node OnRepetitionsNode NoLit [n; Node RepetitionsNode NoLit
     (map (fun r => Node RepetitionRangeNode NoLit
        [Node FirstRepetitionNode (LitInt (fst r)) []; Node LastRepetitionNode (LitInt (snd r)) []]) rs)]) /\
  (forall x es, var_def_node x es = Node VariableDefinitionNode NoLit
     [Node VariableNameNode (LitText x) []; Node EventSequenceNode NoLit es]) /\
  (forall es d, cram_node es d = Node CramNode NoLit (Node EventSequenceNode NoLit es :: d)) /\
  (forall n es, voice_node n es = Node VoiceNode NoLit [Node VoiceNumberNode (LitInt n) []; Node EventSequenceNode NoLit es]) /\
  (forall t, name_node t = Node PartNameNode (LitText (ttext t)) []).
Proof. exact @vocabulary. Qed.
Print Assumptions C45_vocabulary.

(** The types of a tree's nodes, in order. *)
Fixpoint types {N : Num} (n : node) : list ntype :=
  match n with Node t _ c => t :: (fix go l := match l with [] => [] | x :: l' => types x ++ go l' end) c end.
Definition parsed_types (r : parse_result (N := XQ)) : option (list ntype) :=
  match r with Parsed a => Some (types a) | _ => None end.

Example ex_parsed :
  parsed_types (parse (runes "piano: [c4~|2 > / e+~ '1-3]*2" ++ [newline] ++ runes "foo = {r}" ++ [newline] ++ runes "V1: (vol 5)")) =
  Some [RootNode; PartNode; PartDeclarationNode; PartNamesNode; PartNameNode; EventSequenceNode;
        RepeatNode; EventSequenceNode; OnRepetitionsNode; ChordNode;
        NoteNode; NoteLetterAndAccidentalsNode; NoteLetterNode;
        DurationNode; NoteLengthNode; DenominatorNode; BarlineNode; NoteLengthNode; DenominatorNode;
        OctaveUpNode;
        NoteNode; NoteLetterAndAccidentalsNode; NoteLetterNode; NoteAccidentalsNode; SharpNode; TieNode;
        RepetitionsNode; RepetitionRangeNode; FirstRepetitionNode; LastRepetitionNode; TimesNode;
        VariableDefinitionNode; VariableNameNode; EventSequenceNode; CramNode; EventSequenceNode; RestNode;
        VoiceGroupNode; VoiceNode; VoiceNumberNode; EventSequenceNode; LispListNode; LispSymbolNode; LispNumberNode].
Proof. vm_compute. reflexivity. Qed.

Example ex_parse_error :
  match parse (N := XQ) (runes "c d" ++ [newline] ++ runes " e ]") with ParseError _ l c => (l, c) = (2, 4) | _ => False end.
Proof. vm_compute. reflexivity. Qed.

(** An empty cram expression makes the parser panic. *)
Theorem C45_empty_cram_refuted : exists input, match parse (N := XQ) input with ParsePanic => True | _ => False end.
Proof. exists (runes "c {} d"). vm_compute. exact I. Qed.
Print Assumptions C45_empty_cram_refuted.
