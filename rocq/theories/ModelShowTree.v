(** Model of the tree that `alda parse -o ast-human` and the REPL's `:score ast`
    print, and of the JSON value that `alda parse -o ast` prints (client/parser/ast.go).

    Simplifications: the tree is printed as such instead of being turned into JSON and
    back first, which keeps types, children and source contexts; how a literal looks
    after that (Go's #v format of a string or float64, on one line) is a parameter. *)
From Coq Require Import String Ascii ZArith List Bool.
From Verif Require Import Base Num ModelScan ModelParser ModelFormat.
Import ListNotations.
Local Open Scope string_scope.
Local Open Scope list_scope.
Local Open Scope Z_scope.

(** ast.go:76-181, String. *)
Definition type_string (t : ntype) : string :=
  match t with
  | AtMarkerNode => "AtMarkerNode"
  | BarlineNode => "BarlineNode"
  | ChordNode => "ChordNode"
  | CramNode => "CramNode"
  | DenominatorNode => "DenominatorNode"
  | DotsNode => "DotsNode"
  | DurationNode => "DurationNode"
  | EventSequenceNode => "EventSequenceNode"
  | FirstRepetitionNode => "FirstRepetitionNode"
  | FlatNode => "FlatNode"
  | ImplicitPartNode => "ImplicitPartNode"
  | LastRepetitionNode => "LastRepetitionNode"
  | LispListNode => "LispListNode"
  | LispNumberNode => "LispNumberNode"
  | LispQuotedFormNode => "LispQuotedFormNode"
  | LispStringNode => "LispStringNode"
  | LispSymbolNode => "LispSymbolNode"
  | MarkerNode => "MarkerNode"
  | NaturalNode => "NaturalNode"
  | NoteAccidentalsNode => "NoteAccidentalsNode"
  | NoteLengthMsNode => "NoteLengthMsNode"
  | NoteLengthNode => "NoteLengthNode"
  | NoteLengthSecondsNode => "NoteLengthSecondsNode"
  | NoteLetterAndAccidentalsNode => "NoteLetterAndAccidentalsNode"
  | NoteLetterNode => "NoteLetterNode"
  | NoteNode => "NoteNode"
  | OctaveDownNode => "OctaveDownNode"
  | OctaveSetNode => "OctaveSetNode"
  | OctaveUpNode => "OctaveUpNode"
  | OnRepetitionsNode => "OnRepetitionsNode"
  | PartAliasNode => "PartAliasNode"
  | PartDeclarationNode => "PartDeclarationNode"
  | PartNameNode => "PartNameNode"
  | PartNamesNode => "PartNamesNode"
  | PartNode => "PartNode"
  | RepeatNode => "RepeatNode"
  | RepetitionRangeNode => "RepetitionRangeNode"
  | RepetitionsNode => "RepetitionsNode"
  | RestNode => "RestNode"
  | RootNode => "RootNode"
  | SharpNode => "SharpNode"
  | TieNode => "TieNode"
  | TimesNode => "TimesNode"
  | VariableDefinitionNode => "VariableDefinitionNode"
  | VariableNameNode => "VariableNameNode"
  | VariableReferenceNode => "VariableReferenceNode"
  | VoiceNode => "VoiceNode"
  | VoiceGroupEndMarkerNode => "VoiceGroupEndMarkerNode"
  | VoiceGroupNode => "VoiceGroupNode"
  | VoiceNumberNode => "VoiceNumberNode"
  end.
Definition type_name (t : ntype) : list rune := runes (type_string t).

Section Show.
Context {N : Num}.
(** A literal as it looks after ": ". *)
Variable show : literal -> list rune.

(** ast.go:210-217, 240-253: the source context, if any (JSON leaves out those at line
    0), and the literal, if any. *)
Definition place_text (p : option (Z * Z)) : list rune :=
  match p with
  | None => []
  | Some (line, column) => runes " [" ++ itoa line ++ runes ":" ++ itoa column ++ runes "]"
  end.
Definition literal_text (l : literal) : list rune := match l with NoLit => [] | _ => runes ": " ++ show l end.

(** ast.go:236-237, 266-268: the nodes in the order in which they are written, with
    their indentation. *)
Fixpoint rows (depth : nat) (n : node) : list (nat * ntype * literal) :=
  match n with Node t l ch => (depth, t, l) :: flat_map (rows (S depth)) ch end.

(** ast.go:255-264 and text/formatting.go:15-23, Indent: one line. *)
Definition row_text (p : option (Z * Z)) (row : nat * ntype * literal) : list rune :=
  let '(d, t, l) := row in repeat space (2 * d) ++ type_name t ++ place_text p ++ literal_text l.
(** [places]: the source contexts of the nodes in that order. *)
Fixpoint row_texts (places : nat -> option (Z * Z)) (i : nat) (rs : list (nat * ntype * literal)) : list (list rune) :=
  match rs with
  | [] => []
  | r :: t => row_text (places i) r :: row_texts places (S i) t
  end.
(** Lines with a newline between two of them. *)
Fixpoint join_lines (ls : list (list rune)) : list rune :=
  match ls with
  | [] => []
  | l :: t => match t with [] => l | _ => l ++ newline :: join_lines t end
  end.
(** ast.go:233-274, HumanReadableAST; the newline at the end is trimmed. *)
Definition human_readable (places : nat -> option (Z * Z)) (n : node) : list rune := join_lines (row_texts places 0 (rows 0 n)).
End Show.

(** JSON values; how literals are written is a parameter. *)
Inductive json (A : Type) :=
| JText (s : list rune) | JInt (n : Z) | JArray (l : list (json A)) | JObject (l : list (string * json A)) | JLiteral (a : A).
Arguments JText {A}. Arguments JInt {A}. Arguments JArray {A}. Arguments JObject {A}. Arguments JLiteral {A}.

Section Json.
Context {N : Num} {A : Type}.
Variable show : literal -> A.
(** The source context of the node at a path from the root (indices in reverse). *)
Variable places : list nat -> option (Z * Z).
(** ast.go:184-220, JSON. *)
Fixpoint tree_json (path : list nat) (n : node) : json A :=
  match n with
  | Node t l ch =>
      JObject (("type", JText (type_name t)) ::
               match ch with
               | [] => []
               | _ => [("children", JArray ((fix go (i : nat) (cs : list node) : list (json A) :=
                                               match cs with [] => [] | c :: r => tree_json (i :: path) c :: go (S i) r end) 0%nat ch))]
               end ++
               match l with NoLit => [] | _ => [("literal", JLiteral (show l))] end ++
               match places path with None => [] | Some (line, column) => [("source-context", JObject [("line", JInt line); ("column", JInt column)])] end)
  end.
End Json.
