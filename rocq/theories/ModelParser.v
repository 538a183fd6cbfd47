(** Model of client/parser/parser.go: from tokens to the syntax tree.

    The parser's position is modelled by the list of tokens from the current one
    on; going back to an earlier position is using the earlier list again.  The
    token list always ends in an EOF token, which is never consumed; reading past
    the end (impossible) is treated like reading EOF.  Source contexts of syntax
    tree nodes are omitted (the parser's own option SuppressSourceContext does
    that); errors keep theirs. *)
From Coq Require Import ZArith List String Bool.
From Verif Require Import Base Num ModelScan.
Import ListNotations.
Local Open Scope string_scope.
Local Open Scope list_scope.
Local Open Scope Z_scope.

(** ast.go:16-67, ASTNodeType. *)
Inductive ntype :=
| AtMarkerNode | BarlineNode | ChordNode | CramNode | DenominatorNode | DotsNode
| DurationNode | EventSequenceNode | FirstRepetitionNode | FlatNode
| ImplicitPartNode | LastRepetitionNode | LispListNode | LispNumberNode
| LispQuotedFormNode | LispStringNode | LispSymbolNode | MarkerNode | NaturalNode
| NoteAccidentalsNode | NoteLengthMsNode | NoteLengthNode | NoteLengthSecondsNode
| NoteLetterAndAccidentalsNode | NoteLetterNode | NoteNode | OctaveDownNode
| OctaveSetNode | OctaveUpNode | OnRepetitionsNode | PartAliasNode
| PartDeclarationNode | PartNameNode | PartNamesNode | PartNode | RepeatNode
| RepetitionRangeNode | RepetitionsNode | RestNode | RootNode | SharpNode
| TieNode | TimesNode | VariableDefinitionNode | VariableNameNode
| VariableReferenceNode | VoiceNode | VoiceGroupEndMarkerNode | VoiceGroupNode
| VoiceNumberNode.

(** The error and panic messages of the parser (shortened). *)
Definition err_sexp : string := "in S-expression".
Definition err_open_sexp : string := "unterminated S-expression".
Definition err_note : string := "in note/rest".
Definition err_chord : string := "in chord".
Definition err_no_event : string := "there must be at least one event on the same line as the '='".
Definition err_event : string := "in inner events".
Definition err_open_seq : string := "unterminated event sequence".
Definition err_open_cram : string := "unterminated cram expression".
Definition err_part : string := "in part declaration".
Definition panic_index : string := "index out of range".
Definition panic_single : string := "Expected a single node".

Section Parser.
Context {N : Num}.

(** The values a node's Literal field (an interface{}) can hold. *)
Inductive literal :=
| NoLit | LitInt (n : Z) | LitNum (x : num) | LitText (s : list rune) | LitRune (r : rune).

(** ast.go:69-74, ASTNode without its source context. *)
Inductive node := Node (ty : ntype) (lit : literal) (children : list node).

Definition nty (n : node) : ntype := let (t, _, _) := n in t.
Definition nch (n : node) : list node := let (_, _, c) := n in c.
Definition nlit_ (n : node) : literal := let (_, l, _) := n in l.

(** Result of a parsing function: a value and the tokens from the new position;
    an error at the first of the given tokens; a panic; or the model's recursion
    budget exhausted (shown unreachable). *)
Inductive pres (A : Type) :=
| POk (a : A) (rest : list token)
| PErr (msg : string) (at_ : list token)
| PPanic (msg : string)
| PFuel.
Arguments POk {A}. Arguments PErr {A}. Arguments PPanic {A}. Arguments PFuel {A}.

Definition pbind {A B} (r : pres A) (k : A -> list token -> pres B) : pres B :=
  match r with
  | POk a rest => k a rest
  | PErr m t => PErr m t
  | PPanic m => PPanic m
  | PFuel => PFuel
  end.

(** parser.go:57-59, 67-69: the types of the current and the next token. *)
Definition kind (ts : list token) : tok := match ts with t :: _ => tkind t | [] => TEOF end.
Definition kind2 (ts : list token) : tok := match ts with _ :: t :: _ => tkind t | _ => TEOF end.
Definition line_of (ts : list token) : Z := match ts with t :: _ => tline t | [] => 0 end.

Definition leaf (ty : ntype) (l : literal) : node := Node ty l [].
Definition branch (ty : ntype) (c : list node) : node := Node ty NoLit c.

(** parser.go:133-200, lispForm and lispList (after the opening parenthesis). *)
Fixpoint lisp_form (fuel : nat) (ts : list token) {struct fuel} : pres node :=
  match fuel with
  | O => PFuel
  | S f =>
      match ts with
      | t :: ts' =>
          match tkind t with
          | TSymbol => POk (leaf LispSymbolNode (LitText (ttext t))) ts'
          | TNumber x => POk (leaf LispNumberNode (LitNum x)) ts'
          | TString s => POk (leaf LispStringNode (LitText s)) ts'
          | TLParen => pbind (lisp_forms f ts') (fun ns r => POk (branch LispListNode ns) r)
          | _ => PErr err_sexp ts
          end
      | [] => PErr err_sexp ts
      end
  end
with lisp_forms (fuel : nat) (ts : list token) {struct fuel} : pres (list node) :=
  match fuel with
  | O => PFuel
  | S f =>
      match ts with
      | [] => PErr err_open_sexp ts
      | t :: ts' =>
          match tkind t with
          | TRParen => POk [] ts'
          | TEOF => PErr err_open_sexp ts
          | TQuote =>
              pbind (lisp_form f ts') (fun n r =>
              pbind (lisp_forms f r) (fun ns r' => POk (branch LispQuotedFormNode [n] :: ns) r'))
          | _ =>
              pbind (lisp_form f ts) (fun n r =>
              pbind (lisp_forms f r) (fun ns r' => POk (n :: ns) r'))
          end
      end
  end.
Definition lisp_list (fuel : nat) (ts : list token) : pres node :=
  pbind (lisp_forms fuel ts) (fun ns r => POk (branch LispListNode ns) r).

Definition repeat_node (n : node) (times : Z) : node :=
  branch RepeatNode [n; leaf TimesNode (LitInt times)].

(** parser.go:394-410, singleOrRepeated. *)
Definition single_or_repeated (n : node) (ts : list token) : pres node :=
  match ts with
  | t :: ts' => match tkind t with TRepeat k => POk (repeat_node n k) ts' | _ => POk n ts end
  | [] => POk n ts
  end.

(** parser.go:445-492, matchDurationComponent and durationComponent. *)
Definition length_node (k : tok) : option node :=
  match k with
  | TLength den dots =>
      Some (branch NoteLengthNode
              (leaf DenominatorNode (LitNum den) ::
               if 0 <? dots then [leaf DotsNode (LitInt dots)] else []))
  | TMs q => Some (leaf NoteLengthMsNode (LitNum q))
  | TSeconds q => Some (leaf NoteLengthSecondsNode (LitNum q))
  | _ => None
  end.

Definition barline : node := branch BarlineNode [].

(** Consuming tokens of one type, as the loops of parser.go:516-522, 539-545
    and 550-554 do: how many, and the rest. *)
Fixpoint bars (ts : list token) : nat * list token :=
  match ts with
  | t :: ts' => match tkind t with TBarline => let (n, r) := bars ts' in (S n, r) | _ => (O, ts) end
  | [] => (O, ts)
  end.
Fixpoint ties (ts : list token) : list token :=
  match ts with
  | t :: ts' => match tkind t with TTie => ties ts' | _ => ts end
  | [] => ts
  end.

(** parser.go:513-563: the loop of duration, after the first component. *)
Fixpoint more_duration (fuel : nat) (ts : list token) : pres (list node) :=
  match fuel with
  | O => PFuel
  | S f =>
      let (n, before_ties) := bars ts in
      let bs := repeat barline n in
      match before_ties with
      | t :: ts1 =>
          match tkind t with
          | TTie =>
              let (m, ts2) := bars ts1 in
              match ties ts2 with
              | l :: ts3 =>
                  match length_node (tkind l) with
                  | Some c =>
                      pbind (more_duration f ts3) (fun cs r =>
                        POk (bs ++ repeat barline m ++ c :: cs) r)
                  | None => POk bs before_ties
                  end
              | [] => POk bs before_ties
              end
          | _ => POk bs before_ties
          end
      | [] => POk bs before_ties
      end
  end.

(** parser.go:494-564 with matchDurationComponent: an optional duration. *)
Definition opt_duration (fuel : nat) (ts : list token) : pres (list node) :=
  match ts with
  | t :: ts' =>
      match length_node (tkind t) with
      | Some c => pbind (more_duration fuel ts') (fun cs r => POk [branch DurationNode (c :: cs)] r)
      | None => POk [] ts
      end
  | [] => POk [] ts
  end.

(** parser.go:584-604: accidentals. *)
Definition accidental_node (k : tok) : option node :=
  match k with
  | TFlat => Some (branch FlatNode [])
  | TNatural => Some (branch NaturalNode [])
  | TSharp => Some (branch SharpNode [])
  | _ => None
  end.
Fixpoint accidentals (ts : list token) : list node * list token :=
  match ts with
  | t :: ts' =>
      match accidental_node (tkind t) with
      | Some a => let (l, r) := accidentals ts' in (a :: l, r)
      | None => ([], ts)
      end
  | [] => ([], ts)
  end.

Definition note_node (letter : rune) (accs dur : list node) (slurred : bool) : node :=
  branch NoteNode
    (branch NoteLetterAndAccidentalsNode
       (leaf NoteLetterNode (LitRune letter) ::
        match accs with [] => [] | _ => [branch NoteAccidentalsNode accs] end)
     :: dur ++ (if slurred then [branch TieNode []] else [])).

(** parser.go:566-632, note, after its letter. *)
Definition note (fuel : nat) (letter : rune) (ts : list token) : pres node :=
  let (accs, ts1) := accidentals ts in
  pbind (opt_duration fuel ts1) (fun d ts2 =>
  match ts2 with
  | t :: ts3 =>
      match tkind t with
      | TTie => POk (note_node letter accs d true) ts3
      | _ => POk (note_node letter accs d false) ts2
      end
  | [] => POk (note_node letter accs d false) ts2
  end).

(** parser.go:634-660, rest and noteOrRest, after the letter's token [t]. *)
Definition note_or_rest (fuel : nat) (t : token) (ts : list token) : pres node :=
  match tkind t with
  | TNote r => note fuel r ts
  | TRest => pbind (opt_duration fuel ts) (fun d r => POk (branch RestNode d) r)
  | _ => PErr err_note (t :: ts)
  end.

(** parser.go:662-692, nodesBetweenNotesInChord. *)
Fixpoint between (fuel : nat) (ts : list token) : pres (list node) :=
  match fuel with
  | O => PFuel
  | S f =>
      match ts with
      | t :: ts' =>
          match tkind t with
          | TOctUp => pbind (between f ts') (fun ns r => POk (branch OctaveUpNode [] :: ns) r)
          | TOctDown => pbind (between f ts') (fun ns r => POk (branch OctaveDownNode [] :: ns) r)
          | TOctSet n => pbind (between f ts') (fun ns r => POk (leaf OctaveSetNode (LitInt n) :: ns) r)
          | TLParen => pbind (lisp_list f ts') (fun n r => pbind (between f r) (fun ns r' => POk (n :: ns) r'))
          | _ => POk [] ts
          end
      | [] => POk [] ts
      end
  end.

(** parser.go:712-777: the loop of noteRestOrChord, after the letter's token
    [t].  Gives the nodes and the times of a final repeat (0 if none). *)
Fixpoint chord (fuel : nat) (t : token) (ts : list token) : pres (list node * Z) :=
  match fuel with
  | O => PFuel
  | S f =>
      pbind (note_or_rest f t ts) (fun n ts1 =>
      match kind ts1 with
      | TRepeat k => POk ([n], k) (tl ts1)
      | _ =>
          pbind (between f ts1) (fun before ts2 =>
          match kind ts2 with
          | TSeparator =>
              pbind (between f (tl ts2)) (fun after ts3 =>
              match ts3 with
              | t' :: ts4 =>
                  match tkind t' with
                  | TNote _ | TRest =>
                      pbind (chord f t' ts4) (fun nk r =>
                        POk (n :: before ++ after ++ fst nk, snd nk) r)
                  | _ => PErr err_chord ts3
                  end
              | [] => PErr err_chord ts3
              end)
          | _ => POk ([n], 0) ts1
          end)
      end)
  end.

(** parser.go:779-785: notes and rests are counted. *)
Definition is_note_or_rest (n : node) : bool :=
  match nty n with NoteNode | RestNode => true | _ => false end.

(** parser.go:696-816, noteRestOrChord. *)
Definition note_rest_or_chord (fuel : nat) (t : token) (ts : list token) : pres node :=
  pbind (chord fuel t ts) (fun nk r =>
  let all := if 1 <? Z.of_nat (List.length (filter is_note_or_rest (fst nk)))
             then [branch ChordNode (fst nk)] else fst nk in
  match all with
  | [] => PPanic panic_index
  | n :: more =>
      if 0 <? snd nk
      then match more with [] => POk (repeat_node n (snd nk)) r | _ => PPanic panic_single end
      else POk n r
  end).

(** parser.go:834-863: an event with repetition ranges. *)
Definition range_node (r : Z * Z) : node :=
  branch RepetitionRangeNode [leaf FirstRepetitionNode (LitInt (fst r)); leaf LastRepetitionNode (LitInt (snd r))].
Definition on_repetitions (n : node) (rs : list (Z * Z)) : node :=
  branch OnRepetitionsNode [n; branch RepetitionsNode (map range_node rs)].

(** parser.go:267-278, looksLikePartDeclaration. *)
Definition looks_like_part (ts : list token) : bool :=
  match kind ts, kind2 ts with
  | TName, TAlias _ | TName, TSeparator | TName, TColon => true
  | _, _ => false
  end.

(** parser.go:949-950: what ends the events of a voice. *)
Definition ends_voice (ts : list token) : bool :=
  match kind ts with
  | TEOF | TVoice _ | TSeqClose | TCramClose => true
  | _ => looks_like_part ts
  end.

Definition var_def_node (name : list rune) (es : list node) : node :=
  branch VariableDefinitionNode [leaf VariableNameNode (LitText name); branch EventSequenceNode es].
Definition cram_node (es d : list node) : node := branch CramNode (branch EventSequenceNode es :: d).
Definition voice_node (n : Z) (es : list node) : node :=
  branch VoiceNode [leaf VoiceNumberNode (LitInt n); branch EventSequenceNode es].

(** parser.go:1002-1069, innerEvent, with the functions it calls: 202-210 sexp,
    340-392 variableDefinition, 412-443, 818-1000 eventSeq, cram, voice and
    voiceGroup. *)
Fixpoint inner (fuel : nat) (ts : list token) {struct fuel} : pres node :=
  match fuel with
  | O => PFuel
  | S f =>
      match ts with
      | [] => PErr err_event ts
      | t :: ts' =>
          match tkind t with
          | TLParen => pbind (lisp_list f ts') single_or_repeated
          | TName =>
              match kind ts' with
              | TEquals =>
                  let ts2 := tl ts' in
                  match kind ts2 with
                  | TEOF => PErr err_no_event ts
                  | _ =>
                      if tline t <? line_of ts2
                      then PErr err_no_event ts
                      else pbind (line_events f (tline t) ts2) (fun es r => POk (var_def_node (ttext t) es) r)
                  end
              | _ => single_or_repeated (leaf VariableReferenceNode (LitText (ttext t))) ts'
              end
          | TOctSet n => POk (leaf OctaveSetNode (LitInt n)) ts'
          | TOctUp => POk (branch OctaveUpNode []) ts'
          | TOctDown => POk (branch OctaveDownNode []) ts'
          | TNote _ | TRest => note_rest_or_chord f t ts'
          | TBarline => POk barline ts'
          | TSeqOpen =>
              pbind (seq_events f ts') (fun es r => single_or_repeated (branch EventSequenceNode es) r)
          | TCramOpen =>
              pbind (cram_events f ts') (fun es r =>
              match es with
              | [] => PPanic panic_index
              | _ => pbind (opt_duration f r) (fun d r' => single_or_repeated (cram_node es d) r')
              end)
          | TVoice n => pbind (voices f n ts') (fun vs r => POk (branch VoiceGroupNode vs) r)
          | TMarker s => POk (leaf MarkerNode (LitText s)) ts'
          | TAtMarker s => POk (leaf AtMarkerNode (LitText s)) ts'
          | _ => PErr err_event ts
          end
      end
  end
(* parser.go:372-383: the events on the line of a variable definition *)
with line_events (fuel : nat) (line : Z) (ts : list token) {struct fuel} : pres (list node) :=
  match fuel with
  | O => PFuel
  | S f =>
      match ts with
      | [] => POk [] ts
      | t :: _ =>
          match tkind t with
          | TEOF => POk [] ts
          | _ =>
              if tline t =? line
              then pbind (inner f ts) (fun n r =>
                   pbind (line_events f line r) (fun ns r' => POk (n :: ns) r'))
              else POk [] ts
          end
      end
  end
(* parser.go:824-870 *)
with seq_events (fuel : nat) (ts : list token) {struct fuel} : pres (list node) :=
  match fuel with
  | O => PFuel
  | S f =>
      match ts with
      | [] => PErr err_open_seq ts
      | t :: ts' =>
          match tkind t with
          | TSeqClose => POk [] ts'
          | TEOF => PErr err_open_seq ts
          | _ =>
              pbind (inner f ts) (fun n r =>
              match kind r with
              | TReps rs => pbind (seq_events f (tl r)) (fun ns r' => POk (on_repetitions n rs :: ns) r')
              | _ => pbind (seq_events f r) (fun ns r' => POk (n :: ns) r')
              end)
          end
      end
  end
(* parser.go:887-901 *)
with cram_events (fuel : nat) (ts : list token) {struct fuel} : pres (list node) :=
  match fuel with
  | O => PFuel
  | S f =>
      match ts with
      | [] => PErr err_open_cram ts
      | t :: ts' =>
          match tkind t with
          | TCramClose => POk [] ts'
          | TEOF => PErr err_open_cram ts
          | _ =>
              pbind (inner f ts) (fun n r =>
              pbind (cram_events f r) (fun ns r' => POk (n :: ns) r'))
          end
      end
  end
(* parser.go:949-957 *)
with voice_events (fuel : nat) (ts : list token) {struct fuel} : pres (list node) :=
  match fuel with
  | O => PFuel
  | S f =>
      if ends_voice ts then POk [] ts
      else pbind (inner f ts) (fun n r =>
           pbind (voice_events f r) (fun ns r' => POk (n :: ns) r'))
  end
(* parser.go:976-997, after the marker of voice [n] *)
with voices (fuel : nat) (n : Z) (ts : list token) {struct fuel} : pres (list node) :=
  match fuel with
  | O => PFuel
  | S f =>
      pbind (voice_events f ts) (fun es r =>
      match kind r with
      | TVoice m =>
          if m =? 0 then POk [voice_node n es; branch VoiceGroupEndMarkerNode []] (tl r)
          else pbind (voices f m (tl r)) (fun vs r' => POk (voice_node n es :: vs) r')
      | _ => POk [voice_node n es] r
      end)
  end.

(** parser.go:280-298, partEvents. *)
Fixpoint part_events (fuel : nat) (ts : list token) : pres (list node) :=
  match fuel with
  | O => PFuel
  | S f =>
      match kind ts with
      | TEOF => POk [] ts
      | _ =>
          if looks_like_part ts then POk [] ts
          else pbind (inner f ts) (fun n r =>
               pbind (part_events f r) (fun ns r' => POk (n :: ns) r'))
      end
  end.

Definition name_node (t : token) : node := leaf PartNameNode (LitText (ttext t)).

(** parser.go:230-241: further names of a declaration. *)
Fixpoint more_names (fuel : nat) (ts : list token) : pres (list node) :=
  match fuel with
  | O => PFuel
  | S f =>
      match kind ts with
      | TSeparator =>
          match tl ts with
          | t :: ts' =>
              match tkind t with
              | TName => pbind (more_names f ts') (fun ns r => POk (name_node t :: ns) r)
              | _ => PErr err_part (t :: ts')
              end
          | [] => PErr err_part []
          end
      | _ => POk [] ts
      end
  end.

(** parser.go:212-265, partDeclaration, after the token [t] of the first name. *)
Definition part_declaration (fuel : nat) (t : token) (ts : list token) : pres node :=
  pbind (more_names fuel ts) (fun ns ts1 =>
  let names := branch PartNamesNode (name_node t :: ns) in
  let (alias, ts2) := match kind ts1 with
                      | TAlias a => ([leaf PartAliasNode (LitText a)], tl ts1)
                      | _ => ([], ts1)
                      end in
  match kind ts2 with
  | TColon => POk (branch PartDeclarationNode (names :: alias)) (tl ts2)
  | _ => PErr err_part ts2
  end).

(** parser.go:300-338, 1071-1078: part, implicitPart and topLevel. *)
Definition top_level (fuel : nat) (ts : list token) : pres node :=
  if looks_like_part ts then
    match ts with
    | t :: ts' =>
        pbind (part_declaration fuel t ts') (fun d r =>
        pbind (part_events fuel r) (fun es r' => POk (branch PartNode [d; branch EventSequenceNode es]) r'))
    | [] => PPanic panic_index
    end
  else pbind (part_events fuel ts) (fun es r => POk (branch ImplicitPartNode [branch EventSequenceNode es]) r).

(** parser.go:1083-1091. *)
Fixpoint top_levels (fuel : nat) (ts : list token) : pres (list node) :=
  match fuel with
  | O => PFuel
  | S f =>
      match kind ts with
      | TEOF => POk [] ts
      | _ => pbind (top_level f ts) (fun n r =>
             pbind (top_levels f r) (fun ns r' => POk (n :: ns) r'))
      end
  end.

(** parser.go:1080-1094, parseAST. *)
Definition parse_tokens (ts : list token) : pres node :=
  pbind (top_levels (4 * List.length ts + 5)%nat ts) (fun ns r => POk (branch RootNode ns) r).

Inductive parse_result :=
| Parsed (ast : node)
| ParseError (msg : string) (line col : Z)
| ParsePanic
| ParseFuel.

(** parser.go:1097-1119, Parse.  A panic is reported as a panic with another
    message. *)
Definition parse (input : list rune) : parse_result :=
  match scan input with
  | Scanned ts =>
      match parse_tokens ts with
      | POk a _ => Parsed a
      | PErr m (t :: _) => ParseError m (tline t) (tcol t)
      | PErr m [] => ParsePanic
      | PPanic _ => ParsePanic
      | PFuel => ParseFuel
      end
  | ScanError m l c => ParseError m l c
  | ScanFuel => ParseFuel
  end.
End Parser.
Arguments POk {N A}. Arguments PErr {N A}. Arguments PPanic {N A}. Arguments PFuel {N A}.
