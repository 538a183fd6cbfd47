(** Model of client/parser/ast.go: from syntax trees to score updates. *)
From Coq Require Import String Ascii ZArith NArith List Bool.
From Verif Require Import Base Num ModelPitch ModelDuration ModelInstruments ModelTypes ModelScan ModelParser.
Import ListNotations.
Local Open Scope string_scope.
Local Open Scope list_scope.
Local Open Scope Z_scope.

(** Go's conversion of runes to a string: UTF-8; what is not a Unicode scalar
    value becomes U+FFFD. *)
Definition byte (z : Z) : ascii := ascii_of_N (Z.to_N z).
Definition utf8_rune (r : rune) : list ascii :=
  if (0 <=? r) && (r <? 128) then [byte r]
  else if (128 <=? r) && (r <? 2048) then [byte (192 + r / 64); byte (128 + r mod 64)]
  else if (2048 <=? r) && (r <? 65536) && negb ((55296 <=? r) && (r <? 57344)) then
    [byte (224 + r / 4096); byte (128 + r / 64 mod 64); byte (128 + r mod 64)]
  else if (65536 <=? r) && (r <? 1114112) then
    [byte (240 + r / 262144); byte (128 + r / 4096 mod 64); byte (128 + r / 64 mod 64); byte (128 + r mod 64)]
  else [byte 239; byte 191; byte 189].
Definition utf8 (rs : list rune) : string := string_of_list_ascii (flat_map utf8_rune rs).

Section Ast.
Context {N : Num}.

(** An error value that only a malformed tree can cause (ast.go:268-318). *)
Definition malformed {A} : res A := RErr "unexpected syntax tree".
(** A failed type assertion on a node's literal. *)
Definition bad_literal {A} : res A := RPanic "interface conversion".

Definition lit_text {A} (l : literal) (k : string -> res A) : res A :=
  match l with LitText s => k (utf8 s) | _ => bad_literal end.
Definition lit_int {A} (l : literal) (k : Z -> res A) : res A :=
  match l with LitInt n => k n | _ => bad_literal end.
Definition lit_num {A} (l : literal) (k : num -> res A) : res A :=
  match l with LitNum x => k x | _ => bad_literal end.

(** ast.go:323-365: one component of a duration. *)
Definition ast_component (n : node) : res component :=
  match n with
  | Node BarlineNode _ _ => ROk CBar
  | Node NoteLengthNode _ (Node DenominatorNode den _ :: more) =>
      match more with
      | [] => lit_num den (fun d => ROk (CLen d 0))
      | Node DotsNode dots _ :: _ => lit_int dots (fun k => lit_num den (fun d => ROk (CLen d k)))
      | _ => malformed
      end
  | Node NoteLengthMsNode l _ => lit_num l (fun q => ROk (CMs q))
  | Node NoteLengthSecondsNode l _ => lit_num l (fun q => ROk (CSec q))
  | _ => malformed
  end.
(** ast.go:320-368, duration; no components is a nil slice. *)
Definition ast_duration (children : list node) : res duration :=
  rmap (fun cs => match cs with [] => None | _ => Some cs end) (rmapl ast_component children).

(** pitch.go:58-77, NewNoteLetter. *)
Definition letter_of_rune (r : rune) : res letter :=
  if r =? rn "a" then ROk LA else if r =? rn "b" then ROk LB else if r =? rn "c" then ROk LC
  else if r =? rn "d" then ROk LD else if r =? rn "e" then ROk LE else if r =? rn "f" then ROk LF
  else if r =? rn "g" then ROk LG else RErr "invalid note letter".

(** ast.go:547-559. *)
Definition ast_accidental (n : node) : res accidental :=
  match nty n with
  | FlatNode => ROk Flat | NaturalNode => ROk Natural | SharpNode => ROk Sharp | _ => malformed
  end.
(** ast.go:526-560: letter and accidentals. *)
Definition ast_pitch (n : node) : res pitch :=
  match n with
  | Node NoteLetterAndAccidentalsNode _ (Node NoteLetterNode l _ :: more) =>
      match l with
      | LitRune r =>
          rbind (letter_of_rune r) (fun letter =>
          match more with
          | [] => ROk (PLetter letter None)
          | Node NoteAccidentalsNode _ accs :: _ =>
              rmap (fun l => PLetter letter (match l with [] => None | _ => Some l end)) (rmapl ast_accidental accs)
          | _ => malformed
          end)
      | _ => bad_literal
      end
  | Node NoteLetterAndAccidentalsNode _ [] => RPanic "index out of range"
  | _ => malformed
  end.
(** ast.go:567-582: the further children of a note. *)
Fixpoint ast_note_rest (l : list node) (d : duration) (slurred : bool) : res (duration * bool) :=
  match l with
  | [] => ROk (d, slurred)
  | Node DurationNode _ cs :: t => rbind (ast_duration cs) (fun d' => ast_note_rest t d' slurred)
  | Node TieNode _ _ :: t => ast_note_rest t d true
  | _ => malformed
  end.

(** ast.go:447-508, lispForm. *)
Fixpoint ast_lisp (n : node) : res lform :=
  match n with
  | Node LispListNode _ ch =>
      rmap LList ((fix go (l : list node) : res (list lform) :=
        match l with
        | [] => ROk []
        | c :: t => rbind (ast_lisp c) (fun f => rbind (go t) (fun fs => ROk (f :: fs)))
        end) ch)
  | Node LispNumberNode l _ => lit_num l (fun x => ROk (LNum x))
  | Node LispQuotedFormNode _ [c] => rmap LQuoted (ast_lisp c)
  | Node LispStringNode l _ => lit_text l (fun s => ROk (LStr s))
  | Node LispSymbolNode l _ => lit_text l (fun s => ROk (LSym s))
  | _ => malformed
  end.

(** ast.go:672-691: repetition ranges. *)
Definition ast_range (n : node) : res (Z * Z) :=
  match nch n with
  | [Node FirstRepetitionNode a _; Node LastRepetitionNode b _] =>
      lit_int a (fun x => lit_int b (fun y => ROk (x, y)))
  | _ => malformed
  end.
(** ast.go:716-740: part declarations. *)
Definition ast_part_name (n : node) : res string :=
  match n with Node PartNameNode l _ => lit_text l (fun s => ROk s) | _ => malformed end.
Definition ast_declaration (n : node) : res update :=
  match n with
  | Node PartDeclarationNode _ (Node PartNamesNode _ ((_ :: _) as names) :: more) =>
      rbind (rmapl ast_part_name names) (fun ns =>
      match more with
      | [] => ROk (UPart ns "")
      | Node PartAliasNode l _ :: _ => lit_text l (fun a => ROk (UPart ns a))
      | _ => malformed
      end)
  | Node PartDeclarationNode _ [] => RPanic "index out of range"
  | _ => malformed
  end.

(** ast.go:651-662, 778-789: the one event of a repeat. *)
Definition as_one (us : list update) : update := match us with [u] => u | _ => USeq us end.

(** ast.go:370-904, Updates.  Where several checks of the tree's shape fail, Go
    reports the first; the model does not tell them apart. *)
Fixpoint updates (n : node) {struct n} : res (list update) :=
  let concat := fix go (l : list node) : res (list update) :=
    match l with
    | [] => ROk []
    | c :: t => rbind (updates c) (fun us => rbind (go t) (fun vs => ROk (us ++ vs)))
    end in
  match n with
  | Node AtMarkerNode l _ => lit_text l (fun s => ROk [UAtMarker s])
  | Node BarlineNode _ _ => ROk [UBarline]
  | Node ChordNode _ ((_ :: _) as ch) => rmap (fun us => [UChord us]) (concat ch)
  | Node CramNode _ [Node EventSequenceNode _ es] => rmap (fun us => [UCram us None]) (concat es)
  | Node CramNode _ [Node EventSequenceNode _ es; Node DurationNode _ cs] =>
      rbind (concat es) (fun us => rmap (fun d => [UCram us d]) (ast_duration cs))
  | Node EventSequenceNode _ ch => rmap (fun us => [USeq us]) (concat ch)
  | Node ImplicitPartNode _ [Node EventSequenceNode _ es] => concat es
  | Node LispListNode _ _ =>
      rbind (ast_lisp n) (fun f => match f with LList els => ROk [ULisp els] | _ => bad_literal end)
  | Node MarkerNode l _ => lit_text l (fun s => ROk [UMarker s])
  | Node NoteNode _ (p :: more) =>
      rbind (ast_pitch p) (fun p' =>
      rmap (fun '(d, sl) => [UPrim (Note p' d sl)]) (ast_note_rest more None false))
  | Node OctaveDownNode _ _ => ROk [UPrim (Attr POctDown)]
  | Node OctaveSetNode l _ => lit_int l (fun k => ROk [UPrim (Attr (POctave k))])
  | Node OctaveUpNode _ _ => ROk [UPrim (Attr POctUp)]
  | Node OnRepetitionsNode _ [e; Node RepetitionsNode _ ((_ :: _) as rs)] =>
      rbind (updates e) (fun us => rmap (fun rs' => [UOnReps rs' (as_one us)]) (rmapl ast_range rs))
  | Node PartNode _ [d; Node EventSequenceNode _ es] =>
      rbind (ast_declaration d) (fun u => rmap (fun us => u :: us) (concat es))
  | Node RepeatNode _ [e; Node TimesNode l _] =>
      rbind (updates e) (fun us => lit_int l (fun k => ROk [URepeat (as_one us) k]))
  | Node RestNode _ [] => ROk [UPrim (Rest None)]
  | Node RestNode _ [Node DurationNode _ cs] => rmap (fun d => [UPrim (Rest d)]) (ast_duration cs)
  | Node RootNode _ ch => concat ch
  | Node VariableDefinitionNode _ [Node VariableNameNode l _; Node EventSequenceNode _ es] =>
      lit_text l (fun s => rmap (fun us => [UVarDef s us]) (concat es))
  | Node VariableReferenceNode l _ => lit_text l (fun s => ROk [UVarRef s])
  | Node VoiceGroupNode _ ch => concat ch
  | Node VoiceGroupEndMarkerNode _ _ => ROk [UVoiceEnd]
  | Node VoiceNode _ [Node VoiceNumberNode l _; Node EventSequenceNode _ es] =>
      lit_int l (fun k => rmap (fun us => UVoice k :: us) (concat es))
  | _ => malformed
  end.

(** Reading a score from its text: Parse, then Updates
    (repl/server.go:391-405, cmd/play.go:172-180). *)
Definition compile (input : list rune) : res (list update) :=
  match parse input with
  | Parsed a => updates a
  | ParseError m _ _ => RErr m
  | ParsePanic => RPanic "Critical error while parsing"
  | ParseFuel => RPanic "out of fuel"
  end.
End Ast.
