(** Model of client/parser/gen.go: from score updates back to a syntax tree. *)
From Coq Require Import String Ascii ZArith NArith List Bool.
From Verif Require Import Base Num ModelPitch ModelDuration ModelInstruments ModelTypes ModelScan ModelParser.
Import ListNotations.
Local Open Scope string_scope.
Local Open Scope list_scope.
Local Open Scope Z_scope.

(** Texts in updates are Go strings, texts in the model's trees lists of runes:
    decoding UTF-8.  What is not UTF-8 does not occur (names come from Alda text
    or from an XML document). *)
Definition byte_val (c : ascii) : Z := Z.of_N (N_of_ascii c).
Fixpoint runes_from (l : list ascii) : list rune :=
  match l with
  | [] => []
  | a :: t =>
      let x := byte_val a in
      if x <? 128 then x :: runes_from t
      else if x <? 224 then
        match t with
        | b :: t' => ((x - 192) * 64 + (byte_val b - 128)) :: runes_from t'
        | _ => [65533]
        end
      else if x <? 240 then
        match t with
        | b :: c :: t' => ((x - 224) * 4096 + (byte_val b - 128) * 64 + (byte_val c - 128)) :: runes_from t'
        | _ => [65533]
        end
      else
        match t with
        | b :: c :: d :: t' =>
            ((x - 240) * 262144 + (byte_val b - 128) * 4096 + (byte_val c - 128) * 64 + (byte_val d - 128)) :: runes_from t'
        | _ => [65533]
        end
  end.
Definition runes_of (s : string) : list rune := runes_from (list_ascii_of_string s).

(** key.go:49-71, KeySignature.String.  [order] is the order in which Go visits
    the entries of the map; it is not determined. *)
Definition letter_char (l : letter) : rune :=
  match l with LA => 97 | LB => 98 | LC => 99 | LD => 100 | LE => 101 | LF => 102 | LG => 103 end.
Definition acc_rune (a : accidental) : rune :=
  match a with Flat => rn "-" | Natural => rn "_" | Sharp => rn "+" end.
Fixpoint join_words (l : list (list rune)) : list rune :=
  match l with
  | [] => []
  | [w] => w
  | w :: t => w ++ space :: join_words t
  end.
Definition key_text (order : list ModelPitch.letter) (k : keysig) : list rune :=
  join_words (flat_map (fun l => match ks_get k l with
                                 | Some accs => [letter_char l :: map acc_rune accs]
                                 | None => []
                                 end) order).

Section Gen.
Context {N : Num}.
Variable order : list ModelPitch.letter.

Definition text_lit (s : string) : literal := LitText (runes_of s).

(** gen.go:18-56: one component of a duration. *)
Definition gen_component (c : component) : res node :=
  match c with
  | CBar => ROk (branch BarlineNode [])
  | CLen d k =>
      ROk (branch NoteLengthNode (leaf DenominatorNode (LitNum d) ::
             if 0 <? k then [leaf DotsNode (LitInt k)] else []))
  | CMs q => ROk (leaf NoteLengthMsNode (LitNum q))
  | CSec q => ROk (leaf NoteLengthSecondsNode (LitNum q))
  | _ => RErr "unexpected DurationComponent"
  end.
(** gen.go:10-60, withDuration: the child to append, if any. *)
Definition gen_duration (d : duration) : res (list node) :=
  match d with
  | None | Some [] => ROk []
  | Some cs => rmap (fun ns => [branch DurationNode ns]) (rmapl gen_component cs)
  end.

(** gen.go:139-183: Lisp forms. *)
Fixpoint gen_lisp (f : lform) : res node :=
  match f with
  | LList fs =>
      rmap (branch LispListNode)
        ((fix go (l : list lform) : res (list node) :=
            match l with
            | [] => ROk []
            | x :: t => rbind (gen_lisp x) (fun n => rbind (go t) (fun ns => ROk (n :: ns)))
            end) fs)
  | LNum x => ROk (leaf LispNumberNode (LitNum x))
  | LQuoted x => rmap (fun n => branch LispQuotedFormNode [n]) (gen_lisp x)
  | LStr s => ROk (leaf LispStringNode (text_lit s))
  | LSym s => ROk (leaf LispSymbolNode (text_lit s))
  | _ => RErr "unexpected LispForm"
  end.

Definition gen_accidental (a : accidental) : node :=
  branch (match a with Flat => FlatNode | Natural => NaturalNode | Sharp => SharpNode end) [].

(** gen.go:73-123, 188-243: the updates that Lisp forms can produce too. *)
Definition gen_prim (p : prim) : res node :=
  match p with
  | Attr (POctave k) => ROk (leaf OctaveSetNode (LitInt k))
  | Attr POctUp => ROk (branch OctaveUpNode [])
  | Attr POctDown => ROk (branch OctaveDownNode [])
  | Attr (PDynamic m) => ROk (branch LispListNode [leaf LispSymbolNode (text_lit m)])
  | Attr (PKey k) =>
      ROk (branch LispListNode [leaf LispSymbolNode (LitText (runes "key-signature"));
                                leaf LispStringNode (LitText (key_text order k))])
  | Attr (PTransp k) =>
      ROk (branch LispListNode [leaf LispSymbolNode (LitText (runes "transpose"));
                                leaf LispNumberNode (LitInt k)])
  | Attr _ => RErr "unexpected PartUpdate"
  | GAttr _ => RErr "unexpected ScoreUpdate"
  | Note (PLetter l accs) d slurred =>
      rmap (fun ds => branch NoteNode
                (branch NoteLetterAndAccidentalsNode
                   (leaf NoteLetterNode (LitRune (letter_char l)) ::
                    match accs with
                    | None | Some [] => []
                    | Some as_ => [branch NoteAccidentalsNode (map gen_accidental as_)]
                    end)
                 :: ds ++ (if slurred then [branch TieNode []] else [])))
           (gen_duration d)
  | Note (PMidi _) _ _ => RErr "unexpected PitchIdentifier"
  | Rest d => rmap (branch RestNode) (gen_duration d)
  end.

(** mapInnerEvents' bookkeeping (gen.go:292-339): the nodes so far, and the
    voice group being built, if any: its finished voices, and the number and
    nodes of the voice that events are added to. *)
Definition open_group : Type := list node * Z * list node.
Definition close_voice (g : open_group) : list node :=
  let '(vs, n, es) := g in vs ++ [branch VoiceNode [leaf VoiceNumberNode (LitInt n); branch EventSequenceNode es]].
Definition close_group (g : option open_group) : list node :=
  match g with None => [] | Some g => [branch VoiceGroupNode (close_voice g)] end.
Definition add_event (n : node) (st : list node * option open_group) : list node * option open_group :=
  match st with
  | (done, None) => (done ++ [n], None)
  | (done, Some (vs, k, es)) => (done, Some (vs, k, es ++ [n]))
  end.

(** gen.go:62-283, mapIsolatedUpdate, and (the local function) gen.go:285-339,
    mapInnerEvents. *)
Fixpoint gen (u : update) : res node :=
  let inner := fix go (l : list update) (st : list node * option open_group) : res (list node) :=
    match l with
    | [] => ROk (fst st ++ close_group (snd st))
    | UVoice n :: t =>
        go t (fst st, Some (match snd st with None => [] | Some g => close_voice g end, n, []))
    | UVoiceEnd :: t =>
        match snd st with
        | None => RPanic "nil pointer dereference"
        | Some g => go t (fst st ++ [branch VoiceGroupNode (close_voice g ++ [branch VoiceGroupEndMarkerNode []])], None)
        end
    | x :: t => rbind (gen x) (fun n => go t (add_event n st))
    end in
  match u with
  | UPrim p => gen_prim p
  | UAtMarker s => ROk (leaf AtMarkerNode (text_lit s))
  | UBarline => ROk (branch BarlineNode [])
  | UChord es => rmap (branch ChordNode) (inner es ([], None))
  | UCram es d =>
      rbind (inner es ([], None)) (fun ns =>
      rmap (fun ds => branch CramNode (branch EventSequenceNode ns :: ds)) (gen_duration d))
  | USeq es => rmap (branch EventSequenceNode) (inner es ([], None))
  | ULisp els => gen_lisp (LList els)
  | UMarker s => ROk (leaf MarkerNode (text_lit s))
  | UOnReps rs e =>
      rmap (fun n => branch OnRepetitionsNode
              [n; branch RepetitionsNode
                    (map (fun '(a, b) => branch RepetitionRangeNode
                            [leaf FirstRepetitionNode (LitInt a); leaf LastRepetitionNode (LitInt b)]) rs)])
           (gen e)
  | URepeat e k => rmap (fun n => branch RepeatNode [n; leaf TimesNode (LitInt k)]) (gen e)
  | UVarDef s es =>
      rmap (fun ns => branch VariableDefinitionNode [leaf VariableNameNode (text_lit s); branch EventSequenceNode ns])
           (inner es ([], None))
  | UVarRef s => ROk (leaf VariableReferenceNode (text_lit s))
  | UPart _ _ | UVoice _ | UVoiceEnd | UNil => RErr "unexpected ScoreUpdate"
  end.
Definition inner_events : list update -> list node * option open_group -> res (list node) :=
  fix go (l : list update) (st : list node * option open_group) : res (list node) :=
    match l with
    | [] => ROk (fst st ++ close_group (snd st))
    | UVoice n :: t =>
        go t (fst st, Some (match snd st with None => [] | Some g => close_voice g end, n, []))
    | UVoiceEnd :: t =>
        match snd st with
        | None => RPanic "nil pointer dereference"
        | Some g => go t (fst st ++ [branch VoiceGroupNode (close_voice g ++ [branch VoiceGroupEndMarkerNode []])], None)
        end
    | x :: t => rbind (gen x) (fun n => go t (add_event n st))
    end.

(** gen.go:341-396, mapTopLevel.  Go goes through the updates backwards; here
    the events before the first declaration are split off first. *)
Fixpoint until_part (us : list update) : list update * list update :=
  match us with
  | [] => ([], [])
  | UPart ns a :: t => ([], UPart ns a :: t)
  | u :: t => let (p, q) := until_part t in (u :: p, q)
  end.
Definition gen_declaration (names : list string) (alias : string) : node :=
  branch PartDeclarationNode
    (branch PartNamesNode (map (fun s => leaf PartNameNode (text_lit s)) names) ::
     if String.eqb alias "" then [] else [leaf PartAliasNode (text_lit alias)]).
Fixpoint gen_parts (fuel : nat) (us : list update) : res (list node) :=
  match fuel, us with
  | S f, UPart names alias :: t =>
      let (es, more) := until_part t in
      rbind (gen_parts f more) (fun ps =>
      rmap (fun ns => branch PartNode [gen_declaration names alias; branch EventSequenceNode ns] :: ps)
           (inner_events es ([], None)))
  | _, [] => ROk []
  | _, _ => RPanic "out of fuel"
  end.
(** gen.go:398-411, GenerateASTFromScoreUpdates. *)
Definition generate (us : list update) : res node :=
  let (es, more) := until_part us in
  rbind (gen_parts (S (List.length more)) more) (fun ps =>
  match es with
  | [] => ROk (branch RootNode ps)
  | _ => rmap (fun ns => branch RootNode (branch ImplicitPartNode [branch EventSequenceNode ns] :: ps))
              (inner_events es ([], None))
  end).
End Gen.
