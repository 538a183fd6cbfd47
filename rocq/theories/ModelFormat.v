(** Model of client/parser/format.go: printing a syntax tree as text.

    Which calls of write, flush, indent, unindent and emptyLine are made, and how
    the field varDef is set, depends on the tree only; so the model first makes
    the list of these calls and then carries them out.  An error value and a
    failed type assertion (both only for trees of an unexpected shape) are [None]. *)
From Coq Require Import String Ascii ZArith List Bool.
From Verif Require Import Base Num ModelScan ModelParser.
Import ListNotations.
Local Open Scope string_scope.
Local Open Scope list_scope.
Local Open Scope Z_scope.

(** fmt.Sprintf("%d", n). *)
Fixpoint itoa_loop (fuel : nat) (n : Z) : list rune :=
  match fuel with
  | O => []
  | S f => if n <? 10 then [48 + n] else itoa_loop f (n / 10) ++ [48 + n mod 10]
  end.
Definition itoa (n : Z) : list rune :=
  if n <? 0 then rn "-" :: itoa_loop (S (Z.to_nat (Z.log2 (- n)))) (- n)
  else itoa_loop (S (Z.to_nat (Z.log2 n))) n.

(** The bytes of a text (Go's len of a string). *)
Definition rune_len (r : rune) : Z := if r <? 128 then 1 else if r <? 2048 then 2 else if r <? 65536 then 3 else 4.
Definition text_len (t : list rune) : Z := fold_right (fun r n => rune_len r + n) 0 t.

(** strings.Join. *)
Fixpoint join (sep : list rune) (l : list (list rune)) : list rune :=
  match l with
  | [] => []
  | [x] => x
  | x :: t => x ++ sep ++ join sep t
  end.

(* ------------------------- the state ------------------------- *)

(** format.go:11-17, varDefState. *)
Inductive var_def := VNone | VDefining | VLast.

(** format.go:19-40: the configuration. *)
Record config := Config { c_wrap : Z; c_indent : list rune }.
(** format.go:44-45. *)
Definition default_config : config := Config 80 [space; space].

(** format.go:22-25: the state. *)
Record fstate := FState { f_var : var_def; f_level : Z; f_texts : list (list rune); f_out : list rune }.
(** format.go:42-57. *)
Definition new_formatter : fstate := FState VNone 0 [] [].

(** The calls. *)
Inductive fop :=
| FWrite (text : list rune) | FFlush | FIndent | FUnindent | FEmptyLine | FVar (v : var_def).

Section Calls.
Variable cfg : config.

(** format.go:59-68, line.  (strings.Repeat panics if the level is negative, see
    [format].) *)
Definition line (st : fstate) : list rune :=
  match join [space] (f_texts st) with
  | [] => []
  | text => List.concat (repeat (c_indent cfg) (Z.to_nat (f_level st))) ++ text
  end.

(** format.go:78-84, flush. *)
Definition flush (st : fstate) : fstate :=
  match f_texts st, f_var st with
  | _ :: _, VNone => FState VNone (f_level st) [] (f_out st ++ line st ++ [newline])
  | _, _ => st
  end.

(** format.go:70-118. *)
Definition fstep (o : fop) (st : fstate) : fstate :=
  match o with
  | FWrite t =>
      let added := FState (f_var st) (f_level st) (f_texts st ++ [t]) (f_out st) in
      match f_var st with
      | VNone =>
          if c_wrap cfg <? text_len (line added)
          then let st' := flush st in FState VNone (f_level st') (f_texts st' ++ [t]) (f_out st')
          else added
      | _ => added
      end
  | FFlush => flush st
  | FIndent =>
      match f_var st with
      | VDefining => st
      | _ => let st' := flush (FState VNone (f_level st) (f_texts st) (f_out st)) in
             FState VNone (f_level st' + 1) (f_texts st') (f_out st')
      end
  | FUnindent =>
      match f_var st with
      | VNone => let st' := flush st in FState VNone (f_level st' - 1) (f_texts st') (f_out st')
      | _ => st
      end
  | FEmptyLine =>
      match f_var st with
      | VNone => let st' := flush st in FState VNone (f_level st') (f_texts st') (f_out st' ++ [newline])
      | _ => st
      end
  | FVar v => FState v (f_level st) (f_texts st) (f_out st)
  end.
Definition frun (l : list fop) (st : fstate) : fstate := fold_left (fun s o => fstep o s) l st.

(** The level never becomes negative. *)
Fixpoint levels_ok (l : list fop) (st : fstate) : bool :=
  match l with
  | [] => true
  | o :: t => let st' := fstep o st in (0 <=? f_level st') && levels_ok t st'
  end.
End Calls.

Section Format.
Context {N : Num}.
(** strconv.FormatFloat(x, 'f', -1, 64). *)
Variable fmt : num -> list rune.

Definition oapp {A} (a b : option (list A)) : option (list A) :=
  match a, b with Some x, Some y => Some (x ++ y) | _, _ => None end.
Definition nonempty_text (t : list rune) : bool := match t with [] => false | _ => true end.
Definition write_if (t : list rune) : list fop := if nonempty_text t then [FWrite t] else [].

(** format.go:155-211: one length of a duration. *)
Definition length_text (n : node) : option (list rune) :=
  match n with
  | Node NoteLengthNode _ (Node DenominatorNode (LitNum x) _ :: more) =>
      match more with
      | [] => Some (fmt x)
      | [Node DotsNode (LitInt k) _] => Some (fmt x ++ repeat (rn ".") (Z.to_nat k))
      | _ => None
      end
  | Node NoteLengthMsNode (LitNum x) _ => Some (fmt x ++ runes "ms")
  | Node NoteLengthSecondsNode (LitNum x) _ => Some (fmt x ++ runes "s")
  | _ => None
  end.

(** format.go:125-220, formatWithDuration: the loop over the rest [l] of the
    duration's children, with the text so far. *)
Fixpoint duration_ops (text : list rune) (tie : bool) (post : list rune) (l : list node) : option (list fop) :=
  match l with
  | [] => Some (if nonempty_text text then [FWrite (text ++ post)] else [])
  | n :: t =>
      match nty n with
      | BarlineNode =>
          let text' := match t with [] => text ++ post | _ => text end in
          oapp (Some (write_if text' ++ [FWrite [rn "|"]])) (duration_ops [] tie post t)
      | _ =>
          match length_text n with
          | Some x => duration_ops (text ++ (if tie then [rn "~"] else []) ++ x) true post t
          | None => None
          end
      end
  end.
Definition with_duration (pre : list rune) (d : list node) (post : list rune) : option (list fop) :=
  duration_ops pre false post d.

(** format.go:320-373, lispString. *)
Fixpoint lisp_text (n : node) : option (list rune) :=
  match n with
  | Node LispListNode _ ch =>
      match (fix go (l : list node) : option (list (list rune)) :=
        match l with
        | [] => Some []
        | c :: t => match lisp_text c, go t with Some x, Some xs => Some (x :: xs) | _, _ => None end
        end) ch with
      | Some xs => Some (rn "(" :: join [space] xs ++ [rn ")"])
      | None => None
      end
  | Node LispNumberNode (LitNum x) _ => Some (fmt x)
  | Node LispNumberNode (LitInt k) _ => Some (itoa k)
  | Node LispQuotedFormNode _ (c :: _) => match lisp_text c with Some x => Some (rn "'" :: x) | None => None end
  | Node LispStringNode (LitText s) _ => Some (quote_mark :: s ++ [quote_mark])
  | Node LispSymbolNode (LitText s) _ => Some s
  | _ => None
  end.

(** format.go:419-433. *)
Fixpoint accidentals_text (l : list node) : option (list rune) :=
  match l with
  | [] => Some []
  | n :: t =>
      match nty n, accidentals_text t with
      | FlatNode, Some x => Some (rn "-" :: x)
      | NaturalNode, Some x => Some (rn "_" :: x)
      | SharpNode, Some x => Some (rn "+" :: x)
      | _, _ => None
      end
  end.
(** format.go:392-434: the pitch of a note. *)
Definition pitch_text (n : node) : option (list rune) :=
  match n with
  | Node NoteLetterAndAccidentalsNode _ [Node NoteLetterNode (LitRune c) _] => Some [c]
  | Node NoteLetterAndAccidentalsNode _ (Node NoteLetterNode (LitRune c) _ :: Node NoteAccidentalsNode _ accs :: _) =>
      match accidentals_text accs with Some x => Some (c :: x) | None => None end
  | _ => None
  end.
Definition is_tie (n : node) : bool := match nty n with TieNode => true | _ => false end.
(** format.go:387-452: a note. *)
Definition note_ops (ch : list node) : option (list fop) :=
  match ch with
  | p :: more =>
      if (3 <? Z.of_nat (List.length ch)) then None else
      match pitch_text p with
      | Some pitch =>
          let slur := if existsb is_tie more then [rn "~"] else [] in
          match more with
          | Node DurationNode _ d :: _ => with_duration pitch d slur
          | _ => Some [FWrite (pitch ++ slur)]
          end
      | None => None
      end
  | [] => None
  end.

(** format.go:495-529: repetition ranges. *)
Definition range_text (n : node) : option (list rune) :=
  match n with
  | Node RepetitionRangeNode _ [Node FirstRepetitionNode (LitInt a) _; Node LastRepetitionNode (LitInt b) _] =>
      Some (if a =? b then itoa a else itoa a ++ [rn "-"] ++ itoa b)
  | _ => None
  end.
Fixpoint ranges_text (l : list node) : option (list (list rune)) :=
  match l with
  | [] => Some []
  | n :: t => match range_text n, ranges_text t with Some x, Some xs => Some (x :: xs) | _, _ => None end
  end.

(** format.go:222-637, formatInnerEvents, on one node.  [go]: on several. *)
Fixpoint event_ops (n : node) {struct n} : option (list fop) :=
  let go := fix go (l : list node) : option (list fop) :=
    match l with [] => Some [] | c :: t => oapp (event_ops c) (go t) end in
  (* 260-271: a separator after every note and rest but the last *)
  let chord := fix chord (l : list node) : option (list fop) :=
    match l with
    | [] => Some []
    | c :: t =>
        oapp (event_ops c)
             (oapp (Some (if is_note_or_rest c && existsb is_note_or_rest t then [FWrite [rn "/"]] else [])) (chord t))
    end in
  (* 575-589: the events of a variable definition *)
  let line_of := fix line_of (l : list node) : option (list fop) :=
    match l with
    | [] => Some []
    | c :: [] => oapp (Some [FVar VLast]) (event_ops c)
    | c :: t => oapp (event_ops c) (line_of t)
    end in
  match n with
  | Node AtMarkerNode (LitText s) _ => Some [FWrite (rn "@" :: s)]
  | Node BarlineNode _ _ => Some [FWrite [rn "|"]]
  | Node ChordNode _ ((_ :: _) as ch) => chord ch
  | Node CramNode _ [Node EventSequenceNode _ es] => oapp (Some [FWrite [rn "{"]]) (oapp (go es) (Some [FWrite [rn "}"]]))
  | Node CramNode _ [Node EventSequenceNode _ es; Node DurationNode _ d] =>
      oapp (Some [FWrite [rn "{"]]) (oapp (go es) (with_duration [rn "}"] d []))
  | Node EventSequenceNode _ es =>
      oapp (Some [FFlush; FWrite [rn "["]; FIndent]) (oapp (go es) (Some [FUnindent; FWrite [rn "]"]]))
  | Node LispListNode _ _ => match lisp_text n with Some x => Some [FWrite x] | None => None end
  | Node MarkerNode (LitText s) _ => Some [FWrite (rn "%" :: s)]
  | Node NoteNode _ ch => note_ops ch
  | Node OctaveDownNode _ _ => Some [FWrite [rn "<"]]
  | Node OctaveSetNode (LitInt k) _ => Some [FWrite (rn "o" :: itoa k)]
  | Node OctaveUpNode _ _ => Some [FWrite [rn ">"]]
  | Node RepeatNode _ [e; Node TimesNode (LitInt k) _] => oapp (event_ops e) (Some [FWrite (rn "*" :: itoa k)])
  | Node OnRepetitionsNode _ [e; Node RepetitionsNode _ rs] =>
      match ranges_text rs with
      | Some xs => oapp (event_ops e) (Some [FWrite (rn "'" :: join [rn ","] xs)])
      | None => None
      end
  | Node RestNode _ [] => Some [FWrite [rn "r"]]
  | Node RestNode _ (Node DurationNode _ d :: _) => with_duration [rn "r"] d []
  | Node VariableDefinitionNode _ [Node VariableNameNode (LitText s) _; Node EventSequenceNode _ es] =>
      oapp (Some [FFlush; FVar VDefining; FWrite (s ++ runes " =")]) (oapp (line_of es) (Some [FVar VNone; FFlush]))
  | Node VariableReferenceNode (LitText s) _ => Some [FWrite s]
  | Node VoiceGroupEndMarkerNode _ _ => Some [FWrite (runes "V0:")]
  | Node VoiceGroupNode _ vs => oapp (Some [FFlush]) (go vs)
  | Node VoiceNode _ [Node VoiceNumberNode (LitInt k) _; Node EventSequenceNode _ es] =>
      oapp (Some [FWrite (rn "V" :: itoa k ++ [rn ":"]); FIndent]) (oapp (go es) (Some [FUnindent]))
  | _ => None
  end.
Fixpoint events_ops (l : list node) : option (list fop) :=
  match l with [] => Some [] | c :: t => oapp (event_ops c) (events_ops t) end.

(** format.go:683-712: a part declaration. *)
Fixpoint names_text (l : list node) : option (list (list rune)) :=
  match l with
  | [] => Some []
  | Node PartNameNode (LitText s) _ :: t => match names_text t with Some xs => Some (s :: xs) | None => None end
  | _ => None
  end.
Definition declaration_text (n : node) : option (list rune) :=
  match n with
  | Node PartDeclarationNode _ (Node PartNamesNode _ ((_ :: _) as names) :: more) =>
      match names_text names, more with
      | Some xs, [] => Some (join [rn "/"] xs ++ [rn ":"])
      | Some xs, [Node PartAliasNode (LitText a) _] =>
          Some (join [rn "/"] xs ++ [space; quote_mark] ++ a ++ [quote_mark; rn ":"])
      | _, _ => None
      end
  | _ => None
  end.

(** format.go:642-729: one part. *)
Definition part_ops (n : node) : option (list fop) :=
  match n with
  | Node ImplicitPartNode _ [Node EventSequenceNode _ es] => events_ops es
  | Node PartNode _ [d; Node EventSequenceNode _ es] =>
      match declaration_text d with
      | Some x => oapp (Some [FWrite x; FIndent]) (oapp (events_ops es) (Some [FUnindent]))
      | None => None
      end
  | Node ImplicitPartNode _ _ | Node PartNode _ _ => None
  | _ => Some []
  end.
(** format.go:640-738, formatTopLevel. *)
Fixpoint top_ops (l : list node) : option (list fop) :=
  match l with
  | [] => Some []
  | [p] => oapp (part_ops p) (Some [FFlush])
  | p :: t => oapp (part_ops p) (oapp (Some [FFlush; FEmptyLine]) (top_ops t))
  end.

(** format.go:743-755, FormatASTToCode: the text, if there is no error. *)
Definition format (cfg : config) (root : node) : option (list rune) :=
  match top_ops (nch root) with
  | Some l => if levels_ok cfg l new_formatter then Some (f_out (frun cfg l new_formatter)) else None
  | None => None
  end.
End Format.
