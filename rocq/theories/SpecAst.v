(** Vocabulary for the properties of reading a score's text into updates. *)
From Coq Require Import String Ascii ZArith List Bool.
From Verif Require Import Base Num ModelPitch ModelDuration ModelInstruments ModelTypes ModelScan ModelParser
  ModelAst.
Import ListNotations.
Local Open Scope string_scope.
Local Open Scope list_scope.
Local Open Scope Z_scope.

Section SpecAst.
Context {N : Num}.

(** What one token says, and what one update says. *)
Inductive mark :=
| MNote (letter : rune) | MAcc (a : accidental) | MRest | MSlur
| MLen (den : num) (dots : Z) | MMs (q : num) | MSec (q : num) | MBar
| MOctave (n : Z) | MUp | MDown
| MSeqOpen | MSeqClose | MCramOpen | MCramClose
| MTimes (n : Z) | MReps (rs : list (Z * Z))
| MName (s : string) | MAlias (s : string) | MVoice (n : Z) | MMarker (s : string) | MAtMarker (s : string)
| MOpen | MClose | MQuote | MNumber (x : num) | MString (s : string) | MSymbol (s : string).

(** ** The marks of a score's tokens, left to right *)
Definition is_length (k : tok) : bool :=
  match k with TLength _ _ | TMs _ | TSeconds _ => true | _ => false end.
(** A '~' that joins two lengths: barlines and further '~' may stand before the
    second one. *)
Fixpoint skip_ties (ts : list token) : list token :=
  match ts with t :: ts' => match tkind t with TTie => skip_ties ts' | _ => ts end | [] => [] end.
Fixpoint skip_bars (ts : list token) : list token :=
  match ts with t :: ts' => match tkind t with TBarline => skip_bars ts' | _ => ts end | [] => [] end.
Definition joins (after : list token) : bool := is_length (kind (skip_ties (skip_bars after))).

(** [open]: a note's letter or accidental stands directly before.  Other '~' are
    slurs; a repeat count below 1, an empty alias, ':', '=' and '/' say nothing. *)
Fixpoint marks (open : bool) (ts : list token) : list mark :=
  match ts with
  | [] => []
  | t :: r =>
      match tkind t with
      | TNote c => MNote c :: marks true r
      | TFlat => MAcc Flat :: marks true r
      | TNatural => MAcc Natural :: marks true r
      | TSharp => MAcc Sharp :: marks true r
      | TTie => (if open || negb (joins r) then [MSlur] else []) ++ marks false r
      | TRest => MRest :: marks false r
      | TLength den dots => MLen den (Z.max 0 dots) :: marks false r
      | TMs q => MMs q :: marks false r
      | TSeconds q => MSec q :: marks false r
      | TBarline => MBar :: marks false r
      | TOctSet n => MOctave n :: marks false r
      | TOctUp => MUp :: marks false r
      | TOctDown => MDown :: marks false r
      | TSeqOpen => MSeqOpen :: marks false r
      | TSeqClose => MSeqClose :: marks false r
      | TCramOpen => MCramOpen :: marks false r
      | TCramClose => MCramClose :: marks false r
      | TRepeat n => (if 0 <? n then [MTimes n] else []) ++ marks false r
      | TReps rs => MReps rs :: marks false r
      | TName => MName (utf8 (ttext t)) :: marks false r
      | TAlias s => (if String.eqb (utf8 s) "" then [] else [MAlias (utf8 s)]) ++ marks false r
      | TVoice n => MVoice n :: marks false r
      | TMarker s => MMarker (utf8 s) :: marks false r
      | TAtMarker s => MAtMarker (utf8 s) :: marks false r
      | TLParen => MOpen :: marks false r
      | TRParen => MClose :: marks false r
      | TQuote => MQuote :: marks false r
      | TNumber x => MNumber x :: marks false r
      | TString s => MString (utf8 s) :: marks false r
      | TSymbol => MSymbol (utf8 (ttext t)) :: marks false r
      | TColon | TEquals | TSeparator | TEOF => marks false r
      end
  end.

(** ** The marks of updates, left to right *)
Definition letter_rune (l : letter) : rune :=
  match l with
  | LA => rn "a" | LB => rn "b" | LC => rn "c" | LD => rn "d" | LE => rn "e" | LF => rn "f" | LG => rn "g"
  end.
Definition component_marks (c : component) : list mark :=
  match c with
  | CLen den dots => [MLen den dots] | CMs q => [MMs q] | CSec q => [MSec q] | CBar => [MBar]
  | CBeats _ | CDur _ => []
  end.
Definition duration_marks (d : duration) : list mark :=
  match d with Some cs => flat_map component_marks cs | None => [] end.
Definition prim_marks (p : prim) : list mark :=
  match p with
  | Note (PLetter l accs) d slurred =>
      MNote (letter_rune l) :: map MAcc (match accs with Some a => a | None => [] end) ++
      duration_marks d ++ (if slurred then [MSlur] else [])
  | Rest d => MRest :: duration_marks d
  | Attr (POctave n) => [MOctave n]
  | Attr POctUp => [MUp]
  | Attr POctDown => [MDown]
  | _ => []
  end.
Fixpoint form_marks (f : lform) : list mark :=
  match f with
  | LSym s => [MSymbol s] | LNum x => [MNumber x] | LStr s => [MString s]
  | LQuoted g => MQuote :: form_marks g
  | LList l => MOpen :: flat_map form_marks l ++ [MClose]
  | _ => []
  end.
Fixpoint update_marks (u : update) : list mark :=
  match u with
  | UPrim p => prim_marks p
  | UNil => []
  | ULisp els => MOpen :: flat_map form_marks els ++ [MClose]
  | UBarline => [MBar]
  | UChord es => flat_map update_marks es
  | UCram es d => MCramOpen :: flat_map update_marks es ++ MCramClose :: duration_marks d
  | USeq es => MSeqOpen :: flat_map update_marks es ++ [MSeqClose]
  | URepeat e n => update_marks e ++ (if 0 <? n then [MTimes n] else [])
  | UOnReps rs e => update_marks e ++ [MReps rs]
  | UMarker s => [MMarker s]
  | UAtMarker s => [MAtMarker s]
  | UVarDef s es => MName s :: flat_map update_marks es
  | UVarRef s => [MName s]
  | UVoice n => [MVoice n]
  | UVoiceEnd => [MVoice 0]
  | UPart names alias => map MName names ++ (if String.eqb alias "" then [] else [MAlias alias])
  end.

(** ** Texts that are not known to crash the program *)
(** Nowhere do two tokens like these follow each other. *)
Definition never (P Q : token -> Prop) (ts : list token) : Prop :=
  forall a x y b, ts = a ++ x :: y :: b -> P x -> Q y -> False.
Definition is_tok (k : tok) (t : token) : Prop := tkind t = k.

(** No '{}', no '()', no '(quote)', no count of repeats of 2^31-1 or more (which
    reads as 2^31-1). *)
Record tame (ts : list token) : Prop := {
  no_empty_cram : never (is_tok TCramOpen) (is_tok TCramClose) ts;
  no_empty_list : never (is_tok TLParen) (is_tok TRParen) ts;
  no_bare_quote : forall a x y z b, ts = a ++ x :: y :: z :: b ->
    ~ (tkind x = TLParen /\ tkind y = TSymbol /\ ttext y = runes "quote" /\ tkind z = TRParen);
  no_max_repeat : Forall (fun t => tkind t <> TRepeat max_int32) ts }.
Definition tame_text (input : list rune) : Prop := forall ts, scan input = Scanned ts -> tame ts.

(** No repetition ranges directly after the end of a voice group. *)
Definition plain (ts : list token) : Prop :=
  never (is_tok (TVoice 0)) (fun t => exists rs, tkind t = TReps rs) ts.
End SpecAst.
