(** Specification of the lexical structure of a score: which texts each token
    may have and what may follow it, and where tokens are. *)
From Coq Require Import ZArith List String Ascii Bool.
From Verif Require Import Base Num ModelScan.
Import ListNotations.
Local Open Scope string_scope.
Local Open Scope list_scope.
Local Open Scope Z_scope.

(** ** Positions: lines and columns count from 1. *)
Definition line_after (before : list rune) : Z :=
  1 + Z.of_nat (List.length (filter (Z.eqb newline) before)).
(** The runes since the last newline. *)
Fixpoint last_line (before : list rune) (acc : list rune) : list rune :=
  match before with
  | [] => acc
  | r :: t => if r =? newline then last_line t [] else last_line t (acc ++ [r])
  end.
Definition column_after (before : list rune) : Z :=
  1 + Z.of_nat (List.length (last_line before [])).

(** ** Small vocabulary *)
Definition digits (l : list rune) : Prop := Forall (fun r => 48 <= r <= 57) l.
(** The text that follows is empty, or does not begin with such a rune. *)
Definition stops (f : rune -> bool) (rest : list rune) : Prop :=
  match rest with r :: _ => f r = false | [] => True end.
(** The text that follows is empty, or begins with one of these. *)
Definition ends_with (f : rune -> bool) (rest : list rune) : Prop :=
  match rest with r :: _ => f r = true | [] => True end.
(** The text that follows is not a dot and a digit. *)
Definition no_fraction (rest : list rune) : Prop :=
  match rest with d :: x :: _ => ~ (d = rn "." /\ 48 <= x <= 57) | _ => True end.

Definition letter (r : rune) : Prop := 97 <= r <= 122 \/ 65 <= r <= 90.
(** A rune is one of the characters of an ASCII string. *)
Definition among (s : string) (r : rune) : bool :=
  existsb (fun c => rn c =? r) (list_ascii_of_string s).
(** White space that separates events: space, newline, carriage return. *)
Definition blank (r : rune) : bool := (r =? 32) || (r =? 10) || (r =? 13).
Definition digit (r : rune) : bool :=  (48 <=? r) && (r <=? 57).
(** Characters of names, aliases and markers. *)
Definition word_char (r : rune) : bool :=
  among "abcdefghijklmnopqrstuvwxyzABCDEFGHIJKLMNOPQRSTUVWXYZ0123456789_-+'()." r.
(** Characters of Lisp symbols. *)
Definition atom_char (r : rune) : bool :=
  negb (blank r || (r =? 9) || (r =? quote_mark) || among "()[]{}" r).
(** What may come directly after a note letter, a rest letter, a length in
    seconds, a repeat. *)
Definition after_note (r : rune) : bool := blank r || among "0123456789#+-_/~*'}]<>" r.
Definition after_rest (r : rune) : bool := blank r || among "0123456789#/~*'}]<>" r.
Definition after_seconds (r : rune) : bool := blank r || among "/~]}" r.
Definition after_repeat (r : rune) : bool := blank r || among "]}" r.

(** Decimal numbers: digits, perhaps with a dot and more digits. *)
Inductive decimal : list rune -> list rune -> list rune -> Prop :=
| dec_whole : forall ds, decimal ds [] ds
| dec_frac : forall ds fs, digits fs -> fs <> [] -> decimal ds fs (ds ++ rn "." :: fs).

(** One repetition range "3" or "3-5", and a list of them separated by commas.
    The last argument of each says whether the text ends with a dash part. *)
Inductive range_text : Z * Z -> list rune -> bool -> Prop :=
| rng_one : forall ds, digits ds -> ds <> [] -> range_text (int32_of ds, int32_of ds) ds false
| rng_two : forall ds ds', digits ds -> ds <> [] -> digits ds' -> ds' <> [] ->
    range_text (int32_of ds, int32_of ds') (ds ++ rn "-" :: ds') true.
Inductive ranges_text : list (Z * Z) -> list rune -> bool -> Prop :=
| rngs_last : forall r t b, range_text r t b -> ranges_text [r] t b
| rngs_more : forall r t b rs ts b', range_text r t b -> ranges_text rs ts b' ->
    ranges_text (r :: rs) (t ++ rn "," :: ts) b'.

Section Lexemes.
Context {N : Num}.

(** [simple c k]: outside S-expressions the single rune [c] is the token [k]. *)
Inductive simple : ascii -> tok -> Prop :=
| s1 : simple "{" TCramOpen | s2 : simple "}" TCramClose | s3 : simple "[" TSeqOpen
| s4 : simple "]" TSeqClose | s5 : simple "-" TFlat | s6 : simple "+" TSharp
| s7 : simple "_" TNatural | s8 : simple "/" TSeparator | s9 : simple "<" TOctDown
| s10 : simple ">" TOctUp | s11 : simple ":" TColon | s12 : simple "~" TTie
| s13 : simple "|" TBarline | s14 : simple "=" TEquals.

(** [lexeme lisp k text rest]: the token [k] may be written [text] inside
    ([lisp] = true) or outside S-expressions when followed by [rest]. *)
Inductive lexeme : bool -> tok -> list rune -> list rune -> Prop :=
| lx_open : forall m rest, lexeme m TLParen [rn "("] rest
| lx_close : forall m rest, lexeme m TRParen [rn ")"] rest
(* inside S-expressions *)
| lx_quote : forall rest, lexeme true TQuote [rn "'"] rest
| lx_string : forall s rest, ~ In quote_mark s ->
    lexeme true (TString s) (quote_mark :: s ++ [quote_mark]) rest
| lx_number : forall ds fs t rest, digits ds -> ds <> [] -> decimal ds fs t ->
    stops digit rest -> (fs = [] -> no_fraction rest) ->
    lexeme true (TNumber (float_of false ds fs)) t rest
| lx_negative : forall ds fs t rest, digits ds -> decimal ds fs t ->
    stops digit rest -> (fs = [] -> no_fraction rest) ->
    lexeme true (TNumber (float_of true ds fs)) (rn "-" :: t) rest
| lx_symbol : forall c s rest, atom_char c = true -> digit c = false ->
    ~ In c (runes "-'#") -> Forall (fun r => atom_char r = true) s ->
    stops atom_char rest -> lexeme true TSymbol (c :: s) rest
(* outside S-expressions *)
| lx_simple : forall c k rest, simple c k -> lexeme false k [rn c] rest
| lx_length : forall ds fs t (dots : nat) rest, digits ds -> ds <> [] -> decimal ds fs t ->
    stops (Z.eqb (rn ".")) rest ->
    (dots = 0%nat -> stops digit rest) ->
    (fs = [] -> dots = 1%nat -> stops digit rest) ->
    (dots = 0%nat -> ~ (exists r, rest = rn "s" :: r /\ ends_with after_seconds r) /\
                     ~ (exists r, rest = rn "m" :: rn "s" :: r)) ->
    lexeme false (TLength (float_of false ds fs) (wrap32 (Z.of_nat dots)))
           (t ++ repeat (rn ".") dots) rest
| lx_seconds : forall ds fs t rest, digits ds -> ds <> [] -> decimal ds fs t ->
    ends_with after_seconds rest ->
    lexeme false (TSeconds (float_of false ds fs)) (t ++ [rn "s"]) rest
| lx_ms : forall ds fs t rest, digits ds -> ds <> [] -> decimal ds fs t ->
    lexeme false (TMs (float_of false ds fs)) (t ++ [rn "m"; rn "s"]) rest
| lx_repetitions : forall rs t b rest, ranges_text rs t b ->
    stops digit rest -> stops (Z.eqb (rn ",")) rest ->
    (b = false -> stops (Z.eqb (rn "-")) rest) ->
    lexeme false (TReps rs) (rn "'" :: t) rest
| lx_repeat : forall (n : nat) ds rest, digits ds -> ds <> [] ->
    ends_with after_repeat rest ->
    lexeme false (TRepeat (int32_of ds)) (rn "*" :: repeat space n ++ ds) rest
| lx_alias : forall s q rest, Forall (fun r => word_char r = true) s -> word_char q = false ->
    lexeme false (TAlias s) (quote_mark :: s ++ [q]) rest
| lx_marker : forall s rest, s <> [] -> Forall (fun r => word_char r = true) s ->
    stops word_char rest -> lexeme false (TMarker s) (rn "%" :: s) rest
| lx_at_marker : forall s rest, s <> [] -> Forall (fun r => word_char r = true) s ->
    stops word_char rest -> lexeme false (TAtMarker s) (rn "@" :: s) rest
| lx_name : forall c c' s rest, letter c -> letter c' ->
    Forall (fun r => word_char r = true) s -> stops word_char rest ->
    lexeme false TName (c :: c' :: s) rest
| lx_note : forall c rest, 97 <= c <= 103 -> ends_with after_note rest ->
    lexeme false (TNote c) [c] rest
| lx_rest : forall rest, ends_with after_rest rest -> lexeme false TRest [rn "r"] rest
| lx_octave : forall ds rest, digits ds -> (ds = [] -> rest = []) ->
    ends_with blank rest ->
    lexeme false (TOctSet (int32_of ds)) (rn "o" :: ds) rest
| lx_voice : forall ds rest, digits ds -> ds <> [] ->
    lexeme false (TVoice (int32_of ds)) (rn "V" :: ds ++ [rn ":"]) rest.

(** ** A score's text is a sequence of blanks, comments and tokens. *)
Inductive piece := Blank (r : rune) | Comment (body : list rune) | Lexeme (k : tok) (text : list rune).

Definition piece_text (p : piece) : list rune :=
  match p with Blank r => [r] | Comment body => rn "#" :: body | Lexeme _ t => t end.
Definition text_of (ps : list piece) : list rune := List.concat (map piece_text ps).

(** The pieces are well formed, in order, starting with [level] parentheses
    open (closing ones too many make it negative). *)
Fixpoint well_formed (level : Z) (ps : list piece) : Prop :=
  match ps with
  | [] => True
  | Blank r :: ps' => In r [space; tab; newline; creturn] /\ well_formed level ps'
  | Comment body :: ps' =>
      ~ In newline body /\ ends_with (Z.eqb newline) (text_of ps') /\ well_formed level ps'
  | Lexeme k t :: ps' =>
      lexeme (0 <? level) k t (text_of ps') /\
      well_formed (match k with TLParen => level + 1 | TRParen => level - 1 | _ => level end) ps'
  end.

(** The tokens of the pieces, each at the line and column where its text
    starts, and the end-of-file token after the last rune. *)
Fixpoint tokens_at (before : list rune) (ps : list piece) : list token :=
  match ps with
  | [] => [Token TEOF [] (line_after before) (column_after before)]
  | Lexeme k t :: ps' =>
      Token k t (line_after before) (column_after before) :: tokens_at (before ++ t) ps'
  | p :: ps' => tokens_at (before ++ piece_text p) ps'
  end.
End Lexemes.
