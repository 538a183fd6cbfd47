(** Model of client/parser/scanner.go: from the text of a score to tokens.
    The input is the list of runes (Unicode code points) that Go's [[]rune(s)]
    decodes the text into; a rune is a [Z].  Reading a file is not modelled. *)
From Coq Require Import ZArith List String Ascii Bool.
From Verif Require Import Base Num.
Import ListNotations.
Local Open Scope string_scope.
Local Open Scope list_scope.
Local Open Scope Z_scope.

Definition rune := Z.
(** The rune of an ASCII character, and the runes of an ASCII string. *)
Definition rn (c : ascii) : rune := Z.of_N (N_of_ascii c).
Definition runes (s : string) : list rune := map rn (list_ascii_of_string s).
Definition newline : rune := 10.
Definition tab : rune := 9.
Definition creturn : rune := 13.
Definition space : rune := 32.
Definition quote_mark : rune := 34.

(** A rune is one of those listed in the cases of a Go switch. *)
Definition one_of (l : list rune) (r : rune) : bool := existsb (Z.eqb r) l.

(** scanner.go:13-19. *)
Definition is_digit_r (r : rune) : bool := (48 <=? r) && (r <=? 57).
Definition is_letter_r (r : rune) : bool :=
  ((97 <=? r) && (r <=? 122)) || ((65 <=? r) && (r <=? 90)).

(** scanner.go:353-360, terminatesNoteLength. *)
Definition ends_length (r : rune) : bool := one_of ([space; creturn; newline] ++ runes "/~]}") r.
(** scanner.go:532-539, isValidSymbolChar. *)
Definition symbol_char (r : rune) : bool :=
  negb (one_of ([space; tab; creturn; newline; quote_mark] ++ runes "()[]{}") r).
(** scanner.go:546-557, isValidNameChar. *)
Definition name_char (r : rune) : bool :=
  is_letter_r r || is_digit_r r || one_of (runes "_-+'().") r.
(** scanner.go:611-625, isNoteLetter etc. *)
Definition note_letter_r (r : rune) : bool := (97 <=? r) && (r <=? 103).
(** scanner.go:627-639, followsNoteLetter. *)
Definition follows_note (r : rune) : bool :=
  is_digit_r r || one_of ([space; creturn; newline] ++ runes "#+-_/~*'}]<>") r.
(** scanner.go:641-652, followsRestLetter. *)
Definition follows_rest (r : rune) : bool :=
  is_digit_r r || one_of ([space; creturn; newline] ++ runes "#/~*'}]<>") r.

(** scanner.go:229-235, peek: 0 at the end of the input. *)
Definition peek (l : list rune) : rune := match l with r :: _ => r | [] => 0 end.

(** scanner.go:318-322, consumeWhile: the runes consumed, and the rest. *)
Fixpoint take_while (f : rune -> bool) (l : list rune) : list rune * list rune :=
  match l with
  | r :: t => if f r then let (a, b) := take_while f t in (r :: a, b) else ([], l)
  | [] => ([], [])
  end.

(** The number written by decimal digits. *)
Definition dval (l : list rune) : Z := fold_left (fun acc r => 10 * acc + (r - 48)) l 0.
(** strconv.ParseInt(_, 10, 32) on digits, with the error dropped: out of range
    gives the largest int32, no digits give 0 (scanner.go:335-338). *)
Definition int32_of (l : list rune) : Z := Z.min (dval l) max_int32.

Section Scan.
Context {N : Num}.

(** scanner.go:343-346, parseFloatFrom: strconv.ParseFloat on digits with an
    optional fraction.  A lone "-" is an error whose value 0 is used.  Of a
    number with very many digits ParseFloat rounds once where this rounds
    numerator and denominator first; negative zero is not distinguished. *)
Definition float_of (neg : bool) (int frac : list rune) : num :=
  let v := match frac with
           | [] => nofZ (dval int)
           | _ => nlit (dval (int ++ frac)) (Pos.pow 10 (Pos.of_nat (List.length frac)))
           end in
  if neg then nsub n0 v else v.

(** scanner.go:61-97: token types with their literals.  (Integer is never
    produced.) *)
Inductive tok :=
| TAlias (name : list rune) | TAtMarker (name : list rune) | TBarline | TColon
| TCramClose | TCramOpen | TEOF | TEquals | TSeqClose | TSeqOpen | TFlat
| TLParen | TMarker (name : list rune) | TName | TNatural
| TLength (denominator : num) (dots : Z) | TMs (q : num) | TSeconds (q : num)
| TNote (r : rune) | TNumber (n : num) | TOctDown | TOctSet (n : Z) | TOctUp
| TReps (ranges : list (Z * Z)) | TRest | TRParen | TSeparator | TSharp | TQuote
| TString (s : list rune) | TSymbol | TTie | TRepeat (times : Z) | TVoice (n : Z).

(** scanner.go:100-105, Token; the file name is omitted. *)
Record token := Token { tkind : tok; ttext : list rune; tline : Z; tcol : Z }.

(** What scanning one lexeme can do: skip the runes [used], produce a token for
    them, or fail at the position after them. *)
Inductive step :=
| Skip (used rest : list rune)
| Tok (k : tok) (used rest : list rune)
| Bad (msg : string) (used : list rune).

(** scanner.go:291-295, skipComment. *)
Definition comment (c : rune) (l : list rune) : step :=
  let (body, rest) := take_while (fun r => negb (r =? newline)) l in Skip (c :: body) rest.

(** scanner.go:297-316, parseString. *)
Definition string_lit (c : rune) (l : list rune) : step :=
  let (body, rest) := take_while (fun r => negb (r =? quote_mark)) l in
  match rest with
  | [] => Bad "Unterminated string" (c :: body)
  | q :: rest' => Tok (TString body) (c :: body ++ [q]) rest'
  end.

(** The fractional part looked for by parseNoteLength and parseNumber
    (scanner.go:368-374, 411-417): a dot followed by a digit, then digits.
    Gives the text (with the dot), the digits and the rest. *)
Definition fraction (l : list rune) : list rune * list rune * list rune :=
  match l with
  | d :: t =>
      if (d =? rn ".") && is_digit_r (peek t)
      then let (fs, rest) := take_while is_digit_r t in (d :: fs, fs, rest)
      else ([], [], l)
  | [] => ([], [], [])
  end.

(** scanner.go:362-403, parseNoteLength; [c] is the first digit. *)
Definition note_length (c : rune) (l : list rune) : step :=
  let (ds, l1) := take_while is_digit_r l in
  let '(ft, fs, l2) := fraction l1 in
  let number := float_of false (c :: ds) fs in
  let text := c :: ds ++ ft in
  let dotted :=
    let (dots, l3) := take_while (Z.eqb (rn ".")) l2 in
    Tok (TLength number (wrap32 (Z.of_nat (List.length dots)))) (text ++ dots) l3 in
  match l2 with
  | s :: t =>
      if (s =? rn "s") && (ends_length (peek t) || match t with [] => true | _ => false end)
      then Tok (TSeconds number) (text ++ [s]) t
      else match t with
           | s' :: t' =>
               if (s =? rn "m") && (s' =? rn "s")
               then Tok (TMs number) (text ++ [s; s']) t' else dotted
           | [] => dotted
           end
  | [] => dotted
  end.

(** scanner.go:407-420, parseNumber; [c] is a digit or "-".  The text of an
    accepted number always parses, except "-", whose value is 0. *)
Definition number_lit (c : rune) (l : list rune) : step :=
  let (ds, l1) := take_while is_digit_r l in
  let '(ft, fs, l2) := fraction l1 in
  let neg := c =? rn "-" in
  Tok (TNumber (float_of neg (if neg then ds else c :: ds) fs)) (c :: ds ++ ft) l2.

(** scanner.go:422-465, parseRepetitions: the loop over ranges.  [done] is the
    text consumed so far.  Out of fuel is unreachable. *)
Fixpoint repetitions (fuel : nat) (done : list rune) (acc : list (Z * Z)) (l : list rune) : step :=
  match fuel with
  | O => Bad "out of fuel" done
  | S f =>
      if negb (is_digit_r (peek l)) then Bad "in repetitions" done else
      let (ds, l1) := take_while is_digit_r l in
      let finish (done' : list rune) (r : Z * Z) (l' : list rune) :=
        match l' with
        | x :: t => if x =? rn "," then repetitions f (done' ++ [x]) (acc ++ [r]) t
                    else Tok (TReps (acc ++ [r])) done' l'
        | [] => Tok (TReps (acc ++ [r])) done' l'
        end in
      match l1 with
      | x :: t =>
          if x =? rn "-" then
            if negb (is_digit_r (peek t)) then Bad "in repetitions" (done ++ ds ++ [x]) else
            let (ds', l2) := take_while is_digit_r t in
            finish (done ++ ds ++ [x] ++ ds') (int32_of ds, int32_of ds') l2
          else finish (done ++ ds) (int32_of ds, int32_of ds) l1
      | [] => finish (done ++ ds) (int32_of ds, int32_of ds) l1
      end
  end.

(** The end of the input, or a rune in the list. *)
Definition at_end_or (f : rune -> bool) (l : list rune) : bool :=
  match l with r :: _ => f r | [] => true end.

(** scanner.go:467-493, parseRepeat. *)
Definition repeat_mark (c : rune) (l : list rune) : step :=
  let (sp, l1) := take_while (Z.eqb space) l in
  if negb (is_digit_r (peek l1)) then Bad "in repeat" (c :: sp) else
  let (ds, l2) := take_while is_digit_r l1 in
  if at_end_or (one_of ([space; creturn; newline] ++ runes "]}")) l2
  then Tok (TRepeat (int32_of ds)) (c :: sp ++ ds) l2
  else Bad "in repeat" (c :: sp ++ ds).

(** scanner.go:495-510, parseOctaveSet. *)
Definition octave_set (c : rune) (l : list rune) : step :=
  let (ds, l1) := take_while is_digit_r l in
  if at_end_or (one_of [space; creturn; newline]) l1
  then Tok (TOctSet (int32_of ds)) (c :: ds) l1
  else Bad "in octave set" (c :: ds).

(** scanner.go:512-530, parseVoiceMarker. *)
Definition voice_marker (c : rune) (l : list rune) : step :=
  let (ds, l1) := take_while is_digit_r l in
  match l1 with
  | x :: t => if x =? rn ":" then Tok (TVoice (int32_of ds)) (c :: ds ++ [x]) t
              else Bad "in voice marker" (c :: ds)
  | [] => Bad "in voice marker" (c :: ds)
  end.

(** scanner.go:564-585, parseAlias.  The error for a wrong closing rune is
    constructed and dropped: any rune closes the alias. *)
Definition alias_lit (c : rune) (l : list rune) : step :=
  let (body, l1) := take_while name_char l in
  match l1 with
  | [] => Bad "Unterminated alias" (c :: body)
  | q :: t => Tok (TAlias body) (c :: body ++ [q]) t
  end.

(** scanner.go:587-609, parsePrefixedName. *)
Definition prefixed (k : list rune -> tok) (c : rune) (l : list rune) : step :=
  if negb (name_char (peek l)) then Bad "in marker name" [c] else
  let (body, l1) := take_while name_char l in Tok (k body) (c :: body) l1.

(** scanner.go:541-544, 559-562: parseSymbol and parseName. *)
Definition symbol_lit (c : rune) (l : list rune) : step :=
  let (body, l1) := take_while symbol_char l in Tok TSymbol (c :: body) l1.
Definition name_lit (c : rune) (l : list rune) : step :=
  let (body, l1) := take_while name_char l in Tok TName (c :: body) l1.

(** scanner.go:743-759: a letter outside parentheses. *)
Definition letter_lit (c : rune) (l : list rune) : step :=
  let n := peek l in
  if is_letter_r n then name_lit c l
  else if note_letter_r c && at_end_or follows_note l then Tok (TNote c) [c] l
  else if (c =? rn "r") && at_end_or follows_rest l then Tok TRest [c] l
  else if (c =? rn "o") && at_end_or is_digit_r l then octave_set c l
  else if (c =? rn "V") && is_digit_r n then voice_marker c l
  else Bad "in note/rest/name" [c].

(** scanner.go:654-768, scanToken, with the S-expression level; failures of the
    switch itself are reported at the rune, before consuming it. *)
Definition scan_token (lisp : bool) (c : rune) (l : list rune) : step :=
  if one_of [space; creturn; newline; tab] c then Skip [c] l
  else if c =? rn "#" then comment c l
  else if c =? rn "(" then Tok TLParen [c] l
  else if c =? rn ")" then Tok TRParen [c] l
  else if lisp then
    if c =? rn "'" then Tok TQuote [c] l
    else if c =? quote_mark then string_lit c l
    else if (c =? rn "-") || is_digit_r c then number_lit c l
    else if symbol_char c then symbol_lit c l
    else Bad "in S-expression" []
  else if c =? rn "{" then Tok TCramOpen [c] l
  else if c =? rn "}" then Tok TCramClose [c] l
  else if c =? rn "[" then Tok TSeqOpen [c] l
  else if c =? rn "]" then Tok TSeqClose [c] l
  else if c =? rn "-" then Tok TFlat [c] l
  else if c =? rn "+" then Tok TSharp [c] l
  else if c =? rn "_" then Tok TNatural [c] l
  else if c =? rn "/" then Tok TSeparator [c] l
  else if c =? rn "<" then Tok TOctDown [c] l
  else if c =? rn ">" then Tok TOctUp [c] l
  else if c =? rn ":" then Tok TColon [c] l
  else if c =? rn "~" then Tok TTie [c] l
  else if c =? rn "|" then Tok TBarline [c] l
  else if c =? rn "=" then Tok TEquals [c] l
  else if c =? rn "'" then repetitions (S (List.length l)) [c] [] l
  else if c =? rn "*" then repeat_mark c l
  else if c =? quote_mark then alias_lit c l
  else if c =? rn "%" then prefixed TMarker c l
  else if c =? rn "@" then prefixed TAtMarker c l
  else if is_digit_r c then note_length c l
  else if is_letter_r c then letter_lit c l
  else Bad "at the top level" [].

(** scanner.go:245-257, advance: the position after consuming runes. *)
Definition advance (p : Z * Z) (r : rune) : Z * Z :=
  if r =? newline then (fst p + 1, 1) else (fst p, snd p + 1).
Definition advance_over (p : Z * Z) (l : list rune) : Z * Z := fold_left advance l p.

(** scanner.go:669-676: the level changes with each parenthesis. *)
Definition level_after (level : Z) (k : tok) : Z :=
  match k with TLParen => level + 1 | TRParen => level - 1 | _ => level end.

Inductive scan_result :=
| Scanned (tokens : list token)
| ScanError (msg : string) (line col : Z)
| ScanFuel.

(** scanner.go:773-805, Scan.  [ScanFuel] is unreachable. *)
Fixpoint scan_loop (fuel : nat) (level : Z) (p : Z * Z) (l : list rune) : scan_result :=
  match l with
  | [] => Scanned [Token TEOF [] (fst p) (snd p)]
  | c :: t =>
      match fuel with
      | O => ScanFuel
      | S f =>
          match scan_token (0 <? level) c t with
          | Skip used rest => scan_loop f level (advance_over p used) rest
          | Tok k used rest =>
              match scan_loop f (level_after level k) (advance_over p used) rest with
              | Scanned ts => Scanned (Token k used (fst p) (snd p) :: ts)
              | e => e
              end
          | Bad msg used =>
              let q := advance_over p used in ScanError msg (fst q) (snd q)
          end
      end
  end.

Definition scan (input : list rune) : scan_result :=
  scan_loop (List.length input) 0 (1, 1) input.
End Scan.
