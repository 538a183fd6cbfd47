(** Model of client/model/lisp.go: evaluation of alda-lisp forms.
    Simplifications: strings are byte strings (Go works on runes, so the two
    agree on ASCII); error values are short tags; log messages are dropped. *)
From Coq Require Import ZArith List String Ascii Bool.
From Verif Require Import Base Num ModelPitch ModelDuration ModelInstruments ModelTypes.
Import ListNotations.
Local Open Scope string_scope.

Section Lisp.
Context {N : Num}.

(* ---------------------------- strings ---------------------------- *)

Definition chars (s : string) : list ascii := list_ascii_of_string s.
Definition unchars (l : list ascii) : string := string_of_list_ascii l.

(** lisp.go:498-500. *)
Definition is_digit (c : ascii) : bool :=
  let n := N_of_ascii c in (N.leb 48 n && N.leb n 57)%bool.
Definition digit_val (c : ascii) : Z := Z.of_N (N_of_ascii c) - 48.

Fixpoint span {A} (f : A -> bool) (l : list A) : list A * list A :=
  match l with
  | [] => ([], [])
  | x :: t => if f x then let (a, b) := span f t in (x :: a, b) else ([], l)
  end.

(** The integer written by a list of decimal digits. *)
Definition digits_val (l : list ascii) : Z :=
  fold_left (fun acc c => 10 * acc + digit_val c)%Z l 0%Z.

(** strconv.ParseFloat on [int] or [int.frac]: the value int.frac. *)
Definition decimal_val (int frac : list ascii) : num :=
  match frac with
  | [] => nofZ (digits_val int)
  | _ => nlit (digits_val (int ++ frac)) (Pos.pow 10 (Pos.of_nat (List.length frac)))
  end.

Definition ceq (a b : ascii) : bool := Ascii.eqb a b.
Definition dot : ascii := "."%char.

(** lisp.go:502-552, noteLength.  The final check is [i < len(chars)-1], so one
    trailing junk character is accepted. *)
Definition note_length_of_string (s : string) : res (num * Z) :=
  match chars s with
  | [] => RErr "invalid note length"
  | c0 :: _ =>
      if negb (is_digit c0) then RErr "invalid note length" else
      let (int, r1) := span is_digit (chars s) in
      let (frac, r2) :=
        match r1 with
        | d :: ((x :: _) as t) =>
            if ceq d dot && is_digit x then span is_digit t else ([], r1)
        | _ => ([], r1)
        end in
      let (dots, r3) := span (ceq dot) r2 in
      match r3 with
      | _ :: _ :: _ => RErr "invalid note length"
      | _ => ROk (decimal_val int frac, wrap32 (Z.of_nat (List.length dots)))
      end
  end.

(** strings.Split(s, sep) for a one-byte separator. *)
Fixpoint split_on (sep : ascii) (l : list ascii) (cur : list ascii) : list (list ascii) :=
  match l with
  | [] => [rev cur]
  | c :: t => if ceq c sep then rev cur :: split_on sep t [] else split_on sep t (c :: cur)
  end.

(** ASCII white space for strings.Fields. *)
Definition is_space (c : ascii) : bool :=
  let n := N_of_ascii c in ((N.leb 9 n && N.leb n 13) || N.eqb n 32)%bool.

(** strings.Fields. *)
Fixpoint fields_on (l : list ascii) (cur : list ascii) : list (list ascii) :=
  let flush := match cur with [] => [] | _ => [rev cur] end in
  match l with
  | [] => flush
  | c :: t => if is_space c then flush ++ fields_on t [] else fields_on t (c :: cur)
  end.

(** lisp.go:554-575, duration. *)
Definition duration_of_string (s : string) : res duration :=
  rbind (rmapl (fun cs => rmap (fun '(d, k) => CLen d k) (note_length_of_string (unchars cs)))
               (split_on "~"%char (chars s) []))
        (fun comps => ROk (Some comps)).

(** pitch.go:58-77, NewNoteLetter. *)
Definition new_note_letter (c : ascii) : res letter :=
  match c with
  | "a"%char => ROk LA | "b"%char => ROk LB | "c"%char => ROk LC | "d"%char => ROk LD
  | "e"%char => ROk LE | "f"%char => ROk LF | "g"%char => ROk LG
  | _ => RErr "invalid note letter"
  end.

(** pitch.go:109-120, NewAccidental. *)
Definition new_accidental (s : string) : option accidental :=
  if String.eqb s "flat" then Some Flat
  else if String.eqb s "natural" then Some Natural
  else if String.eqb s "sharp" then Some Sharp else None.

(** lisp.go:581-613, letterAndAccidentals. *)
Definition letter_and_accidentals (cs : list ascii) : res (letter * list accidental) :=
  match cs with
  | c :: ((_ :: _) as t) =>
      rbind (new_note_letter c) (fun l =>
      rbind (rmapl (fun x => match x with
                             | "+"%char => ROk Sharp
                             | "-"%char => ROk Flat
                             | _ => RErr "invalid letter and accidentals"
                             end) t) (fun a => ROk (l, a)))
  | _ => RErr "invalid letter and accidentals"
  end.

(** lisp.go:615-634, keySignatureFromString. *)
Definition keysig_of_string (s : string) : res keysig :=
  rfold (fun k cs => rbind (letter_and_accidentals cs)
                           (fun '(l, a) => ROk (ks_set k l (Some a))))
        (fields_on (chars s) []) ks_empty.

(** lisp.go:636-670, scaleType. *)
Definition scale_of_forms (fs : list lform) : res scale :=
  match fs with
  | [LSym s] =>
      if String.eqb s "major" || String.eqb s "ionian" then ROk Ionian
      else if String.eqb s "dorian" then ROk Dorian
      else if String.eqb s "phrygian" then ROk Phrygian
      else if String.eqb s "lydian" then ROk Lydian
      else if String.eqb s "mixolydian" then ROk Mixolydian
      else if String.eqb s "minor" || String.eqb s "aeolian" then ROk Aeolian
      else if String.eqb s "locrian" then ROk Locrian
      else RErr "invalid scale type"
  | _ => RErr "invalid scale type"
  end.

(** lisp.go:698-715: the loop over the forms after the letter.  Returns the
    accidentals and the remaining forms. *)
Fixpoint scale_name_loop (fs : list lform) (passed : bool) : res (list accidental * list lform) :=
  match fs with
  | [] => ROk ([], [])
  | LSym s :: t =>
      match new_accidental s with
      | Some a =>
          if passed then RErr "invalid scale name"
          else rmap (fun '(acs, rest) => (a :: acs, rest)) (scale_name_loop t passed)
      | None => rmap (fun '(acs, rest) => (acs, LSym s :: rest)) (scale_name_loop t true)
      end
  | _ :: _ => RErr "invalid scale name"
  end.

(** lisp.go:672-723, keySignatureFromScaleName; [chars[0]] of an empty symbol
    panics. *)
Definition keysig_of_scale_name (fs : list lform) : res keysig :=
  match fs with
  | LSym s :: t =>
      match chars s with
      | [] => RPanic "index out of range"
      | [c] =>
          rbind (new_note_letter c) (fun l =>
          rbind (scale_name_loop t false) (fun '(acs, rest) =>
          rbind (scale_of_forms rest) (fun sc => ROk (ks_from_scale l acs sc))))
      | _ => RErr "invalid scale name"
      end
  | _ => RErr "invalid scale name"
  end.

(** lisp.go:752-770: one list of accidentals in a pair. *)
Definition pair_accidentals (f : lform) : res (list accidental) :=
  match f with
  | LList l =>
      rmapl (fun x => match x with
                      | LSym s => if String.eqb s "flat" then ROk Flat
                                  else if String.eqb s "sharp" then ROk Sharp
                                  else RErr "expected pairs"
                      | _ => RErr "expected pairs"
                      end) l
  | _ => RErr "expected pairs"
  end.

(** lisp.go:738-775: the loop over pairs (an odd number of forms is rejected
    before it, lisp.go:732). *)
Fixpoint keysig_pairs (fs : list lform) (k : keysig) : res keysig :=
  match fs with
  | [] => ROk k
  | f1 :: f2 :: t =>
      match f1 with
      | LSym s =>
          match chars s with
          | [] => RPanic "index out of range"
          | c :: _ =>
              rbind (new_note_letter c) (fun l =>
              rbind (pair_accidentals f2) (fun a =>
              keysig_pairs t (ks_set k l (Some a))))
          end
      | _ => RErr "expected pairs"
      end
  | [_] => RErr "expected pairs"
  end.

(** lisp.go:725-778, keySignatureFromAccidentals. *)
Definition keysig_of_accidentals (fs : list lform) : res keysig :=
  if Nat.odd (List.length fs) then RErr "expected pairs" else keysig_pairs fs ks_empty.

(** lisp.go:780-815, keySignatureFromList. *)
Definition keysig_of_list (fs : list lform) : res keysig :=
  match fs with
  | _ :: LSym _ :: _ => keysig_of_scale_name fs
  | _ :: LList _ :: _ => keysig_of_accidentals fs
  | _ => RErr "invalid key signature"
  end.

(* ---------------------------- number checks ---------------------------- *)

(** lisp.go:418-429, positiveNumber (rejects everything below 1). *)
Definition positive_number (v : num) : res num :=
  if nltb v n1 then RErr "expected positive number" else ROk v.
(** lisp.go:431-442, nonNegativeNumber (divides by 100). *)
Definition non_negative_number (v : num) : res num :=
  if nltb v n0 then RErr "expected non-negative number" else ROk (ndiv v (nofZ 100)).
(** lisp.go:444-455, integer. *)
Definition integer (v : num) : res Z :=
  if nneqb v (nofZ (ntrunc32 v)) then RErr "expected integer" else ROk (ntrunc32 v).
(** lisp.go:457-479, integerInRange. *)
Definition integer_in_range (v : num) (lo hi : Z) : res Z :=
  if nneqb v (nofZ (ntrunc32 v)) then RErr "expected integer"
  else if ((ntrunc32 v <? lo) || (ntrunc32 v >? hi))%Z then RErr "expected integer in range"
  else ROk (ntrunc32 v).
(** lisp.go:481-492, percentage. *)
Definition percentage (v : num) : res num :=
  if (nltb v n0 || nltb (nofZ 100) v)%bool then RErr "value not between 0 and 100"
  else ROk (ndiv v (nofZ 100)).

(* ---------------------------- attributes ---------------------------- *)

(** attributes.go:367-382, DynamicVolumes (hundred-thousandths). *)
Definition dynamic_volumes : list (string * Z) :=
  [("pppppp", 787); ("ppppp", 8419); ("pppp", 16051); ("ppp", 23683);
   ("pp", 31314); ("p", 38946); ("mp", 46578); ("mf", 54210); ("f", 61841);
   ("ff", 69473); ("fff", 77105); ("ffff", 84737); ("fffff", 92368);
   ("ffffff", 100000)]%Z.

(** Go map read: a missing marking gives 0. *)
Definition dynamic_volume (m : string) : num :=
  match aget String.eqb m dynamic_volumes with
  | Some v => nlit v 100000
  | None => n0
  end.

Definition beats_of (d : duration) : res num :=
  match dur_beats d with
  | Some b => ROk b
  | None => RPanic "note length cannot be expressed in beats"
  end.
Definition sig_err {A} : res A := RErr "provided arguments do not match the signature".

Definition is_in (s : string) (l : list string) : bool := existsb (String.eqb s) l.

(** The old or new value of a metric modulation: a number (lisp.go:898-912) or
    a duration string (lisp.go:914-973). *)
Definition mm_beats (f : lform) : res num :=
  match f with
  | LNum v => rbind (positive_number v) (fun d => ROk (note_length_beats d 0))
  | LStr s => rbind (duration_of_string s) beats_of
  | _ => sig_err
  end.

(** lisp.go:817-1187: the implementations registered with defattribute, with
    the dispatch on argument types (lisp.go:220-268) folded in.  [None] = no
    attribute of that name. *)
Definition attr_fun (name : string) (args : list lform) : option (res part_update) :=
  if String.eqb name "octave" then Some (
    match args with
    | [LNum v] => rmap POctave (integer v)
    | [LSym s] => if String.eqb s "up" then ROk POctUp
                  else if String.eqb s "down" then ROk POctDown
                  else RErr "invalid argument to octave"
    | _ => sig_err
    end)
  else if String.eqb name "tempo" then Some (
    match args with
    | [LNum v] => rmap PTempo (positive_number v)
    | [LNum v; LNum w] =>
        rbind (positive_number v) (fun d => rbind (positive_number w) (fun bpm =>
        ROk (PTempo (nmul (note_length_beats d 0) bpm))))
    | [LStr s; LNum w] =>
        rbind (duration_of_string s) (fun d => rbind (positive_number w) (fun bpm =>
        rbind (beats_of d) (fun b => ROk (PTempo (nmul b bpm)))))
    | _ => sig_err
    end)
  else if String.eqb name "metric-modulation" then Some (
    match args with
    | [f1; f2] =>
        rbind (mm_beats f1) (fun b1 => rbind (mm_beats f2) (fun b2 =>
        ROk (PMetric (ndiv b2 b1))))
    | _ => sig_err
    end)
  else if is_in name ["quantization"; "quantize"; "quant"] then Some (
    match args with [LNum v] => rmap PQuant (non_negative_number v) | _ => sig_err end)
  else if is_in name ["volume"; "vol"] then Some (
    match args with [LNum v] => rmap PVolume (percentage v) | _ => sig_err end)
  else if is_in name ["track-volume"; "track-vol"] then Some (
    match args with [LNum v] => rmap PTrackVol (percentage v) | _ => sig_err end)
  else if is_in name (map fst dynamic_volumes) then Some (
    match args with [] => ROk (PDynamic name) | _ => sig_err end)
  else if is_in name ["panning"; "pan"] then Some (
    match args with [LNum v] => rmap PPan (percentage v) | _ => sig_err end)
  else if String.eqb name "set-duration" then Some (
    match args with
    | [LNum v] => rmap (fun b => PDurSet (Some [CBeats b])) (positive_number v)
    | _ => sig_err
    end)
  else if String.eqb name "set-duration-ms" then Some (
    match args with
    | [LNum v] => rmap (fun b => PDurSet (Some [CMs b])) (positive_number v)
    | _ => sig_err
    end)
  else if String.eqb name "set-note-length" then Some (
    match args with
    | [LNum v] => rmap (fun d => PDurSet (Some [CLen d 0])) (positive_number v)
    | [LStr s] => rmap PDurSet (duration_of_string s)
    | _ => sig_err
    end)
  else if is_in name ["key-signature"; "key-sig"] then Some (
    match args with
    | [LStr s] => rmap PKey (keysig_of_string s)
    | [LList l] => rmap PKey (keysig_of_list l)
    | _ => sig_err
    end)
  else if is_in name ["transposition"; "transpose"] then Some (
    match args with [LNum v] => rmap PTransp (integer v) | _ => sig_err end)
  else if is_in name ["reference-pitch"; "tuning-constant"] then Some (
    match args with [LNum v] => rmap PRefPitch (positive_number v) | _ => sig_err end)
  else if String.eqb name "midi-channel" then Some (
    match args with [LNum v] => rmap PChannel (integer_in_range v 0 15) | _ => sig_err end)
  else None.

(** lisp.go:1293-1349: the pitch function on its list argument. *)
Definition pitch_of_list (fs : list lform) : res pitch :=
  match fs with
  | LSym s :: t =>
      match chars s with
      | [c] =>
          rbind (new_note_letter c) (fun l =>
          match t with
          | [] => ROk (PLetter l None)
          | _ =>
              rbind (rmapl (fun f => match f with
                                     | LSym a => match new_accidental a with
                                                 | Some x => ROk x
                                                 | None => RErr "invalid accidental"
                                                 end
                                     | _ => RErr "invalid letter/accidentals"
                                     end) t)
                    (fun a => ROk (PLetter l (Some a)))
          end)
      | _ => RErr "invalid letter/accidentals"
      end
  | _ => RErr "invalid letter/accidentals"
  end.

(** lisp.go:1189-1424: the functions registered with defn. *)
Definition defn_fun (name : string) (args : list lform) : option (res lform) :=
  if String.eqb name "list" then Some (ROk (LList args))
  else if String.eqb name "ms" then Some (
    match args with
    | [LNum v] => rmap (fun q => LDur (CMs q)) (positive_number v)
    | _ => sig_err
    end)
  else if String.eqb name "note-length" then Some (
    match args with
    | [LNum v] => rmap (fun d => LDur (CLen d 0)) (positive_number v)
    | [LStr s] => rmap (fun '(d, k) => LDur (CLen d k)) (note_length_of_string s)
    | _ => sig_err
    end)
  else if String.eqb name "duration" then Some (
    (* Components stays nil when there are no arguments *)
    rbind (rmapl (fun f => match f with LDur c => ROk c | _ => sig_err end) args)
          (fun cs => ROk (LDur (CDur (match cs with [] => None | _ => Some cs end)))))
  else if String.eqb name "midi-note" then Some (
    match args with
    | [LNum v] => rmap (fun n => LPitch (PMidi n)) (integer v)
    | _ => sig_err
    end)
  else if String.eqb name "pitch" then Some (
    match args with
    | [LList l] => rmap LPitch (pitch_of_list l)
    | _ => sig_err
    end)
  else if String.eqb name "note" then Some (
    match args with
    | [LPitch p] => ROk (LUpd (Note p None false))
    | [LPitch p; LDur c] => ROk (LUpd (Note p (Some [c]) false))
    | _ => sig_err
    end)
  else if String.eqb name "pause" then Some (
    match args with
    | [] => ROk (LUpd (Rest None))
    | [LDur c] => ROk (LUpd (Rest (Some [c])))
    | _ => sig_err
    end)
  else if String.eqb name "slur" then Some (
    match args with
    | [LUpd (Note p d _)] => ROk (LUpd (Note p d true))
    | [LUpd _] => RErr "only notes can be slurred"
    | _ => sig_err
    end)
  else None.

(** The name without a trailing "!" (lisp.go:377-388: every attribute is
    registered under its name and under its name followed by "!"). *)
Definition strip_bang (name : string) : option string :=
  match rev (chars name) with
  | c :: t => if ceq c "!"%char then Some (unchars (rev t)) else None
  | [] => None
  end.

(** lisp.go:337-416 and init: calling the environment's entry for [name];
    [None] = no such entry. *)
Definition call_builtin (name : string) (args : list lform) : option (res lform) :=
  match defn_fun name args with
  | Some r => Some r
  | None =>
      match attr_fun name args with
      | Some r => Some (rmap (fun u => LUpd (Attr u)) r)
      | None =>
          match strip_bang name with
          | Some base =>
              match attr_fun base args with
              | Some r => Some (rmap (fun u => LUpd (GAttr u)) r)
              | None => None
              end
          | None => None
          end
      end
  end.

(** Is the name bound in the environment? *)
Definition bound (name : string) : bool :=
  match call_builtin name [] with Some _ => true | None => false end.

(** lisp.go:1660-1706 (LispList.Eval) and the other Eval methods.  A list is
    evaluated operator first, then the arguments left to right. *)
Fixpoint eval (f : lform) {struct f} : res lform :=
  match f with
  | LQuoted g => ROk g
  | LSym s => if String.eqb s "quote" then ROk LQuoteForm
              else if bound s then ROk (LFun s)
              else RErr "unresolvable symbol"
  | LList l =>
      match l with
      | [] => RPanic "index out of range"
      | op :: rest =>
          rbind (eval op) (fun o =>
          match o with
          | LQuoteForm =>
              match rest with
              | [] => RPanic "index out of range"
              | [x] => ROk x
              | _ => RErr "expected 1 argument to quote"
              end
          | _ =>
              rbind ((fix evals (l : list lform) : res (list lform) :=
                        match l with
                        | [] => ROk []
                        | x :: t => rbind (eval x) (fun v =>
                                    rbind (evals t) (fun vs => ROk (v :: vs)))
                        end) rest) (fun args =>
              match o with
              | LFun name => match call_builtin name args with
                             | Some r => r
                             | None => RErr "unreachable: unbound function"
                             end
              | _ => RErr "value is not an Operator"
              end)
          end)
      end
  | _ => ROk f
  end.

(** lisp.go:1708-1718, unpackScoreUpdate; [None] = LispNil. *)
Definition unpack (f : lform) : option prim :=
  match f with LUpd p => Some p | _ => None end.

(** lisp.go:1720-1729: the score update an S-expression stands for. *)
Definition eval_update (els : list lform) : res (option prim) := rmap unpack (eval (LList els)).
End Lisp.
