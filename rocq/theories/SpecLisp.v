(** What the documentation (doc/attributes.md) says about the arguments of
    attributes: numbers, symbols and markings (C47). *)
From Coq Require Import ZArith QArith Qcanon List String Ascii.
From Verif Require Import Base Num ModelPitch ModelDuration ModelInstruments ModelTypes ModelLisp.
Import ListNotations.
Local Open Scope string_scope.
Local Open Scope list_scope.

(** Attributes that take a percentage, by name and abbreviation. *)
Definition percents : list (string * (xq -> @part_update XQ)) :=
  [("volume", PVolume); ("vol", PVolume); ("track-volume", PTrackVol); ("track-vol", PTrackVol); ("panning", PPan); ("pan", PPan)].
Definition quants : list string := ["quantization"; "quantize"; "quant"].
(** Those that take a positive quantity. *)
Definition quantities : list (string * (xq -> @part_update XQ)) :=
  [("tempo", PTempo); ("reference-pitch", PRefPitch); ("tuning-constant", PRefPitch);
   ("set-duration", fun b => PDurSet (Some [CBeats b])); ("set-duration-ms", fun b => PDurSet (Some [CMs b]));
   ("set-note-length", fun b => PDurSet (Some [CLen b 0]))].
(** Those that take a whole number. *)
Definition wholes : list (string * (Z -> @part_update XQ)) :=
  [("octave", POctave); ("transposition", PTransp); ("transpose", PTransp)].
Definition markings : list string :=
  ["pppppp"; "ppppp"; "pppp"; "ppp"; "pp"; "p"; "mp"; "mf"; "f"; "ff"; "fff"; "ffff"; "fffff"; "ffffff"].
Definition attribute_names : list string :=
  map fst percents ++ quants ++ map fst quantities ++ map fst wholes ++ ["midi-channel"] ++ markings.

(** An argument as written: a number, a string, or a quoted symbol or list. *)
Inductive argument := ANumber (q : Qc) | AString (s : string) | ASymbol (s : string) | AList (l : list (@lform XQ)).
Definition written (a : argument) : @lform XQ :=
  match a with
  | ANumber q => LNum (Fin q)
  | AString s => LStr s
  | ASymbol s => LQuoted (LSym s)
  | AList l => LQuoted (LList l)
  end.
Definition whole (z : Z) : Qc := Q2Qc (inject_Z z).

(** Two attributes also take note lengths written as strings, such as "2.~8". *)
Definition takes_lengths (name : string) : Prop := name = "tempo" \/ name = "set-note-length".
Definition is_string (a : argument) : Prop := match a with AString _ => True | _ => False end.

(** [accepts name args u]: the attribute accepts the arguments, and it means [u]. *)
Inductive accepts : string -> list argument -> @part_update XQ -> Prop :=
| A_percent name mk q : In (name, mk) percents -> (0 <= q)%Qc -> (q <= whole 100)%Qc ->
    accepts name [ANumber q] (mk (Fin (q / whole 100)%Qc))
| A_quant name q : In name quants -> (0 <= q)%Qc -> accepts name [ANumber q] (PQuant (Fin (q / whole 100)%Qc))
| A_quantity name mk q : In (name, mk) quantities -> (1 <= q)%Qc -> accepts name [ANumber q] (mk (Fin q))
| A_whole name mk z : In (name, mk) wholes -> (- 2 ^ 31 <= z < 2 ^ 31)%Z -> accepts name [ANumber (whole z)] (mk z)
| A_channel z : (0 <= z <= 15)%Z -> accepts "midi-channel" [ANumber (whole z)] (PChannel z)
| A_up : accepts "octave" [ASymbol "up"] POctUp
| A_down : accepts "octave" [ASymbol "down"] POctDown
| A_tempo d q : (1 <= d)%Qc -> (1 <= q)%Qc -> accepts "tempo" [ANumber d; ANumber q] (PTempo (Fin (whole 4 / d * q)%Qc))
| A_marking m : In m markings -> accepts m [] (PDynamic m).

(** Note lengths written as text: decimal digits, maybe a point and more
    digits, then dots; several tied with "~". *)
Record written_length := { whole_digits : list Z; point_digits : list Z; dot_count : nat }.
Definition well_written (w : written_length) : Prop :=
  whole_digits w <> [] /\ (forall d, In d (whole_digits w ++ point_digits w) -> (0 <= d <= 9)%Z) /\ (Z.of_nat (dot_count w) < 2 ^ 31)%Z.
Definition digit_char (d : Z) : ascii := ascii_of_N (48 + Z.to_N d).
Definition length_text (w : written_length) : list ascii :=
  map digit_char (whole_digits w) ++
  (match point_digits w with [] => [] | ds => "."%char :: map digit_char ds end) ++
  repeat "."%char (dot_count w).
Fixpoint tied_text (ws : list written_length) : list ascii :=
  match ws with
  | [] => []
  | [w] => length_text w
  | w :: t => length_text w ++ "~"%char :: tied_text t
  end.
(** The number the digits stand for. *)
Fixpoint positional (ds : list Z) : Z :=
  match ds with [] => 0 | d :: t => (d * 10 ^ Z.of_nat (List.length t) + positional t)%Z end.
Definition denominator (w : written_length) : Qc :=
  (whole (positional (whole_digits w)) + whole (positional (point_digits w)) / whole (10 ^ Z.of_nat (List.length (point_digits w))))%Qc.
Definition length_meant (w : written_length) : @component XQ := CLen (Fin (denominator w)) (Z.of_nat (dot_count w)).

(** doc/attributes.md, "Dynamic Markings". *)
Definition documented_volumes : list (string * Z) :=
  [("pppppp", 1); ("ppppp", 8); ("pppp", 16); ("ppp", 24); ("pp", 31); ("p", 39); ("mp", 46); ("mf", 54);
   ("f", 62); ("ff", 69); ("fff", 77); ("ffff", 85); ("fffff", 92); ("ffffff", 100)]%Z.
