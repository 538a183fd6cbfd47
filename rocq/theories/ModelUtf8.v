(** Model of the step from a string to runes before scanning: Go's conversion
    []rune(input) (client/parser/scanner.go:211). *)
From Coq Require Import ZArith NArith String Ascii List Bool.
From Verif Require Import Base Num ModelTypes ModelScan ModelAst.
Import ListNotations.
Local Open Scope string_scope.
Local Open Scope list_scope.
Local Open Scope Z_scope.

(** The value of a byte. *)
Definition value (c : ascii) : Z := Z.of_N (N_of_ascii c).
Definition between (lo hi z : Z) : bool := (lo <=? z) && (z <=? hi).
Definition continuation (c : ascii) : bool := between 128 191 (value c).
(** What stands for a byte that is not part of a valid encoding. *)
Definition replacement : rune := 65533.
(** The range of the second byte after a first one (unicode/utf8's tables: no
    overlong encodings, no surrogates, nothing above U+10FFFF). *)
Definition second_of_three (b c : Z) : bool :=
  if b =? 224 then between 160 191 c else if b =? 237 then between 128 159 c else between 128 191 c.
Definition second_of_four (b c : Z) : bool :=
  if b =? 240 then between 144 191 c else if b =? 244 then between 128 143 c else between 128 191 c.

(** Go's decoding of UTF-8; each byte at which no valid encoding starts becomes
    U+FFFD. *)
Fixpoint decode (s : string) : list rune :=
  match s with
  | EmptyString => []
  | String c0 t =>
      let b := value c0 in
      if b <? 128 then b :: decode t
      else if between 194 223 b then
        match t with
        | String c1 t1 =>
            if continuation c1 then ((b - 192) * 64 + (value c1 - 128)) :: decode t1 else replacement :: decode t
        | _ => replacement :: decode t
        end
      else if between 224 239 b then
        match t with
        | String c1 (String c2 t2) =>
            if second_of_three b (value c1) && continuation c2
            then ((b - 224) * 4096 + (value c1 - 128) * 64 + (value c2 - 128)) :: decode t2
            else replacement :: decode t
        | _ => replacement :: decode t
        end
      else if between 240 244 b then
        match t with
        | String c1 (String c2 (String c3 t3)) =>
            if second_of_four b (value c1) && continuation c2 && continuation c3
            then ((b - 240) * 262144 + (value c1 - 128) * 4096 + (value c2 - 128) * 64 + (value c3 - 128)) :: decode t3
            else replacement :: decode t
        | _ => replacement :: decode t
        end
      else replacement :: decode t
  end.

(** parser.ParseString(input) and Updates, as the REPL server calls them
    (client/repl/server.go:485-491, 506-512, 576-583). *)
Definition compile_text {N : Num} (s : string) : res (list update) := compile (decode s).
