(** What a MusicXML score sounds like, for C57: a reader of score-partwise
    documents that follows the cursor of each part, as the MusicXML standard
    describes it.  Positions and lengths are counted in ticks, [M] to the
    quarter note.  The reader gives no answer for documents outside the
    fragment that C57 is about. *)
From Coq Require Import ZArith QArith Qcanon Ascii String List Bool.
From Verif Require Import Base Num ModelPitch ModelDuration ModelInstruments ModelTypes ModelLisp ModelScore ModelMusicXml
  SpecPitch SpecMusicXml.
Import ListNotations.
Local Open Scope string_scope.
Local Open Scope list_scope.
Local Open Scope Z_scope.

Definition obind {A B} (o : option A) (f : A -> option B) : option B := match o with Some x => f x | None => None end.
Notation "'do' x <- a ; b" := (obind a (fun x => b)) (at level 200, x pattern, a at level 100, b at level 200).
(** Go on only if a condition holds. *)
Definition only (b : bool) : option unit := if b then Some tt else None.

(** Integers: an optional sign and digits, within limits. *)
Definition whole (s : string) : option Z :=
  match s with
  | String c t => if Ascii.eqb c "-" then option_map Z.opp (digits t) else if Ascii.eqb c "+" then digits t else digits s
  | EmptyString => None
  end.
Definition number_in (lo hi : Z) (s : string) : option Z :=
  do n <- whole s; do _ <- only ((lo <=? n) && (n <=? hi)); Some n.
Definition child_number (lo hi : Z) (t : string) (e : elem) : option Z :=
  do c <- find_child t e; number_in lo hi (text c).

(** A sound: MIDI key, beginning and length. *)
Record sound := Sound { s_key : Z; s_on : Z; s_len : Z }.

(** Reading a part.  [r_from] is the beginning of the measure.  [r_free] says until
    when a voice is busy (a voice that is not listed: until then).  [r_last] is the last note, to which a further note of a
    chord may be added.  [r_moved]: the cursor was moved since the last note or
    barline.  [r_for]: a direction for this voice has been read; a note of the
    voice or the end of the measure must come before any movement (the end only
    if no voice reaches further).  [r_begun]:
    music has been read, so the key and the transposition stay as they are. *)
Record reading := R {
  r_div : Z; r_fifths : Z; r_transp : Z; r_begun : bool;
  r_from : Z; r_now : Z; r_free : list (Z * Z); r_last : option (Z * Z * Z);
  r_moved : bool; r_for : option Z }.
Definition start_reading : reading := R 1 0 0 false 0 0 [] None false None.

Definition free (r : reading) (v : Z) : Z := match aget Z.eqb v (r_free r) with Some t => t | None => r_from r end.

(** Letters that a key with so many sharps (flats, if negative) alters. *)
Definition altered (fifths : Z) (l : letter) : bool :=
  existsb (letter_eqb l)
    (if fifths >? 0 then firstn (Z.to_nat fifths) [LF; LC; LG; LD; LA; LE; LB]
     else firstn (Z.to_nat (- fifths)) [LB; LE; LA; LD; LG; LC; LF]).

Definition step_of (s : string) : option letter :=
  if String.eqb s "A" then Some LA else if String.eqb s "B" then Some LB else if String.eqb s "C" then Some LC
  else if String.eqb s "D" then Some LD else if String.eqb s "E" then Some LE else if String.eqb s "F" then Some LF
  else if String.eqb s "G" then Some LG else None.

Section Reader.
Variable M : Z.

(** The length of an element in ticks. *)
Definition ticks (r : reading) (e : elem) : option Z :=
  do d <- units e;
  do _ <- only ((1 <=? d) && (if dots e =? 0 then d <=? 40000 * r_div r else 2 ^ dots e * d <? 10000));
  Some (d * (M / r_div r)).

(** The MIDI key of a pitch.  A note without alteration on a letter that the key
    alters must show its natural sign. *)
Definition key_of (r : reading) (e p : elem) : option Z :=
  do l <- (do c <- find_child "step" p; step_of (text c));
  do o <- child_number 0 9 "octave" p;
  do a <- (if has_child "alter" p then child_number (-127) 127 "alter" p else Some 0);
  let natural := match find_child "accidental" e with Some c => String.eqb (text c) "natural" | None => false end in
  do _ <- only (if natural then a =? 0 else negb ((a =? 0) && altered (r_fifths r) l));
  let k := 12 * (o + 1) + white_key l + a + r_transp r in
  do _ <- only ((0 <=? k) && (k <=? 127));
  Some k.

(** No grace or cue notes, and no second notes of a tie. *)
Definition plain_note (e : elem) : bool :=
  negb (has_child "grace" e) && negb (has_child "cue" e) &&
  match find_child "type" e with Some t => String.eqb (attr_value "type" "" t) "" | None => true end &&
  forallb (fun t => negb (String.eqb (attr_value "type" "" t) "stop")) (find_children "tie" e).

Definition voice_of (e : elem) : option Z := child_number 1 127 "voice" e.

Definition read_note (e : elem) (r : reading) : option (reading * list (Z * sound)) :=
  do _ <- only (plain_note e);
  do v <- voice_of e;
  do t <- ticks r e;
  do key <- match find_child "pitch" e with
            | Some p => do k <- key_of r e p; Some (Some k)
            | None => do _ <- only (has_child "rest" e); Some None
            end;
  if has_child "chord" e then
    (* sounds together with the last note *)
    do l <- r_last r; let '(v', on, t') := l in
    do k <- key;
    do _ <- only ((v =? v') && (t =? t'));
    Some (r, [(v, Sound k on t)])
  else
    let on := r_now r in
    do _ <- only ((free r v <=? on) && (on + t <=? 40000 * M) && match r_for r with Some w => v =? w | None => true end);
    Some (R (r_div r) (r_fifths r) (r_transp r) true (r_from r) (on + t) (aset Z.eqb v (on + t) (r_free r))
            (match key with Some _ => Some (v, on, t) | None => None end) false None,
          match key with Some k => [(v, Sound k on t)] | None => [] end).

(** Backup and forward. *)
Definition read_move (dir : Z) (e : elem) (r : reading) : option reading :=
  do t <- ticks r e;
  let now := r_now r + dir * t in
  do _ <- only ((dots e =? 0) && negb (has_child "voice" e) && (r_from r <=? now) && (now <=? 40000 * M)
                && match r_for r with Some _ => false | None => true end);
  Some (R (r_div r) (r_fifths r) (r_transp r) true (r_from r) now (r_free r) None true None).

(** What matters in other elements: divisions, keys, transpositions and
    dynamics; anything that is not understood. *)
Inductive fact := FDivisions (n : option Z) | FKey (n : option Z) | FTranspose (n : option Z) | FDynamics | FBarline | FOther.
Fixpoint facts (e : elem) : list fact :=
  let '(Elem t _ x cs) := e in
  if String.eqb t "divisions" then [FDivisions (number_in 1 24 x)]
  else if String.eqb t "key" then
    [if has_child "key-step" e || has_child "key-alter" e || has_child "key-accidental" e then FOther
     else FKey (child_number (-7) 7 "fifths" e)]
  else if String.eqb t "transpose" then
    [if has_child "octave-change" e then FOther else FTranspose (child_number (-127) 127 "chromatic" e)]
  else if String.eqb t "dynamics" then [FDynamics]
  else if String.eqb t "barline" then (if has_child "ending" e || has_child "repeat" e then [FOther] else [FBarline])
  else if existsb (String.eqb t) ["note"; "forward"; "backup"; "measure"; "part"; "score-part"] then [FOther]
  else (fix go (l : list elem) : list fact := match l with [] => [] | c :: r => facts c ++ go r end) cs.

Definition read_fact (r : reading) (f : fact) : option reading :=
  match f with
  | FDivisions n =>
      do d <- n; do _ <- only (M mod d =? 0);
      Some (R d (r_fifths r) (r_transp r) (r_begun r) (r_from r) (r_now r) (r_free r) (r_last r) (r_moved r) (r_for r))
  | FKey n =>
      do k <- n; do _ <- only (negb (r_begun r));
      Some (R (r_div r) k (r_transp r) false (r_from r) (r_now r) (r_free r) None (r_moved r) (r_for r))
  | FTranspose n =>
      do k <- n; do _ <- only (negb (r_begun r));
      Some (R (r_div r) (r_fifths r) k false (r_from r) (r_now r) (r_free r) None (r_moved r) (r_for r))
  | FDynamics =>
      do _ <- only (negb (r_moved r));
      Some (R (r_div r) (r_fifths r) (r_transp r) true (r_from r) (r_now r) (r_free r) None false (r_for r))
  | FBarline => Some r
  | FOther => None
  end.
Definition read_facts (l : list fact) (r : reading) : option reading :=
  fold_left (fun o f => do x <- o; read_fact x f) l (Some r).

Definition read_other (e : elem) (r : reading) : option reading :=
  do r1 <- match find_child "voice" e with
           | None => Some r
           | Some _ =>
               do v <- voice_of e;
               do _ <- only ((free r v <=? r_now r) && match r_for r with Some w => v =? w | None => true end);
               Some (R (r_div r) (r_fifths r) (r_transp r) true (r_from r) (r_now r) (r_free r) None false (Some v))
           end;
  read_facts (facts e) r1.

Definition read_item (e : elem) (r : reading) : option (reading * list (Z * sound)) :=
  if String.eqb (tag e) "note" then read_note e r
  else if String.eqb (tag e) "backup" then do x <- read_move (-1) e r; Some (x, [])
  else if String.eqb (tag e) "forward" then do x <- read_move 1 e r; Some (x, [])
  else do x <- read_other e r; Some (x, []).

(** A fold that collects sounds. *)
Fixpoint read_list (f : elem -> reading -> option (reading * list (Z * sound))) (l : list elem) (r : reading)
  : option (reading * list (Z * sound)) :=
  match l with
  | [] => Some (r, [])
  | e :: t => do x <- f e r; let (r1, a) := x in do y <- read_list f t r1; let (r2, b) := y in Some (r2, a ++ b)
  end.

(** The next measure begins where the longest voice ends. *)
Definition end_measure (r : reading) : option reading :=
  let t := fold_left Z.max (map snd (r_free r)) (r_now r) in
  do _ <- only match r_for r with Some _ => t =? r_now r | None => true end;
  Some (R (r_div r) (r_fifths r) (r_transp r) true t t [] None false None).
Definition read_measure (e : elem) (r : reading) : option (reading * list (Z * sound)) :=
  do _ <- only (String.eqb (tag e) "measure");
  do x <- read_list read_item (children e) r; let (r1, a) := x in
  do r2 <- end_measure r1; Some (r2, a).

(** The voice numbers mentioned in a part. *)
Fixpoint voices_in (e : elem) : list (option Z) :=
  let '(Elem t _ x cs) := e in
  (if String.eqb t "voice" then [number_in 1 127 x] else [])
  ++ (fix go (l : list elem) : list (option Z) := match l with [] => [] | c :: r => voices_in c ++ go r end) cs.

(** A part: voice numbers are between 1 and 127, and there is a voice 1. *)
Definition read_part (e : elem) : option (list sound) :=
  do _ <- only (forallb (fun v => match v with Some _ => true | None => false end) (voices_in e)
                && existsb (fun v => match v with Some n => n =? 1 | None => false end) (voices_in e));
  do x <- read_list read_measure (children e) start_reading;
  Some (map snd (snd x)).

(** The instrument of a part: a piano, or the one of its MIDI program. *)
Definition read_instrument (e : elem) : option string :=
  match find_children "midi-instrument" e with
  | [] => Some "midi-acoustic-grand-piano"
  | [i] => do _ <- only (negb (has_child "midi-unpitched" i));
           do n <- child_number 1 127 "midi-program" i;
           nth_error instruments_list (Z.to_nat (n - 1))
  | _ => None
  end.

(** A score: the list of at most 15 parts, each with an instrument of its own,
    and then the parts; other elements are of no importance. *)
Record book := Book { b_parts : list (string * string); b_done : list string; b_sounds : list (string * sound) }.
Definition read_score_part (e : elem) (b : book) : option book :=
  if String.eqb (tag e) "score-part" then
    do id <- aget String.eqb "id" (attrs e);
    do i <- read_instrument e;
    do _ <- only (negb (existsb (String.eqb id) (map fst (b_parts b))) && negb (existsb (String.eqb i) (map snd (b_parts b))));
    Some (Book (b_parts b ++ [(id, i)]) (b_done b) (b_sounds b))
  else do _ <- only (match facts e with [] => true | _ => false end); Some b.
Definition read_top (e : elem) (b : book) : option book :=
  if String.eqb (tag e) "part-list" then
    fold_left (fun o c => do x <- o; read_score_part c x) (children e) (Some b)
  else if String.eqb (tag e) "part" then
    do id <- aget String.eqb "id" (attrs e);
    do i <- aget String.eqb id (b_parts b);
    do _ <- only (negb (existsb (String.eqb id) (b_done b)));
    do l <- read_part e;
    Some (Book (b_parts b) (id :: b_done b) (b_sounds b ++ map (pair i) l))
  else do _ <- only (match facts e with [] => true | _ => false end); Some b.
Definition read_score (doc : list elem) : option (list (string * sound)) :=
  do e <- find (fun e => String.eqb (tag e) "score-partwise") doc;
  do b <- fold_left (fun o c => do x <- o; read_top c x) (children e) (Some (Book [] [] []));
  do _ <- only (List.length (b_parts b) <=? 15)%nat;
  Some (b_sounds b).

(** The same in milliseconds, at 120 quarter notes per minute. *)
Definition in_ms (x : string * sound) : string * Z * @num XQ * @num XQ :=
  let ms (t : Z) : @num XQ := Fin (Q2Qc (inject_Z (500 * t) / inject_Z M)) in
  (fst x, s_key (snd x), ms (s_on (snd x)), ms (s_len (snd x))).
End Reader.

(** A note of a score, with the name of its instrument. *)
Definition as_heard (s : @score XQ) (e : @note_event XQ) : string * Z * @num XQ * @num XQ :=
  (iname (pstock (getp s (ev_part e))), ev_note e, ev_off e, ev_dur e).
