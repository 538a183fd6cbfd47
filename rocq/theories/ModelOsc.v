(** client/transmitter: the OSC bundle a score is turned into. *)
From Coq Require Import ZArith List String Ascii Bool Permutation Sorted.
From Verif Require Import Base Num ModelPitch ModelDuration ModelInstruments ModelTypes ModelLisp ModelScore.
Import ListNotations.
Local Open Scope Z_scope.

Section Osc.
Context {N : Num}.

(** osc.go:19-94, the messages (address and arguments). *)
Inductive msg :=
| MPing                                                  (* /ping *)
| MExport (file : string)                                (* /system/midi/export *)
| MPlay                                                  (* /system/play *)
| MStop                                                  (* /system/stop *)
| MShutdown (off : Z)                                    (* /system/shutdown *)
| MOffset (off : Z)                                      (* /system/offset *)
| MTempo (off : Z) (tempo : num)                         (* /system/tempo *)
| MPatch (track chan off patch : Z)                      (* /track/n/midi/patch *)
| MNote (track chan off note dur aud vel : Z)            (* /track/n/midi/note *)
| MVolume (track chan off vol : Z)                       (* /track/n/midi/volume *)
| MPanning (track chan off pan : Z).                     (* /track/n/midi/panning *)

(** transmitter.go:10-38, TransmissionContext.  A nil map of sync offsets is
    the empty list. *)
Record transmission := Transmission {
  t_from : string; t_to : string; t_fromi : Z; t_toi : Z;
  t_sync : list (pid * num); t_oneoff : bool; t_load : bool }.

(** osc.go:197: the context before the options are applied. *)
Definition no_options : transmission := Transmission "" "" 0 (-1) [] false false.

(* --------------------------- score.go --------------------------- *)

(** Go's int is 64 bits wide; it wraps. *)
Definition wrap64 (z : Z) : Z := (z + 2 ^ 63) mod 2 ^ 64 - 2 ^ 63.

(** strconv.Atoi of a string of digits: out of range it gives the largest int
    (and an error, which the caller drops). *)
Definition atoi (l : list ascii) : Z :=
  Z.min (2 ^ 63 - 1) (fold_left (fun a c => a * 10 + Z.of_nat (nat_of_ascii c - 48)) l 0).

(** score.go:176, the pattern ^(\d+):(\d+)$. *)
Definition time_marking (s : string) : option (Z * Z) :=
  let (mins, r) := span is_digit (chars s) in
  match r with
  | c :: secs => if ceq ":"%char c && nonempty mins && nonempty secs && forallb is_digit secs
                 then Some (atoi mins, atoi secs) else None
  | [] => None
  end.

(** score.go:182-206, InterpretOffsetReference. *)
Definition offset_reference (s : score) (ref : string) : res num :=
  match time_marking ref with
  | Some (m, sec) => ROk (nadd (nofZ (wrap64 (wrap64 (m * 60) * 1000))) (nofZ (wrap64 (sec * 1000))))
  | None => match aget String.eqb ref (markers s) with
            | Some off => ROk off
            | None => RErr "not a valid offset reference"
            end
  end.

(* --------------------------- tempo messages --------------------------- *)

(** sort.Float64s on the keys of a map. *)
Fixpoint insert_num (x : num) (l : list num) : list num :=
  match l with
  | [] => [x]
  | y :: t => if nltb x y then x :: l else y :: insert_num x t
  end.
Definition sort_nums (l : list num) : list num := fold_right insert_num [] l.

(** osc.go:143-154: the last tempo offset not after the start. *)
Fixpoint first_tempo (start : num) (l : list num) (acc : num) : num :=
  match l with
  | [] => acc
  | o :: t => if nltb start o then acc else first_tempo start t o
  end.

(** osc.go:160-193: one message per tempo change in the range. *)
Fixpoint tempo_loop (it : list (num * num)) (first start stop : num) (l : list num) : list msg :=
  match l with
  | [] => []
  | o :: t =>
      if nltb o first then tempo_loop it first start stop t
      else if nleb stop o then []
      else
        let tempo := match aget neqb o it with Some x => x | None => n0 end in
        let off := nsub o start in
        let off := if nltb off n0 then n0 else off in
        MTempo (nround32 off) (nfloat32 tempo) :: tempo_loop it first start stop t
  end.

(** osc.go:128-195, tempoMessages. *)
Definition tempo_messages (s : score) (start stop : num) : list msg :=
  let it := tempo_itinerary s in
  let offs := sort_nums (map fst it) in
  tempo_loop it (first_tempo start offs n0) start stop offs.

(* --------------------------- note messages --------------------------- *)

(** osc.go:297-299: what is known to be set on every channel, and osc.go:286:
    the length of the score so far. *)
Record channels := Channels {
  ch_patch : list (Z * Z); ch_vol : list (Z * num); ch_pan : list (Z * num); ch_len : num }.

Definition changed {A} (eqb : A -> A -> bool) (old : option A) (x : A) : bool :=
  match old with Some y => negb (eqb x y) | None => true end.

(** osc.go:317-424: the messages for one note. *)
Definition note_step (s : score) (start : num) (sync : list (pid * num)) (c : channels) (e : note_event)
  : channels * list msg :=
  let track := match aget Nat.eqb (ev_part e) (tracks s) with Some t => t | None => 0 end in
  let off := nsub (nsub (ev_off e) start)
                  (match aget Nat.eqb (ev_part e) sync with Some x => x | None => n0 end) in
  let r := nround32 off in
  let ch := ev_chan e in
  let patch := ipatch (pstock (getp s (ev_part e))) in
  let newpatch := negb (ch =? 9) && changed Z.eqb (aget Z.eqb ch (ch_patch c)) patch in
  let newvol := changed neqb (aget Z.eqb ch (ch_vol c)) (ev_tvol e) in
  let newpan := changed neqb (aget Z.eqb ch (ch_pan c)) (ev_pan e) in
  (Channels (if newpatch then aset Z.eqb ch patch (ch_patch c) else ch_patch c)
            (if newvol then aset Z.eqb ch (ev_tvol e) (ch_vol c) else ch_vol c)
            (if newpan then aset Z.eqb ch (ev_pan e) (ch_pan c) else ch_pan c)
            (nmax (ch_len c) (nadd off (ev_aud e))),
   (if newpatch then [MPatch track ch r patch] else []) ++
   (if newvol then [MVolume track ch r (nround32 (nmul (ev_tvol e) (nofZ 127)))] else []) ++
   (if newpan then [MPanning track ch r (nround32 (nmul (ev_pan e) (nofZ 127)))] else []) ++
   [MNote track ch r (ev_note e) (nround32 (ev_dur e)) (nround32 (ev_aud e))
          (nround32 (nmul (ev_vol e) (nofZ 127)))]).

(** osc.go:303-428: the loop over the sorted events. *)
Fixpoint note_loop (s : score) (start stop : num) (sync : list (pid * num)) (c : channels) (l : list note_event)
  : channels * list msg :=
  match l with
  | [] => (c, [])
  | e :: t =>
      if nltb (ev_off e) start then note_loop s start stop sync c t
      else if nleb stop (ev_off e) then (c, [])
      else let (c1, m1) := note_step s start sync c e in
           let (c2, m2) := note_loop s start stop sync c1 t in (c2, m1 ++ m2)
  end.

(** osc.go:252-254: sort.Slice may leave simultaneous notes in any order; with
    NaN offsets (which compare with nothing) it may leave any order at all. *)
Definition sorted_into (l l' : list note_event) : Prop :=
  Permutation l l' /\
  ((forall e, In e l -> nisnan (ev_off e) = false) ->
   StronglySorted (fun a b => nltb (ev_off b) (ev_off a) = false) l').

(** osc.go:210: the slice of the events (a capacity larger than the length is
    not modelled: an end beyond the length panics). *)
Definition event_range (t : transmission) (s : score) : res (nat * nat) :=
  let n := Z.of_nat (List.length (events s)) in
  let hi := if t_toi t =? -1 then n else t_toi t in
  if (0 <=? t_fromi t) && (t_fromi t <=? hi) && (hi <=? n)
  then ROk (Z.to_nat (t_fromi t), Z.to_nat hi)
  else RPanic "slice bounds out of range".

Definition slice {A} (lo hi : nat) (l : list A) : list A := firstn (hi - lo) (skipn lo l).

(** osc.go:212-233: the time range. *)
Definition time_range (t : transmission) (s : score) : res (num * num) :=
  rbind (if String.eqb (t_from t) "" then ROk n0 else offset_reference s (t_from t)) (fun start =>
  rbind (if String.eqb (t_to t) "" then ROk nmaxval else offset_reference s (t_to t)) (fun stop =>
  ROk (start, stop))).

(** osc.go:194-440, ScoreToOSCBundle, once the events are sorted. *)
Definition bundle_of (t : transmission) (s : score) (start stop : num) (sorted : list note_event) : list msg :=
  let (c, notes) := note_loop s start stop (t_sync t) (Channels [] [] [] n0) sorted in
  (if nonempty (t_sync t) then [] else tempo_messages s start stop) ++ notes ++
  (if t_load t then [] else [MPlay]) ++
  (if t_oneoff t then [MShutdown (nround32 (nadd (ch_len c) (nofZ 10000)))] else []).

(** The whole function.  The slice shares its array with the score, so the
    score's events are left sorted (osc.go:252). *)
Inductive transmits (t : transmission) (s : score) : score -> res (list msg) -> Prop :=
| Tr_bundle lo hi start stop sorted :
    event_range t s = ROk (lo, hi) -> time_range t s = ROk (start, stop) ->
    sorted_into (slice lo hi (events s)) sorted ->
    transmits t s (set_events (firstn lo (events s) ++ sorted ++ skipn hi (events s)) s)
                  (ROk (bundle_of t s start stop sorted))
| Tr_error lo hi m :
    event_range t s = ROk (lo, hi) -> time_range t s = RErr m -> transmits t s s (RErr m)
| Tr_panic m : event_range t s = RPanic m -> transmits t s s (RPanic m).
End Osc.
