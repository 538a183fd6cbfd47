(** Model of the MusicXML importer's reading of a document:
    client/interop/musicxml/importer/{handlers,importer,util,nested_index}.go.
    The clean-up of what has been read (optimizer.go) is in ModelImporter.

    Not modelled: the XML parser (a document is a tree of elements), log
    messages and the list of tags already warned about. *)
From Coq Require Import ZArith QArith Qcanon Ascii String List Bool SpecFloat.
From Verif Require Import Base Num ModelPitch ModelDuration ModelInstruments ModelTypes ModelLisp ModelImporter.
Import ListNotations.
Local Open Scope string_scope.
Local Open Scope list_scope.
Local Open Scope Z_scope.

(* ------------------------------ numbers ------------------------------ *)

(** math.Round: to the nearest integer, halves away from zero. *)
Class GNum (N : Num) := { nround : @num N -> @num N }.
Definition nround_XQ (x : xq) : xq := match x with Fin q => xq_ofZ (q_round q) | _ => x end.
Definition nround_B64 (x : spec_float) : spec_float :=
  match b64_toQ x with Some q => b64_ofZ (q_round q) | None => x end.
#[global] Instance GXQ : GNum XQ := Build_GNum XQ nround_XQ.
#[global] Instance GB64 : GNum B64 := Build_GNum B64 nround_B64.

(** strconv.ParseUint in base 10: the value, [None] for a syntax error.  The
    first digit beyond the range ends the reading with the largest value. *)
Definition digit_of (c : ascii) : option Z :=
  let n := Z.of_nat (nat_of_ascii c) in
  if (48 <=? n) && (n <=? 57) then Some (n - 48) else None.
Fixpoint uint_loop (top : Z) (l : list ascii) (n : Z) : option Z :=
  match l with
  | [] => Some n
  | c :: t => match digit_of c with
              | None => None
              | Some d => let n1 := n * 10 + d in
                          if n1 >? top then Some top else uint_loop top t n1
              end
  end.
Definition parse_uint (top : Z) (l : list ascii) : option Z :=
  match l with [] => None | _ => uint_loop top l 0 end.

(** strconv.ParseInt(s, 10, bits) with the error ignored: 0 for a syntax
    error, the nearest bound for a value out of range. *)
Definition parse_int (bits : Z) (s : string) : Z :=
  let top := 2 ^ bits - 1 in
  let cut := 2 ^ (bits - 1) in
  let up n := if n >=? cut then cut - 1 else n in
  let down n := if n >? cut then - cut else - n in
  match list_ascii_of_string s with
  | "+"%char :: l => match parse_uint top l with Some n => up n | None => 0 end
  | "-"%char :: l => match parse_uint top l with Some n => down n | None => 0 end
  | l => match parse_uint top l with Some n => up n | None => 0 end
  end.

(** A string of decimal digits, as a number of any size. *)
Fixpoint digits_loop (l : list ascii) (n : Z) : option Z :=
  match l with
  | [] => Some n
  | c :: t => match digit_of c with None => None | Some d => digits_loop t (n * 10 + d) end
  end.
Definition digits (s : string) : option Z :=
  match list_ascii_of_string s with [] => None | l => digits_loop l 0 end.

(* ------------------------------ document ------------------------------ *)

(** etree.Element: tag, attributes, text and child elements. *)
Inductive elem := Elem (tag : string) (attrs : list (string * string)) (text : string) (children : list elem).
Definition tag (e : elem) : string := let (t, _, _, _) := e in t.
Definition attrs (e : elem) : list (string * string) := let (_, a, _, _) := e in a.
Definition text (e : elem) : string := let (_, _, x, _) := e in x.
Definition children (e : elem) : list elem := let (_, _, _, c) := e in c.

(** etree: FindElement and FindElements with a bare tag look at the children. *)
Definition find_child (t : string) (e : elem) : option elem :=
  find (fun c => String.eqb (tag c) t) (children e).
Definition find_children (t : string) (e : elem) : list elem :=
  filter (fun c => String.eqb (tag c) t) (children e).
Definition has_child (t : string) (e : elem) : bool :=
  match find_child t e with Some _ => true | None => false end.

(** etree: SelectAttrValue. *)
Definition attr_value (k dflt : string) (e : elem) : string :=
  match aget String.eqb k (attrs e) with Some v => v | None => dflt end.

Definition nil_panic {A} : res A := RPanic "nil pointer dereference".

(** FindElement(t).Text(): panics without such a child. *)
Definition child_text (t : string) (e : elem) : res string :=
  match find_child t e with Some c => ROk (text c) | None => nil_panic end.

Section MusicXml.
Context {N : Num} {G : GNum N}.

(** strconv.ParseFloat on anything that is not a string of digits: left open. *)
Variable other_float : string -> num.
(** The order in which Go walks a map, at the n-th time a map is walked: left
    open. *)
Variable part_order : nat -> list string -> list string.
Variable voice_order : nat -> list Z -> list Z.

(** strconv.ParseFloat(s, 64), error ignored. *)
Definition parse_float (s : string) : num :=
  match digits s with Some z => nofZ z | None => other_float s end.

(* ------------------------------ util.go ------------------------------ *)

(** math.Abs. *)
Definition nabs (x : num) : num := if nltb x n0 then nsub n0 x else x.

(** util.go:411-419, roundIfCloseEnough. *)
Definition round_close (x : num) : num :=
  if nltb (nabs (nsub x (nround x))) (nlit 1 10000) then nround x else x.

(** util.go:350-370: the loop over the normal durations; what remains and the
    durations taken, in order.  [None]: not finished within the fuel. *)
Fixpoint decompose (fuel : nat) (normal : list Z) (r : num) : option (num * list Z) :=
  match fuel with
  | O => None
  | S f =>
      match normal with
      | [] => Some (r, [])
      | n :: t =>
          if nltb (nabs (nsub r (nofZ n))) (nlit 1 100) then Some (n0, [n])
          else if nltb r (nofZ n) then
            option_map (fun '(r', l) => (r', n :: l))
              (decompose f normal (ndiv n1 (nsub (ndiv n1 r) (ndiv n1 (nofZ n)))))
          else decompose f t r
      end
  end.

(** In exact arithmetic at most 10000 steps are taken for durations that are
    not rounded to zero; for those the Go loop runs forever. *)
Definition decompose_fuel : nat := Z.to_nat 20000.

(** util.go:372-400: two neighbouring normal durations, each taken once, become
    a dotted one; otherwise all are tied. *)
Definition taken_duration (l : list Z) : list component :=
  let tied := map (fun n => CLen (nofZ n) 0) l in
  match l with
  | [a; b] => if b =? 2 * a then [CLen (nofZ a) 1] else tied
  | _ => tied
  end.

(** util.go:345-409, idiomaticDuration. *)
Definition idiomatic (d : num) (dots : Z) : res duration :=
  let d := round_close d in
  let plain := ROk (Some [CLen d dots]) in
  if dots =? 0 then
    match decompose decompose_fuel [1; 2; 4; 8; 16] d with
    | None => RErr "fuel"
    | Some (r, l) => if neqb r n0 then ROk (Some (taken_duration l)) else plain
    end
  else plain.

(** Duration.Beats(), which panics on milliseconds and seconds; the importer
    never makes those. *)
Definition beats_of (d : duration) : num := match dur_beats d with Some b => b | None => n0 end.

(** util.go:107-139, getBeats. *)
Fixpoint get_beats (u : update) : num :=
  let sum := (fix go (l : list update) (acc : num) : num :=
                match l with [] => acc | x :: t => go t (nadd acc (get_beats x)) end) in
  let least := (fix go (l : list update) (m : num) : num :=
                  match l with
                  | [] => m
                  | x :: t => let b := nadd n0 (get_beats x) in
                              go t (if nltb n0 b && nltb b m then b else m)
                  end) in
  match u with
  | UPrim (Note _ d _) => beats_of d
  | UPrim (Rest d) => beats_of d
  | UChord es => let m := least es nmaxval in if nltb m nmaxval then m else n0
  | URepeat e _ => nadd n0 (get_beats e)
  | UOnReps _ e => nadd n0 (get_beats e)
  | USeq es => sum es n0
  | _ => n0
  end.

(** util.go:37-65, getNestedUpdates.  The importer only makes repeats and
    endings of sequences. *)
Definition nested (u : update) (to_import : bool) : option (list update) :=
  match u with
  | URepeat (USeq es) n => if to_import && (n >? 0) then None else Some es
  | UOnReps rs (USeq es) => if to_import && negb (match rs with [] => true | _ => false end) then None else Some es
  | UChord es => if to_import then None else Some es
  | USeq es => Some es
  | _ => None
  end.

(** util.go:67-92, modifyNestedUpdates. *)
Definition modify_nested (f : list update -> list update) (u : update) : update :=
  match u with
  | URepeat (USeq es) n => URepeat (USeq (f es)) n
  | UOnReps rs (USeq es) => UOnReps rs (USeq (f es))
  | UChord es => UChord (f es)
  | USeq es => USeq (f es)
  | _ => u
  end.

(** util.go:231-236, filterUpdateWithDuration. *)
Definition with_duration (u : update) : bool :=
  match u with UPrim (Note _ _ _) | UPrim (Rest _) | UChord _ => true | _ => false end.

(** util.go:238-252, filterNestedImportableUpdate. *)
Definition import_here (u : update) : bool :=
  match nested u true with
  | None => false
  | Some es => match rev es with
               | [] => true
               | x :: _ => match nested x true with Some _ => false | None => true end
               end
  end.

Definition is_repeat (u : update) : bool := match u with URepeat _ _ => true | _ => false end.
Definition is_ending (u : update) : bool := match u with UOnReps _ _ => true | _ => false end.

(* ---------------------------- importer.go ---------------------------- *)

(** importer.go:345-364, findLastRecursive: the last update that passes the
    filter, and the indices that lead to it.  [find_in] looks at an update and
    then inside it. *)
Fixpoint find_in (f : update -> bool) (u : update) : option (update * list nat) :=
  let go := (fix go (l : list update) (i : nat) : option (update * list nat) :=
               match l with
               | [] => None
               | x :: t => match go t (S i) with
                           | Some r => Some r
                           | None => match find_in f x with
                                     | Some (v, ni) => Some (v, i :: ni)
                                     | None => None
                                     end
                           end
               end) in
  if f u then Some (u, [])
  else match u with
       | URepeat (USeq es) _ | UOnReps _ (USeq es) | UChord es | USeq es => go es 0%nat
       | _ => None
       end.
Fixpoint find_last (f : update -> bool) (l : list update) (i : nat) : option (update * list nat) :=
  match l with
  | [] => None
  | x :: t => match find_last f t (S i) with
              | Some r => Some r
              | None => match find_in f x with
                        | Some (v, ni) => Some (v, i :: ni)
                        | None => None
                        end
              end
  end.

(** importer.go:379-406, findLastWithStateRecursive, with a number as state:
    either what was found, or the state after the search. *)
Fixpoint find_in_st (f : update -> Z -> bool) (upd : update -> Z -> Z) (u : update) (st : Z)
  : (update * list nat) + Z :=
  let go := (fix go (l : list update) (i : nat) (st : Z) : (update * list nat) + Z :=
               match l with
               | [] => inr st
               | x :: t => match go t (S i) st with
                           | inl r => inl r
                           | inr st1 => match find_in_st f upd x st1 with
                                        | inl (v, ni) => inl (v, i :: ni)
                                        | inr st2 => inr st2
                                        end
                           end
               end) in
  if f u st then inl (u, [])
  else let st := upd u st in
       match u with
       | URepeat (USeq es) _ | UOnReps _ (USeq es) | UChord es | USeq es => go es 0%nat st
       | _ => inr st
       end.

(** importer.go:104-120, musicXMLVoice.  The base event sequence is implicit. *)
Record voice := Voice {
  v_ups : list update  (* updates[0].Events *);
  v_beats : num  (* beats *);
  v_oct : Z  (* octave *);
  v_slurs : Z  (* slurs *);
  v_sec : Z  (* sectionStartOctave *);
  v_end : Z  (* endingStartOctave *) }.

(** importer.go:122-134, newMusicXMLVoice. *)
Definition new_voice : voice := Voice [] n0 4 0 4 4.

(** importer.go:15-35, musicXMLPart.  Voices are pointers: [p_heap] holds them,
    [p_voices] maps numbers to them, [p_cur] is the current one (nil: [None]).
    Instead of the updates and the optimizer, [p_steps] records what is handed
    to the optimizer (see ModelImporter); the optimizer works on a copy of a
    voice's updates, while Go's changes the slice in place (it matters only
    when the same voice is flushed twice). *)
Record xpart := XP {
  p_names : list string  (* instruments *);
  p_div : Z  (* divisions *);
  p_beats : num  (* beats *);
  p_steps : list step;
  p_heap : list voice;
  p_voices : list (Z * nat)  (* voices *);
  p_cur : option nat  (* currentVoice *);
  p_unpitched : list (string * Z)  (* unpitched *);
  p_alias : string  (* alias *) }.

(** importer.go:37-46, newMusicXMLPart. *)
Definition new_part : xpart := XP [] 1 n0 [] [] [] None [] "".

Definition set_names v (p : xpart) := XP v (p_div p) (p_beats p) (p_steps p) (p_heap p) (p_voices p) (p_cur p) (p_unpitched p) (p_alias p).
Definition set_div v (p : xpart) := XP (p_names p) v (p_beats p) (p_steps p) (p_heap p) (p_voices p) (p_cur p) (p_unpitched p) (p_alias p).
Definition set_beats v (p : xpart) := XP (p_names p) (p_div p) v (p_steps p) (p_heap p) (p_voices p) (p_cur p) (p_unpitched p) (p_alias p).
Definition set_steps v (p : xpart) := XP (p_names p) (p_div p) (p_beats p) v (p_heap p) (p_voices p) (p_cur p) (p_unpitched p) (p_alias p).
Definition set_vheap v (p : xpart) := XP (p_names p) (p_div p) (p_beats p) (p_steps p) v (p_voices p) (p_cur p) (p_unpitched p) (p_alias p).
Definition set_voices v (p : xpart) := XP (p_names p) (p_div p) (p_beats p) (p_steps p) (p_heap p) v (p_cur p) (p_unpitched p) (p_alias p).
Definition set_cur v (p : xpart) := XP (p_names p) (p_div p) (p_beats p) (p_steps p) (p_heap p) (p_voices p) v (p_unpitched p) (p_alias p).
Definition set_unpitched v (p : xpart) := XP (p_names p) (p_div p) (p_beats p) (p_steps p) (p_heap p) (p_voices p) (p_cur p) v (p_alias p).
Definition set_alias v (p : xpart) := XP (p_names p) (p_div p) (p_beats p) (p_steps p) (p_heap p) (p_voices p) (p_cur p) (p_unpitched p) v.

Definition vget (i : nat) (p : xpart) : voice := nth i (p_heap p) new_voice.
Definition vset (i : nat) (v : voice) (p : xpart) : xpart := set_vheap (upd_nth i v (p_heap p)) p.

(** The current voice; a nil pointer panics when it is used. *)
Definition cur_voice (p : xpart) : res voice :=
  match p_cur p with Some i => ROk (vget i p) | None => nil_panic end.
Definition set_voice (v : voice) (p : xpart) : xpart :=
  match p_cur p with Some i => vset i v p | None => p end.

(** A new voice under a number: voices[n] = newMusicXMLVoice() with an octave. *)
Definition put_voice (n oct : Z) (p : xpart) : xpart :=
  set_voices (aset Z.eqb n (List.length (p_heap p)) (p_voices p))
    (set_vheap (p_heap p ++ [Voice [] n0 oct 0 4 4]) p).

(** Insertion by key. *)
Fixpoint insert_by {A} (before : A -> A -> bool) (x : A) (l : list A) : list A :=
  match l with
  | [] => [x]
  | y :: t => if before x y then x :: l else y :: insert_by before x t
  end.
Definition sort_by {A} (before : A -> A -> bool) (l : list A) : list A :=
  fold_right (insert_by before) [] l.

(** importer.go:63-81 counts voice numbers up from 1, past the int32 overflow if
    necessary. *)
Definition voice_before (a b : Z * nat) : bool :=
  (fst a - 1) mod 4294967296 <=? (fst b - 1) mod 4294967296.

(** importer.go:48-91, collapseVoices. *)
Definition collapse (end_ : bool) (p : xpart) : res xpart :=
  match p_voices p with
  | [(n, _)] =>
      rbind (cur_voice p) (fun v =>
      ROk (if effectively_empty (v_ups v) then p
           else set_beats n0 (put_voice 1 (-1)
                  (set_steps (p_steps p ++ [SFlush [(n, v_ups v)] end_]) p))))
  | _ =>
      let vs := map (fun '(n, i) => (n, v_ups (vget i p))) (sort_by voice_before (p_voices p)) in
      ROk (if forallb (fun v => effectively_empty (snd v)) vs then p
           else let p1 := fold_left (fun q v => if effectively_empty (snd v) then q else put_voice (fst v) (-1) q) vs p in
                set_beats n0 (set_cur (aget Z.eqb 1 (p_voices p1))
                  (set_steps (p_steps p1 ++ [SFlush vs end_]) p1)))
  end.

(** importer.go:257-263, recountBeats. *)
Definition recount (p : xpart) : res xpart :=
  rbind (cur_voice p) (fun v =>
  let b := round_close (nadd n0 (get_beats (USeq (v_ups v)))) in
  ROk (set_voice (Voice (v_ups v) b (v_oct v) (v_slurs v) (v_sec v) (v_end v)) (set_beats b p))).

(** importer.go:265-303, modifyAt, at the given indices below the base event
    sequence. *)
Fixpoint modify_path (f : update -> update) (ni : list nat) (u : update) : update :=
  match ni with
  | [] => f u
  | i :: t => modify_nested (fun es => match nth_error es i with
                                       | Some x => upd_nth i (modify_path f t x) es
                                       | None => es
                                       end) u
  end.
Definition modify_at (f : update -> update) (ni : list nat) (p : xpart) : res xpart :=
  rbind (cur_voice p) (fun v =>
  match modify_path f ni (USeq (v_ups v)) with
  | USeq es => recount (set_voice (Voice es (v_beats v) (v_oct v) (v_slurs v) (v_sec v) (v_end v)) p)
  | _ => RPanic "interface conversion"
  end).

(** The update to import into with its indices: findLast with
    filterNestedImportableUpdate.  There always is one. *)
Definition import_into (v : voice) : res (update * list nat) :=
  match find_in import_here (USeq (v_ups v)) with
  | Some r => ROk r
  | None => RPanic "index out of range"
  end.

(** importer.go:204-210, updates. *)
Definition import_list (p : xpart) : res (list update) :=
  rbind (cur_voice p) (fun v =>
  rmap (fun r => match nested (fst r) true with Some es => es | None => [] end) (import_into v)).

(** importer.go:245-255, setAll, and 218-233, append. *)
Definition set_all (us : list update) (p : xpart) : res xpart :=
  rbind (cur_voice p) (fun v =>
  rbind (import_into v) (fun r => modify_at (modify_nested (fun _ => us)) (snd r) p)).
Definition append_all (us : list update) (p : xpart) : res xpart :=
  rbind (cur_voice p) (fun v =>
  rbind (import_into v) (fun r => modify_at (modify_nested (fun es => es ++ us)) (snd r) p)).

(** importer.go:235-243, appendPartAttrs. *)
Definition append_part_attr (u : part_update) (p : xpart) : res xpart :=
  rmap (fun p1 => set_steps (p_steps p1 ++ [SAttr u]) p1) (collapse true p).

(* ---------------------------- handlers.go ---------------------------- *)

(** handlers.go:535-557, translateDuration; 0.5^k is 2^-k. *)
Definition translate_duration (e : elem) (p : xpart) : res duration :=
  let dots := Z.of_nat (List.length (find_children "dot" e)) in
  rbind (child_text "duration" e) (fun s =>
  let d := parse_float s in
  let d := if dots >? 0
           then ndiv d (ndiv (nsub n1 (npow2 (- (dots + 1)))) (nlit 1 2))
           else d in
  idiomatic (ndiv (nmul (nofZ 4) (nofZ (p_div p))) d) dots).

(** handlers.go:269-289, padVoiceToPresent. *)
Definition pad_to_present (p : xpart) : res xpart :=
  rbind (cur_voice p) (fun v =>
  let diff := nsub (p_beats p) (v_beats v) in
  if nltb diff n0 then ROk p
  else if nltb n0 diff then
    rbind (idiomatic (ndiv (nofZ 4) diff) 0) (fun d =>
    rbind (append_all [UPrim (Rest d)] p) (fun p1 =>
    rbind (cur_voice p1) (fun v1 =>
    ROk (set_voice (Voice (v_ups v1) (nadd (v_beats v1) diff) (v_oct v1) (v_slurs v1) (v_sec v1) (v_end v1)) p1))))
  else ROk p).

(** handlers.go:183-215, tryAddBarline; [None]: no success. *)
Fixpoint try_barline (u : update) : option update :=
  match u with
  | UPrim (Note pi d sl) => if sl then None else Some (UPrim (Note pi (Some (dcomps d ++ [CBar])) sl))
  | UPrim (Rest d) => Some (UPrim (Rest (Some (dcomps d ++ [CBar]))))
  | UChord es =>
      option_map UChord
        ((fix go (l : list update) : option (list update) :=
            match l with
            | [] => None
            | [x] => option_map (fun y => [y]) (try_barline x)
            | x :: t => option_map (cons x) (go t)
            end) es)
  | _ => None
  end.

(** handlers.go:173-226, addBarline. *)
Definition add_barline (p : xpart) : res xpart :=
  rbind (import_list p) (fun us =>
  match rev us with
  | [] => append_all [UBarline] p
  | x :: r => match try_barline x with
              | Some y => set_all (rev r ++ [y]) p
              | None => append_all [UBarline] p
              end
  end).

(** handlers.go:306-464, barlineHandler. *)
Definition octave_moves (from to : Z) : list update :=
  if to <? from then repeat (UPrim (Attr POctDown)) (Z.to_nat (from - to))
  else repeat (UPrim (Attr POctUp)) (Z.to_nat (to - from)).

Definition start_repeat (p : xpart) : res xpart :=
  rbind (cur_voice p) (fun v =>
  append_all [URepeat (USeq []) 0]
    (set_voice (Voice (v_ups v) (v_beats v) (v_oct v) (v_slurs v) (v_oct v) (v_end v)) p)).
Definition start_ending (p : xpart) : res xpart :=
  rbind (cur_voice p) (fun v =>
  append_all [UOnReps [] (USeq [])]
    (set_voice (Voice (v_ups v) (v_beats v) (v_oct v) (v_slurs v) (v_sec v) (v_oct v)) p)).
(** Wrap everything in a repeat: setAll([Repeat(flatUpdates)]). *)
Definition wrap_repeat (p : xpart) : res xpart :=
  rbind (cur_voice p) (fun v => set_all [URepeat (USeq (v_ups v)) 0] p).
(** maintainRepeatOctaveIntegrity; the octave changes are appended at once. *)
Definition back_to_section_octave (p : xpart) : res xpart :=
  rbind (cur_voice p) (fun v =>
  if v_oct v =? v_sec v then ROk p
  else rbind (append_all (octave_moves (v_oct v) (v_sec v)) p) (fun p1 =>
       rbind (cur_voice p1) (fun v1 =>
       ROk (set_voice (Voice (v_ups v1) (v_beats v1) (v_sec v) (v_slurs v1) (v_sec v1) (v_end v1)) p1)))).
(** countEndings. *)
Definition count_endings (p : xpart) : res Z :=
  rbind (cur_voice p) (fun v =>
  match find_in is_repeat (USeq (v_ups v)) with
  | Some (URepeat (USeq es) _, _) => ROk (Z.of_nat (List.length (filter is_ending es)))
  | _ => RPanic "interface conversion"
  end).
(** setEndingRepetitions. *)
Definition set_ending_repetitions (p : xpart) : res xpart :=
  rbind (count_endings p) (fun n =>
  rbind (cur_voice p) (fun v =>
  rbind (import_into v) (fun r =>
  match fst r with
  | UOnReps _ _ => modify_at (fun u => match u with UOnReps _ e => UOnReps [(n, n)] e | _ => u end) (snd r) p
  | _ => RPanic "interface conversion"
  end))).
(** setRepeatTimes. *)
Definition set_repeat_times (n : Z) (p : xpart) : res xpart :=
  rbind (cur_voice p) (fun v =>
  match find_in is_repeat (USeq (v_ups v)) with
  | Some (_, ni) => modify_at (fun u => match u with URepeat e _ => URepeat e n | _ => u end) ni p
  | None => RPanic "index out of range"
  end).

Definition barline_handler (e : elem) (p : xpart) : res xpart :=
  let ending := find_child "ending" e in
  let etype := match ending with
               | Some x => let t := attr_value "type" "" x in if String.eqb t "discontinue" then "stop" else t
               | None => ""
               end in
  let repeat_ := find_child "repeat" e in
  let dir := match repeat_ with Some x => attr_value "direction" "" x | None => "" end in
  rbind (cur_voice p) (fun v =>
  rbind (import_into v) (fun into =>
  let ongoing := is_repeat (fst into) in
  match ending, repeat_ with
  | None, None => ROk p
  | _, _ =>
      let no_ending := match ending with None => true | Some _ => false end in
      let no_repeat := match repeat_ with None => true | Some _ => false end in
      rbind
        (if no_ending && String.eqb dir "forward" then start_repeat p
         else if String.eqb etype "start" && String.eqb dir "forward" then rbind (start_repeat p) start_ending
         else if String.eqb etype "start" && negb ongoing then rbind (wrap_repeat p) start_ending
         else if String.eqb etype "start" then append_all [UOnReps [] (USeq [])] p
         else ROk p)
        (fun p1 =>
        if no_ending && String.eqb dir "backward" then
          rbind (back_to_section_octave p1) (fun p2 =>
          let times := parse_int 8 (match repeat_ with Some x => attr_value "times" "2" x | None => "2" end) in
          if ongoing then set_repeat_times times p2
          else rbind (wrap_repeat p2) (set_repeat_times times))
        else if String.eqb etype "stop" && no_repeat then
          rbind (set_ending_repetitions p1) (fun p2 =>
          rbind (count_endings p2) (fun n => set_repeat_times n p2))
        else if String.eqb etype "stop" && String.eqb dir "backward" then
          rbind (back_to_section_octave p1) (fun p2 =>
          rbind (set_ending_repetitions p2) (fun p3 =>
          rbind (cur_voice p3) (fun v3 =>
          ROk (set_voice (Voice (v_ups v3) (v_beats v3) (v_end v3) (v_slurs v3) (v_sec v3) (v_end v3)) p3))))
        else ROk p1)
  end)).

(** handlers.go:466-480, backupHandler and forwardHandler. *)
Definition backup_handler (e : elem) (p : xpart) : res xpart :=
  rmap (fun d => set_beats (nsub (p_beats p) (nadd n0 (beats_of d))) p) (translate_duration e p).
Definition forward_handler (e : elem) (p : xpart) : res xpart :=
  rmap (fun d => set_beats (nadd (p_beats p) (nadd n0 (beats_of d))) p) (translate_duration e p).

(** handlers.go:482-502, keyHandler. *)
Definition key_handler (e : elem) (p : xpart) : res xpart :=
  if has_child "key-step" e || has_child "key-alter" e || has_child "key-accidental" e then ROk p
  else rbind (child_text "fifths" e) (fun s => append_part_attr (PKey (ks_from_circle (parse_int 8 s))) p).

(** handlers.go:504-514, dynamicsHandler. *)
Definition dynamics_handler (e : elem) (p : xpart) : res xpart :=
  rfold (fun p m => if existsb (String.eqb (tag m)) (map fst dynamic_volumes)
                    then append_all [UPrim (Attr (PDynamic (tag m)))] p else ROk p) (children e) p.

(** handlers.go:516-521, divisionsHandler. *)
Definition divisions_handler (e : elem) (p : xpart) : res xpart := ROk (set_div (parse_int 8 (text e)) p).

(** handlers.go:523-533, transposeHandler. *)
Definition transpose_handler (e : elem) (p : xpart) : res xpart :=
  rbind (child_text "chromatic" e) (fun s => append_part_attr (PTransp (parse_int 8 s)) p).

(** strings.ToLower and NewNoteLetter (pitch.go:58-77) on the first character.
    Go goes on with the letter -1 for other characters; the model stops. *)
Definition step_letter (s : string) : res letter :=
  match s with
  | EmptyString => RPanic "index out of range"
  | String c _ =>
      match nat_of_ascii c with
      | 65%nat | 97%nat => ROk LA | 66%nat | 98%nat => ROk LB | 67%nat | 99%nat => ROk LC
      | 68%nat | 100%nat => ROk LD | 69%nat | 101%nat => ROk LE | 70%nat | 102%nat => ROk LF
      | 71%nat | 103%nat => ROk LG
      | _ => RErr "invalid note letter"
      end
  end.

(** handlers.go:617-635: the accidentals of a note; a nil slice is [None]. *)
Definition note_accidentals (e pitch_ : elem) : option (list accidental) :=
  let natural := match find_child "accidental" e with Some a => String.eqb (text a) "natural" | None => false end in
  if natural then Some [Natural]
  else match find_child "alter" pitch_ with
       | None => None
       | Some a => let n := parse_int 8 (text a) in
                   match Z.to_nat (Z.abs n) with
                   | O => None
                   | k => Some (repeat (if n >? 0 then Sharp else Flat) k)
                   end
       end.

(** handlers.go:637-664: the octave changes before a note. *)
Definition octave_updates (v : voice) (oct : Z) : list update :=
  if oct =? v_oct v then []
  else match v_ups v with
       | [] => [UPrim (Attr (POctave oct))]
       | _ => octave_moves (v_oct v) oct
       end.

(** handlers.go:559-724, translateNote: the updates (none for cue and grace
    notes), the octave and the change of the slur count. *)
Definition translate_note (e : elem) (p : xpart) : res (list update * Z * Z) :=
  let ty := match find_child "type" e with Some t => attr_value "type" "full" t | None => "full" end in
  if has_child "cue" e || String.eqb ty "cue" then
    if has_child "cue" e then ROk ([], 0, 0) else nil_panic
  else if has_child "grace" e || String.eqb ty "grace" then
    if has_child "grace" e then ROk ([], 0, 0) else nil_panic
  else
    rbind (translate_duration e p) (fun d =>
    let slur_types := flat_map (fun n => map (attr_value "type" "none") (find_children "slur" n)) (find_children "notations" e) in
    let change := fold_left (fun z t => if String.eqb t "start" then z + 1 else if String.eqb t "stop" then z - 1 else z) slur_types 0 in
    rbind (cur_voice p) (fun v =>
    let slurred := v_slurs v + change >? 0 in
    match find_child "pitch" e with
    | Some pe =>
        rbind (rbind (child_text "step" pe) step_letter) (fun l =>
        rbind (child_text "octave" pe) (fun os =>
        let oct := parse_int 8 os in
        ROk (octave_updates v oct ++ [UPrim (Note (PLetter l (note_accidentals e pe)) d slurred)], oct, change)))
    | None =>
        if has_child "rest" e then ROk ([UPrim (Rest d)], v_oct v, 0)
        else match find_child "instrument" e with
             | None => nil_panic
             | Some i =>
                 ROk (match aget String.eqb (attr_value "id" "" i) (p_unpitched p) with
                      | Some n => [UPrim (Note (PMidi n) d slurred)]
                      | None => [UPrim (Rest d)]
                      end, v_oct v, change)
             end
    end)).

(** handlers.go:753-803: the note that a tie leads back to. *)
Definition octave_undone (u : update) (oct : Z) : Z :=
  match u with
  | UPrim (Attr POctUp) => oct - 1
  | UPrim (Attr POctDown) => oct + 1
  | _ => oct
  end.
Definition tie_matches (pi : pitch) (oct : Z) (u : update) (st : Z) : bool :=
  match u with
  | UPrim (Note (PLetter l _) _ _) =>
      match pi with PLetter l' _ => (st =? oct) && letter_eqb l l' | PMidi _ => false end
  | UPrim (Note (PMidi n) _ _) => match pi with PMidi n' => n =? n' | PLetter _ _ => false end
  | _ => false
  end.

(** nested_index.go:27-34, lastDiff; an empty index panics. *)
Definition last_diff (a b : list nat) : res Z :=
  match Nat.min (List.length a) (List.length b) with
  | O => RPanic "index out of range"
  | S k => ROk (Z.of_nat (nth k a 0%nat) - Z.of_nat (nth k b 0%nat))
  end.

(** handlers.go:734-737, updateImporterState. *)
Definition commit_note (oct change : Z) (p : xpart) : res xpart :=
  rbind (cur_voice p) (fun v =>
  ROk (set_voice (Voice (v_ups v) (v_beats v) oct (v_slurs v + change) (v_sec v) (v_end v)) p)).

(** handlers.go:753-856: a note that ends a tie.  Indices lack the leading 0 of
    the base event sequence; it is put back where it matters. *)
Definition tie_note (is_chord : bool) (pi : pitch) (d : duration) (oct : Z) (p : xpart) : res xpart :=
  rbind (cur_voice p) (fun v =>
  match find_in_st (tie_matches pi oct) octave_undone (USeq (v_ups v)) (v_oct v) with
  | inr _ => ROk p
  | inl (start, ni) =>
      (* valid() goes through modifyAt, which counts the beats again *)
      rbind (recount p) (fun p =>
      match find_in with_duration (USeq (v_ups v)) with
      | None => RPanic "index out of range"
      | Some (_, li) =>
          rbind (last_diff (0%nat :: li) (0%nat :: ni)) (fun diff =>
          rbind
            (if diff <=? 0 then ROk true
             else if negb is_chord then ROk false
             else
               let k := last (0%nat :: li) 0%nat in
               if (List.length (v_ups v) <? k)%nat then RPanic "slice bounds out of range"
               else rmap (fun z => z <=? 0)
                      match find_last with_duration (firstn k (v_ups v)) 0 with
                      | None => last_diff [] (0%nat :: ni)
                      | Some (_, lli) => last_diff (0%nat :: lli) (0%nat :: ni)
                      end)
            (fun adjacent =>
            if adjacent then
              modify_at (fun u => match u with
                                  | UPrim (Note pi' d' sl') => UPrim (Note pi' (Some (dcomps d' ++ dcomps d)) sl')
                                  | _ => u
                                  end) ni p
            else ROk p))
      end)
  end).

(** handlers.go:857-891: a further note of a chord. *)
Definition chord_note (us : list update) (oct change : Z) (p : xpart) : res xpart :=
  rbind (cur_voice p) (fun v =>
  match find_in with_duration (USeq (v_ups v)) with
  | None => ROk p
  | Some (UChord es, ni) =>
      rbind (recount p) (fun p =>
      rbind (commit_note oct change p) (fun p1 => modify_at (fun _ => UChord (es ++ us)) ni p1))
  | Some (_, ni) =>
      rbind (recount p) (fun p =>
      rbind (import_list p) (fun all =>
      let k := last (0%nat :: ni) 0%nat in
      if (List.length all <? k)%nat then RPanic "slice bounds out of range"
      else rbind (commit_note oct change p) (fun p1 =>
           set_all (firstn k all ++ [UChord (skipn k all ++ us)]) p1)))
  end).

(** handlers.go:726-895, noteHandler. *)
Definition note_handler (e : elem) (p : xpart) : res xpart :=
  rbind (translate_note e p) (fun '(us, oct, change) =>
  match rev us with
  | [] => ROk p
  | u :: _ =>
      let is_chord := has_child "chord" e in
      let stop := existsb (fun t => String.eqb (attr_value "type" "" t) "stop") (find_children "tie" e) in
      match u, stop with
      | UPrim (Note pi d _), true => tie_note is_chord pi d oct p
      | _, _ => if is_chord then chord_note us oct change p
                else rbind (commit_note oct change p) (append_all us)
      end
  end).

(** importer.go:156-164, musicXMLImporter; parts are pointers.  [i_clock] counts
    the walks over maps. *)
Record importer := Imp {
  i_parts : list (string * nat)  (* parts *);
  i_heap : list xpart;
  i_cur : option nat  (* currentPart *);
  i_clock : nat }.

(** importer.go:166-170, newMusicXMLImporter. *)
Definition new_importer : importer := Imp [] [] None 0.

Definition pget (i : nat) (im : importer) : xpart := nth i (i_heap im) new_part.
Definition pset (i : nat) (p : xpart) (im : importer) : importer :=
  Imp (i_parts im) (upd_nth i p (i_heap im)) (i_cur im) (i_clock im).
Definition tick (im : importer) : importer := Imp (i_parts im) (i_heap im) (i_cur im) (S (i_clock im)).

(** Work on the current part; a nil pointer panics. *)
Definition on_part (f : xpart -> res xpart) (im : importer) : res importer :=
  match i_cur im with
  | None => nil_panic
  | Some i => rmap (fun p => pset i p im) (f (pget i im))
  end.

(** util.go:261-265, percussionPartNameToAlias. *)
Fixpoint underscored (s : string) : string :=
  match s with
  | EmptyString => EmptyString
  | String c t => String (if Ascii.eqb c " " then "_"%char else c) (underscored t)
  end.

(** handlers.go:102-152: the instruments, the alias and the percussion keys of a
    part. *)
Definition read_score_part (e : elem) : res xpart :=
  let instruments := find_children "midi-instrument" e in
  match instruments with
  | [] => ROk (set_names ["piano"] new_part)
  | _ =>
      if existsb (has_child "midi-unpitched") instruments then
        rbind (child_text "part-name" e) (fun name =>
        rmap (fun keys => set_unpitched keys (set_alias (underscored name) (set_names ["midi-percussion"] new_part)))
          (rfold (fun m i => rmap (fun s => aset String.eqb (attr_value "id" "" i) (parse_int 8 s - 1) m)
                                  (child_text "midi-unpitched" i)) instruments []))
      else
        rmap (fun names => set_names names new_part)
          (rmapl (fun i => rbind (child_text "midi-program" i) (fun s =>
                  let n := parse_int 8 s - 1 in
                  if n <? 0 then RPanic "index out of range"
                  else match nth_error instruments_list (Z.to_nat n) with
                       | Some x => ROk x
                       | None => RPanic "index out of range"
                       end)) instruments)
  end.

(** handlers.go:160-166, addIdToAlias. *)
Definition add_id (alias id : string) : string :=
  if String.eqb alias "" then id else String.append alias (String.append "_" id).

(** handlers.go:154-170: make the part's name unique.  [i] is the new part. *)
Definition same_name (a b : xpart) : bool :=
  (if list_eq_dec string_dec (p_names a) (p_names b) then true else false) && String.eqb (p_alias a) (p_alias b).
Definition rename_one (id : string) (i : nat) (im : importer) (k : string) : importer :=
  match aget String.eqb k (i_parts im) with
  | None => im
  | Some j =>
      if negb (String.eqb k id) && same_name (pget j im) (pget i im) then
        let im1 := pset j (set_alias (add_id (p_alias (pget j im)) k) (pget j im)) im in
        pset i (set_alias (add_id (p_alias (pget i im1)) id) (pget i im1)) im1
      else im
  end.

(** handlers.go:102-171, scorePartHandler. *)
Definition score_part_handler (e : elem) (im : importer) : res importer :=
  match aget String.eqb "id" (attrs e) with
  | None => nil_panic
  | Some id =>
      rmap (fun p =>
        let i := List.length (i_heap im) in
        let im1 := Imp (aset String.eqb id i (i_parts im)) (i_heap im ++ [p]) (i_cur im) (i_clock im) in
        tick (fold_left (rename_one id i) (part_order (i_clock im1) (map fst (i_parts im1))) im1))
        (read_score_part e)
  end.

(** handlers.go:234-248, recursivelyCreateVoices: the voice numbers found. *)
Fixpoint voice_numbers (e : elem) : list Z :=
  let '(Elem t _ x cs) := e in
  (if String.eqb t "voice" then [parse_int 32 x] else [])
  ++ (fix go (l : list elem) : list Z := match l with [] => [] | c :: r => voice_numbers c ++ go r end) cs.

(** handlers.go:228-251: the beginning of partHandler. *)
Definition part_start (e : elem) (im : importer) : res importer :=
  match aget String.eqb "id" (attrs e) with
  | None => nil_panic
  | Some id =>
      let cur := aget String.eqb id (i_parts im) in
      on_part (fun p =>
        let p1 := fold_left (fun q n => put_voice n 4 q) (voice_numbers e) p in
        ROk (set_cur (aget Z.eqb 1 (p_voices p1)) p1))
        (Imp (i_parts im) (i_heap im) cur (i_clock im))
  end.

(** handlers.go:253-266: what is done after a measure; [bar] unless it is the
    last one.  The voices are walked in some order. *)
Definition after_measure (bar : bool) (im : importer) : res importer :=
  rmap tick (on_part (fun p =>
    rfold (fun p n => match aget Z.eqb n (p_voices p) with
                      | None => ROk p
                      | Some i => rbind (pad_to_present (set_cur (Some i) p)) (fun p1 =>
                                  if bar then add_barline p1 else ROk p1)
                      end) (voice_order (i_clock im) (map fst (p_voices p))) p) im).

(** handlers.go:291-304: switching voices before an element of a measure. *)
Definition switch_voice (c : elem) (im : importer) : res importer :=
  match find_child "voice" c with
  | None => ROk im
  | Some x => on_part (fun p => pad_to_present (set_cur (aget Z.eqb (parse_int 8 (text x)) (p_voices p)) p)) im
  end.

(** handlers.go:54-61 and 94-100: handle and recurseHandler, with partHandler
    (228-267) and measureHandler (291-304). *)
Fixpoint handle (e : elem) (im : importer) {struct e} : res importer :=
  let '(Elem t _ _ cs) := e in
  if String.eqb t "score-part" then score_part_handler e im
  else if String.eqb t "part" then
    rbind (part_start e im)
      ((fix go (l : list elem) (im : importer) : res importer :=
          match l with
          | [] => ROk im
          | c :: r => rbind (handle c im) (fun im1 =>
                      rbind (after_measure (match r with [] => false | _ => true end) im1) (go r))
          end) cs)
  else if String.eqb t "measure" then
    (fix go (l : list elem) (im : importer) : res importer :=
       match l with
       | [] => ROk im
       | c :: r => rbind (switch_voice c im) (fun im1 => rbind (handle c im1) (go r))
       end) cs im
  else if String.eqb t "barline" then on_part (barline_handler e) im
  else if String.eqb t "key" then on_part (key_handler e) im
  else if String.eqb t "dynamics" then on_part (dynamics_handler e) im
  else if String.eqb t "divisions" then on_part (divisions_handler e) im
  else if String.eqb t "transpose" then on_part (transpose_handler e) im
  else if String.eqb t "note" then on_part (note_handler e) im
  else if String.eqb t "forward" then on_part (forward_handler e) im
  else if String.eqb t "backup" then on_part (backup_handler e) im
  else (fix go (l : list elem) (im : importer) : res importer :=
          match l with
          | [] => ROk im
          | c :: r => rbind (handle c im) (go r)
          end) cs im.

(** sort.Strings. *)
Definition id_before (a b : string * nat) : bool :=
  match String.compare (fst a) (fst b) with Gt => false | _ => true end.

(** importer.go:93-102 and 172-189: the parts in order of their IDs, each with
    what is handed to the optimizer; the last voices are flushed. *)
Definition finished_parts (im : importer) : res (list xml_part) :=
  rmapl (fun '(_, i) => rmap (fun p => XPart (p_names p) (p_alias p) (p_steps p)) (collapse false (pget i im)))
        (sort_by id_before (i_parts im)).

(** importer.go:408-452, ImportMusicXML, from the document's root elements on. *)
Definition import_parts (doc : list elem) : res (list xml_part) :=
  match find (fun e => String.eqb (tag e) "score-partwise") doc with
  | None => RErr "could not find score-partwise root tag"
  | Some e => rbind (handle e new_importer) finished_parts
  end.
Definition import_music_xml (feq : num -> num -> bool) (doc : list elem) : res (list update) :=
  rmap (import_updates (optimize_list feq)) (import_parts doc).
End MusicXml.
