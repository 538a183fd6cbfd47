(** Model of the score-building code: client/model/{score,part,attributes,note,
    chord,cram,repeat,repetitions,event_sequence,marker,variable,voice,midi}.go.

    A Go method that mutates the score and may fail is a function
    [score -> score * outcome]; on failure the state reached so far is kept,
    as in Go.  Pointers are heap indices. *)
From Coq Require Import ZArith List String Bool Ascii.
From Verif Require Import Base Num ModelPitch ModelDuration ModelInstruments ModelTypes ModelLisp.
Import ListNotations.
Local Open Scope Z_scope.

Section Score.
Context {N : Num}.

Definition seqo (r : score * outcome) (k : score -> score * outcome) : score * outcome :=
  match r with
  | (s, Ok) => k s
  | (s, o) => (s, o)
  end.

(** Run [f] for every element of a list, stopping at the first failure. *)
Fixpoint each {A} (f : A -> score -> score * outcome) (l : list A) (s : score)
  : score * outcome :=
  match l with
  | [] => (s, Ok)
  | x :: t => seqo (f x s) (each f t)
  end.

(* ------------------------- attributes.go ------------------------- *)

(** part.go:96-98, RecordTempoValue. *)
Definition record_tempo (p : part) : part :=
  set_ptvals (aset neqb (pcur p) (ptempo p) (ptvals p)) p.

(** The updatePart methods, attributes.go:240-542.  [g] is globalUpdate. *)
Definition update_part (u : part_update) (g : bool) (p : part) : res part :=
  match u with
  | PTempo t => let p' := set_ptempo t p in ROk (if g then p' else record_tempo p')
  | PMetric r => let p' := set_ptempo (nmul (ptempo p) r) p in
                 ROk (if g then p' else record_tempo p')
  | POctave n => ROk (set_poctave n p)
  | POctUp => ROk (set_poctave (wrap32 (poctave p + 1)) p)
  | POctDown => ROk (set_poctave (wrap32 (poctave p - 1)) p)
  | PVolume v => ROk (set_pvol v p)
  | PTrackVol v => ROk (set_ptvol v p)
  | PDynamic m => ROk (set_pvol (dynamic_volume m) p)
  | PPan v => ROk (set_ppan v p)
  | PQuant v => ROk (set_pquant v p)
  | PDurSet d => ROk (set_pdur d p)
  | PKey k => ROk (set_pkey k p)
  | PTransp n => ROk (set_ptransp n p)
  | PRefPitch f => ROk (set_prefpitch f p)
  | PChannel c =>
      if (c =? 9) && negb (iperc (pstock p))
      then RErr "channel 9 can only be used for percussion"
      else ROk (set_pexplicit true (set_pchan c p))
  end.

(** Apply a part update to one part of the score. *)
Definition do_update_part (u : part_update) (g : bool) (p : pid) (s : score) : score * outcome :=
  match update_part u g (getp s p) with
  | ROk v => (setp p v s, Ok)
  | RErr m => (s, Err m)
  | RPanic m => (s, Panic m)
  end.

(** attributes.go:33-46, AttributeUpdate.UpdateScore. *)
Definition run_attr (u : part_update) (s : score) : score * outcome :=
  each (fun p s => seqo (do_update_part u false p s)
                        (fun s => (modp p (set_povr (Some u)) s, Ok)))
       (current s) s.

(** sort.Float64s after appending one offset: NaN sorts first. *)
Fixpoint insert_offset (x : num) (l : list num) : list num :=
  match l with
  | [] => [x]
  | y :: t => if (nltb x y || (nisnan x && negb (nisnan y)))%bool
              then x :: l else y :: insert_offset x t
  end.

(** attributes.go:96-113, Record. *)
Definition ga_record (off : num) (u : part_update) (g : global_attrs) : global_attrs :=
  match aget neqb off (ga_itin g) with
  | Some us => GA (aset neqb off (us ++ [u]) (ga_itin g)) (ga_offs g)
  | None => GA (ga_itin g ++ [(off, [u])]) (insert_offset off (ga_offs g))
  end.

(** The updates recorded at an offset (Go map read: missing = nil). *)
Definition ga_at (g : global_attrs) (off : num) : list part_update :=
  match aget neqb off (ga_itin g) with Some us => us | None => [] end.

(** attributes.go:117-133, InWindow: offsets in (start, end]. *)
Fixpoint in_window_offs (g : global_attrs) (st en : num) (offs : list num) : list part_update :=
  match offs with
  | [] => []
  | o :: t =>
      if nltb en o then []
      else (if nltb st o then ga_at g o else []) ++ in_window_offs g st en t
  end.
Definition in_window (g : global_attrs) (st en : num) : list part_update :=
  in_window_offs g st en (ga_offs g).

(** attributes.go:145: does the part's local override have the dynamic type of
    this update? *)
Definition overrides (ov : option part_update) (u : part_update) : bool :=
  match ov with Some v => kind_eqb (kind_of v) (kind_of u) | None => false end.

(** attributes.go:140-168, ApplyGlobalAttributes, for one part. *)
Definition apply_globals_to (p : pid) (s : score) : score * outcome :=
  seqo (each (fun u s => if overrides (povr (getp s p)) u then (s, Ok)
                         else do_update_part u true p s)
             (in_window (globals s) (plast (getp s p)) (pcur (getp s p))) s)
       (fun s => (modp p (set_povr None) s, Ok)).

Definition apply_globals (s : score) : score * outcome := each apply_globals_to (current s) s.

(** marker.go:41-49 and attributes.go:195-210: the common offset of the current
    parts, if they agree ([!=] on floats, so NaN never agrees). *)
Definition same_offset (s : score) (off : num) (ps : list pid) : bool :=
  forallb (fun p => neqb (pcur (getp s p)) off) ps.

(** attributes.go:192-215, GlobalAttributeUpdate.UpdateScore. *)
Definition run_gattr (u : part_update) (s : score) : score * outcome :=
  match current s with
  | [] => (set_globals (ga_record n0 u (globals s)) s, Ok)
  | p :: rest =>
      let off := pcur (getp s p) in
      if same_offset s off rest
      then (set_globals (ga_record off u (globals s)) s, Ok)
      else (s, Err "can't set global attribute")
  end.

(* --------------------------- midi.go --------------------------- *)

Definition chan_ok (c : Z) : bool := (0 <=? c) && (c <? 16).
Definition usage_at (s : score) (c : Z) : list pid := nth (Z.to_nat c) (usage s) [].

(** midi.go:12-16. *)
Definition channel_unused (s : score) (c : Z) : bool :=
  match usage_at s c with [] => true | _ => false end.

(** midi.go:18-22. *)
Definition exclusive (s : score) (origin : pid) (c : Z) : bool :=
  match usage_at s c with [q] => Nat.eqb q origin | _ => false end.

(** The 16 channels in order. *)
Definition all_channels : list Z := [0;1;2;3;4;5;6;7;8;9;10;11;12;13;14;15].

(** midi.go:24-38, simpleCheck. *)
Definition simple_check (s : score) (origin : pid) : option Z :=
  find (fun c => negb (c =? 9) && (channel_unused s c || exclusive s origin c)) all_channels.

(** midi.go:40-48, overlaps. *)
Definition overlaps (s1 d1 s2 d2 : num) : bool :=
  nltb s2 (nadd s1 d1) && nltb s1 (nadd s2 d2).

(** midi.go:51-76: the set of unavailable channels, as a predicate. *)
Definition unavailable (s : score) (origin : pid) (off dur : num) (c : Z) : bool :=
  existsb (fun e => negb (Nat.eqb (ev_part e) origin) && (ev_chan e =? c)
                    && overlaps (ev_off e) (ev_aud e) off dur) (events s).

(** midi.go:50-98, complexCheck; [None] = (false, -1).  [ev_part] is an origin
    part, whose own origin is itself. *)
Definition complex_check (s : score) (p : part) (dur : num) : option Z :=
  let un := unavailable s (porigin p) (pcur p) dur in
  if negb (pchan p =? -1) && negb (un (pchan p)) then Some (pchan p)
  else find (fun c => negb (c =? 9) && negb (un c)) all_channels.

(** midi.go:100-120, availableMidiChannel. *)
Definition available_channel (s : score) (p : part) (dur : num) : res Z :=
  match simple_check s (porigin p) with
  | Some c => ROk c
  | None => match complex_check s p dur with
            | Some c => ROk c
            | None => RErr "no MIDI channel available"
            end
  end.

(** midi.go:122-163, determineMidiChannel.  Indexing midiChannelUsage outside
    0..15 panics. *)
Definition determine_channel (s : score) (p : part) (dur : num) : res Z :=
  if iperc (pstock p) then ROk 9
  else if pexplicit p then
    if negb (chan_ok (pchan p)) then RPanic "index out of range"
    else if channel_unused s (pchan p) || exclusive s (porigin p) (pchan p)
    then ROk (pchan p)
    else match complex_check s p dur with
         | Some c => if c =? pchan p then ROk (pchan p)
                     else RErr "specified MIDI channel not available"
         | None => if pchan p =? -1 then ROk (pchan p)
                   else RErr "specified MIDI channel not available"
         end
  else if negb (pchan p =? -1) then
    if negb (chan_ok (pchan p)) then RPanic "index out of range"
    else if exclusive s (porigin p) (pchan p) then ROk (pchan p)
    else available_channel s p dur
  else available_channel s p dur.

(** midi.go:165-187, assignMidiChannel: the channel and the new usage table. *)
Definition assign_channel (s : score) (p : part) (dur : num) : res (Z * score) :=
  rbind (determine_channel s p dur) (fun c =>
  if negb (chan_ok c) then RPanic "index out of range"
  else let ps := usage_at s c in
       if existsb (Nat.eqb (porigin p)) ps then ROk (c, s)
       else ROk (c, set_usage (upd_nth (Z.to_nat c) (ps ++ [porigin p]) (usage s)) s)).

(* --------------------------- note.go --------------------------- *)

(** note.go:74-81, effectiveDuration. *)
Definition effective_dur (d : duration) (p : part) : duration :=
  match d with None => pdur p | Some _ => d end.

(** note.go:85-89, updateDefaultDuration. *)
Definition update_default_dur (d : duration) (p : part) : part :=
  match d with None => p | Some _ => set_pdur d p end.

(** What addNoteOrRest distinguishes: a note (pitch, slurred) or a rest. *)
Definition note_or_rest := option (pitch * bool).

(** note.go:119-171: emitting the event of a note for one part. *)
Definition emit_note (pi : pitch) (slurred : bool) (dms : num) (pd : pid) (s : score)
  : score * outcome :=
  let p := getp s pd in
  let aud := if slurred then dms else nmul dms (pquant p) in
  if nltb n0 aud then
    let n := calc_midi_note pi (poctave p) (pkey p) (ptransp p) in
    if (n <? 0) || (n >? 127) then (s, Err "MIDI note out of the 0-127 range")
    else
      match assign_channel s p aud with
      | RErr m => (s, Err m)
      | RPanic m => (s, Panic m)
      | ROk (c, s1) =>
          let s2 := modp (porigin p) (set_pchan c) (modp pd (set_pchan c) s1) in
          let ev := NoteEvent (porigin p) c n (pcur p) dms aud (pvol p) (ptvol p) (ppan p) in
          (set_events (events s2 ++ [ev]) s2, Ok)
      end
  else (s, Ok).

(** note.go:173-178: advancing a part past the note or rest. *)
Definition advance_part (chord : bool) (dms : num) (d : duration) (p : part) : part :=
  let p1 := if chord then p
            else set_pcur (nadd (pcur p) dms) (set_plast (pcur p) p) in
  update_default_dur d p1.

(** note.go:115-179: the loop body of addNoteOrRest for one part. *)
Definition note_one (nr : note_or_rest) (d : duration) (pd : pid) (s : score) : score * outcome :=
  let p := getp s pd in
  let ed := effective_dur d p in
  let dms := nmul (dur_ms_of (ptempo p) ed) (pscale p) in
  seqo (match nr with
        | Some (pi, slurred) => emit_note pi slurred dms pd s
        | None => (s, Ok)
        end)
       (fun s => (modp pd (advance_part (chordmode s) dms ed) s, Ok)).

(** note.go:91-182, addNoteOrRest. *)
Definition add_note_or_rest (nr : note_or_rest) (d : duration) (s : score) : score * outcome :=
  seqo (if chordmode s then (s, Ok) else apply_globals s)
       (fun s => if dur_valid d then each (note_one nr d) (current s) s
                 else (s, Err "invalid duration")).

(** UpdateScore of the primitive updates. *)
Definition run_prim (p : prim) (s : score) : score * outcome :=
  match p with
  | Note pi d sl => add_note_or_rest (Some (pi, sl)) d s
  | Rest d => add_note_or_rest None d s
  | Attr u => run_attr u s
  | GAttr u => run_gattr u s
  end.

(* --------------------------- voice.go --------------------------- *)

(** part.go:135-152, Clone: allocate a copy.  The copy keeps every exported
    field and currentRepetition, origin, voiceTemplate, voices; it loses
    localAttributeOverride (an unexported field that is not copied by hand). *)
Definition clone (p : pid) (s : score) : pid * score :=
  (List.length (heap s), set_heap (heap s ++ [set_povr None (getp s p)]) s).

Definition has_voices (s : score) (p : pid) : bool :=
  match getv s (pvoices (getp s p)) with [] => false | _ => true end.

(** voice.go:33-54, NewVoice. *)
Definition new_voice (p : pid) (n : Z) (s : score) : res (pid * score) :=
  rbind
    (if has_voices s p then ROk s
     else match ptmpl (getp s p) with
          | Some _ => RPanic "part has no voices, but part.voiceTemplate is set"
          | None =>
              let (t, s1) := clone p s in
              ROk (modp p (set_ptmpl (Some t)) (modp t (set_ptmpl (Some t)) s1))
          end)
    (fun s1 =>
       match ptmpl (getp s1 p) with
       | None => RPanic "nil pointer dereference"
       | Some t =>
           let (v, s2) := clone t s1 in
           let cell := pvoices (getp s2 p) in
           ROk (v, setv cell (getv s2 cell ++ [(n, v)]) s2)
       end).

(** voice.go:57-63, GetVoice. *)
Definition get_voice (p : pid) (n : Z) (s : score) : res (pid * score) :=
  match aget Z.eqb n (getv s (pvoices (getp s p))) with
  | Some v => ROk (v, s)
  | None => new_voice p n s
  end.

(** Replace every part of a list that has the given origin. *)
Definition redirect (s : score) (origin v : pid) (l : list pid) : list pid :=
  map (fun q => if Nat.eqb (porigin (getp s q)) origin then v else q) l.

(** voice.go:91-107, VoiceMarker.UpdateScore.  The range loop reads the current
    parts live, by index. *)
Fixpoint voice_loop (n : Z) (i cnt : nat) (s : score) : score * outcome :=
  match cnt with
  | O => (s, Ok)
  | S k =>
      match nth_error (current s) i with
      | None => (s, Ok)
      | Some p =>
          match get_voice p n s with
          | RErr m => (s, Err m)
          | RPanic m => (s, Panic m)
          | ROk (v, s1) =>
              voice_loop n (S i) k
                (set_current (redirect s1 (porigin (getp s1 p)) v (current s1)) s1)
          end
      end
  end.
Definition run_voice (n : Z) (s : score) : score * outcome :=
  voice_loop n 0 (List.length (current s)) s.

(** voice.go:148-161: the last voice to finish: the last inserted one, unless
    an earlier one ends strictly later. *)
Definition last_to_finish (s : score) (vs : list (Z * pid)) (dflt : pid) : pid :=
  fold_left (fun best v => if nltb (pcur (getp s best)) (pcur (getp s (snd v))) then snd v else best)
            (removelast vs) (snd (last vs (0, dflt))).

(** voice.go:142-184, the loop body of VoiceGroupEndMarker.UpdateScore for one
    current part. *)
Definition voice_end_one (i : nat) (p : pid) (s : score) : score :=
  match getv s (pvoices (getp s p)) with
  | [] => s
  | vs =>
      let lv := last_to_finish s vs p in
      let cell := List.length (vheap s) in
      let s1 := set_vheap (vheap s ++ [[]]) s in
      let s2 := modp lv (fun q => set_ptmpl None (set_pvoices cell q)) s1 in
      let s3 := set_current (upd_nth i lv (current s2)) s2 in
      let o := porigin (getp s3 p) in
      let s4 := set_parts (redirect s3 o lv (parts s3)) s3 in
      set_aliases (map (fun '(a, ps) => (a, redirect s4 o lv ps)) (aliases s4)) s4
  end.
Fixpoint voice_end_loop (i cnt : nat) (s : score) : score :=
  match cnt with
  | O => s
  | S k => match nth_error (current s) i with
           | None => s
           | Some p => voice_end_loop (S i) k (voice_end_one i p s)
           end
  end.
Definition run_voice_end (s : score) : score :=
  voice_end_loop 0 (List.length (current s)) s.

(* --------------------------- part.go --------------------------- *)

(** part.go:155-189, NewPart: allocate a part with the default attributes. *)
Definition fresh_part (name : string) (i : instrument) (self cell : nat) : part :=
  Part name i false (nofZ 120) ks_empty 0 (nofZ 440) n0 (nofZ (-1)) 4
       (dynamic_volume "mf") (nlit 100 127) (nlit 1 2) (-1) false (nlit 9 10)
       (Some [CLen (nofZ 4) 0]) n1 [] None 0 None self cell.

Definition new_part (name : string) (s : score) : res (pid * score) :=
  match stock_instrument name with
  | None => RErr "unrecognized instrument"
  | Some i =>
      let self := List.length (heap s) in
      let cell := List.length (vheap s) in
      ROk (self, set_heap (heap s ++ [fresh_part name i self cell])
                          (set_vheap (vheap s ++ [[]]) s))
  end.

(** part.go:203-205, NamedParts (missing key = nil). *)
Definition named_parts (s : score) (a : string) : list pid :=
  match aget String.eqb a (aliases s) with Some l => l | None => [] end.

Definition stock_of (name : string) : string :=
  match stock_instrument_name name with Some n => n | None => "N/A"%string end.

Definition is_named (s : score) (p : pid) : bool :=
  existsb (fun '(_, ps) => existsb (Nat.eqb p) ps) (aliases s).

(** part.go:210-234, UnnamedParts. *)
Definition unnamed_parts (s : score) (name : string) : list pid :=
  filter (fun p => negb (is_named s p) &&
                   String.eqb (iname (pstock (getp s p))) (stock_of name)) (parts s).

(** part.go:239-257, AliasedStockInstruments (order is map order; only the
    length is used). *)
Definition aliased_stock (s : score) (name : string) : list pid :=
  flat_map (fun '(_, ps) => match ps with
                            | [p] => if String.eqb (iname (pstock (getp s p))) (stock_of name)
                                     then [p] else []
                            | _ => []
                            end) (aliases s).

(** part.go:261-271, AliasesFor. *)
Definition aliases_for (s : score) (p : pid) : list string :=
  flat_map (fun '(a, ps) => match ps with
                            | [q] => if Nat.eqb q p then [a] else []
                            | _ => []
                            end) (aliases s).

(** part.go:282-284, dotAccess. *)
Definition dot_access (name : string) : bool := existsb (ceq dot) (chars name).

Definition nonempty {A} (l : list A) : bool := match l with [] => false | _ => true end.
Definition is_empty_string (s : string) : bool := String.eqb s "".

(** part.go:356-362: does a name occur twice? *)
Fixpoint has_dup (l : list string) : bool :=
  match l with
  | [] => false
  | x :: t => existsb (String.eqb x) t || has_dup t
  end.

(** Keep the first occurrence of every part (part.go:411-444). *)
Fixpoint dedup (l seen : list pid) : list pid :=
  match l with
  | [] => []
  | x :: t => if existsb (Nat.eqb x) seen then dedup t seen else x :: dedup t (x :: seen)
  end.

(** part.go:367-384: collect the named and the stock parts of a group. *)
Fixpoint group_parts (names : list string) (s : score) : res (list pid * list pid * score) :=
  match names with
  | [] => ROk ([], [], s)
  | n :: t =>
      let named := named_parts s n in
      let unnamed := unnamed_parts s n in
      if nonempty named then
        rmap (fun '(np, sp, s') => (named ++ np, sp, s')) (group_parts t s)
      else if nonempty unnamed then
        rmap (fun '(np, sp, s') => (np, unnamed ++ sp, s')) (group_parts t s)
      else rbind (new_part n s) (fun '(p, s1) =>
           rmap (fun '(np, sp, s') => (np, p :: sp, s')) (group_parts t s1))
  end.

(** part.go:417-427: new parts for every name. *)
Fixpoint new_parts (names : list string) (s : score) : res (list pid * score) :=
  match names with
  | [] => ROk ([], s)
  | n :: t => rbind (new_part n s) (fun '(p, s1) =>
              rmap (fun '(ps, s2) => (p :: ps, s2)) (new_parts t s1))
  end.

(** part.go:286-447, determineParts.  Parts allocated before a later failure
    are garbage in Go; the model drops them too (it returns no new score on
    error). *)
Definition determine_parts (names : list string) (alias : string) (s : score)
  : res (list pid * score) :=
  let hasalias := negb (is_empty_string alias) in
  match names with
  | [name] =>
      let named := named_parts s name in
      let unnamed := unnamed_parts s name in
      if hasalias && nonempty named then RErr "can't assign alias to existing instance"
      else if hasalias && nonempty (named_parts s alias) then RErr "alias already assigned"
      else if (hasalias && nonempty unnamed)
              || (negb hasalias && nonempty (aliased_stock s name) && negb (dot_access name))
      then RErr "ambiguous instrument reference"
      else if hasalias then rmap (fun '(p, s1) => ([p], s1)) (new_part name s)
      else if nonempty named then ROk (named, s)
      else if nonempty unnamed then ROk (unnamed, s)
      else rmap (fun '(p, s1) => ([p], s1)) (new_part name s)
  | _ =>
      if has_dup names then RErr "name included multiple times in group"
      else
        rbind (group_parts names s) (fun '(np, sp, s1) =>
        if nonempty np && nonempty sp then RErr "invalid group"
        else if hasalias && nonempty sp then new_parts names s1
        else ROk (dedup (np ++ sp) [], s1))
  end.

(** part.go:477-488: add to the score the parts that are not in it yet. *)
Definition add_new_parts (ps : list pid) (s : score) : score :=
  fold_left (fun s p => if existsb (Nat.eqb p) (parts s) then s
                        else set_parts (parts s ++ [p]) s) ps s.

(** part.go:192-199, SetAlias. *)
Definition set_alias (a : string) (ps : list pid) (s : score) : score :=
  set_aliases (aset String.eqb a ps (aliases s)) s.

(** part.go:490-505: define the alias and the dotted aliases of its members. *)
Definition define_aliases (alias : string) (ps : list pid) (s : score) : score :=
  let olds := map (fun p => (p, aliases_for s p)) ps in
  let s1 := set_alias alias ps s in
  fold_left
    (fun s '(p, old) =>
       fold_left (fun s a => set_alias (alias ++ "." ++ a) [p] s) old
                 (set_alias (alias ++ "." ++ pname (getp s p)) [p] s))
    olds s1.

(** part.go:459-510, PartDeclaration.UpdateScore. *)
Definition run_part (names : list string) (alias : string) (s : score) : score * outcome :=
  let s0 := run_voice_end s in
  match determine_parts names alias s0 with
  | RErr m => (s0, Err m)
  | RPanic m => (s0, Panic m)
  | ROk (ps, s1) =>
      match parts s1, ps with
      | [], [] => (s1, Panic "index out of range")
      | pl, _ =>
          let s2 := match pl, ps with
                    | [], p0 :: _ => modp p0 (set_pmaster true) s1
                    | _, _ => s1
                    end in
          let s3 := add_new_parts ps s2 in
          let s4 := if is_empty_string alias then s3 else define_aliases alias ps s3 in
          (set_current ps s4, Ok)
      end
  end.

(* --------------------------- marker.go --------------------------- *)

(** marker.go:34-54, Marker.UpdateScore. *)
Definition run_marker (name : string) (s : score) : score * outcome :=
  match current s with
  | [] => (s, Err "can't define marker outside the context of a part")
  | p :: rest =>
      let off := pcur (getp s p) in
      if same_offset s off rest
      then (set_markers (aset String.eqb name off (markers s)) s, Ok)
      else (s, Err "offset of marker unclear")
  end.

(** marker.go:92-108, AtMarker.UpdateScore. *)
Definition run_at_marker (name : string) (s : score) : score * outcome :=
  seqo (apply_globals s) (fun s =>
  match aget String.eqb name (markers s) with
  | None => (s, Err "marker undefined")
  | Some off =>
      each (fun p s => (modp p (fun q => set_pcur off (set_plast (pcur q) q)) s, Ok))
           (current s) s
  end).

(* ---------------- durations inside a cram (DurationMs) ---------------- *)

(** Outcome of DurationMs: the (mutated) part copy and the duration, or a
    panic / endless loop. *)
Definition dres := (part * num * outcome)%type.
Definition dseq (r : dres) (k : part -> num -> dres) : dres :=
  match r with (p, d, Ok) => k p d | _ => r end.

(** note.go:197-201 and 245-249. *)
Definition note_dur (d : duration) (p : part) : dres :=
  (update_default_dur d p, dur_ms_of (ptempo p) (effective_dur d p), Ok).

Definition prim_dur (q : prim) (p : part) : dres :=
  match q with
  | Note _ d _ | Rest d => note_dur d p
  | Attr _ | GAttr _ => (p, n0, Ok)
  end.

(** repetitions.go:50-58, AppliesTo. *)
Definition applies_to (rs : list (Z * Z)) (r : Z) : bool :=
  existsb (fun '(f, l) => (f <=? r) && (r <=? l)) rs.

(** Sum of the durations of a list of events, threading the part copy. *)
Definition dur_sum (f : update -> part -> dres) : list update -> part -> num -> dres :=
  fix go (l : list update) (p : part) (acc : num) : dres :=
    match l with
    | [] => (p, acc, Ok)
    | u :: t => dseq (f u p) (fun p d => go t p (nadd acc d))
    end.

(** repeat.go:49-58: repetitions [r], [r+1], ... ([k] of them). *)
Fixpoint dur_repeat (f : part -> dres) (r : Z) (k : nat) (p : part) (acc : num) : dres :=
  match k with
  | O => (p, acc, Ok)
  | S k' => dseq (f (set_prep r p)) (fun p d => dur_repeat f (r + 1) k' p (nadd acc d))
  end.

(** The DurationMs methods.  [deref] computes the duration of a variable. *)
Fixpoint dur_upd (deref : string -> part -> dres) (u : update) {struct u} : part -> dres :=
  match u with
  | UPrim q => prim_dur q
  | ULisp els => fun p =>
      (* lisp.go:1733-1752: an evaluation error counts as 0 *)
      match eval_update els with
      | ROk (Some q) => prim_dur q p
      | ROk None => (p, n0, Ok)
      | RErr _ => (p, n0, Ok)
      | RPanic m => (p, n0, Panic m)
      end
  | UChord es => fun p =>
      (* chord.go:91-106 *)
      (fix go (l : list update) (p : part) (acc : num) : dres :=
         match l with
         | [] => (p, acc, Ok)
         | e :: t => dseq (dur_upd deref e p)
                          (fun p d => go t p (if nltb n0 d then nmin acc d else acc))
         end) es p nmaxval
  | UCram _ d => fun p => (p, dur_ms_of (ptempo p) (effective_dur d p), Ok)  (* cram.go:138-140 *)
  | URepeat e times => fun p =>
      (* int32 loop counter: with Times = 2^31-1 the test never fails *)
      dseq (dur_repeat (dur_upd deref e) 1 (Z.to_nat times) p n0)
           (fun p d => if times =? max_int32 then (p, d, Hang) else (p, d, Ok))
  | UOnReps rs e => fun p =>
      if applies_to rs (prep p) then dur_upd deref e p else (p, n0, Ok)
  | USeq es => fun p =>
      (fix go (l : list update) (p : part) (acc : num) : dres :=
         match l with
         | [] => (p, acc, Ok)
         | e :: t => dseq (dur_upd deref e p) (fun p d => go t p (nadd acc d))
         end) es p n0
  | UVarRef name => deref name
  | UNil | UBarline | UMarker _ | UAtMarker _ | UVarDef _ _ | UVoice _ | UVoiceEnd | UPart _ _ =>
      fun p => (p, n0, Ok)
  end.

(** variable.go:147-163, with a bound on nested dereferences. *)
Fixpoint dur_deref (fuel : nat) (vars : list (string * list update)) (name : string) (p : part)
  : dres :=
  match aget String.eqb name vars with
  | None => (p, n0, Ok)
  | Some es =>
      match fuel with
      | O => (p, n0, OutOfFuel)
      | S f => dur_sum (dur_upd (dur_deref f vars)) es p n0
      end
  end.

(** cram.go:46-56, innerDurationMs (on a clone of the part). *)
Definition inner_dur (deref : string -> part -> dres) (es : list update) (p : part) : num * outcome :=
  match dur_sum (dur_upd deref) es (set_povr None p) n0 with (_, d, o) => (d, o) end.

(** cram.go:58-79, timeScale. *)
Definition time_scale (deref : string -> part -> dres) (es : list update) (d : duration) (p : part)
  : num * outcome :=
  match inner_dur deref es p with
  | (inner, Ok) =>
      (nmul (ndiv (pscale p) inner) (dur_ms_of (ptempo p) (effective_dur d p)), Ok)
  | (x, o) => (x, o)
  end.

(* ---------------- captured values (VariableValue) ---------------- *)

Definition prim_of (o : option prim) : update :=
  match o with Some q => UPrim q | None => UNil end.

(** The VariableValue methods. *)
Fixpoint var_value (vars : list (string * list update)) (u : update) {struct u} : res update :=
  let vals := (fix go (l : list update) : res (list update) :=
                 match l with
                 | [] => ROk []
                 | e :: t => rbind (var_value vars e) (fun v =>
                             rbind (go t) (fun vs => ROk (v :: vs)))
                 end) in
  match u with
  | ULisp els => rmap prim_of (eval_update els)
  | UChord es => rmap UChord (vals es)
  | UCram es d => rmap (fun vs => UCram vs d) (vals es)
  | URepeat e t => rmap (fun v => URepeat v t) (var_value vars e)
  | UOnReps rs e => rmap (UOnReps rs) (var_value vars e)
  | USeq es => rmap USeq (vals es)
  | UVarDef n es => rmap (UVarDef n) (vals es)
  | UVarRef n => match aget String.eqb n vars with
                 | None => RErr "undefined variable"
                 | Some es => ROk (USeq es)
                 end
  | UPart _ _ => RErr "a part declaration cannot be part of a variable definition"
  | UPrim _ | UNil | UBarline | UMarker _ | UAtMarker _ | UVoice _ | UVoiceEnd => ROk u
  end.

(** variable.go:59-74, VariableDefinition.UpdateScore. *)
Definition run_var_def (name : string) (es : list update) (s : score) : score * outcome :=
  match rmapl (var_value (variables s)) es with
  | ROk vs => (set_variables (aset String.eqb name vs (variables s)) s, Ok)
  | RErr m => (s, Err m)
  | RPanic m => (s, Panic m)
  end.

(* ---------------- compound updates ---------------- *)

(** Read a Go map keyed by *Part, [dflt] being the zero value. *)
Definition pget {A} (dflt : A) (p : pid) (m : list (pid * A)) : A :=
  match aget Nat.eqb p m with Some x => x | None => dflt end.

(** chord.go:58-64: the duration written on a chord event. *)
Definition written_dur (u : update) : duration :=
  match u with
  | UPrim (Note _ d _) | UPrim (Rest d) => d
  | _ => None
  end.

(** chord.go:66-70: lower the recorded shortest durations of the current parts. *)
Definition lower_shortest (d : duration) (s : score) (m : list (pid * num)) : list (pid * num) :=
  fold_left (fun m pd =>
     let p := getp s pd in
     let dms := nmul (dur_ms_of (ptempo p) (effective_dur d p)) (pscale p) in
     aset Nat.eqb pd (nmin (pget n0 pd m) dms) m) (current s) m.

(** chord.go:80-83. *)
Definition chord_finish (m : list (pid * num)) (s : score) : score * outcome :=
  each (fun pd s => (modp pd (fun p => set_pcur (nadd (pcur p) (pget n0 pd m))
                                                (set_plast (pcur p) p)) s, Ok))
       (current s) s.

(** cram.go:104-111. *)
Definition cram_scale (deref : string -> part -> dres) (es : list update) (d : duration)
                      (s : score) : score * outcome :=
  each (fun pd s =>
          match time_scale deref es d (getp s pd) with
          | (ts, Ok) => (modp pd (set_pscale ts) s, Ok)
          | (_, o) => (s, o)
          end) (current s) s.

(** cram.go:119-130. *)
Definition cram_finish (d : duration) (pdurs : list (pid * duration)) (pscales : list (pid * num))
                       (s : score) : score * outcome :=
  each (fun pd s =>
          (modp pd (fun p => set_pscale (pget n0 pd pscales)
                       (set_pdur (match d with Some _ => d | None => pget None pd pdurs end) p)) s,
           Ok)) (current s) s.

(** repeat.go:34-42: repetitions [r], [r+1], ... ([k] of them). *)
Fixpoint run_times (f : score -> score * outcome) (r : Z) (k : nat) (s : score) : score * outcome :=
  match k with
  | O => (s, Ok)
  | S k' =>
      seqo (each (fun p s => (modp p (set_prep r) s, Ok)) (current s) s) (fun s =>
      seqo (f s) (run_times f (r + 1) k'))
  end.

(** repetitions.go:63-73; the range loop reads the current parts live, by
    index (an event inside may replace them by voices). *)
Fixpoint onreps_loop (rs : list (Z * Z)) (f : score -> score * outcome) (i cnt : nat) (s : score)
  : score * outcome :=
  match cnt with
  | O => (s, Ok)
  | S k =>
      match nth_error (current s) i with
      | None => (s, Ok)
      | Some p =>
          seqo (if applies_to rs (prep (getp s p)) then f s else (s, Ok))
               (onreps_loop rs f (S i) k)
      end
  end.

(** The UpdateScore methods.  [deref] runs a variable; [dd] gives the function
    computing its duration. *)
Fixpoint run_upd (deref : string -> score -> score * outcome)
                 (dd : list (string * list update) -> string -> part -> dres)
                 (u : update) {struct u} : score -> score * outcome :=
  let run_list := (fix go (l : list update) (s : score) : score * outcome :=
                     match l with
                     | [] => (s, Ok)
                     | e :: t => seqo (run_upd deref dd e s) (go t)
                     end) in
  match u with
  | UPrim p => run_prim p
  | UNil | UBarline => fun s => (s, Ok)
  | ULisp els => fun s =>
      match eval_update els with
      | ROk (Some q) => run_prim q s
      | ROk None => (s, Ok)
      | RErr m => (s, Err m)
      | RPanic m => (s, Panic m)
      end
  | UChord es => fun s =>
      seqo (apply_globals s) (fun s =>
      let m0 := map (fun p => (p, nmaxval)) (current s) in
      (fix go (l : list update) (m : list (pid * num)) (s : score) : score * outcome :=
         match l with
         | [] => chord_finish m (set_chordmode false s)
         | e :: t =>
             let m' := lower_shortest (written_dur e) s m in
             seqo (run_upd deref dd e s) (go t m')
         end) es m0 (set_chordmode true s))
  | UCram es d => fun s =>
      let pdurs := map (fun p => (p, pdur (getp s p))) (current s) in
      let pscales := map (fun p => (p, pscale (getp s p))) (current s) in
      seqo (cram_scale (dd (variables s)) es d s) (fun s =>
      seqo (run_list es s) (cram_finish d pdurs pscales))
  | URepeat e times => fun s =>
      seqo (run_times (run_upd deref dd e) 1 (Z.to_nat times) s)
           (fun s => if times =? max_int32 then (s, Hang) else (s, Ok))
  | UOnReps rs e => fun s =>
      onreps_loop rs (run_upd deref dd e) 0 (List.length (current s)) s
  | USeq es => run_list es
  | UMarker n => run_marker n
  | UAtMarker n => run_at_marker n
  | UVarDef n es => run_var_def n es
  | UVarRef n => deref n
  | UVoice n => run_voice n
  | UVoiceEnd => fun s => (run_voice_end s, Ok)
  | UPart names alias => run_part names alias
  end.

(** variable.go:124-142 with a bound on nested dereferences. *)
Fixpoint run_deref (fuel : nat) (name : string) (s : score) : score * outcome :=
  match aget String.eqb name (variables s) with
  | None => (s, Err "undefined variable")
  | Some es =>
      match fuel with
      | O => (s, OutOfFuel)
      | S f => each (run_upd (run_deref f) (dur_deref f)) es s
      end
  end.

(** One score update, with budget [fuel] for nested variable references. *)
Definition run (fuel : nat) (u : update) : score -> score * outcome :=
  run_upd (run_deref fuel) (dur_deref fuel) u.

(** score.go:128-136, Score.Update. *)
Definition run_all (fuel : nat) (us : list update) : score -> score * outcome := each (run fuel) us.

(** The program semantics: captured values contain no references (C16), so a
    budget of one level is enough. *)
Definition exec (us : list update) (s : score) : score * outcome := run_all 1 us s.

(* --------------------------- score.go --------------------------- *)

(** score.go:150-158, Tracks: part origin -> track number. *)
Definition tracks (s : score) : list (pid * Z) :=
  fold_left (fun m '(i, p) => aset Nat.eqb (porigin (getp s p)) (wrap32 (Z.of_nat i + 1)) m)
            (combine (seq 0 (List.length (parts s))) (parts s)) [].

(** score.go:161-169, PartOffsets. *)
Definition part_offsets (s : score) : list (pid * num) :=
  fold_left (fun m p => let o := porigin (getp s p) in aset Nat.eqb o (pcur (getp s o)) m)
            (parts s) [].

(** score.go:250-260: fold the global tempo changes into the itinerary. *)
Definition ti_update (off : num) (acc : num * list (num * num)) (u : part_update)
  : num * list (num * num) :=
  let '(lastg, it) := acc in
  match u with
  | PTempo t => (t, aset neqb off t it)
  | PMetric r => (lastg, aset neqb off (nmul lastg r) it)
  | _ => acc
  end.

(** score.go:221-263, TempoItinerary. *)
Definition tempo_itinerary (s : score) : list (num * num) :=
  let it0 := [(n0, nofZ 120)] in
  let it1 := fold_left (fun it p =>
               if pmaster (getp s p)
               then fold_left (fun it '(o, t) => aset neqb o t it) (ptvals (getp s p)) it
               else it) (parts s) it0 in
  snd (fold_left (fun acc off => fold_left (ti_update off) (ga_at (globals s) off) acc)
                 (ga_offs (globals s)) (nofZ 120, it1)).
End Score.
