(** The grammar of Alda scores, as relations between tokens and syntax trees,
    independent of how the parser reads them.

    [event ts n rest] says: the tokens [ts] begin with an event whose tree is [n],
    and [rest] are the tokens after it.  An event extends as far as it can, so
    some rules say what may not follow. *)
From Coq Require Import ZArith List String Bool.
From Verif Require Import Base Num ModelScan ModelParser.
Import ListNotations.
Local Open Scope list_scope.
Local Open Scope Z_scope.

Section Grammar.
Context {N : Num}.
Implicit Types ts r bs : list token.

(** S-expressions.  [form]: one form; [forms]: forms up to and including the
    closing parenthesis. *)
Inductive form : list token -> node -> list token -> Prop :=
| form_symbol t r : tkind t = TSymbol -> form (t :: r) (leaf LispSymbolNode (LitText (ttext t))) r
| form_number t x r : tkind t = TNumber x -> form (t :: r) (leaf LispNumberNode (LitNum x)) r
| form_string t s r : tkind t = TString s -> form (t :: r) (leaf LispStringNode (LitText s)) r
| form_list t ts ns r : tkind t = TLParen -> forms ts ns r -> form (t :: ts) (branch LispListNode ns) r
with forms : list token -> list node -> list token -> Prop :=
| forms_end t r : tkind t = TRParen -> forms (t :: r) [] r
| forms_form ts n r ns r' : form ts n r -> forms r ns r' -> forms ts (n :: ns) r'
| forms_quoted t ts n r ns r' : tkind t = TQuote -> form ts n r -> forms r ns r' ->
    forms (t :: ts) (branch LispQuotedFormNode [n] :: ns) r'.

(** An event read as [n] so far, possibly repeated. *)
Inductive repeated : node -> list token -> node -> list token -> Prop :=
| rep_once n r : (forall k, kind r <> TRepeat k) -> repeated n r n r
| rep_times n t k r : tkind t = TRepeat k -> repeated n (t :: r) (repeat_node n k) r.

(** A further length of a duration: a tie, any barlines, any more ties, a length. *)
Inductive tied_length : list token -> list node -> list token -> Prop :=
| tied t bs us l c r :
    tkind t = TTie -> Forall (fun b => tkind b = TBarline) bs -> Forall (fun u => tkind u = TTie) us ->
    length_node (tkind l) = Some c ->
    tied_length (t :: bs ++ us ++ l :: r) (map (fun _ => barline) bs ++ [c]) r.

(** The parts of a duration after its first length. *)
Inductive duration_rest : list token -> list node -> list token -> Prop :=
| dr_end r : kind r <> TBarline -> (forall ns r', ~ tied_length r ns r') -> duration_rest r [] r
| dr_bar t ts ns r : tkind t = TBarline -> duration_rest ts ns r -> duration_rest (t :: ts) (barline :: ns) r
| dr_tie ts ns r ms r' : tied_length ts ns r -> duration_rest r ms r' -> duration_rest ts (ns ++ ms) r'.

Inductive duration_at : list token -> list node -> list token -> Prop :=
| dur_none r : length_node (kind r) = None -> duration_at r [] r
| dur_some t ts c ns r : length_node (tkind t) = Some c -> duration_rest ts ns r ->
    duration_at (t :: ts) [branch DurationNode (c :: ns)] r.

Inductive accs : list token -> list node -> list token -> Prop :=
| acc_end r : accidental_node (kind r) = None -> accs r [] r
| acc_one t ts a ns r : accidental_node (tkind t) = Some a -> accs ts ns r -> accs (t :: ts) (a :: ns) r.

Inductive note_or_rest_at : list token -> node -> list token -> Prop :=
| nr_note t l ts as_ r1 d r :
    tkind t = TNote l -> accs ts as_ r1 -> duration_at r1 d r -> kind r <> TTie ->
    note_or_rest_at (t :: ts) (note_node l as_ d false) r
| nr_slurred t l ts as_ r1 d u r :
    tkind t = TNote l -> accs ts as_ r1 -> duration_at r1 d (u :: r) -> tkind u = TTie ->
    note_or_rest_at (t :: ts) (note_node l as_ d true) r
| nr_rest t ts d r :
    tkind t = TRest -> duration_at ts d r -> note_or_rest_at (t :: ts) (branch RestNode d) r.

(** Octave changes and S-expressions between the notes of a chord. *)
Inductive between_notes : list token -> list node -> list token -> Prop :=
| bn_end r : kind r <> TOctUp -> kind r <> TOctDown -> (forall n, kind r <> TOctSet n) -> kind r <> TLParen ->
    between_notes r [] r
| bn_up t ts ns r : tkind t = TOctUp -> between_notes ts ns r ->
    between_notes (t :: ts) (branch OctaveUpNode [] :: ns) r
| bn_down t ts ns r : tkind t = TOctDown -> between_notes ts ns r ->
    between_notes (t :: ts) (branch OctaveDownNode [] :: ns) r
| bn_set t n ts ns r : tkind t = TOctSet n -> between_notes ts ns r ->
    between_notes (t :: ts) (leaf OctaveSetNode (LitInt n) :: ns) r
| bn_sexp t ts n r ns r' : tkind t = TLParen -> form (t :: ts) n r -> between_notes r ns r' ->
    between_notes (t :: ts) (n :: ns) r'.

(** What follows is not a continuation of a chord. *)
Definition no_chord r : Prop := exists ns r', between_notes r ns r' /\ kind r' <> TSeparator.

(** Notes and rests joined by '/', with the number of a final repeat (0: none). *)
Inductive notes_at : list token -> list node -> Z -> list token -> Prop :=
| na_one ts n r : note_or_rest_at ts n r -> (forall k, kind r <> TRepeat k) -> no_chord r ->
    notes_at ts [n] 0 r
| na_repeat ts n t k r : note_or_rest_at ts n (t :: r) -> tkind t = TRepeat k -> notes_at ts [n] k r
| na_more ts n r b s r1 a r2 ns k r3 :
    note_or_rest_at ts n r -> between_notes r b (s :: r1) -> tkind s = TSeparator ->
    between_notes r1 a r2 -> notes_at r2 ns k r3 ->
    notes_at ts (n :: b ++ a ++ ns) k r3.

Definition one_or_chord (ns : list node) : node :=
  match ns with [n] => n | _ => branch ChordNode ns end.
Definition maybe_times (n : node) (k : Z) : node := if 0 <? k then repeat_node n k else n.

(** Events, and the lists of events inside them. *)
Inductive event : list token -> node -> list token -> Prop :=
| ev_sexp ts n r n' r' : kind ts = TLParen -> form ts n r -> repeated n r n' r' -> event ts n' r'
| ev_define t e ts es r :
    tkind t = TName -> tkind e = TEquals -> kind ts <> TEOF -> line_of ts <= tline t ->
    on_line (tline t) ts es r ->
    event (t :: e :: ts) (var_def_node (ttext t) es) r
| ev_name t r n' r' :
    tkind t = TName -> kind r <> TEquals ->
    repeated (leaf VariableReferenceNode (LitText (ttext t))) r n' r' -> event (t :: r) n' r'
| ev_octave_set t n r : tkind t = TOctSet n -> event (t :: r) (leaf OctaveSetNode (LitInt n)) r
| ev_octave_up t r : tkind t = TOctUp -> event (t :: r) (branch OctaveUpNode []) r
| ev_octave_down t r : tkind t = TOctDown -> event (t :: r) (branch OctaveDownNode []) r
| ev_notes ts ns k r : notes_at ts ns k r -> event ts (maybe_times (one_or_chord ns) k) r
| ev_barline t r : tkind t = TBarline -> event (t :: r) barline r
| ev_seq t ts es r n' r' : tkind t = TSeqOpen -> seq_body ts es r ->
    repeated (branch EventSequenceNode es) r n' r' -> event (t :: ts) n' r'
| ev_cram t ts es r1 d r n' r' : tkind t = TCramOpen -> cram_body ts es r1 -> es <> [] -> duration_at r1 d r ->
    repeated (cram_node es d) r n' r' -> event (t :: ts) n' r'
| ev_voices t n ts vs r : tkind t = TVoice n -> voices_at n ts vs r ->
    event (t :: ts) (branch VoiceGroupNode vs) r
| ev_marker t s r : tkind t = TMarker s -> event (t :: r) (leaf MarkerNode (LitText s)) r
| ev_at_marker t s r : tkind t = TAtMarker s -> event (t :: r) (leaf AtMarkerNode (LitText s)) r
(* the events starting on a given line *)
with on_line : Z -> list token -> list node -> list token -> Prop :=
| ol_end line r : kind r = TEOF \/ line_of r <> line -> on_line line r [] r
| ol_event line ts n r ns r' : kind ts <> TEOF -> line_of ts = line -> event ts n r -> on_line line r ns r' ->
    on_line line ts (n :: ns) r'
(* events up to and including ']' *)
with seq_body : list token -> list node -> list token -> Prop :=
| sb_end t r : tkind t = TSeqClose -> seq_body (t :: r) [] r
| sb_event ts n r ns r' : event ts n r -> (forall rs, kind r <> TReps rs) -> seq_body r ns r' ->
    seq_body ts (n :: ns) r'
| sb_reps ts n t rs r ns r' : event ts n (t :: r) -> tkind t = TReps rs -> seq_body r ns r' ->
    seq_body ts (on_repetitions n rs :: ns) r'
(* events up to and including '}' *)
with cram_body : list token -> list node -> list token -> Prop :=
| cb_end t r : tkind t = TCramClose -> cram_body (t :: r) [] r
| cb_event ts n r ns r' : event ts n r -> cram_body r ns r' -> cram_body ts (n :: ns) r'
(* the events of a voice *)
with voice_body : list token -> list node -> list token -> Prop :=
| vb_end r : ends_voice r = true -> voice_body r [] r
| vb_event ts n r ns r' : ends_voice ts = false -> event ts n r -> voice_body r ns r' ->
    voice_body ts (n :: ns) r'
(* voice [n] after its marker, and the voices after it *)
with voices_at : Z -> list token -> list node -> list token -> Prop :=
| va_last n ts es r : voice_body ts es r -> (forall m, kind r <> TVoice m) -> voices_at n ts [voice_node n es] r
| va_end n ts es t r : voice_body ts es (t :: r) -> tkind t = TVoice 0 ->
    voices_at n ts [voice_node n es; branch VoiceGroupEndMarkerNode []] r
| va_more n ts es t m r vs r' : voice_body ts es (t :: r) -> tkind t = TVoice m -> m <> 0 ->
    voices_at m r vs r' -> voices_at n ts (voice_node n es :: vs) r'.

(** The events of a part: up to the end or the next part declaration. *)
Inductive part_body : list token -> list node -> list token -> Prop :=
| pb_end r : kind r = TEOF \/ looks_like_part r = true -> part_body r [] r
| pb_event ts n r ns r' : kind ts <> TEOF -> looks_like_part ts = false -> event ts n r -> part_body r ns r' ->
    part_body ts (n :: ns) r'.

(** Part declarations: names joined by '/', an optional alias, a colon. *)
Inductive names_at : list token -> list node -> list token -> Prop :=
| nm_end r : kind r <> TSeparator -> names_at r [] r
| nm_more s t ts ns r : tkind s = TSeparator -> tkind t = TName -> names_at ts ns r ->
    names_at (s :: t :: ts) (name_node t :: ns) r.
Inductive declaration : list token -> node -> list token -> Prop :=
| dc_plain t ts ns c r : tkind t = TName -> names_at ts ns (c :: r) -> tkind c = TColon ->
    declaration (t :: ts) (branch PartDeclarationNode [branch PartNamesNode (name_node t :: ns)]) r
| dc_alias t ts ns a s c r : tkind t = TName -> names_at ts ns (a :: c :: r) -> tkind a = TAlias s -> tkind c = TColon ->
    declaration (t :: ts)
      (branch PartDeclarationNode [branch PartNamesNode (name_node t :: ns); leaf PartAliasNode (LitText s)]) r.

(** A score: parts, the first of which may lack a declaration. *)
Inductive parts_at : list token -> list node -> list token -> Prop :=
| ps_end r : kind r = TEOF -> parts_at r [] r
| ps_part ts d r es r' ns r'' : looks_like_part ts = true -> declaration ts d r -> part_body r es r' ->
    parts_at r' ns r'' ->
    parts_at ts (branch PartNode [d; branch EventSequenceNode es] :: ns) r''
| ps_implicit ts es r ns r' : kind ts <> TEOF -> looks_like_part ts = false -> part_body ts es r ->
    parts_at r ns r' ->
    parts_at ts (branch ImplicitPartNode [branch EventSequenceNode es] :: ns) r'.

(** Somewhere an opening brace is directly followed by a closing one. *)
Definition empty_cram ts : Prop :=
  exists p o c q, ts = p ++ o :: c :: q /\ tkind o = TCramOpen /\ tkind c = TCramClose.

(** The tree of a whole score. *)
Definition score_tree (ts : list token) (ast : node) : Prop :=
  exists ns r, parts_at ts ns r /\ ast = branch RootNode ns.
End Grammar.

Scheme form_ind2 := Minimality for form Sort Prop
with forms_ind2 := Minimality for forms Sort Prop.
Combined Scheme form_forms_ind from form_ind2, forms_ind2.

Scheme event_ind2 := Minimality for event Sort Prop
with on_line_ind2 := Minimality for on_line Sort Prop
with seq_body_ind2 := Minimality for seq_body Sort Prop
with cram_body_ind2 := Minimality for cram_body Sort Prop
with voice_body_ind2 := Minimality for voice_body Sort Prop
with voices_at_ind2 := Minimality for voices_at Sort Prop.
Combined Scheme event_mutind from event_ind2, on_line_ind2, seq_body_ind2, cram_body_ind2, voice_body_ind2, voices_at_ind2.
