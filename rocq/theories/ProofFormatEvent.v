(** Printed events read back. *)
From Coq Require Import String Ascii ZArith List Bool Lia.
From Verif Require Import Base Num ModelScan SpecScan ProofScan ModelParser SpecParser ProofParser ProofParseText
  ModelFormat SpecFormat ProofFormat ProofFormatTok ProofFormatLisp ProofFormatNote.
Import ListNotations.
Local Open Scope list_scope.
Local Open Scope Z_scope.

Section Events.
Context {N : Num}.
Variable fmt : num -> list rune.
Variable cfg : config.
Notation tk := (tk cfg).
Notation prun := (prun cfg).
Notation pstep := (pstep cfg).
Notation total := (total cfg).
Notation steady := (steady cfg).

Definition okay (n : node) : Prop := number_printed fmt n /\ ~ slurred_at_bar n.
Definition fine : node -> Prop := everywhere okay.
Fixpoint node_ind' (P : node -> Prop) (H : forall ty l ch, Forall P ch -> P (Node ty l ch)) (n : node) : P n :=
  match n with
  | Node ty l ch => H ty l ch ((fix go l := match l return Forall P l with [] => Forall_nil _ | c :: t => Forall_cons c (node_ind' P H c) (go t) end) ch)
  end.
Lemma everywhere_impl (P Q : node -> Prop) (I : forall n, P n -> Q n) (n : node) : everywhere P n -> everywhere Q n.
Proof.
  induction n as [ty l ch IH] using node_ind'. rewrite !everywhere_eq. intros [A B]. split; [now apply I|]. cbn [nch] in *.
  rewrite Forall_forall in *. auto.
Qed.
Lemma fine_eq n : fine n <-> okay n /\ Forall fine (nch n).
Proof. apply everywhere_eq. Qed.
Lemma fine_printed n : fine n -> everywhere (number_printed fmt) n.
Proof. apply everywhere_impl. now intros m [H _]. Qed.
Lemma fine_ch ty l ch : fine (Node ty l ch) -> Forall fine ch.
Proof. intros H. now apply fine_eq in H. Qed.

(** ** The formatter's local recursions *)
Fixpoint chord_ops (l : list node) : option (list fop) :=
  match l with
  | [] => Some []
  | c :: t =>
      oapp (event_ops fmt c)
           (oapp (Some (if is_note_or_rest c && existsb is_note_or_rest t then [FWrite [rn "/"]] else [])) (chord_ops t))
  end.
Fixpoint line_ops (l : list node) : option (list fop) :=
  match l with
  | [] => Some []
  | c :: [] => oapp (Some [FVar VLast]) (event_ops fmt c)
  | c :: t => oapp (event_ops fmt c) (line_ops t)
  end.
Lemma ops_chord c ch : event_ops fmt (branch ChordNode (c :: ch)) = chord_ops (c :: ch).
Proof. reflexivity. Qed.
Lemma ops_seq es : event_ops fmt (branch EventSequenceNode es) =
  oapp (Some [FFlush; FWrite [rn "["]; FIndent]) (oapp (events_ops fmt es) (Some [FUnindent; FWrite [rn "]"]])).
Proof. reflexivity. Qed.
Lemma ops_cram es d : event_ops fmt (cram_node es d) =
  match d with
  | [] => oapp (Some [FWrite [rn "{"]]) (oapp (events_ops fmt es) (Some [FWrite [rn "}"]]))
  | [Node DurationNode _ l] => oapp (Some [FWrite [rn "{"]]) (oapp (events_ops fmt es) (with_duration fmt [rn "}"] l []))
  | _ => None
  end.
Proof. destruct d as [|[[] ? ?] [|]]; reflexivity. Qed.
Lemma ops_define s es : event_ops fmt (var_def_node s es) =
  oapp (Some [FFlush; FVar VDefining; FWrite (s ++ runes " =")]) (oapp (line_ops es) (Some [FVar VNone; FFlush])).
Proof. reflexivity. Qed.
Lemma ops_voices vs : event_ops fmt (branch VoiceGroupNode vs) = oapp (Some [FFlush]) (events_ops fmt vs).
Proof. reflexivity. Qed.
Lemma ops_voice n es : event_ops fmt (voice_node n es) =
  oapp (Some [FWrite (rn "V" :: itoa n ++ [rn ":"]); FIndent]) (oapp (events_ops fmt es) (Some [FUnindent])).
Proof. reflexivity. Qed.
Lemma ops_repeat n k : event_ops fmt (repeat_node n k) = oapp (event_ops fmt n) (Some [FWrite (rn "*" :: itoa k)]).
Proof. reflexivity. Qed.
Lemma ops_reps n rs : event_ops fmt (on_repetitions n rs) =
  match ranges_text (map range_node rs) with
  | Some xs => oapp (event_ops fmt n) (Some [FWrite (rn "'" :: join [rn ","] xs)])
  | None => None
  end.
Proof. reflexivity. Qed.

(** ** Words of the language *)
Lemma gap_facts rest : ends_with gap rest ->
  stops digit rest /\ stops (Z.eqb (rn ",")) rest /\ stops (Z.eqb (rn "-")) rest /\ ends_with after_repeat rest /\
  stops word_char rest /\ ends_with blank rest.
Proof.
  intros H. destruct rest as [|x rest]; [repeat split|]. cbn [ends_with] in H.
  assert (X : x = space \/ x = newline).
  { unfold gap in H. apply orb_prop in H. destruct H as [H|H]; apply Z.eqb_eq in H; auto. }
  destruct X as [-> | ->]; repeat split.
Qed.
Definition word (k : tok) (t : list rune) : pop := PW [Lexeme k t].
Definition wordy (p : pop) : Prop := lexed p /\ flat p /\ write p.
Lemma wordy_intro k t : t <> [] -> no_newline t -> k <> TLParen -> k <> TRParen ->
  (forall rest, ends_with gap rest -> lexeme false k t rest) -> wordy (word k t).
Proof.
  intros NE NL K1 K2 H. split; [|split; [cbn [flat word]; now rewrite text_one|exact I]].
  split; [now rewrite text_one|]. intros rest G. cbn [wfr text_of map List.concat app]. split; [now apply H|]. destruct k; congruence.
Qed.
Lemma wordy_simple c k : simple c k -> wordy (word k [rn c]).
Proof.
  intros S. apply wordy_intro; try discriminate.
  - intros [X|[]]. destruct S; discriminate.
  - destruct S; discriminate.
  - destruct S; discriminate.
  - intros rest _. now apply lx_simple.
Qed.
Lemma wordy_repeat k : small k -> wordy (word (TRepeat k) (rn "*" :: itoa k)).
Proof.
  intros H. destruct (itoa_spec k H) as (D & E & V). apply wordy_intro; try discriminate.
  - intros [X|X]; [discriminate|]. exact (digits_no_newline _ D X).
  - intros rest G. rewrite <- V at 1. apply (lx_repeat 0); auto. now apply gap_facts.
Qed.
Lemma wordy_octave k : small k -> wordy (word (TOctSet k) (rn "o" :: itoa k)).
Proof.
  intros H. destruct (itoa_spec k H) as (D & E & V). apply wordy_intro; try discriminate.
  - intros [X|X]; [discriminate|]. exact (digits_no_newline _ D X).
  - intros rest G. rewrite <- V at 1. apply lx_octave; auto; [congruence|]. now apply gap_facts.
Qed.
Lemma wordy_voice k : small k -> wordy (word (TVoice k) (rn "V" :: itoa k ++ [rn ":"])).
Proof.
  intros H. destruct (itoa_spec k H) as (D & E & V). apply wordy_intro; try discriminate.
  - intros [X|X]; [discriminate|]. apply in_app_or in X. destruct X as [X|[X|[]]]; [exact (digits_no_newline _ D X)|discriminate].
  - intros rest G. rewrite <- V at 1. now apply lx_voice.
Qed.
Lemma wordy_marker s : s <> [] -> Forall (fun r => word_char r = true) s -> wordy (word (TMarker s) (rn "%" :: s)).
Proof.
  intros NE H. apply wordy_intro; try discriminate.
  - intros [X|X]; [discriminate|]. exact (words_no_newline _ H X).
  - intros rest G. apply lx_marker; auto. now apply gap_facts.
Qed.
Lemma wordy_at_marker s : s <> [] -> Forall (fun r => word_char r = true) s -> wordy (word (TAtMarker s) (rn "@" :: s)).
Proof.
  intros NE H. apply wordy_intro; try discriminate.
  - intros [X|X]; [discriminate|]. exact (words_no_newline _ H X).
  - intros rest G. apply lx_at_marker; auto. now apply gap_facts.
Qed.
Lemma name_flat s : name_text s -> s <> [] /\ no_newline s.
Proof.
  intros (c & c' & w & -> & L & L' & W). split; [discriminate|].
  intros [X|[X|X]]; [now apply letter_not_newline in L|now apply letter_not_newline in L'|exact (words_no_newline _ W X)].
Qed.
Lemma name_lexeme s rest : name_text s -> stops word_char rest -> lexeme false TName s rest.
Proof. intros (c & c' & w & -> & L & L' & W) S. now apply lx_name. Qed.
Lemma wordy_name s : name_text s -> wordy (word TName s).
Proof.
  intros H. destruct (name_flat _ H). apply wordy_intro; auto; try discriminate.
  intros rest G. apply name_lexeme; auto. now apply gap_facts.
Qed.
Lemma range_prints ab : small (fst ab) -> small (snd ab) ->
  exists t b, range_text (range_node ab) = Some t /\ SpecScan.range_text ab t b /\ no_newline t /\ t <> [].
Proof.
  destruct ab as [x y]. cbn [fst snd]. intros A B. destruct (itoa_spec x A) as (D & E & V). destruct (itoa_spec y B) as (D' & E' & V').
  cbn [range_node branch leaf range_text fst snd]. destruct (x =? y) eqn:Q.
  - apply Z.eqb_eq in Q. subst y. exists (itoa x), false. split; [reflexivity|]. split; [|split; [now apply digits_no_newline|exact E]].
    rewrite <- V at 1 2. now apply rng_one.
  - exists (itoa x ++ rn "-" :: itoa y), true. split; [reflexivity|]. split; [|split].
    + rewrite <- V at 1. rewrite <- V' at 1. now apply rng_two.
    + apply no_newline_app. split; [now apply digits_no_newline|]. intros [X|X]; [discriminate|exact (digits_no_newline _ D' X)].
    + intros X. apply app_eq_nil in X. tauto.
Qed.
Lemma ranges_print rs : rs <> [] -> Forall (fun ab => small (fst ab) /\ small (snd ab)) rs ->
  exists xs b, ranges_text (map range_node rs) = Some xs /\ SpecScan.ranges_text rs (join [rn ","] xs) b /\
    no_newline (join [rn ","] xs) /\ xs <> [].
Proof.
  intros NE H. induction H as [|ab rs [A B] H IH]; [congruence|].
  destruct (range_prints ab A B) as (t & b & T & R & NL & NEt). destruct rs as [|cd rs].
  - exists [t], b. cbn [map ranges_text]. rewrite T. split; [reflexivity|]. split; [now constructor|]. split; [exact NL|discriminate].
  - destruct IH as (xs & b' & T' & R' & NL' & NE'); [discriminate|]. exists (t :: xs), b'.
    change (map range_node (ab :: cd :: rs)) with (range_node ab :: map range_node (cd :: rs)).
    cbn [ranges_text]. rewrite T. fold (@ranges_text N). rewrite T'. split; [reflexivity|].
    destruct xs as [|x xs]; [congruence|].
    change (join [rn ","] (t :: x :: xs)) with (t ++ rn "," :: join [rn ","] (x :: xs)). split; [|split; [|discriminate]].
    + eapply rngs_more; eauto.
    + apply no_newline_app. split; [exact NL|]. intros [X|X]; [discriminate|now apply NL'].
Qed.
Lemma wordy_reps rs t b : SpecScan.ranges_text rs t b -> no_newline t -> wordy (word (TReps rs) (rn "'" :: t)).
Proof.
  intros R NL. apply wordy_intro; try discriminate.
  - intros [X|X]; [discriminate|now apply NL].
  - intros rest G. destruct (gap_facts _ G) as (G1 & G2 & G3 & _). eapply lx_repetitions; eauto.
Qed.

Lemma tk_word k t P st : full st -> t <> [] -> exists l c, tk (word k t :: P) st = Token k t l c :: tk P (pstep (word k t) st).
Proof.
  intros F NE. destruct (tk_write cfg [Lexeme k t] P st F) as (b & E & _); [now rewrite text_one|].
  unfold word. rewrite E. cbn [toks app]. eexists _, _. reflexivity.
Qed.
Lemma wordy_text k t : wordy (word k t) -> t <> [].
Proof. intros [[H _] _]. now rewrite text_one in H. Qed.
Lemma full_word k t st : wordy (word k t) -> full st -> full (pstep (word k t) st).
Proof. intros W F. apply pstep_full; [exact F|]. apply W. Qed.

(** ** Looking ahead *)
Lemma llp_other ts : kind ts <> TName -> looks_like_part ts = false.
Proof. unfold looks_like_part. destruct (kind ts); congruence. Qed.
Lemma same_other ts ts' : kind ts = kind ts' -> kind ts <> TName -> same_head ts ts'.
Proof. intros K H. split; [exact K|]. rewrite !llp_other by congruence. reflexivity. Qed.
Lemma same_name t r t' r' : tkind t = tkind t' -> kind r = kind r' -> same_head (t :: r) (t' :: r').
Proof.
  intros K K'. split; [exact K|]. unfold looks_like_part.
  replace (kind2 (t :: r)) with (kind r) by (destruct r; reflexivity).
  replace (kind2 (t' :: r')) with (kind r') by (destruct r'; reflexivity). cbn [kind]. now rewrite K, K'.
Qed.
Lemma ahead_plain r : kind r <> TBarline -> kind r <> TTie -> length_node (kind r) = None ->
  kind r <> TOctUp -> kind r <> TOctDown -> (forall n, kind r <> TOctSet n) -> kind r <> TLParen -> kind r <> TSeparator ->
  (forall k, kind r <> TRepeat k) -> kind r <> TEquals -> accidental_node (kind r) = None -> ahead r.
Proof.
  intros. split; [now apply calm_end|]. split; [exists [], r; split; [now apply bn_end|assumption]|]. auto.
Qed.
Ltac plain K := apply ahead_plain; cbn [kind tkind]; try rewrite K; try discriminate; try reflexivity; intros; discriminate.
Lemma calm_plain r : kind r <> TBarline -> kind r <> TTie -> length_node (kind r) = None -> calm r.
Proof. apply calm_end. Qed.

Lemma event_ahead ts n r : event ts n r -> ahead r -> ahead ts.
Proof.
  intros H A. pose proof A as (A1 & (ns & x & A2 & A2') & A3 & A4 & A5).
  destruct H as [ts n r n' r' K Hf Hr|t e ts es r K|t r n' r' K Kr Hr|t k r K|t r K|t r K|ts ms k r H|t r K|t ts es r n' r' K Hb Hr|t ts es r1 d r n' r' K Hb Hn Hd Hr|t k ts vs r K Hv|t s r K|t s r K];
    try (plain K).
  - split; [apply calm_end; rewrite K; try discriminate; reflexivity|]. split; [|rewrite K; repeat split; try discriminate; intros; discriminate].
    destruct ts as [|t ts]; [discriminate|]. cbn [kind] in K. destruct Hr as [n r Hr|n t' k r Hr].
    + exists (n :: ns), x. split; [|exact A2']. eapply bn_sexp; eauto.
    + exists [n], (t' :: r). split; [|cbn; congruence]. eapply bn_sexp; eauto. apply bn_end; cbn [kind]; congruence.
  - split; [apply calm_end; cbn [kind]; rewrite K; try discriminate; reflexivity|]. cbn [kind]. split; [|rewrite K; repeat split; try discriminate; intros; discriminate].
    eexists _, x. split; [|exact A2']. eapply bn_set; eauto.
  - split; [apply calm_end; cbn [kind]; rewrite K; try discriminate; reflexivity|]. cbn [kind]. split; [|rewrite K; repeat split; try discriminate; intros; discriminate].
    eexists _, x. split; [|exact A2']. eapply bn_up; eauto.
  - split; [apply calm_end; cbn [kind]; rewrite K; try discriminate; reflexivity|]. cbn [kind]. split; [|rewrite K; repeat split; try discriminate; intros; discriminate].
    eexists _, x. split; [|exact A2']. eapply bn_down; eauto.
  - destruct (chord_complete _ _ _ _ H) as (t & ts' & -> & _ & [[l K]|K] & _); plain K.
  - split; [now apply calm_bar|]. split; [exists [], (t :: r); split; [apply bn_end|]; cbn [kind]; try congruence|].
    cbn [kind]. rewrite K. repeat split; try discriminate; intros; discriminate.
Qed.

(** ** A final repeat *)
Lemma fine_repeated n r n' r' : repeated n r n' r' -> fine n' -> fine n.
Proof.
  destruct 1 as [n r H|n t k r K]; [auto|]. intros F. apply fine_ch in F. now inversion F.
Qed.
Lemma repeated_prints n r n' r' P : repeated n r n' r' -> fit r -> event_ops fmt n = Some (map erase P) ->
  exists S, event_ops fmt n' = Some (map erase (P ++ S)) /\ Forall lexed S /\ Forall flat S /\ Forall write S /\
    forall st r'', full st -> follow r' r'' ->
      repeated n (tk S st ++ r'') n' r'' /\ kind (tk S st ++ r'') = kind r /\ calm (tk S st ++ r'').
Proof.
  intros H F T. destruct H as [n r H|n t k r K].
  - exists []. rewrite app_nil_r. split; [exact T|]. split; [constructor|]. split; [constructor|]. split; [constructor|].
    intros st r'' _ [A [K1 K2]]. cbn [app]. change (tk [] st ++ r'') with r''. split; [apply rep_once; apply A|]. split; [now symmetry|apply A].
  - pose proof (fit_valid _ _ F) as V. unfold valid in V. rewrite K in V.
    pose proof (wordy_repeat k V) as W. exists [word (TRepeat k) (rn "*" :: itoa k)].
    split; [|split; [constructor; [apply W|constructor]|split; [constructor; [apply W|constructor]|split; [constructor; [apply W|constructor]|]]]].
    + rewrite ops_repeat, T, map_app. cbn [map erase word]. rewrite text_one. reflexivity.
    + intros st r'' Fs [A [K1 K2]]. destruct (tk_word (TRepeat k) (rn "*" :: itoa k) [] st Fs) as (l & c & E); [discriminate|].
      rewrite E. cbn [app]. change (tk [] (pstep (word (TRepeat k) (rn "*" :: itoa k)) st) ++ r'') with r''.
      split; [now apply rep_times|]. split; [cbn [kind tkind]; now symmetry|]. apply calm_end; cbn; try discriminate; reflexivity.
Qed.

(** ** Chords *)
Lemma between_prints ts ns r : between_notes ts ns r -> fit ts -> Forall fine ns ->
  exists P, events_ops fmt ns = Some (map erase P) /\ Forall lexed P /\ Forall write P /\ (Forall flat P \/ later ts r) /\
    Forall (fun n => is_note_or_rest n = false) ns /\
    forall st r' ms r'', full st -> between_notes r' ms r'' -> between_notes (tk P st ++ r') (ns ++ ms) r''.
Proof.
  revert ts ns r. assert (ONE : forall k w n t ts ns r, wordy (word k w) -> event_ops fmt n = Some [FWrite w] -> is_note_or_rest n = false ->
     tkind t <> TEOF -> fit (t :: ts) -> between_notes ts ns r ->
     (forall l c x ms y, between_notes x ms y -> between_notes (Token k w l c :: x) (n :: ms) y) ->
     (exists P, events_ops fmt ns = Some (map erase P) /\ Forall lexed P /\ Forall write P /\ (Forall flat P \/ later ts r) /\
        Forall (fun n => is_note_or_rest n = false) ns /\
        forall st r' ms r'', full st -> between_notes r' ms r'' -> between_notes (tk P st ++ r') (ns ++ ms) r'') ->
     exists P, events_ops fmt (n :: ns) = Some (map erase P) /\ Forall lexed P /\ Forall write P /\ (Forall flat P \/ later (t :: ts) r) /\
        Forall (fun n => is_note_or_rest n = false) (n :: ns) /\
        forall st r' ms r'', full st -> between_notes r' ms r'' -> between_notes (tk P st ++ r') ((n :: ns) ++ ms) r'').
  { intros k w n t ts ns r W T NR Kt F Hb G (P & T' & A1 & A2 & A3 & A4 & G').
    exists (word k w :: P). split; [|split; [constructor; [apply W|exact A1]|split; [constructor; [exact I|exact A2]|split; [|split; [now constructor|]]]]].
    - cbn [events_ops]. rewrite T, T'. cbn [oapp map erase word app]. now rewrite text_one.
    - destruct A3 as [A3|A3]; [left; constructor; [apply W|exact A3]|].
      destruct A3 as [A3|A3]; [right; now left|].
      destruct (fit_le (t :: ts) ts F) as [Q|Q]; [now apply eats_one| |right; right; lia].
      destruct (between_complete _ _ _ Hb) as [He _]. destruct He as (u & -> & Hu).
      destruct u as [|v u]; [cbn [app] in A3; lia|]. cbn in Q. now inversion Hu.
    - intros st r' ms r'' Fs B. destruct (tk_word k w P st Fs (wordy_text _ _ W)) as (l & c & E). rewrite E. cbn [app].
      apply G. apply G'; [now apply full_word|exact B]. }
  induction 1 as [r H1 H2 H3 H4|t ts ns r K Hb IH|t ts ns r K Hb IH|t n ts ns r K Hb IH|t ts n r ns r' K Hform Hb IH]; intros F Fi.
  - exists []. split; [reflexivity|]. split; [constructor|]. split; [constructor|]. split; [left; constructor|]. split; [constructor|].
    intros st r' ms r'' _ B. exact B.
  - inversion Fi; subst. apply (ONE TOctUp [rn ">"]); auto; try congruence; [apply wordy_simple; constructor| |].
    + intros. now apply bn_up.
    + apply IH; [now apply fit_cons in F|assumption].
  - inversion Fi; subst. apply (ONE TOctDown [rn "<"]); auto; try congruence; [apply wordy_simple; constructor| |].
    + intros. now apply bn_down.
    + apply IH; [now apply fit_cons in F|assumption].
  - inversion Fi; subst. pose proof (fit_valid _ _ F) as V. unfold valid in V. rewrite K in V.
    apply (ONE (TOctSet n) (rn "o" :: itoa n)); auto; try congruence; [now apply wordy_octave| |].
    + intros. now apply bn_set.
    + apply IH; [now apply fit_cons in F|assumption].
  - inversion Fi as [|? ? Fn Fns]; subst. pose proof (form_eats _ _ _ Hform) as He.
    destruct (IH (fit_eats _ _ F (eats1_eats _ _ He)) Fns) as (P & T' & A1 & A2 & A3 & A4 & G').
    destruct (proj1 (lisp_prints fmt) _ _ _ Hform F (fine_printed _ Fn)) as (ps & T & NE & C & S & NL & G).
    assert (Ty : nty n = LispListNode) by (inversion Hform; subst; try congruence; reflexivity).
    destruct (S Ty) as (Sh & q & Eq).
    exists (PW ps :: P). split; [|split; [constructor; [|exact A1]|split; [constructor; [exact I|exact A2]|split; [|split]]]].
    + cbn [events_ops]. rewrite T'. replace (event_ops fmt n) with (Some [FWrite (text_of ps)]); [reflexivity|].
      clear - T Ty. destruct n as [ty l ch]. cbn in Ty. subst ty. cbn [event_ops]. rewrite T. reflexivity.
    + split; [exact NE|]. intros rest _. apply Sh. lia.
    + destruct (between_complete _ _ _ Hb) as [Heb _]. destruct NL as [NL|NL].
      * destruct A3 as [A3|A3]; [left; constructor; [exact NL|exact A3]|]. destruct A3 as [A3|A3]; [right; now left|].
        destruct (fit_le _ _ F (eats1_eats _ _ He)) as [Q|Q]; [|right; right; lia].
        destruct Heb as (u & -> & Hu). destruct u as [|v u]; [cbn [app] in A3; lia|]. cbn in Q. now inversion Hu.
      * destruct Heb as (u & -> & Hu). destruct u as [|v u]; [right; exact NL|]. right.
        apply later_right with ((v :: u) ++ r'); auto.
        -- exact (fit_eats _ _ F (eats1_eats _ _ He)).
        -- exists (v :: u). now split.
        -- cbn. now inversion Hu.
    + constructor; [|exact A4]. destruct n as [ty l ch]. cbn in Ty. now subst ty.
    + intros st r'' ms r3 Fs B. destruct (tk_write cfg ps P st Fs NE) as (b & E & _). rewrite E, <- app_assoc.
      specialize (G b (tk P (pstep (PW ps) st) ++ r'')). subst ps. cbn [toks app] in G |- *.
      eapply bn_sexp; [reflexivity|exact G|]. apply G'; [|exact B]. apply pstep_full; [exact Fs|exact NE].
Qed.

Lemma chord_ops_skip b ns : Forall (fun n => is_note_or_rest n = false) b ->
  chord_ops (b ++ ns) = oapp (events_ops fmt b) (chord_ops ns).
Proof.
  induction 1 as [|n b Hn Hb IH]; cbn [app chord_ops events_ops]; [destruct (chord_ops ns); reflexivity|].
  rewrite IH, Hn. cbn [andb]. destruct (event_ops fmt n); [|reflexivity]. destruct (events_ops fmt b), (chord_ops ns); cbn; try reflexivity.
  now rewrite app_assoc.
Qed.
Lemma events_ops_app a b : events_ops fmt (a ++ b) = oapp (events_ops fmt a) (events_ops fmt b).
Proof.
  induction a as [|n a IH]; cbn [app events_ops]; [destruct (events_ops fmt b); reflexivity|].
  rewrite IH. destruct (event_ops fmt n), (events_ops fmt a), (events_ops fmt b); cbn; try reflexivity. now rewrite app_assoc.
Qed.
Lemma chord_ops_one n P : chord_ops [n] = Some (map erase P) -> event_ops fmt n = Some (map erase P).
Proof.
  cbn [chord_ops existsb]. rewrite andb_false_r. destruct (event_ops fmt n) as [x|]; cbn; [|discriminate]. now rewrite app_nil_r.
Qed.

(** What comes after the notes of a chord. *)
Definition after_notes (k : Z) (r r' E : list token) : Prop :=
  if 0 <? k then exists x, E = x :: r' /\ tkind x = TRepeat k else E = r' /\ follow r r'.
Lemma notes_print ts ns k r : notes_at ts ns k r -> fit ts -> Forall fine ns ->
  exists P, chord_ops ns = Some (map erase P) /\ Forall lexed P /\ Forall write P /\ headed (kind ts) P /\
    (Forall flat P \/ later ts r) /\ existsb is_note_or_rest ns = true /\ 0 <= k /\ small k /\
    forall st r' E, full st -> after_notes k r r' E -> notes_at (tk P st ++ E) ns k r'.
Proof.
  induction 1 as [ts n r Hn Hr Hc|ts n t k r Hn K|ts n r b s r1 a r2 ns k r3 Hn Hb Hs Ha H IH]; intros F Fi.
  - inversion Fi as [|? ? Fn _]; subst. pose proof Fn as Fn'. apply fine_eq in Fn'. destruct Fn' as [[_ Sl] _].
    destruct (note_prints fmt cfg _ _ _ Hn F (fine_printed _ Fn) Sl) as (P & T & A1 & A2 & A3 & A4 & A5 & G).
    exists P. split; [|split; [exact A1|split; [exact A3|split; [exact A4|split; [now left|split; [cbn; now rewrite A5|split; [lia|split]]]]]]].
    + cbn [chord_ops existsb]. rewrite T, andb_false_r. cbn. now rewrite app_nil_r.
    + unfold small, max_int32. lia.
    + intros st r' E Fs [-> [A [K1 K2]]]. apply na_one; [|apply A|apply A]. apply G; auto; [apply A|congruence|apply A].
  - inversion Fi as [|? ? Fn _]; subst. pose proof Fn as Fn'. apply fine_eq in Fn'. destruct Fn' as [[_ Sl] _].
    destruct (note_prints fmt cfg _ _ _ Hn F (fine_printed _ Fn) Sl) as (P & T & A1 & A2 & A3 & A4 & A5 & G).
    destruct (note_or_rest_complete _ _ _ Hn) as (t0 & ts0 & E0 & He & _).
    pose proof (fit_eats _ _ F (eats1_eats _ _ He)) as Fr. pose proof (fit_valid _ _ Fr) as V. unfold valid in V. rewrite K in V.
    exists P. split; [|split; [exact A1|split; [exact A3|split; [exact A4|split; [now left|split; [cbn; now rewrite A5|split; [apply V|split; [exact V|]]]]]]]].
    + cbn [chord_ops existsb]. rewrite T, andb_false_r. cbn. now rewrite app_nil_r.
    + intros st r' E Fs. unfold after_notes. destruct (0 <? k) eqn:Q.
      * intros (x & -> & Kx). apply na_repeat with (t := x); [|exact Kx]. apply G; [exact Fs| | |].
        -- apply calm_end; cbn [kind]; rewrite Kx; try discriminate; reflexivity.
        -- intros _. cbn [kind]. congruence.
        -- cbn [kind]. now rewrite Kx.
      * intros [-> [A [K1 K2]]]. apply Z.ltb_ge in Q. assert (k = 0) by (destruct V; lia). subst k.
        apply na_one; [|apply A|apply A]. apply G; auto; [apply A| |apply A]. intros _ X. rewrite <- K1 in X.
        destruct Fr as (_ & _ & Z0). apply Z0. destruct r as [|u r]; [discriminate|]. exists [], t, u, r. split; [reflexivity|now split].
  - inversion Fi as [|? ? Fn Fi']; subst. apply Forall_app in Fi'. destruct Fi' as [Fb Fi']. apply Forall_app in Fi'. destruct Fi' as [Fa Fns].
    pose proof Fn as Fn'. apply fine_eq in Fn'. destruct Fn' as [[_ Sl] _].
    destruct (note_prints fmt cfg _ _ _ Hn F (fine_printed _ Fn) Sl) as (P & T & A1 & A2 & A3 & A4 & A5 & G).
    destruct (note_or_rest_complete _ _ _ Hn) as (t0 & ts0 & E0 & He & _).
    destruct (between_complete _ _ _ Hb) as [Heb _]. destruct (between_complete _ _ _ Ha) as [Hea _].
    pose proof (fit_eats _ _ F (eats1_eats _ _ He)) as Fr. pose proof (fit_eats _ _ Fr Heb) as Fs1. pose proof (fit_cons _ _ Fs1) as Fr1.
    pose proof (fit_eats _ _ Fr1 Hea) as Fr2.
    destruct (between_prints _ _ _ Hb Fr Fb) as (Pb & Tb & B1 & B2 & B3 & B4 & Gb).
    destruct (between_prints _ _ _ Ha Fr1 Fa) as (Pa & Ta & C1 & C2 & C3 & C4 & Ga).
    destruct (IH Fr2 Fns) as (Pn & Tn & D1 & D2 & D3 & D4 & D5 & D6 & D7 & Gn).
    pose proof (wordy_simple "/"%char TSeparator s8) as W.
    destruct (chord_complete _ _ _ _ H) as (t2 & ts2 & E2 & He2 & Hk2 & _).
    exists (P ++ [word TSeparator [rn "/"]] ++ (Pb ++ Pa) ++ Pn).
    split; [|split; [|split; [|split; [|split; [|split; [|split; [exact D6|split; [exact D7|]]]]]]]].
    + assert (X : chord_ops (b ++ a ++ ns) = Some (map erase ((Pb ++ Pa) ++ Pn))).
      { rewrite app_assoc. rewrite chord_ops_skip by (apply Forall_app; now split). rewrite events_ops_app, Tb, Ta, Tn. cbn.
        rewrite !map_app. reflexivity. }
      cbn [chord_ops]. rewrite T, X, A5. replace (existsb is_note_or_rest (b ++ a ++ ns)) with true.
      * cbn [oapp andb]. rewrite !map_app. cbn [map erase word]. rewrite text_one. reflexivity.
      * rewrite !existsb_app, D5, !orb_true_r. reflexivity.
    + repeat (apply Forall_app; split); auto. constructor; [apply W|constructor].
    + repeat (apply Forall_app; split); auto. constructor; [apply W|constructor].
    + now apply headed_app.
    + assert (K2 : kind r2 <> TEOF) by (subst r2; cbn; destruct Hk2 as [[l Hl]|Hl]; rewrite Hl; discriminate).
      assert (E3 : eats ts (s :: r1)) by (apply eats_trans with r; [now apply eats1_eats|exact Heb]).
      assert (Ks : tkind s <> TEOF) by congruence.
      assert (E4 : eats ts r1) by (apply eats_trans with (s :: r1); [exact E3|now apply eats_one]).
      assert (E5 : eats ts r2) by (apply eats_trans with r1; assumption).
      assert (K1 : kind r1 <> TEOF).
      { destruct Hea as (u & -> & Hu). destruct u; [exact K2|]. cbn. now inversion Hu. }
      assert (K0 : kind r <> TEOF).
      { destruct Heb as (u & -> & Hu). destruct u; [exact Ks|]. cbn. now inversion Hu. }
      destruct B3 as [B3|B3].
      * destruct C3 as [C3|C3].
        -- destruct D4 as [D4|D4].
           ++ left. repeat (apply Forall_app; split); auto. constructor; [apply W|constructor].
           ++ right. now apply later_left with r2.
        -- right. apply later_left with r1; auto. apply later_right with r2; auto. now apply eats1_eats.
      * right. apply later_left with r; auto; [now apply eats1_eats|]. apply later_right with (s :: r1); auto.
        apply eats_trans with r1; [now apply eats_one|]. apply eats_trans with r2; [exact Hea|]. now apply eats1_eats.
    + cbn. rewrite A5. reflexivity.
    + intros st r' E Fs0 HE. rewrite tk_app by (auto; now apply lexed_solid). rewrite <- app_assoc.
      set (st1 := prun P st). assert (F1 : full st1) by (apply prun_full; [exact Fs0|now apply lexed_solid]).
      cbn [app]. destruct (tk_word TSeparator [rn "/"] ((Pb ++ Pa) ++ Pn) st1 F1) as (l & c & Ew); [discriminate|]. rewrite Ew. cbn [app].
      set (st2 := pstep (word TSeparator [rn "/"]) st1). assert (F2 : full st2) by (now apply full_word).
      rewrite tk_app; [|exact F2|apply Forall_app; split; now apply lexed_solid]. rewrite <- app_assoc.
      set (st3 := prun (Pb ++ Pa) st2).
      assert (F3 : full st3) by (apply prun_full; [exact F2|apply Forall_app; split; now apply lexed_solid]).
      specialize (Gn st3 r' E F3 HE). set (R2 := tk Pn st3 ++ E) in *.
      assert (HR2 : between_notes R2 [] R2).
      { destruct (chord_complete _ _ _ _ Gn) as (t3 & ts3 & -> & _ & Hk & _). destruct Hk as [[z Hk]|Hk]; apply bn_end; cbn [kind]; rewrite Hk; try discriminate; intros; discriminate. }
      replace (n :: b ++ a ++ ns) with (n :: [] ++ (b ++ a) ++ ns) by (cbn [app]; now rewrite app_assoc).
      eapply na_more with (s := Token TSeparator [rn "/"] l c) (r1 := tk (Pb ++ Pa) st2 ++ R2) (r2 := R2); [| | | |exact Gn].
      * apply G; auto; cbn [kind tkind]; try discriminate; try reflexivity. apply calm_end; cbn; try discriminate; reflexivity.
      * apply bn_end; cbn; try discriminate; intros; discriminate.
      * reflexivity.
      * rewrite tk_app by (auto; now apply lexed_solid). rewrite <- app_assoc.
        rewrite <- (app_nil_r a). apply Gb; [exact F2|]. apply Ga; [|exact HR2].
        apply prun_full; [exact F2|now apply lexed_solid].
Qed.
End Events.
