(** Printed events read back: the induction. *)
From Coq Require Import String Ascii ZArith List Bool Lia.
From Verif Require Import Base Num ModelScan SpecScan ProofScan ModelParser SpecParser ProofParser ProofParseText
  ModelFormat SpecFormat ProofFormat ProofFormatTok ProofFormatLisp ProofFormatNote ProofFormatEvent.
Import ListNotations.
Local Open Scope list_scope.
Local Open Scope Z_scope.

Section Main.
Context {N : Num}.
Variable fmt : num -> list rune.
Variable cfg : config.
Notation tk := (tk cfg).
Notation prun := (prun cfg).
Notation pstep := (pstep cfg).
Notation total := (total cfg).
Notation steady := (steady cfg).
Notation fine := (fine fmt).

Lemma later_join (A B : Prop) ts m r : fit ts -> eats ts m -> eats m r -> A \/ later ts m -> B \/ later m r -> A /\ B \/ later ts r.
Proof.
  intros F E1 E2 [HA|L1] HB.
  - destruct HB as [HB|[K|L]]; [now left|right; now left|]. right.
    destruct (fit_le _ _ F E1) as [K|K]; [|right; lia].
    destruct E2 as (u & -> & Hu). destruct u as [|t u]; [cbn [app] in L; lia|]. cbn in K. now inversion Hu.
  - right. destruct L1 as [K|L].
    + left. destruct E2 as (u & -> & Hu). destruct u as [|t u]; [exact K|]. cbn in K. now inversion Hu.
    + destruct (fit_le _ _ (fit_eats _ _ F E1) E2) as [K|K]; [now left|right; lia].
Qed.
Lemma flat_join P Q ts m r : fit ts -> eats ts m -> eats m r -> Forall flat P \/ later ts m -> Forall flat Q \/ later m r ->
  Forall flat (P ++ Q) \/ later ts r.
Proof. intros F E1 E2 H1 H2. destruct (later_join _ _ _ _ _ F E1 E2 H1 H2) as [H|H]; [left; now apply Forall_app|now right]. Qed.
Lemma flat_tail Q t ts r : fit (t :: ts) -> tkind t <> TEOF -> eats ts r -> Forall flat Q \/ later ts r -> Forall flat Q \/ later (t :: ts) r.
Proof.
  intros F K E H. assert (E1 : eats (t :: ts) ts) by (now apply eats_one).
  destruct (later_join True (Forall flat Q) (t :: ts) ts r F E1 E (or_introl I) H) as [[_ X]|X]; [now left|now right].
Qed.

Lemma line_mono P st : full st -> Forall solid P -> line_after (total st) <= line_after (total (prun P st)).
Proof. intros F S. rewrite prun_total by assumption. apply line_after_le. Qed.

(** The formatter is in a state in which these calls may be made. *)
Definition ready (P : list pop) (st : fstate) : Prop :=
  full st /\ (f_var st = VDefining -> Forall flat P) /\ moded st.
Lemma ready_l P Q st : ready (P ++ Q) st -> ready P st.
Proof. intros (F & D & M). split; [exact F|]. split; [|exact M]. intros V. specialize (D V). now apply Forall_app in D. Qed.
Lemma ready_r P Q st : steady P -> Forall lexed P -> ready (P ++ Q) st -> ready Q (prun P st).
Proof.
  intros S L (F & D & M). split; [apply prun_full; [exact F|now apply lexed_solid]|]. split.
  - now apply steady_flat.
  - destruct (S st) as (_ & _ & _ & _ & X & _); [|now apply X]. intros V. specialize (D V). now apply Forall_app in D.
Qed.
Lemma ready_full P st : ready P st -> full st.
Proof. now intros (F & _). Qed.
Lemma ready_in P st : ready (PIn :: P ++ [PUn]) st -> ready P (pstep PIn st).
Proof.
  intros (F & D & M). split; [now apply pstep_full|]. unfold ProofFormat.pstep. cbn [erase fstep].
  destruct (f_var st) eqn:V.
  - split; [discriminate|]. intros X. now destruct X.
  - split; [|exact M]. intros _. specialize (D eq_refl). inversion D; subst. now apply Forall_app in H2.
  - split; [discriminate|]. intros X. now destruct X.
Qed.
Lemma tk_in P st : full st -> Forall lexed P -> tk (PIn :: P ++ [PUn]) st = tk P (pstep PIn st).
Proof.
  intros F L. rewrite tk_op by (auto; exact I). assert (F1 : full (pstep PIn st)) by (now apply pstep_full).
  rewrite tk_app; [|exact F1|now apply lexed_solid]. rewrite tk_op; [|apply prun_full; [exact F1|now apply lexed_solid]|exact I|exact I].
  change (tk [] _) with (@nil token). apply app_nil_r.
Qed.
Lemma lexed_in P : Forall lexed P -> Forall lexed (PIn :: P ++ [PUn]).
Proof. intros H. constructor; [exact I|]. apply Forall_app. split; [exact H|]. constructor; [exact I|constructor]. Qed.
Lemma flat_in P : Forall flat P -> Forall flat (PIn :: P ++ [PUn]).
Proof. intros H. constructor; [exact I|]. apply Forall_app. split; [exact H|]. constructor; [exact I|constructor]. Qed.
Lemma line_in P st x : full st -> Forall lexed P -> line_after (total (prun (PIn :: P ++ [PUn]) st)) <= x ->
  line_after (total (prun P (pstep PIn st))) <= x.
Proof.
  intros F L H. eapply Z.le_trans; [|exact H]. change (PIn :: P ++ [PUn]) with ([PIn] ++ P ++ [PUn]). rewrite !prun_app.
  change (prun [PIn] st) with (pstep PIn st). apply line_mono; [|constructor; [exact I|constructor]].
  apply prun_full; [now apply pstep_full|now apply lexed_solid].
Qed.
Lemma line_split P Q st r : full st -> Forall lexed P -> Forall lexed Q -> line_after (total (prun (P ++ Q) st)) <= line_of r ->
  line_after (total (prun P st)) <= line_of (tk Q (prun P st) ++ r).
Proof.
  intros F L1 L2 H. rewrite prun_app in H. apply tk_line; [apply prun_full; [exact F|]|..|exact H]; now apply lexed_solid.
Qed.
Lemma tk_split P Q st : full st -> Forall lexed P -> tk (P ++ Q) st = tk P st ++ tk Q (prun P st).
Proof. intros F L. apply tk_app; [exact F|now apply lexed_solid]. Qed.
Lemma tk_words k t st : wordy (word k t) -> full st -> exists l c, tk [word k t] st = [Token k t l c].
Proof. intros W F. destruct (tk_word cfg k t [] st F (wordy_text _ _ W)) as (l & c & E). exists l, c. exact E. Qed.
Lemma tk_flush st : full st -> tk [PFl] st = [].
Proof. intros F. rewrite tk_op by (auto; exact I). reflexivity. Qed.
Lemma lexed_word k t : wordy (word k t) -> Forall lexed [word k t].
Proof. intros W. constructor; [apply W|constructor]. Qed.
Lemma flat_word k t : wordy (word k t) -> Forall flat [word k t].
Proof. intros W. constructor; [apply W|constructor]. Qed.
Lemma lexed_flush : Forall lexed [PFl].
Proof. constructor; [exact I|constructor]. Qed.
Lemma flat_flush : Forall flat [PFl].
Proof. constructor; [exact I|constructor]. Qed.

(** ** What is shown *)
Definition event_ok (ts : list token) (n : node) (r : list token) : Prop := fit ts -> fine n ->
  exists P, event_ops fmt n = Some (map erase P) /\ Forall lexed P /\ steady P /\ headed (kind ts) P /\
    (Forall flat P \/ later ts r) /\
    forall st r', ready P st -> follow r r' -> line_after (total (prun P st)) <= line_of r' ->
      event (tk P st ++ r') n r' /\ follow ts (tk P st ++ r').
Definition on_line_ok (line : Z) (ts : list token) (es : list node) (r : list token) : Prop := fit ts -> Forall fine es -> es <> [] ->
  exists P, line_ops fmt es = Some (map erase P) /\ Forall lexed P /\
    (forall st, f_var st = VDefining -> f_texts st <> [] ->
       f_level (prun P st) = f_level st /\ (0 <= f_level st -> levels_ok cfg (map erase P) st = true)) /\
    forall st r', full st -> f_var st = VDefining -> f_texts st <> [] -> follow r r' ->
      line_after (total (prun P st)) <= line_of r' -> line_after (total st) < line_of r' ->
      on_line (line_after (total st)) (tk P st ++ r') es r' /\ follow ts (tk P st ++ r').
Definition body_ok (close : tok) (body : list token -> list node -> list token -> Prop)
  (ts : list token) (es : list node) (r : list token) : Prop := fit ts -> Forall fine es ->
  exists P, events_ops fmt es = Some (map erase P) /\ Forall lexed P /\ steady P /\ (Forall flat P \/ later ts r) /\
    forall st c r', ready P st -> tkind c = close -> line_after (total (prun P st)) <= tline c ->
      body (tk P st ++ c :: r') es r' /\ follow ts (tk P st ++ c :: r').
Definition open_ok (body : list token -> list node -> list token -> Prop)
  (ts : list token) (es : list node) (r : list token) : Prop := fit ts -> Forall fine es ->
  exists P, events_ops fmt es = Some (map erase P) /\ Forall lexed P /\ steady P /\ (Forall flat P \/ later ts r) /\
    forall st r', ready P st -> follow r r' -> line_after (total (prun P st)) <= line_of r' ->
      body (tk P st ++ r') es r' /\ follow ts (tk P st ++ r').
Definition voices_ok (n : Z) (ts : list token) (vs : list node) (r : list token) : Prop := fit ts -> small n -> Forall fine vs ->
  exists P, events_ops fmt vs = Some (map erase P) /\ Forall lexed P /\ steady P /\ headed (TVoice n) P /\
    (Forall flat P \/ later ts r) /\
    forall st r', ready P st -> follow r r' -> line_after (total (prun P st)) <= line_of r' ->
      exists x X, tk P st ++ r' = x :: X /\ tkind x = TVoice n /\ voices_at n X vs r'.

Lemma event_follow ts n E r' P st : headed (kind ts) P -> Forall lexed P -> full st -> kind ts <> TName ->
  ahead r' -> event (tk P st ++ E) n r' -> event (tk P st ++ E) n r' /\ follow ts (tk P st ++ E).
Proof.
  intros H L F K A Ev. split; [exact Ev|]. split; [eapply event_ahead; eauto|]. apply same_other; [|exact K].
  symmetry. apply headed_kind; auto. now apply lexed_solid.
Qed.

Lemma leaf_ok t r n w : tkind t <> TName -> wordy (word (tkind t) w) -> event_ops fmt n = Some [FWrite w] ->
  (forall l c r', event (Token (tkind t) w l c :: r') n r') -> event_ok (t :: r) n r.
Proof.
  intros K W T G F _. exists [word (tkind t) w]. split; [rewrite T; cbn [map erase word]; now rewrite text_one|].
  split; [now apply lexed_word|]. split; [apply steady_write|]. split; [apply headed_write|]. split; [left; now apply flat_word|].
  intros st r' R [A S] _. apply event_follow; auto; [apply headed_write|now apply lexed_word|exact (ready_full _ _ R)|].
  destruct (tk_words (tkind t) w st W (ready_full _ _ R)) as (l & c & E). rewrite E. apply G.
Qed.

(** A base event printed by [P] that may be repeated. *)
Lemma with_repeat ts n r n' r' P : fit ts -> fine n' -> repeated n r n' r' -> eats ts r ->
  event_ops fmt n = Some (map erase P) -> Forall lexed P -> steady P -> headed (kind ts) P -> (Forall flat P \/ later ts r) ->
  (forall st E r'', ready P st -> repeated n E n' r'' -> kind E = kind r -> calm E -> follow r' r'' ->
     line_after (total (prun P st)) <= line_of E -> event (tk P st ++ E) n' r'' /\ follow ts (tk P st ++ E)) ->
  exists P, event_ops fmt n' = Some (map erase P) /\ Forall lexed P /\ steady P /\ headed (kind ts) P /\
    (Forall flat P \/ later ts r') /\
    forall st r'', ready P st -> follow r' r'' -> line_after (total (prun P st)) <= line_of r'' ->
      event (tk P st ++ r'') n' r'' /\ follow ts (tk P st ++ r'').
Proof.
  intros F Fi H He T A1 A2 A3 A4 G.
  destruct (repeated_prints fmt cfg _ _ _ _ P H (fit_eats _ _ F He) T) as (S & T' & B1 & B2 & B3 & B4).
  assert (B5 : steady S) by (now apply steady_writes).
  exists (P ++ S). split; [exact T'|]. split; [apply Forall_app; now split|]. split; [now apply steady_app|]. split; [now apply headed_app|].
  assert (He' : eats r r') by (destruct H as [n r H|n t k r K]; [apply eats_refl|apply eats_one; congruence]).
  split; [apply flat_join with r; auto|].
  intros st r'' R Fo L. rewrite tk_split by (auto; exact (ready_full _ _ R)). rewrite <- app_assoc.
  pose proof (ready_r _ _ _ A2 A1 R) as R2. destruct (B4 (prun P st) r'' (ready_full _ _ R2) Fo) as (C1 & C2 & C3).
  apply G; auto; [now apply ready_l in R|]. apply line_split; auto. exact (ready_full _ _ R).
Qed.

Lemma kind_eats1 ts r : eats1 ts r -> kind ts <> TEOF.
Proof. intros (t & u & -> & H). cbn. now inversion H. Qed.
Lemma follow_close c k t r : tkind c = k -> tkind t = k -> k = TSeqClose \/ k = TCramClose -> forall r', follow (t :: r) (c :: r').
Proof.
  intros K K' H r'. split; [|apply same_other; cbn [kind]; [congruence|destruct H; congruence]].
  apply ahead_plain; cbn [kind]; rewrite K; destruct H; subst k; rewrite H; try discriminate; try reflexivity; intros; discriminate.
Qed.
Lemma ops_cons n es P Q : event_ops fmt n = Some (map erase P) -> events_ops fmt es = Some (map erase Q) ->
  events_ops fmt (n :: es) = Some (map erase (P ++ Q)).
Proof. intros T T'. cbn [events_ops]. rewrite T, T', map_app. reflexivity. Qed.

Lemma chain P Q st r : Forall lexed P -> Forall lexed Q -> steady P -> ready (P ++ Q) st ->
  line_after (total (prun (P ++ Q) st)) <= line_of r ->
  exists s2, s2 = prun P st /\ ready P st /\ ready Q s2 /\ tk (P ++ Q) st ++ r = tk P st ++ tk Q s2 ++ r /\
    line_after (total s2) <= line_of (tk Q s2 ++ r) /\ line_after (total (prun Q s2)) <= line_of r.
Proof.
  intros L1 L2 S R H. exists (prun P st). split; [reflexivity|]. split; [now apply ready_l in R|]. split; [now apply ready_r|].
  split; [rewrite tk_split, app_assoc; auto; exact (ready_full _ _ R)|]. split; [apply line_split; auto; exact (ready_full _ _ R)|].
  now rewrite prun_app in H.
Qed.
Lemma cons_chain w k t Q st r : w = word k t -> wordy w -> Forall lexed Q -> ready (w :: Q) st ->
  line_after (total (prun (w :: Q) st)) <= line_of r ->
  exists s2 l c, s2 = pstep w st /\ ready Q s2 /\ tk (w :: Q) st ++ r = Token k t l c :: tk Q s2 ++ r /\
    line_after (total s2) <= line_of (tk Q s2 ++ r) /\ line_after (total (prun Q s2)) <= line_of r.
Proof.
  intros -> W L R H. change (word k t :: Q) with ([word k t] ++ Q) in *.
  destruct (chain [word k t] Q st r (lexed_word _ _ W) L (steady_write cfg _) R H) as (s2 & E & R1 & R2 & ET & L1 & L2).
  destruct (tk_words k t st W (ready_full _ _ R)) as (l & c & E'). exists s2, l, c. split; [exact E|]. split; [exact R2|].
  split; [rewrite ET, E'; reflexivity|]. now split.
Qed.
Lemma flush_chain Q st r : Forall lexed Q -> ready (PFl :: Q) st -> line_after (total (prun (PFl :: Q) st)) <= line_of r ->
  exists s2, ready Q s2 /\ tk (PFl :: Q) st = tk Q s2 /\ line_after (total (prun Q s2)) <= line_of r.
Proof.
  intros L R H. change (PFl :: Q) with ([PFl] ++ Q) in *.
  destruct (chain [PFl] Q st r lexed_flush L (steady_flush cfg) R H) as (s2 & E & R1 & R2 & ET & L1 & L2).
  exists s2. split; [exact R2|]. split; [|exact L2]. rewrite tk_split by (auto using lexed_flush; exact (ready_full _ _ R)).
  rewrite tk_flush by exact (ready_full _ _ R). now rewrite E.
Qed.
Lemma ends_voice_same r r' : same_head r r' -> ends_voice r = ends_voice r'.
Proof. intros [K L]. unfold ends_voice. rewrite K, L. reflexivity. Qed.
Lemma duration_no_bar ts d r : duration_at ts d r -> d = [] \/ kind r <> TBarline.
Proof. destruct 1 as [e He|v ts' c ns e Hc Hd]; [now left|right]. clear - Hd. induction Hd; auto. Qed.
Lemma texts_or_line P st : full st -> Forall solid P -> f_texts st <> [] ->
  f_texts (prun P st) <> [] \/ line_after (total st) < line_after (total (prun P st)).
Proof.
  revert st. induction P as [|p P IH]; intros st F S T; [now left|]. inversion S as [|? ? S1 S2]; subst.
  change (prun (p :: P) st) with (prun P (pstep p st)). pose proof (pstep_full cfg p st F S1) as F1.
  assert (X : line_after (total (pstep p st)) = line_after (total st ++ text_of (emit cfg p st))) by (now rewrite pstep_total).
  destruct (f_texts (pstep p st)) eqn:E.
  - right. pose proof (pstep_texts cfg p st E) as Q. eapply Z.lt_le_trans; [|apply line_mono; auto].
    assert (Q' : exists l, emit cfg p st = Blank newline :: l) by (destruct p; try contradiction; (destruct Q as [Q|Q]; [contradiction|exact Q])).
    destruct Q' as (l & Q'). rewrite X, Q', line_after_app, text_cons.
    change (piece_text (Blank newline)) with [newline]. cbn [app filter]. change (newline =? newline) with true. cbn [List.length]. lia.
  - destruct (IH (pstep p st)) as [Q|Q]; auto; [rewrite E; discriminate|right].
    eapply Z.le_lt_trans; [|exact Q]. rewrite X. apply line_after_le.
Qed.

(** ** One case after the other *)
Lemma fit_small_voice t n ts : fit (t :: ts) -> tkind t = TVoice n -> small n.
Proof. intros F K. pose proof (fit_valid _ _ F) as V. unfold valid in V. now rewrite K in V. Qed.

Lemma sexp_ok ts n r n' r' : kind ts = TLParen -> form ts n r -> repeated n r n' r' -> event_ok ts n' r'.
Proof.
  intros K Hform Hr F Fi. pose proof (form_eats _ _ _ Hform) as He. pose proof (fine_repeated fmt _ _ _ _ Hr Fi) as Fn.
  destruct (proj1 (lisp_prints fmt) _ _ _ Hform F (fine_printed fmt _ Fn)) as (ps & T & NE & C & S & NL & G).
  assert (Ty : nty n = LispListNode) by (inversion Hform; subst; cbn in K; try congruence; reflexivity).
  destruct (S Ty) as (Sh & q & Eq).
  assert (L : Forall lexed [PW ps]) by (constructor; [|constructor]; split; [exact NE|]; intros rest _; apply Sh; lia).
  apply (with_repeat ts n r n' r' [PW ps]); auto.
  - now apply eats1_eats.
  - destruct n as [ty l ch]. cbn in Ty. subst ty. cbn [event_ops map erase]. rewrite T. reflexivity.
  - apply steady_write.
  - rewrite K, Eq. apply headed_write.
  - destruct NL as [NL|NL]; [left; constructor; [exact NL|constructor]|now right].
  - intros st E r'' R Hr' KE CE [A Sm] LE. eapply event_follow; eauto.
    + rewrite K, Eq. apply headed_write.
    + exact (ready_full _ _ R).
    + congruence.
    + destruct (tk_write cfg ps [] st (ready_full _ _ R) NE) as (b & Et & _). rewrite Et, tk_nil, app_nil_r.
      eapply ev_sexp; [|apply G|exact Hr']. rewrite Eq. reflexivity.
Qed.

Lemma name_ok t r n' r' : tkind t = TName -> kind r <> TEquals ->
  repeated (leaf VariableReferenceNode (LitText (ttext t))) r n' r' -> event_ok (t :: r) n' r'.
Proof.
  intros K Kr Hr F Fi. pose proof (fit_valid _ _ F) as V. unfold valid in V. rewrite K in V. pose proof (wordy_name _ V) as W.
  apply (with_repeat (t :: r) _ r n' r' [word TName (ttext t)] F Fi Hr).
  - apply eats_one. congruence.
  - cbn [event_ops leaf map erase word]. now rewrite text_one.
  - now apply lexed_word.
  - apply steady_write.
  - cbn [kind]. rewrite K. apply headed_write.
  - left. now apply flat_word.
  - intros st E r'' R Hr' KE CE [A Sm] LE. destruct (tk_words TName (ttext t) st W (ready_full _ _ R)) as (l & c & ET). rewrite ET. cbn [app].
    assert (Ev : event (Token TName (ttext t) l c :: E) n' r'').
    { apply ev_name; [reflexivity|congruence|exact Hr']. }
    split; [exact Ev|]. split; [eapply event_ahead; eauto|]. apply same_name; [exact K|now symmetry].
Qed.

Lemma notes_ok ts ns k r : notes_at ts ns k r -> event_ok ts (maybe_times (one_or_chord ns) k) r.
Proof.
  intros H F Fi.
  assert (K : kind ts <> TName) by (destruct (chord_complete _ _ _ _ H) as (t & ts' & -> & _ & [[l K]|K] & _); cbn [kind]; congruence).
  assert (Fn : Forall fine ns).
  { assert (Fi' : fine (one_or_chord ns)).
    { unfold maybe_times in Fi. destruct (0 <? k); [|exact Fi]. apply fine_ch in Fi. now inversion Fi. }
    unfold one_or_chord in Fi'. destruct ns as [|n [|m ns]]; [constructor|constructor; [exact Fi'|constructor]|now apply fine_ch in Fi']. }
  destruct (notes_print fmt cfg _ _ _ _ H F Fn) as (P & T & A1 & A2 & A3 & A4 & NR & K0 & KS & G).
  assert (T1 : event_ops fmt (one_or_chord ns) = Some (map erase P)).
  { destruct ns as [|n [|m ns]]; [discriminate|now apply chord_ops_one|exact T]. }
  unfold maybe_times. destruct (0 <? k) eqn:Ek.
  - pose proof (wordy_repeat k KS) as W. exists (P ++ [word (TRepeat k) (rn "*" :: itoa k)]).
    assert (L : Forall lexed (P ++ [word (TRepeat k) (rn "*" :: itoa k)])) by (apply Forall_app; split; [exact A1|now apply lexed_word]).
    assert (Hd : headed (kind ts) (P ++ [word (TRepeat k) (rn "*" :: itoa k)])) by (now apply headed_app).
    split; [rewrite ops_repeat, T1, map_app; cbn [map erase word]; rewrite text_one; reflexivity|].
    split; [exact L|]. split; [apply steady_app; [now apply steady_writes|apply steady_write]|]. split; [exact Hd|].
    split. { destruct A4 as [A4|A4]; [left|now right]. apply Forall_app. split; [exact A4|now apply flat_word]. }
    intros st r' R [A Sm] L1. eapply event_follow; auto; [exact (ready_full _ _ R)|].
    rewrite tk_split by (auto; exact (ready_full _ _ R)). rewrite <- app_assoc.
    pose proof (ready_r _ _ _ (steady_writes cfg P A2) A1 R) as R2.
    destruct (tk_words (TRepeat k) (rn "*" :: itoa k) (prun P st) W (ready_full _ _ R2)) as (l & c & ET). rewrite ET. cbn [app].
    pose proof (ev_notes (tk P st ++ Token (TRepeat k) (rn "*" :: itoa k) l c :: r') ns k r') as EV.
    unfold maybe_times in EV. rewrite Ek in EV. apply EV. apply G; [exact (ready_full _ _ R)|]. unfold after_notes. rewrite Ek.
    eexists. split; reflexivity.
  - exists P. split; [exact T1|]. split; [exact A1|]. split; [now apply steady_writes|]. split; [exact A3|]. split; [exact A4|].
    intros st r' R [A Sm] L1. eapply event_follow; auto; [exact (ready_full _ _ R)|].
    pose proof (ev_notes (tk P st ++ r') ns k r') as EV.
    unfold maybe_times in EV. rewrite Ek in EV. apply EV. apply G; [exact (ready_full _ _ R)|]. unfold after_notes. rewrite Ek.
    split; [reflexivity|now split].
Qed.

Lemma seq_ok t ts es r n' r' : tkind t = TSeqOpen -> seq_body ts es r -> body_ok TSeqClose seq_body ts es r ->
  repeated (branch EventSequenceNode es) r n' r' -> event_ok (t :: ts) n' r'.
Proof.
  intros K Hb IH Hr F Fi. pose proof (fine_repeated fmt _ _ _ _ Hr Fi) as Fn. apply fine_ch in Fn.
  destruct (proj1 (proj2 (proj2 event_complete)) _ _ _ Hb) as [He _]. apply eats1_eats in He.
  destruct (IH (fit_cons _ _ F) Fn) as (P & T & A1 & A2 & A3 & G).
  pose proof (wordy_simple _ _ SpecScan.s3) as W1. pose proof (wordy_simple _ _ SpecScan.s4) as W2.
  set (Q2 := (PIn :: P ++ [PUn]) ++ [word TSeqClose [rn "]"]]).
  assert (L2 : Forall lexed Q2) by (apply Forall_app; split; [now apply lexed_in|now apply lexed_word]).
  assert (L1 : Forall lexed (word TSeqOpen [rn "["] :: Q2)) by (constructor; [apply W1|exact L2]).
  assert (S2 : steady Q2) by (apply steady_app; [now apply steady_indent|apply steady_write]).
  apply (with_repeat (t :: ts) _ r n' r' (PFl :: word TSeqOpen [rn "["] :: Q2) F Fi Hr).
  - eapply eats_trans; [apply eats_one; congruence|exact He].
  - rewrite ops_seq, T. unfold Q2, word. cbn [app map erase oapp]. rewrite !map_app. cbn [map erase oapp app]. rewrite !text_one, <- ?app_assoc.
    reflexivity.
  - constructor; [exact I|exact L1].
  - apply (steady_app cfg [PFl]); [apply steady_flush|]. apply (steady_app cfg [word TSeqOpen [rn "["]]); [apply steady_write|exact S2].
  - cbn [kind]. rewrite K. apply headed_op; [apply headed_write|now left].
  - apply flat_tail; [exact F|congruence|exact He|]. destruct A3 as [A3|A3]; [left|now right].
    constructor; [exact I|]. constructor; [apply W1|]. apply Forall_app. split; [now apply flat_in|now apply flat_word].
  - intros st E r'' R Hr' KE CE [A Sm] LE. eapply event_follow; auto.
    + cbn [kind]. rewrite K. apply headed_op; [apply headed_write|now left].
    + constructor; [exact I|exact L1].
    + exact (ready_full _ _ R).
    + cbn [kind]. congruence.
    + destruct (flush_chain _ _ _ L1 R LE) as (s1 & R1 & -> & LE1).
      destruct (cons_chain _ _ _ _ _ _ eq_refl W1 L2 R1 LE1) as (s2 & l & c & _ & R2 & -> & _ & LE2).
      unfold Q2 in R2, LE2 |- *.
      destruct (chain _ _ _ _ (lexed_in _ A1) (lexed_word _ _ W2) (steady_indent cfg _ A2) R2 LE2) as (s3 & E3 & R3 & R3' & -> & LE3 & _).
      rewrite tk_in by (auto; exact (ready_full _ _ R3)).
      destruct (tk_words _ _ s3 W2 (ready_full _ _ R3')) as (l' & c' & ET). rewrite ET in *. cbn [app line_of] in LE3 |- *. subst s3.
      eapply ev_seq; [reflexivity| |exact Hr']. apply G; [now apply ready_in|reflexivity|].
      apply line_in; auto. exact (ready_full _ _ R3).
Qed.

Lemma cram_ok t ts es r1 d r n' r' : tkind t = TCramOpen -> cram_body ts es r1 -> body_ok TCramClose cram_body ts es r1 ->
  es <> [] -> duration_at r1 d r -> repeated (cram_node es d) r n' r' -> event_ok (t :: ts) n' r'.
Proof.
  intros K Hb IH NE Hd Hr F Fi. pose proof (fine_repeated fmt _ _ _ _ Hr Fi) as Fn. apply fine_ch in Fn.
  inversion Fn as [|? ? Fe Fd]; subst. apply fine_ch in Fe.
  destruct (proj1 (proj2 (proj2 (proj2 event_complete))) _ _ _ Hb) as [He _]. apply eats1_eats in He.
  pose proof (duration_eats _ _ _ Hd) as Hed.
  destruct (IH (fit_cons _ _ F) Fe) as (P & T & A1 & A2 & A3 & G).
  pose proof (wordy_simple _ _ SpecScan.s1) as W1.
  assert (Ed : Forall (everywhere (number_printed fmt)) d) by (revert Fd; apply Forall_impl; apply fine_printed).
  destruct (with_duration_prints fmt cfg false _ _ _ [Lexeme TCramClose [rn "}"]] Hd (fit_eats _ _ (fit_cons _ _ F) He) Ed) as (D & TD & B1 & B2 & B3 & (q & D' & B4) & GD).
  { intros rest _. apply wfr_simple; [constructor|discriminate|discriminate]. }
  { discriminate. }
  { intros [X|[]]. discriminate. }
  { now left. }
  assert (L2 : Forall lexed (P ++ D)) by (apply Forall_app; now split).
  assert (L1 : Forall lexed (word TCramOpen [rn "{"] :: P ++ D)) by (constructor; [apply W1|exact L2]).
  apply (with_repeat (t :: ts) _ r n' r' (word TCramOpen [rn "{"] :: P ++ D) F Fi Hr).
  - eapply eats_trans; [apply eats_one; congruence|]. eapply eats_trans; eauto.
  - rewrite ops_cram, T.
    assert (X : match d with
      | [] => oapp (Some [FWrite [rn "{"]]) (oapp (Some (map erase P)) (Some [FWrite [rn "}"]]))
      | [Node DurationNode _ l] => oapp (Some [FWrite [rn "{"]]) (oapp (Some (map erase P)) (with_duration fmt [rn "}"] l []))
      | _ => None
      end = oapp (Some [FWrite [rn "{"]]) (oapp (Some (map erase P)) (match d with
            | Node DurationNode _ l :: _ => with_duration fmt (text_of [Lexeme TCramClose [rn "}"]]) l (text_of (post_ok false))
            | _ => Some [FWrite (text_of [Lexeme TCramClose [rn "}"]] ++ text_of (post_ok false))]
            end))) by (destruct Hd; reflexivity).
    rewrite X, TD. unfold word. cbn [oapp map erase app]. rewrite map_app, text_one. reflexivity.
  - exact L1.
  - apply (steady_app cfg [word TCramOpen [rn "{"]]); [apply steady_write|]. apply steady_app; [exact A2|now apply steady_writes].
  - cbn [kind]. rewrite K. apply headed_write.
  - apply (flat_join [word TCramOpen [rn "{"]] (P ++ D) (t :: ts) ts r); auto.
    + apply eats_one. congruence.
    + eapply eats_trans; eauto.
    + left. now apply flat_word.
    + apply flat_join with r1; auto. now apply fit_cons in F.
  - intros st E r'' R Hr' KE CE [A Sm] LE. eapply event_follow; auto.
    + cbn [kind]. rewrite K. apply headed_write.
    + exact (ready_full _ _ R).
    + cbn [kind]. congruence.
    + destruct (cons_chain _ _ _ _ _ _ eq_refl W1 L2 R LE) as (s2 & l & c & _ & R2 & -> & _ & LE2).
      destruct (chain _ _ _ _ A1 B1 A2 R2 LE2) as (s3 & E3 & R3 & R3' & -> & LE3 & _).
      destruct (GD s3 E (ready_full _ _ R3') CE) as (b & X & E' & E1 & E2 & E5 & _).
      { right. destruct (duration_no_bar _ _ _ Hd) as [Q|Q]; [now left|right; congruence]. }
      rewrite E1 in *. cbn [toks app line_of] in LE3 |- *. subst s3 E'.
      eapply ev_cram; [reflexivity| |exact NE|exact E5|exact Hr']. apply G; [exact R3|reflexivity|exact LE3].
Qed.

Lemma voices_event_ok t n ts vs r : tkind t = TVoice n -> voices_at n ts vs r -> voices_ok n ts vs r ->
  event_ok (t :: ts) (branch VoiceGroupNode vs) r.
Proof.
  intros K Hv IH F Fi. apply fine_ch in Fi. pose proof (fit_small_voice _ _ _ F K) as Sn.
  destruct (proj2 (proj2 (proj2 (proj2 (proj2 event_complete)))) _ _ _ _ Hv) as [He _].
  destruct (IH (fit_cons _ _ F) Sn Fi) as (P & T & A1 & A2 & A3 & A4 & G).
  assert (Hd : headed (kind (t :: ts)) (PFl :: P)) by (cbn [kind]; rewrite K; apply headed_op; [exact A3|now left]).
  assert (L : Forall lexed (PFl :: P)) by (constructor; [exact I|exact A1]).
  exists (PFl :: P). split; [rewrite ops_voices, T; reflexivity|]. split; [exact L|].
  split; [apply (steady_app cfg [PFl]); [apply steady_flush|exact A2]|]. split; [exact Hd|].
  split. { apply flat_tail; [exact F|congruence|exact He|]. destruct A4 as [A4|A4]; [left; constructor; [exact I|exact A4]|now right]. }
  intros st r' R Fo LE. eapply event_follow; auto.
  - exact (ready_full _ _ R).
  - cbn [kind]. congruence.
  - apply Fo.
  - destruct (flush_chain _ _ _ A1 R LE) as (s1 & R1 & -> & LE1).
    destruct (G s1 r' R1 Fo LE1) as (x & X & -> & Kx & Hx). now apply ev_voices with n.
Qed.

Lemma on_line_end line ts es r : on_line line ts es r -> kind r = TEOF \/ line_of r <> line.
Proof. induction 1; auto. Qed.
Lemma define_ok t e ts es r : tkind t = TName -> tkind e = TEquals -> kind ts <> TEOF -> line_of ts <= tline t ->
  on_line (tline t) ts es r -> on_line_ok (tline t) ts es r -> event_ok (t :: e :: ts) (var_def_node (ttext t) es) r.
Proof.
  intros K Ke Kt Lt Ho IH F Fi. apply fine_ch in Fi. inversion Fi as [|? ? _ Fi']; subst. inversion Fi' as [|? ? Fe _]; subst. apply fine_ch in Fe.
  pose proof (fit_valid _ _ F) as V. unfold valid in V. rewrite K in V.
  destruct (proj1 (proj2 event_complete) _ _ _ _ Ho) as [He _].
  assert (Het : eats (t :: e :: ts) ts) by (eapply eats_trans; apply eats_one; congruence).
  pose proof (fit_eats _ _ F Het) as Ft.
  assert (LL : line_of ts = tline t).
  { destruct (fit_le _ _ F Het) as [Q|Q]; [congruence|]. cbn in Q. lia. }
  assert (NE : es <> []).
  { intros ->. inversion Ho as [? ? [Q|Q]|]; subst; congruence. }
  destruct (IH Ft Fe NE) as (P & T & A1 & A2 & G).
  set (w := [Lexeme TName (ttext t); Blank space; Lexeme TEquals [rn "="]]).
  destruct (name_flat _ V) as [Vn Vf].
  assert (NEw : text_of w <> []) by (unfold w; rewrite text_cons; cbn [piece_text]; intros X; apply app_eq_nil in X; tauto).
  assert (Lw : lexed (PW w)).
  { split; [exact NEw|]. intros rest R. unfold w. cbn [wfr].
    split; [apply name_lexeme; [exact V|reflexivity]|]. split; [now left|]. split; [apply lx_simple; constructor|reflexivity]. }
  assert (LW : Forall lexed [PFl; PVar VDefining; PW w]) by (repeat (apply Forall_cons; [first [exact I|exact Lw]|]); constructor).
  assert (LE0 : Forall lexed [PVar VNone; PFl]) by (repeat (apply Forall_cons; [exact I|]); constructor).
  exists ([PFl; PVar VDefining; PW w] ++ P ++ [PVar VNone; PFl]).
  assert (LP : Forall lexed ([PFl; PVar VDefining; PW w] ++ P ++ [PVar VNone; PFl])).
  { apply Forall_app. split; [exact LW|]. apply Forall_app. now split. }
  split. { rewrite ops_define, T, !map_app. cbn [oapp map erase app]. unfold w. rewrite text_cons. reflexivity. }
  split; [exact LP|].
  assert (ST : forall st, f_var (prun [PFl; PVar VDefining; PW w] st) = VDefining /\
      f_texts (prun [PFl; PVar VDefining; PW w] st) <> [] /\ f_level (prun [PFl; PVar VDefining; PW w] st) = f_level st /\
      (0 <= f_level st -> levels_ok cfg (map erase [PFl; PVar VDefining; PW w]) st = true)).
  { intros st. change [PFl; PVar VDefining; PW w] with ([PFl] ++ [PVar VDefining] ++ [PW w]). rewrite !prun_app, !map_app, !levels_ok_app, !frun_prun.
    destruct (steady_flush cfg st) as (X1 & _ & _ & _ & _ & X2); [intros _; apply flat_flush|].
    set (s1 := prun [PFl] st) in *.
    assert (Y : prun [PVar VDefining] s1 = FState VDefining (f_level s1) (f_texts s1) (f_out s1)) by reflexivity. rewrite Y.
    split; [reflexivity|]. split; [intros Z; exact (app_cons_not_nil _ _ _ (eq_sym Z))|]. split; [exact X1|].
    intros L0. rewrite X2 by exact L0. rewrite <- X1 in L0. apply Z.leb_le in L0. cbn [map erase levels_ok fstep f_level f_var]. rewrite L0. reflexivity. }
  split.
  { intros st D. destruct (ST st) as (X1 & X2 & X3 & X4). rewrite !prun_app. set (s1 := prun [PFl; PVar VDefining; PW w] st) in *.
    destruct (A2 s1 X1 X2) as (Y1 & Y2). set (s2 := prun P s1) in *.
    assert (Z1 : f_var (prun [PVar VNone; PFl] s2) = VNone /\ f_level (prun [PVar VNone; PFl] s2) = f_level s2 /\
                 (0 <= f_level s2 -> levels_ok cfg (map erase [PVar VNone; PFl]) s2 = true)).
    { cbn [fold_left map erase levels_ok fstep]. unfold ProofFormat.prun. cbn [fold_left]. unfold ProofFormat.pstep. cbn [erase fstep]. unfold flush. cbn [f_texts f_var f_level].
      destruct (f_texts s2); cbn [f_var f_level]; (split; [reflexivity|]; split; [reflexivity|]; intros L0; apply Z.leb_le in L0; rewrite L0; reflexivity). }
    destruct Z1 as (Z1 & Z2 & Z3).
    split; [congruence|]. split; [auto|]. split; [|split; [intros _; rewrite Z1; discriminate|split; [intros _ Q; congruence|]]].
    - intros V0. specialize (D V0). inversion D as [|? ? _ D1]; subst. inversion D1 as [|? ? D2 _]; subst. destruct D2.
    - intros L0. rewrite !map_app, !levels_ok_app, !frun_prun. fold s1. fold s2.
      rewrite X4 by exact L0. rewrite Y2 by congruence. rewrite Z3 by congruence. reflexivity. }
  split. { cbn [kind]. rewrite K. apply headed_op; [|now left]. apply headed_op; [|right; now exists VDefining]. apply headed_write. }
  split. { right. destruct (on_line_end _ _ _ _ Ho) as [Q|Q]; [now left|].
    destruct (fit_le _ _ F (eats_trans _ _ _ Het He)) as [Q'|Q']; [now left|]. right. cbn [line_of] in Q' |- *. lia. }
  intros st r' R [A Sm] LE. destruct (ST st) as (X1 & X2 & X3 & X4).
  pose proof (ready_full _ _ R) as F0.
  assert (SD : Forall solid [PFl; PVar VDefining; PW w]) by (now apply lexed_solid).
  assert (F1 : full (prun [PFl; PVar VDefining; PW w] st)) by (now apply prun_full).
  rewrite !tk_split by auto. rewrite !prun_app in LE.
  assert (E0 : exists b, tk [PFl; PVar VDefining; PW w] st = toks b w /\ line_after (total (prun [PFl; PVar VDefining; PW w] st)) = line_after b).
  { rewrite tk_op by (auto; exact I). rewrite tk_op; [|apply pstep_full; [exact F0|exact I]|exact I|exact I].
    set (s' := pstep (PVar VDefining) (pstep PFl st)). assert (F' : full s') by (apply pstep_full; [apply pstep_full; [exact F0|exact I]|exact I]).
    destruct (tk_write cfg w [] s' F' NEw) as (b & E1 & _ & E2). exists b. split; [rewrite E1, tk_nil, app_nil_r; reflexivity|].
    change (prun [PFl; PVar VDefining; PW w] st) with (pstep (PW w) s'). rewrite E2. rewrite <- line_after_app. apply line_after_flat.
    unfold w. rewrite !text_cons. cbn [piece_text app]. apply no_newline_app. split; [exact Vf|]. intros [X|[X|[]]]; discriminate. }
  destruct E0 as (b & E0 & LB). set (s1 := prun [PFl; PVar VDefining; PW w] st) in *.
  rewrite E0. unfold w. cbn [toks app]. set (s2 := prun P s1) in *.
  assert (F2 : full s2) by (apply prun_full; [exact F1|now apply lexed_solid]).
  assert (TK0 : tk [PVar VNone; PFl] s2 = []).
  { rewrite tk_op by (auto; exact I). apply tk_flush. apply pstep_full; [exact F2|exact I]. }
  rewrite TK0, app_nil_r.
  assert (LE2 : line_after (total s2) <= line_of r').
  { eapply Z.le_trans; [|exact LE]. apply line_mono; [exact F2|now apply lexed_solid]. }
  assert (LE1 : line_after (total s1) < line_of r').
  { eapply Z.lt_le_trans; [|exact LE].
    destruct (texts_or_line P s1 F1 (lexed_solid _ A1) X2) as [Q|Q].
    - fold s2 in Q. eapply Z.le_lt_trans; [apply (line_mono P s1 F1 (lexed_solid _ A1))|].
      fold s2. change (prun [PVar VNone; PFl] s2) with (pstep PFl (pstep (PVar VNone) s2)).
      assert (F3 : full (pstep (PVar VNone) s2)) by (now apply pstep_full).
      rewrite pstep_total; [|exact F3|exact I].
      assert (TE : total (pstep (PVar VNone) s2) = total s2) by reflexivity. rewrite TE.
      assert (EM : emit cfg PFl (pstep (PVar VNone) s2) = [Blank newline]).
      { unfold emit, flush_pieces. change (f_texts (pstep (PVar VNone) s2)) with (f_texts s2). change (f_var (pstep (PVar VNone) s2)) with VNone.
        destruct (f_texts s2); [congruence|reflexivity]. }
      rewrite EM, line_after_app, text_cons. change (piece_text (Blank newline)) with [newline]. cbn [app filter].
      change (newline =? newline) with true. cbn [List.length]. lia.
    - eapply Z.lt_le_trans; [exact Q|]. apply line_mono; [exact F2|now apply lexed_solid]. }
  destruct (G s1 r' F1 X1 X2 (conj A Sm) LE2 LE1) as [H1 H2].
  assert (H3 : kind (tk P s1 ++ r') <> TEOF /\ line_of (tk P s1 ++ r') = line_after (total s1)).
  { inversion H1; subst; [congruence|]. now split. }
  assert (Ev : event (Token TName (ttext t) (line_after b) (column_after b) ::
       Token TEquals [rn "="] (line_after ((b ++ ttext t) ++ [space])) (column_after ((b ++ ttext t) ++ [space])) :: tk P s1 ++ r') (var_def_node (ttext t) es) r').
  { apply (ev_define (Token TName (ttext t) (line_after b) (column_after b)) _ (tk P s1 ++ r') es r'); try reflexivity.
    - apply H3.
    - cbn [tline]. destruct H3. lia.
    - cbn [tline]. rewrite <- LB. exact H1. }
  split; [exact Ev|]. split; [eapply event_ahead; eauto|]. apply same_name; [exact K|exact Ke].
Qed.
End Main.
