(** Printed scores read back. *)
From Coq Require Import String Ascii ZArith List Bool Lia.
From Verif Require Import Base Num ModelScan SpecScan ProofScan ModelParser SpecParser ProofParser ProofParseText
  ModelAst ModelFormat SpecFormat ProofFormat ProofFormatTok ProofFormatLisp ProofFormatNote ProofFormatEvent ProofFormatMain.
Import ListNotations.
Local Open Scope list_scope.
Local Open Scope Z_scope.

Section Top.
Context {N : Num}.
Variable fmt : num -> list rune.
Variable cfg : config.
Notation tk := (tk cfg).
Notation prun := (prun cfg).
Notation pstep := (pstep cfg).
Notation total := (total cfg).
Notation steady := (steady cfg).
Notation fine := (fine fmt).
Notation event_ok := (event_ok fmt cfg).
Notation on_line_ok := (on_line_ok fmt cfg).
Notation body_ok := (body_ok fmt cfg).
Notation open_ok := (open_ok fmt cfg).
Notation voices_ok := (voices_ok fmt cfg).

Lemma line_nil_ok line r : on_line_ok line r [] r.
Proof. intros _ _ X. congruence. Qed.
Lemma line_event_ok line ts n r ns r' : kind ts <> TEOF -> line_of ts = line -> event ts n r -> event_ok ts n r ->
  on_line line r ns r' -> on_line_ok line r ns r' -> on_line_ok line ts (n :: ns) r'.
Proof.
  intros K L Hev IHe Ho IHo F Fi _. inversion Fi as [|? ? Fn Fns]; subst.
  destruct (proj1 event_complete _ _ _ Hev) as [He _].
  destruct (IHe F Fn) as (P & T & A1 & A2 & A3 & A4 & G).
  destruct ns as [|m ns].
  - inversion Ho; subst. exists (PVar VLast :: P). split; [cbn [line_ops oapp map erase]; rewrite T; reflexivity|].
    split; [constructor; [exact I|exact A1]|]. split.
    + intros st V X. change (prun (PVar VLast :: P) st) with (prun P (pstep (PVar VLast) st)).
      destruct (A2 (pstep (PVar VLast) st)) as (B1 & _ & _ & _ & _ & B6); [discriminate|].
      split; [exact B1|]. intros L0. cbn [map erase levels_ok]. change (fstep cfg (FVar VLast) st) with (pstep (PVar VLast) st).
      rewrite B6 by exact L0. apply Z.leb_le in L0. change (f_level (pstep (PVar VLast) st)) with (f_level st). now rewrite L0.
    + intros st r'' Fs V X Fo LE LT. rewrite tk_op by (auto; exact I).
      change (prun (PVar VLast :: P) st) with (prun P (pstep (PVar VLast) st)) in LE.
      set (s1 := pstep (PVar VLast) st) in *. assert (F1 : full s1) by (now apply pstep_full).
      assert (R : ready P s1) by (split; [exact F1|split; [discriminate|intros _; exact X]]).
      destruct (G s1 r'' R Fo LE) as [E1 E2]. split; [|exact E2].
      apply ol_event with r''; [| |exact E1|].
      * rewrite (headed_kind cfg _ _ s1 A3 F1 (lexed_solid _ A1)). exact K.
      * rewrite (headed_line cfg _ _ s1 A3 F1 (lexed_solid _ A1)); [reflexivity|discriminate|exact X].
      * apply ol_end. right. lia.
  - assert (Fl : Forall flat P).
    { destruct A4 as [A4|A4]; [exact A4|]. inversion Ho; subst. destruct A4 as [A4|A4]; [congruence|lia]. }
    destruct (IHo (fit_eats _ _ F (eats1_eats _ _ He)) Fns) as (Q & T' & B1 & B2 & G'); [discriminate|].
    exists (P ++ Q). split.
    { change (line_ops fmt (n :: m :: ns)) with (oapp (event_ops fmt n) (line_ops fmt (m :: ns))). rewrite T, T', map_app. reflexivity. }
    split; [apply Forall_app; now split|]. split.
    + intros st V X. rewrite prun_app, map_app, levels_ok_app, frun_prun.
      destruct (A2 st (fun _ => Fl)) as (C1 & _ & C3 & _ & C5 & C6).
      destruct (B2 (prun P st)) as [D1 D2]; [now apply C3|apply C5; [intros _; exact X|rewrite C3 by exact V; discriminate]|].
      split; [congruence|]. intros L0. rewrite C6, D2 by congruence. reflexivity.
    + intros st r'' Fs V X Fo LE LT. rewrite (tk_split cfg) by auto. rewrite <- app_assoc. rewrite prun_app in LE.
      destruct (defining_run cfg P st Fl Fs (lexed_solid _ A1) V X) as (C1 & C2 & C3 & C4).
      assert (F1 : full (prun P st)) by (apply prun_full; [exact Fs|now apply lexed_solid]).
      destruct (G' (prun P st) r'' F1 C1 C2 Fo LE) as [E1 E2]; [now rewrite C4|].
      destruct (G st (tk Q (prun P st) ++ r'')) as [E3 E4].
      * split; [exact Fs|split; [intros _; exact Fl|intros _; exact X]].
      * exact E2.
      * apply tk_line; [exact F1|now apply lexed_solid|exact LE].
      * split; [|exact E4]. apply ol_event with (tk Q (prun P st) ++ r''); [| |exact E3|rewrite <- C4; exact E1].
        -- rewrite (headed_kind cfg _ _ st A3 Fs (lexed_solid _ A1)). exact K.
        -- rewrite (headed_line cfg _ _ st A3 Fs (lexed_solid _ A1)); [reflexivity|congruence|exact X].
Qed.

Lemma body_nil_ok close (body : list token -> list node -> list token -> Prop) t r : close = TSeqClose \/ close = TCramClose -> tkind t = close ->
  (forall t r, tkind t = close -> body (t :: r) [] r) -> body_ok close body (t :: r) [] r.
Proof.
  intros C K H F _. exists []. split; [reflexivity|]. split; [constructor|]. split; [apply steady_nil|]. split; [left; constructor|].
  intros st c r' R Kc LE. rewrite tk_nil. cbn [app]. split; [now apply H|]. eapply follow_close; eauto.
Qed.
Lemma body_event_ok close (body : list token -> list node -> list token -> Prop) ts n r ns r' : close = TSeqClose \/ close = TCramClose ->
  event ts n r -> event_ok ts n r -> eats r r' -> body_ok close body r ns r' ->
  (forall ts x y, event ts n x -> kind x = kind r -> body x ns y -> body ts (n :: ns) y) ->
  body_ok close body ts (n :: ns) r'.
Proof.
  intros C Hev IHe Her IHb H F Fi. inversion Fi as [|? ? Fn Fns]; subst.
  destruct (proj1 event_complete _ _ _ Hev) as [He _]. apply eats1_eats in He.
  destruct (IHe F Fn) as (P & T & A1 & A2 & A3 & A4 & G).
  destruct (IHb (fit_eats _ _ F He) Fns) as (Q & T' & B1 & B2 & B3 & G').
  exists (P ++ Q). split; [now apply ops_cons|]. split; [apply Forall_app; now split|]. split; [now apply steady_app|].
  split; [now apply flat_join with r|].
  intros st c r'' R Kc LE. change (tline c) with (line_of (c :: r'')) in LE.
  destruct (chain cfg _ _ _ _ A1 B1 A2 R LE) as (s2 & E & R1 & R2 & -> & L1 & L2). subst s2.
  destruct (G' _ c r'' R2 Kc L2) as [E1 E2]. destruct (G _ _ R1 E2 L1) as [E3 E4]. split; [|exact E4].
  eapply H; [exact E3| |exact E1]. symmetry. apply E2.
Qed.
Lemma body_reps_ok ts n t rs r ns r' : event ts n (t :: r) -> event_ok ts n (t :: r) -> tkind t = TReps rs -> eats r r' ->
  body_ok TSeqClose seq_body r ns r' -> body_ok TSeqClose seq_body ts (on_repetitions n rs :: ns) r'.
Proof.
  intros Hev IHe K Her IHb F Fi. inversion Fi as [|? ? Fn Fns]; subst. apply fine_ch in Fn. inversion Fn as [|? ? Fn' _]; subst.
  destruct (proj1 event_complete _ _ _ Hev) as [He _]. apply eats1_eats in He. pose proof (fit_eats _ _ F He) as F1.
  pose proof (fit_valid _ _ F1) as V. unfold valid in V. rewrite K in V. destruct V as [V1 V2].
  destruct (ranges_print rs V1 V2) as (xs & b & TX & RX & NL & _). pose proof (wordy_reps _ _ _ RX NL) as W.
  destruct (IHe F Fn') as (P & T & A1 & A2 & A3 & A4 & G).
  destruct (IHb (fit_cons _ _ F1) Fns) as (Q & T' & B1 & B2 & B3 & G').
  set (w := word (TReps rs) (rn "'" :: join [rn ","] xs)).
  assert (LW : Forall lexed (w :: Q)) by (constructor; [apply W|exact B1]).
  assert (Het : eats (t :: r) r) by (apply eats_one; congruence).
  exists (P ++ w :: Q). split.
  { cbn [events_ops]. rewrite ops_reps, TX, T, T', map_app. unfold w. cbn [oapp map erase word]. rewrite text_one, <- app_assoc. reflexivity. }
  split; [apply Forall_app; now split|].
  split; [apply steady_app; [exact A2|]; apply (steady_app cfg [w]); [apply steady_write|exact B2]|].
  split.
  { apply flat_join with (t :: r); auto; [eapply eats_trans; eauto|].
    apply (flat_join [w] Q) with r; auto. left. now apply flat_word. }
  intros st c r'' R Kc LE. change (tline c) with (line_of (c :: r'')) in LE.
  destruct (chain cfg _ _ _ _ A1 LW A2 R LE) as (s2 & E & R1 & R2 & -> & L1 & L2). subst s2.
  destruct (cons_chain cfg _ _ _ _ _ _ eq_refl W B1 R2 L2) as (s3 & l & k & _ & R3 & E3 & _ & L3). fold w in E3. rewrite E3 in *.
  destruct (G' _ c r'' R3 Kc L3) as [E1 E2].
  assert (Fo : follow (t :: r) (Token (TReps rs) (rn "'" :: join [rn ","] xs) l k :: tk Q s3 ++ c :: r'')).
  { split; [|apply same_other; cbn [kind tkind]; congruence].
    apply ahead_plain; cbn [kind tkind]; try discriminate; try reflexivity; intros; discriminate. }
  destruct (G _ _ R1 Fo L1) as [E4 E5]. split; [|exact E5]. eapply sb_reps; [exact E4|reflexivity|exact E1].
Qed.

Lemma open_nil_ok (body : list token -> list node -> list token -> Prop) r : (forall r', follow r r' -> body r' [] r') -> open_ok body r [] r.
Proof.
  intros H F _. exists []. split; [reflexivity|]. split; [constructor|]. split; [apply steady_nil|]. split; [left; constructor|].
  intros st r' R Fo LE. rewrite tk_nil. cbn [app]. split; [now apply H|exact Fo].
Qed.
Lemma open_event_ok (body : list token -> list node -> list token -> Prop) ts n r ns r' : event ts n r -> event_ok ts n r -> eats r r' -> open_ok body r ns r' ->
  (forall ts' x y, event ts' n x -> same_head ts ts' -> body x ns y -> body ts' (n :: ns) y) -> open_ok body ts (n :: ns) r'.
Proof.
  intros Hev IHe Her IHb H F Fi. inversion Fi as [|? ? Fn Fns]; subst.
  destruct (proj1 event_complete _ _ _ Hev) as [He _]. apply eats1_eats in He.
  destruct (IHe F Fn) as (P & T & A1 & A2 & A3 & A4 & G).
  destruct (IHb (fit_eats _ _ F He) Fns) as (Q & T' & B1 & B2 & B3 & G').
  exists (P ++ Q). split; [now apply ops_cons|]. split; [apply Forall_app; now split|]. split; [now apply steady_app|].
  split; [now apply flat_join with r|].
  intros st r'' R Fo LE.
  destruct (chain cfg _ _ _ _ A1 B1 A2 R LE) as (s2 & E & R1 & R2 & -> & L1 & L2). subst s2.
  destruct (G' _ r'' R2 Fo L2) as [E1 E2]. destruct (G _ _ R1 E2 L1) as [E3 E4]. split; [|exact E4].
  eapply H; [exact E3| |exact E1]. apply E4.
Qed.

(** One voice: its marker, then its events. *)
Lemma one_voice n ts es r : small n -> fit ts -> fine (voice_node n es) -> open_ok voice_body ts es r ->
  exists P, event_ops fmt (voice_node n es) = Some (map erase P) /\ Forall lexed P /\ steady P /\ headed (TVoice n) P /\
    (Forall flat P \/ later ts r) /\
    forall st r', ready P st -> follow r r' -> line_after (total (prun P st)) <= line_of r' ->
      exists x X, tk P st ++ r' = x :: X /\ tkind x = TVoice n /\ voice_body X es r'.
Proof.
  intros Sn F Fi IH. apply fine_ch in Fi. inversion Fi as [|? ? _ Fi']; subst. inversion Fi' as [|? ? Fe _]; subst. apply fine_ch in Fe.
  destruct (IH F Fe) as (P & T & A1 & A2 & A3 & G). pose proof (wordy_voice n Sn) as W.
  exists (word (TVoice n) (rn "V" :: itoa n ++ [rn ":"]) :: PIn :: P ++ [PUn]).
  split. { rewrite ops_voice, T. unfold word. cbn [oapp map erase app]. rewrite map_app, text_one. reflexivity. }
  split; [constructor; [apply W|now apply lexed_in]|].
  split; [apply (steady_app cfg [word (TVoice n) (rn "V" :: itoa n ++ [rn ":"])]); [apply steady_write|now apply steady_indent]|].
  split; [apply headed_write|].
  split. { destruct A3 as [A3|A3]; [left; constructor; [apply W|now apply flat_in]|now right]. }
  intros st r' R Fo LE.
  destruct (cons_chain cfg _ _ _ _ _ _ eq_refl W (lexed_in _ A1) R LE) as (s2 & l & c & _ & R2 & -> & _ & LE2).
  eexists _, _. split; [reflexivity|]. split; [reflexivity|].
  rewrite (tk_in cfg) by (auto; exact (ready_full _ _ R2)). apply G; [now apply ready_in|exact Fo|].
  apply line_in; auto. exact (ready_full _ _ R2).
Qed.
Lemma follow_voice t m r c r' : tkind t = TVoice m -> tkind c = TVoice m -> follow (t :: r) (c :: r').
Proof.
  intros K K'. split; [|apply same_other; cbn [kind]; congruence].
  apply ahead_plain; cbn [kind]; rewrite K'; try discriminate; try reflexivity; intros; discriminate.
Qed.
Lemma voices_last_ok n ts es r : open_ok voice_body ts es r -> (forall m, kind r <> TVoice m) -> voices_ok n ts [voice_node n es] r.
Proof.
  intros IH Hk F Sn Fi. inversion Fi as [|? ? Fn _]; subst.
  destruct (one_voice n ts es r Sn F Fn IH) as (P & T & A1 & A2 & A3 & A4 & G).
  exists P. split; [cbn [events_ops]; rewrite T; cbn [oapp]; now rewrite app_nil_r|]. split; [exact A1|]. split; [exact A2|]. split; [exact A3|]. split; [exact A4|].
  intros st r' R Fo LE. destruct (G st r' R Fo LE) as (x & X & E & Kx & Hx). exists x, X. split; [exact E|]. split; [exact Kx|].
  apply va_last; [exact Hx|]. intros m. destruct Fo as [_ [Kr _]]. rewrite <- Kr. apply Hk.
Qed.
Lemma voices_end_ok n ts es t r : voice_body ts es (t :: r) -> open_ok voice_body ts es (t :: r) -> tkind t = TVoice 0 ->
  voices_ok n ts [voice_node n es; branch VoiceGroupEndMarkerNode []] r.
Proof.
  intros Hb IH Kt F Sn Fi. inversion Fi as [|? ? Fn _]; subst.
  destruct (proj1 (proj2 (proj2 (proj2 (proj2 event_complete)))) _ _ _ Hb) as [He _].
  destruct (one_voice n ts es _ Sn F Fn IH) as (P & T & A1 & A2 & A3 & A4 & G).
  assert (W : wordy (word (TVoice 0) (runes "V0:"))) by (apply (wordy_voice 0); split; [lia|discriminate]).
  exists (P ++ [word (TVoice 0) (runes "V0:")]).
  split; [cbn [events_ops]; rewrite T, map_app; cbn [map erase word]; rewrite text_one; reflexivity|].
  split; [apply Forall_app; split; [exact A1|now apply lexed_word]|].
  split; [apply steady_app; [exact A2|apply steady_write]|]. split; [now apply headed_app|].
  split; [apply flat_join with (t :: r); auto; [apply eats_one; congruence|left; now apply flat_word]|].
  intros st r' R Fo LE. destruct (chain cfg _ _ _ _ A1 (lexed_word _ _ W) A2 R LE) as (s2 & E & R1 & R2 & -> & L1 & L2).
  destruct (tk_words cfg _ _ s2 W (ready_full _ _ R2)) as (l & c & ET). rewrite ET in *. cbn [app] in *. subst s2.
  destruct (G st (Token (TVoice 0) (runes "V0:") l c :: r') R1) as (x & X & E & Kx & Hx); [now apply follow_voice with 0|exact L1|].
  exists x, X. split; [exact E|]. split; [exact Kx|]. now apply va_end with (Token (TVoice 0) (runes "V0:") l c).
Qed.
Lemma voices_more_ok n ts es t m r vs r' : voice_body ts es (t :: r) -> open_ok voice_body ts es (t :: r) -> tkind t = TVoice m -> m <> 0 ->
  voices_at m r vs r' -> voices_ok m r vs r' -> voices_ok n ts (voice_node n es :: vs) r'.
Proof.
  intros Hb IH Kt Hm Hv IHv F Sn Fi. inversion Fi as [|? ? Fn Fvs]; subst.
  destruct (proj1 (proj2 (proj2 (proj2 (proj2 event_complete)))) _ _ _ Hb) as [He _].
  destruct (proj2 (proj2 (proj2 (proj2 (proj2 event_complete)))) _ _ _ _ Hv) as [Hev _].
  destruct (one_voice n ts es _ Sn F Fn IH) as (P & T & A1 & A2 & A3 & A4 & G).
  pose proof (fit_eats _ _ F He) as F1. pose proof (fit_small_voice _ _ _ F1 Kt) as Sm.
  destruct (IHv (fit_cons _ _ F1) Sm Fvs) as (Q & T' & B1 & B2 & B3 & B4 & G').
  assert (Het : eats (t :: r) r) by (apply eats_one; congruence).
  exists (P ++ Q). split; [now apply ops_cons|]. split; [apply Forall_app; now split|]. split; [now apply steady_app|]. split; [now apply headed_app|].
  split. { apply flat_join with (t :: r); auto; [eapply eats_trans; eauto|]. apply flat_tail; auto. congruence. }
  intros st r'' R Fo LE. destruct (chain cfg _ _ _ _ A1 B1 A2 R LE) as (s2 & E & R1 & R2 & -> & L1 & L2). subst s2.
  destruct (G' _ r'' R2 Fo L2) as (y & Y & EY & Ky & Hy). rewrite EY in *.
  destruct (G st (y :: Y) R1) as (x & X & E & Kx & Hx); [now apply follow_voice with m|exact L1|].
  exists x, X. split; [exact E|]. split; [exact Kx|]. now apply va_more with y m Y.
Qed.

(** ** The induction *)
Lemma events_print :
  (forall ts n r, event ts n r -> event_ok ts n r) /\
  (forall line ts ns r, on_line line ts ns r -> on_line_ok line ts ns r) /\
  (forall ts ns r, seq_body ts ns r -> body_ok TSeqClose seq_body ts ns r) /\
  (forall ts ns r, cram_body ts ns r -> body_ok TCramClose cram_body ts ns r) /\
  (forall ts ns r, voice_body ts ns r -> open_ok voice_body ts ns r) /\
  (forall n ts ns r, voices_at n ts ns r -> voices_ok n ts ns r).
Proof.
  apply event_mutind.
  - intros ts n r n' r' K Hf Hr. eapply sexp_ok; eauto.
  - intros t e ts es r K Ke Kt L Ho IH. eapply define_ok; eauto.
  - intros t r n' r' K Kr Hr. eapply name_ok; eauto.
  - intros t n r K F Fi. pose proof (fit_valid _ _ F) as V. unfold valid in V. rewrite K in V.
    revert F Fi. apply (leaf_ok fmt cfg t r _ (rn "o" :: itoa n)); [congruence|rewrite K; now apply wordy_octave|reflexivity|].
    intros. apply ev_octave_set. exact K.
  - intros t r K. apply (leaf_ok fmt cfg t r _ [rn ">"]); [congruence|rewrite K; apply wordy_simple; constructor|reflexivity|].
    intros. apply ev_octave_up. exact K.
  - intros t r K. apply (leaf_ok fmt cfg t r _ [rn "<"]); [congruence|rewrite K; apply wordy_simple; constructor|reflexivity|].
    intros. apply ev_octave_down. exact K.
  - intros. now apply notes_ok.
  - intros t r K. apply (leaf_ok fmt cfg t r _ [rn "|"]); [congruence|rewrite K; apply wordy_simple; constructor|reflexivity|].
    intros. apply ev_barline. exact K.
  - intros t ts es r n' r' K Hb IH Hr. eapply seq_ok; eauto.
  - intros t ts es r1 d r n' r' K Hb IH NE Hd Hr. eapply cram_ok; eauto.
  - intros t n ts vs r K Hv IH. eapply voices_event_ok; eauto.
  - intros t s r K F Fi. pose proof (fit_valid _ _ F) as V. unfold valid in V. rewrite K in V. destruct V.
    revert F Fi. apply (leaf_ok fmt cfg t r _ (rn "%" :: s)); [congruence|rewrite K; now apply wordy_marker|reflexivity|].
    intros. apply ev_marker. exact K.
  - intros t s r K F Fi. pose proof (fit_valid _ _ F) as V. unfold valid in V. rewrite K in V. destruct V.
    revert F Fi. apply (leaf_ok fmt cfg t r _ (rn "@" :: s)); [congruence|rewrite K; now apply wordy_at_marker|reflexivity|].
    intros. apply ev_at_marker. exact K.
  - intros. apply line_nil_ok.
  - intros. eapply line_event_ok; eauto.
  - intros t r K. apply body_nil_ok; auto. intros. now apply sb_end.
  - intros ts n r ns r' Hev IHe Hk Hb IHb. destruct (proj1 (proj2 (proj2 event_complete)) _ _ _ Hb) as [He _].
    eapply body_event_ok; eauto; [now apply eats1_eats|]. intros ts' x y E Kx B. eapply sb_event; eauto. now rewrite Kx.
  - intros ts n t rs r ns r' Hev IHe K Hb IHb. destruct (proj1 (proj2 (proj2 event_complete)) _ _ _ Hb) as [He _].
    eapply body_reps_ok; eauto. now apply eats1_eats.
  - intros t r K. apply body_nil_ok; auto. intros. now apply cb_end.
  - intros ts n r ns r' Hev IHe Hb IHb. destruct (proj1 (proj2 (proj2 (proj2 event_complete))) _ _ _ Hb) as [He _].
    eapply body_event_ok; eauto; [now apply eats1_eats|]. intros ts' x y E Kx B. eapply cb_event; eauto.
  - intros r H. apply open_nil_ok. intros r' [_ S]. apply vb_end. now rewrite <- (ends_voice_same _ _ S).
  - intros ts n r ns r' H Hev IHe Hb IHb. destruct (proj1 (proj2 (proj2 (proj2 (proj2 event_complete)))) _ _ _ Hb) as [He _].
    eapply open_event_ok; eauto. intros ts' x y E S B. eapply vb_event; eauto. now rewrite <- (ends_voice_same _ _ S).
  - intros. eapply voices_last_ok; eauto.
  - intros. eapply voices_end_ok; eauto.
  - intros. eapply voices_more_ok; eauto.
Qed.

(** ** Parts *)
Lemma part_body_prints ts ns r : part_body ts ns r -> open_ok part_body ts ns r.
Proof.
  induction 1 as [r H|ts n r ns r' Hk Hl Hev Hb IH].
  - apply open_nil_ok. intros r' [_ [K L]]. apply pb_end. destruct H as [H|H]; [left; congruence|right; congruence].
  - destruct (part_events_complete _ _ _ Hb) as [He _]. eapply open_event_ok; eauto.
    + now apply events_print.
    + intros ts' x y E [K L] B. eapply pb_event; eauto; congruence.
Qed.

Definition names_pieces (ss : list (list rune)) : list piece :=
  pjoin [Lexeme TSeparator [rn "/"]] (map (fun s => [Lexeme TName s]) ss).
Lemma names_pieces_cons s t ss : names_pieces (s :: t :: ss) = Lexeme TName s :: Lexeme TSeparator [rn "/"] :: names_pieces (t :: ss).
Proof. reflexivity. Qed.
Lemma names_pieces_text ss : text_of (names_pieces ss) = join [rn "/"] ss.
Proof.
  unfold names_pieces. rewrite text_pjoin, text_one, map_map. f_equal. rewrite <- (map_id ss) at 2. apply map_ext. intros s. apply text_one.
Qed.
Lemma names_wfr s ss rest : Forall name_text (s :: ss) -> stops word_char rest -> wfr 0 (names_pieces (s :: ss)) rest 0.
Proof.
  revert s. induction ss as [|t ss IH]; intros s H R; inversion H; subst.
  - unfold names_pieces. cbn [map pjoin wfr]. split; [now apply name_lexeme|reflexivity].
  - rewrite names_pieces_cons. cbn [wfr]. split; [apply name_lexeme; [assumption|reflexivity]|].
    split; [apply lx_simple; constructor|]. now apply IH.
Qed.
Lemma names_print ts ns r : names_at ts ns r -> fit ts -> exists ss, names_text ns = Some ss /\ Forall name_text ss /\
  forall b s r', kind r' <> TSeparator -> exists l c X, toks b (names_pieces (s :: ss)) ++ r' = Token TName s l c :: X /\ names_at X ns r' /\
    (kind X = TSeparator \/ X = r').
Proof.
  induction 1 as [r H|s t ts ns r Ks Kt Hn IH]; intros F.
  - exists []. split; [reflexivity|]. split; [constructor|]. intros b s r' K. eexists _, _, r'. split; [reflexivity|]. split; [now apply nm_end|now right].
  - pose proof (fit_cons _ _ F) as F1. pose proof (fit_valid _ _ F1) as V. unfold valid in V. rewrite Kt in V.
    destruct (IH (fit_cons _ _ F1)) as (ss & T & A & G). exists (ttext t :: ss).
    split; [cbn [names_text name_node leaf]; rewrite T; reflexivity|]. split; [now constructor|].
    intros b x r' K. rewrite names_pieces_cons. cbn [toks app].
    destruct (G ((b ++ x) ++ [rn "/"]) (ttext t) r' K) as (l & c & X & E & HX & _). rewrite E.
    eexists _, _, _. split; [reflexivity|]. split; [|now left].
    change (name_node t) with (name_node (Token TName (ttext t) l c)). now apply nm_more.
Qed.
Lemma declaration_prints ts d r : declaration ts d r -> fit ts -> exists ps, declaration_text d = Some (text_of ps) /\
  lexed (PW ps) /\ (exists s q, ps = Lexeme TName s :: q) /\
  forall b r', declaration (toks b ps ++ r') d r' /\ looks_like_part (toks b ps ++ r') = true.
Proof.
  assert (NM : forall s ss q, exists q', names_pieces (s :: ss) ++ q = Lexeme TName s :: q').
  { intros s [|t ss] q; [now exists q|]. eexists. rewrite names_pieces_cons. reflexivity. }
  assert (NE : forall (s : list rune) q, name_text s -> text_of (Lexeme TName s :: q) <> []).
  { intros s q H X. rewrite text_cons in X. apply app_eq_nil in X. destruct X as [X _]. cbn in X. now destruct (name_flat _ H). }
  destruct 1 as [t ts ns c r K Hn Kc|t ts ns a s c r K Hn Ka Kc]; intros F;
    pose proof (fit_valid _ _ F) as V; unfold valid in V; rewrite K in V;
    destruct (names_print _ _ _ Hn (fit_cons _ _ F)) as (ss & T & A & G).
  - exists (names_pieces (ttext t :: ss) ++ [Lexeme TColon [rn ":"]]).
    split. { cbn [declaration_text branch leaf name_node names_text]. rewrite T, text_app, names_pieces_text, text_one. reflexivity. }
    destruct (NM (ttext t) ss [Lexeme TColon [rn ":"]]) as (q' & EQ).
    split. { split; [rewrite EQ; now apply NE|]. intros rest R. apply wfr_app with 0.
      - apply names_wfr; [now constructor|]. reflexivity.
      - apply wfr_simple; [constructor|discriminate|discriminate]. }
    split; [eexists _, _; exact EQ|]. intros b r'. rewrite toks_app, <- app_assoc. cbn [toks app].
    destruct (G b (ttext t) (Token TColon [rn ":"] (line_after (b ++ text_of (names_pieces (ttext t :: ss)))) (column_after (b ++ text_of (names_pieces (ttext t :: ss)))) :: r')) as (l & c' & X & E & HX & HK); [discriminate|].
    rewrite E. split.
    + change (name_node t) with (name_node (Token TName (ttext t) l c')). eapply dc_plain; [reflexivity|exact HX|reflexivity].
    + unfold looks_like_part. cbn [kind kind2 tkind]. destruct HK as [HK| ->]; [|reflexivity].
      destruct X as [|x X]; [discriminate|]. cbn [kind] in HK. cbn. rewrite HK. reflexivity.
  - assert (Va : Forall (fun r => word_char r = true) s).
    { destruct (more_names_complete _ _ _ Hn) as [He _]. pose proof (fit_eats _ _ (fit_cons _ _ F) He) as F1.
      pose proof (fit_valid _ _ F1) as V1. unfold valid in V1. now rewrite Ka in V1. }
    set (al := [Blank space; Lexeme (TAlias s) (quote_mark :: s ++ [quote_mark]); Lexeme TColon [rn ":"]]).
    exists (names_pieces (ttext t :: ss) ++ al).
    split. { cbn [declaration_text branch leaf name_node names_text]. rewrite T, text_app, names_pieces_text. f_equal. f_equal.
      unfold al. rewrite !text_cons. cbn [piece_text app text_of map List.concat]. rewrite <- app_assoc. reflexivity. }
    destruct (NM (ttext t) ss al) as (q' & EQ).
    split. { split; [rewrite EQ; now apply NE|]. intros rest R. apply wfr_app with 0.
      - apply names_wfr; [now constructor|]. reflexivity.
      - unfold al. cbn [wfr]. split; [now left|]. split; [apply lx_alias; [exact Va|reflexivity]|]. split; [apply lx_simple; constructor|reflexivity]. }
    split; [eexists _, _; exact EQ|]. intros b r'. rewrite toks_app, <- app_assoc. unfold al. cbn [toks app].
    match goal with |- declaration (_ ++ ?x) _ _ /\ _ => destruct (G b (ttext t) x) as (l & c' & X & E & HX & HK); [discriminate|] end.
    rewrite E. split.
    + change (name_node t) with (name_node (Token TName (ttext t) l c')). eapply dc_alias; [reflexivity|exact HX|reflexivity|reflexivity].
    + unfold looks_like_part. cbn [kind kind2 tkind]. destruct HK as [HK| ->]; [|reflexivity].
      destruct X as [|x X]; [discriminate|]. cbn [kind] in HK. cbn. rewrite HK. reflexivity.
Qed.

Lemma steady_empty : steady [PEm].
Proof.
  intros st _. unfold ProofFormat.prun, moded. cbn [fold_left map erase levels_ok].
  unfold ProofFormat.pstep. cbn [erase fstep]. unfold flush.
  destruct (f_var st) eqn:V; destruct (f_texts st) eqn:T; cbn [f_level f_var f_texts]; rewrite ?V, ?T; repeat split; auto; try congruence;
    intros L; apply Z.leb_le in L; rewrite L; reflexivity.
Qed.
Lemma ahead_part r : kind r = TName \/ kind r = TEOF -> ahead r.
Proof. intros [K|K]; apply ahead_plain; rewrite K; try discriminate; try reflexivity; intros; discriminate. Qed.

(** One part. *)
Definition part_ok (ts : list token) (p : node) (r : list token) : Prop :=
  exists P, part_ops fmt p = Some (map erase P) /\ Forall lexed P /\ steady P /\
    forall st r' ns r'', full st -> f_var st = VNone -> follow r r' -> line_after (total (prun P st)) <= line_of r' -> parts_at r' ns r'' ->
      parts_at (tk P st ++ r') (p :: ns) r'' /\ follow ts (tk P st ++ r').
Lemma none_ready P st : full st -> f_var st = VNone -> ready P st.
Proof. intros F V. split; [exact F|]. split; [congruence|]. intros X. congruence. Qed.
Lemma named_part_ok ts d r es r' : looks_like_part ts = true -> declaration ts d r -> part_body r es r' -> fit ts -> Forall fine es ->
  part_ok ts (branch PartNode [d; branch EventSequenceNode es]) r'.
Proof.
  intros Hl Hd Hb F Fe. destruct (declaration_complete _ _ _ Hd) as (He & t0 & ts0 & E0 & K0 & _). apply eats1_eats in He.
  destruct (declaration_prints _ _ _ Hd F) as (ps & T & L & (s & q & Eq) & G).
  destruct (part_body_prints _ _ _ Hb (fit_eats _ _ F He) Fe) as (P & T' & A1 & A2 & A3 & G').
  exists ([PW ps] ++ (PIn :: P ++ [PUn])).
  assert (LW : Forall lexed [PW ps]) by (constructor; [exact L|constructor]).
  split. { cbn [part_ops branch]. rewrite T, T'. cbn [oapp map erase app]. rewrite map_app. reflexivity. }
  split; [apply Forall_app; split; [exact LW|now apply lexed_in]|].
  split; [apply steady_app; [apply steady_write|now apply steady_indent]|].
  intros st r'' ns r3 Fs V Fo LE Hp. pose proof (none_ready ([PW ps] ++ PIn :: P ++ [PUn]) st Fs V) as R.
  destruct (chain cfg _ _ _ _ LW (lexed_in _ A1) (steady_write cfg _) R LE) as (s2 & E & R1 & R2 & -> & L1 & L2).
  rewrite (tk_in cfg) by (auto; exact (ready_full _ _ R2)).
  destruct (tk_write cfg ps [] st Fs (proj1 L)) as (b & ET & _). rewrite ET, tk_nil, app_nil_r.
  destruct (G b (tk P (pstep PIn s2) ++ r'')) as [G1 G2].
  destruct (G' (pstep PIn s2) r'') as [G3 G4]; [now apply ready_in|exact Fo| |].
  { apply line_in; auto. exact (ready_full _ _ R2). }
  split; [eapply ps_part; eauto|].
  assert (KK : kind (toks b ps ++ tk P (pstep PIn s2) ++ r'') = TName) by (rewrite Eq; reflexivity).
  split; [apply ahead_part; now left|]. split; [rewrite KK, E0; exact K0|congruence].
Qed.
Lemma implicit_part_ok ts es r : kind ts <> TEOF -> looks_like_part ts = false -> part_body ts es r -> fit ts -> Forall fine es ->
  part_ok ts (branch ImplicitPartNode [branch EventSequenceNode es]) r.
Proof.
  intros K Hl Hb F Fe. destruct (part_body_prints _ _ _ Hb F Fe) as (P & T' & A1 & A2 & A3 & G').
  exists P. split; [exact T'|]. split; [exact A1|]. split; [exact A2|].
  intros st r'' ns r3 Fs V Fo LE Hp. destruct (G' st r'' (none_ready _ _ Fs V) Fo LE) as [G1 G2]. split; [|exact G2].
  destruct G2 as [_ [K1 K2]]. eapply ps_implicit; eauto; congruence.
Qed.

Lemma flush_texts st : f_var st = VNone -> f_texts (prun [PFl] st) = [].
Proof. intros V. change (prun [PFl] st) with (flush cfg st). unfold flush. rewrite V. destruct (f_texts st) eqn:E; [exact E|reflexivity]. Qed.
Lemma top_one p P : part_ops fmt p = Some (map erase P) -> top_ops fmt [p] = Some (map erase (P ++ [PFl])).
Proof. intros T. cbn [top_ops]. rewrite T, map_app. reflexivity. Qed.
Lemma top_more p q t P Q : part_ops fmt p = Some (map erase P) -> top_ops fmt (q :: t) = Some (map erase Q) ->
  top_ops fmt (p :: q :: t) = Some (map erase (P ++ [PFl; PEm] ++ Q)).
Proof.
  intros T T'. change (top_ops fmt (p :: q :: t)) with (oapp (part_ops fmt p) (oapp (Some [FFlush; FEmptyLine]) (top_ops fmt (q :: t)))).
  rewrite T, T', !map_app. reflexivity.
Qed.
(** All parts. *)
Definition top_ok (ts : list token) (ns : list node) (r : list token) : Prop :=
  exists P, top_ops fmt ns = Some (map erase P) /\ Forall lexed P /\ steady P /\
    forall st r', full st -> f_var st = VNone -> f_texts st = [] -> follow r r' -> line_after (total (prun P st)) <= line_of r' ->
      parts_at (tk P st ++ r') ns r' /\ follow ts (tk P st ++ r') /\ f_texts (prun P st) = [].
Lemma part_then ts p r ns r' : part_ok ts p r -> parts_at r ns r' -> top_ok r ns r' -> top_ok ts (p :: ns) r'.
Proof.
  intros (P & T & A1 & A2 & G) Hp (Q & T' & B1 & B2 & G').
  assert (V2 : forall st, f_var st = VNone -> f_var (prun P st) = VNone).
  { intros st V. destruct (A2 st) as (_ & X & _); [congruence|auto]. }
  destruct ns as [|q ns].
  - assert (Er : r' = r) by (now inversion Hp). subst r'. cbn in T'. exists (P ++ [PFl]). split; [now apply top_one|].
    split; [apply Forall_app; split; [exact A1|apply lexed_flush]|]. split; [apply steady_app; [exact A2|apply steady_flush]|].
    intros st r'' Fs V Tx Fo LE. pose proof (none_ready (P ++ [PFl]) st Fs V) as R.
    destruct (chain cfg _ _ _ _ A1 lexed_flush A2 R LE) as (s2 & E & R1 & R2 & -> & L1 & L2).
    rewrite (tk_flush cfg) in * by exact (ready_full _ _ R2). cbn [app] in *. subst s2.
    destruct (G st r'' [] r'' Fs V Fo L1) as [G1 G2].
    + apply ps_end. destruct Fo as [_ [K _]]. rewrite <- K. now inversion Hp.
    + split; [exact G1|]. split; [exact G2|]. rewrite prun_app. apply flush_texts. now apply V2.
  - exists (P ++ [PFl; PEm] ++ Q). assert (L0 : Forall lexed [PFl; PEm]) by (repeat (apply Forall_cons; [exact I|]); constructor).
    assert (S0 : steady [PFl; PEm]) by (apply (steady_app cfg [PFl] [PEm]); [apply steady_flush|apply steady_empty]).
    assert (L1 : Forall lexed ([PFl; PEm] ++ Q)) by (apply Forall_app; now split).
    split; [now apply top_more|]. split; [apply Forall_app; now split|].
    split; [apply steady_app; [exact A2|apply steady_app; [exact S0|exact B2]]|].
    intros st r'' Fs V Tx Fo LE. pose proof (none_ready (P ++ [PFl; PEm] ++ Q) st Fs V) as R.
    destruct (chain cfg _ _ _ _ A1 L1 A2 R LE) as (s2 & E & R1 & R2 & -> & M1 & M2).
    assert (V3 : f_var s2 = VNone) by (subst s2; now apply V2).
    destruct (chain cfg _ _ _ _ L0 B1 S0 R2 M2) as (s3 & E3 & R3 & R4 & E4 & M3 & M4). rewrite E4 in *.
    assert (TK0 : tk [PFl; PEm] s2 = []).
    { rewrite tk_op by (exact I || exact (ready_full _ _ R3)). rewrite tk_op; [apply tk_nil|apply pstep_full; [exact (ready_full _ _ R3)|exact I]|exact I|exact I]. }
    rewrite TK0 in *. cbn [app] in *.
    assert (Z : f_var s3 = VNone /\ f_texts s3 = []).
    { subst s3. change (prun [PFl; PEm] s2) with (pstep PEm (prun [PFl] s2)).
      pose proof (flush_texts _ V3) as X. destruct (steady_flush cfg s2) as (_ & Y & _); [congruence|]. specialize (Y V3).
      unfold ProofFormat.pstep. cbn [erase fstep]. rewrite Y. unfold flush. rewrite X. cbn. auto. }
    destruct Z as [Z1 Z2].
    destruct (G' s3 r'' (ready_full _ _ R4) Z1 Z2 Fo M4) as (H1 & H2 & H3).
    destruct (G st (tk Q s3 ++ r'') (q :: ns) r'' Fs V H2) as [G1 G2]; [|exact H1|].
    + subst s2. exact M1.
    + split; [exact G1|]. split; [exact G2|]. rewrite !prun_app. subst s2 s3. exact H3.
Qed.
Lemma parts_print ts ns r : parts_at ts ns r -> fit ts -> Forall fine ns -> top_ok ts ns r.
Proof.
  induction 1 as [r K|ts d r es r' ns r'' Hl Hd Hb Hp IH|ts es r ns r' Hk Hl Hb Hp IH]; intros F Fi.
  - exists []. split; [reflexivity|]. split; [constructor|]. split; [apply steady_nil|].
    intros st r' Fs V Tx Fo LE. rewrite tk_nil. cbn [app]. split; [apply ps_end; destruct Fo as [_ [X _]]; congruence|]. split; [exact Fo|exact Tx].
  - inversion Fi as [|? ? Fp Fns]; subst. apply fine_ch in Fp. inversion Fp as [|? ? _ Fp']; subst. inversion Fp' as [|? ? Fe _]; subst. apply fine_ch in Fe.
    destruct (declaration_complete _ _ _ Hd) as (He & _). destruct (part_events_complete _ _ _ Hb) as [Heb _].
    pose proof (fit_eats _ _ (fit_eats _ _ F (eats1_eats _ _ He)) Heb) as F1.
    apply part_then with r'; auto. now apply named_part_ok with r.
  - inversion Fi as [|? ? Fp Fns]; subst. apply fine_ch in Fp. inversion Fp as [|? ? Fe _]; subst. apply fine_ch in Fe.
    destruct (part_events_complete _ _ _ Hb) as [Heb _]. pose proof (fit_eats _ _ F Heb) as F1.
    apply part_then with r; auto. now apply implicit_part_ok.
Qed.

(** ** Whole scores *)
Theorem format_parse (input : list rune) (a : node) :
  parse input = Parsed a -> (forall ts, scan input = Scanned ts -> ~ zero_before_bar ts) ->
  blank_text (c_indent cfg) -> everywhere (number_printed fmt) a -> everywhere (fun n => ~ slurred_at_bar n) a ->
  exists text, format fmt cfg a = Some text /\ parse text = Parsed a.
Proof.
  intros HP Z B E1 E2. pose proof (parse_total input) as PT. rewrite HP in PT. destruct PT as (ts & Sc & (ns & r & Hp & ->)).
  pose proof (scan_total input) as ST. rewrite Sc in ST. destruct ST as (ps & _ & WF & Ets).
  assert (F : fit ts). { split; [rewrite Ets; eapply tokens_valid; exact WF|]. split; [rewrite Ets; apply tokens_lined|now apply Z]. }
  assert (Fi : fine (branch RootNode ns)).
  { clear - E1 E2. revert E1 E2. generalize (branch RootNode ns). induction n as [ty l ch IH] using node_ind'. intros E1 E2.
    apply everywhere_eq in E1. apply everywhere_eq in E2. destruct E1 as [A1 B1], E2 as [A2 B2]. apply fine_eq. split; [now split|].
    cbn [nch] in *. clear A1 A2. induction IH as [|c ch Hc IH' IHl]; [constructor|]. inversion B1; inversion B2; subst. constructor; auto. }
  apply fine_ch in Fi. destruct (parts_print _ _ _ Hp F Fi) as (P & T & L & S & G).
  assert (F0 : full new_formatter) by constructor.
  destruct (S new_formatter) as (_ & _ & _ & _ & _ & LV); [discriminate|].
  set (st' := prun P new_formatter). set (e := Token TEOF [] (line_after (total st')) (column_after (total st'))).
  assert (Kr : kind r = TEOF) by (clear - Hp; induction Hp; auto).
  destruct (G new_formatter [e] F0 eq_refl eq_refl) as (H1 & _ & H3).
  { split; [apply ahead_part; now right|]. apply same_other; rewrite Kr; [reflexivity|discriminate]. }
  { cbn [line_of tline e]. reflexivity. }
  exists (f_out st'). split.
  - unfold format. cbn [nch branch]. rewrite T, LV by (cbn; lia). rewrite frun_prun. reflexivity.
  - assert (TX : f_out st' = text_of (emits cfg P new_formatter)).
    { pose proof (prun_total cfg P new_formatter F0 (lexed_solid _ L)) as X. fold st' in X. fold st' in H3.
      unfold ProofFormat.total in X. unfold line in X. rewrite H3 in X. cbn in X. now rewrite app_nil_r in X. }
    rewrite TX. apply parse_accepts with (tokens_at [] (emits cfg P new_formatter)).
    + apply scan_accepts. now apply emits_well_formed.
    + exists ns, [e]. split; [|reflexivity]. rewrite <- (app_nil_r (emits cfg P new_formatter)), tokens_at_app.
      cbn [app tokens_at]. pose proof (prun_total cfg P new_formatter F0 (lexed_solid _ L)) as X. fold st' in X.
      change (total new_formatter) with (@nil rune) in X. cbn [app] in X. rewrite <- X. exact H1.
Qed.
End Top.

(** Formatting again changes nothing. *)
Lemma format_again {N : Num} fmt cfg (input : list rune) (a : node) text :
  parse input = Parsed a -> (forall ts, scan input = Scanned ts -> ~ zero_before_bar ts) ->
  blank_text (c_indent cfg) -> everywhere (number_printed fmt) a -> everywhere (fun n => ~ slurred_at_bar n) a ->
  format fmt cfg a = Some text -> exists a', parse text = Parsed a' /\ format fmt cfg a' = Some text.
Proof.
  intros HP Z B E1 E2 HF. destruct (format_parse fmt cfg input a HP Z B E1 E2) as (text' & F & P).
  rewrite F in HF. injection HF as <-. exists a. now split.
Qed.
Lemma format_compile {N : Num} fmt cfg (input : list rune) (a : node) text :
  parse input = Parsed a -> (forall ts, scan input = Scanned ts -> ~ zero_before_bar ts) ->
  blank_text (c_indent cfg) -> everywhere (number_printed fmt) a -> everywhere (fun n => ~ slurred_at_bar n) a ->
  format fmt cfg a = Some text -> compile text = compile input.
Proof.
  intros HP Z B E1 E2 HF. destruct (format_parse fmt cfg input a HP Z B E1 E2) as (text' & F & P).
  rewrite F in HF. injection HF as <-. unfold compile. rewrite HP, P. reflexivity.
Qed.

(** Deciding the conditions, for examples. *)
Fixpoint has_zero_before_bar {N : Num} (ts : list token) : bool :=
  match ts with
  | t :: ts' => (match tkind t, kind ts' with TRepeat 0, TBarline => true | _, _ => false end) || has_zero_before_bar ts'
  | [] => false
  end.
Lemma no_zero {N : Num} (ts : list token) : has_zero_before_bar ts = false -> ~ zero_before_bar ts.
Proof.
  intros H (p & t & b & q & E & K1 & K2). subst ts. induction p as [|x p IH].
  - cbn [app has_zero_before_bar kind] in H. rewrite K1, K2 in H. discriminate.
  - cbn [app has_zero_before_bar] in H. apply orb_false_iff in H. now apply IH.
Qed.
Fixpoint all_nodes {N : Num} (f : node -> bool) (n : node) : bool :=
  f n && (let (_, _, ch) := n in (fix all l := match l with [] => true | c :: t => all_nodes f c && all t end) ch).
Lemma all_nodes_everywhere {N : Num} (f : node -> bool) (P : node -> Prop) : (forall n, f n = true -> P n) ->
  forall n, all_nodes f n = true -> everywhere P n.
Proof.
  intros H. induction n as [ty l ch IH] using node_ind'. intros E.
  cbn [all_nodes] in E. apply andb_true_iff in E. destruct E as [E1 E2]. apply everywhere_eq. split; [now apply H|].
  cbn [nch]. clear E1. induction IH as [|c ch Hc IH' IHl]; [constructor|]. apply andb_true_iff in E2. destruct E2 as [E2 E3].
  constructor; auto.
Qed.
Definition int_text (x : xq) : list rune := match x with Fin q => itoa (QArith_base.Qnum (Qcanon.this q)) | _ => [] end.
Definition int_printed (n : @node XQ) : bool :=
  match n with
  | Node _ (LitNum x) _ =>
      forallb digit (int_text x) && nonempty_text (int_text x) &&
      match x, @float_of XQ false (int_text x) [] with Fin p, Fin q => Qcanon.Qc_eq_bool q p | _, _ => false end
  | _ => true
  end.
Lemma int_printed_ok n : int_printed n = true -> @number_printed XQ int_text n.
Proof.
  destruct n as [ty l ch]. unfold int_printed.
  assert (X : forall x, forallb digit (int_text x) && nonempty_text (int_text x) &&
      match x, @float_of XQ false (int_text x) [] with Fin p, Fin q => Qcanon.Qc_eq_bool q p | _, _ => false end = true ->
      @reads_back XQ int_text false x).
  { intros x H. apply andb_true_iff in H. destruct H as [H H3]. apply andb_true_iff in H. destruct H as [H1 H2].
    exists (int_text x), [], (int_text x). split; [apply Forall_forall; intros r Hr; rewrite forallb_forall in H1; specialize (H1 r Hr); unfold digit in H1; apply andb_true_iff in H1; destruct H1 as [U W]; apply Z.leb_le in U, W; now split|].
    split; [destruct (int_text x); [discriminate|discriminate]|]. split; [constructor|]. split; [reflexivity|].
    destruct x as [p| | |]; try discriminate. destruct (@float_of XQ false (int_text (Fin p)) []) as [q| | |]; try discriminate.
    f_equal. now apply Qcanon.Qc_eq_bool_correct. }
  destruct l as [| |x| |]; intros H; try (destruct ty; exact I). specialize (X x H). destruct ty; try exact X. now exists false.
Qed.
Definition slur_ok {N : Num} (n : node) : bool :=
  match n with
  | Node NoteNode _ ch => negb (existsb (fun c => match nty c with TieNode => true | _ => false end) ch)
  | _ => true
  end.
Lemma slur_ok_ok {N : Num} (n : node) : slur_ok n = true -> ~ slurred_at_bar n.
Proof.
  intros H (K & T & _). destruct n as [ty l ch]. cbn in K. subst ty. cbn in H, T. apply negb_true_iff in H.
  apply in_map_iff in T. destruct T as (x & E & HI). assert (existsb (fun c => match nty c with TieNode => true | _ => false end) ch = true); [|congruence].
  apply existsb_exists. exists x. split; [exact HI|]. now rewrite E.
Qed.
Definition tree_of {N : Num} (input : list rune) : node :=
  match parse input with Parsed a => a | _ => branch RootNode [] end.
Definition parses {N : Num} (input : list rune) : bool := match parse input with Parsed _ => true | _ => false end.
Lemma parses_ok {N : Num} (input : list rune) : parses input = true -> parse input = Parsed (tree_of input).
Proof. unfold parses, tree_of. destruct (parse input); [reflexivity|discriminate|discriminate|discriminate]. Qed.
Lemma parses_not {N : Num} (input : list rune) : parses input = false -> forall a, parse input <> Parsed a.
Proof. unfold parses. intros H a E. rewrite E in H. discriminate. Qed.
Definition no_zero_bar {N : Num} (input : list rune) : bool :=
  match scan input with Scanned ts => negb (has_zero_before_bar ts) | _ => true end.
Lemma no_zero_bar_ok {N : Num} (input : list rune) : no_zero_bar input = true ->
  forall ts, scan input = Scanned ts -> ~ zero_before_bar ts.
Proof. unfold no_zero_bar. intros H ts E. rewrite E in H. apply no_zero. now apply negb_true_iff. Qed.
Lemma default_blank : blank_text (c_indent default_config).
Proof. repeat (apply Forall_cons; [now left|]). constructor. Qed.
(** The types of a tree's nodes and how many children they have, in order. *)
Fixpoint shape {N : Num} (n : node) : list (ntype * nat) :=
  match n with Node t _ c => (t, List.length c) :: (fix go l := match l with [] => [] | x :: l' => shape x ++ go l' end) c end.
Lemma shape_differs {N : Num} (a b : node) : shape a <> shape b -> a <> b.
Proof. congruence. Qed.

(** ** What goes wrong without the conditions *)
Lemma slurred_witness : exists input text,
  @parses XQ input = true /\ @no_zero_bar XQ input = true /\ all_nodes int_printed (tree_of input) = true /\
  format int_text default_config (@tree_of XQ input) = Some text /\ @parses XQ text = false.
Proof.
  exists (runes "c4|~/e"), (runes "c4~ | / e" ++ [newline]).
  split; [vm_compute; reflexivity|]. split; [vm_compute; reflexivity|]. split; [vm_compute; reflexivity|].
  split; vm_compute; reflexivity.
Qed.
Lemma zero_witness : exists input text,
  @parses XQ input = true /\ all_nodes slur_ok (@tree_of XQ input) = true /\ all_nodes int_printed (tree_of input) = true /\
  format int_text default_config (@tree_of XQ input) = Some text /\ @parses XQ text = true /\
  shape (@tree_of XQ text) <> shape (@tree_of XQ input).
Proof.
  exists (runes "c4*0 | d"), (runes "c4 | d" ++ [newline]).
  split; [vm_compute; reflexivity|]. split; [vm_compute; reflexivity|]. split; [vm_compute; reflexivity|].
  split; [vm_compute; reflexivity|]. split; [vm_compute; reflexivity|]. vm_compute. discriminate.
Qed.
Theorem slurred_refuted : exists input a text, @parse XQ input = Parsed a /\
  (forall ts, @scan XQ input = Scanned ts -> ~ zero_before_bar ts) /\ everywhere (number_printed int_text) a /\
  format int_text default_config a = Some text /\ forall b, @parse XQ text <> Parsed b.
Proof.
  destruct slurred_witness as (input & text & H1 & H2 & H3 & H4 & H5). exists input, (tree_of input), text.
  split; [now apply parses_ok|]. split; [now apply no_zero_bar_ok|].
  split; [revert H3; apply all_nodes_everywhere; apply int_printed_ok|]. split; [exact H4|now apply parses_not].
Qed.
Theorem zero_refuted : exists input a text b, @parse XQ input = Parsed a /\
  everywhere (number_printed int_text) a /\ everywhere (fun n => ~ slurred_at_bar n) a /\
  format int_text default_config a = Some text /\ @parse XQ text = Parsed b /\ b <> a.
Proof.
  destruct zero_witness as (input & text & H1 & H2 & H3 & H4 & H5 & H6). exists input, (tree_of input), text, (tree_of text).
  split; [now apply parses_ok|]. split; [revert H3; apply all_nodes_everywhere; apply int_printed_ok|].
  split; [revert H2; apply all_nodes_everywhere; intros n; apply slur_ok_ok|]. split; [exact H4|]. split; [now apply parses_ok|now apply shape_differs].
Qed.
