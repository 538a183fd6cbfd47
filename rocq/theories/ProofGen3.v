(** The updates of every text can be written as a tree again. *)
From Coq Require Import String Ascii ZArith NArith List Bool Lia.
From Verif Require Import Base Num ModelPitch ModelDuration ModelInstruments ModelTypes ModelLisp ModelScan ModelParser
  ModelAst ModelGen ModelScore ProofHeap SpecScan ProofScan SpecParser ProofParser ProofParseText SpecAst ProofAst ProofAstTree
  SpecGen ProofGen ProofGen2.
Import ListNotations.
Local Open Scope list_scope.
Local Open Scope Z_scope.

Section Proofs.
Context {N : Num}.
Implicit Types ts r : list token.
Notation text_writable := (writable prim_in_text).
Definition fit ts : Prop := sounds_all ts /\ clear_all ts.
Lemma fit_suffix r ts : suffix r ts -> fit ts -> fit r.
Proof. intros S (A & B). split; [eapply sounds_suffix; eassumption|eapply clear_suffix; eassumption]. Qed.

Lemma clear_encoded t r s : clear_all (t :: r) -> (tkind t = TString s \/ tkind t = TMarker s \/ tkind t = TAtMarker s \/ tkind t = TAlias s) ->
  encoded (utf8 s).
Proof.
  intros C K. inversion C as [|? ? [_ X] _]; subst. exists s. split; [|reflexivity].
  destruct K as [K|[K|[K|K]]]; rewrite K in X; exact X.
Qed.
Lemma word_encoded t r : clear_all (t :: r) -> encoded (utf8 (ttext t)).
Proof. intros C. inversion C as [|? ? [X _] _]; subst. now exists (ttext t). Qed.

(** ** Lisp, durations, notes *)
Lemma forms_writable : (forall ts n r, form ts n r -> suffix r ts /\ (clear_all ts -> exists f, ast_lisp n = ROk f /\ form_writable f)) /\
  (forall ts ns r, forms ts ns r -> suffix r ts /\ (clear_all ts -> exists fs, rmapl ast_lisp ns = ROk fs /\ form_writable (LList fs))).
Proof.
  apply form_forms_ind.
  - intros t r K. split; [apply suffix_cons|]. intros C. eexists. split; [reflexivity|]. exact (word_encoded t r C).
  - intros t x r K. split; [apply suffix_cons|]. intros C. eexists. split; [reflexivity|exact I].
  - intros t s r K. split; [apply suffix_cons|]. intros C. eexists. split; [reflexivity|]. eapply clear_encoded; [exact C|auto].
  - intros t ts ns r K _ [S H]. split; [now apply suffix_tl|]. intros C. inversion C; subst. destruct H as (fs & E & G); [assumption|].
    exists (LList fs). split; [unfold branch; rewrite ast_lisp_list, E; reflexivity|exact G].
  - intros t r K. split; [apply suffix_cons|]. intros _. exists []. split; [reflexivity|exact I].
  - intros ts n r ns r' _ [S1 H1] _ [S2 H2]. split; [eapply suffix_trans; eassumption|]. intros C.
    destruct (H1 C) as (f & E & G). destruct (H2 (clear_suffix _ _ S1 C)) as (fs & E2 & G2).
    exists (f :: fs). cbn [rmapl]. rewrite E. cbn [rbind]. rewrite E2. split; [reflexivity|]. split; assumption.
  - intros t ts n r ns r' K _ [S1 H1] _ [S2 H2]. assert (S3 : suffix r (t :: ts)) by now apply suffix_tl.
    split; [eapply suffix_trans; eassumption|]. intros C. inversion C; subst.
    destruct H1 as (f & E & G); [assumption|]. destruct (H2 (clear_suffix _ _ S3 C)) as (fs & E2 & G2).
    exists (LQuoted f :: fs). cbn [rmapl branch ast_lisp]. rewrite E. cbn. rewrite E2. split; [reflexivity|]. split; assumption.
Qed.
Lemma sexp_writable ts n r : form ts n r -> kind ts = TLParen -> clear_all ts -> exists els, updates n = ROk [ULisp els] /\ form_writable (LList els).
Proof.
  intros F K C. destruct (proj2 (proj1 forms_writable _ _ _ F) C) as (f & Ef & W).
  destruct F as [t r K'|t x r K'|t s r K'|t ts ns r K' F']; cbn in K; try congruence.
  unfold branch in *. rewrite up_lisp, Ef. rewrite ast_lisp_list in Ef. destruct (rmapl ast_lisp ns) as [els| |]; try discriminate. injection Ef as <-.
  exists els. split; [reflexivity|exact W].
Qed.
Lemma length_fits t c : length_node (tkind t) = Some c -> exists x, ast_component c = ROk x /\ length_writable x.
Proof.
  destruct (tkind t); try discriminate; cbn [length_node]; intros H; injection H as <-.
  - destruct (0 <? dots) eqn:D; eexists; (split; [reflexivity|]); cbn; [apply Z.ltb_lt in D; lia|lia].
  - eexists; split; [reflexivity|exact I].
  - eexists; split; [reflexivity|exact I].
Qed.
Definition comps_fit (ns : list node) : Prop := exists cs, rmapl ast_component ns = ROk cs /\ Forall length_writable cs.
Lemma fit_app a b : comps_fit a -> comps_fit b -> comps_fit (a ++ b).
Proof. intros (x & E & G) (y & F & H). exists (x ++ y). split; [now apply rmapl_app|apply Forall_app; now split]. Qed.
Lemma fit_one c : (exists x, ast_component c = ROk x /\ length_writable x) -> comps_fit [c].
Proof. intros (x & E & G). exists [x]. cbn. rewrite E. split; [reflexivity|now constructor]. Qed.
Lemma fit_bar : comps_fit [barline].
Proof. apply fit_one. exists CBar. split; [reflexivity|exact I]. Qed.
Lemma fit_bars (bs : list token) : comps_fit (map (fun _ => barline) bs).
Proof.
  induction bs as [|b bs IH]; [exists []; split; [reflexivity|constructor]|]. apply (fit_app [barline]); [apply fit_bar|exact IH].
Qed.
Lemma tied_fit ts ns r : tied_length ts ns r -> comps_fit ns.
Proof.
  destruct 1 as [t bs us l c r Kt Hb Hu L]. apply fit_app; [apply fit_bars|]. apply fit_one. eapply length_fits; exact L.
Qed.
Lemma rest_fit ts ns r : duration_rest ts ns r -> comps_fit ns.
Proof.
  induction 1 as [r Kb NT|t ts ns r K H IH|ts ns r ms r' T H IH].
  - exists []. split; [reflexivity|constructor].
  - apply (fit_app [barline]); [apply fit_bar|exact IH].
  - apply fit_app; [eapply tied_fit; exact T|exact IH].
Qed.
Definition dur_fit (d : list node) (x : duration) : Prop :=
  (d = [] /\ x = None \/ exists cs, d = [branch DurationNode cs] /\ ast_duration cs = ROk x) /\ dur_writable x.
Lemma duration_fit ts d r : duration_at ts d r -> exists x, dur_fit d x.
Proof.
  destruct 1 as [r L|t ts c ns r L H].
  - exists None. split; [now left|exact I].
  - destruct (length_fits _ _ L) as (x & Ex & Wx). destruct (rest_fit _ _ _ H) as (cs & E & G). exists (Some (x :: cs)). split.
    + right. eexists. split; [reflexivity|]. unfold ast_duration. cbn [rmapl]. rewrite Ex. cbn [rbind]. rewrite E. reflexivity.
    + split; [discriminate|now constructor].
Qed.
Lemma note_fit ts n r : note_or_rest_at ts n r -> sounds_all ts -> exists q, updates n = ROk [UPrim q] /\ prim_in_text q.
Proof.
  assert (Nn : forall c as_ d x (sl : bool) ts r, 97 <= c <= 103 -> accs ts as_ r -> dur_fit d x ->
    exists q, updates (note_node c as_ d sl) = ROk [UPrim q] /\ prim_in_text q).
  { clear. intros c as_ d x sl ts r Hc A [D W]. destruct (letter_gen c Hc) as (l & El & _). destruct (accs_gen _ _ _ A) as (al & Ea & _).
    exists (Note (PLetter l (match al with [] => None | _ => Some al end)) x sl). split; [|split; [destruct al; discriminate|exact W]].
    unfold note_node. change (branch NoteNode) with (Node NoteNode NoLit). rewrite up_note.
    assert (P : ast_pitch (branch NoteLetterAndAccidentalsNode (leaf NoteLetterNode (LitRune c) ::
        match as_ with [] => [] | _ => [branch NoteAccidentalsNode as_] end)) = ROk (PLetter l (match al with [] => None | _ => Some al end))).
    { unfold ast_pitch, branch, leaf. rewrite El. cbn [rbind]. destruct as_ as [|a as_]; [injection Ea as <-; reflexivity|].
      rewrite Ea. reflexivity. }
    rewrite P. cbn [rbind]. rewrite (note_rest_dur d x sl D). reflexivity. }
  destruct 1 as [t c ts as_ r1 d r K A D NT|t c ts as_ r1 d u r K A D KT|t ts d r K D]; intros Sd;
    inversion Sd as [|? ? St _]; subst; destruct (duration_fit _ _ _ D) as (x & Hx); unfold sound in St; rewrite K in St.
  - eapply Nn; eassumption.
  - eapply Nn; eassumption.
  - exists (Rest x). destruct Hx as [[[-> ->]|(cs & -> & E)] W]; (split; [|exact W]); [reflexivity|]. cbn. unfold rmap. rewrite E. reflexivity.
Qed.

(** ** Events *)
Definition good us : Prop := Forall text_writable us /\ ends_right false us = true.
Lemma ends_mono us : ends_right false us = true -> forall b, ends_right b us = true.
Proof.
  induction us as [|u us IH]; intros H b; [reflexivity|]. destruct u; try exact (IH H b); try exact H. discriminate.
Qed.
Lemma ends_append us vs : ends_right false vs = true -> forall b, ends_right b us = true -> ends_right b (us ++ vs) = true.
Proof.
  intros Hv. induction us as [|u us IH]; intros b H; [now apply ends_mono|]. destruct u; try exact (IH _ H).
  cbn [app ends_right] in *. apply andb_true_iff in H as [-> H]. cbn. now apply IH.
Qed.
Lemma good_app us vs : good us -> good vs -> good (us ++ vs).
Proof. intros [A B] [C D]. split; [apply Forall_app; now split|now apply ends_append]. Qed.
Lemma good_nil : good [].
Proof. split; [constructor|reflexivity]. Qed.
Definition one_fit (n : node) : Prop := exists u, is_event u /\ updates n = ROk [u] /\ text_writable u.
Definition list_fit (ns : list node) : Prop := exists us, updates_all ns = ROk us /\ good us.
(** Not one update, unless a voice goes on to the end of its surroundings. *)
Definition group_fit (n : node) r : Prop := exists us, updates n = ROk us /\ good us /\ (ends_voice r = true \/ (2 <= List.length us)%nat).
Lemma one_good u : is_event u -> text_writable u -> good [u].
Proof. intros I W. split; [now constructor|]. destruct u; try reflexivity; destruct I. Qed.
Lemma fit_cons n ns r : one_fit n \/ group_fit n r -> list_fit ns -> list_fit (n :: ns).
Proof.
  intros H (vs & E & G). assert (X : exists us, updates n = ROk us /\ good us).
  { destruct H as [(u & I & Eu & W)|(us & Eu & Gu & _)]; [exists [u]; split; [exact Eu|now apply one_good]|exists us; split; assumption]. }
  destruct X as (us & Eu & Gu). exists (us ++ vs). split; [cbn [updates_all]; rewrite Eu; cbn [rbind]; rewrite E; reflexivity|now apply good_app].
Qed.
Lemma fit_nil : list_fit [].
Proof. exists []. split; [reflexivity|apply good_nil]. Qed.
Lemma fit_append a b : list_fit a -> list_fit b -> list_fit (a ++ b).
Proof. intros (us & E & G) (vs & F & H). exists (us ++ vs). split; [now apply updates_all_app|now apply good_app]. Qed.
Definition event_fit ts n r : Prop := suffix r ts /\ (fit ts -> one_fit n \/ (exists m, kind ts = TVoice m) /\ group_fit n r).
Definition voice_fit ts ns r : Prop := suffix r ts /\ (fit ts -> exists us, updates_all ns = ROk us /\ Forall text_writable us /\ Forall is_event us).
Lemma events_end us vs b : Forall is_event us -> ends_right b (us ++ vs) = ends_right b vs.
Proof. intros F. induction F as [|u us Iu _ IH]; [reflexivity|]. destruct u; try exact IH; destruct Iu. Qed.
Definition body_fit ts ns r : Prop := suffix r ts /\ (fit ts -> list_fit ns).
Definition voices_fit (k : Z) ts vs r : Prop := suffix r ts /\
  (fit ts -> exists us, updates_all vs = ROk (UVoice k :: us) /\ Forall text_writable us /\ ends_right true us = true /\
     (ends_voice r = true \/ (1 <= List.length us)%nat)).
Lemma repeated_fit n r n' r' : repeated n r n' r' -> one_fit n -> one_fit n'.
Proof.
  destruct 1 as [n r _|n t k r K]; [auto|]. intros (u & Iu & E & W). exists (URepeat u k). split; [exact I|].
  split; [rewrite up_repeat, E; reflexivity|]. split; assumption.
Qed.
Lemma leaf_fit t r n u : is_event u -> updates n = ROk [u] -> (clear_all (t :: r) -> text_writable u) -> event_fit (t :: r) n r.
Proof. intros I E G. split; [apply suffix_cons|]. intros (_ & C). left. exists u. auto. Qed.
Lemma body_cons ts n r ns r' : event_fit ts n r -> body_fit r ns r' -> body_fit ts (n :: ns) r'.
Proof.
  intros [S H] [S2 H2]. split; [eapply suffix_trans; eassumption|]. intros F. eapply fit_cons; [destruct (H F) as [O|[_ O]]; [left; exact O|right; exact O]|]. apply H2. eapply fit_suffix; eassumption.
Qed.
Lemma sexp_one ts n r : form ts n r -> kind ts = TLParen -> clear_all ts -> one_fit n.
Proof. intros F K C. destruct (sexp_writable _ _ _ F K C) as (els & E & W). exists (ULisp els). split; [exact I|]. split; [exact E|exact W]. Qed.
Lemma between_fit ts ns r : between_notes ts ns r -> body_fit ts ns r.
Proof.
  induction 1 as [r|t ts ns r K H [S IH]|t ts ns r K H [S IH]|t k ts ns r K H [S IH]|t ts n r ns r' K F H IH].
  - split; [apply suffix_refl|]. intros _. apply fit_nil.
  - eapply body_cons; [apply (leaf_fit t ts _ (UPrim (Attr POctUp))); [exact I|reflexivity|intros _; exact I]|split; assumption].
  - eapply body_cons; [apply (leaf_fit t ts _ (UPrim (Attr POctDown))); [exact I|reflexivity|intros _; exact I]|split; assumption].
  - eapply body_cons; [apply (leaf_fit t ts _ (UPrim (Attr (POctave k)))); [exact I|reflexivity|intros _; exact I]|split; assumption].
  - eapply body_cons; [|exact IH]. split; [exact (proj1 (proj1 forms_writable _ _ _ F))|]. intros R. left. exact (sexp_one _ _ _ F K (proj2 R)).
Qed.
Lemma note_event_fit ts n r : note_or_rest_at ts n r -> event_fit ts n r.
Proof.
  intros H. destruct (note_ok _ _ _ H) as (S & _). split; [exact S|]. intros (Sd & _). left.
  destruct (note_fit _ _ _ H Sd) as (q & E & W). exists (UPrim q). split; [exact I|]. split; [exact E|exact W].
Qed.
Lemma notes_fit ts ns k r : notes_at ts ns k r -> body_fit ts ns r /\ (fit ts -> exists n ms, ns = n :: ms /\ one_fit n).
Proof.
  assert (One : forall ts n r ms, note_or_rest_at ts n r -> fit ts -> exists n' ms', n :: ms = n' :: ms' /\ one_fit n').
  { clear. intros ts n r ms H F. exists n, ms. split; [reflexivity|]. destruct (note_fit _ _ _ H (proj1 F)) as (q & Eq & W). exists (UPrim q). split; [exact I|]. split; [exact Eq|exact W]. }
  induction 1 as [ts n r H _ _|ts n t k r H K|ts n r b s r1 a r2 ns k r3 H B Ks A H2 ((S2 & IH) & _)].
  - split; [eapply body_cons; [exact (note_event_fit _ _ _ H)|split; [apply suffix_refl|intros _; apply fit_nil]]|eapply One; exact H].
  - split; [eapply body_cons; [exact (note_event_fit _ _ _ H)|split; [apply suffix_cons|intros _; apply fit_nil]]|eapply One; exact H].
  - destruct (between_fit _ _ _ B) as (Sb & Fb). destruct (between_fit _ _ _ A) as (Sa & Fa).
    assert (X2 : suffix r2 r) by (eapply suffix_trans; [exact Sa|]; eapply suffix_trans; [apply suffix_cons|exact Sb]).
    split; [|eapply One; exact H].
    eapply body_cons; [exact (note_event_fit _ _ _ H)|]. split; [eapply suffix_trans; eassumption|]. intros F.
    apply fit_append; [exact (Fb F)|]. apply fit_append.
    + apply Fa. eapply fit_suffix; [|exact F]. eapply suffix_trans; [apply suffix_cons|exact Sb].
    + apply IH. eapply fit_suffix; eassumption.
Qed.
Lemma chord_fit n ms : list_fit (n :: ms) -> one_fit n -> one_fit (one_or_chord (n :: ms)).
Proof.
  intros (us & E & G) O. destruct ms as [|n2 ns]; [exact O|]. exists (UChord us). split; [exact I|]. cbn [one_or_chord]. split.
  - unfold branch. rewrite up_chord, E. reflexivity.
  - split; [|split; [apply G|apply all_forall; apply G]]. intros ->. change (updates_all (n :: n2 :: ns)) with
      (rbind (updates n) (fun us => rbind (updates_all (n2 :: ns)) (fun vs => ROk (us ++ vs)))) in E.
    destruct O as (u & _ & Eu & _). rewrite Eu in E. cbn [rbind] in E. destruct (updates_all (n2 :: ns)); discriminate.
Qed.

Theorem events_fit :
  (forall ts n r, event ts n r -> event_fit ts n r) /\
  (forall line ts ns r, on_line line ts ns r -> body_fit ts ns r) /\
  (forall ts ns r, seq_body ts ns r -> body_fit ts ns r) /\
  (forall ts ns r, cram_body ts ns r -> body_fit ts ns r) /\
  (forall ts ns r, voice_body ts ns r -> voice_fit ts ns r) /\
  (forall k ts vs r, voices_at k ts vs r -> voices_fit k ts vs r).
Proof.
  apply event_mutind.
  - (* S-expression *)
    intros ts n r n' r' K H R. pose proof (proj1 (proj1 forms_writable _ _ _ H)) as S.
    split; [eapply suffix_trans; [eapply repeated_suffix; exact R|exact S]|]. intros Rd. left.
    apply (repeated_fit _ _ _ _ R). exact (sexp_one _ _ _ H K (proj2 Rd)).
  - (* definition *)
    intros t e ts es r K Ke _ _ _ (S & H). split; [now do 2 apply suffix_tl|]. intros R.
    assert (X : suffix ts (t :: e :: ts)) by (now exists [t; e]).
    destruct (H (fit_suffix _ _ X R)) as (us & E & G). left.
    exists (UVarDef (utf8 (ttext t)) us). split; [exact I|]. split; [rewrite up_vardef, E; reflexivity|].
    split; [exact (word_encoded t (e :: ts) (proj2 R))|]. split; [apply G|apply all_forall; apply G].
  - (* name *)
    intros t r n' r' K _ R. split; [apply suffix_tl; eapply repeated_suffix; exact R|]. intros Rd. left.
    apply (repeated_fit _ _ _ _ R). exists (UVarRef (utf8 (ttext t))). split; [exact I|]. split; [reflexivity|].
    exact (word_encoded t r (proj2 Rd)).
  - intros t k r K. apply (leaf_fit t r _ (UPrim (Attr (POctave k)))); [exact I|reflexivity|intros _; exact I].
  - intros t r K. apply (leaf_fit t r _ (UPrim (Attr POctUp))); [exact I|reflexivity|intros _; exact I].
  - intros t r K. apply (leaf_fit t r _ (UPrim (Attr POctDown))); [exact I|reflexivity|intros _; exact I].
  - (* notes *)
    intros ts ns k r H. destruct (notes_fit _ _ _ _ H) as ((S & B) & O). split; [exact S|]. intros R. left.
    destruct (O R) as (n & ms & -> & On). pose proof (chord_fit n ms (B R) On) as (u & Iu & E & W). unfold maybe_times. destruct (0 <? k).
    + exists (URepeat u k). split; [exact I|]. split; [rewrite up_repeat, E; reflexivity|]. split; assumption.
    + exists u. auto.
  - intros t r K. apply (leaf_fit t r _ UBarline); [exact I|reflexivity|intros _; exact I].
  - (* sequence *)
    intros t ts es r n' r' K _ (S & H) R. split; [eapply suffix_trans; [eapply repeated_suffix; exact R|now apply suffix_tl]|]. intros Rd. left.
    apply (repeated_fit _ _ _ _ R). destruct (H (fit_suffix _ _ (suffix_cons t ts) Rd)) as (us & E & G).
    exists (USeq us). split; [exact I|]. split; [rewrite up_seq, E; reflexivity|]. split; [apply G|apply all_forall; apply G].
  - (* cram *)
    intros t ts es r1 d r n' r' K _ (S & H) _ D R.
    split; [eapply suffix_trans; [eapply repeated_suffix; exact R|apply suffix_tl; eapply suffix_trans; [exact (proj1 (duration_ok false _ _ _ D))|exact S]]|].
    intros Rd. left. apply (repeated_fit _ _ _ _ R). destruct (H (fit_suffix _ _ (suffix_cons t ts) Rd)) as (us & E & G).
    destruct (duration_fit _ _ _ D) as (x & Hx & Wx). exists (UCram us x). split; [exact I|]. split.
    + unfold cram_node. destruct Hx as [(-> & ->)|(cs & -> & Ed)]; unfold branch at 1.
      * rewrite up_cram, E. reflexivity.
      * rewrite up_cram_dur, E. cbn [rbind]. rewrite Ed. reflexivity.
    + split; [apply G|]. split; [exact Wx|apply all_forall; apply G].
  - (* voices *)
    intros t k ts vs r K _ (S & H). split; [now apply suffix_tl|]. intros R. right. split; [exists k; exact K|].
    destruct (H (fit_suffix _ _ (suffix_cons t ts) R)) as (us & E & W & En & L). exists (UVoice k :: us). split; [rewrite up_voices; exact E|].
    split; [split; [constructor; [exact I|exact W]|exact En]|]. cbn [List.length]. destruct L; [now left|right; lia].
  - intros t s r K. apply (leaf_fit t r _ (UMarker (utf8 s))); [exact I|reflexivity|]. intros C. eapply clear_encoded; [exact C|auto].
  - intros t s r K. apply (leaf_fit t r _ (UAtMarker (utf8 s))); [exact I|reflexivity|]. intros C. eapply clear_encoded; [exact C|auto].
  - (* on_line *) intros line r _. split; [apply suffix_refl|]. intros _. apply fit_nil.
  - intros line ts n r ns r' _ _ _ E _ B. eapply body_cons; eassumption.
  - (* seq_body *) intros t r K. split; [apply suffix_cons|]. intros _. apply fit_nil.
  - intros ts n r ns r' _ E _ _ B. eapply body_cons; eassumption.
  - intros ts n t rs r ns r' _ (S1 & H1) K _ (S2 & H2).
    assert (X : suffix r ts) by (eapply suffix_trans; [apply suffix_cons|exact S1]).
    split; [eapply suffix_trans; eassumption|]. intros R. apply (fit_cons _ _ r); [left|apply H2; eapply fit_suffix; eassumption].
    assert (NE : rs <> []). { pose proof (sounds_suffix _ _ S1 (proj1 R)) as Y. inversion Y as [|? ? St]; subst. unfold sound in St. now rewrite K in St. }
    assert (Z : exists us, updates n = ROk us /\ is_event (as_one us) /\ text_writable (as_one us)).
    { destruct (H1 R) as [(u & Iu & E & W)|(_ & us & E & G & L)]; [exists [u]; auto|]. exists us. split; [exact E|].
      destruct L as [L|L]; [exfalso; unfold ends_voice, looks_like_part in L; cbn [kind] in L; rewrite K in L; discriminate|].
      destruct us as [|u1 [|u2 us]]; [cbn in L; lia|cbn in L; lia|]. cbn [as_one]. split; [exact I|]. split; [apply G|exact (proj2 (all_forall _ (u1 :: u2 :: us)) (proj1 G))]. }
    destruct Z as (us & E & Iu & W). exists (UOnReps rs (as_one us)). split; [exact I|]. split; [|split; [exact NE|split; assumption]].
    assert (Rg : rmapl ast_range (map range_node rs) = ROk rs).
    { clear. induction rs as [|[a b] rs IH]; [reflexivity|]. cbn [map rmapl]. rewrite IH. reflexivity. }
    unfold on_repetitions. destruct rs as [|x rs]; [congruence|]. cbn [map] in *. rewrite up_reps, E. cbn [rbind]. unfold rmap. rewrite Rg. reflexivity.
  - (* cram_body *) intros t r K. split; [apply suffix_cons|]. intros _. apply fit_nil.
  - intros ts n r ns r' _ E _ B. eapply body_cons; eassumption.
  - (* voice_body *) intros r _. split; [apply suffix_refl|]. intros _. exists []. repeat split; constructor.
  - intros ts n r ns r' NEv _ (S1 & H1) _ (S2 & H2). split; [eapply suffix_trans; eassumption|]. intros R.
    destruct (H2 (fit_suffix _ _ S1 R)) as (us & E & W & F). destruct (H1 R) as [(u & Iu & Eu & Wu)|((m & X) & _)].
    + exists (u :: us). split; [cbn [updates_all]; rewrite Eu; cbn [rbind]; rewrite E; reflexivity|]. split; now constructor.
    + exfalso. unfold ends_voice in NEv. rewrite X in NEv. discriminate.
  - (* the last voice *)
    intros k ts es r Vb (S & H) NV. split; [exact S|]. intros R. destruct (H R) as (us & E & W & F). exists us.
    split; [cbn [updates_all]; rewrite up_voice, E; cbn [rmap rbind]; now rewrite app_nil_r|].
    split; [exact W|]. split; [rewrite <- (app_nil_r us), (events_end us [] true F); reflexivity|]. left. eapply voice_end; exact Vb.
  - intros k ts es t r Vb (S & H) K. split; [eapply suffix_trans; [apply suffix_cons|exact S]|]. intros R. destruct (H R) as (us & E & W & F). exists (us ++ [UVoiceEnd]).
    split; [cbn [updates_all]; rewrite up_voice, E; reflexivity|].
    split; [apply Forall_app; split; [exact W|repeat constructor]|]. split; [rewrite (events_end us _ true F); reflexivity|right; rewrite app_length; cbn; lia].
  - intros k ts es t m r vs r' Vb (S & H) K NZ _ (S2 & H2).
    assert (S3 : suffix r ts) by (eapply suffix_trans; [apply suffix_cons|exact S]).
    split; [eapply suffix_trans; eassumption|]. intros R. destruct (H R) as (us & E & W & F).
    destruct (H2 (fit_suffix _ _ S3 R)) as (vs' & E2 & W2 & En & L). exists (us ++ UVoice m :: vs').
    split; [cbn [updates_all]; rewrite up_voice, E; cbn [rmap rbind]; rewrite E2; reflexivity|].
    split; [apply Forall_app; split; [exact W|constructor; [exact I|exact W2]]|]. split; [rewrite (events_end us _ true F); exact En|].
    right. rewrite app_length. cbn. lia.
Qed.

(** ** Parts *)
Lemma part_body_fit ts ns r : part_body ts ns r -> body_fit ts ns r.
Proof.
  induction 1 as [r _|ts n r ns r' _ _ Ev _ IH]; [split; [apply suffix_refl|intros _; apply fit_nil]|].
  eapply body_cons; [exact (proj1 events_fit _ _ _ Ev)|exact IH].
Qed.
Lemma names_fit ts ns r : names_at ts ns r -> clear_all ts -> exists ss, rmapl ast_part_name ns = ROk ss /\ Forall encoded ss.
Proof.
  induction 1 as [r _|s t ts ns r Ks Kt H IH]; intros C; [exists []; split; [reflexivity|constructor]|]. inversion C as [|? ? _ C1]; subst. inversion C1 as [|? ? _ C2]; subst.
  destruct (IH C2) as (ss & E & G). exists (utf8 (ttext t) :: ss). split; [cbn; now rewrite E|]. constructor; [exact (word_encoded t ts C1)|exact G].
Qed.
Lemma declaration_fit ts d r : declaration ts d r -> clear_all ts -> exists names alias, ast_declaration d = ROk (UPart names alias) /\
  names <> [] /\ Forall encoded names /\ encoded alias.
Proof.
  destruct 1 as [t ts ns c r K H Kc|t ts ns a s c r K H Ka Kc]; intros C; inversion C as [|? ? C0 C1]; subst;
    destruct (names_fit _ _ _ H C1) as (ss & E & G); exists (utf8 (ttext t) :: ss).
  - exists ""%string. split; [cbn [ast_declaration branch rmapl ast_part_name name_node leaf lit_text rbind]; rewrite E; reflexivity|].
    split; [discriminate|]. split; [constructor; [exact (word_encoded t ts C)|exact G]|]. exists []. split; [constructor|reflexivity].
  - exists (utf8 s). split; [cbn [ast_declaration branch rmapl ast_part_name name_node leaf lit_text rbind]; rewrite E; reflexivity|].
    split; [discriminate|]. split; [constructor; [exact (word_encoded t ts C)|exact G]|].
    destruct (names_ok _ _ _ H) as (S & _). pose proof (clear_suffix _ _ S C1) as C2. eapply clear_encoded; [exact C2|auto].
Qed.
Lemma ends_reset us vs b : Forall text_writable us -> ends_right b us = true -> ends_right false vs = true -> ends_right b (us ++ vs) = true.
Proof. intros _ A B. now apply ends_append. Qed.
Lemma parts_fit ts ns r : parts_at ts ns r -> fit ts -> exists us, updates_all ns = ROk us /\ score_writable prim_in_text us.
Proof.
  assert (Tw : forall us, Forall text_writable us -> Forall (fun u => match u with
                   | UPart names alias => names <> [] /\ Forall encoded names /\ encoded alias
                   | _ => text_writable u
                   end) us).
  { clear. intros us H. eapply Forall_impl; [|exact H]. intros u Hu. destruct u; try exact Hu. destruct Hu. }
  induction 1 as [r K|ts d r es r' ns r'' L D B _ IH|ts es r ns r' NE L B _ IH]; intros F.
  - exists []. split; [reflexivity|]. split; [reflexivity|constructor].
  - destruct (declaration_ok _ _ _ D) as (S & _). destruct (declaration_fit _ _ _ D (proj2 F)) as (names & alias & Ed & Wd).
    destruct (part_body_fit _ _ _ B) as (S2 & H). pose proof (fit_suffix _ _ S F) as F2. destruct (H F2) as (us & E & W & En).
    destruct (IH (fit_suffix _ _ S2 F2)) as (vs & E2 & En2 & W2). exists (UPart names alias :: us ++ vs).
    split; [cbn [updates_all]; rewrite up_part, Ed; cbn [rbind]; rewrite E; cbn [rmap rbind]; rewrite E2; reflexivity|].
    split; [cbn [ends_right]; now apply ends_append|]. constructor; [exact Wd|]. apply Forall_app. split; [now apply Tw|exact W2].
  - destruct (part_body_fit _ _ _ B) as (S2 & H). destruct (H F) as (us & E & W & En).
    destruct (IH (fit_suffix _ _ S2 F)) as (vs & E2 & En2 & W2). exists (us ++ vs).
    split; [cbn [updates_all]; rewrite up_implicit, E; cbn [rbind]; rewrite E2; reflexivity|].
    split; [now apply ends_append|]. apply Forall_app. split; [now apply Tw|exact W2].
Qed.
Theorem text_fit input us : Forall scalar input -> compile input = ROk us -> score_writable prim_in_text us.
Proof.
  intros Sc C. unfold compile in C. pose proof (parse_total input) as P. destruct (parse input) as [a|m line col| |]; try discriminate.
  destruct P as (ts & Es & (ns & r & P & ->)). pose proof (scan_total input) as St. rewrite Es in St. destruct St as (ps & Et & W & ->).
  destruct (parts_fit _ _ _ P (conj (tokens_sound _ _ _ W) (tokens_clear _ _ _ W ltac:(now rewrite Et)))) as (vs & E & Wv).
  rewrite up_root in C. assert (us = vs) by congruence. now subst.
Qed.
Theorem text_written order input us : (forall l, In l order) -> Forall scalar input -> compile input = ROk us ->
  exists a, generate order us = ROk a /\ updates a = ROk us.
Proof. intros O S C. apply (written_text order O). exact (text_fit _ _ S C). Qed.
End Proofs.
