(** Every list of updates that Alda can express is written as a tree that reads
    as the same updates. *)
From Coq Require Import String Ascii ZArith NArith List Bool Lia.
From Verif Require Import Base Num ModelPitch ModelDuration ModelInstruments ModelTypes ModelLisp ModelScan ModelParser
  ModelAst ModelGen ModelScore ProofHeap SpecParser ProofParser SpecAst ProofAst ProofAstTree SpecGen ProofGen.
Import ListNotations.
Local Open Scope list_scope.
Local Open Scope Z_scope.

Section Proofs.
Context {N : Num}.
Variable order : list ModelPitch.letter.
Hypothesis all_letters : forall l, In l order.
Notation gen := (gen order).
Notation inner_events := (inner_events order).

Lemma text_back s : encoded s -> utf8 (runes_of s) = s.
Proof. intros (rs & F & ->). now rewrite runes_of_utf8. Qed.
Lemma form_back f : form_writable f -> exists n, gen_lisp f = ROk n /\ ast_lisp n = ROk f.
Proof.
  induction f using lform_ind'; intros W; try contradiction.
  - destruct (IHf W) as (n & G & A). exists (branch LispQuotedFormNode [n]). cbn [gen_lisp]. rewrite G. cbn. rewrite A. split; reflexivity.
  - eexists. split; [reflexivity|]. cbn. now rewrite (text_back s W).
  - eexists. split; reflexivity.
  - eexists. split; [reflexivity|]. cbn. now rewrite (text_back s W).
  - assert (X : exists ns, rmapl gen_lisp l = ROk ns /\ rmapl ast_lisp ns = ROk l).
    { cbn [form_writable] in W. induction H as [|f l Hf _ IH]; [now exists []|]. destruct W as [W1 W2].
      destruct (Hf W1) as (n & G & A). destruct (IH W2) as (ns & G2 & A2). exists (n :: ns). cbn [rmapl]. rewrite G, A. cbn [rbind]. rewrite G2, A2. split; reflexivity. }
    destruct X as (ns & G & A). exists (branch LispListNode ns). rewrite gen_lisp_list, G. split; [reflexivity|]. unfold branch. rewrite ast_lisp_list, A. reflexivity.
Qed.
Lemma comp_back c : length_writable c -> exists n, gen_component c = ROk n /\ ast_component n = ROk c.
Proof.
  destruct c; intros W; try contradiction; try (eexists; split; reflexivity).
  cbn in W. cbn [gen_component]. eexists. split; [reflexivity|]. destruct (0 <? dots) eqn:E; [reflexivity|]. apply Z.ltb_ge in E.
  assert (dots = 0) by lia. subst. reflexivity.
Qed.
Lemma dur_back d : dur_writable d -> exists ds, gen_duration d = ROk ds /\
  (ds = [] /\ d = None \/ exists cs, ds = [branch DurationNode cs] /\ ast_duration cs = ROk d).
Proof.
  destruct d as [[|c cs]|]; intros W; [now destruct W| |exists []; split; [reflexivity|now left]].
  destruct W as [_ F]. assert (X : exists ns, rmapl gen_component (c :: cs) = ROk ns /\ rmapl ast_component ns = ROk (c :: cs)).
  { induction F as [|x l Hx _ IH]; [now exists []|]. destruct (comp_back x Hx) as (n & G & A). destruct IH as (ns & G2 & A2).
    exists (n :: ns). cbn [rmapl]. rewrite G, A. cbn [rbind]. rewrite G2, A2. split; reflexivity. }
  destruct X as (ns & G & A). exists [branch DurationNode ns]. cbn [gen_duration]. rewrite G. split; [reflexivity|]. right. exists ns. split; [reflexivity|].
  unfold ast_duration. now rewrite A.
Qed.
Lemma prim_back p : prim_writable p -> exists n u', gen_prim order p = ROk n /\ updates n = ROk [u'] /\ reads_as (UPrim p) u'.
Proof.
  destruct p as [pi d sl|d|[]|[]]; intros W; try contradiction.
  - destruct pi as [l accs|]; [|contradiction]. destruct W as [Na Wd]. destruct (dur_back d Wd) as (ds & G & D).
    eexists. eexists. split; [cbn [gen_prim]; rewrite G; reflexivity|]. split; [|constructor].
    unfold branch at 1. rewrite up_note.
    assert (P : ast_pitch (branch NoteLetterAndAccidentalsNode (leaf NoteLetterNode (LitRune (letter_char l)) ::
        match accs with None | Some [] => [] | Some as_ => [branch NoteAccidentalsNode (map gen_accidental as_)] end)) = ROk (PLetter l accs)).
    { assert (El : letter_of_rune (letter_char l) = ROk l) by (destruct l; reflexivity).
      assert (Ea : forall as_, rmapl ast_accidental (map gen_accidental as_) = ROk as_).
      { induction as_ as [|a as_ IH]; [reflexivity|]. cbn [map rmapl]. rewrite IH. destruct a; reflexivity. }
      unfold ast_pitch, branch, leaf. rewrite El. cbn [rbind]. destruct accs as [[|a as_]|]; [congruence| |reflexivity]. rewrite Ea. reflexivity. }
    rewrite P. cbn [rbind]. rewrite (note_rest_dur ds d sl D). reflexivity.
  - destruct (dur_back d W) as (ds & G & D). exists (branch RestNode ds), (UPrim (Rest d)). split; [cbn [gen_prim]; rewrite G; reflexivity|]. split; [|constructor].
    destruct D as [(-> & ->)|(cs & -> & E)]; [reflexivity|]. cbn. unfold rmap. rewrite E. reflexivity.
  - eexists. eexists. split; [reflexivity|]. split; [reflexivity|constructor].
  - eexists. eexists. split; [reflexivity|]. split; [reflexivity|constructor].
  - eexists. eexists. split; [reflexivity|]. split; [reflexivity|constructor].
  - destruct (gen_dynamic order _ W) as (n & els & G & E & Ev). exists n, (ULisp els). split; [exact G|]. split; [exact E|]. now constructor.
  - destruct (gen_key order _ W all_letters) as (n & els & G & E & Ev). exists n, (ULisp els). split; [exact G|]. split; [exact E|]. now constructor.
Qed.

Definition back (u : update) : Prop := (writable prim_writable) u -> is_event u -> exists n u', gen u = ROk n /\ updates n = ROk [u'] /\ reads_as u u'.
(** The updates of the voice group being built. *)
Inductive group_updates : option open_group -> list update -> Prop :=
| gu_none : group_updates None []
| gu_some vs k es V E : updates_all vs = ROk V -> updates_all es = ROk E -> group_updates (Some (vs, k, es)) (V ++ UVoice k :: E).
Lemma close_updates g G : group_updates (Some g) G -> updates_all (close_voice g) = ROk G.
Proof.
  inversion 1 as [|vs k es V E HV HE]; subst. cbn [close_voice]. apply updates_all_app; [exact HV|]. cbn [updates_all].
  change (branch VoiceNode [leaf VoiceNumberNode (LitInt k); branch EventSequenceNode es]) with (voice_node k es).
  rewrite up_voice, HE. cbn [rmap rbind]. now rewrite app_nil_r.
Qed.
Definition inside (g : option open_group) : bool := match g with Some _ => true | None => false end.
Lemma updates_all_snoc a n us u : updates_all a = ROk us -> updates n = ROk [u] -> updates_all (a ++ [n]) = ROk (us ++ [u]).
Proof. intros H E. apply updates_all_app; [exact H|]. cbn [updates_all]. rewrite E. reflexivity. Qed.
Lemma inner_back es : Forall back es -> Forall (writable prim_writable) es -> forall done D g G,
  updates_all done = ROk D -> group_updates g G -> ends_right (inside g) es = true ->
  exists ns es', inner_events es (done, g) = ROk ns /\ updates_all ns = ROk (D ++ G ++ es') /\ Forall2 reads_as es es'.
Proof.
  induction 1 as [|u es Hu _ IH]; intros W done D g G Hd Hg He.
  - cbn. exists (done ++ close_group g), []. split; [reflexivity|]. split; [|constructor]. rewrite app_nil_r. apply updates_all_app; [exact Hd|].
    destruct g as [g|]; [|inversion Hg; subst; reflexivity]. cbn [close_group updates_all]. rewrite up_voices, (close_updates _ _ Hg). cbn [rbind]. now rewrite app_nil_r.
  - inversion W as [|? ? Wu Ws]; subst.
    assert (Ev : is_event u -> ends_right (inside g) es = true -> exists ns es', inner_events (u :: es) (done, g) = ROk ns /\ updates_all ns = ROk (D ++ G ++ es') /\
      Forall2 reads_as (u :: es) es').
    { intros I He'. destruct (Hu Wu I) as (n & u' & Gu & Eu & Ru). rewrite (inner_event order u es n _ I Gu).
      destruct Hg as [|vs k vb V E HV HE]; cbn [add_event].
      - destruct (IH Ws (done ++ [n]) (D ++ [u']) None [] (updates_all_snoc _ _ _ _ Hd Eu) gu_none He') as (ns & es' & A & B & C).
        exists ns, (u' :: es'). split; [exact A|]. split; [rewrite B, <- app_assoc; reflexivity|now constructor].
      - destruct (IH Ws done D (Some (vs, k, vb ++ [n])) _ Hd (gu_some _ k _ _ _ HV (updates_all_snoc _ _ _ _ HE Eu)) He') as (ns & es' & A & B & C).
        exists ns, (u' :: es'). split; [exact A|]. split; [rewrite B; f_equal; f_equal; cbn [app]; rewrite <- !app_assoc; cbn [app]; rewrite <- app_assoc; reflexivity|now constructor]. }
    destruct u; try (apply Ev; [exact I|exact He]); [| |contradiction].
    + (* a voice *) cbn [ModelGen.inner_events fst snd]. cbn [ends_right] in He.
      assert (Hg' : group_updates (Some (match g with None => [] | Some g => close_voice g end, n, [])) (G ++ UVoice n :: [])).
      { constructor; [|reflexivity]. destruct g as [g|]; [exact (close_updates _ _ Hg)|]. inversion Hg; subst. reflexivity. }
      destruct (IH Ws done D _ _ Hd Hg' He) as (ns & es' & A & B & C). exists ns, (UVoice n :: es').
      split; [exact A|]. split; [rewrite B, <- app_assoc; reflexivity|]. constructor; [apply ra_same|exact C].
    + (* the end of the voices *) cbn [ends_right] in He. apply andb_true_iff in He as [Hi He]. destruct g as [g|]; [|discriminate]. cbn [ModelGen.inner_events fst snd].
      assert (Hd' : updates_all (done ++ [branch VoiceGroupNode (close_voice g ++ [branch VoiceGroupEndMarkerNode []])]) = ROk (D ++ (G ++ [UVoiceEnd]))).
      { apply updates_all_app; [exact Hd|]. cbn [updates_all]. rewrite up_voices, (updates_all_snoc _ _ _ UVoiceEnd (close_updates _ _ Hg)) by reflexivity.
        cbn [rbind]. now rewrite app_nil_r. }
      destruct (IH Ws _ _ None [] Hd' gu_none He) as (ns & es' & A & B & C). exists ns, (UVoiceEnd :: es').
      split; [exact A|]. split; [rewrite B, <- !app_assoc; reflexivity|]. constructor; [apply ra_same|exact C].
Qed.
Lemma all_writable es : (fix all (l : list update) : Prop := match l with [] => True | x :: t => writable prim_writable x /\ all t end) es -> Forall (writable prim_writable) es.
Proof. induction es as [|u es IH]; intros H; [constructor|]. destruct H as [A B]. constructor; auto. Qed.
Lemma inner_all es : Forall back es -> Forall (writable prim_writable) es -> ends_right false es = true ->
  exists ns es', inner_events es ([], None) = ROk ns /\ updates_all ns = ROk es' /\ Forall2 reads_as es es'.
Proof. intros B W E. exact (inner_back es B W [] [] None [] eq_refl gu_none E). Qed.

Lemma event_back u : back u.
Proof.
  unfold back. induction u using update_ind'; intros W I; try contradiction.
  - exact (prim_back p W).
  - cbn [ModelGen.gen]. destruct (form_back (LList els) W) as (n & G & A). exists n, (ULisp els). split; [exact G|]. split; [|apply ra_same].
    rewrite gen_lisp_list in G. destruct (rmapl gen_lisp els) as [ns| |]; try discriminate. injection G as <-. unfold branch in *. rewrite up_lisp, A. reflexivity.
  - eexists. eexists. split; [reflexivity|]. split; [reflexivity|apply ra_same].
  - destruct W as (NE & Er & W). destruct (inner_all es H (all_writable _ W) Er) as (ns & es' & A & B & C).
    rewrite gen_chord, A. exists (branch ChordNode ns), (UChord es'). split; [reflexivity|]. split; [|now constructor].
    destruct ns as [|n ns]; [injection B as <-; inversion C; subst; congruence|]. unfold branch. rewrite up_chord, B. reflexivity.
  - destruct W as (Er & Wd & W). destruct (inner_all es H (all_writable _ W) Er) as (ns & es' & A & B & C).
    rewrite gen_cram, A. cbn [rbind]. destruct (dur_back d Wd) as (ds & G & Dd). rewrite G. cbn [rmap rbind].
    exists (branch CramNode (branch EventSequenceNode ns :: ds)), (UCram es' d). split; [reflexivity|]. split; [|now constructor].
    destruct Dd as [(-> & ->)|(cs & -> & Ed)]; unfold branch at 1.
    + rewrite up_cram, B. reflexivity.
    + rewrite up_cram_dur, B. cbn [rbind]. rewrite Ed. reflexivity.
  - destruct W as (Ie & W). destruct (IHu W Ie) as (x & u' & G & E & R). cbn [ModelGen.gen]. rewrite G.
    exists (repeat_node x n), (URepeat u' n). split; [reflexivity|]. split; [rewrite up_repeat, E; reflexivity|now constructor].
  - destruct W as (NE & Ie & W). destruct (IHu W Ie) as (x & u' & G & E & R). cbn [ModelGen.gen]. rewrite G. cbn [rmap rbind].
    eexists. exists (UOnReps rs u'). split; [reflexivity|]. split; [|now constructor].
    assert (Rg : rmapl ast_range (map (fun '(a, b) => branch RepetitionRangeNode
                            [leaf FirstRepetitionNode (LitInt a); leaf LastRepetitionNode (LitInt b)]) rs) = ROk rs).
    { clear. induction rs as [|[a b] rs IH]; [reflexivity|]. cbn [map rmapl]. rewrite IH. reflexivity. }
    destruct rs as [|y rs]; [congruence|]. cbn [map] in *. rewrite up_reps, E. cbn [rbind]. unfold rmap. rewrite Rg. reflexivity.
  - destruct W as (Er & W). destruct (inner_all es H (all_writable _ W) Er) as (ns & es' & A & B & C).
    rewrite gen_seq, A. exists (branch EventSequenceNode ns), (USeq es'). split; [reflexivity|]. split; [rewrite up_seq, B; reflexivity|now constructor].
  - eexists. exists (UMarker n). split; [reflexivity|]. split; [|apply ra_same]. cbn. now rewrite (text_back n W).
  - eexists. exists (UAtMarker n). split; [reflexivity|]. split; [|apply ra_same]. cbn. now rewrite (text_back n W).
  - destruct W as (Es & Er & W). destruct (inner_all es H (all_writable _ W) Er) as (ns & es' & A & B & C).
    rewrite gen_def, A. eexists. exists (UVarDef n es'). split; [reflexivity|]. split; [|now constructor].
    change (branch VariableDefinitionNode [leaf VariableNameNode (text_lit n); branch EventSequenceNode ns]) with (var_def_node (runes_of n) ns).
    rewrite up_vardef, B. cbn. now rewrite (text_back n Es).
  - eexists. exists (UVarRef n). split; [reflexivity|]. split; [|apply ra_same]. cbn. now rewrite (text_back n W).
Qed.

(** ** Parts *)
Lemma until_split us es more : until_part us = (es, more) -> us = es ++ more /\ Forall no_part es /\
  (more = [] \/ exists ns a t, more = UPart ns a :: t).
Proof.
  revert es more. induction us as [|u us IH]; intros es more H; [injection H as <- <-; split; [reflexivity|]; split; [constructor|now left]|].
  assert (X : no_part u -> until_part (u :: us) = (es, more) -> u :: us = es ++ more /\ Forall no_part es /\ (more = [] \/ exists ns a t, more = UPart ns a :: t)).
  { intros Np Hu. assert (Y : until_part (u :: us) = let (p, q) := until_part us in (u :: p, q)) by (destruct u; try reflexivity; destruct Np).
    rewrite Y in Hu. destruct (until_part us) as [p q]. injection Hu as <- <-. destruct (IH p q eq_refl) as (-> & F & S). split; [reflexivity|]. split; [now constructor|exact S]. }
  destruct u; try (apply X; [exact I|exact H]). cbn [until_part] in H. injection H as <- <-. split; [reflexivity|]. split; [constructor|]. right. now exists names, alias, us.
Qed.
Definition top_writable (u : update) : Prop :=
  match u with UPart names alias => names <> [] /\ Forall encoded names /\ encoded alias | _ => (writable prim_writable) u end.
Lemma ends_app b es more : Forall no_part es -> (more = [] \/ exists ns a t, more = UPart ns a :: t) ->
  ends_right b (es ++ more) = true -> ends_right b es = true /\ ends_right false more = true.
Proof.
  intros F S. revert b. induction F as [|u es Np _ IH]; intros b H.
  - split; [reflexivity|]. destruct S as [->|(ns & a & t & ->)]; [reflexivity|exact H].
  - destruct u; try (exact (IH _ H)). cbn [app ends_right] in *. apply andb_true_iff in H as [H1 H2]. destruct (IH _ H2) as [A B].
    split; [now rewrite H1, A|exact B].
Qed.
Lemma top_events es : Forall no_part es -> Forall top_writable es -> Forall (writable prim_writable) es.
Proof. intros F W. induction F as [|u es Np _ IH]; [constructor|]. inversion W; subst. constructor; [destruct u; try assumption; destruct Np|auto]. Qed.
Lemma declaration_back names alias : names <> [] -> Forall encoded names -> encoded alias ->
  ast_declaration (gen_declaration names alias) = ROk (UPart names alias).
Proof.
  intros NE F A. assert (X : rmapl ast_part_name (map (fun s => leaf PartNameNode (text_lit s)) names) = ROk names).
  { clear NE. induction F as [|s names Hs _ IH]; [reflexivity|]. cbn [map rmapl]. rewrite IH. cbn. now rewrite (text_back s Hs). }
  unfold gen_declaration. destruct names as [|s names]; [congruence|]. cbn [map] in *. unfold ast_declaration, branch, leaf. unfold leaf in X. rewrite X. cbn [rbind].
  destruct (String.eqb alias "") eqn:E; [apply String.eqb_eq in E; subst; reflexivity|]. cbn. now rewrite (text_back alias A).
Qed.
Lemma backs es : Forall back es.
Proof. induction es; constructor; auto using event_back. Qed.
Lemma parts_back fuel : forall us, (List.length us < fuel)%nat -> Forall top_writable us -> ends_right false us = true ->
  (us = [] \/ exists ns a t, us = UPart ns a :: t) ->
  exists ps us', gen_parts order fuel us = ROk ps /\ updates_all ps = ROk us' /\ Forall2 reads_as us us'.
Proof.
  induction fuel as [|f IH]; intros us L W E S; [lia|]. destruct S as [->|(names & alias & t & ->)]; [exists [], []; repeat split; constructor|].
  cbn [gen_parts]. destruct (until_part t) as [es more] eqn:U. destruct (until_split _ _ _ U) as (-> & F & S).
  cbn [ends_right] in E. destruct (ends_app _ _ _ F S E) as [E1 E2]. inversion W as [|? ? Wp Wt]; subst. apply Forall_app in Wt as [We Wm].
  cbn [List.length] in L. rewrite app_length in L. destruct (IH more ltac:(lia) Wm E2 S) as (ps & ms & Gp & Up & Rp).
  destruct (inner_all es (backs es) (top_events _ F We) E1) as (ns & es' & A & B & C). rewrite Gp. cbn [rbind]. rewrite A. cbn [rmap rbind].
  eexists. exists (UPart names alias :: es' ++ ms). split; [reflexivity|]. destruct Wp as (NE & Fn & Ea). split.
  - cbn [updates_all]. rewrite up_part, (declaration_back names alias NE Fn Ea). cbn [rbind]. rewrite B. cbn [rmap rbind]. rewrite Up. reflexivity.
  - constructor; [apply ra_same|]. now apply Forall2_app.
Qed.
Theorem written us : score_writable prim_writable us -> exists a us', generate order us = ROk a /\ updates a = ROk us' /\ Forall2 reads_as us us'.
Proof.
  intros [E W]. unfold generate. destruct (until_part us) as [es more] eqn:U. destruct (until_split _ _ _ U) as (-> & F & S).
  destruct (ends_app _ _ _ F S E) as [E1 E2]. apply Forall_app in W as [We Wm].
  destruct (parts_back (Datatypes.S (List.length more)) more ltac:(lia) Wm E2 S) as (ps & ms & Gp & Up & Rp).
  destruct (inner_all es (backs es) (top_events _ F We) E1) as (ns & es' & A & B & C). rewrite Gp. cbn [rbind].
  destruct es as [|e es].
  - inversion C; subst. exists (branch RootNode ps), ms. split; [reflexivity|]. split; [rewrite up_root; exact Up|exact Rp].
  - rewrite A. eexists. exists (es' ++ ms). split; [reflexivity|]. split; [|now apply Forall2_app].
    rewrite up_root. cbn [updates_all]. rewrite up_implicit, B. cbn [rbind]. rewrite Up. reflexivity.
Qed.

(** ** The updates of a text *)
Notation text_writable := (writable prim_in_text).
Lemma prim_text p : prim_in_text p -> prim_writable p.
Proof. destruct p as [[]|d|[]|[]]; cbn; tauto. Qed.
Lemma all_forall P es : (fix all (l : list update) : Prop := match l with [] => True | x :: t => writable P x /\ all t end) es <-> Forall (writable P) es.
Proof.
  split; [induction es as [|u es IH]; intros H; [constructor|]; destruct H as [A B]; constructor; auto|].
  induction 1; [exact I|split; assumption].
Qed.
Lemma text_is_writable u : text_writable u -> writable prim_writable u.
Proof.
  induction u using update_ind'; intros W; try exact W.
  - exact (prim_text p W).
  - destruct W as (A & B & W). split; [exact A|]. split; [exact B|]. apply all_forall. apply all_forall in W. rewrite Forall_forall in *. auto.
  - destruct W as (A & B & W). split; [exact A|]. split; [exact B|]. apply all_forall. apply all_forall in W. rewrite Forall_forall in *. auto.
  - destruct W as (A & W). split; [exact A|auto].
  - destruct W as (A & B & W). split; [exact A|]. split; [exact B|auto].
  - destruct W as (A & W). split; [exact A|]. apply all_forall. apply all_forall in W. rewrite Forall_forall in *. auto.
  - destruct W as (A & B & W). split; [exact A|]. split; [exact B|]. apply all_forall. apply all_forall in W. rewrite Forall_forall in *. auto.
Qed.
Lemma reads_list es : Forall (fun u => text_writable u -> forall u', reads_as u u' -> u' = u) es -> Forall text_writable es ->
  forall es', Forall2 reads_as es es' -> es' = es.
Proof.
  intros H W. induction H as [|u es Hu _ IH]; intros es' F; inversion F; subst; [reflexivity|]. inversion W; subst. f_equal; auto.
Qed.
Lemma reads_same u : text_writable u -> forall u', reads_as u u' -> u' = u.
Proof.
  induction u using update_ind'; intros W u' R; inversion R; subst; try reflexivity; try contradiction.
  - f_equal. eapply reads_list; [exact H| |eassumption]. apply all_forall, W.
  - f_equal. eapply reads_list; [exact H| |eassumption]. apply all_forall, W.
  - f_equal. apply IHu; [apply W|assumption].
  - f_equal. apply IHu; [apply W|assumption].
  - f_equal. eapply reads_list; [exact H| |eassumption]. apply all_forall, W.
  - f_equal. eapply reads_list; [exact H| |eassumption]. apply all_forall, W.
Qed.
Theorem written_text us : score_writable prim_in_text us -> exists a, generate order us = ROk a /\ updates a = ROk us.
Proof.
  intros [E W]. destruct (written us) as (a & us' & G & U & F).
  - split; [exact E|]. eapply Forall_impl; [|exact W]. intros u Hu. destruct u; try exact Hu; apply text_is_writable; exact Hu.
  - exists a. split; [exact G|]. rewrite U. f_equal. clear -F W. induction F as [|u u' us us' R _ IH]; [reflexivity|]. inversion W; subst.
    f_equal; [|auto]. destruct u; try (apply reads_same; assumption). inversion R; reflexivity.
Qed.
End Proofs.
