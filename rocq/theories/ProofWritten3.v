(** What the importer's scores read as once they are written: whole scores. *)
From Coq Require Import String ZArith List Bool Lia.
From Verif Require Import Base Num ModelPitch ModelDuration ModelTypes ModelLisp ModelScan SpecScan ProofScan ModelParser SpecParser ProofParser ProofParseText
  ModelAst ModelFormat SpecFormat ProofFormat ProofFormatTok ProofFormatLisp ProofFormatNote ProofFormatEvent ProofFormatMain ProofFormatTop
  ModelGen SpecGen SpecImporter ProofGen ProofGen2 SpecWritten ProofWritten1 ProofWritten2.
Import ListNotations.
Local Open Scope list_scope.
Local Open Scope Z_scope.

(** A derivation of the grammar is enough to print and read back a tree. *)
Section Print.
Context {N : Num}.
Variable fmt : num -> list rune.
Variable cfg : config.
Notation prun := (prun cfg).
Notation total := (total cfg).
Lemma format_tokens ts ns r : blank_text (c_indent cfg) -> parts_at ts ns r -> fit ts -> Forall (fine fmt) ns ->
  exists text, format fmt cfg (branch RootNode ns) = Some text /\ parse text = Parsed (branch RootNode ns).
Proof.
  intros B Hp F Fi. destruct (parts_print fmt cfg _ _ _ Hp F Fi) as (P & T & L & S & G).
  assert (F0 : full new_formatter) by constructor.
  destruct (S new_formatter) as (_ & _ & _ & _ & _ & LV); [discriminate|].
  set (st' := prun P new_formatter). set (e := Token TEOF [] (line_after (total st')) (column_after (total st'))).
  assert (Kr : kind r = TEOF) by (clear - Hp; induction Hp; auto).
  destruct (G new_formatter [e] F0 eq_refl eq_refl) as (H1 & _ & H3).
  { split; [apply ahead_part; now right|]. apply same_other; rewrite Kr; [reflexivity|discriminate]. }
  { cbn [line_of tline e]. reflexivity. }
  exists (f_out st'). split.
  - unfold format. cbn [nch branch]. rewrite T, LV by (cbn; lia). rewrite frun_prun. reflexivity.
  - assert (TX : f_out st' = SpecScan.text_of (emits cfg P new_formatter)).
    { pose proof (prun_total cfg P new_formatter F0 (lexed_solid _ L)) as X. fold st' in X. fold st' in H3.
      unfold ProofFormat.total in X. unfold line in X. rewrite H3 in X. cbn in X. now rewrite app_nil_r in X. }
    rewrite TX. apply parse_accepts with (tokens_at [] (emits cfg P new_formatter)).
    + apply scan_accepts. now apply emits_well_formed.
    + exists ns, [e]. split; [|reflexivity]. rewrite <- (app_nil_r (emits cfg P new_formatter)), tokens_at_app.
      cbn [app tokens_at]. pose proof (prun_total cfg P new_formatter F0 (lexed_solid _ L)) as X. fold st' in X.
      change (total new_formatter) with (@nil rune) in X. cbn [app] in X. rewrite <- X. exact H1.
Qed.
End Print.

Section Written.
Context {N : Num}.
Variable fmt : num -> list rune.
Variable order : list ModelPitch.letter.
Notation fine := (fine fmt).
Notation u_node := (u_node order).
Notation v_node := (v_node order).
Notation gens := (gens order).
Notation toks := (toks order).
Notation toks_all := (toks_all order).
Notation voices_toks := (voices_toks order).
Notation read_note := (read_note fmt).
Notation read_more := (read_more fmt).
Notation read_event := (read_event fmt).
Notation read_voice := (read_voice fmt).

(** ** Trees of parts *)
Definition g_node (vs : list voice) : node := branch VoiceGroupNode (map v_node vs ++ [branch VoiceGroupEndMarkerNode []]).
Definition last_nodes (vs : list voice) : list node := match vs with [] => [] | _ => [branch VoiceGroupNode (map v_node vs)] end.
Definition groups_nodes (gs : list (list voice * list update)) : list node := flat_map (fun g => g_node (fst g) :: map u_node (snd g)) gs.
Definition body_nodes (p : wpart) : list node := map u_node (w_events p) ++ groups_nodes (w_groups p) ++ last_nodes (w_last p).
Definition p_node (p : wpart) : node := branch PartNode [gen_declaration (w_names p) (w_alias p); branch EventSequenceNode (body_nodes p)].
Definition gens_voice (v : voice) : Prop := Forall gens (snd v).
Definition gens_part (p : wpart) : Prop := Forall gens (w_events p) /\
  Forall (fun g => fst g <> [] /\ Forall gens_voice (fst g) /\ Forall gens (snd g)) (w_groups p) /\ Forall gens_voice (w_last p).

Lemma gens_in es : Forall gens es -> forall t done V n E, inner_events order (es ++ t) (done, Some (V, n, E)) = inner_events order t (done, Some (V, n, E ++ map u_node es)).
Proof.
  induction 1 as [|u es [I0 G] F IH]; intros t done V n E; [cbn; now rewrite app_nil_r|]. cbn [app]. rewrite (inner_event order u _ _ _ I0 G). cbn [add_event]. rewrite IH.
  cbn [map]. now rewrite <- app_assoc.
Qed.
Lemma voices_in vs : Forall gens_voice vs -> forall t done g, exists g', inner_events order (voices_updates vs ++ t) (done, Some g) = inner_events order t (done, Some g') /\
  close_voice g' = close_voice g ++ map v_node vs.
Proof.
  induction 1 as [|v vs H F IH]; intros t done g; [exists g; split; [reflexivity|cbn; now rewrite app_nil_r]|].
  cbn [voices_updates flat_map]. fold (voices_updates vs). rewrite <- app_assoc. cbn [app inner_events fst snd]. rewrite <- ?app_assoc.
  rewrite (gens_in _ H). destruct (IH t done (close_voice g, fst v, [] ++ map u_node (snd v))) as (g' & E & C). exists g'. split; [exact E|].
  rewrite C. cbn [close_voice app map]. rewrite <- app_assoc. reflexivity.
Qed.
Lemma voices_first v vs t done : Forall gens_voice (v :: vs) -> exists g', inner_events order (voices_updates (v :: vs) ++ t) (done, None) = inner_events order t (done, Some g') /\
  close_voice g' = map v_node (v :: vs).
Proof.
  intros F. inversion F as [|? ? H F']; subst. cbn [voices_updates flat_map]. fold (voices_updates vs). rewrite <- app_assoc. cbn [app inner_events fst snd].
  rewrite (gens_in _ H). destruct (voices_in vs F' t done ([], fst v, [] ++ map u_node (snd v))) as (g' & E & C). exists g'. split; [exact E|]. rewrite C. reflexivity.
Qed.
Lemma groups_in gs : Forall (fun g => fst g <> [] /\ Forall gens_voice (fst g) /\ Forall gens (snd g)) gs -> forall t done,
  inner_events order (flat_map (fun g => voices_updates (fst g) ++ UVoiceEnd :: snd g) gs ++ t) (done, None) = inner_events order t (done ++ groups_nodes gs, None).
Proof.
  induction 1 as [|g gs (NE & Fv & Fe) F IH]; intros t done; [cbn; now rewrite app_nil_r|]. cbn [flat_map groups_nodes]. fold (groups_nodes gs).
  destruct g as [vs es]. cbn [fst snd] in *. destruct vs as [|v vs]; [congruence|]. rewrite <- !app_assoc.
  destruct (voices_first v vs ((UVoiceEnd :: es) ++ flat_map (fun g => voices_updates (fst g) ++ UVoiceEnd :: snd g) gs ++ t) done Fv) as (g' & E & C). rewrite E.
  cbn [app inner_events fst snd]. rewrite C, (gens_done order _ Fe), IH. f_equal. f_equal. rewrite <- !app_assoc. reflexivity.
Qed.
Lemma body_in p : gens_part p ->
  inner_events order (w_events p ++ flat_map (fun g => voices_updates (fst g) ++ UVoiceEnd :: snd g) (w_groups p) ++ voices_updates (w_last p)) ([], None) = ROk (body_nodes p).
Proof.
  intros (Fe & Fg & Fl). rewrite (gens_done order _ Fe), (groups_in _ Fg). unfold body_nodes. destruct (w_last p) as [|v vs].
  - cbn. now rewrite !app_nil_r.
  - destruct (voices_first v vs [] (([] ++ map u_node (w_events p)) ++ groups_nodes (w_groups p)) Fl) as (g' & E & C). rewrite app_nil_r in E. rewrite E.
    cbn [inner_events fst snd close_group]. rewrite C. cbn [app last_nodes]. now rewrite <- app_assoc.
Qed.
Definition w_body (p : wpart) : list update :=
  w_events p ++ flat_map (fun g => voices_updates (fst g) ++ UVoiceEnd :: snd g) (w_groups p) ++ voices_updates (w_last p).
Lemma gens_no_part es : Forall gens es -> Forall no_part es.
Proof. apply Forall_impl. intros u [I0 _]. destruct u; try contradiction; exact I. Qed.
Lemma voices_no_part vs : Forall gens_voice vs -> Forall no_part (voices_updates vs).
Proof. induction 1 as [|v vs H F IH]; [constructor|]. cbn. constructor; [exact I|]. apply Forall_app. split; [now apply gens_no_part|exact IH]. Qed.
Lemma body_no_part p : gens_part p -> Forall no_part (w_body p).
Proof.
  intros (Fe & Fg & Fl). apply Forall_app. split; [now apply gens_no_part|]. apply Forall_app. split; [|now apply voices_no_part].
  induction Fg as [|g gs (_ & A & B) F IH]; [constructor|]. cbn. apply Forall_app. split; [|exact IH]. apply Forall_app. split; [now apply voices_no_part|]. constructor; [exact I|now apply gens_no_part].
Qed.
Lemma until_body es more : Forall no_part es -> (more = [] \/ exists ns a t, more = UPart ns a :: t) -> until_part (es ++ more) = (es, more).
Proof.
  intros F S. induction F as [|u es H F IH].
  - destruct S as [->|(ns & a & t & ->)]; reflexivity.
  - cbn [app]. assert (Y : forall l, until_part (u :: l) = let (p, q) := until_part l in (u :: p, q)) by (intros; destruct u; try reflexivity; destruct H). now rewrite Y, IH.
Qed.
Lemma score_first ps : score_updates ps = [] \/ exists ns a t, score_updates ps = UPart ns a :: t.
Proof. destruct ps; [now left|right]. cbn. eauto. Qed.
Lemma gen_parts_all ps : Forall gens_part ps -> forall fuel, (List.length ps < fuel)%nat -> gen_parts order fuel (score_updates ps) = ROk (map p_node ps).
Proof.
  induction 1 as [|p ps H F IH]; intros fuel L; (destruct fuel as [|f]; [cbn in L; lia|]); [reflexivity|].
  cbn [score_updates flat_map wpart_updates app gen_parts]. fold (score_updates ps). change (w_events p ++ _) with (w_body p).
  rewrite (until_body _ _ (body_no_part p H) (score_first ps)). cbn [List.length] in L. rewrite (IH f ltac:(lia)). cbn [rbind].
  change (inner_events order (w_body p) ([], None)) with (inner_events order (w_events p ++ flat_map (fun g => voices_updates (fst g) ++ UVoiceEnd :: snd g) (w_groups p) ++ voices_updates (w_last p)) ([], None)).
  rewrite (body_in p H). reflexivity.
Qed.
Lemma length_parts ps : (List.length ps <= List.length (score_updates ps))%nat.
Proof. induction ps as [|p ps IH]; [reflexivity|]. cbn [score_updates flat_map]. fold (score_updates ps). rewrite app_length. cbn [wpart_updates List.length]. lia. Qed.
Lemma generate_all ps : Forall gens_part ps -> generate order (score_updates ps) = ROk (branch RootNode (map p_node ps)).
Proof.
  intros F. unfold generate. pose proof (until_body [] (score_updates ps) ltac:(constructor) (score_first ps)) as U. cbn [app] in U. rewrite U.
  pose proof (length_parts ps). rewrite (gen_parts_all ps F) by lia. reflexivity.
Qed.

(** ** Tokens of parts *)
Definition names_toks (ns : list string) : list token := flat_map (fun s => [T TSeparator; W TName (runes_of s)]) ns.
Definition alias_toks (a : string) : list token := if String.eqb a "" then [] else [T (TAlias (runes_of a))].
Definition groups_toks (gs : list (list voice * list update)) : list token := flat_map (fun g => voices_toks (fst g) ++ T (TVoice 0) :: toks_all (snd g)) gs.
Definition part_toks (p : wpart) : list token :=
  match w_names p with [] => [] | n :: ns => W TName (runes_of n) :: names_toks ns end ++ alias_toks (w_alias p) ++ T TColon ::
  toks_all (w_events p) ++ groups_toks (w_groups p) ++ voices_toks (w_last p).
Definition score_toks (ps : list wpart) : list token := flat_map part_toks ps ++ [T TEOF].
Definition read_part (p : wpart) : Prop :=
  w_names p <> [] /\ Forall name_of (w_names p) /\ alias_of (w_alias p) /\ (Forall read_event (w_events p) /\ apart (w_events p)) /\
  Forall (fun g => fst g <> [] /\ Forall read_voice (fst g) /\ Forall read_event (snd g) /\ apart (snd g)) (w_groups p) /\ Forall read_voice (w_last p).

Definition over (r : list token) : Prop := kind r = TEOF \/ looks_like_part r = true.
Lemma over_voice r : over r -> halt r /\ ends_voice r = true /\ forall m, kind r <> TVoice m.
Proof.
  unfold over, halt, ends_voice, looks_like_part. intros [H|H].
  - rewrite H. repeat split. discriminate.
  - destruct (kind r); try discriminate. repeat split; [exact H|discriminate].
Qed.
Lemma groups_halt gs l r : over r -> Forall read_voice l -> Forall (fun g => fst g <> [] /\ Forall read_voice (fst g) /\ Forall read_event (snd g) /\ apart (snd g)) gs ->
  halt (groups_toks gs ++ voices_toks l ++ r).
Proof.
  intros O Fl Fg. destruct Fg as [|g gs (NE & _) _].
  - destruct l; [apply over_voice, O|exact I].
  - destruct g as [[|v vs] es]; [cbn in NE; congruence|exact I].
Qed.
Lemma voices_cons v l r : voices_toks (v :: l) ++ r = T (TVoice (fst v)) :: toks_all (snd v) ++ voices_toks l ++ r.
Proof. unfold ProofWritten2.voices_toks. cbn [flat_map app]. now rewrite <- app_assoc. Qed.
Lemma groups_cons v vs es gs r : groups_toks ((v :: vs, es) :: gs) ++ r =
  T (TVoice (fst v)) :: toks_all (snd v) ++ voices_toks vs ++ T (TVoice 0) :: toks_all es ++ groups_toks gs ++ r.
Proof. unfold groups_toks. cbn [flat_map fst snd]. rewrite <- !app_assoc, voices_cons. cbn [app]. now rewrite <- ?app_assoc. Qed.
Lemma body_groups gs l r : over r -> Forall read_voice l -> Forall (fun g => fst g <> [] /\ Forall read_voice (fst g) /\ Forall read_event (snd g) /\ apart (snd g)) gs ->
  part_body (groups_toks gs ++ voices_toks l ++ r) (groups_nodes gs ++ last_nodes l) r.
Proof.
  intros O Fl Fg. destruct (over_voice r O) as (Ha & Ev & Kv). induction Fg as [|g gs (NE & Fv & Fe & Ae) Fg IH].
  - cbn [groups_toks groups_nodes flat_map app]. destruct l as [|v l]; [now apply pb_end|]. inversion Fl; subst.
    rewrite voices_cons. cbn [last_nodes].
    eapply pb_event; [discriminate|reflexivity| |apply pb_end; exact O]. apply (ev_voices (T (TVoice (fst v))) (fst v)); [reflexivity|]. now apply (voices_lasting fmt).
  - destruct g as [[|v vs] es]; [cbn in NE; congruence|]. cbn [fst snd] in *. inversion Fv; subst. rewrite groups_cons. cbn [groups_nodes flat_map fst snd app]. fold (groups_nodes gs). rewrite <- app_assoc.
    eapply pb_event; [discriminate|reflexivity| |].
    + apply (ev_voices (T (TVoice (fst v))) (fst v)); [reflexivity|]. apply (voices_ended fmt); assumption.
    + apply (body_of_part fmt); auto. now apply groups_halt.
Qed.

Lemma name_runes s : name_of s -> name_text (runes_of s) /\ ~ In newline (runes_of s) /\ encoded s.
Proof.
  intros (c & c' & t & S & -> & L & L' & F). rewrite runes_of_utf8 by exact S. split; [exists c, c', t; auto|]. split; [|eexists; split; [exact S|reflexivity]].
  intros [X|[X|X]]; [subst; unfold letter, newline, rune in *; lia|subst; unfold letter, newline, rune in *; lia|]. rewrite Forall_forall in F. specialize (F _ X). discriminate.
Qed.
Lemma alias_runes s : alias_of s -> Forall (fun r => word_char r = true) (runes_of s) /\ encoded s.
Proof. intros (t & S & -> & F). rewrite runes_of_utf8 by exact S. split; [exact F|]. eexists; split; [exact S|reflexivity]. Qed.
Lemma name_good s : name_of s -> good (W TName (runes_of s)).
Proof. intros H. destruct (name_runes s H) as (A & B & _). split; [exact A|]. repeat split; [exact B|discriminate]. Qed.
Lemma names_good ns : Forall name_of ns -> Forall good (names_toks ns).
Proof. induction 1 as [|s ns H F IH]; [constructor|]. cbn. constructor; [split; [exact I|repeat split; cbn; auto; discriminate]|]. constructor; [now apply name_good|exact IH]. Qed.
Lemma part_good p : read_part p -> Forall good (part_toks p).
Proof.
  intros (NE & Fn & A & (Fe & _) & Fg & Fl). unfold part_toks. apply Forall_app. split.
  - destruct Fn as [|n ns Hn Fn]; [constructor|]. constructor; [now apply name_good|now apply names_good].
  - apply Forall_app. split.
    + unfold alias_toks. destruct (String.eqb (w_alias p) ""); constructor; [|constructor]. split; [cbn; now apply alias_runes|repeat split; cbn; auto; discriminate].
    + constructor; [split; [exact I|repeat split; cbn; auto; discriminate]|]. apply Forall_app. split; [now apply (all_good fmt)|]. apply Forall_app. split; [|now apply (voices_good fmt)].
      induction Fg as [|g gs (_ & Fv & Fe' & _) Fg IH]; [constructor|]. cbn. apply Forall_app. split; [|exact IH]. apply Forall_app. split; [now apply (voices_good fmt)|].
      constructor; [split; [cbn; unfold small, max_int32; lia|repeat split; cbn; auto; discriminate]|]. now apply (all_good fmt).
Qed.
Lemma p_fine p : read_part p -> fine (p_node p).
Proof.
  intros (NE & Fn & A & (Fe & _) & Fg & Fl). apply branch_fine; [discriminate|]. constructor; [|constructor; [|constructor]].
  - unfold gen_declaration. apply branch_fine; [discriminate|]. constructor.
    + apply branch_fine; [discriminate|]. apply Forall_map. apply Forall_forall. intros s _. apply leaf_fine; [exact I|discriminate].
    + destruct (String.eqb (w_alias p) ""); constructor; [|constructor]. apply leaf_fine; [exact I|discriminate].
  - apply branch_fine; [discriminate|]. unfold body_nodes. apply Forall_app. split; [now apply all_fine|]. apply Forall_app. split.
    + induction Fg as [|g gs (_ & Fv & Fe' & _) Fg IH]; [constructor|]. cbn. constructor.
      * apply branch_fine; [discriminate|]. apply Forall_app. split; [|constructor; [apply branch_fine; [discriminate|constructor]|constructor]].
        apply Forall_map. eapply Forall_impl; [|exact Fv]. intros v. apply v_fine.
      * apply Forall_app. split; [now apply all_fine|exact IH].
    + unfold last_nodes. destruct (w_last p) as [|v vs]; constructor; [|constructor]. apply branch_fine; [discriminate|]. apply Forall_map. eapply Forall_impl; [|exact Fl]. intros w. apply v_fine.
Qed.
Lemma names_derived ns r : kind r <> TSeparator -> names_at (names_toks ns ++ r) (map (fun s => leaf PartNameNode (text_lit s)) ns) r.
Proof.
  intros K. induction ns as [|s ns IH]; [now constructor|]. cbn. apply (nm_more (T TSeparator) (W TName (runes_of s))); auto.
Qed.
Lemma part_derived p r ns r' : read_part p -> over r -> parts_at r ns r' -> parts_at (part_toks p ++ r) (p_node p :: ns) r'.
Proof.
  intros (NE & Fn & A & (Fe & Ae) & Fg & Fl) O H. unfold part_toks, p_node. destruct (w_names p) as [|n names]; [congruence|].
  rewrite <- !app_assoc. cbn [app]. rewrite <- !app_assoc.
  assert (Bd : part_body (toks_all (w_events p) ++ groups_toks (w_groups p) ++ voices_toks (w_last p) ++ r) (body_nodes p) r).
  { unfold body_nodes. apply (body_of_part fmt); auto; [now apply groups_halt|now apply body_groups]. }
  set (rest := toks_all (w_events p) ++ groups_toks (w_groups p) ++ voices_toks (w_last p) ++ r) in *.
  eapply ps_part; [| |exact Bd|exact H].
  - unfold looks_like_part, alias_toks. destruct names; [|reflexivity]. destruct (String.eqb (w_alias p) ""); reflexivity.
  - unfold gen_declaration. cbn [map]. unfold alias_toks. destruct (String.eqb (w_alias p) "").
    + cbn [app]. apply (dc_plain (W TName (runes_of n)) _ (map (fun s => leaf PartNameNode (text_lit s)) names) (T TColon)); [reflexivity| |reflexivity].
      apply names_derived. discriminate.
    + cbn [app]. apply (dc_alias (W TName (runes_of n)) _ (map (fun s => leaf PartNameNode (text_lit s)) names) (T (TAlias (runes_of (w_alias p)))) (runes_of (w_alias p)) (T TColon)); try reflexivity.
      apply names_derived. discriminate.
Qed.
Lemma parts_derived ps : Forall read_part ps -> over (score_toks ps) /\ parts_at (score_toks ps) (map p_node ps) [T TEOF] /\ fit (score_toks ps) /\ Forall fine (map p_node ps).
Proof.
  intros F. split; [|split; [|split]].
  - destruct F as [|p ps (NE & _) _]; [left; reflexivity|right]. unfold score_toks. cbn [flat_map]. unfold part_toks, alias_toks, looks_like_part. destruct (w_names p) as [|n [|]]; [congruence| |reflexivity].
    destruct (String.eqb (w_alias p) ""); reflexivity.
  - unfold score_toks. induction F as [|p ps H F IH]; [apply ps_end; reflexivity|]. cbn [flat_map map]. rewrite <- app_assoc. apply part_derived; auto.
    clear IH. destruct F as [|q ps (NE & _) _]; [left; reflexivity|right]. cbn [flat_map]. unfold part_toks, alias_toks, looks_like_part. destruct (w_names q) as [|n [|]]; [congruence| |reflexivity].
    destruct (String.eqb (w_alias q) ""); reflexivity.
  - apply good_fit. unfold score_toks. apply Forall_app. split; [|constructor; [split; [exact I|repeat split; cbn; auto; discriminate]|constructor]].
    induction F as [|p ps H F IH]; [constructor|]. cbn. apply Forall_app. split; [now apply part_good|exact IH].
  - apply Forall_map. eapply Forall_impl; [|exact F]. intros p. apply p_fine.
Qed.
End Written.
