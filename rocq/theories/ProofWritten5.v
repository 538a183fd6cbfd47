(** What the importer's scores read as once they are written. *)
From Coq Require Import String Ascii ZArith List Bool Lia.
From Verif Require Import Base Num ModelPitch ModelDuration ModelTypes ModelLisp ModelScan SpecScan ProofScan ModelParser SpecParser ProofParser ProofParseText
  ModelAst ModelFormat SpecFormat ProofFormat ProofFormatTok ProofFormatLisp ProofFormatNote ProofFormatEvent ProofFormatMain ProofFormatTop
  ModelGen SpecGen SpecImporter ProofGen ProofGen2 ProofGen4 SpecWritten ProofWritten1 ProofWritten2 ProofWritten3 ProofWritten4.
Import ListNotations.
Local Open Scope string_scope.
Local Open Scope list_scope.
Local Open Scope Z_scope.

Section Written.
Context {N : Num}.
Variable fmt : num -> list rune.
Variable cfg : config.
Variable order : list ModelPitch.letter.
Hypothesis all_letters : forall l, In l order.
Notation u_node := (u_node order).
Notation v_node := (v_node order).
Notation p_node := (p_node order).
Notation read_note := (read_note fmt).
Notation read_more := (read_more fmt).
Notation read_event := (read_event fmt).
Notation read_part := (read_part fmt).
Notation plain_event := (plain_event fmt).
Notation event_ops := (event_ops fmt).
Notation events_ops := (events_ops fmt).

(** ** The same is printed *)
Lemma group_unfold vs : event_ops (branch VoiceGroupNode vs) = oapp (Some [FFlush]) (events_ops vs).
Proof. reflexivity. Qed.
Lemma voice_unfold n es : event_ops (voice_node n es) = oapp (Some [FWrite (rn "V" :: itoa n ++ [rn ":"]); FIndent]) (oapp (events_ops es) (Some [FUnindent])).
Proof. reflexivity. Qed.
Lemma voices_ops vs : Forall (plain_voice fmt) vs -> events_ops (map v_node (map voice_read vs)) = events_ops (map v_node vs).
Proof.
  induction 1 as [|v vs [_ H] F IH]; [reflexivity|]. cbn [map ModelFormat.events_ops]. rewrite IH. unfold ProofWritten2.v_node at 1 3. rewrite !voice_unfold. cbn [voice_read fst snd].
  now rewrite (same_ops fmt order _ H).
Qed.
Lemma same_body p : plain_part fmt p -> events_ops (body_nodes order (part_read p)) = events_ops (body_nodes order p).
Proof.
  intros (_ & _ & _ & Fe & Fg & Fl). unfold body_nodes. cbn [part_read w_events w_groups w_last]. rewrite !events_ops_app, (same_ops fmt order _ Fe). f_equal. f_equal.
  - induction Fg as [|g gs (_ & Fv & Fe') Fg IH]; [reflexivity|]. cbn [map groups_nodes flat_map fst snd]. fold (groups_nodes order gs).
    match goal with |- context [flat_map ?f (map ?h gs)] => change (flat_map f (map h gs)) with (groups_nodes order (map h gs)) end.
    cbn [ModelFormat.events_ops app]. rewrite !events_ops_app, IH, (same_ops fmt order _ Fe'). f_equal. unfold g_node. rewrite !group_unfold, !events_ops_app, (voices_ops _ Fv). reflexivity.
  - unfold last_nodes. destruct Fl as [|v vs H Fl]; [reflexivity|]. cbn [map]. cbn [ModelFormat.events_ops]. rewrite !group_unfold.
    change (v_node (voice_read v) :: map v_node (map voice_read vs)) with (map v_node (map voice_read (v :: vs))).
    change (v_node v :: map v_node vs) with (map v_node (v :: vs)). now rewrite (voices_ops (v :: vs)) by (now constructor).
Qed.
Lemma same_part p : plain_part fmt p -> part_ops fmt (p_node (part_read p)) = part_ops fmt (p_node p).
Proof. intros H. cbn [part_ops ProofWritten3.p_node branch]. cbn [part_read w_names w_alias]. destruct (declaration_text _); [|reflexivity]. now rewrite (same_body p H). Qed.
Lemma top_cons p ps : top_ops fmt (p :: ps) = oapp (part_ops fmt p) (match ps with [] => Some [FFlush] | _ => oapp (Some [FFlush; FEmptyLine]) (top_ops fmt ps) end).
Proof. destruct ps; reflexivity. Qed.
Lemma same_top ps : Forall (plain_part fmt) ps -> top_ops fmt (map p_node (map part_read ps)) = top_ops fmt (map p_node ps).
Proof.
  induction 1 as [|p ps H F IH]; [reflexivity|]. cbn [map]. rewrite !top_cons, (same_part p H). f_equal. destruct F; [reflexivity|]. cbn [map] in IH |- *. now rewrite IH.
Qed.

(** ** What is read can be written *)
Lemma read_right p : plain_part fmt p -> read_part (part_read p).
Proof.
  intros (NE & Fn & A & Fe & Fg & Fl). cbn. split; [exact NE|]. split; [exact Fn|]. split; [exact A|]. split; [now apply reads_right|].
  assert (V : forall vs, Forall (plain_voice fmt) vs -> Forall (read_voice fmt) (map voice_read vs)).
  { intros vs F. apply Forall_map. eapply Forall_impl; [|exact F]. intros v [Hn He]. split; [exact Hn|]. cbn. now apply reads_right. }
  split; [|now apply V]. cbn. apply Forall_map. eapply Forall_impl; [|exact Fg]. intros [vs es] (Ne & Fv & Fe'). cbn in *. split; [destruct vs; [congruence|discriminate]|]. split; [now apply V|]. now apply reads_right.
Qed.
Lemma dur_can b d : read_duration fmt b d -> dur_writable d.
Proof.
  destruct d as [cs|]; [|auto]. intros (ls & k & -> & NE & F & _). split; [destruct ls; [congruence|discriminate]|]. apply Forall_app. split.
  - eapply Forall_impl; [|exact F]. intros [] H; try contradiction. cbn. apply H.
  - apply Forall_forall. intros c I0. apply repeat_spec in I0. subst. exact I.
Qed.
Lemma note_can u : read_note u -> writable prim_writable u.
Proof.
  destruct u as [[p d s|d|x|x]| | | | | | | | | | | | | | |]; try contradiction; cbn.
  - destruct p; [|contradiction]. intros [A B]. split; [exact A|eapply dur_can, B].
  - apply dur_can.
Qed.
Lemma more_can t : read_more t -> Forall (writable prim_writable) t /\ Forall is_event t.
Proof.
  induction t as [|x t IH]; [contradiction|]. assert (C : read_note x \/ octave_change x -> writable prim_writable x /\ is_event x).
  { intros [H|H]; [split; [now apply note_can|apply (note_gens fmt order x H)]|]. destruct (octave_node x H) as [(k & -> & _)|[->| ->]]; (split; exact I). }
  destruct t as [|y t].
  - intros H. split; constructor; try constructor; apply C; now left.
  - intros [H M]. destruct (IH M). split; constructor; auto; now apply C.
Qed.
Lemma ends_events b es t : Forall is_event es -> ends_right b (es ++ t) = ends_right b t.
Proof. induction 1 as [|u es H F IH]; [reflexivity|]. destruct u; try contradiction; exact IH. Qed.
Lemma all_writable es : Forall (writable prim_writable) es -> (fix all (l : list update) : Prop := match l with [] => True | x :: t => writable prim_writable x /\ all t end) es.
Proof. induction 1; [exact I|]. split; assumption. Qed.
Lemma event_can u : read_event u -> writable prim_writable u.
Proof.
  intros H. destruct (event_cases fmt order u H) as [S|[->|[O|[(R & E & En)|(n & t & -> & Hn & Ht)]]]].
  - destruct u as [[p d s|d|x|x]| |els| | | | | | | | | | | | |]; try contradiction.
    + destruct x; try (exfalso; exact S); exact H.
    + destruct H as (x & -> & _). cbn. split; [|auto]. exists (runes_of "transpose"). split; [apply scalar_check_ok; reflexivity|reflexivity].
  - exact I.
  - destruct (octave_node u O) as [(k & -> & _)|[->| ->]]; exact I.
  - now apply note_can.
  - destruct (more_can t Ht) as [A B]. assert (I0 : Forall is_event (n :: t)) by (constructor; [apply (note_gens fmt order n Hn)|exact B]).
    split; [discriminate|]. split; [rewrite <- (app_nil_r (n :: t)), ends_events by exact I0; reflexivity|]. apply (all_writable (n :: t)). constructor; [now apply note_can|exact A].
Qed.
Lemma events_can es : Forall read_event es -> Forall (writable prim_writable) es /\ Forall is_event es.
Proof. intros F. split; (eapply Forall_impl; [|exact F]); intros u H; [now apply event_can|apply (reads fmt order u H)]. Qed.
Lemma voices_can vs : Forall (read_voice fmt) vs -> Forall (writable prim_writable) (voices_updates vs) /\
  forall b t, ends_right b (voices_updates vs ++ t) = ends_right (match vs with [] => b | _ => true end) t.
Proof.
  induction 1 as [|v vs (_ & He & _) F [IH IE]]; [split; [constructor|reflexivity]|]. destruct (events_can _ He) as [A B]. cbn [voices_updates flat_map]. fold (voices_updates vs). split.
  - constructor; [exact I|]. apply Forall_app. split; assumption.
  - intros b t. cbn [app ends_right]. rewrite <- app_assoc, ends_events by exact B. rewrite IE. now destruct vs.
Qed.
Definition top_can (u : update) : Prop := match u with UPart names alias => names <> [] /\ Forall encoded names /\ encoded alias | _ => writable prim_writable u end.
Lemma can_top l : Forall (writable prim_writable) l -> Forall top_can l.
Proof. apply Forall_impl. intros u H. destruct u; try exact H. destruct H. Qed.
Lemma part_can p : read_part p -> Forall top_can (wpart_updates p) /\ forall b t, (t = [] \/ exists ns a t', t = UPart ns a :: t') -> ends_right b (wpart_updates p ++ t) = ends_right false t.
Proof.
  intros (NE & Fn & A & (Fe & _) & Fg & Fl). destruct (events_can _ Fe) as [E1 E2]. destruct (voices_can _ Fl) as [L1 L2].
  assert (G : Forall (writable prim_writable) (flat_map (fun g => voices_updates (fst g) ++ UVoiceEnd :: snd g) (w_groups p)) /\
              forall t, ends_right false (flat_map (fun g => voices_updates (fst g) ++ UVoiceEnd :: snd g) (w_groups p) ++ t) = ends_right false t).
  { induction Fg as [|g gs (Ne & Fv & Fe' & _) Fg [IH IE]]; [split; [constructor|reflexivity]|]. destruct (voices_can _ Fv) as [V1 V2]. destruct (events_can _ Fe') as [F1 F2]. cbn [flat_map]. split.
    - apply Forall_app. split; [|exact IH]. apply Forall_app. split; [exact V1|]. constructor; [exact I|exact F1].
    - intros t. rewrite <- !app_assoc, V2. destruct (fst g); [congruence|]. cbn [app ends_right andb]. rewrite ends_events by exact F2. apply IE. }
  destruct G as [G1 G2]. split.
  - constructor; [|apply can_top; apply Forall_app; split; [exact E1|]; apply Forall_app; split; assumption].
    split; [exact NE|]. split; [eapply Forall_impl; [|exact Fn]; intros s; apply name_runes|now apply alias_runes].
  - intros b t S. cbn [wpart_updates app ends_right]. rewrite <- !app_assoc, ends_events, G2, L2 by exact E2. destruct (w_last p); [reflexivity|]. destruct S as [->|(ns & a & t' & ->)]; reflexivity.
Qed.
Lemma score_can ps : Forall read_part ps -> score_writable prim_writable (score_updates ps).
Proof.
  intros F. split.
  - induction F as [|p ps H F IH]; [reflexivity|]. cbn [score_updates flat_map]. fold (score_updates ps). rewrite (proj2 (part_can p H)); [exact IH|]. apply score_first.
  - change (Forall top_can (score_updates ps)). induction F as [|p ps H F IH]; [constructor|]. cbn [score_updates flat_map]. apply Forall_app. split; [apply part_can, H|exact IH].
Qed.
Lemma read_gens p : read_part p -> gens_part order p.
Proof.
  intros (_ & _ & _ & (Fe & _) & Fg & Fl). assert (E : forall es, Forall read_event es -> Forall (gens order) es) by (intros es; apply Forall_impl; intros u; apply (reads fmt order u)).
  assert (V : forall vs, Forall (read_voice fmt) vs -> Forall (gens_voice order) vs) by (intros vs; apply Forall_impl; intros v (_ & X & _); now apply E).
  split; [now apply E|]. split; [|now apply V]. eapply Forall_impl; [|exact Fg]. intros g (A & B & C & _). auto.
Qed.
Lemma plain_part_gens p : plain_part fmt p -> gens_part order p.
Proof.
  intros (_ & _ & _ & Fe & Fg & Fl). assert (E : forall es, Forall plain_event es -> Forall (gens order) es) by (intros es; apply Forall_impl; intros u; apply (plain_gens fmt order u)).
  assert (V : forall vs, Forall (plain_voice fmt) vs -> Forall (gens_voice order) vs) by (intros vs; apply Forall_impl; intros v (_ & X); now apply E).
  split; [now apply E|]. split; [|now apply V]. eapply Forall_impl; [|exact Fg]. intros g (A & B & C). auto.
Qed.

Theorem c69_text ps : blank_text (c_indent cfg) -> Forall (plain_part fmt) ps ->
  exists a text us, generate order (score_updates ps) = ROk a /\ format fmt cfg a = Some text /\ compile text = ROk us /\
    Forall2 reads_as (score_updates (map part_read ps)) us.
Proof.
  intros B F. assert (R : Forall read_part (map part_read ps)) by (apply Forall_map; eapply Forall_impl; [|exact F]; intros p; apply read_right).
  destruct (parts_derived fmt order _ R) as (_ & D & Fi & Fn). destruct (format_tokens fmt cfg _ _ _ B D Fi Fn) as (text & Hf & Hp).
  assert (G1 : generate order (score_updates ps) = ROk (branch RootNode (map p_node ps))) by (apply generate_all; eapply Forall_impl; [|exact F]; intros p; apply plain_part_gens).
  assert (G2 : generate order (score_updates (map part_read ps)) = ROk (branch RootNode (map p_node (map part_read ps)))) by (apply generate_all; eapply Forall_impl; [|exact R]; intros p; apply read_gens).
  destruct (written order all_letters _ (score_can _ R)) as (b & us & G3 & U & Fr). rewrite G2 in G3. injection G3 as <-.
  exists (branch RootNode (map p_node ps)), text, us. split; [exact G1|]. split; [|split; [|exact Fr]].
  - rewrite <- Hf. unfold format. cbn [nch branch]. now rewrite (same_top ps F).
  - unfold compile. rewrite Hp. exact U.
Qed.
End Written.
