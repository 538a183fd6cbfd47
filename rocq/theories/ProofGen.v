(** Generating the tree from the updates of a tree. *)
From Coq Require Import String Ascii ZArith NArith List Bool Lia.
From Verif Require Import Base Num ModelPitch ModelDuration ModelInstruments ModelTypes ModelLisp ModelScan ModelParser
  ModelAst ModelGen ModelScore SpecScore SpecVars SpecScan ProofScan SpecParser ProofParser ProofParseText SpecAst ProofAst ProofSafe
  ProofAstTree SpecGen.
Import ListNotations.
Local Open Scope list_scope.
Local Open Scope Z_scope.

(** ** UTF-8 *)
Lemma byte_val_byte z : 0 <= z < 256 -> byte_val (byte z) = z.
Proof.
  intros H. unfold byte_val, byte. rewrite N_ascii_embedding; [lia|]. lia.
Qed.
Lemma runes_from_rune r t : scalar r -> runes_from (utf8_rune r ++ t) = r :: runes_from t.
Proof.
  intros S. unfold scalar, rune in *. unfold utf8_rune.
  destruct ((0 <=? r) && (r <? 128)) eqn:E1.
  { apply andb_true_iff in E1 as [A B]. apply Z.leb_le in A. apply Z.ltb_lt in B. cbn [app runes_from]. cbv zeta.
    rewrite byte_val_byte by lia. rewrite (proj2 (Z.ltb_lt r 128)) by lia. reflexivity. }
  assert (A1 : 128 <= r). { apply andb_false_iff in E1 as [E|E]; [apply Z.leb_gt in E|apply Z.ltb_ge in E]; lia. }
  destruct ((128 <=? r) && (r <? 2048)) eqn:E2.
  { apply andb_true_iff in E2 as [_ B]. apply Z.ltb_lt in B.
    assert (0 <= r / 64 < 32) by (split; [apply Z.div_pos; lia|apply Z.div_lt_upper_bound; lia]).
    pose proof (Z.mod_pos_bound r 64 ltac:(lia)). pose proof (Z.div_mod r 64 ltac:(lia)).
    assert (2 <= r / 64) by (apply Z.div_le_lower_bound; lia).
    cbn [app runes_from]. cbv zeta. rewrite !byte_val_byte by lia.
    rewrite (proj2 (Z.ltb_ge _ 128)) by lia. rewrite (proj2 (Z.ltb_lt _ 224)) by lia. f_equal. lia. }
  assert (A2 : 2048 <= r). { apply andb_false_iff in E2 as [E|E]; [apply Z.leb_gt in E|apply Z.ltb_ge in E]; lia. }
  destruct ((2048 <=? r) && (r <? 65536) && negb ((55296 <=? r) && (r <? 57344))) eqn:E3.
  { apply andb_true_iff in E3 as [B _]. apply andb_true_iff in B as [_ B]. apply Z.ltb_lt in B.
    assert (0 <= r / 4096 < 16) by (split; [apply Z.div_pos; lia|apply Z.div_lt_upper_bound; lia]).
    pose proof (Z.mod_pos_bound r 64 ltac:(lia)). pose proof (Z.div_mod r 64 ltac:(lia)).
    pose proof (Z.mod_pos_bound (r / 64) 64 ltac:(lia)). pose proof (Z.div_mod (r / 64) 64 ltac:(lia)).
    assert (r / 4096 = r / 64 / 64) by (rewrite Z.div_div by lia; reflexivity).
    cbn [app runes_from]. cbv zeta. rewrite !byte_val_byte by lia.
    rewrite (proj2 (Z.ltb_ge _ 128)) by lia. rewrite (proj2 (Z.ltb_ge _ 224)) by lia. rewrite (proj2 (Z.ltb_lt _ 240)) by lia. f_equal. lia. }
  assert (A3 : 65536 <= r < 1114112).
  { apply andb_false_iff in E3 as [E|E].
    - apply andb_false_iff in E as [E|E]; [apply Z.leb_gt in E|apply Z.ltb_ge in E]; lia.
    - apply negb_false_iff, andb_true_iff in E as [B C]. apply Z.leb_le in B. apply Z.ltb_lt in C. lia. }
  rewrite (proj2 (Z.leb_le 65536 r)), (proj2 (Z.ltb_lt r 1114112)) by lia. cbn [andb].
  assert (0 <= r / 262144 < 5) by (split; [apply Z.div_pos; lia|apply Z.div_lt_upper_bound; lia]).
  pose proof (Z.mod_pos_bound r 64 ltac:(lia)). pose proof (Z.div_mod r 64 ltac:(lia)).
  pose proof (Z.mod_pos_bound (r / 64) 64 ltac:(lia)). pose proof (Z.div_mod (r / 64) 64 ltac:(lia)).
  pose proof (Z.mod_pos_bound (r / 4096) 64 ltac:(lia)). pose proof (Z.div_mod (r / 4096) 64 ltac:(lia)).
  assert (r / 4096 = r / 64 / 64) by (rewrite Z.div_div by lia; reflexivity).
  assert (r / 262144 = r / 4096 / 64) by (rewrite Z.div_div by lia; reflexivity).
  cbn [app runes_from]. cbv zeta. rewrite !byte_val_byte by lia.
  rewrite (proj2 (Z.ltb_ge _ 128)) by lia. rewrite (proj2 (Z.ltb_ge _ 224)) by lia. rewrite (proj2 (Z.ltb_ge _ 240)) by lia. f_equal. lia.
Qed.
Lemma runes_of_utf8 s : Forall scalar s -> runes_of (utf8 s) = s.
Proof.
  unfold runes_of, utf8. rewrite list_ascii_of_string_of_list_ascii.
  induction 1 as [|r s S _ IH]; [reflexivity|]. cbn [flat_map]. rewrite runes_from_rune by assumption. now rewrite IH.
Qed.

Section Proofs.
Context {N : Num}.
Variable order : list ModelPitch.letter.
Notation gen := (gen order).
Notation inner_events := (inner_events order).
Implicit Types ts r : list token.

(** Tokens whose texts are scalars. *)
Definition clear_tok (t : token) : Prop :=
  Forall scalar (ttext t) /\
  match tkind t with
  | TString s | TMarker s | TAtMarker s | TAlias s => Forall scalar s
  | _ => True
  end.
Definition clear_all ts : Prop := Forall clear_tok ts.
Lemma clear_suffix r ts : suffix r ts -> clear_all ts -> clear_all r.
Proof. intros (p & ->) H. now apply Forall_app in H. Qed.
Lemma clear_text t r s : clear_all (t :: r) -> (tkind t = TString s \/ tkind t = TMarker s \/ tkind t = TAtMarker s \/ tkind t = TAlias s) ->
  LitText (N := N) (runes_of (utf8 s)) = LitText s.
Proof.
  intros C K. inversion C as [|? ? [_ X] _]; subst. f_equal. apply runes_of_utf8.
  destruct K as [K|[K|[K|K]]]; rewrite K in X; exact X.
Qed.
Lemma clear_word t r : clear_all (t :: r) -> LitText (N := N) (runes_of (utf8 (ttext t))) = LitText (ttext t).
Proof. intros C. inversion C as [|? ? [X _] _]; subst. f_equal. now apply runes_of_utf8. Qed.

(** ** Lisp *)
Lemma gen_lisp_list fs : gen_lisp (LList fs) = rmap (branch LispListNode) (rmapl gen_lisp fs).
Proof.
  cbn [gen_lisp]. apply f_equal. induction fs as [|f fs IH]; [reflexivity|]. cbn [rmapl]. now rewrite IH.
Qed.
Lemma forms_gen : (forall ts n r, form ts n r -> clear_all ts -> exists f, ast_lisp n = ROk f /\ gen_lisp f = ROk n) /\
  (forall ts ns r, forms ts ns r -> clear_all ts -> exists fs, rmapl ast_lisp ns = ROk fs /\ rmapl gen_lisp fs = ROk ns).
Proof.
  pose proof forms_all as [SF SFS].
  assert (P : (forall ts n r, form ts n r -> suffix r ts /\ (clear_all ts -> exists f, ast_lisp n = ROk f /\ gen_lisp f = ROk n)) /\
    (forall ts ns r, forms ts ns r -> suffix r ts /\ (clear_all ts -> exists fs, rmapl ast_lisp ns = ROk fs /\ rmapl gen_lisp fs = ROk ns))).
  { apply form_forms_ind.
    - intros t r K. split; [apply suffix_cons|]. intros C. eexists. split; [reflexivity|]. cbn. unfold text_lit. now rewrite (clear_word t r C).
    - intros t x r K. split; [apply suffix_cons|]. intros C. eexists. split; reflexivity.
    - intros t s r K. split; [apply suffix_cons|]. intros C. eexists. split; [reflexivity|]. cbn. unfold text_lit.
      rewrite (clear_text t r s C); [reflexivity|]. now left.
    - intros t ts ns r K _ [S H]. split; [now apply suffix_tl|]. intros C. inversion C; subst. destruct H as (fs & E & G); [assumption|].
      exists (LList fs). split; [unfold branch; rewrite ast_lisp_list, E; reflexivity|]. rewrite gen_lisp_list, G. reflexivity.
    - intros t r K. split; [apply suffix_cons|]. intros _. exists []. split; reflexivity.
    - intros ts n r ns r' _ [S1 H1] _ [S2 H2]. split; [eapply suffix_trans; eassumption|]. intros C.
      destruct (H1 C) as (f & E & G). destruct (H2 (clear_suffix _ _ S1 C)) as (fs & E2 & G2).
      exists (f :: fs). cbn. rewrite E, G. cbn. rewrite E2, G2. split; reflexivity.
    - intros t ts n r ns r' K _ [S1 H1] _ [S2 H2]. assert (S3 : suffix r (t :: ts)) by now apply suffix_tl.
      split; [eapply suffix_trans; eassumption|]. intros C. inversion C; subst.
      destruct H1 as (f & E & G); [assumption|]. destruct (H2 (clear_suffix _ _ S3 C)) as (fs & E2 & G2).
      exists (LQuoted f :: fs). cbn [rmapl branch ast_lisp gen_lisp]. rewrite E, G. cbn. rewrite E2, G2. split; reflexivity. }
  destruct P as [P1 P2]. split; intros; [eapply P1|eapply P2]; eassumption.
Qed.

(** ** Durations and notes *)
Lemma gen_length k c : length_node k = Some c -> exists x, ast_component c = ROk x /\ gen_component x = ROk c.
Proof.
  destruct k; try discriminate; cbn [length_node]; intros H; injection H as <-.
  - destruct (0 <? dots) eqn:D; (eexists; split; [reflexivity|]); cbn; [now rewrite D|reflexivity].
  - eexists; split; reflexivity.
  - eexists; split; reflexivity.
Qed.
Definition comps_gen (ns : list node) : Prop := exists cs, rmapl ast_component ns = ROk cs /\ rmapl gen_component cs = ROk ns.
Lemma comps_app a b : comps_gen a -> comps_gen b -> comps_gen (a ++ b).
Proof. intros (x & E & G) (y & F & H). exists (x ++ y). split; now apply rmapl_app. Qed.
Lemma comps_one c : (exists x, ast_component c = ROk x /\ gen_component x = ROk c) -> comps_gen [c].
Proof. intros (x & E & G). exists [x]. cbn. now rewrite E, G. Qed.
Lemma comps_bars (bs : list token) : comps_gen (map (fun _ => barline) bs).
Proof.
  induction bs as [|b bs IH]; [now exists []|]. apply (comps_app [barline]); [|exact IH]. apply comps_one. exists CBar. split; reflexivity.
Qed.
Lemma tied_gen ts ns r : tied_length ts ns r -> comps_gen ns.
Proof.
  destruct 1 as [t bs us l c r Kt Hb Hu L]. apply comps_app; [apply comps_bars|]. apply comps_one. eapply gen_length; exact L.
Qed.
Lemma rest_gen ts ns r : duration_rest ts ns r -> comps_gen ns.
Proof.
  induction 1 as [r Kb NT|t ts ns r K H IH|ts ns r ms r' T H IH].
  - now exists [].
  - apply (comps_app [barline]); [|exact IH]. apply comps_one. exists CBar. split; reflexivity.
  - apply comps_app; [eapply tied_gen; exact T|exact IH].
Qed.
(** The optional duration [d] stands for [x] and is generated from it. *)
Definition dur_gen (d : list node) (x : duration) : Prop :=
  (d = [] /\ x = None \/ exists cs, d = [branch DurationNode cs] /\ ast_duration cs = ROk x) /\ gen_duration x = ROk d.
Lemma duration_gen ts d r : duration_at ts d r -> exists x, dur_gen d x.
Proof.
  destruct 1 as [r L|t ts c ns r L H].
  - exists None. split; [now left|reflexivity].
  - destruct (comps_app [c] ns (comps_one c (gen_length _ _ L)) (rest_gen _ _ _ H)) as (cs & E & G).
    destruct cs as [|x cs]; [cbn in E; destruct (ast_component c); cbn in E; try discriminate; destruct (rmapl ast_component ns); discriminate|].
    exists (Some (x :: cs)). split.
    + right. eexists. split; [reflexivity|]. unfold ast_duration. change (c :: ns) with ([c] ++ ns). rewrite E. reflexivity.
    + cbn [gen_duration]. rewrite G. reflexivity.
Qed.
Lemma accs_gen ts as_ r : accs ts as_ r -> exists l, rmapl ast_accidental as_ = ROk l /\ map gen_accidental l = as_.
Proof.
  induction 1 as [r K|t ts a ns r K H (l & E & G)]; [now exists []|].
  destruct (tkind t) eqn:Kt; try discriminate; injection K as <-; eexists (_ :: l);
    (split; [cbn; rewrite E; reflexivity|cbn; rewrite G; reflexivity]).
Qed.
Lemma letter_gen c : 97 <= c <= 103 -> exists l, letter_of_rune c = ROk l /\ letter_char l = c.
Proof.
  intros H. assert (C : c = 97 \/ c = 98 \/ c = 99 \/ c = 100 \/ c = 101 \/ c = 102 \/ c = 103) by lia.
  destruct C as [->|[->|[->|[->|[->|[->| ->]]]]]]; (eexists; split; [vm_compute; reflexivity|reflexivity]).
Qed.
Lemma note_node_gen c as_ d x (sl : bool) ts r : 97 <= c <= 103 -> accs ts as_ r -> dur_gen d x ->
  exists q, updates (note_node c as_ d sl) = ROk [UPrim q] /\ gen (UPrim q) = ROk (note_node c as_ d sl).
Proof.
  intros Hc A [D G]. destruct (letter_gen c Hc) as (l & El & Er). destruct (accs_gen _ _ _ A) as (al & Ea & Ga).
  exists (Note (PLetter l (match al with [] => None | _ => Some al end)) x sl). split.
  - unfold note_node. change (branch NoteNode) with (Node NoteNode NoLit). rewrite up_note.
    assert (P : ast_pitch (branch NoteLetterAndAccidentalsNode (leaf NoteLetterNode (LitRune c) ::
        match as_ with [] => [] | _ => [branch NoteAccidentalsNode as_] end)) = ROk (PLetter l (match al with [] => None | _ => Some al end))).
    { unfold ast_pitch, branch, leaf. rewrite El. cbn [rbind]. destruct as_ as [|a as_]; [injection Ea as <-; reflexivity|].
      rewrite Ea. reflexivity. }
    rewrite P. cbn [rbind]. rewrite (note_rest_dur d x sl D). reflexivity.
  - cbn [ModelGen.gen gen_prim]. rewrite G. cbn [rmap rbind]. unfold note_node. rewrite Er, <- Ga. destruct al; reflexivity.
Qed.
Lemma note_gen ts n r : note_or_rest_at ts n r -> sounds_all ts ->
  exists q, updates n = ROk [UPrim q] /\ gen (UPrim q) = ROk n.
Proof.
  destruct 1 as [t c ts as_ r1 d r K A D NT|t c ts as_ r1 d u r K A D KT|t ts d r K D]; intros Sd;
    inversion Sd as [|? ? St _]; subst; destruct (duration_gen _ _ _ D) as (x & Hx); unfold sound in St; rewrite K in St.
  - eapply note_node_gen; eassumption.
  - eapply note_node_gen; eassumption.
  - exists (Rest x). destruct Hx as [[[-> ->]|(cs & -> & E)] G]; [split; reflexivity|]. split.
    + cbn. unfold rmap. rewrite E. reflexivity.
    + cbn [ModelGen.gen gen_prim]. rewrite G. reflexivity.
Qed.

(** ** Events *)
Lemma inner_event u t n st : is_event u -> gen u = ROk n -> inner_events (u :: t) st = inner_events t (add_event n st).
Proof. intros I G. destruct u; try contradiction; cbn [ModelGen.inner_events]; rewrite G; reflexivity. Qed.
Lemma inner_fix : forall l st, (fix go (l : list update) (st : list node * option open_group) : res (list node) :=
    match l with
    | [] => ROk (fst st ++ close_group (snd st))
    | UVoice n :: t =>
        go t (fst st, Some (match snd st with None => [] | Some g => close_voice g end, n, []))
    | UVoiceEnd :: t =>
        match snd st with
        | None => RPanic "nil pointer dereference"
        | Some g => go t (fst st ++ [branch VoiceGroupNode (close_voice g ++ [branch VoiceGroupEndMarkerNode []])], None)
        end
    | x :: t => rbind (gen x) (fun n => go t (add_event n st))
    end) l st = inner_events l st.
Proof. reflexivity. Qed.
Lemma gen_chord es : gen (UChord es) = rmap (branch ChordNode) (inner_events es ([], None)).
Proof. reflexivity. Qed.
Lemma gen_seq es : gen (USeq es) = rmap (branch EventSequenceNode) (inner_events es ([], None)).
Proof. reflexivity. Qed.
Lemma gen_cram es d : gen (UCram es d) = rbind (inner_events es ([], None)) (fun ns =>
      rmap (fun ds => branch CramNode (branch EventSequenceNode ns :: ds)) (gen_duration d)).
Proof. reflexivity. Qed.
Lemma gen_def s es : gen (UVarDef s es) = rmap (fun ns => branch VariableDefinitionNode [leaf VariableNameNode (text_lit s); branch EventSequenceNode ns])
           (inner_events es ([], None)).
Proof. reflexivity. Qed.

(** The nodes [ns] stand for the events [us], none of which is a voice. *)
Inductive singles : list node -> list update -> Prop :=
| singles_nil : singles [] []
| singles_cons n u ns us : is_event u -> updates n = ROk [u] -> gen u = ROk n -> singles ns us -> singles (n :: ns) (u :: us).
Lemma singles_updates ns us : singles ns us -> updates_all ns = ROk us.
Proof. induction 1 as [|n u ns us I E G _ IH]; [reflexivity|]. cbn [updates_all]. rewrite E. cbn [rbind]. rewrite IH. reflexivity. Qed.
Lemma singles_done ns us : singles ns us -> forall t done, inner_events (us ++ t) (done, None) = inner_events t (done ++ ns, None).
Proof.
  induction 1 as [|n u ns us I E G _ IH]; intros t done; [now rewrite app_nil_r|]. cbn [app]. rewrite (inner_event u _ n) by assumption.
  cbn [add_event]. rewrite IH, <- app_assoc. reflexivity.
Qed.
Lemma singles_voice ns us : singles ns us -> forall t done vs k es,
  inner_events (us ++ t) (done, Some (vs, k, es)) = inner_events t (done, Some (vs, k, es ++ ns)).
Proof.
  induction 1 as [|n u ns us I E G _ IH]; intros t done vs k es; [now rewrite app_nil_r|]. cbn [app]. rewrite (inner_event u _ n) by assumption.
  cbn [add_event]. rewrite IH, <- app_assoc. reflexivity.
Qed.
Lemma singles_app a b us vs : singles a us -> singles b vs -> singles (a ++ b) (us ++ vs).
Proof. induction 1; intros; [assumption|]. cbn. now constructor; auto. Qed.
Lemma singles_events ns us : singles ns us -> Forall is_event us.
Proof. induction 1; constructor; assumption. Qed.

(** A list of updates between which voice groups may stand. *)
Definition no_part (u : update) : Prop := match u with UPart _ _ => False | _ => True end.
Definition list_gen (ns : list node) : Prop := exists us, updates_all ns = ROk us /\ Forall no_part us /\
  (ns <> [] -> us <> []) /\ forall done, inner_events us (done, None) = ROk (done ++ ns).
Definition one_gen (n : node) : Prop := exists u, is_event u /\ updates n = ROk [u] /\ gen u = ROk n.
(** A voice group that is ended by V0: *)
Definition closed_gen ts (n : node) r : Prop := (exists p a, ts = p ++ a :: r /\ tkind a = TVoice 0) /\
  exists us, us <> [] /\ updates n = ROk us /\ Forall no_part us /\
    forall t done, inner_events (us ++ t) (done, None) = inner_events t (done ++ [n], None).
(** ... and one that is not. *)
Definition open_gen (n : node) r : Prop := (ends_voice r = true /\ forall m, kind r <> TVoice m) /\
  exists us, us <> [] /\ updates n = ROk us /\ Forall no_part us /\
    forall done, inner_events us (done, None) = ROk (done ++ [n]).

Definition dead r : Prop := kind r = TColon \/ kind r = TSeparator \/ exists s, kind r = TAlias s.
Definition ready ts : Prop := sounds_all ts /\ clear_all ts /\ plain ts.
Lemma ready_suffix r ts : suffix r ts -> ready ts -> ready r.
Proof. intros S (A & B & C). split; [eapply sounds_suffix; eassumption|]. split; [eapply clear_suffix; eassumption|eapply plain_suffix; eassumption]. Qed.

Definition event_gen ts n r : Prop := suffix r ts /\ (ready ts -> dead r \/ one_gen n \/ (exists m, kind ts = TVoice m) /\ (closed_gen ts n r \/ open_gen n r)).
Definition line_gen ts ns r : Prop := suffix r ts /\ (ready ts -> dead r \/ list_gen ns).
Definition body_gen ts ns r : Prop := suffix r ts /\ (ready ts -> list_gen ns).
Definition voice_gen ts ns r : Prop := suffix r ts /\ (ready ts -> exists us, singles ns us).
Definition group_gen (k : Z) ts vs r : Prop := suffix r ts /\
  (ready ts -> exists us, updates_all vs = ROk (UVoice k :: us) /\ Forall no_part us /\
     (((exists p a, ts = p ++ a :: r /\ tkind a = TVoice 0) /\
       forall t done g, inner_events (UVoice k :: us ++ t) (done, g) =
         inner_events t (done ++ [branch VoiceGroupNode (match g with None => [] | Some g => close_voice g end ++ vs)], None)) \/
      ((ends_voice r = true /\ forall m, kind r <> TVoice m) /\
       forall done g, inner_events (UVoice k :: us) (done, g) =
         ROk (done ++ [branch VoiceGroupNode (match g with None => [] | Some g => close_voice g end ++ vs)])))).

(** What can begin an event. *)
Lemma event_start ts n r : event ts n r -> ~ dead ts /\ kind ts <> TEOF /\ kind ts <> TSeqClose /\ kind ts <> TCramClose /\
  (looks_like_part ts = true -> dead r).
Proof.
  intros E. assert (Z : forall k, kind ts = k -> (match k with TColon | TSeparator | TAlias _ | TEOF | TSeqClose | TCramClose => False | _ => True end) ->
    (k = TName -> looks_like_part ts = true -> dead r) ->
    ~ dead ts /\ kind ts <> TEOF /\ kind ts <> TSeqClose /\ kind ts <> TCramClose /\ (looks_like_part ts = true -> dead r)).
  { intros k K F L. repeat split.
    - intros [D|[D|(s & D)]]; rewrite <- K, D in F; exact F.
    - intros D. rewrite <- K, D in F. exact F.
    - intros D. rewrite <- K, D in F. exact F.
    - intros D. rewrite <- K, D in F. exact F.
    - intros P. apply L; [|exact P]. unfold looks_like_part in P. rewrite K in P. destruct k; try discriminate. reflexivity. }
  destruct E; try (eapply Z; [cbn; eassumption|exact I|discriminate]).
  - (* definition *) eapply Z; [cbn; eassumption|exact I|]. intros _ P. exfalso. unfold looks_like_part in P. cbn in P. rewrite H, H0 in P. discriminate.
  - (* name *) eapply Z; [cbn; eassumption|exact I|]. intros _ P. unfold looks_like_part in P. cbn [kind kind2] in P. rewrite H in P.
    destruct r as [|t' r0]; [discriminate|].
    assert (D : dead (t' :: r0)) by (unfold dead; cbn; destruct (tkind t'); try discriminate; eauto).
    inversion H1; subst; [exact D|]. exfalso. destruct D as [D|[D|(s & D)]]; cbn in D; congruence.
  - (* notes *) assert (K : (exists l, kind ts = TNote l) \/ kind ts = TRest).
    { destruct H as [? ? ? H _ _|? ? ? ? ? H _|? ? ? ? ? ? ? ? ? ? ? H]; destruct H; cbn; eauto. }
    destruct K as [(l & K)|K]; (eapply Z; [exact K|exact I|discriminate]).
Qed.
Lemma event_live ts n r : event ts n r -> dead ts -> False.
Proof. intros E. apply (event_start _ _ _ E). Qed.
Lemma part_like r : ends_voice r = true -> (forall m, kind r <> TVoice m) -> forall n r', event r n r' -> dead r'.
Proof.
  intros E NV n r' H. destruct (event_start _ _ _ H) as (_ & A & B & C & D). apply D.
  unfold ends_voice in E. destruct (kind r) eqn:K; try congruence; exact E.
Qed.

Lemma list_gen_nil : list_gen [].
Proof. exists []. split; [reflexivity|]. split; [constructor|]. split; [congruence|]. intros done. cbn. reflexivity. Qed.
Lemma list_gen_one n ns : one_gen n -> list_gen ns -> list_gen (n :: ns).
Proof.
  intros (u & I & E & G) (us & E2 & F & NE & H). exists (u :: us). split; [cbn [updates_all]; rewrite E; cbn [rbind]; rewrite E2; reflexivity|].
  split; [constructor; [destruct u; try exact Logic.I; exact I|exact F]|]. split; [discriminate|]. intros done.
  rewrite (inner_event u us n) by assumption. cbn [add_event]. rewrite H, <- app_assoc. reflexivity.
Qed.
Lemma list_gen_closed ts n r ns : closed_gen ts n r -> list_gen ns -> list_gen (n :: ns).
Proof.
  intros (_ & us & NE & E & F & H) (vs & E2 & F2 & _ & H2). exists (us ++ vs). split; [cbn [updates_all]; rewrite E; cbn [rbind]; rewrite E2; reflexivity|].
  split; [apply Forall_app; now split|]. split; [intros _ X; apply app_eq_nil in X as [X _]; congruence|]. intros done. rewrite H, H2, <- app_assoc. reflexivity.
Qed.
Lemma list_gen_open n r : open_gen n r -> list_gen [n].
Proof.
  intros (_ & us & NE & E & F & H). exists us. split; [cbn [updates_all]; rewrite E; cbn [rbind]; now rewrite app_nil_r|]. split; [exact F|]. split; [auto|exact H].
Qed.

(** One more event before a list that is not empty after an unfinished group. *)
Lemma event_body ts n r ns r' (body : list token -> list node -> list token -> Prop) : event_gen ts n r -> body_gen r ns r' ->
  (dead r -> False) -> (ends_voice r = true -> (forall m, kind r <> TVoice m) -> ns = []) -> body_gen ts (n :: ns) r'.
Proof.
  intros [S H] [S2 H2] ND NE. split; [eapply suffix_trans; eassumption|]. intros R. pose proof (ready_suffix _ _ S R) as R2.
  destruct (H R) as [D|[O|[_ [C|Op]]]]; [now destruct ND| | |].
  - apply list_gen_one; auto.
  - eapply list_gen_closed; eauto.
  - rewrite (NE (proj1 (proj1 Op)) (proj2 (proj1 Op))). eapply list_gen_open; exact Op.
Qed.
Lemma repeated_gen n r n' r' : repeated n r n' r' -> one_gen n -> one_gen n'.
Proof.
  destruct 1 as [n r _|n t k r K]; [auto|]. intros (u & I & E & G). exists (URepeat u k). split; [exact Logic.I|].
  split; [rewrite up_repeat, E; reflexivity|]. cbn [ModelGen.gen]. rewrite G. reflexivity.
Qed.
Lemma repeated_suffix n r n' r' : repeated n r n' r' -> suffix r' r.
Proof. destruct 1; [apply suffix_refl|apply suffix_cons]. Qed.
Lemma leaf_gen t r n u : is_event u -> updates n = ROk [u] -> (clear_all (t :: r) -> gen u = ROk n) -> event_gen (t :: r) n r.
Proof. intros I E G. split; [apply suffix_cons|]. intros (_ & C & _). right. left. exists u. auto. Qed.

Lemma sexp_gen ts n r : form ts n r -> kind ts = TLParen -> clear_all ts -> exists els, updates n = ROk [ULisp els] /\ gen (ULisp els) = ROk n.
Proof.
  intros F K C. destruct (sexp_ok _ _ _ F K) as (_ & els & E & _ & _). exists els. split; [exact E|].
  destruct (proj1 forms_gen _ _ _ F C) as (f & Ef & Gf). destruct F as [t r K'|t x r K'|t s r K'|t ts ns r K' F']; cbn in K; try congruence.
  unfold branch in E. rewrite up_lisp in E. unfold branch in Ef. rewrite Ef in E. cbn [rbind] in E.
  destruct f; try discriminate. injection E as <-. exact Gf.
Qed.
Lemma between_gen ts ns r : between_notes ts ns r -> suffix r ts /\ (ready ts -> exists us, singles ns us).
Proof.
  induction 1 as [r|t ts ns r K H [S IH]|t ts ns r K H [S IH]|t k ts ns r K H [S IH]|t ts n r ns r' K F H [S IH]].
  - split; [apply suffix_refl|]. intros _. exists []. constructor.
  - split; [now apply suffix_tl|]. intros R. destruct (IH (ready_suffix _ _ (suffix_cons t ts) R)) as (us & G).
    exists (UPrim (Attr POctUp) :: us). constructor; try exact I; try reflexivity. exact G.
  - split; [now apply suffix_tl|]. intros R. destruct (IH (ready_suffix _ _ (suffix_cons t ts) R)) as (us & G).
    exists (UPrim (Attr POctDown) :: us). constructor; try exact I; try reflexivity. exact G.
  - split; [now apply suffix_tl|]. intros R. destruct (IH (ready_suffix _ _ (suffix_cons t ts) R)) as (us & G).
    exists (UPrim (Attr (POctave k)) :: us). constructor; try exact I; try reflexivity. exact G.
  - destruct (sexp_ok _ _ _ F K) as (S1 & _). split; [eapply suffix_trans; eassumption|]. intros R.
    destruct (IH (ready_suffix _ _ S1 R)) as (us & G). destruct (sexp_gen _ _ _ F K (proj1 (proj2 R))) as (els & E & Ge).
    exists (ULisp els :: us). constructor; [exact I|exact E|exact Ge|exact G].
Qed.
Lemma notes_gen ts ns k r : notes_at ts ns k r -> suffix r ts /\ ns <> [] /\ (ready ts -> exists us, singles ns us).
Proof.
  induction 1 as [ts n r H _ _|ts n t k r H K|ts n r b s r1 a r2 ns k r3 H B Ks A H2 (S2 & NE & IH)].
  - destruct (note_ok _ _ _ H) as (S & _). split; [exact S|]. split; [discriminate|]. intros (Sd & _).
    destruct (note_gen _ _ _ H Sd) as (q & E & G). exists [UPrim q]. constructor; [exact I|exact E|exact G|constructor].
  - destruct (note_ok _ _ _ H) as (S & _). split; [eapply suffix_trans; [apply suffix_cons|exact S]|]. split; [discriminate|]. intros (Sd & _).
    destruct (note_gen _ _ _ H Sd) as (q & E & G). exists [UPrim q]. constructor; [exact I|exact E|exact G|constructor].
  - destruct (note_ok _ _ _ H) as (S & _). destruct (between_gen _ _ _ B) as (Sb & Gb). destruct (between_gen _ _ _ A) as (Sa & Ga).
    assert (X1 : suffix r1 ts) by (eapply suffix_trans; [apply suffix_cons|]; eapply suffix_trans; eassumption).
    assert (X2 : suffix r2 ts) by (eapply suffix_trans; eassumption).
    split; [eapply suffix_trans; eassumption|]. split; [discriminate|]. intros R.
    destruct (note_gen _ _ _ H (proj1 R)) as (q & E & G). destruct (Gb (ready_suffix _ _ S R)) as (ub & Hb).
    destruct (Ga (ready_suffix _ _ X1 R)) as (ua & Ha). destruct (IH (ready_suffix _ _ X2 R)) as (un & Hn).
    exists (UPrim q :: ub ++ ua ++ un). constructor; [exact I|exact E|exact G|]. apply singles_app; [exact Hb|]. now apply singles_app.
Qed.
Lemma chord_gen ns us : ns <> [] -> singles ns us -> one_gen (one_or_chord ns).
Proof.
  intros NE S. destruct ns as [|n [|n2 ns]]; [congruence| |].
  - inversion S as [|? u ? us' I E G S']; subst. inversion S'; subst. exists u. auto.
  - exists (UChord us). split; [exact I|]. cbn [one_or_chord]. split.
    + unfold branch. rewrite up_chord, (singles_updates _ _ S). reflexivity.
    + rewrite gen_chord. pose proof (singles_done _ _ S [] []) as X. rewrite app_nil_r in X. rewrite X. cbn. now rewrite app_nil_r.
Qed.

Lemma voice_end ts ns r : voice_body ts ns r -> ends_voice r = true.
Proof. intros H. eapply voice_end_r; exact H. Qed.

Theorem events_gen :
  (forall ts n r, event ts n r -> event_gen ts n r) /\
  (forall line ts ns r, on_line line ts ns r -> line_gen ts ns r) /\
  (forall ts ns r, seq_body ts ns r -> body_gen ts ns r) /\
  (forall ts ns r, cram_body ts ns r -> body_gen ts ns r) /\
  (forall ts ns r, voice_body ts ns r -> voice_gen ts ns r) /\
  (forall k ts vs r, voices_at k ts vs r -> group_gen k ts vs r).
Proof.
  apply event_mutind.
  - (* S-expression *)
    intros ts n r n' r' K H R. destruct (sexp_ok _ _ _ H K) as (S & _).
    split; [eapply suffix_trans; [eapply repeated_suffix; exact R|exact S]|]. intros Rd. right. left.
    apply (repeated_gen _ _ _ _ R). destruct (sexp_gen _ _ _ H K (proj1 (proj2 Rd))) as (els & E & Ge). now exists (ULisp els).
  - (* definition *)
    intros t e ts es r K Ke _ _ _ (S & H). split; [now do 2 apply suffix_tl|]. intros R.
    assert (X : suffix ts (t :: e :: ts)) by (now exists [t; e]).
    destruct (H (ready_suffix _ _ X R)) as [D|(us & E & _ & _ & G)]; [now left|]. right. left.
    exists (UVarDef (utf8 (ttext t)) us). split; [exact I|]. split; [rewrite up_vardef, E; reflexivity|].
    rewrite gen_def, G. cbn [rmap rbind app]. unfold text_lit. rewrite (clear_word t (e :: ts) (proj1 (proj2 R))). reflexivity.
  - (* name *)
    intros t r n' r' K _ R. split; [apply suffix_tl; eapply repeated_suffix; exact R|]. intros Rd. right. left.
    apply (repeated_gen _ _ _ _ R). exists (UVarRef (utf8 (ttext t))). split; [exact I|]. split; [reflexivity|].
    cbn [ModelGen.gen]. unfold text_lit. rewrite (clear_word t r (proj1 (proj2 Rd))). reflexivity.
  - intros t k r K. apply (leaf_gen t r _ (UPrim (Attr (POctave k)))); [exact I|reflexivity|reflexivity].
  - intros t r K. apply (leaf_gen t r _ (UPrim (Attr POctUp))); [exact I|reflexivity|reflexivity].
  - intros t r K. apply (leaf_gen t r _ (UPrim (Attr POctDown))); [exact I|reflexivity|reflexivity].
  - (* notes *)
    intros ts ns k r H. destruct (notes_gen _ _ _ _ H) as (S & NE & G). split; [exact S|]. intros R. right. left.
    destruct (G R) as (us & Si). pose proof (chord_gen _ _ NE Si) as O. unfold maybe_times. destruct (0 <? k); [|exact O].
    destruct O as (u & I' & E & Gu). exists (URepeat u k). split; [exact I|]. split; [rewrite up_repeat, E; reflexivity|]. cbn [ModelGen.gen]. rewrite Gu. reflexivity.
  - intros t r K. apply (leaf_gen t r _ UBarline); [exact I|reflexivity|reflexivity].
  - (* sequence *)
    intros t ts es r n' r' K _ (S & H) R. split; [eapply suffix_trans; [eapply repeated_suffix; exact R|now apply suffix_tl]|]. intros Rd. right. left.
    apply (repeated_gen _ _ _ _ R). destruct (H (ready_suffix _ _ (suffix_cons t ts) Rd)) as (us & E & _ & _ & G).
    exists (USeq us). split; [exact I|]. split; [rewrite up_seq, E; reflexivity|]. rewrite gen_seq, G. reflexivity.
  - (* cram *)
    intros t ts es r1 d r n' r' K _ (S & H) _ D R.
    split; [eapply suffix_trans; [eapply repeated_suffix; exact R|apply suffix_tl; eapply suffix_trans; [exact (proj1 (duration_ok false _ _ _ D))|exact S]]|].
    intros Rd. right. left. apply (repeated_gen _ _ _ _ R). destruct (H (ready_suffix _ _ (suffix_cons t ts) Rd)) as (us & E & _ & _ & G).
    destruct (duration_gen _ _ _ D) as (x & Hx & Gx). exists (UCram us x). split; [exact I|]. split.
    + unfold cram_node. destruct Hx as [(-> & ->)|(cs & -> & Ed)]; unfold branch at 1.
      * rewrite up_cram, E. reflexivity.
      * rewrite up_cram_dur, E. cbn [rbind]. rewrite Ed. reflexivity.
    + rewrite gen_cram, G. cbn [rbind app]. rewrite Gx. reflexivity.
  - (* voices *)
    intros t k ts vs r K _ (S & H). split; [now apply suffix_tl|]. intros R. right. right. split; [exists k; exact K|].
    destruct (H (ready_suffix _ _ (suffix_cons t ts) R)) as (us & E & F & [((p & a & Ep & Ka) & G)|(Z & G)]).
    + left. split; [exists (t :: p), a; split; [cbn; now rewrite Ep|exact Ka]|]. exists (UVoice k :: us). split; [discriminate|].
      split; [rewrite up_voices; exact E|]. split; [constructor; [exact I|exact F]|]. intros t' done. exact (G t' done None).
    + right. split; [exact Z|]. exists (UVoice k :: us). split; [discriminate|].
      split; [rewrite up_voices; exact E|]. split; [constructor; [exact I|exact F]|]. intros done. exact (G done None).
  - intros t s r K. apply (leaf_gen t r _ (UMarker (utf8 s))); [exact I|reflexivity|]. intros C. cbn [ModelGen.gen]. unfold text_lit.
    rewrite (clear_text t r s C); [reflexivity|]. auto.
  - intros t s r K. apply (leaf_gen t r _ (UAtMarker (utf8 s))); [exact I|reflexivity|]. intros C. cbn [ModelGen.gen]. unfold text_lit.
    rewrite (clear_text t r s C); [reflexivity|]. auto.
  - (* on_line *) intros line r _. split; [apply suffix_refl|]. intros _. right. apply list_gen_nil.
  - intros line ts n r ns r' _ _ Ev (S1 & H1) Ol (S2 & H2). split; [eapply suffix_trans; eassumption|]. intros R.
    destruct (H2 (ready_suffix _ _ S1 R)) as [D|L]; [now left|].
    destruct (H1 R) as [D|[O|[_ [C|Op]]]].
    + left. inversion Ol; subst; [exact D|]. exfalso. eapply event_live; eassumption.
    + right. now apply list_gen_one.
    + right. eapply list_gen_closed; eassumption.
    + inversion Ol as [|? ? n1 r1 ns1 r1' _ _ Ev1 Ol1]; subst; [right; eapply list_gen_open; exact Op|]. left.
      pose proof (part_like _ (proj1 (proj1 Op)) (proj2 (proj1 Op)) _ _ Ev1) as D.
      inversion Ol1; subst; [exact D|]. exfalso. eapply event_live; eassumption.
  - (* seq_body *) intros t r K. split; [apply suffix_cons|]. intros _. apply list_gen_nil.
  - intros ts n r ns r' Ev IH1 _ Sb IH2. eapply (event_body ts n r ns r' seq_body); [exact IH1|exact IH2| |].
    + intros D. inversion Sb as [? ? K|? ? ? ? ? Ev1|? ? ? ? ? ? ? Ev1]; subst; [|eapply event_live; eassumption|eapply event_live; eassumption].
      destruct D as [D|[D|(s & D)]]; cbn in D; congruence.
    + intros E NV. inversion Sb as [? ? K|? n1 r1 ns1 ? Ev1 _ Sb1|? n1 t1 rs1 r1 ns1 ? Ev1 K1 Sb1]; subst; [reflexivity| |]; exfalso.
      * pose proof (part_like _ E NV _ _ Ev1) as D. inversion Sb1 as [? ? K|? ? ? ? ? Ev2|? ? ? ? ? ? ? Ev2]; subst; [|eapply event_live; eassumption|eapply event_live; eassumption].
        destruct D as [D|[D|(s & D)]]; cbn in D; congruence.
      * pose proof (part_like _ E NV _ _ Ev1) as D. destruct D as [D|[D|(s & D)]]; cbn in D; congruence.
  - intros ts n t rs r ns r' Ev (S1 & H1) K Sb (S2 & H2).
    assert (X : suffix r ts) by (eapply suffix_trans; [apply suffix_cons|exact S1]).
    split; [eapply suffix_trans; eassumption|]. intros R. apply list_gen_one; [|apply H2; eapply ready_suffix; eassumption].
    assert (NE : rs <> []). { pose proof (sounds_suffix _ _ S1 (proj1 R)) as Y. inversion Y as [|? ? St]; subst. unfold sound in St. now rewrite K in St. }
    destruct (H1 R) as [D|[(u & Iu & E & G)|[_ [((p & a & Ep & Ka) & _)|((Z & _) & _)]]]].
    + exfalso. destruct D as [D|[D|(s & D)]]; cbn in D; congruence.
    + exists (UOnReps rs u). split; [exact I|]. split.
      * assert (Rg : rmapl ast_range (map range_node rs) = ROk rs).
        { clear. induction rs as [|[a b] rs IH]; [reflexivity|]. cbn [map rmapl]. rewrite IH. reflexivity. }
        unfold on_repetitions. destruct rs as [|x rs]; [congruence|]. cbn [map] in *. rewrite up_reps, E. cbn [rbind]. unfold rmap. rewrite Rg. reflexivity.
      * cbn [ModelGen.gen]. rewrite G. cbn [rmap rbind]. unfold on_repetitions. do 5 f_equal. apply map_ext. intros [a b]. reflexivity.
    + exfalso. eapply (proj2 (proj2 R) p a t r Ep Ka). now exists rs.
    + exfalso. unfold ends_voice, looks_like_part in Z. cbn [kind] in Z. rewrite K in Z. discriminate.
  - (* cram_body *) intros t r K. split; [apply suffix_cons|]. intros _. apply list_gen_nil.
  - intros ts n r ns r' Ev IH1 Sb IH2. eapply (event_body ts n r ns r' cram_body); [exact IH1|exact IH2| |].
    + intros D. inversion Sb as [? ? K|? ? ? ? ? Ev1]; subst; [|eapply event_live; eassumption].
      destruct D as [D|[D|(s & D)]]; cbn in D; congruence.
    + intros E NV. inversion Sb as [? ? K|? n1 r1 ns1 ? Ev1 Sb1]; subst; [reflexivity|]; exfalso.
      pose proof (part_like _ E NV _ _ Ev1) as D. inversion Sb1 as [? ? K|? ? ? ? ? Ev2]; subst; [|eapply event_live; eassumption].
      destruct D as [D|[D|(s & D)]]; cbn in D; congruence.
  - (* voice_body *) intros r _. split; [apply suffix_refl|]. intros _. exists []. constructor.
  - intros ts n r ns r' NEv Ev (S1 & H1) Vb (S2 & H2). split; [eapply suffix_trans; eassumption|]. intros R.
    destruct (H2 (ready_suffix _ _ S1 R)) as (us & Si).
    assert (NV : forall m, kind ts <> TVoice m) by (intros m X; unfold ends_voice in NEv; rewrite X in NEv; discriminate).
    assert (ND : ~ dead r).
    { intros D. inversion Vb as [? Z|? ? ? ? ? _ Ev1]; subst; [|eapply event_live; eassumption].
      unfold ends_voice, looks_like_part in Z. destruct D as [D|[D|(s & D)]]; rewrite D in Z; discriminate. }
    destruct (H1 R) as [D|[(u & Iu & E & G)|((m & X) & _)]]; [contradiction|exists (u :: us); now constructor|]. destruct (NV m X).
  - (* the last voice *)
    intros k ts es r Vb (S & H) NV. split; [exact S|]. intros R. destruct (H R) as (us & Si). exists us.
    split; [cbn [updates_all]; rewrite up_voice, (singles_updates _ _ Si); cbn [rmap rbind]; now rewrite app_nil_r|].
    split; [pose proof (singles_events _ _ Si) as F; eapply Forall_impl; [|exact F]; intros u Iu; destruct u; try exact I; exact Iu|].
    right. split; [split; [eapply voice_end; exact Vb|exact NV]|]. intros done g. cbn [ModelGen.inner_events].
    pose proof (singles_voice _ _ Si []) as X. rewrite app_nil_r in X. cbn [fst snd]. rewrite X. reflexivity.
  - (* the last voice, then V0: *)
    intros k ts es t r Vb (S & H) K. split; [eapply suffix_trans; [apply suffix_cons|exact S]|]. intros R. destruct (H R) as (us & Si). exists (us ++ [UVoiceEnd]).
    split; [cbn [updates_all]; rewrite up_voice, (singles_updates _ _ Si); reflexivity|].
    split; [pose proof (singles_events _ _ Si) as F; apply Forall_app; split; [eapply Forall_impl; [|exact F]; intros u Iu; destruct u; try exact I; exact Iu|repeat constructor]|].
    left. split; [destruct S as (p & ->); exists p, t; now split|]. intros t' done g. rewrite <- app_assoc. cbn [ModelGen.inner_events fst snd].
    rewrite (singles_voice _ _ Si). cbn [app ModelGen.inner_events fst snd close_voice]. rewrite <- app_assoc. reflexivity.
  - (* more voices *)
    intros k ts es t m r vs r' Vb (S & H) K NZ _ (S2 & H2).
    assert (S3 : suffix r ts) by (eapply suffix_trans; [apply suffix_cons|exact S]).
    split; [eapply suffix_trans; eassumption|]. intros R. destruct (H R) as (us & Si).
    destruct (H2 (ready_suffix _ _ S3 R)) as (vs' & E & F & G). exists (us ++ UVoice m :: vs').
    split; [cbn [updates_all]; rewrite up_voice, (singles_updates _ _ Si); cbn [rmap rbind]; rewrite E; reflexivity|].
    split; [pose proof (singles_events _ _ Si) as F1; apply Forall_app; split; [eapply Forall_impl; [|exact F1]; intros u Iu; destruct u; try exact I; exact Iu|constructor; [exact I|exact F]]|].
    destruct G as [((p & a & Ep & Ka) & G)|(Z & G)].
    + left. split; [destruct S3 as (p' & ->); exists (p' ++ p), a; split; [now rewrite <- app_assoc, <- Ep|exact Ka]|].
      intros t' done g. rewrite <- app_assoc. cbn [ModelGen.inner_events fst snd]. rewrite (singles_voice _ _ Si). cbn [app].
      rewrite G. cbn [close_voice app]. now rewrite <- app_assoc.
    + right. split; [exact Z|]. intros done g. cbn [ModelGen.inner_events fst snd]. rewrite (singles_voice _ _ Si).
      rewrite G. cbn [close_voice app]. now rewrite <- app_assoc.
Qed.

(** ** Parts *)
Lemma dead_body r ns r' : part_body r ns r' -> ~ dead r.
Proof.
  intros H D. destruct H as [r [K|K]|]; [| |eapply event_live; eassumption].
  - destruct D as [D|[D|(s & D)]]; congruence.
  - unfold looks_like_part in K. destruct D as [D|[D|(s & D)]]; rewrite D in K; discriminate.
Qed.
Lemma part_body_gen ts ns r : part_body ts ns r -> body_gen ts ns r.
Proof.
  induction 1 as [r _|ts n r ns r' _ _ Ev Pb IH]; [split; [apply suffix_refl|intros _; apply list_gen_nil]|].
  eapply (event_body ts n r ns r' part_body); [exact (proj1 events_gen _ _ _ Ev)|exact IH|eapply dead_body; exact Pb|].
  intros E NV. destruct Pb as [|ts1 n1 r1 ns1 r1' _ _ Ev1 Pb1]; [reflexivity|]. exfalso.
  exact (dead_body _ _ _ Pb1 (part_like _ E NV _ _ Ev1)).
Qed.
Lemma until_all us t : Forall no_part us -> until_part (us ++ t) = let (p, q) := until_part t in (us ++ p, q).
Proof.
  induction 1 as [|u us F _ IH]; [cbn; now destruct (until_part t)|]. cbn [app].
  assert (X : until_part (u :: us ++ t) = let (p, q) := until_part (us ++ t) in (u :: p, q)) by (destruct u; try reflexivity; destruct F).
  rewrite X, IH. now destruct (until_part t).
Qed.
Lemma names_gen ts ns r : names_at ts ns r -> clear_all ts -> exists ss, rmapl ast_part_name ns = ROk ss /\
  map (fun s => leaf PartNameNode (text_lit s)) ss = ns.
Proof.
  induction 1 as [r _|s t ts ns r Ks Kt H IH]; intros C; [now exists []|]. inversion C as [|? ? _ C1]; subst. inversion C1 as [|? ? _ C2]; subst.
  destruct (IH C2) as (ss & E & G). exists (utf8 (ttext t) :: ss). split; [cbn; now rewrite E|]. cbn [map]. rewrite G. unfold text_lit, name_node.
  now rewrite (clear_word t ts C1).
Qed.
Lemma utf8_empty s : Forall scalar s -> utf8 s = ""%string -> s = [].
Proof. intros C E. rewrite <- (runes_of_utf8 s C), E. reflexivity. Qed.
Lemma declaration_gen ts d r : declaration ts d r -> ready ts -> exists names alias, ast_declaration d = ROk (UPart names alias) /\
  ast_declaration (gen_declaration names alias) = ROk (UPart names alias) /\ (~ empty_alias ts -> gen_declaration names alias = d).
Proof.
  destruct 1 as [t ts ns c r K H Kc|t ts ns a s c r K H Ka Kc]; intros (Sd & C & P); inversion C as [|? ? C0 C1]; subst;
    destruct (names_gen _ _ _ H C1) as (ss & E & G); exists (utf8 (ttext t) :: ss).
  - assert (X : gen_declaration (utf8 (ttext t) :: ss) "" = branch PartDeclarationNode [branch PartNamesNode (name_node t :: ns)]).
    { unfold gen_declaration. cbn [map String.eqb]. rewrite G. unfold text_lit, name_node. rewrite (clear_word t ts C). reflexivity. }
    assert (Y : ast_declaration (branch PartDeclarationNode [branch PartNamesNode (name_node t :: ns)]) = ROk (UPart (utf8 (ttext t) :: ss) "")).
    { cbn [ast_declaration branch rmapl ast_part_name name_node leaf lit_text rbind]; rewrite E; reflexivity. }
    exists ""%string. split; [exact Y|]. split; [rewrite X; exact Y|auto].
  - destruct (names_ok _ _ _ H) as (S & _). pose proof (clear_suffix _ _ S C1) as C2.
    set (d := branch PartDeclarationNode [branch PartNamesNode (name_node t :: ns); leaf PartAliasNode (LitText s)]).
    assert (Y : ast_declaration d = ROk (UPart (utf8 (ttext t) :: ss) (utf8 s))).
    { unfold d. cbn [ast_declaration branch rmapl ast_part_name name_node leaf lit_text rbind]; rewrite E; reflexivity. }
    assert (X : gen_declaration (utf8 (ttext t) :: ss) (utf8 s) =
      if String.eqb (utf8 s) "" then branch PartDeclarationNode [branch PartNamesNode (name_node t :: ns)] else d).
    { unfold gen_declaration. cbn [map]. rewrite G. unfold text_lit, name_node. rewrite (clear_word t ts C), (clear_text a (c :: r) s C2); [|auto].
      destruct (String.eqb (utf8 s) ""); reflexivity. }
    exists (utf8 s). split; [exact Y|]. rewrite X. destruct (String.eqb (utf8 s) "") eqn:Q; [|split; [exact Y|reflexivity]].
    apply String.eqb_eq in Q. split.
    + rewrite Q. cbn [ast_declaration branch rmapl ast_part_name name_node leaf lit_text rbind]; rewrite E; reflexivity.
    + intros A. exfalso. apply utf8_empty in Q; [|inversion C2 as [|? ? [_ Y'] _]; subst; now rewrite Ka in Y'].
      subst s. apply A. exists a. split; [right; destruct S as (p & ->); apply in_or_app; right; now left|exact Ka].
Qed.
Lemma alias_suffix r ts : suffix r ts -> empty_alias r -> empty_alias ts.
Proof. intros (p & ->) (t & I & K). exists t. split; [apply in_or_app; now right|exact K]. Qed.
(** Declared parts. *)
Definition parts_gen (al : Prop) (ps : list node) : Prop := exists us qs, updates_all ps = ROk us /\ updates_all qs = ROk us /\ (~ al -> qs = ps) /\
  (us = [] \/ exists ns a t, us = UPart ns a :: t) /\
  forall fuel, (List.length us < fuel)%nat -> gen_parts order fuel us = ROk qs.
Lemma until_parts us : (us = [] \/ exists ns a t, us = UPart (N := N) ns a :: t) -> until_part us = ([], us).
Proof. intros [->|(ns & a & t & ->)]; reflexivity. Qed.
Lemma part_end ts ns r : part_body ts ns r -> kind r = TEOF \/ looks_like_part r = true.
Proof. induction 1; auto. Qed.
Lemma parts_at_gen ts ns r : parts_at ts ns r -> ready ts -> (kind ts = TEOF \/ looks_like_part ts = true -> parts_gen (empty_alias ts) ns) /\
  exists us qs, updates_all ns = ROk us /\ updates_all qs = ROk us /\ (~ empty_alias ts -> qs = ns) /\
    generate order us = ROk (branch RootNode qs).
Proof.
  induction 1 as [r K|ts d r es r' ns r'' L D B _ IH|ts es r ns r' NE L B _ IH]; intros La.
  - split; [intros _|exists [], []; repeat split; reflexivity]. exists [], []. split; [reflexivity|]. split; [reflexivity|].
    split; [reflexivity|]. split; [now left|]. intros [|f]; reflexivity.
  - destruct (declaration_ok _ _ _ D) as (S & _). destruct (declaration_gen _ _ _ D La) as (names & alias & Ed & Ed2 & Gd).
    destruct (part_body_gen _ _ _ B) as (S2 & H). pose proof (ready_suffix _ _ S La) as La2.
    destruct (H La2) as (us & E & F & _ & G). pose proof (ready_suffix _ _ S2 La2) as La3.
    destruct (proj1 (IH La3) (part_end _ _ _ B)) as (vs & qs & E2 & E3 & A & Sh & G2).
    set (d' := gen_declaration names alias) in *.
    assert (X : forall fuel, (List.length (UPart names alias :: us ++ vs) < fuel)%nat ->
      gen_parts order fuel (UPart names alias :: us ++ vs) = ROk (branch PartNode [d'; branch EventSequenceNode es] :: qs)).
    { intros [|f] Hf; [lia|]. cbn [gen_parts]. rewrite (until_all us vs F), (until_parts vs Sh). rewrite app_nil_r. cbn [List.length] in Hf. rewrite app_length in Hf.
      rewrite G2 by lia. cbn [rbind]. rewrite G. reflexivity. }
    assert (U : updates_all (branch PartNode [d; branch EventSequenceNode es] :: ns) = ROk (UPart names alias :: us ++ vs)).
    { cbn [updates_all]. rewrite up_part, Ed. cbn [rbind]. rewrite E. cbn [rmap rbind]. rewrite E2. reflexivity. }
    assert (U2 : updates_all (branch PartNode [d'; branch EventSequenceNode es] :: qs) = ROk (UPart names alias :: us ++ vs)).
    { cbn [updates_all]. rewrite up_part, Ed2. cbn [rbind]. rewrite E. cbn [rmap rbind]. rewrite E3. reflexivity. }
    assert (V : ~ empty_alias ts -> branch PartNode [d'; branch EventSequenceNode es] :: qs = branch PartNode [d; branch EventSequenceNode es] :: ns).
    { intros NA. rewrite (Gd NA), A; [reflexivity|]. intros X'. apply NA. eapply alias_suffix; [|exact X']. eapply suffix_trans; eassumption. }
    split; [intros _|]; exists (UPart names alias :: us ++ vs), (branch PartNode [d'; branch EventSequenceNode es] :: qs);
      (split; [exact U|]; split; [exact U2|]; split; [exact V|]).
    + split; [right; eauto|exact X].
    + unfold generate. cbn [until_part]. rewrite X; [reflexivity|lia].
  - destruct (part_body_gen _ _ _ B) as (S2 & H). destruct (H La) as (us & E & F & NE2 & G). pose proof (ready_suffix _ _ S2 La) as La3.
    destruct (proj1 (IH La3) (part_end _ _ _ B)) as (vs & qs & E2 & E3 & A & Sh & G2).
    split; [intros [K|K]; congruence|]. exists (us ++ vs), (branch ImplicitPartNode [branch EventSequenceNode es] :: qs).
    split; [cbn [updates_all]; rewrite up_implicit, E; cbn [rbind]; rewrite E2; reflexivity|].
    split; [cbn [updates_all]; rewrite up_implicit, E; cbn [rbind]; rewrite E3; reflexivity|].
    split; [intros NA; rewrite A; [reflexivity|]; intros X'; apply NA; eapply alias_suffix; eassumption|].
    unfold generate. rewrite (until_all us vs F), (until_parts vs Sh), app_nil_r. rewrite G2 by lia. cbn [rbind].
    destruct us as [|u us]; [exfalso; apply NE2; [|reflexivity]; destruct B as [? [K|K]|]; congruence|]. rewrite G. reflexivity.
Qed.

(** The tokens of a text. *)
Lemma lexeme_clear m k t rest : lexeme m k t rest -> Forall scalar t -> forall line col, clear_tok (Token k t line col).
Proof.
  intros H C line col. split; [exact C|]. cbn [tkind ttext]. destruct H; try exact I.
  - inversion C as [|? ? _ C1]; subst. now apply Forall_app in C1 as [C1 _].
  - destruct H; exact I.
  - inversion C as [|? ? _ C1]; subst. now apply Forall_app in C1 as [C1 _].
  - now inversion C.
  - now inversion C.
Qed.
Lemma tokens_clear ps : forall level before, well_formed level ps -> Forall scalar (text_of ps) -> clear_all (tokens_at before ps).
Proof.
  induction ps as [|p ps IH]; intros level before W C; [repeat constructor|].
  destruct p; cbn [tokens_at well_formed] in *; unfold text_of in C; cbn [map List.concat piece_text] in C; fold (text_of ps) in C.
  - inversion C; subst. eapply IH; [apply W|assumption].
  - apply Forall_app in C as [_ C]. eapply IH; [apply W|assumption].
  - apply Forall_app in C as [C1 C]. destruct W as [L W]. constructor; [eapply lexeme_clear; eassumption|eapply IH; [apply W|assumption]].
Qed.
Theorem generated input ts a us : Forall scalar input -> scan input = Scanned ts -> plain ts -> parse input = Parsed a -> updates a = ROk us ->
  exists a', generate order us = ROk a' /\ updates a' = ROk us /\ (~ empty_alias ts -> a' = a).
Proof.
  intros Sc Es Pl Pa U. pose proof (parse_total input) as P. rewrite Pa in P. destruct P as (ts' & Es' & (ns & r & P & ->)).
  rewrite Es in Es'. injection Es' as <-. pose proof (scan_total input) as St. rewrite Es in St. destruct St as (ps & Et & W & ->).
  destruct (proj2 (parts_at_gen _ _ _ P (conj (tokens_sound _ _ _ W) (conj (tokens_clear _ _ _ W ltac:(now rewrite Et)) Pl)))) as (vs & qs & E & E2 & A & G).
  rewrite up_root in U. assert (us = vs) by congruence. subst vs.
  exists (branch RootNode qs). split; [exact G|]. split; [rewrite up_root; exact E2|]. intros NA. now rewrite A.
Qed.

(** ** Attributes *)
Lemma gen_dynamic m : In m (map fst dynamic_volumes) -> exists n els, gen (UPrim (Attr (PDynamic m))) = ROk n /\ updates n = ROk [ULisp els] /\
  eval (LList els) = ROk (LUpd (Attr (PDynamic m))).
Proof.
  intros H. assert (X : forall m', m = m' -> (exists n els, gen (UPrim (Attr (PDynamic m'))) = ROk n /\ updates n = ROk [ULisp els] /\
    eval (LList els) = ROk (LUpd (Attr (PDynamic m')))) -> exists n els, gen (UPrim (Attr (PDynamic m))) = ROk n /\ updates n = ROk [ULisp els] /\
    eval (LList els) = ROk (LUpd (Attr (PDynamic m)))) by (intros m' ->; auto).
  cbn [map fst dynamic_volumes In] in H.
  repeat (destruct H as [H|H]; [apply (X _ (eq_sym H)); eexists; eexists; split; [reflexivity|split; reflexivity]|]). destruct H.
Qed.
Definition word_chars (l : ModelPitch.letter) (accs : list accidental) : list ascii := flat_map utf8_rune (letter_char l :: map acc_rune accs).
Definition dense (w : list ascii) : Prop := w <> [] /\ Forall (fun c => is_space c = false) w.
Lemma word_dense l accs : dense (word_chars l accs).
Proof.
  split; [destruct l; discriminate|]. unfold word_chars. cbn [flat_map]. apply Forall_app. split; [destruct l; repeat constructor|].
  induction accs as [|a accs IH]; [constructor|]. cbn [map flat_map]. apply Forall_app. split; [destruct a; repeat constructor|exact IH].
Qed.
Lemma word_read l accs : plain_accs accs -> letter_and_accidentals (word_chars l accs) = ROk (l, accs).
Proof.
  intros [NE F]. assert (X : rmapl (fun x => match x with
                             | "+"%char => ROk Sharp
                             | "-"%char => ROk Flat
                             | _ => RErr "invalid letter and accidentals"
                             end) (flat_map utf8_rune (map acc_rune accs)) = ROk accs).
  { clear NE. induction F as [|a accs Na _ IH]; [reflexivity|]. cbn [map flat_map]. destruct a; [|congruence|]; cbn [app rmapl utf8_rune acc_rune]; cbn; now rewrite IH. }
  unfold word_chars. cbn [flat_map]. destruct accs as [|a accs]; [congruence|].
  unfold letter_and_accidentals.
  assert (Y : exists c t, utf8_rune (letter_char l) = [c] /\ new_note_letter c = ROk l /\ flat_map utf8_rune (map acc_rune (a :: accs)) = t /\ t <> []).
  { destruct l; (eexists; eexists; split; [reflexivity|]; split; [reflexivity|]; split; [reflexivity|]; destruct a; discriminate). }
  destruct Y as (c & t & -> & En & Et & Nt). rewrite Et in X |- *. cbn [app]. destruct t as [|x t]; [congruence|]. rewrite En. cbn [rbind]. rewrite X. reflexivity.
Qed.
Lemma fields_word w : Forall (fun c => is_space c = false) w -> forall t cur, fields_on (w ++ t) cur = fields_on t (rev w ++ cur).
Proof.
  induction 1 as [|c w H _ IH]; intros t cur; [reflexivity|]. cbn [app fields_on rev]. rewrite H, IH, <- app_assoc. reflexivity.
Qed.
Fixpoint join_chars (ws : list (list ascii)) : list ascii :=
  match ws with [] => [] | [w] => w | w :: t => w ++ " "%char :: join_chars t end.
Lemma fields_join ws : Forall dense ws -> fields_on (join_chars ws) [] = ws.
Proof.
  induction 1 as [|w ws [NE D] _ IH]; [reflexivity|]. assert (NR : forall A (l : list A), l <> [] -> rev l <> []).
  { intros A l H X. apply H. rewrite <- (rev_involutive l), X. reflexivity. }
  destruct ws as [|w2 ws].
  - cbn [join_chars]. rewrite <- (app_nil_r w) at 1. rewrite (fields_word w D). rewrite app_nil_r. cbn [fields_on].
    destruct (rev w) eqn:R; [now destruct (NR _ w NE)|]. now rewrite <- R, rev_involutive.
  - change (join_chars (w :: w2 :: ws)) with (w ++ " "%char :: join_chars (w2 :: ws)). rewrite (fields_word w D), app_nil_r. cbn [fields_on].
    change (is_space " "%char) with true. cbv iota. destruct (rev w) eqn:R; [now destruct (NR _ w NE)|]. rewrite <- R, rev_involutive. cbn [app]. now rewrite IH.
Qed.
Lemma join_utf8 ws : flat_map utf8_rune (join_words ws) = join_chars (map (flat_map utf8_rune) ws).
Proof.
  induction ws as [|w ws IH]; [reflexivity|]. destruct ws as [|w2 ws]; [reflexivity|].
  change (join_words (w :: w2 :: ws)) with (w ++ space :: join_words (w2 :: ws)). rewrite flat_map_app. cbn [flat_map]. rewrite IH. reflexivity.
Qed.
Lemma letter_eq_dec (a b : ModelPitch.letter) : {a = b} + {a <> b}.
Proof. decide equality. Defined.
Lemma ks_get_set k l v m : ks_get (ks_set k l v) m = if letter_eq_dec l m then v else ks_get k m.
Proof. destruct k, l, m; reflexivity. Qed.
Lemma ks_ext k j : (forall l, ks_get k l = ks_get j l) -> k = j.
Proof.
  intros H. destruct k as [a b c d e f g], j as [a' b' c' d' e' f' g'].
  f_equal; [exact (H LA)|exact (H LB)|exact (H LC)|exact (H LD)|exact (H LE)|exact (H LF)|exact (H LG)].
Qed.
Lemma key_read k : plain_key k -> (forall l, In l order) -> keysig_of_string (utf8 (key_text order k)) = ROk k.
Proof.
  intros P All. unfold keysig_of_string, utf8, key_text, chars. rewrite list_ascii_of_string_of_list_ascii, join_utf8.
  set (entry := fun l => match ks_get k l with Some accs => [letter_char l :: map acc_rune accs] | None => [] end).
  assert (W : map (flat_map utf8_rune) (flat_map entry order) = flat_map (fun l => match ks_get k l with Some accs => [word_chars l accs] | None => [] end) order).
  { clear. induction order as [|l ls IH]; [reflexivity|]. cbn [flat_map]. rewrite map_app, IH. unfold entry. destruct (ks_get k l); reflexivity. }
  rewrite W. rewrite fields_join.
  2:{ clear. induction order as [|l ls IH]; [constructor|]. cbn [flat_map]. destruct (ks_get k l); [|exact IH]. constructor; [apply word_dense|exact IH]. }
  assert (Fo : forall ls acc, exists j, rfold (fun k cs => rbind (letter_and_accidentals cs) (fun '(l, a) => ROk (ks_set k l (Some a))))
      (flat_map (fun l => match ks_get k l with Some accs => [word_chars l accs] | None => [] end) ls) acc = ROk j /\
      forall m, (In m ls /\ ks_get k m <> None -> ks_get j m = ks_get k m) /\ (~ (In m ls /\ ks_get k m <> None) -> ks_get j m = ks_get acc m)).
  { induction ls as [|l ls IH]; intros acc; [exists acc; split; [reflexivity|]; intros m; split; [intros [[] _]|reflexivity]|].
    cbn [flat_map]. destruct (ks_get k l) as [accs|] eqn:E.
    - cbn [app rfold]. rewrite (word_read l accs (P _ _ E)). cbn [rbind]. destruct (IH (ks_set acc l (Some accs))) as (j & Ej & Hj).
      exists j. split; [exact Ej|]. intros m. destruct (Hj m) as [H1 H2].
      assert (Dm : (In m ls /\ ks_get k m <> None) \/ ~ (In m ls /\ ks_get k m <> None)).
      { destruct (in_dec letter_eq_dec m ls); [|right; tauto]. destruct (ks_get k m); [left; split; [assumption|discriminate]|right; intros [_ X]; congruence]. }
      split.
      + intros [Im Nm]. destruct Dm as [D|D]; [now apply H1|]. rewrite (H2 D), ks_get_set. destruct (letter_eq_dec l m) as [->|Ne]; [now rewrite E|].
        exfalso. apply D. split; [|exact Nm]. destruct Im; [congruence|assumption].
      + intros Nm. rewrite H2; [|intros [X Y]; apply Nm; split; [now right|exact Y]]. rewrite ks_get_set. destruct (letter_eq_dec l m) as [->|Ne]; [|reflexivity].
        exfalso. apply Nm. split; [now left|congruence].
    - cbn [app]. destruct (IH acc) as (j & Ej & Hj). exists j. split; [exact Ej|]. intros m. destruct (Hj m) as [H1 H2]. split.
      + intros [[->|Im] Nm]; [congruence|]. now apply H1.
      + intros Nm. apply H2. intros [X Y]. apply Nm. split; [now right|exact Y]. }
  destruct (Fo order ks_empty) as (j & -> & Hj). f_equal. apply ks_ext. intros l. destruct (Hj l) as [H1 H2].
  destruct (ks_get k l) eqn:E; [rewrite H1; [reflexivity|split; [apply All|discriminate]]|]. rewrite H2; [destruct l; reflexivity|intros [_ X]; congruence].
Qed.
Lemma gen_key k : plain_key k -> (forall l, In l order) -> exists n els, gen (UPrim (Attr (PKey k))) = ROk n /\ updates n = ROk [ULisp els] /\
  eval (LList els) = ROk (LUpd (Attr (PKey k))).
Proof.
  intros P All. eexists. exists [LSym "key-signature"; LStr (utf8 (key_text order k))]. split; [reflexivity|]. split; [reflexivity|].
  assert (X : eval (LList [LSym "key-signature"; LStr (utf8 (key_text order k))]) =
    rmap (fun u => LUpd (Attr u)) (rmap PKey (keysig_of_string (utf8 (key_text order k))))) by reflexivity.
  rewrite X, (key_read k P All). reflexivity.
Qed.
End Proofs.
