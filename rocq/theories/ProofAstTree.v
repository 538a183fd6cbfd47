(** Converting the trees of the grammar. *)
From Coq Require Import String Ascii ZArith NArith List Bool Lia.
From Verif Require Import Base Num ModelPitch ModelDuration ModelInstruments ModelTypes ModelLisp ModelScan ModelParser
  ModelAst ModelScore SpecScore SpecVars SpecScan ProofScan SpecParser ProofParser ProofParseText SpecAst ProofAst ProofSafe.
Import ListNotations.
Local Open Scope list_scope.
Local Open Scope Z_scope.

Section Proofs.
Context {N : Num}.
Implicit Types ts r : list token.

Definition suffix r ts : Prop := exists p, ts = p ++ r.
Lemma suffix_refl ts : suffix ts ts.
Proof. now exists []. Qed.
Lemma suffix_cons t ts : suffix ts (t :: ts).
Proof. now exists [t]. Qed.
Lemma suffix_trans a b c : suffix a b -> suffix b c -> suffix a c.
Proof. intros (p & ->) (q & ->). exists (q ++ p). now rewrite app_assoc. Qed.
Lemma suffix_tl t a b : suffix a b -> suffix a (t :: b).
Proof. intros (p & ->). now exists (t :: p). Qed.

(** Tokens as the scanner makes them. *)
Definition sound (t : token) : Prop :=
  match tkind t with
  | TSymbol => ttext t <> []
  | TNote c => 97 <= c <= 103
  | TReps rs => rs <> []
  | _ => True
  end.
Definition sounds_all ts : Prop := Forall sound ts.
Lemma sounds_suffix r ts : suffix r ts -> sounds_all ts -> sounds_all r.
Proof. intros (p & ->) H. now apply Forall_app in H. Qed.
Lemma never_suffix P Q r ts : suffix r ts -> never P Q ts -> never P Q r.
Proof. intros (p & ->) H a x y b -> Px Qy. apply (H (p ++ a) x y b); [now rewrite <- app_assoc|exact Px|exact Qy]. Qed.
Lemma tame_suffix r ts : suffix r ts -> tame ts -> tame r.
Proof.
  intros S [A B C D]. split.
  - eapply never_suffix; eassumption.
  - eapply never_suffix; eassumption.
  - destruct S as (p & ->). intros a x y z b ->. apply (C (p ++ a) x y z b). now rewrite <- app_assoc.
  - destruct S as (p & ->). now apply Forall_app in D.
Qed.
Lemma plain_suffix r ts : suffix r ts -> plain ts -> plain r.
Proof. apply never_suffix. Qed.

(** ** Marks *)
Lemma marks_open b ts : kind ts <> TTie -> marks b ts = marks false ts.
Proof. destruct ts as [|t ts]; [reflexivity|]. cbn. destruct (tkind t); try reflexivity. congruence. Qed.
Lemma marks_cons b t ts k : tkind t = k -> marks b (t :: ts) = marks b (Token k (ttext t) (tline t) (tcol t) :: ts).
Proof. intros <-. reflexivity. Qed.

(** ** Lisp forms *)
Lemma rmapl_go (f : node -> res lform) ch :
  (fix go (l : list node) : res (list lform) :=
     match l with [] => ROk [] | c :: t => rbind (f c) (fun x => rbind (go t) (fun xs => ROk (x :: xs))) end) ch = rmapl f ch.
Proof. induction ch as [|c ch IH]; [reflexivity|]. cbn. now rewrite IH. Qed.
Lemma ast_lisp_list l ch : ast_lisp (Node LispListNode l ch) = rmap LList (rmapl ast_lisp ch).
Proof. cbn [ast_lisp]. now rewrite rmapl_go. Qed.

Definition form_ok ts n r : Prop :=
  suffix r ts /\
  exists f, ast_lisp n = ROk f /\
    (sounds_all ts -> tame ts -> syntactic f) /\
    marks false ts = form_marks f ++ marks false r /\
    (f = LSym "quote" -> exists t, ts = t :: r /\ tkind t = TSymbol /\ ttext t = runes "quote") /\
    (kind ts = TLParen -> exists l, f = LList l).
Definition forms_ok ts ns r : Prop :=
  suffix r ts /\
  exists fs, rmapl ast_lisp ns = ROk fs /\
    (sounds_all ts -> tame ts -> Forall syntactic fs) /\
    marks false ts = flat_map form_marks fs ++ MClose :: marks false r /\
    (fs = [] -> exists t, ts = t :: r /\ tkind t = TRParen) /\
    (fs = [LSym "quote"] -> exists t u, ts = t :: u :: r /\ tkind t = TSymbol /\ ttext t = runes "quote" /\ tkind u = TRParen).

Lemma forms_all : (forall ts n r, form ts n r -> form_ok ts n r) /\ (forall ts ns r, forms ts ns r -> forms_ok ts ns r).
Proof.
  apply form_forms_ind.
  - intros t r K. split; [apply suffix_cons|]. exists (LSym (utf8 (ttext t))). split; [reflexivity|]. split; [|split; [|split]].
    + intros S _. inversion S as [|? ? St _]; subst. unfold sound in St. rewrite K in St. cbn.
      destruct (ttext t); [congruence|apply utf8_nonempty].
    + cbn. now rewrite K.
    + intros H. exists t. repeat split; [exact K|]. apply utf8_quote. congruence.
    + cbn. congruence.
  - intros t x r K. split; [apply suffix_cons|]. exists (LNum x). split; [reflexivity|]. split; [|split; [|split]].
    + intros; exact I.
    + cbn. now rewrite K.
    + discriminate.
    + cbn. congruence.
  - intros t s r K. split; [apply suffix_cons|]. exists (LStr (utf8 s)). split; [reflexivity|]. split; [|split; [|split]].
    + intros; exact I.
    + cbn. now rewrite K.
    + discriminate.
    + cbn. congruence.
  - intros t ts ns r K _ (S & fs & E & Hs & Hm & He & Hq). split; [now apply suffix_tl|]. exists (LList fs).
    split; [unfold branch; rewrite ast_lisp_list, E; reflexivity|]. split; [|split; [|split]].
    + intros Sd T. inversion Sd; subst. apply syntactic_list. repeat split.
      * intros F. destruct (He F) as (u & -> & Ku). eapply (no_empty_list _ T [] t u r); [reflexivity|exact K|exact Ku].
      * intros F. destruct (Hq F) as (u & v & -> & Ku & Tu & Kv). now apply (no_bare_quote _ T [] t u v r).
      * apply Hs; [assumption|]. eapply tame_suffix; [apply suffix_cons|exact T].
    + cbn [marks form_marks]. rewrite K, Hm, <- app_comm_cons, <- app_assoc. reflexivity.
    + discriminate.
    + intros _. now exists fs.
  - intros t r K. split; [apply suffix_cons|]. exists []. split; [reflexivity|]. split; [|split; [|split]].
    + constructor.
    + cbn. now rewrite K.
    + intros _. now exists t.
    + discriminate.
  - intros ts n r ns r' _ (S1 & f & E1 & Hs1 & Hm1 & Hq1 & _) _ (S2 & fs & E2 & Hs2 & Hm2 & He2 & _).
    split; [eapply suffix_trans; eassumption|]. exists (f :: fs). split; [cbn; now rewrite E1, E2|]. split; [|split; [|split]].
    + intros Sd T. constructor; [now apply Hs1|]. apply Hs2; [eapply sounds_suffix|eapply tame_suffix]; eassumption.
    + cbn [flat_map]. now rewrite Hm1, Hm2, app_assoc.
    + discriminate.
    + intros F. injection F as F1 F2. destruct (Hq1 F1) as (t & -> & K & Tt). destruct (He2 F2) as (u & -> & Ku). now exists t, u.
  - intros t ts n r ns r' K _ (S1 & f & E1 & Hs1 & Hm1 & Hq1 & _) _ (S2 & fs & E2 & Hs2 & Hm2 & He2 & _).
    assert (S3 : suffix r (t :: ts)) by now apply suffix_tl.
    split; [eapply suffix_trans; eassumption|]. exists (LQuoted f :: fs).
    split; [cbn [rmapl branch ast_lisp]; rewrite E1; cbn; now rewrite E2|]. split; [|split; [|split]].
    + intros Sd T. constructor.
      * apply Hs1; [eapply sounds_suffix|eapply tame_suffix]; (eassumption || apply suffix_cons).
      * apply Hs2; [eapply sounds_suffix|eapply tame_suffix]; eassumption.
    + cbn [flat_map form_marks marks]. rewrite K, Hm1, Hm2. cbn [app]. now rewrite <- app_assoc.
    + discriminate.
    + discriminate.
Qed.

(** ** Durations *)
Lemma ast_length k c : length_node k = Some c -> exists x, ast_component c = ROk x /\ is_length k = true /\
  forall b t r, tkind t = k -> marks b (t :: r) = component_marks x ++ marks false r.
Proof.
  destruct k; try discriminate; cbn [length_node]; intros H; injection H as <-.
  - destruct (0 <? dots) eqn:D; (eexists; split; [reflexivity|]); (split; [reflexivity|]); intros b t r K; cbn; rewrite K; cbn; do 2 f_equal; lia.
  - eexists; split; [reflexivity|]. split; [reflexivity|]. intros b t r K. cbn. now rewrite K.
  - eexists; split; [reflexivity|]. split; [reflexivity|]. intros b t r K. cbn. now rewrite K.
Qed.
Lemma rmapl_app {A B} (f : A -> res B) a b xs ys : rmapl f a = ROk xs -> rmapl f b = ROk ys -> rmapl f (a ++ b) = ROk (xs ++ ys).
Proof.
  revert xs. induction a as [|x a IH]; intros xs Ha Hb; cbn in *; [injection Ha as <-; exact Hb|].
  destruct (f x) as [y| |]; try discriminate. cbn in *. destruct (rmapl f a) as [zs| |]; try discriminate. cbn in *.
  injection Ha as <-. rewrite (IH zs eq_refl Hb). reflexivity.
Qed.
Lemma skip_bars_app bs ts : Forall (fun b => tkind b = TBarline) bs -> skip_bars (bs ++ ts) = skip_bars ts.
Proof. induction 1 as [|b bs K _ IH]; [reflexivity|]. cbn. now rewrite K. Qed.
Lemma skip_ties_app us ts : Forall (fun u => tkind u = TTie) us -> skip_ties (us ++ ts) = skip_ties ts.
Proof. induction 1 as [|b bs K _ IH]; [reflexivity|]. cbn. now rewrite K. Qed.
Lemma skip_none_bars ts : kind ts <> TBarline -> skip_bars ts = ts.
Proof. destruct ts as [|t ts]; [reflexivity|]. cbn. destruct (tkind t); congruence. Qed.
Lemma skip_none_ties ts : kind ts <> TTie -> skip_ties ts = ts.
Proof. destruct ts as [|t ts]; [reflexivity|]. cbn. destruct (tkind t); congruence. Qed.
Lemma joins_ties us l r c : Forall (fun u => tkind u = TTie) us -> length_node (tkind l) = Some c -> joins (us ++ l :: r) = true.
Proof.
  intros Hu Hl. assert (Kl : is_length (tkind l) = true) by (destruct (tkind l); (reflexivity || discriminate)).
  unfold joins. rewrite skip_none_bars.
  - rewrite skip_ties_app by assumption. rewrite skip_none_ties; [exact Kl|]. cbn. destruct (tkind l); congruence || discriminate.
  - destruct Hu as [|u us Ku _]; cbn; [destruct (tkind l); congruence || discriminate|congruence].
Qed.
Lemma skip_bars_split ts : exists bs, Forall (fun b => tkind b = TBarline) bs /\ ts = bs ++ skip_bars ts.
Proof.
  induction ts as [|t ts (bs & H & E)]; [now exists []|]. cbn. destruct (tkind t) eqn:K; try (now exists []).
  exists (t :: bs). split; [now constructor|]. cbn. now rewrite <- E.
Qed.
Lemma skip_ties_split ts : exists bs, Forall (fun b => tkind b = TTie) bs /\ ts = bs ++ skip_ties ts.
Proof.
  induction ts as [|t ts (bs & H & E)]; [now exists []|]. cbn. destruct (tkind t) eqn:K; try (now exists []).
  exists (t :: bs). split; [now constructor|]. cbn. now rewrite <- E.
Qed.
Lemma joins_tied t r : tkind t = TTie -> joins r = true -> exists ns r', tied_length (t :: r) ns r'.
Proof.
  intros K J. destruct (skip_bars_split r) as (bs & Hb & Eb). destruct (skip_ties_split (skip_bars r)) as (us & Hu & Eu).
  unfold joins in J. destruct (skip_ties (skip_bars r)) as [|l q]; [discriminate|]. cbn in J.
  assert (L : exists c, length_node (tkind l) = Some c) by (destruct (tkind l); try discriminate; eexists; reflexivity).
  destruct L as (c & L). rewrite Eb, Eu. do 2 eexists. now apply (tied t bs us l c q).
Qed.

Definition slur_ahead r : Prop := match r with t :: r' => tkind t = TTie -> joins r' = false | [] => True end.
Definition comps_ok ts ns r : Prop :=
  suffix r ts /\ exists cs, rmapl ast_component ns = ROk cs /\ marks false ts = flat_map component_marks cs ++ marks false r.
Lemma tied_ok ts ns r : tied_length ts ns r -> comps_ok ts ns r.
Proof.
  destruct 1 as [t bs us l c r Kt Hb Hu L]. split.
  { exists (t :: bs ++ us ++ [l]). cbn. rewrite <- !app_assoc. reflexivity. }
  destruct (ast_length _ _ L) as (x & Ex & _ & Mx).
  exists (map (fun _ => CBar) bs ++ [x]). split.
  - apply rmapl_app; [|cbn; now rewrite Ex]. clear Hb. induction bs as [|b bs IH]; [reflexivity|]. cbn in *. now rewrite IH.
  - cbn [marks]. rewrite Kt. unfold joins at 1. rewrite skip_bars_app by assumption. fold (joins (us ++ l :: r)).
    rewrite (joins_ties us l r c Hu L). cbn [orb negb app].
    rewrite flat_map_app. cbn [flat_map]. rewrite app_nil_r, <- app_assoc.
    induction Hb as [|b bs Kb Hb IH].
    + cbn [app map flat_map]. clear Kt. induction Hu as [|u us Ku Hu IH]; [now apply Mx|].
      cbn [app marks]. rewrite Ku, (joins_ties us l r c Hu L). exact IH.
    + cbn [app map flat_map marks]. rewrite Kb. cbn [app component_marks]. now rewrite IH.
Qed.
Lemma duration_rest_ok ts ns r : duration_rest ts ns r -> comps_ok ts ns r /\ slur_ahead r.
Proof.
  induction 1 as [r Kb NT|t ts ns r K H [IH1 IH2]|ts ns r ms r' T H [IH1 IH2]].
  - split; [|destruct r as [|t r]; [exact I|]; intros K; destruct (joins r) eqn:J; [exfalso|reflexivity];
      destruct (joins_tied t r K J) as (ns & r' & T); exact (NT _ _ T)].
    split; [apply suffix_refl|]. now exists [].
  - split; [|exact IH2]. destruct IH1 as (S & cs & E & M). split; [now apply suffix_tl|]. exists (CBar :: cs). split.
    + cbn. now rewrite E.
    + cbn. now rewrite K, M.
  - split; [|exact IH2]. destruct IH1 as (S & cs & E & M). destruct (tied_ok _ _ _ T) as (S' & cs' & E' & M').
    split; [eapply suffix_trans; eassumption|]. exists (cs' ++ cs). split; [now apply rmapl_app|].
    rewrite M', M, flat_map_app, app_assoc. reflexivity.
Qed.
(** An optional duration [d], read after a note's letter if [b]. *)
Definition dur_ok b ts (d : list node) r : Prop :=
  suffix r ts /\
  exists x, (d = [] /\ x = None /\ ts = r \/ exists cs, d = [branch DurationNode cs] /\ ast_duration cs = ROk x /\ slur_ahead r /\
                                                       marks b ts = duration_marks x ++ marks false r).
Lemma duration_ok b ts d r : duration_at ts d r -> dur_ok b ts d r.
Proof.
  destruct 1 as [r L|t ts c ns r L H].
  - split; [apply suffix_refl|]. exists None. now left.
  - destruct (duration_rest_ok _ _ _ H) as [(S & cs & E & M) SA]. destruct (ast_length _ _ L) as (x & Ex & _ & Mx).
    split; [now apply suffix_tl|]. exists (Some (x :: cs)). right. exists (c :: ns). split; [reflexivity|].
    split; [unfold ast_duration; cbn; now rewrite Ex, E|]. split; [exact SA|].
    rewrite (Mx b t ts eq_refl), M. cbn. now rewrite app_assoc.
Qed.

Lemma accs_ok ts as_ r : accs ts as_ r -> suffix r ts /\
  exists l, rmapl ast_accidental as_ = ROk l /\ marks true ts = map MAcc l ++ marks true r.
Proof.
  induction 1 as [r K|t ts a ns r K H (S & l & E & M)]; [split; [apply suffix_refl|now exists []]|].
  split; [now apply suffix_tl|].
  destruct (tkind t) eqn:Kt; try discriminate; injection K as <-; eexists (_ :: l);
    (split; [cbn; rewrite E; reflexivity|cbn; rewrite Kt, M; reflexivity]).
Qed.

(** ** Updates of nodes *)
Fixpoint updates_all (l : list node) : res (list update) :=
  match l with
  | [] => ROk []
  | c :: t => rbind (updates c) (fun us => rbind (updates_all t) (fun vs => ROk (us ++ vs)))
  end.
Lemma up_chord n ch : updates (Node ChordNode NoLit (n :: ch)) = rmap (fun us => [UChord us]) (updates_all (n :: ch)).
Proof. reflexivity. Qed.
Lemma up_cram es : updates (Node CramNode NoLit [branch EventSequenceNode es]) = rmap (fun us => [UCram us None]) (updates_all es).
Proof. reflexivity. Qed.
Lemma up_cram_dur es cs : updates (Node CramNode NoLit [branch EventSequenceNode es; branch DurationNode cs]) =
  rbind (updates_all es) (fun us => rmap (fun d => [UCram us d]) (ast_duration cs)).
Proof. reflexivity. Qed.
Lemma up_seq es : updates (branch EventSequenceNode es) = rmap (fun us => [USeq us]) (updates_all es).
Proof. reflexivity. Qed.
Lemma up_implicit es : updates (branch ImplicitPartNode [branch EventSequenceNode es]) = updates_all es.
Proof. reflexivity. Qed.
Lemma up_reps e x rs : updates (branch OnRepetitionsNode [e; branch RepetitionsNode (x :: rs)]) =
  rbind (updates e) (fun us => rmap (fun rs' => [UOnReps rs' (as_one us)]) (rmapl ast_range (x :: rs))).
Proof. reflexivity. Qed.
Lemma up_part d es : updates (branch PartNode [d; branch EventSequenceNode es]) =
  rbind (ast_declaration d) (fun u => rmap (fun us => u :: us) (updates_all es)).
Proof. reflexivity. Qed.
Lemma up_repeat e k : updates (repeat_node e k) = rbind (updates e) (fun us => ROk [URepeat (as_one us) k]).
Proof. reflexivity. Qed.
Lemma up_root ch : updates (branch RootNode ch) = updates_all ch.
Proof. reflexivity. Qed.
Lemma up_voices ch : updates (branch VoiceGroupNode ch) = updates_all ch.
Proof. reflexivity. Qed.
Lemma up_vardef name es : updates (var_def_node name es) = rmap (fun us => [UVarDef (utf8 name) us]) (updates_all es).
Proof. reflexivity. Qed.
Lemma up_voice k es : updates (voice_node k es) = rmap (fun us => UVoice k :: us) (updates_all es).
Proof. reflexivity. Qed.
Lemma up_note p more : updates (Node NoteNode NoLit (p :: more)) =
  rbind (ast_pitch p) (fun p' => rmap (fun '(d, sl) => [UPrim (Note p' d sl)]) (ast_note_rest more None false)).
Proof. reflexivity. Qed.
Lemma up_lisp l ch : updates (Node LispListNode l ch) =
  rbind (ast_lisp (Node LispListNode l ch)) (fun f => match f with LList els => ROk [ULisp els] | _ => bad_literal end).
Proof. reflexivity. Qed.
Lemma updates_all_app a b us vs : updates_all a = ROk us -> updates_all b = ROk vs -> updates_all (a ++ b) = ROk (us ++ vs).
Proof.
  revert us. induction a as [|x a IH]; intros us Ha Hb; cbn [updates_all app] in *; [injection Ha as <-; exact Hb|].
  destruct (updates x) as [u| |]; try discriminate. cbn [rbind] in *. destruct (updates_all a) as [w| |]; try discriminate. cbn [rbind] in *.
  injection Ha as <-. rewrite (IH w eq_refl Hb). cbn. now rewrite app_assoc.
Qed.

Lemma go_safe es : (fix go (l : list update) : Prop := match l with [] => True | e :: t => safe e /\ go t end) es <-> Forall safe es.
Proof. induction es as [|x l IH]; split; intros H; [constructor|exact I| |]. - destruct H. constructor; tauto. - inversion H; subst. tauto. Qed.
Lemma safe_seq es : Forall safe es -> safe (USeq es).
Proof. intros H. now apply go_safe in H. Qed.
Lemma safe_chord es : Forall safe es -> safe (UChord es).
Proof. intros H. now apply go_safe in H. Qed.
Lemma safe_cram es d : Forall safe es -> safe (UCram es d).
Proof. intros H. now apply go_safe in H. Qed.
Lemma safe_def s es : Forall safe es -> safe (UVarDef s es).
Proof. intros H. apply go_safe in H. split; [exact I|exact H]. Qed.
Lemma safe_one us : Forall safe us -> safe (as_one us).
Proof. intros H. destruct us as [|u [|v us]]; cbn [as_one]; [now apply safe_seq| |now apply safe_seq]. now inversion H. Qed.
Lemma safe_lisp els : syntactic (LList els) -> safe (ULisp els).
Proof.
  intros S. pose proof (eval_fine _ S) as F. unfold safe. cbn [upd_all]. unfold eval_update, rmap, unpack.
  destruct (eval (LList els)) as [v| |]; cbn [rbind] in *; [|exact I|exact F].
  destruct v; try exact I. exact (proj1 F).
Qed.

Lemma sexp_ok ts n r : form ts n r -> kind ts = TLParen -> suffix r ts /\
  exists els, updates n = ROk [ULisp els] /\ (sounds_all ts -> tame ts -> safe (ULisp els)) /\
    marks false ts = update_marks (ULisp els) ++ marks false r.
Proof.
  intros H K. destruct (proj1 forms_all _ _ _ H) as (S & f & E & Hs & M & _ & L). split; [exact S|].
  destruct (L K) as (els & ->). exists els.
  split; [|split; [intros; now apply safe_lisp, Hs|exact M]].
  destruct H as [t r K'|t x r K'|t s r K'|t ts ns r K' H]; cbn in K; try congruence.
  unfold branch. rewrite up_lisp. unfold branch in E. rewrite E. reflexivity.
Qed.

(** ** Notes *)
Lemma letter_ok c : 97 <= c <= 103 -> exists l, letter_of_rune c = ROk l /\ letter_rune l = c.
Proof.
  intros H. assert (C : c = 97 \/ c = 98 \/ c = 99 \/ c = 100 \/ c = 101 \/ c = 102 \/ c = 103) by lia.
  destruct C as [->|[->|[->|[->|[->|[->| ->]]]]]]; (eexists; split; [vm_compute; reflexivity|reflexivity]).
Qed.
Lemma note_rest_dur d x (sl : bool) : (d = [] /\ x = None \/ exists cs, d = [branch DurationNode cs] /\ ast_duration cs = ROk x) ->
  ast_note_rest (d ++ (if sl then [branch TieNode []] else [])) None false = ROk (x, sl).
Proof. intros [[-> ->]|(cs & -> & E)]; [now destruct sl|]. cbn [app ast_note_rest branch]. rewrite E. now destruct sl. Qed.
Lemma pitch_ok c as_ l accs_ : letter_of_rune c = ROk l -> rmapl ast_accidental as_ = ROk accs_ ->
  exists o, ast_pitch (branch NoteLetterAndAccidentalsNode (leaf NoteLetterNode (LitRune c) ::
        match as_ with [] => [] | _ => [branch NoteAccidentalsNode as_] end)) = ROk (PLetter l o) /\
    match o with Some a => a | None => [] end = accs_.
Proof.
  intros El Ea. unfold ast_pitch, branch, leaf. rewrite El. cbn [rbind]. destruct as_ as [|a as_].
  - injection Ea as <-. now exists None.
  - rewrite Ea. cbn. eexists. split; [reflexivity|]. now destruct accs_.
Qed.
Lemma note_ok ts n r : note_or_rest_at ts n r -> suffix r ts /\
  (sounds_all ts -> exists q, updates n = ROk [UPrim q] /\ safe (UPrim q) /\ marks false ts = prim_marks q ++ marks false r).
Proof.
  destruct 1 as [t c ts as_ r1 d r K A D NT|t c ts as_ r1 d u r K A D KT|t ts d r K D].
  - destruct (accs_ok _ _ _ A) as (S1 & al & Ea & Ma). destruct (duration_ok true _ _ _ D) as (S2 & x & Hx).
    split; [apply suffix_tl; eapply suffix_trans; eassumption|]. intros Sd. inversion Sd as [|? ? St _]; subst.
    unfold sound in St. rewrite K in St. destruct (letter_ok c St) as (l & El & Er).
    destruct (pitch_ok _ _ _ _ El Ea) as (o & Ep & Eo). exists (Note (PLetter l o) x false). split; [|split; [exact I|]].
    + unfold note_node. change (branch NoteNode) with (Node NoteNode NoLit). rewrite up_note, Ep. cbn [rbind].
      rewrite (note_rest_dur d x false); [reflexivity|]. destruct Hx as [(-> & -> & _)|(cs & -> & E & _)]; [now left|right; now exists cs].
    + cbn [marks prim_marks]. rewrite K, Ma, Eo, Er. cbn [app]. f_equal. rewrite app_nil_r, <- app_assoc. f_equal.
      destruct Hx as [(-> & -> & ->)|(cs & -> & E & _ & M)]; [now apply marks_open|exact M].
  - destruct (accs_ok _ _ _ A) as (S1 & al & Ea & Ma). destruct (duration_ok true _ _ _ D) as (S2 & x & Hx).
    split; [apply suffix_tl; eapply suffix_trans; [|exact S1]; eapply suffix_trans; [|exact S2]; apply suffix_cons|].
    intros Sd. inversion Sd as [|? ? St _]; subst.
    unfold sound in St. rewrite K in St. destruct (letter_ok c St) as (l & El & Er).
    destruct (pitch_ok _ _ _ _ El Ea) as (o & Ep & Eo). exists (Note (PLetter l o) x true). split; [|split; [exact I|]].
    + unfold note_node. change (branch NoteNode) with (Node NoteNode NoLit). rewrite up_note, Ep. cbn [rbind].
      rewrite (note_rest_dur d x true); [reflexivity|]. destruct Hx as [(-> & -> & _)|(cs & -> & E & _)]; [now left|right; now exists cs].
    + cbn [marks prim_marks]. rewrite K, Ma, Eo, Er. cbn [app]. f_equal. rewrite <- !app_assoc. f_equal.
      destruct Hx as [(-> & -> & ->)|(cs & -> & E & J & M)].
      * cbn [marks duration_marks app]. now rewrite KT.
      * rewrite M. cbn [marks]. rewrite KT, (J KT). reflexivity.
  - destruct (duration_ok false _ _ _ D) as (S2 & x & Hx). split; [now apply suffix_tl|]. intros _.
    exists (Rest x). destruct Hx as [(-> & -> & ->)|(cs & -> & E & _ & M)].
    + split; [reflexivity|]. split; [exact I|]. cbn. now rewrite K.
    + split; [cbn; unfold rmap; rewrite E; reflexivity|]. split; [exact I|]. cbn [marks prim_marks]. now rewrite K, M.
Qed.

Definition list_ok ts ns (close : list mark) r : Prop :=
  suffix r ts /\ (sounds_all ts -> exists us, updates_all ns = ROk us /\ (tame ts -> Forall safe us) /\
    (plain ts -> marks false ts = flat_map update_marks us ++ close ++ marks false r)).
Definition single_end ts (us : list update) r : Prop :=
  List.length us = 1%nat \/ ends_voice r = true \/ exists p a, ts = p ++ a :: r /\ tkind a = TVoice 0.
Definition event_ok ts n r : Prop :=
  suffix r ts /\ (sounds_all ts -> exists us, updates n = ROk us /\ (tame ts -> Forall safe us) /\
    (plain ts -> marks false ts = flat_map update_marks us ++ marks false r) /\ single_end ts us r).

(** Two parts of a list of tokens, one after the other. *)
Lemma list_step ts r n close ns r' : suffix r ts ->
  (sounds_all ts -> exists us, updates n = ROk us /\ (tame ts -> Forall safe us) /\
    (plain ts -> marks false ts = flat_map update_marks us ++ marks false r)) ->
  list_ok r ns close r' -> list_ok ts (n :: ns) close r'.
Proof.
  intros S H (S' & H'). split; [eapply suffix_trans; eassumption|]. intros Sd.
  destruct (H Sd) as (u1 & E1 & F1 & M1). destruct (H' (sounds_suffix _ _ S Sd)) as (u2 & E2 & F2 & M2).
  exists (u1 ++ u2). split; [cbn [updates_all]; now rewrite E1; cbn [rbind]; rewrite E2|]. split.
  - intros T. apply Forall_app. split; [now apply F1|]. apply F2. eapply tame_suffix; eassumption.
  - intros P. rewrite (M1 P), (M2 (plain_suffix _ _ S P)), flat_map_app, <- app_assoc. reflexivity.
Qed.
Lemma between_ok ts ns r : between_notes ts ns r -> list_ok ts ns [] r.
Proof.
  induction 1 as [r|t ts ns r K H IH|t ts ns r K H IH|t k ts ns r K H IH|t ts n r ns r' K F H IH].
  - split; [apply suffix_refl|]. intros _. exists []. repeat split. constructor.
  - eapply (list_step (t :: ts) ts); [apply suffix_cons| |exact IH]. intros _. exists [UPrim (Attr POctUp)]. split; [reflexivity|].
    split; [intros _; repeat constructor|]. intros _. cbn. now rewrite K.
  - eapply (list_step (t :: ts) ts); [apply suffix_cons| |exact IH]. intros _. exists [UPrim (Attr POctDown)]. split; [reflexivity|].
    split; [intros _; repeat constructor|]. intros _. cbn. now rewrite K.
  - eapply (list_step (t :: ts) ts); [apply suffix_cons| |exact IH]. intros _. exists [UPrim (Attr (POctave k))]. split; [reflexivity|].
    split; [intros _; repeat constructor|]. intros _. cbn. now rewrite K.
  - destruct (sexp_ok _ _ _ F K) as (S & els & E & Hs & M). eapply (list_step (t :: ts) r); [exact S| |exact IH].
    intros Sd. exists [ULisp els]. split; [exact E|]. split; [intros T; constructor; [now apply Hs|constructor]|].
    intros _. cbn [flat_map]. rewrite app_nil_r. exact M.
Qed.
Definition times_mark (k : Z) : list mark := if 0 <? k then [MTimes k] else [].
Lemma notes_ok ts ns k r : notes_at ts ns k r -> suffix r ts /\ ns <> [] /\
  (sounds_all ts -> exists us, updates_all ns = ROk us /\ (forall n, ns = [n] -> exists u, us = [u]) /\
    (tame ts -> Forall safe us /\ k <> max_int32) /\
    (plain ts -> marks false ts = flat_map update_marks us ++ times_mark k ++ marks false r)).
Proof.
  induction 1 as [ts n r H _ _|ts n t k r H K|ts n r b s r1 a r2 ns k r3 H B Ks A H2 (S2 & NE & IH)].
  - destruct (note_ok _ _ _ H) as (S & G). split; [exact S|]. split; [discriminate|]. intros Sd. destruct (G Sd) as (q & E & F & M).
    exists [UPrim q]. split; [cbn [updates_all]; now rewrite E|]. split; [intros m _; now exists (UPrim q)|].
    split; [intros _; split; [now repeat constructor|discriminate]|]. intros _. cbn [flat_map]. now rewrite app_nil_r.
  - destruct (note_ok _ _ _ H) as (S & G). split; [eapply suffix_trans; [apply suffix_cons|exact S]|]. split; [discriminate|].
    intros Sd. destruct (G Sd) as (q & E & F & M).
    exists [UPrim q]. split; [cbn [updates_all]; now rewrite E|]. split; [intros m _; now exists (UPrim q)|]. split.
    + intros T. split; [now repeat constructor|]. intros ->.
      pose proof (no_max_repeat _ (tame_suffix _ _ S T)) as X. inversion X; subst. congruence.
    + intros _. cbn [flat_map]. rewrite app_nil_r, M. cbn [marks]. now rewrite K.
  - destruct (note_ok _ _ _ H) as (S & G). destruct (between_ok _ _ _ B) as (Sb & Gb). destruct (between_ok _ _ _ A) as (Sa & Ga).
    assert (X1 : suffix r1 ts) by (eapply suffix_trans; [apply suffix_cons|]; eapply suffix_trans; eassumption).
    assert (X2 : suffix r2 ts) by (eapply suffix_trans; eassumption).
    split; [eapply suffix_trans; eassumption|]. split; [discriminate|]. intros Sd.
    destruct (G Sd) as (q & E & F & M). destruct (Gb (sounds_suffix _ _ S Sd)) as (ub & Eb & Fb & Mb).
    destruct (Ga (sounds_suffix _ _ X1 Sd)) as (ua & Ea & Fa & Ma). destruct (IH (sounds_suffix _ _ X2 Sd)) as (un & En & _ & Fn & Mn).
    exists (UPrim q :: ub ++ ua ++ un). split.
    { cbn [updates_all]. rewrite E. cbn [rbind]. rewrite (updates_all_app _ _ _ _ Eb (updates_all_app _ _ _ _ Ea En)). reflexivity. }
    split; [|split].
    + intros m Em. exfalso. injection Em as _ Em. apply app_eq_nil in Em as [_ Em]. apply app_eq_nil in Em as [_ Em]. congruence.
    + intros T. destruct (Fn (tame_suffix _ _ X2 T)) as [Fn' Kn]. split; [|exact Kn]. constructor; [exact F|].
      apply Forall_app; split; [apply Fb; eapply tame_suffix; eassumption|]. apply Forall_app; split; [|exact Fn'].
      apply Fa. eapply tame_suffix; eassumption.
    + intros P. rewrite M, (Mb (plain_suffix _ _ S P)). cbn [marks]. rewrite Ks, (Ma (plain_suffix _ _ X1 P)), (Mn (plain_suffix _ _ X2 P)).
      cbn [flat_map]. rewrite !flat_map_app, <- !app_assoc. reflexivity.
Qed.

(** ** Events *)
(** An event of one update, so far. *)
Definition one_ok ts n r : Prop :=
  suffix r ts /\ (sounds_all ts -> exists u, updates n = ROk [u] /\ (tame ts -> safe u) /\
    (plain ts -> marks false ts = update_marks u ++ marks false r)).
Lemma one_event ts n r : one_ok ts n r -> event_ok ts n r.
Proof.
  intros (S & H). split; [exact S|]. intros Sd. destruct (H Sd) as (u & E & F & M). exists [u]. split; [exact E|].
  split; [intros T; constructor; [now apply F|constructor]|]. split; [|now left]. intros P. cbn [flat_map]. rewrite app_nil_r. now apply M.
Qed.
Lemma repeat_ok ts n r n' r' : repeated n r n' r' -> one_ok ts n r -> one_ok ts n' r'.
Proof.
  destruct 1 as [n r _|n t k r K]; [auto|]. intros (S & H). split; [eapply suffix_trans; [apply suffix_cons|exact S]|].
  intros Sd. destruct (H Sd) as (u & E & F & M). exists (URepeat u k). split; [rewrite up_repeat, E; reflexivity|]. split.
  - intros T. split; [|now apply F]. intros ->. pose proof (no_max_repeat _ (tame_suffix _ _ S T)) as X. inversion X; subst. congruence.
  - intros P. rewrite (M P). cbn [marks update_marks]. rewrite K, <- app_assoc. reflexivity.
Qed.
Lemma one_leaf t r n u : updates n = ROk [u] -> safe u -> (marks false (t :: r) = update_marks u ++ marks false r) -> one_ok (t :: r) n r.
Proof. intros E F M. split; [apply suffix_cons|]. intros _. exists u. repeat split; auto. Qed.
Lemma list_end t r (m : mark) : marks false (t :: r) = m :: marks false r -> list_ok (t :: r) [] [m] r.
Proof. intros M. split; [apply suffix_cons|]. intros _. exists []. split; [reflexivity|]. split; [constructor|]. intros _. exact M. Qed.
Lemma list_nil r : list_ok r [] [] r.
Proof. split; [apply suffix_refl|]. intros _. exists []. split; [reflexivity|]. split; [constructor|]. reflexivity. Qed.
Lemma event_list ts n r ns close r' : event_ok ts n r -> list_ok r ns close r' -> list_ok ts (n :: ns) close r'.
Proof.
  intros (S & H) L. apply (list_step ts r); [exact S| |exact L]. intros Sd. destruct (H Sd) as (us & E & F & M & _). now exists us.
Qed.
Lemma reps_list ts n t rs r ns close r' : event_ok ts n (t :: r) -> tkind t = TReps rs -> list_ok r ns close r' ->
  list_ok ts (on_repetitions n rs :: ns) close r'.
Proof.
  intros (S & H) K L. apply (list_step ts r); [eapply suffix_trans; [apply suffix_cons|exact S]| |exact L].
  intros Sd. destruct (H Sd) as (us & E & F & M & Z). exists [UOnReps rs (as_one us)].
  assert (NE : rs <> []). { pose proof (sounds_suffix _ _ S Sd) as X. inversion X as [|? ? St]; subst. unfold sound in St. now rewrite K in St. }
  assert (R : rmapl ast_range (map range_node rs) = ROk rs).
  { clear. induction rs as [|[a b] rs IH]; [reflexivity|]. cbn [map rmapl]. rewrite IH. reflexivity. }
  split; [|split].
  - unfold on_repetitions. destruct rs as [|x rs]; [congruence|]. cbn [map] in *. rewrite up_reps, E. cbn [rbind]. unfold rmap. rewrite R. reflexivity.
  - intros T. constructor; [|constructor]. split; [exact I|]. apply safe_one. now apply F.
  - intros P. rewrite (M P). cbn [marks flat_map update_marks]. rewrite K, app_nil_r, <- app_assoc. cbn [app]. apply f_equal2; [|reflexivity].
    destruct Z as [Z|[Z|(p & a & Ep & Ka)]].
    + destruct us as [|u [|]]; try discriminate. cbn. now rewrite app_nil_r.
    + exfalso. unfold ends_voice, looks_like_part in Z. cbn [kind] in Z. rewrite K in Z. discriminate.
    + exfalso. eapply (P p a t r Ep Ka). now exists rs.
Qed.

Definition voices_ok (k : Z) ts vs r : Prop :=
  suffix r ts /\ (sounds_all ts -> exists us, updates_all vs = ROk us /\ (tame ts -> Forall safe us) /\
    (plain ts -> MVoice k :: marks false ts = flat_map update_marks us ++ marks false r)) /\
  (ends_voice r = true \/ exists p a, ts = p ++ a :: r /\ tkind a = TVoice 0).

Lemma voice_end_r r : (forall es r0, voice_body r0 es r -> ends_voice r = true).
Proof. intros es r0 H. induction H; assumption. Qed.

Theorem events_ok :
  (forall ts n r, event ts n r -> event_ok ts n r) /\
  (forall line ts ns r, on_line line ts ns r -> list_ok ts ns [] r) /\
  (forall ts ns r, seq_body ts ns r -> list_ok ts ns [MSeqClose] r) /\
  (forall ts ns r, cram_body ts ns r -> list_ok ts ns [MCramClose] r) /\
  (forall ts ns r, voice_body ts ns r -> list_ok ts ns [] r) /\
  (forall k ts vs r, voices_at k ts vs r -> voices_ok k ts vs r).
Proof.
  apply event_mutind.
  - (* S-expression *)
    intros ts n r n' r' K H R. apply one_event, (repeat_ok _ _ _ _ _ R). destruct (sexp_ok _ _ _ H K) as (S & els & E & F & M).
    split; [exact S|]. intros Sd. exists (ULisp els). split; [exact E|]. split; [now apply F|]. intros _. exact M.
  - (* definition *)
    intros t e ts es r K Ke _ _ _ (S & H). apply one_event. split; [now do 2 apply suffix_tl|]. intros Sd.
    assert (X : suffix ts (t :: e :: ts)) by (now exists [t; e]).
    destruct (H (sounds_suffix _ _ X Sd)) as (us & E & F & M). exists (UVarDef (utf8 (ttext t)) us).
    split; [rewrite up_vardef, E; reflexivity|]. split; [intros T; apply safe_def, F; eapply tame_suffix; eassumption|].
    intros P. cbn [marks update_marks]. rewrite K, Ke, (M (plain_suffix _ _ X P)). reflexivity.
  - (* name *)
    intros t r n' r' K _ R. apply one_event, (repeat_ok _ _ _ _ _ R). apply (one_leaf t r _ (UVarRef (utf8 (ttext t)))); [reflexivity|exact I|].
    cbn. now rewrite K.
  - intros t k r K. apply one_event, (one_leaf t r _ (UPrim (Attr (POctave k)))); [reflexivity|exact I|]. cbn. now rewrite K.
  - intros t r K. apply one_event, (one_leaf t r _ (UPrim (Attr POctUp))); [reflexivity|exact I|]. cbn. now rewrite K.
  - intros t r K. apply one_event, (one_leaf t r _ (UPrim (Attr POctDown))); [reflexivity|exact I|]. cbn. now rewrite K.
  - (* notes *)
    intros ts ns k r H. destruct (notes_ok _ _ _ _ H) as (S & NE & G). apply one_event. split; [exact S|]. intros Sd.
    destruct (G Sd) as (us & E & One & F & M).
    assert (U : exists u, updates (one_or_chord ns) = ROk [u] /\ (Forall safe us -> safe u) /\ update_marks u = flat_map update_marks us).
    { destruct ns as [|n [|n2 ns]]; [congruence| |].
      - destruct (One n eq_refl) as (u & ->). exists u. cbn [updates_all one_or_chord] in *.
        destruct (updates n) as [us'| |]; try discriminate. cbn [rbind] in E. injection E as E. rewrite app_nil_r in E. subst us'.
        split; [reflexivity|]. split; [intros X; now inversion X|]. cbn. now rewrite app_nil_r.
      - exists (UChord us). split; [|split; [apply safe_chord|reflexivity]].
        cbn [one_or_chord]. unfold branch. rewrite up_chord, E. reflexivity. }
    destruct U as (u & Eu & Fu & Mu). unfold maybe_times, times_mark in *. destruct (0 <? k) eqn:Kk.
    + exists (URepeat u k). split; [rewrite up_repeat, Eu; reflexivity|]. split.
      * intros T. destruct (F T) as [F1 F2]. split; [exact F2|now apply Fu].
      * intros P. rewrite (M P). cbn [update_marks]. rewrite Kk, Mu, <- app_assoc. reflexivity.
    + exists u. split; [exact Eu|]. split; [intros T; apply Fu, F, T|]. intros P. rewrite (M P), Mu. reflexivity.
  - intros t r K. apply one_event, (one_leaf t r _ UBarline); [reflexivity|exact I|]. cbn. now rewrite K.
  - (* sequence *)
    intros t ts es r n' r' K _ (S & H) R. apply one_event, (repeat_ok _ _ _ _ _ R). split; [now apply suffix_tl|]. intros Sd.
    assert (X : suffix ts (t :: ts)) by apply suffix_cons.
    destruct (H (sounds_suffix _ _ X Sd)) as (us & E & F & M). exists (USeq us). split; [rewrite up_seq, E; reflexivity|].
    split; [intros T; apply safe_seq, F; eapply tame_suffix; eassumption|].
    intros P. cbn [marks update_marks]. rewrite K, (M (plain_suffix _ _ X P)). cbn [app]. now rewrite <- app_assoc.
  - (* cram *)
    intros t ts es r1 d r n' r' K _ (S & H) _ D R. apply one_event, (repeat_ok _ _ _ _ _ R).
    destruct (duration_ok false _ _ _ D) as (Sd' & x & Hx).
    split; [apply suffix_tl; eapply suffix_trans; eassumption|]. intros Sd.
    assert (X : suffix ts (t :: ts)) by apply suffix_cons.
    destruct (H (sounds_suffix _ _ X Sd)) as (us & E & F & M). exists (UCram us x).
    split; [|split; [intros T; apply safe_cram, F; eapply tame_suffix; eassumption|]].
    + unfold cram_node. destruct Hx as [(-> & -> & _)|(cs & -> & Ed & _)]; unfold branch at 1.
      * rewrite up_cram, E. reflexivity.
      * rewrite up_cram_dur, E. cbn [rbind]. rewrite Ed. reflexivity.
    + intros P. cbn [marks update_marks]. rewrite K, (M (plain_suffix _ _ X P)). cbn [app]. rewrite <- app_assoc. cbn [app].
      destruct Hx as [(-> & -> & ->)|(cs & -> & Ed & _ & Md)]; [reflexivity|now rewrite Md].
  - (* voices *)
    intros t k ts vs r K _ (S & H & Z). split; [now apply suffix_tl|]. intros Sd.
    assert (X : suffix ts (t :: ts)) by apply suffix_cons.
    destruct (H (sounds_suffix _ _ X Sd)) as (us & E & F & M). exists us. split; [rewrite up_voices; exact E|].
    split; [intros T; apply F; eapply tame_suffix; eassumption|]. split.
    + intros P. cbn [marks]. rewrite K. apply M. eapply plain_suffix; eassumption.
    + right. destruct Z as [Z|(p & a & -> & Ka)]; [now left|right]. now exists (t :: p), a.
  - intros t s r K. apply one_event, (one_leaf t r _ (UMarker (utf8 s))); [reflexivity|exact I|]. cbn. now rewrite K.
  - intros t s r K. apply one_event, (one_leaf t r _ (UAtMarker (utf8 s))); [reflexivity|exact I|]. cbn. now rewrite K.
  - (* on_line *) intros line r _. apply list_nil.
  - intros line ts n r ns r' _ _ _ IH1 _ IH2. eapply event_list; eassumption.
  - (* seq_body *) intros t r K. apply list_end. cbn. now rewrite K.
  - intros ts n r ns r' _ IH1 _ _ IH2. eapply event_list; eassumption.
  - intros ts n t rs r ns r' _ IH1 K _ IH2. eapply reps_list; eassumption.
  - (* cram_body *) intros t r K. apply list_end. cbn. now rewrite K.
  - intros ts n r ns r' _ IH1 _ IH2. eapply event_list; eassumption.
  - (* voice_body *) intros r _. apply list_nil.
  - intros ts n r ns r' _ _ IH1 _ IH2. eapply event_list; eassumption.
  - (* voices *)
    intros k ts es r B (S & H) _. split; [exact S|]. split; [|left; eapply voice_end_r; exact B]. intros Sd.
    destruct (H Sd) as (us & E & F & M). exists (UVoice k :: us). split; [cbn [updates_all]; rewrite up_voice, E; cbn; now rewrite app_nil_r|].
    split; [intros T; constructor; [exact I|now apply F]|]. intros P. now rewrite (M P).
  - intros k ts es t r B (S & H) K. split; [eapply suffix_trans; [apply suffix_cons|exact S]|]. split.
    + intros Sd. destruct (H Sd) as (us & E & F & M). exists ((UVoice k :: us) ++ [UVoiceEnd]).
      split; [cbn [updates_all]; rewrite up_voice, E; reflexivity|].
      split; [intros T; apply Forall_app; split; [constructor; [exact I|now apply F]|now repeat constructor]|].
      intros P. rewrite (M P), flat_map_app. cbn [marks flat_map update_marks app]. rewrite K, <- app_assoc. reflexivity.
    + right. destruct S as (p & ->). now exists p, t.
  - intros k ts es t m r vs r' B (S & H) K _ _ (S2 & H2 & Z).
    assert (X : suffix r ts) by (eapply suffix_trans; [apply suffix_cons|exact S]).
    split; [eapply suffix_trans; eassumption|]. split.
    + intros Sd. destruct (H Sd) as (us & E & F & M). destruct (H2 (sounds_suffix _ _ X Sd)) as (vs' & E2 & F2 & M2).
      exists ((UVoice k :: us) ++ vs'). split; [cbn [updates_all]; rewrite up_voice, E; cbn [rmap rbind]; rewrite E2; reflexivity|].
      split; [intros T; apply Forall_app; split; [constructor; [exact I|now apply F]|apply F2; eapply tame_suffix; eassumption]|].
      intros P. rewrite (M P), flat_map_app, <- app_assoc. rewrite <- (M2 (plain_suffix _ _ X P)). cbn [marks flat_map update_marks app].
      now rewrite K.
    + destruct Z as [Z|(p & a & -> & Ka)]; [now left|right]. destruct X as (q & ->). exists (q ++ p), a. now rewrite app_assoc.
Qed.

(** ** Scores *)
Lemma part_body_ok ts ns r : part_body ts ns r -> list_ok ts ns [] r.
Proof.
  induction 1 as [r _|ts n r ns r' _ _ E _ IH]; [apply list_nil|]. eapply event_list; [exact (proj1 events_ok _ _ _ E)|exact IH].
Qed.
Lemma names_ok ts ns r : names_at ts ns r -> suffix r ts /\ exists ss, rmapl ast_part_name ns = ROk ss /\
  marks false ts = map MName ss ++ marks false r.
Proof.
  induction 1 as [r _|s t ts ns r Ks Kt H (S & ss & E & M)]; [split; [apply suffix_refl|now exists []]|].
  split; [now do 2 apply suffix_tl|]. exists (utf8 (ttext t) :: ss). split; [cbn; now rewrite E|].
  cbn. now rewrite Ks, Kt, M.
Qed.
Lemma declaration_ok ts d r : declaration ts d r -> suffix r ts /\ exists u, ast_declaration d = ROk u /\ safe u /\
  marks false ts = update_marks u ++ marks false r.
Proof.
  destruct 1 as [t ts ns c r K H Kc|t ts ns a s c r K H Ka Kc]; destruct (names_ok _ _ _ H) as (S & ss & E & M).
  - split; [apply suffix_tl; eapply suffix_trans; [apply suffix_cons|exact S]|].
    exists (UPart (utf8 (ttext t) :: ss) ""). split; [|split; [discriminate|]].
    + cbn [ast_declaration branch rmapl ast_part_name name_node leaf lit_text rbind]. rewrite E. reflexivity.
    + cbn [marks]. rewrite K, M. cbn [marks]. rewrite Kc. cbn. now rewrite app_nil_r.
  - split; [apply suffix_tl; eapply suffix_trans; [|exact S]; now exists [a; c]|].
    exists (UPart (utf8 (ttext t) :: ss) (utf8 s)). split; [|split; [discriminate|]].
    + cbn [ast_declaration branch rmapl ast_part_name name_node leaf lit_text rbind]. rewrite E. reflexivity.
    + cbn [marks]. rewrite K, M. cbn [marks]. rewrite Ka. cbn [marks]. rewrite Kc. cbn [update_marks map app].
      f_equal. now rewrite <- app_assoc.
Qed.
Lemma parts_ok ts ns r : parts_at ts ns r -> list_ok ts ns [] r /\ kind r = TEOF.
Proof.
  induction 1 as [r K|ts d r es r' ns r'' _ D B _ [IH K]|ts es r ns r' _ _ B _ [IH K]].
  - split; [apply list_nil|exact K].
  - split; [|exact K]. destruct (declaration_ok _ _ _ D) as (S & u & E & F & M). destruct (part_body_ok _ _ _ B) as (S2 & H).
    apply (list_step ts r'); [eapply suffix_trans; eassumption| |exact IH]. intros Sd.
    destruct (H (sounds_suffix _ _ S Sd)) as (us & E2 & F2 & M2). exists (u :: us).
    split; [rewrite up_part, E; cbn [rbind]; rewrite E2; reflexivity|].
    split; [intros T; constructor; [exact F|apply F2; eapply tame_suffix; eassumption]|].
    intros P. rewrite M, (M2 (plain_suffix _ _ S P)). cbn [flat_map]. now rewrite <- app_assoc.
  - split; [|exact K]. destruct (part_body_ok _ _ _ B) as (S2 & H). apply (list_step ts r); [exact S2| |exact IH]. intros Sd.
    destruct (H Sd) as (us & E & F & M). exists us. split; [rewrite up_implicit; exact E|]. split; [exact F|exact M].
Qed.

(** The tokens of a text. *)
Lemma lexeme_sound m k t rest : lexeme m k t rest -> forall line col, sound (Token k t line col).
Proof.
  intros H line col. unfold sound. cbn [tkind ttext].
  destruct H; try exact I; try discriminate; try assumption.
  - destruct H; exact I.
  - destruct H; discriminate.
Qed.
Lemma tokens_sound ps : forall level before, well_formed level ps -> sounds_all (tokens_at before ps).
Proof.
  induction ps as [|p ps IH]; intros level before W; [now repeat constructor|].
  destruct p; cbn [tokens_at well_formed] in *.
  - eapply IH, W.
  - eapply IH, W.
  - destruct W as [L W]. constructor; [eapply lexeme_sound; exact L|eapply IH, W].
Qed.
Lemma lexeme_not_eof m k t rest : lexeme m k t rest -> k <> TEOF.
Proof. destruct 1; try discriminate. destruct H; discriminate. Qed.
Lemma tokens_end ps : forall level before t r, well_formed level ps -> suffix (t :: r) (tokens_at before ps) -> tkind t = TEOF -> r = [].
Proof.
  assert (C : forall t r x l, suffix (t :: r) (x :: l) -> (t = x /\ r = l) \/ suffix (t :: r) l).
  { intros t r x l ([|y p] & E); injection E; intros; subst; [now left|right; now exists p]. }
  induction ps as [|p ps IH]; intros level before t r W S K.
  - destruct (C _ _ _ _ S) as [[_ ->]|([|] & E)]; [reflexivity|discriminate|discriminate].
  - destruct p; cbn [tokens_at well_formed] in *.
    + eapply IH; [apply W|exact S|exact K].
    + eapply IH; [apply W|exact S|exact K].
    + destruct W as [L W]. destruct (C _ _ _ _ S) as [[-> ->]|S']; [|eapply IH; eassumption].
      exfalso. eapply lexeme_not_eof; [exact L|exact K].
Qed.
Lemma tame_cram ts : tame ts -> empty_cram ts -> False.
Proof. intros T (p & o & c & q & E & Ko & Kc). exact (no_empty_cram _ T p o c q E Ko Kc). Qed.

Theorem tree_updates input ts a : scan input = Scanned ts -> score_tree ts a ->
  exists us, updates a = ROk us /\ (tame ts -> Forall safe us) /\ (plain ts -> marks false ts = flat_map update_marks us).
Proof.
  intros Es (ns & r & P & ->). pose proof (scan_total input) as Sc. rewrite Es in Sc. destruct Sc as (ps & _ & W & ->).
  destruct (parts_ok _ _ _ P) as [(S & H) K]. destruct (H (tokens_sound _ _ _ W)) as (us & E & F & M).
  exists us. split; [rewrite up_root; exact E|]. split; [exact F|]. intros Pl. rewrite (M Pl). cbn [app].
  destruct r as [|t r]; [apply app_nil_r|]. rewrite (tokens_end _ _ _ _ _ W S K). cbn. cbn in K. rewrite K. apply app_nil_r.
Qed.
Theorem compile_total input :
  match compile input with
  | ROk us => exists ts a, scan input = Scanned ts /\ score_tree ts a /\ updates a = ROk us /\
                (tame ts -> Forall safe us) /\ (plain ts -> marks false ts = flat_map update_marks us)
  | RErr m => exists line col, parse input = ParseError m line col
  | RPanic _ => exists ts, scan input = Scanned ts /\ empty_cram ts
  end.
Proof.
  unfold compile. pose proof (parse_total input) as P. destruct (parse input) as [a|m line col| |].
  - destruct P as (ts & Es & T). destruct (tree_updates _ _ _ Es T) as (us & E & F & M). rewrite E. now exists ts, a.
  - now exists line, col.
  - exact P.
  - destruct P.
Qed.
Theorem tame_run inputs input : Forall tame_text inputs -> tame_text input ->
  match compile input with
  | ROk us => forall calls, Forall2 (fun i c => compile i = ROk c) inputs calls -> handled (snd (exec us (session calls)))
  | RErr _ => True
  | RPanic _ => False
  end.
Proof.
  intros Ts T. pose proof (compile_total input) as C. destruct (compile input) as [us|m|m] eqn:E; [|exact I|].
  - destruct C as (ts & a & Es & _ & _ & F & _). intros calls F2. apply c21_safe; [|apply F, T, Es].
    clear -Ts F2. induction F2 as [|i c is cs H _ IH]; [constructor|]. inversion Ts as [|? ? Ti Tis]; subst. constructor; [|now apply IH].
    pose proof (compile_total i) as C. rewrite H in C. destruct C as (ts & a & Es & _ & _ & F & _). apply F, Ti, Es.
  - destruct C as (ts & Es & X). exact (tame_cram _ (T _ Es) X).
Qed.
Theorem compile_marks input us ts : compile input = ROk us -> scan input = Scanned ts -> plain ts ->
  flat_map update_marks us = marks false ts.
Proof.
  intros E Es P. pose proof (compile_total input) as C. rewrite E in C. destruct C as (ts' & a & Es' & _ & _ & _ & M).
  rewrite Es in Es'. injection Es' as <-. symmetry. now apply M.
Qed.
Theorem compile_cases input :
  match compile input with
  | ROk us => exists a, parse input = Parsed a
  | RErr m => exists line col, parse input = ParseError m line col
  | RPanic _ => exists ts, scan input = Scanned ts /\ empty_cram ts
  end.
Proof.
  pose proof (compile_total input) as C. destruct (compile input) as [us|m|m]; [|exact C|exact C].
  destruct C as (ts & a & Es & T & _). exists a. now apply (parse_accepts input ts).
Qed.

(** Checking a list of tokens. *)
Definition bad2 (x y : tok) : bool :=
  match x, y with TCramOpen, TCramClose | TLParen, TRParen => true | _, _ => false end.
Fixpoint tame_check ts : bool :=
  match ts with
  | [] => true
  | t :: r =>
      match tkind t with TRepeat k => negb (k =? max_int32) | _ => true end &&
      negb (bad2 (tkind t) (kind r) && match r with [] => false | _ => true end) &&
      match tkind t, r with
      | TLParen, y :: z :: _ => negb (match tkind y, tkind z with TSymbol, TRParen => true | _, _ => false end)
      | _, _ => true
      end && tame_check r
  end.
Lemma tame_check_app p ts : tame_check (p ++ ts) = true -> tame_check ts = true.
Proof. induction p as [|t p IH]; [auto|]. cbn [app tame_check]. rewrite !andb_true_iff. tauto. Qed.
Lemma tame_check_ok ts : tame_check ts = true -> tame ts.
Proof.
  intros H. split.
  - intros a x y b -> Kx Ky. apply tame_check_app in H. cbn [tame_check kind] in H. unfold is_tok in *. rewrite Kx, Ky in H. discriminate.
  - intros a x y b -> Kx Ky. apply tame_check_app in H. cbn [tame_check kind] in H. unfold is_tok in *. rewrite Kx, Ky in H. discriminate.
  - intros a x y z b -> (Kx & Ky & _ & Kz). apply tame_check_app in H. cbn [tame_check kind] in H.
    rewrite Kx, Ky, Kz in H. discriminate.
  - apply Forall_forall. intros t Ht K. apply in_split in Ht as (a & b & ->). apply tame_check_app in H. cbn [tame_check] in H.
    rewrite K, Z.eqb_refl in H. discriminate.
Qed.
Lemma tame_text_ok input : match scan input with Scanned ts => tame_check ts | _ => true end = true -> tame_text input.
Proof. intros H ts E. rewrite E in H. now apply tame_check_ok. Qed.
Fixpoint plain_check ts : bool :=
  match ts with
  | [] => true
  | t :: r => negb (match tkind t, kind r with TVoice n, TReps _ => n =? 0 | _, _ => false end) && plain_check r
  end.
Lemma plain_check_ok ts : plain_check ts = true -> plain ts.
Proof.
  intros H a x y b -> Kx (rs & Ky). induction a as [|t a IH].
  - cbn in H. unfold is_tok in Kx. rewrite Kx, Ky in H. discriminate.
  - cbn [app plain_check] in H. apply andb_true_iff in H. now apply IH.
Qed.
End Proofs.

(** Texts that crash or hang the engine. *)
Lemma hang_seq {N : Num} : snd (exec [URepeat (USeq []) max_int32] new_score) = Hang.
Proof.
  unfold exec, run_all. cbn [each]. unfold run. cbn [run_upd]. rewrite ProofSafe.run_times_nil by reflexivity. reflexivity.
Qed.

Definition outcome_of {N : Num} (input : list rune) : option outcome :=
  match compile input with ROk us => Some (snd (exec us new_score)) | _ => None end.
Lemma hang_compiles {N : Num} : compile (runes "[]*2147483647") = ROk [URepeat (USeq []) max_int32].
Proof. vm_compute. reflexivity. Qed.
Lemma untamed {N : Num} :
  (exists m, outcome_of (runes "()") = Some (Panic m)) /\
  (exists m, outcome_of (runes "(quote)") = Some (Panic m)) /\
  outcome_of (runes "[]*2147483647") = Some Hang.
Proof.
  split; [eexists; vm_compute; reflexivity|]. split; [eexists; vm_compute; reflexivity|].
  unfold outcome_of. rewrite hang_compiles. exact (f_equal Some hang_seq).
Qed.
Lemma wrapped {N : Num} : exists input us ts,
  compile input = ROk us /\ scan input = Scanned ts /\
  List.length (flat_map update_marks us) <> List.length (marks false ts).
Proof.
  exists (runes "[V1: c V0: '1]"). do 2 eexists. split; [vm_compute; reflexivity|]. split; [vm_compute; reflexivity|]. vm_compute. discriminate.
Qed.
