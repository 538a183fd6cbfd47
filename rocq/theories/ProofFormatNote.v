(** Printed notes and rests read back. *)
From Coq Require Import String Ascii ZArith List Bool Lia.
From Verif Require Import Base Num ModelScan SpecScan ProofScan ModelParser SpecParser ProofParser ProofParseText
  ModelFormat SpecFormat ProofFormat ProofFormatTok ProofFormatLisp.
Import ListNotations.
Local Open Scope list_scope.
Local Open Scope Z_scope.

Section Notes.
Context {N : Num}.
Variable fmt : num -> list rune.
Variable cfg : config.
Notation tk := (tk cfg).
Notation prun := (prun cfg).
Notation pstep := (pstep cfg).
Notation total := (total cfg).

(** ** Tokens of one call *)
Lemma tk_op p P st : full st -> solid p -> match p with PW _ => False | _ => True end -> tk (p :: P) st = tk P (pstep p st).
Proof.
  intros F S H. unfold ProofFormat.tk. cbn [emits]. rewrite toks_app, pstep_total by assumption.
  replace (toks (total st) (emit cfg p st)) with (@nil token); [reflexivity|].
  destruct p; try contradiction; cbn [emit]; unfold flush_pieces; destruct (f_var st); try reflexivity; destruct (f_texts st); reflexivity.
Qed.
Lemma tk_write ps P st : full st -> text_of ps <> [] ->
  exists b, tk (PW ps :: P) st = toks b ps ++ tk P (pstep (PW ps) st) /\
    (f_var st <> VNone -> f_texts st <> [] -> line_after b = line_after (total st)) /\
    line_after (total (pstep (PW ps) st)) = line_after b + Z.of_nat (List.length (filter (Z.eqb newline) (text_of ps))).
Proof.
  intros F S. unfold ProofFormat.tk. rewrite (pstep_total cfg (PW ps)) by assumption. cbn [emits emit].
  set (sep := match f_texts st with [] => _ | _ => _ end). exists (total st ++ text_of sep).
  split; [|split].
  - rewrite toks_app. rewrite toks_app.
    replace (toks (total st) sep) with (@nil token).
    + rewrite text_app, app_assoc. reflexivity.
    + subst sep. destruct (f_texts st); [now rewrite toks_blanks|]. destruct (f_var st); try reflexivity.
      destruct (_ <? _); [|reflexivity]. cbn. now rewrite toks_blanks.
  - intros V T. rewrite line_after_flat; [reflexivity|]. subst sep. destruct (f_texts st); [congruence|].
    destruct (f_var st); [congruence| |]; (intros [X|[]]; discriminate).
  - rewrite text_app, app_assoc. apply line_after_app.
Qed.
Lemma tk_nil st : tk [] st = [].
Proof. reflexivity. Qed.

(** ** Modes and levels *)
Definition write (p : pop) : Prop := match p with PW _ => True | _ => False end.
(** Between a definition's name and its end the line is not empty. *)
Definition moded (st : fstate) : Prop := f_var st <> VNone -> f_texts st <> [].
Definition steady (P : list pop) : Prop :=
  forall st, (f_var st = VDefining -> Forall flat P) ->
    f_level (prun P st) = f_level st /\
    (f_var st = VNone -> f_var (prun P st) = VNone) /\
    (f_var st = VDefining -> f_var (prun P st) = VDefining) /\
    (f_var st = VLast -> f_var (prun P st) <> VDefining) /\
    (moded st -> moded (prun P st)) /\
    (0 <= f_level st -> levels_ok cfg (map erase P) st = true).
Lemma levels_ok_app a b st : levels_ok cfg (a ++ b) st = levels_ok cfg a st && levels_ok cfg b (frun cfg a st).
Proof. revert st. induction a as [|x a IH]; intros st; [reflexivity|]. cbn. rewrite IH, andb_assoc. reflexivity. Qed.
Lemma steady_nil : steady [].
Proof. intros st _. cbn. repeat split; auto. congruence. Qed.
Lemma steady_flat a b st : steady a -> (f_var st = VDefining -> Forall flat (a ++ b)) -> f_var (prun a st) = VDefining -> Forall flat b.
Proof.
  intros A D X. destruct (A st) as (A1 & A2 & A3 & A4 & A5 & A6); [intros Y; apply D in Y; now apply Forall_app in Y|].
  destruct (f_var st) eqn:V.
  - rewrite A2 in X by reflexivity. discriminate.
  - specialize (D eq_refl). now apply Forall_app in D.
  - now destruct (A4 eq_refl).
Qed.
Lemma steady_app a b : steady a -> steady b -> steady (a ++ b).
Proof.
  intros A B st D. rewrite prun_app.
  destruct (B (prun a st)) as (B1 & B2 & B3 & B4 & B5 & B6); [now apply steady_flat|].
  destruct (A st) as (A1 & A2 & A3 & A4 & A5 & A6); [intros X; apply D in X; now apply Forall_app in X|].
  split; [congruence|]. split; [auto|]. split; [auto|]. split; [|split; [auto|]].
  - intros V. destruct (f_var (prun a st)) eqn:W; [now rewrite (B2 eq_refl)|now destruct (A4 V)|now apply B4].
  - intros L. rewrite map_app, levels_ok_app, frun_prun, A6, B6 by congruence. reflexivity.
Qed.
Lemma steady_write ps : steady [PW ps].
Proof.
  intros st _. unfold ProofFormat.prun, moded. cbn [fold_left map erase levels_ok].
  unfold ProofFormat.pstep. cbn [erase fstep].
  assert (X : forall l, l ++ [text_of ps] <> []) by (intros l Y; exact (app_cons_not_nil _ _ _ (eq_sym Y))).
  destruct (f_var st) eqn:V; [destruct (_ <? _)| |]; cbn [f_level f_var f_texts]; unfold flush; rewrite ?V;
    (try (destruct (f_texts st); cbn [f_level f_var f_texts])); repeat split; auto; try congruence; try (intros; apply X);
    intros L; apply Z.leb_le in L; rewrite L; reflexivity.
Qed.
Lemma steady_flush : steady [PFl].
Proof.
  intros st _. unfold ProofFormat.prun, moded. cbn [fold_left map erase levels_ok].
  unfold ProofFormat.pstep. cbn [erase fstep]. unfold flush.
  destruct (f_var st) eqn:V; destruct (f_texts st) eqn:T; cbn [f_level f_var f_texts]; rewrite ?V, ?T; repeat split; auto; try congruence;
    intros L; apply Z.leb_le in L; rewrite L; reflexivity.
Qed.
Lemma steady_writes P : Forall write P -> steady P.
Proof.
  induction 1 as [|p P Hp H IH]; [apply steady_nil|]. destruct p; try contradiction.
  apply (steady_app [PW ps] P); [apply steady_write|exact IH].
Qed.
Lemma steady_indent P : steady P -> steady (PIn :: P ++ [PUn]).
Proof.
  intros S st D. change (PIn :: P ++ [PUn]) with ([PIn] ++ P ++ [PUn]). rewrite !prun_app.
  set (s1 := prun [PIn] st).
  assert (E1 : f_var st = VDefining /\ s1 = st \/ f_var st <> VDefining /\ f_var s1 = VNone /\ f_level s1 = f_level st + 1).
  { subst s1. unfold ProofFormat.prun. cbn [fold_left]. unfold ProofFormat.pstep. cbn [erase fstep].
    destruct (f_var st) eqn:V; [right|left; auto|right]; (split; [congruence|]); unfold flush; cbn [f_texts f_var f_level f_out];
      destruct (f_texts st); auto. }
  destruct E1 as [[V ->]|(V & V1 & L1)].
  - destruct (S st) as (S1 & S2 & S3 & S4 & S5 & S6).
    { intros _. specialize (D V). inversion D; subst. now apply Forall_app in H2. }
    specialize (S3 V).
    assert (U : prun [PUn] (prun P st) = prun P st).
    { unfold ProofFormat.prun at 1. cbn [fold_left]. unfold ProofFormat.pstep. cbn [erase fstep]. now rewrite S3. }
    rewrite U. split; [exact S1|]. split; [intros; congruence|]. split; [auto|]. split; [intros; congruence|]. split; [auto|].
    intros L. cbn [app map levels_ok erase fstep]. rewrite V. rewrite map_app, levels_ok_app, frun_prun, S6 by exact L.
    cbn [map erase levels_ok fstep]. rewrite S3, S1. apply Z.leb_le in L. now rewrite L.
  - destruct (S s1) as (S1 & S2 & S3 & S4 & S5 & S6); [congruence|]. specialize (S2 V1).
    assert (U : f_var (prun [PUn] (prun P s1)) = VNone /\ f_level (prun [PUn] (prun P s1)) = f_level st).
    { unfold ProofFormat.prun at 1 3. cbn [fold_left]. unfold ProofFormat.pstep. cbn [erase fstep]. rewrite S2. cbn [f_var f_level].
      split; [reflexivity|]. unfold flush. rewrite S2. destruct (f_texts (prun P s1)); cbn [f_level]; rewrite S1, L1; lia. }
    destruct U as [U1 U2]. split; [exact U2|]. split; [auto|]. split; [congruence|]. split; [congruence|].
    split; [intros _ X; congruence|].
    intros L. cbn [app map levels_ok]. change (fstep cfg (erase PIn) st) with s1.
    replace (0 <=? f_level s1) with true by (symmetry; apply Z.leb_le; lia).
    rewrite map_app, levels_ok_app, frun_prun, S6 by lia. cbn [map levels_ok].
    change (fstep cfg (erase PUn) (prun P s1)) with (prun [PUn] (prun P s1)). rewrite U2.
    apply Z.leb_le in L. now rewrite L.
Qed.

(** The first thing written begins with this token. *)
Definition headed (k : tok) (P : list pop) : Prop :=
  exists pre t ps post, P = pre ++ PW (Lexeme k t :: ps) :: post /\ Forall (fun p => p = PFl \/ exists v, p = PVar v /\ v <> VNone) pre.
Lemma headed_kind k P st : headed k P -> full st -> Forall solid P -> forall r, kind (tk P st ++ r) = k.
Proof.
  intros (pre & t & ps & post & -> & H). revert st. induction H as [|p pre Hp H IH]; intros st F S r.
  - inversion S; subst. destruct (tk_write (Lexeme k t :: ps) post st F H1) as (b & E & _). cbn [app]. rewrite E. reflexivity.
  - inversion S; subst. cbn [app]. rewrite tk_op; auto; [|destruct Hp as [->|(v & -> & _)]; exact I].
    apply IH; [now apply pstep_full|assumption].
Qed.
Lemma headed_line k P st : headed k P -> full st -> Forall solid P -> f_var st <> VNone -> f_texts st <> [] ->
  forall r, line_of (tk P st ++ r) = line_after (total st).
Proof.
  intros (pre & t & ps & post & -> & H). revert st. induction H as [|p pre Hp H IH]; intros st F S V T r.
  - inversion S; subst. destruct (tk_write (Lexeme k t :: ps) post st F H1) as (b & E & L & _). cbn [app]. rewrite E.
    cbn. now apply L.
  - inversion S; subst. cbn [app]. rewrite tk_op; auto; [|destruct Hp as [->|(v & -> & _)]; exact I].
    assert (X : pstep p st = st \/ exists v, v <> VNone /\ pstep p st = FState v (f_level st) (f_texts st) (f_out st)).
    { destruct Hp as [->|(v & -> & Hv)]; [left|right; now exists v]. unfold ProofFormat.pstep. cbn. unfold flush.
      destruct (f_texts st); [reflexivity|]. destruct (f_var st); [congruence|reflexivity|reflexivity]. }
    destruct X as [X|(v & Hv & X)]; rewrite X; [now apply IH|]. rewrite IH; auto.
Qed.
Lemma headed_app k P Q : headed k P -> headed k (P ++ Q).
Proof. intros (pre & t & ps & post & -> & H). exists pre, t, ps, (post ++ Q). split; [now rewrite <- app_assoc|exact H]. Qed.
Lemma headed_op k P p : headed k P -> (p = PFl \/ exists v, p = PVar v /\ v <> VNone) -> headed k (p :: P).
Proof. intros (pre & t & ps & post & -> & H) Hp. exists (p :: pre), t, ps, post. split; [reflexivity|now constructor]. Qed.
Lemma headed_write k t ps P : headed k (PW (Lexeme k t :: ps) :: P).
Proof. exists [], t, ps, P. split; [reflexivity|constructor]. Qed.

(** ** Lengths *)
Definition soft (r : rune) : bool := gap r || (r =? rn "~").
Definition is_length (c : node) (k : tok) (t : list rune) : Prop :=
  length_node k = Some c /\ length_text fmt c = Some t /\ nty c <> BarlineNode /\ no_newline t /\
  (exists d y, t = d :: y /\ 48 <= d <= 57) /\ forall rest, ends_with soft rest -> lexeme false k t rest.

Lemma soft_facts rest : ends_with soft rest ->
  stops (Z.eqb (rn ".")) rest /\ stops digit rest /\ ends_with after_seconds rest /\
  ~ (exists r, rest = rn "s" :: r) /\ ~ (exists r, rest = rn "m" :: r).
Proof.
  intros H. destruct rest as [|x rest]; [repeat split; intros [r X]; discriminate X|]. cbn [ends_with] in H.
  assert (X : x = space \/ x = newline \/ x = rn "~").
  { unfold soft, gap in H. apply orb_prop in H. destruct H as [H|H]; [apply orb_prop in H; destruct H as [H|H]|]; apply Z.eqb_eq in H; auto. }
  destruct X as [-> | [-> | ->]]; (repeat split; try reflexivity; intros [r Y]; discriminate Y).
Qed.
Lemma length_prints k c : length_node k = Some c -> (forall x d, k = TLength x d -> d <= max_int32) ->
  everywhere (number_printed fmt) c -> exists k' t, is_length c k' t.
Proof.
  intros H V E. destruct k; try discriminate.
  - cbn [length_node] in H. injection H as <-. apply everywhere_eq in E. destruct E as [_ E]. cbn [nch branch] in E.
    inversion E as [|? ? Ed _]; subst. apply everywhere_eq in Ed. destruct Ed as [Ed _]. cbn [number_printed leaf] in Ed.
    destruct Ed as (ds & fs & t & D & NE & C & F & X). cbn [app] in F. destruct (decimal_facts _ _ _ D NE C) as (NL & d & y & Et & Hd).
    exists (TLength denominator (if 0 <? dots then dots else 0)), (t ++ repeat (rn ".") (Z.to_nat dots)).
    assert (W : wrap32 (Z.of_nat (Z.to_nat dots)) = if 0 <? dots then dots else 0).
    { destruct (0 <? dots) eqn:Q; [apply Z.ltb_lt in Q|apply Z.ltb_ge in Q].
      - rewrite Z2Nat.id by lia. unfold wrap32. specialize (V _ _ eq_refl). unfold max_int32 in V. rewrite Z.mod_small by lia. lia.
      - replace (Z.to_nat dots) with 0%nat by lia. reflexivity. }
    split; [|split; [|split; [discriminate|split; [|split]]]].
    + cbn [length_node]. destruct (0 <? dots) eqn:Q; [rewrite Q; reflexivity|reflexivity].
    + cbn [length_text branch leaf]. destruct (0 <? dots) eqn:Q; cbn [leaf]; rewrite F; [reflexivity|].
      apply Z.ltb_ge in Q. replace (Z.to_nat dots) with 0%nat by lia. cbn. now rewrite app_nil_r.
    + apply no_newline_app. split; [exact NL|]. intros Y. apply repeat_spec in Y. discriminate.
    + exists d, (y ++ repeat (rn ".") (Z.to_nat dots)). now rewrite Et.
    + intros rest S. destruct (soft_facts _ S) as (S1 & S2 & S3 & S4 & S5). rewrite <- X, <- W.
      apply lx_length; auto. intros _. split; [intros (r & Y & _); apply S4; now exists r|intros (r & Y); apply S5; now exists (rn "s" :: r)].
  - cbn [length_node] in H. injection H as <-. apply everywhere_eq in E. destruct E as [E _]. cbn [number_printed leaf] in E.
    destruct E as (ds & fs & t & D & NE & C & F & X). cbn [app] in F. destruct (decimal_facts _ _ _ D NE C) as (NL & d & y & Et & Hd).
    eexists (TMs _), (t ++ runes "ms").
    split; [reflexivity|split; [cbn [length_text leaf]; rewrite F; reflexivity|split; [discriminate|split; [|split]]]].
    + apply no_newline_app. split; [exact NL|]. intros [Y|[Y|[]]]; discriminate.
    + exists d, (y ++ runes "ms"). now rewrite Et.
    + intros rest S. rewrite <- X. apply lx_ms; auto.
  - cbn [length_node] in H. injection H as <-. apply everywhere_eq in E. destruct E as [E _]. cbn [number_printed leaf] in E.
    destruct E as (ds & fs & t & D & NE & C & F & X). cbn [app] in F. destruct (decimal_facts _ _ _ D NE C) as (NL & d & y & Et & Hd).
    eexists (TSeconds _), (t ++ runes "s").
    split; [reflexivity|split; [cbn [length_text leaf]; rewrite F; reflexivity|split; [discriminate|split; [|split]]]].
    + apply no_newline_app. split; [exact NL|]. intros [Y|[]]; discriminate.
    + exists d, (y ++ runes "s"). now rewrite Et.
    + intros rest S. rewrite <- X. apply lx_seconds; auto. apply (soft_facts _ S).
Qed.

(** ** Durations *)
Definition child (n : node) : Prop := n = barline \/ exists k t, is_length n k t.
Lemma valid_length t c : valid t -> length_node (tkind t) = Some c -> everywhere (number_printed fmt) c -> exists k x, is_length c k x.
Proof.
  intros V H E. eapply length_prints; eauto. intros x d K. unfold valid in V. now rewrite K in V.
Qed.
Lemma rest_children ts ns r : duration_rest ts ns r -> fit ts -> Forall (everywhere (number_printed fmt)) ns -> Forall child ns.
Proof.
  induction 1 as [r Hk Hno|t ts ns r K _ IH|ts ns r ms r' Ht Hr IH]; intros F E; [constructor| |].
  - inversion E; subst. constructor; [now left|]. apply IH; [now apply fit_cons in F|assumption].
  - apply Forall_app in E. destruct E as [E1 E2]. destruct Ht as [t bs us l c r K B U L].
    apply Forall_app. split.
    + apply Forall_app in E1. destruct E1 as [_ E1]. inversion E1 as [|? ? Ec _]; subst. apply Forall_app. split.
      * clear. induction bs; constructor; [now left|assumption].
      * constructor; [right|constructor]. apply valid_length with l; auto.
        apply fit_cons in F. apply fit_tail in F. apply fit_tail in F. now apply fit_valid in F.
    + apply IH; [|exact E2]. apply fit_cons in F. apply fit_tail in F. apply fit_tail in F. now apply fit_cons in F.
Qed.

Definition tie_piece : piece := Lexeme TTie [rn "~"].
Definition ok_soft (ps : list piece) : Prop := forall rest, ends_with soft rest -> wfr 0 ps rest 0.
Lemma ends_weaken (f g : rune -> bool) rest : (forall r, f r = true -> g r = true) -> ends_with f rest -> ends_with g rest.
Proof. destruct rest; cbn; auto. Qed.
Lemma gap_soft rest : ends_with gap rest -> ends_with soft rest.
Proof. apply ends_weaken. intros r H. unfold soft. now rewrite H. Qed.
Lemma wfr_simple c k rest : simple c k -> k <> TLParen -> k <> TRParen -> wfr 0 [Lexeme k [rn c]] rest 0.
Proof. intros S A B. cbn [wfr]. split; [now apply lx_simple|]. destruct k; congruence. Qed.

(** After a note's letter and accidentals (or a rest, or the end of a cram) *)
Definition post_ok (slur : bool) : list piece := if slur then [tie_piece] else [].
Lemma lexed_post ps slur : text_of ps <> [] -> ok_soft ps -> lexed (PW (ps ++ post_ok slur)).
Proof.
  intros NE OK. split.
  - rewrite text_app. intros X. apply app_eq_nil in X. tauto.
  - intros rest G. destruct slur; cbn [post_ok].
    + apply wfr_app with 0; [apply OK; reflexivity|]. apply wfr_simple; [constructor|discriminate|discriminate].
    + rewrite app_nil_r. apply OK. now apply gap_soft.
Qed.
Lemma flat_post ps slur : no_newline (text_of ps) -> flat (PW (ps ++ post_ok slur)).
Proof.
  intros H. cbn [flat]. rewrite text_app. apply no_newline_app. split; [exact H|].
  destruct slur; [intros [X|[]]; discriminate|intros []].
Qed.

Lemma oapp_some {A} (a b : list A) : oapp (Some a) (Some b) = Some (a ++ b).
Proof. reflexivity. Qed.
Lemma nonempty_true (t : list rune) : t <> [] -> nonempty_text t = true.
Proof. destruct t; [congruence|reflexivity]. Qed.

Lemma duration_prints slur l : Forall child l -> forall ps,
  ok_soft ps -> (ps = [] \/ text_of ps <> []) -> no_newline (text_of ps) ->
  (slur = false \/ match l with [] => ps <> [] | _ => last l barline <> barline end) ->
  exists P, duration_ops fmt (text_of ps) true (text_of (post_ok slur)) l = Some (map erase P) /\
    Forall lexed P /\ Forall flat P /\ Forall write P /\
    (ps <> [] -> exists q P', P = PW (ps ++ q) :: P') /\
    forall st r', full st -> exists b X E, tk P st ++ r' = toks b ps ++ X /\
      (if slur then exists u, E = u :: r' /\ tkind u = TTie else E = r') /\
      (duration_rest E [] E -> duration_rest X l E).
Proof.
  intros H. induction H as [|n l Hn Hl IH]; intros ps OK NE NL C.
  - destruct ps as [|p ps].
    + destruct C as [-> | C]; [|congruence]. exists []. split; [reflexivity|]. split; [constructor|]. split; [constructor|]. split; [constructor|].
      split; [congruence|]. intros st r' F. exists [], r', r'. split; [reflexivity|]. split; [reflexivity|]. auto.
    + destruct NE as [|NE]; [discriminate|]. exists [PW ((p :: ps) ++ post_ok slur)].
      split; [|split; [|split; [|split; [|split]]]].
      * cbn [duration_ops]. rewrite (nonempty_true _ NE). cbn [map erase]. rewrite text_app. reflexivity.
      * constructor; [|constructor]. now apply lexed_post.
      * constructor; [|constructor]. now apply flat_post.
      * constructor; [exact I|constructor].
      * intros _. eexists _, _. reflexivity.
      * intros st r' F. destruct (tk_write ((p :: ps) ++ post_ok slur) [] st F) as (b & E & _).
        { apply (lexed_post (p :: ps) slur NE OK). }
        rewrite E, tk_nil, app_nil_r, toks_app, <- app_assoc. exists b.
        destruct slur; cbn [post_ok toks tie_piece app];
          match goal with |- exists X E, _ ++ ?x = _ /\ _ => exists x, x end; (split; [reflexivity|]); (split; [|auto]).
        -- eexists. split; reflexivity.
        -- reflexivity.
  - destruct Hn as [-> | (k & t & Hn)].
    + (* a barline *)
      assert (C' : slur = false \/ l <> [] /\ last l barline <> barline).
      { destruct C as [C|C]; [now left|]. destruct l; [cbn in C; congruence|right]. split; [discriminate|exact C]. }
      destruct (IH []) as (P & T & A1 & A2 & A3 & _ & G).
      { intros rest _. reflexivity. } { now left. } { intros []. }
      { destruct C' as [C'|[C' C'']]; [now left|right]. destruct l; [congruence|exact C'']. }
      cbn [text_of map List.concat] in T.
      assert (B1 : lexed (PW [Lexeme TBarline [rn "|"]])).
      { split; [discriminate|]. intros rest _. apply wfr_simple; [constructor|discriminate|discriminate]. }
      assert (B2 : flat (PW [Lexeme TBarline [rn "|"]])) by (intros [X|[]]; discriminate).
      assert (Gb : forall st r', full st -> exists b X E, tk (PW [Lexeme TBarline [rn "|"]] :: P) st ++ r' = toks b [] ++ X /\
        (if slur then exists u, E = u :: r' /\ tkind u = TTie else E = r') /\ (duration_rest E [] E -> duration_rest X (barline :: l) E)).
      { intros st r' F. destruct (tk_write [Lexeme TBarline [rn "|"]] P st F (proj1 B1)) as (b & E & _). rewrite E.
        destruct (G (pstep (PW [Lexeme TBarline [rn "|"]]) st) r') as (b' & X & E' & E1 & E2 & E3); [apply pstep_full; [exact F|apply B1]|].
        cbn [toks app] in E1 |- *. rewrite E1. eexists [], _, E'. split; [reflexivity|]. split; [exact E2|].
        intros Q. apply dr_bar; [reflexivity|]. now apply E3. }
      assert (TX : match l with [] => text_of ps ++ text_of (post_ok slur) | _ => text_of ps end = text_of ps).
      { destruct l; [|reflexivity]. destruct C' as [-> | [C' _]]; [|congruence]. cbn. apply app_nil_r. }
      destruct ps as [|p ps].
      * exists (PW [Lexeme TBarline [rn "|"]] :: P). split; [|split; [now constructor|split; [now constructor|split; [now constructor|split]]]].
        -- cbn [duration_ops nty barline branch]. rewrite TX, T. reflexivity.
        -- congruence.
        -- exact Gb.
      * destruct NE as [|NE]; [discriminate|].
        assert (L0 : lexed (PW (p :: ps))).
        { rewrite <- (app_nil_r (p :: ps)). exact (lexed_post (p :: ps) false NE OK). }
        exists (PW (p :: ps) :: PW [Lexeme TBarline [rn "|"]] :: P).
        split; [|split; [repeat (apply Forall_cons; auto)|split; [repeat (apply Forall_cons; auto)|split; [repeat (apply Forall_cons; [exact I|]); exact A3|split]]]].
        -- cbn [duration_ops nty barline branch]. rewrite TX, T. unfold write_if. rewrite (nonempty_true _ NE). cbn [oapp map erase app].
           rewrite text_one. reflexivity.
        -- intros _. exists [], (PW [Lexeme TBarline [rn "|"]] :: P). now rewrite app_nil_r.
        -- intros st r' F. destruct (tk_write (p :: ps) (PW [Lexeme TBarline [rn "|"]] :: P) st F NE) as (b & E & _). rewrite E.
           destruct (Gb (pstep (PW (p :: ps)) st) r') as (b' & X & E' & E1 & E2 & E3); [apply pstep_full; [exact F|exact NE]|].
           rewrite <- app_assoc, E1. exists b, X, E'. split; [reflexivity|]. split; [exact E2|exact E3].
    + (* a length *)
      destruct Hn as (H1 & H2 & H3 & H4 & (d & y & H5 & H5') & H6).
      assert (TX : text_of (ps ++ [tie_piece; Lexeme k t]) = text_of ps ++ [rn "~"] ++ t).
      { rewrite text_app. unfold tie_piece. rewrite text_cons, text_one. reflexivity. }
      destruct (IH (ps ++ [tie_piece; Lexeme k t])) as (P & T & A1 & A2 & A3 & A4 & G).
      { intros rest R. apply wfr_app with 0; [apply OK; reflexivity|]. cbn [wfr tie_piece]. split; [apply lx_simple; constructor|].
        split; [cbn; apply H6; exact R|]. destruct k; try reflexivity; discriminate. }
      { right. rewrite TX, H5. intros X. apply app_eq_nil in X. destruct X as [_ X]. discriminate. }
      { rewrite TX. apply no_newline_app. split; [exact NL|]. intros [X|X]; [discriminate|now apply H4]. }
      { destruct C as [C|C]; [now left|right]. destruct l; [intros X; exact (app_cons_not_nil _ _ _ (eq_sym X))|exact C]. }
      exists P. split; [|split; [exact A1|split; [exact A2|split; [exact A3|split]]]].
      * cbn [duration_ops]. rewrite H2. rewrite TX in T.
        destruct (nty n); try exact T. congruence.
      * intros _. destruct A4 as (q & P' & ->); [intros X; exact (app_cons_not_nil _ _ _ (eq_sym X))|].
        rewrite <- app_assoc. eexists _, _. reflexivity.
      * intros st r' F. destruct (G st r' F) as (b & X & E & E1 & E2 & E3). rewrite toks_app, <- app_assoc in E1.
        unfold tie_piece in E1. cbn [toks app] in E1. eexists b, _, E. split; [exact E1|]. split; [exact E2|].
        intros Q. change (n :: l) with ([n] ++ l).
        eapply dr_tie; [|apply E3; exact Q].
        eapply (tied _ [] [] _ n X); cbn; auto.
Qed.

(** What is written after the letter of a note, a rest, or the end of a cram. *)
Definition soft0 (r : rune) : bool := soft r || digit r.
Lemma soft_soft0 rest : ends_with soft rest -> ends_with soft0 rest.
Proof. apply ends_weaken. intros r H. unfold soft0. now rewrite H. Qed.
Definition ok0 (ps : list piece) : Prop := forall rest, ends_with soft0 rest -> wfr 0 ps rest 0.

Lemma last_cons {A} (x d : A) l : last (x :: l) d = match l with [] => x | _ => last l d end.
Proof. destruct l; reflexivity. Qed.
Lemma with_duration_prints slur ts d r pre : duration_at ts d r -> fit ts -> Forall (everywhere (number_printed fmt)) d ->
  ok0 pre -> text_of pre <> [] -> no_newline (text_of pre) ->
  (slur = false \/ forall cs, d = [branch DurationNode (cs ++ [barline])] -> False) ->
  exists P, match d with
            | Node DurationNode _ l :: _ => with_duration fmt (text_of pre) l (text_of (post_ok slur))
            | _ => Some [FWrite (text_of pre ++ text_of (post_ok slur))]
            end = Some (map erase P) /\
    Forall lexed P /\ Forall flat P /\ Forall write P /\
    (exists q P', P = PW (pre ++ q) :: P') /\
    forall st r', full st -> calm r' -> (slur = true \/ d = [] \/ kind r' <> TBarline) ->
      exists b X E, tk P st ++ r' = toks b pre ++ X /\
      (if slur then exists u, E = u :: r' /\ tkind u = TTie else E = r') /\ duration_at X d E /\
      (accidental_node (kind r') = None -> accidental_node (kind X) = None).
Proof.
  intros H F E OK NE NL C. destruct H as [r Hr|t ts c ns r Hc H].
  - exists [PW (pre ++ post_ok slur)]. split; [cbn; now rewrite text_app|].
    split; [constructor; [|constructor]; apply lexed_post; [exact NE|]; intros rest R; apply OK; now apply soft_soft0|].
    split; [constructor; [|constructor]; now apply flat_post|]. split; [constructor; [exact I|constructor]|].
    split; [eexists _, _; reflexivity|].
    intros st r' Fs Cr _. destruct (tk_write (pre ++ post_ok slur) [] st Fs) as (b & Eq & _).
    { rewrite text_app. intros X. apply app_eq_nil in X. tauto. }
    rewrite Eq, tk_nil, app_nil_r, toks_app, <- app_assoc. exists b.
    destruct slur; cbn [post_ok toks tie_piece app];
      match goal with |- exists X E, _ ++ ?x = _ /\ _ => exists x, x end; (split; [reflexivity|]).
    + split; [eexists; split; reflexivity|]. split; [|reflexivity]. apply dur_none. reflexivity.
    + split; [reflexivity|]. split; [|auto]. apply dur_none. now apply calm_no_length.
  - inversion E as [|? ? Ed _]; subst. apply everywhere_eq in Ed. destruct Ed as [_ Ed]. cbn [nch branch] in Ed.
    inversion Ed as [|? ? Ec Es]; subst.
    destruct (valid_length t c (fit_valid _ _ F) Hc Ec) as (k & x & L).
    pose proof L as (H1 & H2 & H3 & H4 & (d & y & H5 & H5') & H6).
    assert (TX : text_of (pre ++ [Lexeme k x]) = text_of pre ++ x) by (rewrite text_app, text_one; reflexivity).
    destruct (duration_prints slur ns (rest_children _ _ _ H (fit_cons _ _ F) Es) (pre ++ [Lexeme k x])) as (P & T & A1 & A2 & A3 & A4 & G).
    + intros rest R. apply wfr_app with 0.
      * apply OK. rewrite text_one, H5. cbn [app ends_with]. unfold soft0. apply orb_true_iff. right. unfold digit.
        apply andb_true_iff. split; apply Z.leb_le; unfold rune in *; lia.
      * cbn [wfr text_of map List.concat app]. split; [now apply H6|]. destruct k; try reflexivity; discriminate.
    + right. rewrite TX. intros X. apply app_eq_nil in X. tauto.
    + rewrite TX. apply no_newline_app. now split.
    + destruct C as [C|C]; [now left|right]. destruct ns as [|n ns]; [intros X; exact (app_cons_not_nil _ _ _ (eq_sym X))|].
      intros X. destruct (exists_last (l := n :: ns)) as (l' & z & El); [discriminate|]. rewrite El in X, C.
      rewrite last_last in X. subst z. exact (C (c :: l') eq_refl).
    + exists P. cbn [branch]. unfold with_duration. cbn [duration_ops]. rewrite H2. rewrite TX in T.
      split; [destruct (nty c); try exact T; congruence|]. split; [exact A1|]. split; [exact A2|]. split; [exact A3|].
      split. { destruct A4 as (q & P' & ->); [intros X; exact (app_cons_not_nil _ _ _ (eq_sym X))|]. rewrite <- app_assoc. eexists _, _. reflexivity. }
      intros st r' Fs Cr K. destruct (G st r' Fs) as (b & X & E' & E1 & E2 & E3). rewrite toks_app, <- app_assoc in E1. cbn [toks app] in E1.
      eexists b, _, E'. split; [exact E1|]. split; [exact E2|].
      assert (Q : duration_rest E' [] E').
      { destruct slur.
        - destruct E2 as (u & -> & Ku). now apply calm_tie_end.
        - subst E'. destruct K as [K|[K|K]]; try discriminate. now apply calm_rest_end. }
      split; [apply dur_some; [exact H1|now apply E3]|].
      intros _. cbn [kind tkind]. destruct k; try reflexivity; discriminate.
Qed.

(** ** Accidentals *)
Lemma accs_print ts as_ r : accs ts as_ r -> exists ps, accidentals_text as_ = Some (text_of ps) /\
  (forall rest, wfr 0 ps rest 0) /\ no_newline (text_of ps) /\
  (forall rest, ends_with after_note rest -> ends_with after_note (text_of ps ++ rest)) /\
  forall b x, accidental_node (kind x) = None -> accs (toks b ps ++ x) as_ x.
Proof.
  induction 1 as [r Hr|t ts a ns r Ha _ (ps & T & W & NL & AN & G)].
  - exists []. split; [reflexivity|]. split; [reflexivity|]. split; [intros []|]. split; [auto|]. intros b x Hx. now apply acc_end.
  - assert (X : exists k c, simple c k /\ k <> TLParen /\ k <> TRParen /\ rn c <> newline /\ after_note (rn c) = true /\
        accidental_node k = Some a /\ accidentals_text (a :: ns) = Some (rn c :: text_of ps)).
    { destruct (tkind t); try discriminate; injection Ha as <-.
      - exists TFlat, "-"%char. repeat split; try discriminate; try constructor. cbn [accidentals_text nty branch]. now rewrite T.
      - exists TNatural, "_"%char. repeat split; try discriminate; try constructor. cbn [accidentals_text nty branch]. now rewrite T.
      - exists TSharp, "+"%char. repeat split; try discriminate; try constructor. cbn [accidentals_text nty branch]. now rewrite T. }
    destruct X as (k & c & S & K1 & K2 & Cn & Ca & Ka & Tx). exists (Lexeme k [rn c] :: ps).
    split; [rewrite Tx, text_cons; reflexivity|]. split.
    { intros rest. change (Lexeme k [rn c] :: ps) with ([Lexeme k [rn c]] ++ ps). apply wfr_app with 0; [now apply wfr_simple|apply W]. }
    split; [rewrite text_cons; intros [X|X]; [congruence|now apply NL]|].
    split; [intros rest _; rewrite text_cons; exact Ca|].
    intros b x Hx. cbn [toks app]. apply acc_one; [exact Ka|]. now apply G.
Qed.
Lemma soft0_notes r : soft0 r = true -> after_note r = true /\ after_rest r = true.
Proof.
  intros H. unfold soft0, soft, gap in H.
  assert (X : r = space \/ r = newline \/ r = rn "~" \/ In r (runes "0123456789")).
  { repeat (apply orb_prop in H; destruct H as [H|H]); try (apply Z.eqb_eq in H; auto).
    right. right. right. apply digit_cases. unfold digit in H. apply andb_true_iff in H. destruct H as [A B].
    apply Z.leb_le in A. apply Z.leb_le in B. now split. }
  destruct X as [-> | [-> | [-> | X]]]; try (split; reflexivity).
  cbn in X. repeat (destruct X as [<- | X]; [split; reflexivity|]). destruct X.
Qed.

(** ** Notes and rests *)
Lemma slurred_dur (d : list node) cs : d = [branch DurationNode (cs ++ [barline])] ->
  forall l as_, slurred_at_bar (note_node l as_ d true).
Proof.
  intros -> l as_. split; [reflexivity|]. split; [right; right; now left|].
  eexists (branch DurationNode (cs ++ [barline])), cs. split; [right; now left|]. split; reflexivity.
Qed.
Lemma note_prints ts n r : note_or_rest_at ts n r -> fit ts -> everywhere (number_printed fmt) n -> ~ slurred_at_bar n ->
  exists P, event_ops fmt n = Some (map erase P) /\ Forall lexed P /\ Forall flat P /\ Forall write P /\ headed (kind ts) P /\
    is_note_or_rest n = true /\
    forall st r', full st -> calm r' -> (kind r <> TBarline -> kind r' <> TBarline) -> accidental_node (kind r') = None ->
      note_or_rest_at (tk P st ++ r') n r'.
Proof.
  intros H F E S.
  assert (NOTE : forall l ts as_ r1 d slur t e, tkind t = TNote l -> fit (t :: ts) -> accs ts as_ r1 -> duration_at r1 d e ->
     everywhere (number_printed fmt) (note_node l as_ d slur) -> ~ slurred_at_bar (note_node l as_ d slur) ->
     exists P, event_ops fmt (note_node l as_ d slur) = Some (map erase P) /\ Forall lexed P /\ Forall flat P /\ Forall write P /\ headed (TNote l) P /\
       forall st r', full st -> calm r' -> (slur = true \/ d = [] \/ kind r' <> TBarline) -> accidental_node (kind r') = None ->
         note_or_rest_at (tk P st ++ r') (note_node l as_ d slur) r').
  { clear ts n r H F E S. intros l ts as_ r1 d slur t e K F Ha Hd E S.
    destruct (accidentals_complete _ _ _ Ha) as [_ He]. pose proof (fit_valid _ _ F) as V. unfold valid in V. rewrite K in V.
    pose proof (fit_eats _ _ (fit_cons _ _ F) He) as F1.
    destruct (accs_print _ _ _ Ha) as (ps & T & W & NL & AN & G).
    assert (Ed : Forall (everywhere (number_printed fmt)) d).
    { apply everywhere_eq in E. destruct E as [_ E]. cbn [nch note_node branch] in E. inversion E as [|? ? _ E']; subst. now apply Forall_app in E'. }
    destruct (with_duration_prints slur _ _ _ (Lexeme (TNote l) [l] :: ps) Hd F1 Ed) as (P & TP & A1 & A2 & A3 & (q & P' & A4) & G').
    - intros rest R. cbn [wfr]. split; [|apply W]. apply lx_note; [exact V|]. apply AN. revert R. apply ends_weaken. intros x Hx. now apply soft0_notes.
    - discriminate.
    - rewrite text_cons. intros [X|X]; [unfold newline in X; unfold rune in *; lia|now apply NL].
    - destruct slur; [right|now left]. intros cs X. apply S. eapply slurred_dur; eauto.
    - exists P. split.
      + assert (PT : pitch_text (branch NoteLetterAndAccidentalsNode
             (leaf NoteLetterNode (LitRune l) :: match as_ with [] => [] | _ => [branch NoteAccidentalsNode as_] end)) = Some (text_of (Lexeme (TNote l) [l] :: ps))).
        { rewrite text_cons. destruct as_ as [|a as_]; [cbn in T; injection T as T; rewrite <- T; reflexivity|].
          cbn [pitch_text branch leaf]. rewrite T. reflexivity. }
        rewrite <- TP. cbn [event_ops note_node branch]. unfold note_ops. rewrite PT.
        destruct Hd as [e He'|u ts' c ns e Hc Hd]; destruct slur; reflexivity.
      + split; [exact A1|]. split; [exact A2|]. split; [exact A3|]. split; [rewrite A4; apply headed_write|].
        intros st r' Fs Cr Kb Ac. destruct (G' st r' Fs Cr Kb) as (b & X & E' & E1 & E2 & E3 & E4). rewrite E1. cbn [toks app].
        destruct slur.
        * destruct E2 as (u & -> & Ku). eapply nr_slurred; [reflexivity|apply G; auto|exact E3|exact Ku].
        * subst E'. eapply nr_note; [reflexivity|apply G; auto|exact E3|]. now apply calm_no_tie. }
  destruct H as [t l ts as_ r1 d r K Ha Hd Hk|t l ts as_ r1 d u r K Ha Hd Hk|t ts d r K Hd].
  - destruct (NOTE l ts as_ r1 d false t r K F Ha Hd E S) as (P & T & A1 & A2 & A3 & A4 & G). exists P. cbn [kind]. rewrite K.
    split; [exact T|]. split; [exact A1|]. split; [exact A2|]. split; [exact A3|]. split; [exact A4|]. split; [reflexivity|].
    intros st r' Fs Cr Kb Ac. apply G; auto. right. destruct Hd as [e He|v ts' c ns e Hc Hd]; [now left|right]. apply Kb.
    clear - Hd. induction Hd; auto.
  - destruct (NOTE l ts as_ r1 d true t (u :: r) K F Ha Hd E S) as (P & T & A1 & A2 & A3 & A4 & G). exists P. cbn [kind]. rewrite K.
    split; [exact T|]. split; [exact A1|]. split; [exact A2|]. split; [exact A3|]. split; [exact A4|]. split; [reflexivity|].
    intros st r' Fs Cr Kb Ac. apply G; auto.
  - assert (Ed : Forall (everywhere (number_printed fmt)) d) by (apply everywhere_eq in E; apply E).
    destruct (with_duration_prints false _ _ _ [Lexeme TRest [rn "r"]] Hd (fit_cons _ _ F) Ed) as (P & TP & A1 & A2 & A3 & (q & P' & A4) & G').
    + intros rest R. cbn [wfr text_of map List.concat app]. split; [|reflexivity]. apply lx_rest. revert R. apply ends_weaken. intros x Hx. now apply soft0_notes.
    + discriminate.
    + intros [X|[]]. discriminate.
    + now left.
    + exists P. cbn [kind]. rewrite K. split.
      { rewrite <- TP. destruct Hd as [e He|v ts' c ns e Hc Hd]; reflexivity. }
      split; [exact A1|]. split; [exact A2|]. split; [exact A3|]. split; [rewrite A4; apply headed_write|]. split; [reflexivity|].
      intros st r' Fs Cr Kb Ac. destruct (G' st r' Fs Cr) as (b & X & E' & E1 & E2 & E3 & E4).
      { right. destruct Hd as [e He|v ts' c ns e Hc Hd]; [now left|right]. apply Kb. clear - Hd. induction Hd; auto. }
      rewrite E1. cbn [toks app]. subst E'. eapply nr_rest; [reflexivity|exact E3].
Qed.
End Notes.
