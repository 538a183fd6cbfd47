(** The text the formatter writes, as pieces of the lexical specification. *)
From Coq Require Import String Ascii ZArith List Bool Lia.
From Verif Require Import Base Num ModelScan SpecScan ProofScan ModelParser ModelFormat SpecParser SpecFormat.
Import ListNotations.
Local Open Scope list_scope.
Local Open Scope Z_scope.

Section Pieces.
Context {N : Num}.
Variable cfg : config.
Hypothesis indent_blank : blank_text (c_indent cfg).

(** Calls of the formatter, with the pieces the texts consist of. *)
Inductive pop := PW (ps : list piece) | PFl | PIn | PUn | PEm | PVar (v : var_def).
Definition erase (p : pop) : fop :=
  match p with PW ps => FWrite (text_of ps) | PFl => FFlush | PIn => FIndent | PUn => FUnindent | PEm => FEmptyLine | PVar v => FVar v end.
Definition pstep (p : pop) (st : fstate) : fstate := fstep cfg (erase p) st.
Definition prun (l : list pop) (st : fstate) : fstate := fold_left (fun s p => pstep p s) l st.
Lemma prun_app a b st : prun (a ++ b) st = prun b (prun a st).
Proof. apply fold_left_app. Qed.
Lemma frun_prun l st : frun cfg (map erase l) st = prun l st.
Proof. revert st. induction l as [|p l IH]; intros st; [reflexivity|]. cbn. apply IH. Qed.

(** Everything written so far, with the unfinished line. *)
Definition total (st : fstate) : list rune := f_out st ++ line cfg st.

Definition blanks (l : list rune) : list piece := map Blank l.
Definition margin (st : fstate) : list rune := List.concat (repeat (c_indent cfg) (Z.to_nat (f_level st))).
Definition flush_pieces (st : fstate) : list piece :=
  match f_texts st with [] => [] | _ => [Blank newline] end.
(** The pieces a call adds. *)
Definition emit (p : pop) (st : fstate) : list piece :=
  match p with
  | PW ps =>
      match f_texts st with
      | [] => blanks (margin st)
      | _ => match f_var st with
             | VNone => if c_wrap cfg <? text_len (line cfg (FState (f_var st) (f_level st) (f_texts st ++ [text_of ps]) (f_out st)))
                        then Blank newline :: blanks (margin st) else [Blank space]
             | _ => [Blank space]
             end
      end ++ ps
  | PFl => match f_var st with VNone => flush_pieces st | _ => [] end
  | PIn => match f_var st with VDefining => [] | _ => flush_pieces st end
  | PUn => match f_var st with VNone => flush_pieces st | _ => [] end
  | PEm => match f_var st with VNone => flush_pieces st ++ [Blank newline] | _ => [] end
  | PVar _ => []
  end.
Fixpoint emits (l : list pop) (st : fstate) : list piece :=
  match l with [] => [] | p :: t => emit p st ++ emits t (pstep p st) end.
Lemma emits_app a b st : emits (a ++ b) st = emits a st ++ emits b (prun a st).
Proof. revert st. induction a as [|p a IH]; intros st; [reflexivity|]. cbn. rewrite IH, app_assoc. reflexivity. Qed.

(** Nothing empty is written. *)
Definition full (st : fstate) : Prop := Forall (fun t => t <> []) (f_texts st).
Definition solid (p : pop) : Prop := match p with PW ps => text_of ps <> [] | _ => True end.

Lemma text_app a b : text_of (a ++ b) = text_of a ++ text_of b.
Proof. unfold text_of. now rewrite map_app, concat_app. Qed.
Lemma text_blanks l : text_of (blanks l) = l.
Proof. unfold text_of, blanks. rewrite map_map. cbn. induction l as [|x l IH]; [reflexivity|]. cbn. now rewrite IH. Qed.

Lemma join_nonempty sep l : Forall (fun t => t <> []) l -> l <> [] -> join sep l <> [].
Proof.
  intros H Hl E. destruct l as [|x [|y l]]; [congruence| |]; inversion H as [|? ? Hx Ht]; subst.
  - exact (Hx E).
  - cbn [join] in E. apply app_eq_nil in E. exact (Hx (proj1 E)).
Qed.
Lemma join_snoc sep l x : l <> [] -> join sep (l ++ [x]) = join sep l ++ sep ++ x.
Proof.
  induction l as [|y l IH]; [congruence|]. intros _. destruct l as [|z l]; [reflexivity|].
  cbn [app]. cbn [app] in IH. change (join sep (y :: z :: l ++ [x])) with (y ++ sep ++ join sep (z :: l ++ [x])).
  rewrite IH by discriminate. change (join sep (y :: z :: l)) with (y ++ sep ++ join sep (z :: l)).
  rewrite <- !app_assoc. reflexivity.
Qed.
Lemma line_nil v l o : line cfg (FState v l [] o) = [].
Proof. reflexivity. Qed.
Lemma line_full st : full st -> f_texts st <> [] -> line cfg st = margin st ++ join [space] (f_texts st).
Proof.
  intros F E. unfold line. destruct (join [space] (f_texts st)) eqn:J; [|reflexivity].
  exfalso. exact (join_nonempty _ _ F E J).
Qed.

Lemma pstep_full p st : full st -> solid p -> full (pstep p st).
Proof.
  unfold full. intros F S. destruct p; cbn in *.
  - assert (X : Forall (fun t => t <> []) (f_texts st ++ [text_of ps])) by (apply Forall_app; split; [exact F|now repeat constructor]).
    destruct (f_var st); try exact X. destruct (_ <? _); [|exact X]. unfold flush.
    destruct (f_texts st) eqn:E; cbn; [rewrite E; now repeat constructor|].
    destruct (f_var st); cbn; try rewrite E; try exact X. now repeat constructor.
  - unfold flush. destruct (f_texts st) eqn:E; [now rewrite E|]. destruct (f_var st); cbn; rewrite ?E; auto.
  - destruct (f_var st); [|exact F|]; unfold flush; cbn; (destruct (f_texts st); cbn; auto).
  - destruct (f_var st) eqn:V; try exact F. unfold flush. destruct (f_texts st) eqn:E; [cbn; now rewrite E|]. rewrite V. cbn. auto.
  - destruct (f_var st) eqn:V; try exact F. unfold flush. destruct (f_texts st) eqn:E; [cbn; now rewrite E|]. rewrite V. cbn. auto.
  - exact F.
Qed.
Lemma prun_full l st : full st -> Forall solid l -> full (prun l st).
Proof. revert st. induction l as [|p l IH]; intros st F H; [exact F|]. inversion H; subst. apply IH; [now apply pstep_full|assumption]. Qed.

Lemma total_flush st : total (flush cfg st) = total st ++ match f_var st with VNone => text_of (flush_pieces st) | _ => [] end.
Proof.
  unfold flush, total, flush_pieces. destruct (f_texts st) eqn:E; [destruct (f_var st); cbn; rewrite ?app_nil_r; reflexivity|].
  destruct (f_var st); cbn [f_out line f_texts join]; rewrite ?app_nil_r; try reflexivity.
  rewrite <- !app_assoc. reflexivity.
Qed.
Lemma pstep_total p st : full st -> solid p -> total (pstep p st) = total st ++ text_of (emit p st).
Proof.
  intros F S. destruct p; unfold pstep; cbn [erase fstep emit].
  - cbn in S. destruct (f_texts st) as [|x xs] eqn:E.
    + assert (X : total (FState (f_var st) (f_level st) [text_of ps] (f_out st)) = total st ++ text_of (blanks (margin st) ++ ps)).
      { unfold total. rewrite text_app, text_blanks.
        replace (line cfg st) with (@nil rune) by (unfold line; now rewrite E). rewrite app_nil_r.
        rewrite line_full by (try (unfold full; cbn; now repeat constructor); discriminate). reflexivity. }
      cbn [app]. destruct (f_var st) eqn:V; try exact X.
      destruct (_ <? _); [|exact X]. unfold flush. rewrite E. cbn. rewrite E. cbn [app]. exact X.
    + set (added := FState (f_var st) (f_level st) ((x :: xs) ++ [text_of ps]) (f_out st)).
      assert (X : total added = total st ++ text_of ([Blank space] ++ ps)).
      { unfold total. rewrite text_app. rewrite !line_full; unfold full; cbn [f_texts added]; rewrite ?E; try discriminate.
        - unfold full in F. rewrite E in F. cbn [f_texts added]. rewrite (join_snoc [space] (x :: xs)) by discriminate.
          cbn [f_out added]. unfold margin. cbn [f_level added]. rewrite <- !app_assoc. reflexivity.
        - unfold full in F. now rewrite E in F.
        - unfold full in F. rewrite E in F. apply Forall_app. split; [exact F|now repeat constructor]. }
      fold added. destruct (f_var st) eqn:V; try exact X.
      destruct (_ <? _) eqn:W; [|exact X].
      unfold flush. rewrite E, V. cbn [f_level f_texts f_out app].
      unfold total. rewrite (line_full (FState _ _ [text_of ps] _)) by (try (unfold full; cbn; now repeat constructor); discriminate).
      cbn [f_out]. change (text_of (Blank newline :: blanks (margin st) ++ ps)) with ([newline] ++ text_of (blanks (margin st) ++ ps)).
      rewrite text_app, text_blanks. unfold margin. cbn [f_level f_texts join]. rewrite <- !app_assoc. reflexivity.
  - rewrite total_flush. destruct (f_var st); reflexivity.
  - set (st' := FState VNone (f_level st) (f_texts st) (f_out st)).
    assert (X : total (FState VNone (f_level (flush cfg st') + 1) (f_texts (flush cfg st')) (f_out (flush cfg st'))) = total st ++ text_of (flush_pieces st)).
    { transitivity (total (flush cfg st')); [|rewrite total_flush; reflexivity].
      unfold total. apply f_equal2; [reflexivity|]. cbn. unfold flush. cbn. destruct (f_texts st); reflexivity. }
    destruct (f_var st); try exact X. now rewrite app_nil_r.
  - destruct (f_var st) eqn:V; try (now rewrite app_nil_r).
    transitivity (total (flush cfg st)); [|rewrite total_flush, V; reflexivity].
    unfold total. apply f_equal2; [reflexivity|]. unfold flush. rewrite V. destruct (f_texts st) eqn:E; cbn; [unfold line; cbn; now rewrite E|reflexivity].
  - destruct (f_var st) eqn:V; try (now rewrite app_nil_r).
    transitivity (total (flush cfg st) ++ [newline]); [|rewrite total_flush, V, text_app, app_assoc; reflexivity].
    unfold total. cbn [f_out]. rewrite <- app_assoc. rewrite <- app_assoc. apply f_equal2; [reflexivity|].
    unfold flush. rewrite V. destruct (f_texts st) eqn:E; cbn; [unfold line; cbn; now rewrite E|reflexivity].
  - unfold total. cbn. now rewrite app_nil_r.
Qed.
Lemma prun_total l st : full st -> Forall solid l -> total (prun l st) = total st ++ text_of (emits l st).
Proof.
  revert st. induction l as [|p l IH]; intros st F H; cbn [emits prun fold_left]; [now rewrite app_nil_r|].
  inversion H; subst. unfold prun in IH. rewrite IH by (try apply pstep_full; assumption).
  rewrite pstep_total by assumption. rewrite text_app, app_assoc. reflexivity.
Qed.

(** ** Tokens *)
Fixpoint toks (before : list rune) (ps : list piece) : list token :=
  match ps with
  | [] => []
  | Lexeme k t :: ps' => Token k t (line_after before) (column_after before) :: toks (before ++ t) ps'
  | p :: ps' => toks (before ++ piece_text p) ps'
  end.
Lemma tokens_at_app before a b : tokens_at before (a ++ b) = toks before a ++ tokens_at (before ++ text_of a) b.
Proof.
  revert before. induction a as [|p a IH]; intros before; [cbn; now rewrite app_nil_r|].
  change (text_of (p :: a)) with (piece_text p ++ text_of a). rewrite app_assoc.
  destruct p; cbn [app tokens_at toks piece_text]; rewrite IH; reflexivity.
Qed.
Lemma toks_app before a b : toks before (a ++ b) = toks before a ++ toks (before ++ text_of a) b.
Proof.
  revert before. induction a as [|p a IH]; intros before; [cbn; now rewrite app_nil_r|].
  change (text_of (p :: a)) with (piece_text p ++ text_of a). rewrite app_assoc.
  destruct p; cbn [app toks piece_text]; rewrite IH; reflexivity.
Qed.
Lemma toks_blanks before l : toks before (blanks l) = [].
Proof. revert before. induction l as [|x l IH]; intros before; [reflexivity|]. cbn. apply IH. Qed.

(** Kinds and texts of the tokens. *)
Definition spelled (ps : list piece) : list (tok * list rune) :=
  flat_map (fun p => match p with Lexeme k t => [(k, t)] | _ => [] end) ps.
Definition kt (t : token) : tok * list rune := (tkind t, ttext t).
Lemma toks_spelled before ps : map kt (toks before ps) = spelled ps.
Proof. revert before. induction ps as [|p ps IH]; intros before; [reflexivity|]. destruct p; cbn; rewrite ?IH; reflexivity. Qed.

(** The tokens that calls add. *)
Definition tk (l : list pop) (st : fstate) : list token := toks (total st) (emits l st).
Lemma tk_app a b st : full st -> Forall solid a -> tk (a ++ b) st = tk a st ++ tk b (prun a st).
Proof. intros F S. unfold tk. rewrite emits_app, toks_app, prun_total by assumption. reflexivity. Qed.
Definition spelling (l : list pop) : list (tok * list rune) :=
  flat_map (fun p => match p with PW ps => spelled ps | _ => [] end) l.
Lemma spelled_app a b : spelled (a ++ b) = spelled a ++ spelled b.
Proof. apply flat_map_app. Qed.
Lemma spelled_blanks l : spelled (blanks l) = [].
Proof. induction l; [reflexivity|exact IHl]. Qed.
Lemma tk_spelling l st : map kt (tk l st) = spelling l.
Proof.
  unfold tk. rewrite toks_spelled. revert st. induction l as [|p l IH]; intros st; [reflexivity|].
  cbn [emits spelling flat_map]. rewrite spelled_app, IH. apply f_equal2; [|reflexivity].
  assert (FP : spelled (flush_pieces st) = []) by (unfold flush_pieces; destruct (f_texts st); reflexivity).
  destruct p; cbn [emit].
  - rewrite spelled_app. destruct (f_texts st); [now rewrite spelled_blanks|].
    destruct (f_var st); try reflexivity. destruct (_ <? _); [|reflexivity]. cbn. now rewrite spelled_blanks.
  - destruct (f_var st); auto.
  - destruct (f_var st); auto.
  - destruct (f_var st); auto.
  - destruct (f_var st); auto. rewrite spelled_app, FP. reflexivity.
  - reflexivity.
Qed.

(** ** The pieces are well formed *)
Fixpoint wfr (level : Z) (ps : list piece) (rest : list rune) (level' : Z) : Prop :=
  match ps with
  | [] => level = level'
  | Blank r :: ps' => In r [space; tab; newline; creturn] /\ wfr level ps' rest level'
  | Comment _ :: _ => False
  | Lexeme k t :: ps' =>
      lexeme (0 <? level) k t (text_of ps' ++ rest) /\
      wfr (match k with TLParen => level + 1 | TRParen => level - 1 | _ => level end) ps' rest level'
  end.
Lemma wfr_well_formed level ps qs level' :
  wfr level ps (text_of qs) level' -> well_formed level' qs -> well_formed level (ps ++ qs).
Proof.
  revert level. induction ps as [|p ps IH]; intros level H Q; cbn in *; [now subst|].
  destruct p as [r|c|k t]; [destruct H as [H1 H2]; split; auto|contradiction|].
  destruct H as [H1 H2]. rewrite <- text_app in H1. split; [exact H1|auto].
Qed.
Lemma wfr_app l0 l1 l2 ps qs rest : wfr l0 ps (text_of qs ++ rest) l1 -> wfr l1 qs rest l2 -> wfr l0 (ps ++ qs) rest l2.
Proof.
  revert l0. induction ps as [|p ps IH]; intros l0 H Q; cbn in *; [now subst|].
  destruct p as [r|c|k t]; [destruct H as [H1 H2]; split; auto|contradiction|].
  destruct H as [H1 H2]. rewrite text_app, <- app_assoc. split; [exact H1|auto].
Qed.

Definition gap (r : rune) : bool := (r =? space) || (r =? newline).
Definition lexed (p : pop) : Prop :=
  match p with
  | PW ps => text_of ps <> [] /\ forall rest, ends_with gap rest -> wfr 0 ps rest 0
  | _ => True
  end.
Lemma lexed_solid l : Forall lexed l -> Forall solid l.
Proof. apply Forall_impl. intros [] H; cbn in *; tauto. Qed.

Lemma pstep_texts p st : f_texts (pstep p st) = [] ->
  match p with PW _ => False | _ => f_texts st = [] \/ exists l, emit p st = Blank newline :: l end.
Proof.
  unfold pstep, emit, flush_pieces. destruct p; cbn [erase fstep].
  - destruct (f_var st); [destruct (_ <? _)| |]; cbn [f_texts]; intros E; (eapply app_cons_not_nil; symmetry; exact E).
  - unfold flush. destruct (f_texts st) eqn:E; [auto|]. destruct (f_var st); cbn; intros X; try congruence. right. now eexists.
  - unfold flush. destruct (f_var st); cbn; (destruct (f_texts st) eqn:E; cbn; [auto|]); intros X; try congruence; right; now eexists.
  - unfold flush. destruct (f_texts st) eqn:E; [auto|]. destruct (f_var st); cbn; intros X; try congruence. right. now eexists.
  - unfold flush. destruct (f_texts st) eqn:E; [auto|]. destruct (f_var st); cbn; intros X; try congruence. right. now eexists.
  - cbn. auto.
Qed.
Lemma emit_head p st : f_texts st <> [] -> emit p st = [] \/ exists r l, gap r = true /\ emit p st = Blank r :: l.
Proof.
  intros E. unfold emit, flush_pieces. destruct (f_texts st) as [|x xs]; [congruence|].
  assert (NL : exists r l, gap r = true /\ [Blank newline] = Blank r :: l) by (exists newline, []; now split).
  destruct p; try (destruct (f_var st); auto; right; exists newline; eexists; (split; [reflexivity|cbn; reflexivity])).
  right. destruct (f_var st); [destruct (_ <? _)| |]; cbn [app]; eexists _, _; (split; [|reflexivity]); reflexivity.
Qed.
Lemma blanks_ok l ps : blank_text l -> well_formed 0 ps -> well_formed 0 (blanks l ++ ps).
Proof. induction 1 as [|r l Hr Hl IH]; intros W; [exact W|]. cbn. split; [exact Hr|now apply IH]. Qed.
Lemma margin_blank st : blank_text (margin st).
Proof.
  unfold margin. induction (Z.to_nat (f_level st)); [constructor|]. cbn. apply Forall_app. split; [exact indent_blank|assumption].
Qed.
Lemma emits_head l st : f_texts st <> [] -> ends_with gap (text_of (emits l st)).
Proof.
  revert st. induction l as [|p l IH]; intros st E; [exact I|]. cbn [emits].
  destruct (emit_head p st E) as [X|(r & q & G & X)].
  - rewrite X. cbn [app]. apply IH. intros T. apply pstep_texts in T. destruct p; try contradiction;
      (destruct T as [T|(q & T)]; [exact (E T)|rewrite X in T; discriminate]).
  - rewrite X. cbn. exact G.
Qed.
Lemma flush_ok st ps : well_formed 0 ps -> well_formed 0 (flush_pieces st ++ ps).
Proof. intros W. unfold flush_pieces. destruct (f_texts st); [exact W|]. cbn. split; [now right; right; left|exact W]. Qed.
Lemma emits_well_formed l st : Forall lexed l -> well_formed 0 (emits l st).
Proof.
  revert st. induction l as [|p l IH]; intros st G; [exact I|]. inversion G as [|? ? Gp Gl]; subst. specialize (IH (pstep p st) Gl).
  cbn [emits]. destruct p; cbn [emit].
  - destruct Gp as [_ Gp].
    assert (X : well_formed 0 (ps ++ emits l (pstep (PW ps) st))).
    { apply wfr_well_formed with 0; [|exact IH]. apply Gp. apply emits_head. intros T. apply pstep_texts in T. exact T. }
    rewrite <- app_assoc. destruct (f_texts st).
    + apply blanks_ok; [apply margin_blank|exact X].
    + assert (Y : well_formed 0 ([Blank space] ++ ps ++ emits l (pstep (PW ps) st))) by (split; [now left|exact X]).
      destruct (f_var st); try exact Y. destruct (_ <? _); [|exact Y]. cbn [app]. split; [now right; right; left|].
      apply blanks_ok; [apply margin_blank|exact X].
  - destruct (f_var st); try exact IH. now apply flush_ok.
  - destruct (f_var st); try exact IH; now apply flush_ok.
  - destruct (f_var st); try exact IH. now apply flush_ok.
  - destruct (f_var st); try exact IH. rewrite <- app_assoc. apply flush_ok. split; [now right; right; left|exact IH].
  - exact IH.
Qed.

(** ** Lines *)
Lemma line_after_app a b : line_after (a ++ b) = line_after a + Z.of_nat (List.length (filter (Z.eqb newline) b)).
Proof. unfold line_after. rewrite filter_app, app_length, Nat2Z.inj_add. apply Z.add_assoc. Qed.
Lemma line_after_le a b : line_after a <= line_after (a ++ b).
Proof. rewrite line_after_app. lia. Qed.
Definition no_newline (l : list rune) : Prop := ~ In newline l.
Lemma line_after_flat a b : no_newline b -> line_after (a ++ b) = line_after a.
Proof.
  intros H. rewrite line_after_app. replace (filter (Z.eqb newline) b) with (@nil rune); [cbn; lia|].
  induction b as [|x b IH]; [reflexivity|]. cbn [filter]. destruct (newline =? x) eqn:E; [exfalso; apply H; left; symmetry; now apply Z.eqb_eq|].
  apply IH. intros X. apply H. now right.
Qed.
Lemma toks_line before ps r : line_after (before ++ text_of ps) <= line_of r -> line_after before <= line_of (toks before ps ++ r).
Proof.
  revert before. induction ps as [|p ps IH]; intros before H; [cbn in *; now rewrite app_nil_r in H|].
  change (text_of (p :: ps)) with (piece_text p ++ text_of ps) in H. rewrite app_assoc in H.
  destruct p; cbn [toks app line_of tline]; try lia; (eapply Z.le_trans; [|apply IH; exact H]); apply line_after_le.
Qed.
Lemma tk_line l st r : full st -> Forall solid l -> line_after (total (prun l st)) <= line_of r ->
  line_after (total st) <= line_of (tk l st ++ r).
Proof. intros F S H. apply toks_line. rewrite <- prun_total by assumption. exact H. Qed.

Definition flat (p : pop) : Prop :=
  match p with PW ps => no_newline (text_of ps) | PVar _ => False | _ => True end.
(** While a variable is being defined, nothing breaks the line. *)
Lemma defining_step p st : flat p -> f_var st = VDefining -> f_texts st <> [] ->
  f_var (pstep p st) = VDefining /\ f_texts (pstep p st) <> [] /\ f_level (pstep p st) = f_level st /\ no_newline (text_of (emit p st)).
Proof.
  intros Fl V T. unfold pstep, emit. destruct p; cbn [erase fstep]; unfold flush; rewrite ?V.
  - cbn. split; [reflexivity|]. split; [intros X; eapply app_cons_not_nil; symmetry; exact X|]. split; [reflexivity|].
    destruct (f_texts st); [congruence|]. cbn. intros [X|X]; [discriminate|]. now apply Fl.
  - destruct (f_texts st) eqn:E; [congruence|]. split; [first [exact V|reflexivity]|]. split; [now rewrite E|]. split; [reflexivity|intros []].
  - split; [first [exact V|reflexivity]|]. split; [exact T|]. split; [reflexivity|intros []].
  - split; [first [exact V|reflexivity]|]. split; [exact T|]. split; [reflexivity|intros []].
  - split; [first [exact V|reflexivity]|]. split; [exact T|]. split; [reflexivity|intros []].
  - destruct Fl.
Qed.
Lemma defining_run l st : Forall flat l -> full st -> Forall solid l -> f_var st = VDefining -> f_texts st <> [] ->
  f_var (prun l st) = VDefining /\ f_texts (prun l st) <> [] /\ f_level (prun l st) = f_level st /\
  line_after (total (prun l st)) = line_after (total st).
Proof.
  intros H. revert st. induction H as [|p l Hp Hl IH]; intros st F S V T; [now repeat split|].
  inversion S; subst. destruct (defining_step p st Hp V T) as (V' & T' & L' & NL).
  destruct (IH (pstep p st)) as (A & B & C & D); try assumption; [now apply pstep_full|].
  cbn [prun fold_left]. unfold prun in *. repeat split; try assumption; [congruence|].
  rewrite D, pstep_total by assumption. now apply line_after_flat.
Qed.
(** The next token is on the same line. *)
Lemma same_line k t ps l st r : f_var st <> VNone -> f_texts st <> [] ->
  line_of (tk (PW (Lexeme k t :: ps) :: l) st ++ r) = line_after (total st).
Proof.
  intros V T. unfold tk. cbn [emits emit]. destruct (f_texts st); [congruence|].
  destruct (f_var st); [congruence| |]; cbn [app toks line_of tline piece_text]; rewrite line_after_app; cbn; lia.
Qed.
End Pieces.
