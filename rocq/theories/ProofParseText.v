(** Parsing a text: the scanner and the parser together. *)
From Coq Require Import String ZArith List Bool Lia.
From Verif Require Import Base Num ModelScan ModelParser SpecScan ProofScan SpecParser ProofParser.
Import ListNotations.
Local Open Scope list_scope.

Section Proofs.
Context {N : Num}.
Implicit Types ts r : list token.

(** ** Texts *)
Lemma tokens_position before ps t : In t (tokens_at before ps) ->
  exists a b, before ++ text_of ps = a ++ b /\ tline t = line_after a /\ tcol t = column_after a.
Proof.
  revert before. induction ps as [|p ps IH]; intros before H.
  - destruct H as [<-|[]]. exists before, []. cbn. now repeat split.
  - cbn [text_of map List.concat]. 
    assert (G : In t (tokens_at (before ++ piece_text p) ps) ->
      exists a b, before ++ text_of (p :: ps) = a ++ b /\ tline t = line_after a /\ tcol t = column_after a).
    { intros H'. destruct (IH _ H') as (a & b & E & L). exists a, b. split; [|exact L].
      rewrite <- E, <- app_assoc. reflexivity. }
    destruct p; try (now apply G).
    destruct H as [<-|H]; [|now apply G]. exists before, (text_of (Lexeme k text :: ps)). now repeat split.
Qed.
Lemma tokens_eof before ps : exists e, In e (tokens_at before ps) /\ tkind e = TEOF.
Proof.
  revert before. induction ps as [|p ps IH]; intros before.
  - eexists. split; [now left|reflexivity].
  - destruct p; cbn [tokens_at]; try apply IH. destruct (IH (before ++ text)) as (e & H & K). exists e. split; [now right|exact K].
Qed.

Theorem parse_total (input : list rune) :
  match parse input with
  | Parsed a => exists ts, scan input = Scanned ts /\ score_tree ts a
  | ParseError _ line col => exists a b, input = a ++ b /\ line = line_after a /\ col = column_after a
  | ParsePanic => exists ts, scan input = Scanned ts /\ empty_cram ts
  | ParseFuel => False
  end.
Proof.
  unfold parse. pose proof (scan_total input) as S. destruct (scan input) as [ts|m l c|]; [|exact S|exact S].
  destruct S as (ps & Et & _ & Ets).
  pose proof (parse_tokens_good ts) as G. destruct (parse_tokens ts) as [a r|m r|m|]; cbn in G.
  - exists ts. now split.
  - destruct G as (u & E & Hu). destruct r as [|t r].
    + exfalso. destruct (tokens_eof [] ps) as (e & He & K). rewrite <- Ets, E, app_nil_r in He.
      rewrite Forall_forall in Hu. now apply (Hu e He).
    + destruct (tokens_position [] ps t) as (a & b & E2 & L & C).
      { rewrite <- Ets, E. apply in_or_app. right. now left. }
      exists a, b. cbn [app] in E2. rewrite <- Et. now repeat split.
  - exists ts. now split.
  - exact G.
Qed.

Theorem parse_accepts input ts a : scan input = Scanned ts -> score_tree ts a -> parse input = Parsed a.
Proof. intros E H. unfold parse. rewrite E. destruct (parse_tokens_complete _ _ H) as (r & ->). reflexivity. Qed.

Theorem tree_unique ts a b : score_tree ts a -> score_tree ts b -> a = b.
Proof.
  intros Ha Hb. destruct (parse_tokens_complete _ _ Ha) as (r & E), (parse_tokens_complete _ _ Hb) as (r' & E').
  rewrite E in E'. now injection E' as ->.
Qed.

Theorem event_uses_a_token ts n r : event ts n r -> exists t u, ts = t :: u ++ r.
Proof. intros H. destruct (proj1 event_complete _ _ _ H) as [(t & u & E & _) _]. now exists t, u. Qed.
End Proofs.

(* ------------------------- the words of the grammar ------------------------- *)

Lemma words_part : forall {N : Num} (ts : list token), looks_like_part ts = true <->
  exists t u r, ts = t :: u :: r /\ tkind t = TName /\
    ((exists a, tkind u = TAlias a) \/ tkind u = TSeparator \/ tkind u = TColon).
Proof.
  intros N ts. unfold looks_like_part. split.
  - destruct ts as [|t [|u r]]; cbn [kind kind2]; try (destruct (tkind t); discriminate); try discriminate.
    intros H. exists t, u, r. split; [reflexivity|]. destruct (tkind t); try discriminate H.
    split; [reflexivity|]. destruct (tkind u); try discriminate H; eauto.
  - intros (t & u & r & -> & A & B). cbn [kind kind2]. rewrite A. destruct B as [[a ->]|[-> | ->]]; reflexivity.
Qed.
Lemma words_voice : forall {N : Num} (ts : list token), ends_voice ts = true <->
  ts = [] \/ looks_like_part ts = true \/ (exists t r, ts = t :: r /\
    (tkind t = TEOF \/ (exists n, tkind t = TVoice n) \/ tkind t = TSeqClose \/ tkind t = TCramClose)).
Proof.
  intros N ts. unfold ends_voice. split.
  - destruct ts as [|t r]; [left; reflexivity|]. intros H. right. cbn [kind] in H.
    destruct (tkind t) eqn:E; try (left; exact H); right; exists t, r; split; eauto.
  - intros [-> |[H|(t & r & -> & H)]]; [reflexivity| |].
    + destruct (kind ts); try reflexivity; exact H.
    + cbn [kind]. destruct H as [-> |[[n ->]|[-> | ->]]]; reflexivity.
Qed.
Lemma vocabulary : forall {N : Num},
  (forall ts : list token, looks_like_part ts = true <->
     exists t u r, ts = t :: u :: r /\ tkind t = TName /\
       ((exists a, tkind u = TAlias a) \/ tkind u = TSeparator \/ tkind u = TColon)) /\
  (forall ts : list token, ends_voice ts = true <->
     ts = [] \/ looks_like_part ts = true \/ (exists t r, ts = t :: r /\
       (tkind t = TEOF \/ (exists n, tkind t = TVoice n) \/ tkind t = TSeqClose \/ tkind t = TCramClose))) /\
  (forall n k, repeat_node n k = Node RepeatNode NoLit [n; Node TimesNode (LitInt k) []]) /\
  (forall den, length_node (TLength den 0) = Some (Node NoteLengthNode NoLit [Node DenominatorNode (LitNum den) []])) /\
  (forall den dots, (0 < dots)%Z -> length_node (TLength den dots) =
     Some (Node NoteLengthNode NoLit [Node DenominatorNode (LitNum den) []; Node DotsNode (LitInt dots) []])) /\
  (forall q, length_node (TMs q) = Some (Node NoteLengthMsNode (LitNum q) [])) /\
  (forall q, length_node (TSeconds q) = Some (Node NoteLengthSecondsNode (LitNum q) [])) /\
  (forall k n, length_node k = Some n -> (exists d m, k = TLength d m) \/ (exists q, k = TMs q) \/ (exists q, k = TSeconds q)) /\
  (forall k n, accidental_node k = Some n <->
     k = TFlat /\ n = Node FlatNode NoLit [] \/ k = TNatural /\ n = Node NaturalNode NoLit [] \/ k = TSharp /\ n = Node SharpNode NoLit []) /\
  (forall l d, note_node l [] d false =
     Node NoteNode NoLit (Node NoteLetterAndAccidentalsNode NoLit [Node NoteLetterNode (LitRune l) []] :: d)) /\
  (forall l a accs d, note_node l (a :: accs) d false =
     Node NoteNode NoLit (Node NoteLetterAndAccidentalsNode NoLit
       [Node NoteLetterNode (LitRune l) []; Node NoteAccidentalsNode NoLit (a :: accs)] :: d)) /\
  (forall l accs d, exists c, note_node l accs d false = Node NoteNode NoLit c /\
     note_node l accs d true = Node NoteNode NoLit (c ++ [Node TieNode NoLit []])) /\
  (barline = Node BarlineNode NoLit []) /\
  (forall n rs, on_repetitions n rs = Node OnRepetitionsNode NoLit [n; Node RepetitionsNode NoLit
     (map (fun r => Node RepetitionRangeNode NoLit
        [Node FirstRepetitionNode (LitInt (fst r)) []; Node LastRepetitionNode (LitInt (snd r)) []]) rs)]) /\
  (forall x es, var_def_node x es = Node VariableDefinitionNode NoLit
     [Node VariableNameNode (LitText x) []; Node EventSequenceNode NoLit es]) /\
  (forall es d, cram_node es d = Node CramNode NoLit (Node EventSequenceNode NoLit es :: d)) /\
  (forall n es, voice_node n es = Node VoiceNode NoLit [Node VoiceNumberNode (LitInt n) []; Node EventSequenceNode NoLit es]) /\
  (forall t, name_node t = Node PartNameNode (LitText (ttext t)) []).
Proof.
  intros N. split; [exact words_part|]. split; [exact words_voice|].
  split; [reflexivity|]. split; [reflexivity|].
  split; [intros den dots H; unfold length_node; apply Z.ltb_lt in H; rewrite H; reflexivity|].
  split; [reflexivity|]. split; [reflexivity|].
  split; [intros k n H; destruct k; try discriminate H; eauto|].
  split.
  { intros k n. split.
    - intros H. destruct k; try discriminate H; inversion H; auto.
    - intros [[-> ->]|[[-> ->]|[-> ->]]]; reflexivity. }
  split; [intros l d; unfold note_node, branch; rewrite app_nil_r; reflexivity|].
  split; [intros l a accs d; unfold note_node, branch; rewrite app_nil_r; reflexivity|].
  split; [intros l accs d; eexists; unfold note_node, branch; rewrite app_nil_r; split; reflexivity|].
  repeat split.
Qed.
