(** Proofs about printed trees. *)
From Coq Require Import String Ascii ZArith List Bool Lia.
From Verif Require Import Base Num ModelScan SpecScan ModelParser SpecParser ProofParseText ModelAst ModelFormat ModelShowTree SpecShowTree.
Import ListNotations.
Local Open Scope string_scope.
Local Open Scope list_scope.
Local Open Scope Z_scope.

(** ** Texts *)
Lemma itoa_loop_digits fuel n : 0 <= n -> Forall (fun r => 48 <= r <= 57) (itoa_loop fuel n).
Proof.
  revert n. induction fuel as [|f IH]; intros n H; [constructor|]. cbn [itoa_loop]. destruct (Z.ltb_spec n 10) as [L|L].
  - constructor; [lia|constructor].
  - apply Forall_app. split; [apply IH; apply Z.div_pos; lia|]. constructor; [|constructor]. pose proof (Z.mod_pos_bound n 10). lia.
Qed.
Lemma itoa_chars n : Forall (fun r => 45 <= r <= 57) (itoa n).
Proof.
  unfold itoa. destruct (Z.ltb_spec n 0) as [L|L].
  - constructor; [vm_compute; split; discriminate|]. eapply Forall_impl; [|apply itoa_loop_digits; lia]. cbn. intros; lia.
  - eapply Forall_impl; [|apply itoa_loop_digits; lia]. cbn. intros; lia.
Qed.
Lemma split_at (P : rune -> Prop) (c : rune) : ~ P c -> forall a b x y, Forall P a -> Forall P b -> a ++ c :: x = b ++ c :: y -> a = b /\ x = y.
Proof.
  intros H. induction a as [|r a IH]; intros [|s b] x y Fa Fb E; cbn in E; inversion E; subst.
  - auto.
  - inversion Fb; contradiction.
  - inversion Fa; contradiction.
  - inversion Fa; inversion Fb; subst. destruct (IH b x y) as [-> ->]; auto.
Qed.

Definition a_letter (r : rune) : Prop := 65 <= r <= 122.
Definition all_types : list ntype := [AtMarkerNode; BarlineNode; ChordNode; CramNode; DenominatorNode; DotsNode; DurationNode; EventSequenceNode; FirstRepetitionNode; FlatNode; ImplicitPartNode; LastRepetitionNode; LispListNode; LispNumberNode; LispQuotedFormNode; LispStringNode; LispSymbolNode; MarkerNode; NaturalNode; NoteAccidentalsNode; NoteLengthMsNode; NoteLengthNode; NoteLengthSecondsNode; NoteLetterAndAccidentalsNode; NoteLetterNode; NoteNode; OctaveDownNode; OctaveSetNode; OctaveUpNode; OnRepetitionsNode; PartAliasNode; PartDeclarationNode; PartNameNode; PartNamesNode; PartNode; RepeatNode; RepetitionRangeNode; RepetitionsNode; RestNode; RootNode; SharpNode; TieNode; TimesNode; VariableDefinitionNode; VariableNameNode; VariableReferenceNode; VoiceNode; VoiceGroupEndMarkerNode; VoiceGroupNode; VoiceNumberNode].
Definition type_of (s : list rune) : option ntype := find (fun t => if list_eq_dec Z.eq_dec (type_name t) s then true else false) all_types.
Lemma type_of_name t : type_of (type_name t) = Some t.
Proof. destruct t; vm_compute; reflexivity. Qed.
Lemma type_name_inj t t' : type_name t = type_name t' -> t = t'.
Proof. intros E. pose proof (type_of_name t) as A. rewrite E, type_of_name in A. congruence. Qed.
Definition letters_b (s : list rune) : bool := forallb (fun r => (65 <=? r) && (r <=? 122)) s && match s with [] => false | _ => true end.
Lemma type_name_letters t : Forall a_letter (type_name t) /\ type_name t <> [].
Proof.
  assert (H : letters_b (type_name t) = true) by (destruct t; vm_compute; reflexivity). unfold letters_b in H. apply andb_true_iff in H as [A B].
  split; [|intros E; now rewrite E in B]. apply Forall_forall. intros r Hr. rewrite forallb_forall in A. specialize (A r Hr). apply andb_true_iff in A as [A C]. apply Z.leb_le in A, C. now split.
Qed.

Lemma letters_end a b x y : Forall a_letter a -> Forall a_letter b -> (x = [] \/ ~ a_letter (hd 0 x)) -> (y = [] \/ ~ a_letter (hd 0 y)) ->
  a ++ x = b ++ y -> a = b /\ x = y.
Proof.
  revert b. induction a as [|r a IH]; intros [|s b] Fa Fb Hx Hy E; cbn in E.
  - auto.
  - subst x. inversion Fb; subst. destruct Hx as [D|D]; [discriminate|now elim D].
  - subst y. inversion Fa; subst. destruct Hy as [D|D]; [discriminate|now elim D].
  - inversion E; subst. inversion Fa; inversion Fb; subst. destruct (IH b) as [-> ->]; auto.
Qed.
Lemma spaces_end m n (x y : list rune) : hd 0 x <> space -> hd 0 y <> space -> repeat space m ++ x = repeat space n ++ y -> m = n /\ x = y.
Proof.
  revert n. induction m as [|m IH]; intros [|n] Hx Hy E; cbn in E.
  - auto.
  - subst x. now elim Hx.
  - subst y. now elim Hy.
  - inversion E. destruct (IH n Hx Hy H0) as [-> ->]. auto.
Qed.

Section Show.
Context {N : Num}.
Variable show : literal -> list rune.

Lemma tail_start p l : place_text p ++ literal_text show l = [] \/ ~ a_letter (hd 0 (place_text p ++ literal_text show l)).
Proof.
  destruct p as [[x y]|]; [right; cbn; intros [A _]; lia|]. destruct l; [left; reflexivity|right; cbn; intros [A _]; lia ..].
Qed.
Lemma tail_inj p p' l l' : place_text p ++ literal_text show l = place_text p' ++ literal_text show l' -> literal_text show l = literal_text show l'.
Proof.
  destruct p as [[x y]|], p' as [[x' y']|]; cbn [place_text app]; intros E.
  - assert (X : forall a b (t : list rune), (runes " [" ++ itoa a ++ runes ":" ++ itoa b ++ runes "]") ++ t = 32 :: 91 :: (itoa a ++ 58 :: itoa b) ++ 93 :: t).
    { intros a b t. rewrite <- !app_assoc. reflexivity. }
    rewrite !X in E. injection E as E. 
    assert (F : forall a b, Forall (fun r => 45 <= r <= 58) (itoa a ++ 58 :: itoa b)).
    { intros a b. apply Forall_app. split; [|constructor; [lia|]]; (eapply Forall_impl; [|apply itoa_chars]; cbn; intros; lia). }
    apply (split_at (fun r => 45 <= r <= 58) 93) in E; [apply E|lia|apply F|apply F].
  - destruct l'; cbn in E; discriminate.
  - destruct l; cbn in E; discriminate.
  - exact E.
Qed.
Lemma row_text_inj p p' d d' t t' l l' : row_text show p (d, t, l) = row_text show p' (d', t', l') ->
  d = d' /\ t = t' /\ literal_text show l = literal_text show l'.
Proof.
  cbn [row_text]. intros E.
  assert (H : forall t x, hd 0 (type_name t ++ x) <> space).
  { intros u x. destruct (type_name_letters u) as [A B]. destruct (type_name u) as [|r s]; [now elim B|]. inversion A as [|? ? A1 A2]; subst. cbn. intros ->. destruct A1. unfold space in *. lia. }
  apply spaces_end in E; [|apply H|apply H]. destruct E as [E1 E2].
  apply letters_end in E2; [|apply type_name_letters|apply type_name_letters|apply tail_start|apply tail_start]. destruct E2 as [E2 E3].
  split; [lia|]. split; [now apply type_name_inj|]. eapply tail_inj. exact E3.
Qed.

Lemma join_inj : forall a b, Forall (fun l => ~ In newline l) a -> Forall (fun l => ~ In newline l) b -> a <> [] -> b <> [] ->
  join_lines a = join_lines b -> a = b.
Proof.
  assert (NL : forall (l : list rune), ~ In newline l -> Forall (fun r => r <> newline) l).
  { intros l H. apply Forall_forall. intros r Hr ->. contradiction. }
  induction a as [|l a IH]; intros [|m b] Fa Fb Na Nb E; try (now elim Na); try (now elim Nb). inversion Fa as [|? ? F1 F2]; inversion Fb as [|? ? G1 G2]; subst.
  destruct a as [|l2 a], b as [|m2 b].
  - cbn in E. congruence.
  - exfalso. change (l = m ++ newline :: join_lines (m2 :: b)) in E. apply F1. rewrite E. apply in_or_app. right. left. reflexivity.
  - exfalso. change (l ++ newline :: join_lines (l2 :: a) = m) in E. apply G1. rewrite <- E. apply in_or_app. right. left. reflexivity.
  - change (l ++ newline :: join_lines (l2 :: a) = m ++ newline :: join_lines (m2 :: b)) in E.
    apply (split_at (fun r => r <> newline) newline) in E; [|now intros H; apply H|now apply NL|now apply NL]. destruct E as [-> E].
    f_equal. apply IH; auto; discriminate.
Qed.

Lemma row_no_newline p d t l : (forall x, x = l -> ~ In newline (show x)) -> ~ In newline (row_text show p (d, t, l)).
Proof.
  intros H I. cbn [row_text] in I. apply in_app_or in I as [I|I]; [apply repeat_spec in I; discriminate|]. apply in_app_or in I as [I|I].
  { destruct (type_name_letters t) as [A _]. rewrite Forall_forall in A. destruct (A _ I) as [B _]. unfold newline in B. lia. }
  assert (Q : forall n, ~ In newline (itoa n)).
  { intros n Hn. pose proof (itoa_chars n) as A. rewrite Forall_forall in A. specialize (A _ Hn). cbn in A. unfold newline in A. lia. }
  apply in_app_or in I as [I|I].
  - destruct p as [[x y]|]; [|contradiction I]. cbn [place_text] in I. repeat (apply in_app_or in I as [I|I]; try (now apply Q in I)); cbn in I; unfold newline, rn in I; cbn in I; intuition discriminate.
  - destruct l; [contradiction I|..]; (cbn [literal_text] in I; apply in_app_or in I as [I|I]; [cbn in I; unfold newline, rn in I; cbn in I; intuition discriminate|now apply (H _ eq_refl) in I]).
Qed.

(** ** Trees *)
Definition plain_row (r : nat * ntype * literal) : literal := snd r.
Definition node_ind' (P : node -> Prop) (H : forall t l ch, Forall P ch -> P (Node t l ch)) : forall n, P n :=
  fix go n := match n with
    | Node t l ch => H t l ch ((fix all l := match l return Forall P l with [] => Forall_nil P | c :: r => Forall_cons c (go c) (all r) end) ch)
    end.
Lemma rows_literals n : forall d, map plain_row (rows d n) = literals n.
Proof.
  induction n as [t l ch IH] using node_ind'. intros d. cbn [rows literals map plain_row snd]. f_equal. induction IH as [|c ch Hc _ IH]; [reflexivity|].
  cbn [flat_map]. rewrite map_app, Hc, IH. reflexivity.
Qed.
Definition low (d : nat) (r : list (nat * ntype * literal)) : Prop := match r with [] => True | (k, _, _) :: _ => (k <= d)%nat end.
Lemma rows_head d n : exists t l r, rows d n = (d, t, l) :: r.
Proof. destruct n as [t l ch]. cbn [rows]. eauto. Qed.
Lemma rows_inj n : forall m d r s, low d r -> low d s -> rows d n ++ r = rows d m ++ s -> n = m /\ r = s.
Proof.
  induction n as [t l ch IH] using node_ind'. intros [t' l' ch'] d r s Lr Ls E. cbn [rows app] in E. injection E as <- <- E.
  assert (X : forall ch', flat_map (rows (S d)) ch ++ r = flat_map (rows (S d)) ch' ++ s -> ch = ch' /\ r = s).
  { clear E ch'. induction IH as [|c ch Hc _ IHc]; intros [|c' ch'] E; cbn [flat_map app] in E.
    - auto.
    - exfalso. destruct (rows_head (S d) c') as (a & b & q & H). rewrite H in E. cbn in E. subst r. cbn in Lr. lia.
    - exfalso. destruct (rows_head (S d) c) as (a & b & q & H). rewrite H in E. cbn in E. subst s. cbn in Ls. lia.
    - rewrite <- !app_assoc in E.
      assert (L : forall ch q, low d q -> low (S d) (flat_map (rows (S d)) ch ++ q)).
      { intros [|x xs] q Hq; cbn [flat_map app]; [destruct q as [|[[k ?] ?] ?]; cbn in *; [exact I|lia]|]. destruct (rows_head (S d) x) as (a & b & z & H). rewrite H. cbn. lia. }
      apply Hc in E; [|now apply L|now apply L]. destruct E as [-> E]. apply IHc in E. destruct E as [-> ->]. auto. }
  apply X in E. destruct E as [-> ->]. auto.
Qed.

(** ** The literals of parsed trees *)
Definition has_kind (t : ntype) (l : literal) : bool :=
  match t, l with
  | (OctaveSetNode | DotsNode | FirstRepetitionNode | LastRepetitionNode | TimesNode | VoiceNumberNode), LitInt _ => true
  | (DenominatorNode | NoteLengthMsNode | NoteLengthSecondsNode | LispNumberNode), LitNum _ => true
  | (AtMarkerNode | LispStringNode | LispSymbolNode | MarkerNode | PartAliasNode | PartNameNode | VariableNameNode | VariableReferenceNode), LitText _ => true
  | NoteLetterNode, LitRune _ => true
  | (OctaveSetNode | DotsNode | FirstRepetitionNode | LastRepetitionNode | TimesNode | VoiceNumberNode
     | DenominatorNode | NoteLengthMsNode | NoteLengthSecondsNode | LispNumberNode
     | AtMarkerNode | LispStringNode | LispSymbolNode | MarkerNode | PartAliasNode | PartNameNode | VariableNameNode | VariableReferenceNode | NoteLetterNode), _ => false
  | _, NoLit => true
  | _, _ => false
  end.
Fixpoint kinds (n : node) : bool := match n with Node t l ch => has_kind t l && forallb kinds ch end.
Lemma has_kind_same t l l' : has_kind t l = true -> has_kind t l' = true -> (l = NoLit /\ l' = NoLit) \/ same_kind l l'.
Proof. destruct t, l; cbn; try discriminate; destruct l'; cbn; try discriminate; auto. Qed.
Lemma rows_kinds n : forall d, kinds n = true -> Forall (fun r => has_kind (snd (fst r)) (snd r) = true) (rows d n).
Proof.
  induction n as [t l ch IH] using node_ind'. intros d H. cbn [kinds] in H. apply andb_true_iff in H as [A B]. cbn [rows]. constructor; [exact A|].
  induction IH as [|c ch Hc _ IH]; [constructor|]. cbn [forallb] in B. apply andb_true_iff in B as [B C]. cbn [flat_map]. apply Forall_app. auto.
Qed.

Lemma show_inj a b places places' : kinds a = true -> kinds b = true -> told_apart show a b ->
  human_readable show places a = human_readable show places' b -> a = b.
Proof.
  intros Ka Kb [T1 T2] E. unfold human_readable in E.
  assert (NN : forall pl rs i, (forall x, In x (map plain_row rs) -> ~ In newline (show x)) -> Forall (fun l => ~ In newline l) (row_texts show pl i rs)).
  { intros pl. induction rs as [|[[d t] l] rs IH]; intros i H; cbn [row_texts]; constructor.
    - apply row_no_newline. intros x ->. apply H. left. reflexivity.
    - apply IH. intros x Hx. apply H. right. exact Hx. }
  apply join_inj in E; [|apply NN; rewrite rows_literals; auto|apply NN; rewrite rows_literals; auto|destruct a; discriminate|destruct b; discriminate].
  assert (X : rows 0 a = rows 0 b).
  { pose proof (rows_kinds a 0 Ka) as Fa. pose proof (rows_kinds b 0 Kb) as Fb.
    assert (T3 : forall x y, In x (map plain_row (rows 0 a)) -> In y (map plain_row (rows 0 b)) -> same_kind x y -> show x = show y -> x = y) by (rewrite !rows_literals; exact T2).
    clear Ka Kb T1 T2 NN. revert E Fa Fb T3. generalize 0%nat at 1 3. intros i. revert i. generalize (rows 0 a) as r, (rows 0 b) as s.
    induction r as [|[[d t] l] r IH]; intros [|[[d' t'] l'] s] i E Fa Fb T3; cbn [row_texts] in E; try discriminate; [reflexivity|].
    injection E as E1 E2. apply row_text_inj in E1. destruct E1 as (<- & <- & E1). inversion Fa as [|? ? A1 A2]; inversion Fb as [|? ? B1 B2]; subst. cbn [fst snd] in A1, B1.
    assert (l = l').
    { destruct (has_kind_same t l l' A1 B1) as [[-> ->]|S]; [reflexivity|]. apply T3; [left; reflexivity|left; reflexivity|exact S|].
      destruct l, l'; try contradiction S; cbn [literal_text] in E1; now apply app_inv_head in E1. }
    subst l'. f_equal. apply (IH s (S i) E2 A2 B2). intros x y Hx Hy. apply T3; right; assumption. }
  pose proof (rows_inj a b 0%nat [] [] I I) as Y. rewrite !app_nil_r in Y. now apply Y.
Qed.
End Show.

(** ** Parsed trees *)
Section Parsed.
Context {N : Num}.
Notation all_kinds := (forallb kinds).
Lemma all_app a b : all_kinds a = true -> all_kinds b = true -> all_kinds (a ++ b) = true.
Proof. intros A B. rewrite forallb_app, A, B. reflexivity. Qed.
Lemma branch_kinds t ns : has_kind t (N := N) NoLit = true -> all_kinds ns = true -> kinds (branch t ns) = true.
Proof. intros A B. unfold branch. cbn [kinds]. now rewrite A, B. Qed.
Lemma form_kinds : (forall ts n r, form ts n r -> kinds n = true) /\ (forall ts ns r, forms ts ns r -> all_kinds ns = true).
Proof.
  apply form_forms_ind; intros; try reflexivity.
  - now apply branch_kinds.
  - cbn [forallb]. now rewrite H0, H2.
  - cbn [forallb]. rewrite branch_kinds; [exact H3|reflexivity|]. cbn [forallb]. now rewrite H1.
Qed.
Lemma length_kinds k c : length_node k = Some c -> kinds c = true.
Proof. destruct k; cbn; try discriminate; intros [= <-]; try reflexivity. cbn. now destruct (0 <? dots). Qed.
Lemma acc_kinds k c : accidental_node k = Some c -> kinds c = true.
Proof. destruct k; cbn; try discriminate; intros [= <-]; reflexivity. Qed.
Lemma tied_kinds ts ns r : tied_length ts ns r -> all_kinds ns = true.
Proof.
  intros H. inversion H as [t bs us l c r' _ _ _ L]; subst. apply all_app.
  - clear. induction bs as [|b bs IH]; [reflexivity|exact IH].
  - cbn [forallb]. now rewrite (length_kinds _ _ L).
Qed.
Lemma rest_kinds ts ns r : duration_rest ts ns r -> all_kinds ns = true.
Proof. induction 1; [reflexivity|exact IHduration_rest|]. apply all_app; [eapply tied_kinds; eassumption|assumption]. Qed.
Lemma dur_kinds ts ns r : duration_at ts ns r -> all_kinds ns = true.
Proof.
  intros H. inversion H as [|t ts' c ns' r' L D]; subst; [reflexivity|]. cbn [forallb]. rewrite branch_kinds; [reflexivity|reflexivity|]. cbn [forallb].
  now rewrite (length_kinds _ _ L), (rest_kinds _ _ _ D).
Qed.
Lemma accs_kinds ts ns r : accs ts ns r -> all_kinds ns = true.
Proof. induction 1 as [|t ts a ns r A _ IH]; [reflexivity|]. cbn [forallb]. now rewrite (acc_kinds _ _ A), IH. Qed.
Lemma note_node_kinds l as_ d s : all_kinds as_ = true -> all_kinds d = true -> kinds (note_node l as_ d s) = true.
Proof.
  intros A D. unfold note_node. apply branch_kinds; [reflexivity|]. cbn [forallb]. rewrite branch_kinds; [|reflexivity|].
  - cbn [andb]. apply all_app; [exact D|]. now destruct s.
  - cbn [forallb]. destruct as_; [reflexivity|]. cbn [forallb]. rewrite branch_kinds; [reflexivity|reflexivity|exact A].
Qed.
Lemma nr_kinds ts n r : note_or_rest_at ts n r -> kinds n = true.
Proof. destruct 1; [apply note_node_kinds; eauto using accs_kinds, dur_kinds..|]. apply branch_kinds; [reflexivity|]. eauto using dur_kinds. Qed.
Lemma between_kinds ts ns r : between_notes ts ns r -> all_kinds ns = true.
Proof. induction 1; try reflexivity; try exact IHbetween_notes. cbn [forallb]. now rewrite (proj1 form_kinds _ _ _ H0), IHbetween_notes. Qed.
Lemma notes_kinds ts ns k r : notes_at ts ns k r -> all_kinds ns = true.
Proof.
  induction 1 as [ts n r H _ _|ts n t k r H _|ts n r b s r1 a r2 ns k r3 H B _ A _ IH]; cbn [forallb]; rewrite (nr_kinds _ _ _ H); try reflexivity.
  cbn [andb]. apply all_app; [eauto using between_kinds|]. apply all_app; [eauto using between_kinds|exact IH].
Qed.
Lemma repeat_kinds n k : kinds n = true -> kinds (repeat_node n k) = true.
Proof. intros H. unfold repeat_node. apply branch_kinds; [reflexivity|]. cbn [forallb]. now rewrite H. Qed.
Lemma repeated_kinds n r n' r' : repeated n r n' r' -> kinds n = true -> kinds n' = true.
Proof. destruct 1; auto using repeat_kinds. Qed.
Lemma voice_kinds n es : all_kinds es = true -> kinds (voice_node n es) = true.
Proof. intros H. unfold voice_node. apply branch_kinds; [reflexivity|]. cbn [forallb]. now rewrite (branch_kinds EventSequenceNode es eq_refl H). Qed.
Lemma on_reps_kinds n rs : kinds n = true -> kinds (on_repetitions n rs) = true.
Proof.
  intros H. unfold on_repetitions. apply branch_kinds; [reflexivity|]. cbn [forallb]. rewrite H, branch_kinds; [reflexivity|reflexivity|].
  induction rs as [|[a b] rs IH]; [reflexivity|exact IH].
Qed.
Lemma cons_kinds n ns : kinds n = true -> all_kinds ns = true -> all_kinds (n :: ns) = true.
Proof. intros A B. cbn [forallb]. now rewrite A, B. Qed.
Lemma event_kinds :
  (forall ts n r, event ts n r -> kinds n = true) /\ (forall k ts ns r, on_line k ts ns r -> all_kinds ns = true) /\
  (forall ts ns r, seq_body ts ns r -> all_kinds ns = true) /\ (forall ts ns r, cram_body ts ns r -> all_kinds ns = true) /\
  (forall ts ns r, voice_body ts ns r -> all_kinds ns = true) /\ (forall k ts ns r, voices_at k ts ns r -> all_kinds ns = true).
Proof.
  apply event_mutind; intros; try reflexivity; try (apply cons_kinds; auto using on_reps_kinds, voice_kinds; fail).
  - eapply repeated_kinds; [eassumption|]. now apply (proj1 form_kinds) in H0.
  - unfold var_def_node. apply branch_kinds; [reflexivity|]. cbn [forallb]. now rewrite (branch_kinds EventSequenceNode es eq_refl H4).
  - eapply repeated_kinds; [eassumption|reflexivity].
  - apply notes_kinds in H. unfold maybe_times. assert (X : kinds (one_or_chord ns) = true).
    { destruct ns as [|n [|m ns]]; [reflexivity| |now apply branch_kinds]. cbn [one_or_chord]. cbn [forallb] in H. now rewrite andb_true_r in H. }
    destruct (0 <? k); auto using repeat_kinds.
  - eapply repeated_kinds; [eassumption|]. now apply branch_kinds.
  - eapply repeated_kinds; [eassumption|]. unfold cram_node. apply branch_kinds; [reflexivity|]. apply cons_kinds; [now apply branch_kinds|eauto using dur_kinds].
  - now apply branch_kinds.
Qed.
Lemma part_body_kinds ts ns r : part_body ts ns r -> all_kinds ns = true.
Proof. induction 1; [reflexivity|]. apply cons_kinds; [eapply (proj1 event_kinds); eassumption|assumption]. Qed.
Lemma names_kinds ts ns r : names_at ts ns r -> all_kinds ns = true.
Proof. induction 1; [reflexivity|]. now apply cons_kinds. Qed.
Lemma declaration_kinds ts n r : declaration ts n r -> kinds n = true.
Proof. destruct 1 as [t ts ns c r _ H _|t ts ns a s c r _ H _ _]; apply names_kinds in H; cbn; unfold branch; cbn; now rewrite H. Qed.
Lemma parts_kinds ts ns r : parts_at ts ns r -> all_kinds ns = true.
Proof.
  induction 1 as [|ts d r es r' ns r'' _ D B _ IH|ts es r ns r' _ _ B _ IH]; [reflexivity|..]; apply cons_kinds; try exact IH.
  - apply branch_kinds; [reflexivity|]. apply cons_kinds; [eauto using declaration_kinds|]. apply cons_kinds; [|reflexivity]. apply branch_kinds; [reflexivity|eauto using part_body_kinds].
  - apply branch_kinds; [reflexivity|]. apply cons_kinds; [|reflexivity]. apply branch_kinds; [reflexivity|eauto using part_body_kinds].
Qed.
Lemma parsed_kinds input a : parse input = Parsed a -> kinds a = true.
Proof.
  intros P. pose proof (parse_total input) as T. rewrite P in T. destruct T as (ts & _ & ns & r & H & ->). apply branch_kinds; [reflexivity|eauto using parts_kinds].
Qed.

Theorem c71_tree show input input' a b places places' : parse input = Parsed a -> parse input' = Parsed b -> told_apart show a b ->
  human_readable show places a = human_readable show places' b -> a = b /\ compile input = compile input'.
Proof.
  intros P Q T E. assert (X : a = b) by (eapply show_inj; eauto using parsed_kinds). split; [exact X|]. unfold compile. now rewrite P, Q, X.
Qed.

Lemma json_inj {A : Type} (show : literal -> A) places places' a : forall b path path', kinds a = true -> kinds b = true -> distinct show a b ->
  tree_json show places path a = tree_json show places' path' b -> a = b.
Proof.
  induction a as [t l ch IH] using node_ind'. intros [t' l' ch'] path path' Ka Kb D E. cbn [kinds] in Ka, Kb. apply andb_true_iff in Ka as [Ka Kc], Kb as [Kb Kd].
  cbn [tree_json] in E. injection E as E1 E2. apply type_name_inj in E1. subst t'.
  set (F := (fix go (i : nat) (cs : list node) : list (json A) := match cs with [] => [] | c :: r => tree_json show places (i :: path) c :: go (S i) r end)) in E2.
  set (F' := (fix go (i : nat) (cs : list node) : list (json A) := match cs with [] => [] | c :: r => tree_json show places' (i :: path') c :: go (S i) r end)) in E2.
  assert (C : forall i j, all_kinds ch' = true -> (forall x y, In x (flat_map literals ch) -> In y (flat_map literals ch') -> same_kind x y -> show x = show y -> x = y) -> F i ch = F' j ch' -> ch = ch').
  { clear E2 D Kd. revert ch'. induction IH as [|c ch Hc _ IHc]; intros [|c' ch'] i j Kd D E; cbn in E; try discriminate; [reflexivity|]. injection E as E3 E4. cbn [forallb] in Kc, Kd.
    apply andb_true_iff in Kc as [Kc Ke], Kd as [Kd Kf]. f_equal.
    - apply (Hc c' (i :: path) (j :: path') Kc Kd); [|exact E3]. intros x y Hx Hy. apply D; cbn [flat_map]; apply in_or_app; left; assumption.
    - apply (IHc Ke ch' (S i) (S j) Kf); [|exact E4]. intros x y Hx Hy. apply D; cbn [flat_map]; apply in_or_app; right; assumption. }
  assert (L : forall q q', match l with NoLit => [] | _ => [("literal", JLiteral (show l))] end ++ match q with None => [] | Some (line, column) => [("source-context", JObject [("line", JInt line); ("column", JInt column)])] end =
    match l' with NoLit => [] | _ => [("literal", JLiteral (show l'))] end ++ match q' with None => [] | Some (line, column) => [("source-context", JObject [("line", JInt line); ("column", JInt column)])] end -> l = l').
  { intros q q' H. destruct (has_kind_same t l l' Ka Kb) as [[-> ->]|S]; [reflexivity|]. apply D; [left; reflexivity|left; reflexivity|exact S|].
    destruct l, l'; try contradiction S; cbn [app] in H; congruence. }
  assert (D' : forall x y, In x (flat_map literals ch) -> In y (flat_map literals ch') -> same_kind x y -> show x = show y -> x = y).
  { intros x y Hx Hy. apply D; right; assumption. }
  destruct ch as [|c ch], ch' as [|c' ch'].
  - cbn [app] in E2. f_equal. eapply L. exact E2.
  - exfalso. destruct l; cbn [app] in E2; [destruct (places path) as [[? ?]|]|..]; discriminate.
  - exfalso. destruct l'; cbn [app] in E2; [destruct (places' path') as [[? ?]|]|..]; discriminate.
  - cbn [app] in E2. injection E2 as E2 E3 E4. f_equal; [eapply L; exact E4|]. apply (C 0%nat 0%nat Kd D'). change (tree_json show places (0%nat :: path) c :: F 1%nat ch = tree_json show places' (0%nat :: path') c' :: F' 1%nat ch'). now rewrite E2, E3.
Qed.
Theorem c71_json {A : Type} (show : literal -> A) input input' a b places places' : parse input = Parsed a -> parse input' = Parsed b -> distinct show a b ->
  tree_json show places [] a = tree_json show places' [] b -> a = b /\ compile input = compile input'.
Proof.
  intros P Q T E. assert (X : a = b) by (eapply json_inj; eauto using parsed_kinds). split; [exact X|]. unfold compile. now rewrite P, Q, X.
Qed.
End Parsed.
