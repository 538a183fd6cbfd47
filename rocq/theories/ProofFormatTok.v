(** Facts about scanned tokens, and small facts for the formatter's proof. *)
From Coq Require Import String Ascii ZArith List Bool Lia.
From Verif Require Import Base Num ModelScan SpecScan ProofScan ModelParser SpecParser ProofParser ProofParseText
  ModelFormat SpecFormat ProofFormat.
Import ListNotations.
Local Open Scope list_scope.
Local Open Scope Z_scope.

(** ** Printed integers read back *)
Lemma dval_snoc l d : dval (l ++ [48 + d]) = 10 * dval l + d.
Proof. unfold dval. rewrite fold_left_app. cbn [fold_left]. unfold rune in *. lia. Qed.
Lemma itoa_loop_spec fuel n : 0 <= n -> (Z.to_nat (Z.log2 n) < fuel)%nat ->
  digits (itoa_loop fuel n) /\ itoa_loop fuel n <> [] /\ dval (itoa_loop fuel n) = n.
Proof.
  revert n. induction fuel as [|f IH]; intros n Hn Hf; [lia|]. cbn [itoa_loop]. destruct (n <? 10) eqn:E.
  - apply Z.ltb_lt in E. split; [|split; [discriminate|]].
    + constructor; [unfold rune in *; lia|constructor].
    + change (dval ([] ++ [48 + n]) = n). rewrite dval_snoc. reflexivity.
  - apply Z.ltb_ge in E. pose proof (Z.mod_pos_bound n 10 ltac:(lia)) as M.
    assert (D : 0 < n / 10) by (apply Z.div_str_pos; lia).
    destruct (IH (n / 10)) as (A & B & C); [lia| |].
    + assert (L : Z.log2 (n / 10) < Z.log2 n).
      { apply Z.log2_lt_pow2; [lia|]. pose proof (Z.log2_spec n ltac:(lia)) as [P1 P2].
        rewrite Z.pow_succ_r in P2 by apply Z.log2_nonneg.
        apply Z.div_lt_upper_bound; [lia|]. pose proof (Z.pow_pos_nonneg 2 (Z.log2 n) ltac:(lia) (Z.log2_nonneg n)). lia. }
      pose proof (Z.log2_nonneg (n / 10)). lia.
    + split; [|split].
      * apply Forall_app. split; [exact A|]. constructor; [unfold rune in *; lia|constructor].
      * intros X. symmetry in X. exact (app_cons_not_nil _ _ _ X).
      * rewrite dval_snoc, C. pose proof (Z.div_mod n 10 ltac:(lia)). lia.
Qed.
Lemma itoa_spec k : 0 <= k <= max_int32 -> digits (itoa k) /\ itoa k <> [] /\ int32_of (itoa k) = k.
Proof.
  intros H. unfold itoa. destruct (k <? 0) eqn:E; [apply Z.ltb_lt in E; lia|].
  destruct (itoa_loop_spec (S (Z.to_nat (Z.log2 k))) k) as (A & B & C); [lia|lia|].
  split; [exact A|]. split; [exact B|]. unfold int32_of. rewrite C. lia.
Qed.
Lemma int32_range ds : digits ds -> 0 <= int32_of ds <= max_int32.
Proof.
  intros H. unfold int32_of. assert (0 <= dval ds); [|unfold max_int32; lia].
  unfold dval. assert (G : forall a, 0 <= a -> 0 <= fold_left (fun acc r => 10 * acc + (r - 48)) ds a).
  { induction H as [|d l Hd Hl IH]; intros a Ha; [exact Ha|]. cbn [fold_left]. apply IH. unfold rune in *. lia. }
  apply G. lia.
Qed.

(** ** What is known of scanned tokens *)
Section Tokens.
Context {N : Num}.

Definition symbol_text (t : list rune) : Prop :=
  exists c s, t = c :: s /\ atom_char c = true /\ digit c = false /\ ~ In c (runes "-'#") /\ Forall (fun r => atom_char r = true) s.
Definition name_text (t : list rune) : Prop :=
  exists c c' s, t = c :: c' :: s /\ letter c /\ letter c' /\ Forall (fun r => word_char r = true) s.
Definition small (k : Z) : Prop := 0 <= k <= max_int32.
Definition valid (t : token) : Prop :=
  match tkind t with
  | TSymbol => symbol_text (ttext t)
  | TString s => ~ In quote_mark s /\ ttext t = quote_mark :: s ++ [quote_mark]
  | TName => name_text (ttext t)
  | TMarker s | TAtMarker s => s <> [] /\ Forall (fun r => word_char r = true) s
  | TAlias s => Forall (fun r => word_char r = true) s
  | TNote c => 97 <= c <= 103
  | TOctSet k | TRepeat k | TVoice k => small k
  | TReps rs => rs <> [] /\ Forall (fun ab => small (fst ab) /\ small (snd ab)) rs
  | TLength _ dots => dots <= max_int32
  | _ => True
  end.

Lemma range_small ab t b : SpecScan.range_text ab t b -> small (fst ab) /\ small (snd ab).
Proof. destruct 1; cbn; split; now apply int32_range. Qed.
Lemma ranges_small rs t b : SpecScan.ranges_text rs t b -> rs <> [] /\ Forall (fun ab => small (fst ab) /\ small (snd ab)) rs.
Proof.
  induction 1 as [ab t b H|ab t b rs ts b' H H' [_ IH]]; (split; [discriminate|]); constructor; eauto using range_small.
Qed.
Lemma wrap32_max z : wrap32 z <= max_int32.
Proof. unfold wrap32, max_int32. pose proof (Z.mod_pos_bound (z + 2147483648) 4294967296 ltac:(lia)). lia. Qed.
Lemma lexeme_valid m k t rest line col : lexeme m k t rest -> valid (Token k t line col).
Proof.
  intros H. destruct H as [| | | | | |c s rest A D I0 F S|c k rest H| | | |rs t b rest H| | | | |c c' s rest L L' F S| | | |];
    cbn [valid tkind ttext]; try exact I; auto using int32_range, wrap32_max.
  - exists c, s. auto.
  - destruct H; exact I.
  - eapply ranges_small, H.
  - now apply int32_range.
  - exists c, c', s. auto.
  - now apply int32_range.
  - now apply int32_range.
Qed.

(** Lines never go back, and go on after a text with line ends. *)
Fixpoint lined (ts : list token) : Prop :=
  match ts with
  | t :: ((u :: _) as ts') => tline t + Z.of_nat (List.length (filter (Z.eqb newline) (ttext t))) <= tline u /\ lined ts'
  | _ => True
  end.
Lemma tokens_at_first b ps : exists t ts, tokens_at b ps = t :: ts /\ line_after b <= tline t.
Proof.
  revert b. induction ps as [|p ps IH]; intros b; [eexists _, _; split; [reflexivity|cbn; lia]|].
  destruct p; cbn [tokens_at]; try (eexists _, _; split; [reflexivity|cbn; lia]).
  - destruct (IH (b ++ piece_text (Blank r))) as (t & ts & E & L). exists t, ts. split; [exact E|].
    eapply Z.le_trans; [apply line_after_le|exact L].
  - destruct (IH (b ++ piece_text (Comment body))) as (t & ts & E & L). exists t, ts. split; [exact E|].
    eapply Z.le_trans; [apply line_after_le|exact L].
Qed.
Lemma tokens_lined b ps : lined (tokens_at b ps).
Proof.
  revert b. induction ps as [|p ps IH]; intros b; [exact I|]. destruct p; cbn [tokens_at]; try apply IH.
  specialize (IH (b ++ text)). destruct (tokens_at_first (b ++ text) ps) as (t & ts & E & L). rewrite E in *.
  cbn [lined]. split; [|exact IH]. cbn [tline ttext]. rewrite line_after_app in L. exact L.
Qed.
Lemma tokens_valid level b ps : well_formed level ps -> Forall valid (tokens_at b ps).
Proof.
  revert level b. induction ps as [|p ps IH]; intros level b W; [repeat constructor|].
  destruct p; cbn [tokens_at well_formed] in *.
  - eapply IH, W.
  - eapply IH, W.
  - destruct W as [W1 W2]. constructor; [eapply lexeme_valid, W1|eapply IH, W2].
Qed.

Definition fit (ts : list token) : Prop := Forall valid ts /\ lined ts /\ ~ zero_before_bar ts.
Lemma lined_tail u r : lined (u ++ r) -> lined r.
Proof.
  induction u as [|t u IH]; [auto|]. cbn [app lined]. destruct (u ++ r) as [|x y] eqn:E; [intros _; apply IH; exact I|].
  intros [_ H]. now apply IH.
Qed.
Lemma fit_tail u r : fit (u ++ r) -> fit r.
Proof.
  intros (V & L & Z). split; [apply Forall_app in V; apply V|]. split; [now apply lined_tail in L|].
  intros (p & t & b & q & E & H). apply Z. exists (u ++ p), t, b, q. split; [rewrite E, app_assoc; reflexivity|exact H].
Qed.
Lemma fit_cons t r : fit (t :: r) -> fit r.
Proof. apply (fit_tail [t]). Qed.
Lemma fit_valid t r : fit (t :: r) -> valid t.
Proof. intros (V & _). now inversion V. Qed.
Lemma fit_eats ts r : fit ts -> eats ts r -> fit r.
Proof. intros F (u & -> & _). now apply fit_tail in F. Qed.

(** [broken ts r]: the tokens [r] start on a later line than [ts] (or are none). *)
Definition later (ts r : list token) : Prop := kind r = TEOF \/ line_of ts < line_of r.
Lemma lined_le u r : lined (u ++ r) -> kind r = TEOF \/ line_of (u ++ r) <= line_of r.
Proof.
  induction u as [|t u IH]; [right; apply Z.le_refl|]. intros H. assert (H' : lined (u ++ r)) by exact (lined_tail [t] _ H).
  destruct (IH H') as [|L]; [now left|]. cbn [app lined line_of] in *.
  destruct (u ++ r) as [|x y] eqn:E; [apply app_eq_nil in E; left; now rewrite (proj2 E)|]. right. cbn [line_of] in L. lia.
Qed.
Lemma fit_le ts r : fit ts -> eats ts r -> kind r = TEOF \/ line_of ts <= line_of r.
Proof. intros (_ & L & _) (u & -> & _). now apply lined_le. Qed.
Lemma later_left ts m r : fit ts -> eats ts m -> kind m <> TEOF -> later m r -> later ts r.
Proof. intros F E K [H|H]; [now left|]. destruct (fit_le _ _ F E) as [X|X]; [contradiction|]. right. lia. Qed.
Lemma later_right ts m r : fit m -> eats m r -> kind m <> TEOF -> later ts m -> later ts r.
Proof. intros F E K [H|H]; [contradiction|]. destruct (fit_le _ _ F E) as [X|X]; [now left|]. right. lia. Qed.
Lemma later_text t r : fit (t :: r) -> In newline (ttext t) -> later (t :: r) r.
Proof.
  intros (_ & L & _) H. destruct r as [|u r]; [now left|]. right. cbn [lined line_of] in *. destruct L as [L _].
  assert (P : (0 < List.length (filter (Z.eqb newline) (ttext t)))%nat).
  { destruct (filter (Z.eqb newline) (ttext t)) eqn:E; [|cbn; lia].
    assert (X : In newline (filter (Z.eqb newline) (ttext t))) by (apply filter_In; split; [exact H|apply Z.eqb_refl]).
    rewrite E in X. destruct X. }
  lia.
Qed.

(** ** What comes next *)
(** Barlines, if any, and then neither a tie nor a length. *)
Inductive calm : list token -> Prop :=
| calm_end r : kind r <> TBarline -> kind r <> TTie -> length_node (kind r) = None -> calm r
| calm_bar t r : tkind t = TBarline -> calm r -> calm (t :: r).
Definition ahead (r : list token) : Prop :=
  calm r /\ no_chord r /\ (forall k, kind r <> TRepeat k) /\ kind r <> TEquals /\ accidental_node (kind r) = None.
Definition same_head (r r' : list token) : Prop := kind r = kind r' /\ looks_like_part r = looks_like_part r'.
Definition follow (r r' : list token) : Prop := ahead r' /\ same_head r r'.

Lemma calm_no_tie r : calm r -> kind r <> TTie.
Proof. destruct 1; [assumption|]. cbn. congruence. Qed.
Lemma calm_no_length r : calm r -> length_node (kind r) = None.
Proof. destruct 1; [assumption|]. cbn. now rewrite H. Qed.
Lemma calm_untied r bs us l x c : calm r -> r = bs ++ us ++ l :: x -> Forall (fun b => tkind b = TBarline) bs ->
  Forall (fun u => tkind u = TTie) us -> length_node (tkind l) = Some c -> False.
Proof.
  intros C. revert bs. induction C as [r K1 K2 K3|t r K C IH]; intros bs E B U L.
  - destruct B as [|b bs Hb B]; [|subst; cbn in *; congruence].
    destruct U as [|u us Hu U]; subst; cbn in *; congruence.
  - destruct B as [|b bs Hb B].
    + destruct U as [|u us Hu U]; cbn in E; injection E as -> ->; rewrite K in *; [discriminate|congruence].
    + cbn in E. injection E as -> ->. eapply IH; eauto.
Qed.
Lemma calm_rest_end r : calm r -> kind r <> TBarline -> duration_rest r [] r.
Proof.
  intros C K. apply dr_end; [exact K|]. intros ns r' T. inversion T; subst.
  apply (calm_no_tie _ C). cbn. assumption.
Qed.
Lemma calm_tie_end t r : tkind t = TTie -> calm r -> duration_rest (t :: r) [] (t :: r).
Proof.
  intros K C. apply dr_end; [cbn; congruence|]. intros ns r' T. inversion T as [t0 bs us l c x K0 B U L E1]; subst.
  exact (calm_untied _ _ _ _ _ _ C eq_refl B U L).
Qed.
End Tokens.
