(** Printed S-expressions read back. *)
From Coq Require Import String Ascii ZArith List Bool Lia.
From Verif Require Import Base Num ModelScan SpecScan ProofScan ModelParser SpecParser ProofParser ProofParseText
  ModelFormat SpecFormat ProofFormat ProofFormatTok.
Import ListNotations.
Local Open Scope list_scope.
Local Open Scope Z_scope.

Ltac kinds := congruence.

Section Lisp.
Context {N : Num}.
Variable fmt : num -> list rune.

Lemma everywhere_eq P n : everywhere P n <-> P n /\ Forall (everywhere P) (nch n).
Proof.
  destruct n as [ty l ch]. cbn [everywhere nch].
  assert (X : (fix all l := match l with [] => True | c :: t => everywhere P c /\ all t end) ch <-> Forall (everywhere P) ch); [|tauto].
  induction ch as [|c ch IH]; [split; auto|]. split.
  - intros [A B]. constructor; tauto.
  - intros H. inversion H; subst. tauto.
Qed.

(** ** Characters *)
Lemma digit_cases r : 48 <= r <= 57 -> In r (runes "0123456789").
Proof.
  intros H. cbn.
  assert (r = 48 \/ r = 49 \/ r = 50 \/ r = 51 \/ r = 52 \/ r = 53 \/ r = 54 \/ r = 55 \/ r = 56 \/ r = 57)
    by (unfold rune in *; lia).
  intuition (subst; auto 20).
Qed.
Lemma digits_no_newline ds : digits ds -> no_newline ds.
Proof. intros H X. apply (proj1 (Forall_forall _ _) H) in X. unfold newline in X. unfold rune in *; lia. Qed.
Lemma no_newline_app a b : no_newline (a ++ b) <-> no_newline a /\ no_newline b.
Proof. unfold no_newline. rewrite in_app_iff. tauto. Qed.
Lemma words_no_newline s : Forall (fun r => word_char r = true) s -> no_newline s.
Proof. intros H X. apply (proj1 (Forall_forall _ _) H) in X. discriminate X. Qed.
Lemma atoms_no_newline s : Forall (fun r => atom_char r = true) s -> no_newline s.
Proof. intros H X. apply (proj1 (Forall_forall _ _) H) in X. discriminate X. Qed.
Lemma letter_not_newline c : letter c -> c <> newline.
Proof. intros H ->. unfold letter, newline in H. lia. Qed.
Lemma decimal_facts ds fs t : digits ds -> ds <> [] -> decimal ds fs t ->
  no_newline t /\ exists d y, t = d :: y /\ 48 <= d <= 57.
Proof.
  intros D E H. destruct H as [ds|ds fs F Fe].
  - split; [now apply digits_no_newline|]. destruct ds as [|d y]; [congruence|]. exists d, y. now inversion D.
  - split.
    + apply no_newline_app. split; [now apply digits_no_newline|]. intros [X|X]; [discriminate|]. now apply digits_no_newline in X.
    + destruct ds as [|d y]; [congruence|]. exists d, (y ++ rn "." :: fs). now inversion D.
Qed.

(** ** Pieces inside parentheses *)
Definition delimited (rest : list rune) : Prop := exists x y, rest = x :: y /\ (x = space \/ x = rn ")").
Definition closed (ps : list piece) : Prop :=
  forall level rest, 0 < level -> delimited rest -> wfr level ps rest level.
Definition shut (ps : list piece) : Prop := forall level rest, 0 <= level -> wfr level ps rest level.

Fixpoint pjoin (sep : list piece) (l : list (list piece)) : list piece :=
  match l with [] => [] | [x] => x | x :: t => x ++ sep ++ pjoin sep t end.
Lemma pjoin_cons sep x y t : pjoin sep (x :: y :: t) = x ++ sep ++ pjoin sep (y :: t).
Proof. reflexivity. Qed.
Lemma text_pjoin sep l : text_of (pjoin sep l) = join (text_of sep) (map text_of l).
Proof.
  induction l as [|x l IH]; [reflexivity|]. destruct l as [|y l]; [reflexivity|].
  rewrite pjoin_cons, !text_app, IH. reflexivity.
Qed.
Lemma text_one k t : text_of [Lexeme k t] = t.
Proof. cbn. apply app_nil_r. Qed.
Lemma text_cons p ps : text_of (p :: ps) = piece_text p ++ text_of ps.
Proof. reflexivity. Qed.

Definition lisp_texts : list node -> option (list (list rune)) :=
  fix go (l : list node) : option (list (list rune)) :=
    match l with
    | [] => Some []
    | c :: t => match lisp_text fmt c, go t with Some x, Some xs => Some (x :: xs) | _, _ => None end
    end.
Lemma lisp_list_text ns xs : lisp_texts ns = Some xs ->
  lisp_text fmt (branch LispListNode ns) = Some (rn "(" :: join [space] xs ++ [rn ")"]).
Proof. intros H. cbn [lisp_text branch]. change (match lisp_texts ns with Some xs0 => Some (rn "(" :: join [space] xs0 ++ [rn ")"]) | None => None end = Some (rn "(" :: join [space] xs ++ [rn ")"])). now rewrite H. Qed.

Lemma wfr_forms pss level rest : 0 < level -> Forall closed pss ->
  wfr level (pjoin [Blank space] pss ++ [Lexeme TRParen [rn ")"]]) rest (level - 1).
Proof.
  intros L H. induction H as [|ps pss Hp H IH].
  - cbn. split; [apply lx_close|reflexivity].
  - destruct pss as [|qs pss].
    + cbn [pjoin]. apply wfr_app with level.
      * apply Hp; [exact L|]. exists (rn ")"), rest. split; [reflexivity|now right].
      * cbn. split; [apply lx_close|reflexivity].
    + rewrite pjoin_cons, <- !app_assoc. apply wfr_app with level.
      * apply Hp; [exact L|]. eexists space, _. split; [reflexivity|now left].
      * cbn [app]. cbn [wfr]. split; [now left|]. exact IH.
Qed.

Lemma closed_number neg x : reads_back fmt neg x ->
  closed [Lexeme (TNumber x) (fmt x)] /\ fmt x <> [] /\ no_newline (fmt x).
Proof.
  intros (ds & fs & t & D & E & C & F & V). destruct (decimal_facts _ _ _ D E C) as (NL & d & y & -> & Hd). rewrite F.
  split; [|split].
  - intros level rest L (c & w & -> & Hc). cbn [wfr text_of map List.concat app]. split; [|reflexivity].
    replace (0 <? level) with true by (symmetry; now apply Z.ltb_lt). rewrite <- V.
    assert (S1 : stops digit (c :: w)) by (destruct Hc as [-> | ->]; reflexivity).
    assert (S2 : no_fraction (c :: w)) by (destruct w; [exact I|]; intros [X _]; destruct Hc as [-> | ->]; discriminate X).
    destruct neg; cbn [app]; [apply lx_negative; auto|apply lx_number; auto].
  - destruct neg; discriminate.
  - destruct neg; cbn [app]; [|exact NL]. intros [X|X]; [discriminate|now apply NL].
Qed.

Lemma lisp_prints :
  (forall ts n r, form ts n r -> fit ts -> everywhere (number_printed fmt) n ->
     exists ps, lisp_text fmt n = Some (text_of ps) /\ text_of ps <> [] /\ closed ps /\
       (nty n = LispListNode -> shut ps /\ exists q, ps = Lexeme TLParen [rn "("] :: q) /\
       (no_newline (text_of ps) \/ later ts r) /\
       forall b r', form (toks b ps ++ r') n r') /\
  (forall ts ns r, forms ts ns r -> fit ts -> Forall (everywhere (number_printed fmt)) ns ->
     exists pss, lisp_texts ns = Some (map text_of pss) /\ Forall closed pss /\
       (no_newline (text_of (pjoin [Blank space] pss)) \/ later ts r) /\
       forall b c r', tkind c = TRParen -> forms (toks b (pjoin [Blank space] pss) ++ c :: r') ns r').
Proof.
  apply form_forms_ind.
  - (* symbol *)
    intros t r K F _. pose proof (fit_valid _ _ F) as V. unfold valid in V. rewrite K in V.
    destruct V as (c & s & E & A & D & I0 & S).
    exists [Lexeme TSymbol (ttext t)]. rewrite text_one. split; [reflexivity|]. split; [rewrite E; discriminate|].
    split; [|split; [discriminate|split]].
    + intros level rest L (x & w & -> & Hx). cbn [wfr text_of map List.concat app]. split; [|reflexivity].
      replace (0 <? level) with true by (symmetry; now apply Z.ltb_lt). rewrite E.
      apply lx_symbol; auto. destruct Hx as [-> | ->]; reflexivity.
    + left. rewrite E. intros [X|X]; [subst; discriminate A|]. exact (atoms_no_newline _ S X).
    + intros b r'. cbn [toks app]. apply form_symbol with (t := Token TSymbol (ttext t) _ _). reflexivity.
  - (* number *)
    intros t x r K F E. apply everywhere_eq in E. destruct E as [(neg & E) _]. destruct (closed_number _ _ E) as (C & NE & NL).
    exists [Lexeme (TNumber x) (fmt x)]. rewrite text_one. split; [reflexivity|]. split; [exact NE|].
    split; [exact C|]. split; [discriminate|]. split; [now left|].
    intros b r'. cbn [toks app]. now apply form_number.
  - (* string *)
    intros t s r K F _. pose proof (fit_valid _ _ F) as V. unfold valid in V. rewrite K in V. destruct V as [Q T].
    exists [Lexeme (TString s) (quote_mark :: s ++ [quote_mark])]. rewrite text_one. split; [reflexivity|]. split; [discriminate|].
    split; [|split; [discriminate|split]].
    + intros level rest L _. cbn [wfr text_of map List.concat]. split; [|reflexivity].
      replace (0 <? level) with true by (symmetry; now apply Z.ltb_lt). now apply lx_string.
    + rewrite <- T. destruct (in_dec Z.eq_dec newline (ttext t)) as [H|H]; [right; now apply later_text|now left].
    + intros b r'. cbn [toks app]. now apply form_string.
  - (* list *)
    intros t ts ns r K Hfs IH F E. apply everywhere_eq in E. destruct E as [_ E].
    destruct (IH (fit_cons _ _ F) E) as (pss & T & C & NL & G).
    exists (Lexeme TLParen [rn "("] :: pjoin [Blank space] pss ++ [Lexeme TRParen [rn ")"]]).
    assert (S : shut (Lexeme TLParen [rn "("] :: pjoin [Blank space] pss ++ [Lexeme TRParen [rn ")"]])).
    { intros level rest L. cbn [wfr]. split; [apply lx_open|]. replace level with (level + 1 - 1) at 2 by lia.
      apply wfr_forms; [lia|exact C]. }
    split; [|split; [discriminate|split; [|split; [|split]]]].
    + rewrite (lisp_list_text _ _ T). rewrite text_cons, text_app, text_pjoin, text_one. reflexivity.
    + intros level rest L _. apply S. lia.
    + intros _. split; [exact S|]. eexists. reflexivity.
    + destruct NL as [NL|NL].
      * left. rewrite text_cons, text_app, text_one. cbn [piece_text]. intros X. apply in_app_or in X. destruct X as [[X|[]]|X]; [discriminate|].
        apply in_app_or in X. destruct X as [X|[X|[]]]; [now apply NL|discriminate].
      * right. pose proof (proj1 (proj2 lisp_complete _ _ _ Hfs)) as He.
        apply later_left with ts; auto; [apply eats_one; kinds|].
        destruct He as (u & v & -> & Hu). cbn. now inversion Hu.
    + intros b r'. cbn [toks app]. apply form_list; [reflexivity|].
      rewrite toks_app, <- app_assoc. cbn [toks app]. apply G. reflexivity.
  - (* forms: end *)
    intros t r K F _. exists []. split; [reflexivity|]. split; [constructor|]. split; [left; intros []|].
    intros b c r' Kc. cbn. now apply forms_end.
  - (* forms: form *)
    intros ts n r ns r' Hf IH1 Hfs IH2 F E. inversion E as [|? ? En Es]; subst.
    pose proof (form_eats _ _ _ Hf) as He. pose proof (proj1 (proj2 lisp_complete _ _ _ Hfs)) as He2.
    assert (Kr : kind r <> TEOF) by (destruct He2 as (u & v & -> & Hu); cbn; now inversion Hu).
    pose proof (fit_eats _ _ F (eats1_eats _ _ He)) as Fr.
    destruct (IH1 F En) as (ps & T & NE & C & _ & NL & G).
    destruct (IH2 Fr Es) as (pss & Ts & Cs & NLs & Gs).
    exists (ps :: pss). split; [cbn [lisp_texts]; fold lisp_texts; rewrite T, Ts; reflexivity|]. split; [now constructor|]. split.
    + destruct NL as [NL|NL]; [|right; apply later_right with r; auto; now apply eats1_eats].
      destruct NLs as [NLs|NLs]; [left|right; apply later_left with r; auto; now apply eats1_eats].
      destruct pss as [|qs pss]; [exact NL|]. rewrite pjoin_cons, !text_app. apply no_newline_app. split; [exact NL|].
      apply no_newline_app. split; [|exact NLs]. intros [X|[]]. discriminate.
    + intros b c r'' Kc. destruct pss as [|qs pss].
      * cbn [pjoin]. eapply forms_form; [apply G|]. specialize (Gs [] c r'' Kc). exact Gs.
      * rewrite pjoin_cons, !toks_app, <- !app_assoc. eapply forms_form; [apply G|].
        cbn [toks app]. apply Gs, Kc.
  - (* forms: quoted *)
    intros t ts n r ns r' K Hf IH1 Hfs IH2 F E. inversion E as [|? ? En Es]; subst.
    apply everywhere_eq in En. destruct En as [_ En]. cbn [nch branch] in En. inversion En as [|? ? En' _]; subst.
    pose proof (form_eats _ _ _ Hf) as He. pose proof (proj1 (proj2 lisp_complete _ _ _ Hfs)) as He2.
    pose proof (fit_cons _ _ F) as F1.
    assert (Kr : kind r <> TEOF) by (destruct He2 as (u & v & -> & Hu); cbn; now inversion Hu).
    assert (Kt : kind ts <> TEOF) by (destruct He as (u & v & -> & Hu); cbn; now inversion Hu).
    pose proof (fit_eats _ _ F1 (eats1_eats _ _ He)) as Fr.
    destruct (IH1 F1 En') as (ps & T & NE & C & _ & NL & G).
    destruct (IH2 Fr Es) as (pss & Ts & Cs & NLs & Gs).
    assert (Et : eats (t :: ts) ts) by (apply eats_one; kinds).
    exists ((Lexeme TQuote [rn "'"] :: ps) :: pss).
    split; [cbn [lisp_texts lisp_text branch]; fold lisp_texts; rewrite T, Ts; reflexivity|]. split.
    { constructor; [|exact Cs]. intros level rest L D. cbn [wfr]. split; [|now apply C].
      replace (0 <? level) with true by (symmetry; now apply Z.ltb_lt). apply lx_quote. }
    assert (NQ : no_newline (text_of ps) -> no_newline (text_of (Lexeme TQuote [rn "'"] :: ps))).
    { intros X Y. rewrite text_cons in Y. cbn [piece_text] in Y. apply in_app_or in Y. destruct Y as [[Y|[]]|Y]; [discriminate|now apply X]. }
    split.
    + destruct NL as [NL|NL]; [|right; apply later_left with ts; auto; apply later_right with r; auto; now apply eats1_eats].
      destruct NLs as [NLs|NLs]; [left|right; apply later_left with r; auto; apply eats_trans with ts; [exact Et|now apply eats1_eats]].
      destruct pss as [|qs pss]; [now apply NQ|]. rewrite pjoin_cons, !text_app. apply no_newline_app. split; [now apply NQ|].
      apply no_newline_app. split; [|exact NLs]. intros [X|[]]. discriminate.
    + intros b c r'' Kc. destruct pss as [|qs pss].
      * cbn [pjoin toks app]. eapply forms_quoted; [reflexivity|apply G|]. specialize (Gs [] c r'' Kc). exact Gs.
      * rewrite pjoin_cons, !toks_app, <- !app_assoc. cbn [toks app]. eapply forms_quoted; [reflexivity|apply G|].
        cbn [toks app]. apply Gs, Kc.
Qed.
End Lisp.
