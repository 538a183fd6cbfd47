(** Proofs about the parser: it always stops, and what it accepts is what the
    grammar of SpecParser describes. *)
From Coq Require Import String ZArith List Bool Lia Arith.
From Verif Require Import Base Num ModelScan ModelParser SpecParser.
Import ListNotations.
Local Open Scope list_scope.

Section Proofs.
Context {N : Num}.
Implicit Types ts r : list token.

(** ** Tokens used up *)
Definition eats ts r : Prop := exists u, ts = u ++ r /\ Forall (fun t => tkind t <> TEOF) u.
Definition eats1 ts r : Prop := exists t u, ts = t :: u ++ r /\ Forall (fun t => tkind t <> TEOF) (t :: u).

Lemma eats_refl ts : eats ts ts.
Proof. exists []. split; [reflexivity|constructor]. Qed.
Lemma eats1_eats ts r : eats1 ts r -> eats ts r.
Proof. intros (t & u & -> & H). exists (t :: u). split; [reflexivity|exact H]. Qed.
Lemma eats_trans a b c : eats a b -> eats b c -> eats a c.
Proof.
  intros (u & -> & H) (v & -> & H'). exists (u ++ v). rewrite app_assoc. split; [reflexivity|].
  apply Forall_app; now split.
Qed.
Lemma eats1_trans a b c : eats1 a b -> eats b c -> eats1 a c.
Proof.
  intros (t & u & -> & H) (v & -> & H'). exists t, (u ++ v). rewrite <- app_assoc. split; [reflexivity|].
  inversion H; subst. constructor; [assumption|]. apply Forall_app; now split.
Qed.
Lemma eats_trans1 a b c : eats a b -> eats1 b c -> eats1 a c.
Proof.
  intros (u & -> & H) (t & v & -> & H'). destruct u as [|x u].
  - exists t, v. now split.
  - exists x, (u ++ t :: v). cbn. rewrite <- app_assoc. split; [reflexivity|].
    inversion H; subst. constructor; [assumption|]. apply Forall_app; now split.
Qed.
Lemma eats1_one t r : tkind t <> TEOF -> eats1 (t :: r) r.
Proof. intros H. exists t, []. split; [reflexivity|]. constructor; [exact H|constructor]. Qed.
Lemma eats_one t r : tkind t <> TEOF -> eats (t :: r) r.
Proof. intros H. now apply eats1_eats, eats1_one. Qed.
Lemma eats_length ts r : eats ts r -> (length r <= length ts)%nat.
Proof. intros (u & -> & _). rewrite app_length. lia. Qed.
Lemma eats1_length ts r : eats1 ts r -> (length r < length ts)%nat.
Proof. intros (t & u & -> & _). cbn. rewrite app_length. lia. Qed.

Lemma empty_cram_eats ts r : eats ts r -> empty_cram r -> empty_cram ts.
Proof.
  intros (u & -> & _) (p & o & c & q & -> & Ho & Hc). exists (u ++ p), o, c, q.
  rewrite <- app_assoc. now repeat split.
Qed.

Definition good {A} (P : A -> list token -> Prop) ts (res : pres A) : Prop :=
  match res with
  | POk a r => P a r
  | PErr _ r => eats ts r
  | PPanic _ => empty_cram ts
  | PFuel => False
  end.

Lemma good_bind {A B} (P : A -> list token -> Prop) (Q : B -> list token -> Prop) ts ts' x k :
  eats ts ts' ->
  good P ts' x -> (forall a r, P a r -> good Q ts (k a r)) -> good Q ts (pbind x k).
Proof.
  intros He Hx Hk. destruct x; cbn in *; auto.
  - now apply eats_trans with ts'.
  - now apply empty_cram_eats with ts'.
Qed.
Lemma good_ok {A} (P : A -> list token -> Prop) ts a r : P a r -> good P ts (POk a r).
Proof. auto. Qed.
Lemma good_err {A} (P : A -> list token -> Prop) ts m r : eats ts r -> good P ts (PErr m r).
Proof. auto. Qed.
Lemma good_at {A} (P : A -> list token -> Prop) ts ts' x : eats ts ts' -> good P ts' x -> good P ts x.
Proof.
  intros He. destruct x; cbn; auto.
  - intros; now apply eats_trans with ts'.
  - intros; now apply empty_cram_eats with ts'.
Qed.
Lemma good_impl {A} (P Q : A -> list token -> Prop) ts x :
  (forall a r, P a r -> Q a r) -> good P ts x -> good Q ts x.
Proof. intros H. destruct x; cbn; auto. Qed.

Ltac kinds := let H := fresh in intro H; congruence.

(** ** Unfolding the parser's recursive functions *)
Local Open Scope Z_scope.
Lemma lisp_form_eq (f : nat) (ts : list token) : lisp_form (S f) ts =
      match ts with
      | t :: ts' =>
          match tkind t with
          | TSymbol => POk (leaf LispSymbolNode (LitText (ttext t))) ts'
          | TNumber x => POk (leaf LispNumberNode (LitNum x)) ts'
          | TString s => POk (leaf LispStringNode (LitText s)) ts'
          | TLParen => pbind (lisp_forms f ts') (fun ns r => POk (branch LispListNode ns) r)
          | _ => PErr err_sexp ts
          end
      | [] => PErr err_sexp ts
      end.
Proof. reflexivity. Qed.
Lemma lisp_forms_eq (f : nat) (ts : list token) : lisp_forms (S f) ts =
      match ts with
      | [] => PErr err_open_sexp ts
      | t :: ts' =>
          match tkind t with
          | TRParen => POk [] ts'
          | TEOF => PErr err_open_sexp ts
          | TQuote =>
              pbind (lisp_form f ts') (fun n r =>
              pbind (lisp_forms f r) (fun ns r' => POk (branch LispQuotedFormNode [n] :: ns) r'))
          | _ =>
              pbind (lisp_form f ts) (fun n r =>
              pbind (lisp_forms f r) (fun ns r' => POk (n :: ns) r'))
          end
      end.
Proof. reflexivity. Qed.
Lemma inner_eq (f : nat) (ts : list token) : inner (S f) ts =
      match ts with
      | [] => PErr err_event ts
      | t :: ts' =>
          match tkind t with
          | TLParen => pbind (lisp_list f ts') single_or_repeated
          | TName =>
              match kind ts' with
              | TEquals =>
                  let ts2 := tl ts' in
                  match kind ts2 with
                  | TEOF => PErr err_no_event ts
                  | _ =>
                      if tline t <? line_of ts2
                      then PErr err_no_event ts
                      else pbind (line_events f (tline t) ts2) (fun es r => POk (var_def_node (ttext t) es) r)
                  end
              | _ => single_or_repeated (leaf VariableReferenceNode (LitText (ttext t))) ts'
              end
          | TOctSet n => POk (leaf OctaveSetNode (LitInt n)) ts'
          | TOctUp => POk (branch OctaveUpNode []) ts'
          | TOctDown => POk (branch OctaveDownNode []) ts'
          | TNote _ | TRest => note_rest_or_chord f t ts'
          | TBarline => POk barline ts'
          | TSeqOpen =>
              pbind (seq_events f ts') (fun es r => single_or_repeated (branch EventSequenceNode es) r)
          | TCramOpen =>
              pbind (cram_events f ts') (fun es r =>
              match es with
              | [] => PPanic panic_index
              | _ => pbind (opt_duration f r) (fun d r' => single_or_repeated (cram_node es d) r')
              end)
          | TVoice n => pbind (voices f n ts') (fun vs r => POk (branch VoiceGroupNode vs) r)
          | TMarker s => POk (leaf MarkerNode (LitText s)) ts'
          | TAtMarker s => POk (leaf AtMarkerNode (LitText s)) ts'
          | _ => PErr err_event ts
          end
      end.
Proof. reflexivity. Qed.
Lemma line_events_eq (f : nat) (line : Z) (ts : list token) : line_events (S f) line ts =
      match ts with
      | [] => POk [] ts
      | t :: _ =>
          match tkind t with
          | TEOF => POk [] ts
          | _ =>
              if tline t =? line
              then pbind (inner f ts) (fun n r =>
                   pbind (line_events f line r) (fun ns r' => POk (n :: ns) r'))
              else POk [] ts
          end
      end.
Proof. reflexivity. Qed.
Lemma seq_events_eq (f : nat) (ts : list token) : seq_events (S f) ts =
      match ts with
      | [] => PErr err_open_seq ts
      | t :: ts' =>
          match tkind t with
          | TSeqClose => POk [] ts'
          | TEOF => PErr err_open_seq ts
          | _ =>
              pbind (inner f ts) (fun n r =>
              match kind r with
              | TReps rs => pbind (seq_events f (tl r)) (fun ns r' => POk (on_repetitions n rs :: ns) r')
              | _ => pbind (seq_events f r) (fun ns r' => POk (n :: ns) r')
              end)
          end
      end.
Proof. reflexivity. Qed.
Lemma cram_events_eq (f : nat) (ts : list token) : cram_events (S f) ts =
      match ts with
      | [] => PErr err_open_cram ts
      | t :: ts' =>
          match tkind t with
          | TCramClose => POk [] ts'
          | TEOF => PErr err_open_cram ts
          | _ =>
              pbind (inner f ts) (fun n r =>
              pbind (cram_events f r) (fun ns r' => POk (n :: ns) r'))
          end
      end.
Proof. reflexivity. Qed.
Lemma voice_events_eq (f : nat) (ts : list token) : voice_events (S f) ts =
      if ends_voice ts then POk [] ts
      else pbind (inner f ts) (fun n r =>
           pbind (voice_events f r) (fun ns r' => POk (n :: ns) r')).
Proof. reflexivity. Qed.
Lemma voices_eq (f : nat) (n : Z) (ts : list token) : voices (S f) n ts =
      pbind (voice_events f ts) (fun es r =>
      match kind r with
      | TVoice m =>
          if m =? 0 then POk [voice_node n es; branch VoiceGroupEndMarkerNode []] (tl r)
          else pbind (voices f m (tl r)) (fun vs r' => POk (voice_node n es :: vs) r')
      | _ => POk [voice_node n es] r
      end).
Proof. reflexivity. Qed.
Local Close Scope Z_scope.

(** ** S-expressions *)
Lemma lisp_good fuel :
  (forall ts, (4 * length ts + 1 <= fuel)%nat ->
     good (fun n r => form ts n r /\ eats1 ts r) ts (lisp_form fuel ts)) /\
  (forall ts, (4 * length ts + 2 <= fuel)%nat ->
     good (fun ns r => forms ts ns r /\ eats1 ts r) ts (lisp_forms fuel ts)).
Proof.
  induction fuel as [|f [IH1 IH2]]; [split; intros ts H; lia|]. split; intros ts Hf.
  - rewrite lisp_form_eq. destruct ts as [|t ts]; [apply good_err, eats_refl|]. cbn [length] in Hf.
    destruct (tkind t) eqn:K; try (apply good_err, eats_refl).
    + apply good_bind with (P := fun ns r => forms ts ns r /\ eats1 ts r) (ts' := ts);
        [apply eats_one; kinds | apply IH2; lia |].
      intros ns r [H1 H2]. apply good_ok. split; [now apply form_list|].
      apply eats1_trans with ts; [apply eats1_one; kinds | now apply eats1_eats].
    + apply good_ok. split; [now apply form_number|apply eats1_one; kinds].
    + apply good_ok. split; [now apply form_string|apply eats1_one; kinds].
    + apply good_ok. split; [now apply form_symbol|apply eats1_one; kinds].
  - rewrite lisp_forms_eq. destruct ts as [|t ts]; [apply good_err, eats_refl|].
    assert (G : forall ts', eats (t :: ts) ts' -> 
       (forall n r ns r', form ts' n r -> eats1 ts' r -> forms r ns r' -> True) ->
       good (fun n r => form ts' n r /\ eats1 ts' r) ts' (lisp_form f ts')).
    { intros ts' He _. apply IH1. apply eats_length in He. cbn [length] in *. lia. }
    assert (D : good (fun ns r => forms (t :: ts) ns r /\ eats1 (t :: ts) r) (t :: ts)
       (pbind (lisp_form f (t :: ts)) (fun n r =>
              pbind (lisp_forms f r) (fun ns r' => POk (n :: ns) r')))).
    { apply good_bind with (P := fun n r => form (t :: ts) n r /\ eats1 (t :: ts) r) (ts' := t :: ts);
        [apply eats_refl | apply IH1; lia |].
      intros n r [H1 H2]. pose proof (eats1_length _ _ H2) as Hl.
      apply good_bind with (P := fun ns r' => forms r ns r' /\ eats1 r r') (ts' := r);
        [now apply eats1_eats | apply IH2; lia |].
      intros ns r' [H3 H4]. apply good_ok. split; [now apply forms_form with r|].
      apply eats1_trans with r; [assumption|now apply eats1_eats]. }
    destruct (tkind t) eqn:K; try exact D.
    + apply good_err, eats_refl.
    + apply good_ok. split; [now apply forms_end|apply eats1_one; kinds].
    + assert (He : eats (t :: ts) ts) by (apply eats_one; kinds).
      cbn [length] in Hf.
      apply good_bind with (P := fun n r => form ts n r /\ eats1 ts r) (ts' := ts);
        [exact He | apply IH1; lia |].
      intros n r [H1 H2]. pose proof (eats1_length _ _ H2) as Hl.
      apply good_bind with (P := fun ns r' => forms r ns r' /\ eats1 r r') (ts' := r);
        [apply eats_trans with ts; [exact He|now apply eats1_eats] | apply IH2; lia |].
      intros ns r' [H3 H4]. apply good_ok. split; [now apply forms_quoted with r|].
      apply eats_trans1 with ts; [exact He|]. apply eats1_trans with r; [assumption|now apply eats1_eats].
Qed.

Lemma lisp_list_good fuel t ts :
  tkind t = TLParen -> (4 * length ts + 2 <= fuel)%nat ->
  good (fun n r => form (t :: ts) n r /\ eats1 (t :: ts) r) (t :: ts) (lisp_list fuel ts).
Proof.
  intros K Hf. unfold lisp_list.
  apply good_bind with (P := fun ns r => forms ts ns r /\ eats1 ts r) (ts' := ts);
    [apply eats_one; kinds | now apply lisp_good |].
  intros ns r [H1 H2]. apply good_ok. split; [now apply form_list|].
  apply eats1_trans with ts; [apply eats1_one; kinds | now apply eats1_eats].
Qed.

(** ** Repeats *)
Lemma repeated_good n ts : 
  good (fun n' r => repeated n ts n' r /\ eats ts r) ts (single_or_repeated n ts).
Proof.
  unfold single_or_repeated. destruct ts as [|t ts].
  - apply good_ok. split; [apply rep_once; cbn; discriminate|apply eats_refl].
  - destruct (tkind t) eqn:K;
      try (apply good_ok; split; [apply rep_once; cbn [kind]; intros k; kinds|apply eats_refl]).
    apply good_ok. split; [now apply rep_times|]. apply eats_one. kinds.
Qed.

(** ** Durations *)
Lemma bars_spec ts n r : bars ts = (n, r) ->
  exists bs, ts = bs ++ r /\ Forall (fun b => tkind b = TBarline) bs /\ length bs = n /\ kind r <> TBarline.
Proof.
  revert n r. induction ts as [|t ts IH]; intros n r; cbn [bars].
  - intros [= <- <-]. exists []. cbn. repeat split; [constructor|discriminate].
  - destruct (tkind t) eqn:K;
      try (intros [= <- <-]; exists []; cbn [kind length app]; repeat split; [constructor|kinds]).
    destruct (bars ts) as [m r'] eqn:E. intros [= <- <-].
    destruct (IH _ _ eq_refl) as (bs & -> & Hb & <- & Hk). exists (t :: bs).
    repeat split; [now constructor|exact Hk].
Qed.
Lemma ties_spec ts : exists us, ts = us ++ ties ts /\ Forall (fun u => tkind u = TTie) us /\ kind (ties ts) <> TTie.
Proof.
  induction ts as [|t ts IH]; cbn [ties].
  - exists []. cbn. repeat split; [constructor|discriminate].
  - destruct (tkind t) eqn:K;
      try (exists []; cbn [kind app]; repeat split; [constructor|kinds]).
    destruct IH as (us & E & Hu & Hk). exists (t :: us). cbn [app]. rewrite <- E.
    repeat split; [now constructor|exact Hk].
Qed.
Lemma bars_app bs r : Forall (fun b => tkind b = TBarline) bs -> kind r <> TBarline -> bars (bs ++ r) = (length bs, r).
Proof.
  intros Hb Hr. induction Hb as [|b bs Hb _ IH]; cbn [app length].
  - destruct r as [|t r]; [reflexivity|]. cbn [bars kind] in *. destruct (tkind t); congruence.
  - cbn [bars]. now rewrite Hb, IH.
Qed.
Lemma ties_app us r : Forall (fun b => tkind b = TTie) us -> kind r <> TTie -> ties (us ++ r) = r.
Proof.
  intros Hb Hr. induction Hb as [|b us Hb _ IH]; cbn [app].
  - destruct r as [|t r]; [reflexivity|]. cbn [ties kind] in *. destruct (tkind t); congruence.
  - cbn [ties]. now rewrite Hb, IH.
Qed.
Lemma length_not_tie k c : length_node k = Some c -> k <> TTie /\ k <> TBarline /\ k <> TEOF.
Proof. destruct k; cbn; repeat split; congruence. Qed.

(* the tokens of a further length determine its reading *)
Lemma tied_read ts ns r : tied_length ts ns r ->
  exists t ts1 m ts2 l c, ts = t :: ts1 /\ tkind t = TTie /\ bars ts1 = (m, ts2) /\ ties ts2 = l :: r /\
    length_node (tkind l) = Some c /\ ns = repeat barline m ++ [c].
Proof.
  intros H. destruct H as [t bs us l c r Ht Hb Hu Hl].
  destruct (length_not_tie _ _ Hl) as (N1 & N2 & _).
  exists t, (bs ++ us ++ l :: r), (length bs), (us ++ l :: r), l, c.
  repeat split; auto.
  - apply bars_app; [exact Hb|]. destruct us as [|u us]; cbn [app kind]; [exact N2|].
    inversion Hu; subst. congruence.
  - apply ties_app; [exact Hu|exact N1].
  - f_equal. clear. induction bs; cbn; [reflexivity|]. now rewrite IHbs.
Qed.
Lemma map_const {A B} (b : B) (l : list A) : map (fun _ => b) l = repeat b (length l).
Proof. induction l; cbn; [reflexivity|]. now rewrite IHl. Qed.

Lemma duration_bars bs ts ns r : Forall (fun b => tkind b = TBarline) bs ->
  duration_rest ts ns r -> duration_rest (bs ++ ts) (repeat barline (length bs) ++ ns) r.
Proof. induction 1 as [|b bs Hb _ IH]; intros H; cbn; [exact H|]. apply dr_bar; auto. Qed.

Lemma eats_bars bs ts : Forall (fun b => tkind b = TBarline) bs -> eats (bs ++ ts) ts.
Proof. intros H. exists bs. split; [reflexivity|]. eapply Forall_impl; [|exact H]. intros a K. cbn in K. kinds. Qed.
Lemma eats_ties bs ts : Forall (fun b => tkind b = TTie) bs -> eats (bs ++ ts) ts.
Proof. intros H. exists bs. split; [reflexivity|]. eapply Forall_impl; [|exact H]. intros a K. cbn in K. kinds. Qed.

Lemma more_duration_good fuel ts : (length ts + 1 <= fuel)%nat ->
  good (fun ns r => duration_rest ts ns r /\ eats ts r) ts (more_duration fuel ts).
Proof.
  revert ts. induction fuel as [|f IH]; intros ts Hf; [lia|]. cbn [more_duration].
  destruct (bars ts) as [n r] eqn:E. destruct (bars_spec _ _ _ E) as (bs & -> & Hb & <- & Hk).
  pose proof (eats_bars bs r Hb) as He.
  assert (Stop : (forall ns r', ~ tied_length r ns r') ->
     good (fun ns r' => duration_rest (bs ++ r) ns r' /\ eats (bs ++ r) r') (bs ++ r) (POk (repeat barline (length bs)) r)).
  { intros Hno. apply good_ok. split; [|exact He].
    rewrite <- (app_nil_r (repeat barline _)). apply duration_bars; [exact Hb|]. now apply dr_end. }
  destruct r as [|t r].
  { apply Stop. intros ns r' H. inversion H. }
  destruct (tkind t) eqn:K;
    try (apply Stop; intros ns r' H; inversion H; congruence).
  destruct (bars r) as [m ts2] eqn:E2.
  destruct (bars_spec _ _ _ E2) as (bs2 & -> & Hb2 & <- & Hk2).
  destruct (ties_spec ts2) as (us & Eu & Hu & Hku).
  destruct (ties ts2) as [|l r3] eqn:E3.
  { apply Stop. intros ns r' H. apply tied_read in H as (t' & ts1 & m' & ts2' & l & c & [= <- <-] & _ & Hbb & Htt & _ & _).
    rewrite E2 in Hbb. injection Hbb as <- <-. congruence. }
  destruct (length_node (tkind l)) as [c|] eqn:E4.
  - destruct (length_not_tie _ _ E4) as (_ & _ & Nl).
    assert (Heat : eats (bs ++ t :: bs2 ++ ts2) r3).
    { apply eats_trans with (t :: bs2 ++ ts2); [now apply eats_bars|].
      apply eats_trans with (bs2 ++ ts2); [apply eats_one; kinds|].
      apply eats_trans with ts2; [now apply eats_bars|].
      rewrite Eu. apply eats_trans with (l :: r3); [now apply eats_ties|]. now apply eats_one. }
    apply good_bind with (P := fun ns r' => duration_rest r3 ns r' /\ eats r3 r') (ts' := r3).
    + exact Heat.
    + apply IH. rewrite app_length in Hf. cbn [length] in Hf. rewrite app_length in Hf.
      assert (length ts2 = length us + S (length r3))%nat by (rewrite Eu, app_length; reflexivity). lia.
    + intros cs r' [H1 H2]. apply good_ok. split; [|now apply eats_trans with r3].
      apply duration_bars; [exact Hb|].
      replace (repeat barline (length bs2) ++ c :: cs) with ((map (fun _ => barline) bs2 ++ [c]) ++ cs)
        by (rewrite map_const, <- app_assoc; reflexivity).
      apply dr_tie with r3; [|exact H1]. rewrite Eu. now apply tied.
  - apply Stop. intros ns r' H. apply tied_read in H as (t' & ts1 & m' & ts2' & l' & c & [= <- <-] & _ & Hbb & Htt & Hl & _).
    rewrite E2 in Hbb. injection Hbb as <- <-. congruence.
Qed.

Lemma opt_duration_good fuel ts : (length ts <= fuel)%nat ->
  good (fun d r => duration_at ts d r /\ eats ts r) ts (opt_duration fuel ts).
Proof.
  intros Hf. unfold opt_duration. destruct ts as [|t ts].
  - apply good_ok. split; [now apply dur_none|apply eats_refl].
  - destruct (length_node (tkind t)) as [c|] eqn:E.
    + destruct (length_not_tie _ _ E) as (_ & _ & Nl).
      apply good_bind with (P := fun ns r' => duration_rest ts ns r' /\ eats ts r') (ts' := ts).
      * now apply eats_one.
      * apply more_duration_good. cbn in Hf. lia.
      * intros cs r [H1 H2]. apply good_ok. split; [now apply dur_some|].
        apply eats_trans with ts; [now apply eats_one|exact H2].
    + apply good_ok. split; [now apply dur_none|apply eats_refl].
Qed.

(** ** Notes and chords *)
Lemma accidentals_spec ts l r : accidentals ts = (l, r) -> accs ts l r /\ eats ts r.
Proof.
  revert l r. induction ts as [|t ts IH]; intros l r; cbn [accidentals].
  - intros [= <- <-]. split; [now apply acc_end|apply eats_refl].
  - destruct (accidental_node (tkind t)) as [a|] eqn:E.
    + destruct (accidentals ts) as [l' r'] eqn:E2. intros [= <- <-].
      destruct (IH _ _ eq_refl) as [H1 H2]. split; [now apply acc_one|].
      apply eats_trans with ts; [|exact H2]. apply eats_one. destruct (tkind t); cbn in E; congruence.
    + intros [= <- <-]. split; [now apply acc_end|apply eats_refl].
Qed.

Lemma note_or_rest_good fuel t ts : (length ts <= fuel)%nat ->
  good (fun n r => note_or_rest_at (t :: ts) n r /\ eats1 (t :: ts) r) (t :: ts) (note_or_rest fuel t ts).
Proof.
  intros Hf. unfold note_or_rest. destruct (tkind t) eqn:K; try (apply good_err, eats_refl).
  - unfold note. destruct (accidentals ts) as [as_ r1] eqn:E.
    destruct (accidentals_spec _ _ _ E) as [Ha He].
    assert (E1 : eats1 (t :: ts) r1) by (apply eats1_trans with ts; [apply eats1_one; kinds|exact He]).
    apply good_bind with (P := fun d r => duration_at r1 d r /\ eats r1 r) (ts' := r1).
    + now apply eats1_eats.
    + apply opt_duration_good. apply eats_length in He. lia.
    + intros d r2 [Hd He2].
      assert (E2 : eats1 (t :: ts) r2) by (now apply eats1_trans with r1).
      destruct r2 as [|u r3].
      * apply good_ok. split; [|exact E2]. eapply nr_note; eauto. discriminate.
      * destruct (tkind u) eqn:K2;
          try (apply good_ok; split; [|exact E2]; eapply nr_note; eauto; cbn [kind]; kinds).
        apply good_ok. split; [eapply nr_slurred; eauto|].
        apply eats1_trans with (u :: r3); [exact E2|]. apply eats_one. kinds.
  - apply good_bind with (P := fun d r => duration_at ts d r /\ eats ts r) (ts' := ts).
    + apply eats_one. kinds.
    + now apply opt_duration_good.
    + intros d r [Hd He]. apply good_ok. split; [now apply nr_rest|].
      apply eats1_trans with ts; [apply eats1_one; kinds|exact He].
Qed.

Lemma between_good fuel ts : (4 * length ts + 1 <= fuel)%nat ->
  good (fun ns r => between_notes ts ns r /\ eats ts r) ts (between fuel ts).
Proof.
  revert ts. induction fuel as [|f IH]; intros ts Hf; [lia|]. cbn [between].
  destruct ts as [|t ts].
  - apply good_ok. split; [apply bn_end; cbn; discriminate|apply eats_refl].
  - cbn [length] in Hf.
    destruct (tkind t) eqn:K;
      try (apply good_ok; split; [apply bn_end; cbn [kind]; try (intros ?; kinds); kinds|apply eats_refl]).
    + apply good_bind with (P := fun n r => form (t :: ts) n r /\ eats1 (t :: ts) r) (ts' := t :: ts).
      * apply eats_refl.
      * apply lisp_list_good; [exact K|lia].
      * intros n r [H1 H2]. pose proof (eats1_length _ _ H2) as Hl. cbn [length] in Hl.
        apply good_bind with (P := fun ns r' => between_notes r ns r' /\ eats r r') (ts' := r).
        -- now apply eats1_eats.
        -- apply IH. lia.
        -- intros ns r' [H3 H4]. apply good_ok. split; [now apply bn_sexp with r|].
           apply eats_trans with r; [now apply eats1_eats|exact H4].
    + apply good_bind with (P := fun ns r => between_notes ts ns r /\ eats ts r) (ts' := ts);
        [apply eats_one; kinds | apply IH; lia|].
      intros ns r [H1 H2]. apply good_ok. split; [now apply bn_down|]. apply eats_trans with ts; [apply eats_one; kinds|exact H2].
    + apply good_bind with (P := fun ns r => between_notes ts ns r /\ eats ts r) (ts' := ts);
        [apply eats_one; kinds | apply IH; lia|].
      intros ns r [H1 H2]. apply good_ok. split; [now apply bn_set|]. apply eats_trans with ts; [apply eats_one; kinds|exact H2].
    + apply good_bind with (P := fun ns r => between_notes ts ns r /\ eats ts r) (ts' := ts);
        [apply eats_one; kinds | apply IH; lia|].
      intros ns r [H1 H2]. apply good_ok. split; [now apply bn_up|]. apply eats_trans with ts; [apply eats_one; kinds|exact H2].
Qed.

Lemma chord_good fuel t ts : (4 * length ts + 2 <= fuel)%nat ->
  good (fun nk r => notes_at (t :: ts) (fst nk) (snd nk) r /\ eats1 (t :: ts) r) (t :: ts) (chord fuel t ts).
Proof.
  revert t ts. induction fuel as [|f IH]; intros t ts Hf; [lia|]. cbn [chord].
  apply good_bind with (P := fun n r => note_or_rest_at (t :: ts) n r /\ eats1 (t :: ts) r) (ts' := t :: ts).
  { apply eats_refl. } { apply note_or_rest_good. lia. }
  intros n r [Hn He]. pose proof (eats1_length _ _ He) as Hl. cbn [length] in Hl.
  assert (D : (forall k, kind r <> TRepeat k) ->
    good (fun nk r0 => notes_at (t :: ts) (fst nk) (snd nk) r0 /\ eats1 (t :: ts) r0) (t :: ts)
      (pbind (between f r) (fun before ts2 =>
        match kind ts2 with
        | TSeparator =>
            pbind (between f (tl ts2)) (fun after ts3 =>
            match ts3 with
            | t' :: ts4 =>
                match tkind t' with
                | TNote _ | TRest =>
                    pbind (chord f t' ts4) (fun nk r =>
                      POk (n :: before ++ after ++ fst nk, snd nk) r)
                | _ => PErr err_chord ts3
                end
            | [] => PErr err_chord ts3
            end)
        | _ => POk ([n], 0%Z) r
        end))).
  { intros Hnr.
    apply good_bind with (P := fun ns r' => between_notes r ns r' /\ eats r r') (ts' := r).
    { now apply eats1_eats. } { apply between_good. lia. }
    intros b r2 [Hb Hbe].
    destruct (kind r2) eqn:K2;
      try (apply good_ok; cbn [fst snd]; split; [|exact He]; apply na_one; [exact Hn|exact Hnr|];
           exists b, r2; split; [exact Hb|kinds]).
    destruct r2 as [|s r2]; [discriminate|]. cbn [kind tl] in *.
    assert (E2 : eats1 (t :: ts) r2).
    { apply eats1_trans with r; [exact He|]. apply eats_trans with (s :: r2); [exact Hbe|]. apply eats_one. kinds. }
    pose proof (eats1_length _ _ E2) as Hl2. cbn [length] in Hl2.
    apply good_bind with (P := fun ns r' => between_notes r2 ns r' /\ eats r2 r') (ts' := r2).
    { now apply eats1_eats. } { apply between_good. lia. }
    intros a r3 [Ha Hae].
    assert (E3 : eats1 (t :: ts) r3) by (now apply eats1_trans with r2).
    destruct r3 as [|t' r4]; [apply good_err; now apply eats1_eats|].
    pose proof (eats1_length _ _ E3) as Hl3. cbn [length] in Hl3.
    assert (R : good (fun nk r0 => notes_at (t :: ts) (fst nk) (snd nk) r0 /\ eats1 (t :: ts) r0) (t :: ts)
       (pbind (chord f t' r4) (fun nk r => POk (n :: b ++ a ++ fst nk, snd nk) r))).
    { apply good_bind with (P := fun nk r0 => notes_at (t' :: r4) (fst nk) (snd nk) r0 /\ eats1 (t' :: r4) r0) (ts' := t' :: r4).
      { now apply eats1_eats. } { apply IH. lia. }
      intros [ns k] r5 [H5 E5]. cbn [fst snd] in *. apply good_ok. cbn [fst snd].
      split; [now apply na_more with r s r2 (t' :: r4)|].
      apply eats1_trans with (t' :: r4); [exact E3|now apply eats1_eats]. }
    destruct (tkind t'); try exact R; apply good_err; now apply eats1_eats. }
  destruct (kind r) eqn:K; try (apply D; intros ?; kinds).
  destruct r as [|u r]; [discriminate|]. cbn [kind tl] in *. apply good_ok. cbn [fst snd].
  split; [now apply na_repeat with u|]. apply eats1_trans with (u :: r); [exact He|]. apply eats_one. kinds.
Qed.

(* the count of notes and rests decides whether it is a chord *)
Lemma note_is ts n r : note_or_rest_at ts n r -> is_note_or_rest n = true.
Proof. destruct 1; reflexivity. Qed.
Lemma notes_head ts ns k r : notes_at ts ns k r ->
  exists n ms, ns = n :: ms /\ (1 <=? Z.of_nat (length (filter is_note_or_rest ns)))%Z = true /\
   (ms <> [] -> (1 <? Z.of_nat (length (filter is_note_or_rest ns)))%Z = true) .
Proof.
  induction 1 as [ts n r Hn|ts n t k r Hn|ts n r b s r1 a r2 ns k r3 Hn Hb Hs Ha H (n' & ms' & -> & IH & _)];
    apply note_is in Hn.
  - exists n, []. cbn [filter]. rewrite Hn. split; [reflexivity|split; [reflexivity|congruence]].
  - exists n, []. cbn [filter]. rewrite Hn. split; [reflexivity|split; [reflexivity|congruence]].
  - exists n, (b ++ a ++ n' :: ms'). split; [reflexivity|].
    remember (n' :: ms') as l. cbn [filter]. rewrite Hn. rewrite !filter_app. cbn [length]. rewrite !app_length.
    apply Z.leb_le in IH. split; [apply Z.leb_le|intros _; apply Z.ltb_lt]; lia.
Qed.

Lemma notes_good fuel t ts : (4 * length ts + 2 <= fuel)%nat ->
  good (fun n r => (exists ns k, notes_at (t :: ts) ns k r /\ n = maybe_times (one_or_chord ns) k) /\ eats1 (t :: ts) r)
    (t :: ts) (note_rest_or_chord fuel t ts).
Proof.
  intros Hf. unfold note_rest_or_chord.
  apply good_bind with (P := fun nk r => notes_at (t :: ts) (fst nk) (snd nk) r /\ eats1 (t :: ts) r) (ts' := t :: ts).
  { apply eats_refl. } { now apply chord_good. }
  intros [ns k] r [Hn He]. cbn [fst snd] in *.
  destruct (notes_head _ _ _ _ Hn) as (n & ms & -> & H1 & H2).
  destruct ms as [|m ms].
  - assert (Hone : (1 <? Z.of_nat (length (filter is_note_or_rest [n])))%Z = false).
    { cbn [filter]. destruct (is_note_or_rest n); reflexivity. }
    rewrite Hone. cbv iota beta zeta.
    destruct (0 <? k)%Z eqn:E; apply good_ok; (split; [exists [n], k; split; [exact Hn|]|exact He]);
      unfold maybe_times; rewrite E; reflexivity.
  - rewrite H2 by discriminate. cbv iota beta zeta.
    destruct (0 <? k)%Z eqn:E; apply good_ok; (split; [exists (n :: m :: ms), k; split; [exact Hn|]|exact He]);
      unfold maybe_times; rewrite E; reflexivity.
Qed.

(** ** Events *)
Ltac ok_one := apply good_ok; split;
  [first [ apply ev_octave_set; assumption | apply ev_octave_up; assumption | apply ev_octave_down; assumption
         | apply ev_barline; assumption | apply ev_marker; assumption | apply ev_at_marker; assumption ]
  | apply eats1_one; kinds].

Lemma event_good fuel :
  (forall ts, (4 * length ts + 1 <= fuel)%nat ->
     good (fun n r => event ts n r /\ eats1 ts r) ts (inner fuel ts)) /\
  (forall line ts, (4 * length ts + 2 <= fuel)%nat ->
     good (fun ns r => on_line line ts ns r /\ eats ts r) ts (line_events fuel line ts)) /\
  (forall ts, (4 * length ts + 2 <= fuel)%nat ->
     good (fun ns r => seq_body ts ns r /\ eats1 ts r) ts (seq_events fuel ts)) /\
  (forall ts, (4 * length ts + 2 <= fuel)%nat ->
     good (fun ns r => (cram_body ts ns r /\ (ns = [] -> kind ts = TCramClose)) /\ eats1 ts r) ts (cram_events fuel ts)) /\
  (forall ts, (4 * length ts + 2 <= fuel)%nat ->
     good (fun ns r => voice_body ts ns r /\ eats ts r) ts (voice_events fuel ts)) /\
  (forall n ts, (4 * length ts + 3 <= fuel)%nat ->
     good (fun ns r => voices_at n ts ns r /\ eats ts r) ts (voices fuel n ts)).
Proof.
  induction fuel as [|f (IHe & IHl & IHs & IHc & IHv & IHvs)]; [repeat split; intros; lia|].
  repeat split.
  - (* inner *)
    intros ts Hf. destruct ts as [|t ts]; rewrite inner_eq; [apply good_err, eats_refl|]. cbn [length] in Hf.
    destruct (tkind t) eqn:K; try (apply good_err, eats_refl); try ok_one.
    + (* cram *)
      apply good_bind with (P := fun ns r => (cram_body ts ns r /\ (ns = [] -> kind ts = TCramClose)) /\ eats1 ts r) (ts' := ts).
      { apply eats_one; kinds. } { apply IHc; lia. }
      intros es r1 [[Hc Hcc] He].
      destruct es as [|e es].
      { destruct ts as [|c q]; [specialize (Hcc eq_refl); discriminate|].
        exists [], t, c, q. repeat split; [exact K|now apply Hcc]. }
      assert (E1 : eats1 (t :: ts) r1) by (apply eats1_trans with ts; [apply eats1_one; kinds|now apply eats1_eats]).
      pose proof (eats1_length _ _ He) as Hl.
      apply good_bind with (P := fun d r => duration_at r1 d r /\ eats r1 r) (ts' := r1).
      { now apply eats1_eats. } { apply opt_duration_good. lia. }
      intros d r [Hd Hde].
      assert (E2 : eats1 (t :: ts) r) by (now apply eats1_trans with r1).
      apply good_at with r; [now apply eats1_eats|].
      eapply good_impl; [|apply repeated_good]. intros n' r' [Hr Hre]. split; [|now apply eats1_trans with r].
      eapply ev_cram; eauto. discriminate.
    + (* seq *)
      apply good_bind with (P := fun ns r => seq_body ts ns r /\ eats1 ts r) (ts' := ts).
      { apply eats_one; kinds. } { apply IHs; lia. }
      intros es r [Hs He].
      assert (E1 : eats1 (t :: ts) r) by (apply eats1_trans with ts; [apply eats1_one; kinds|now apply eats1_eats]).
      apply good_at with r; [now apply eats1_eats|].
      eapply good_impl; [|apply repeated_good]. intros n' r' [Hr Hre]. split; [|now apply eats1_trans with r].
      eapply ev_seq; eauto.
    + (* sexp *)
      apply good_bind with (P := fun n r => form (t :: ts) n r /\ eats1 (t :: ts) r) (ts' := t :: ts).
      { apply eats_refl. } { apply lisp_list_good; [exact K|lia]. }
      intros n r [Hn He]. apply good_at with r; [now apply eats1_eats|].
      eapply good_impl; [|apply repeated_good]. intros n' r' [Hr Hre]. split; [|now apply eats1_trans with r].
      eapply ev_sexp; eauto.
    + (* name *)
      assert (He : eats1 (t :: ts) ts) by (apply eats1_one; kinds).
      assert (D : kind ts <> TEquals ->
        good (fun n r => event (t :: ts) n r /\ eats1 (t :: ts) r) (t :: ts)
          (single_or_repeated (leaf VariableReferenceNode (LitText (ttext t))) ts)).
      { intros Hne. apply good_at with ts; [now apply eats1_eats|].
        eapply good_impl; [|apply repeated_good]. intros n' r' [Hr Hre].
        split; [eapply ev_name; eauto|now apply eats1_trans with ts]. }
      destruct (kind ts) eqn:K2; try (apply D; discriminate).
      destruct ts as [|e ts]; [discriminate|]. cbn [tl kind] in *.
      assert (He2 : eats1 (t :: e :: ts) ts).
      { apply eats1_trans with (e :: ts); [exact He|]. apply eats_one. kinds. }
      cbn [length] in Hf.
      assert (G : kind ts <> TEOF ->
        good (fun n r => event (t :: e :: ts) n r /\ eats1 (t :: e :: ts) r) (t :: e :: ts)
          (if (tline t <? line_of ts)%Z
           then PErr err_no_event (t :: e :: ts)
           else pbind (line_events f (tline t) ts) (fun es r => POk (var_def_node (ttext t) es) r))).
      { intros Hk. destruct (tline t <? line_of ts)%Z eqn:EL; [apply good_err, eats_refl|].
        apply Z.ltb_ge in EL.
        apply good_bind with (P := fun ns r => on_line (tline t) ts ns r /\ eats ts r) (ts' := ts).
        { now apply eats1_eats. } { apply IHl. lia. }
        intros es r [Ho Hoe]. apply good_ok. split; [now apply ev_define|now apply eats1_trans with ts]. }
      destruct (kind ts) eqn:K3; try (apply G; discriminate). apply good_err, eats_refl.
    + (* note *)
      eapply good_impl; [|apply notes_good; lia].
      intros n r0 [(ns & k & H & ->) He]. split; [now apply ev_notes|exact He].
    + (* rest *)
      eapply good_impl; [|apply notes_good; lia].
      intros n r0 [(ns & k & H & ->) He]. split; [now apply ev_notes|exact He].
    + (* voices *)
      apply good_bind with (P := fun ns r => voices_at n ts ns r /\ eats ts r) (ts' := ts).
      { apply eats_one; kinds. } { apply IHvs; lia. }
      intros vs r [Hv He]. apply good_ok. split; [now apply ev_voices with n|].
      apply eats1_trans with ts; [apply eats1_one; kinds|exact He].
  - (* line events *)
    intros line ts Hf. rewrite line_events_eq. destruct ts as [|t ts].
    { apply good_ok. split; [apply ol_end; now left|apply eats_refl]. }
    assert (D : tkind t <> TEOF ->
      good (fun ns r => on_line line (t :: ts) ns r /\ eats (t :: ts) r) (t :: ts)
        (if (tline t =? line)%Z
         then pbind (inner f (t :: ts)) (fun n r => pbind (line_events f line r) (fun ns r' => POk (n :: ns) r'))
         else POk [] (t :: ts))).
    { intros Hk. destruct (tline t =? line)%Z eqn:EL.
      - apply Z.eqb_eq in EL.
        apply good_bind with (P := fun n r => event (t :: ts) n r /\ eats1 (t :: ts) r) (ts' := t :: ts).
        { apply eats_refl. } { apply IHe. lia. }
        intros n r [H1 H2]. pose proof (eats1_length _ _ H2) as Hl.
        apply good_bind with (P := fun ns r' => on_line line r ns r' /\ eats r r') (ts' := r).
        { now apply eats1_eats. } { apply IHl. lia. }
        intros ns r' [H3 H4]. apply good_ok. split; [now apply ol_event with r|].
        apply eats_trans with r; [now apply eats1_eats|exact H4].
      - apply Z.eqb_neq in EL. apply good_ok. split; [apply ol_end; right; exact EL|apply eats_refl]. }
    destruct (tkind t) eqn:K; try (apply D; discriminate).
    apply good_ok. split; [apply ol_end; now left|apply eats_refl].
  - (* sequence *)
    intros ts Hf. rewrite seq_events_eq. destruct ts as [|t ts]; [apply good_err, eats_refl|].
    assert (D : good (fun ns r => seq_body (t :: ts) ns r /\ eats1 (t :: ts) r) (t :: ts)
      (pbind (inner f (t :: ts)) (fun n r =>
              match kind r with
              | TReps rs => pbind (seq_events f (tl r)) (fun ns r' => POk (on_repetitions n rs :: ns) r')
              | _ => pbind (seq_events f r) (fun ns r' => POk (n :: ns) r')
              end))).
    { apply good_bind with (P := fun n r => event (t :: ts) n r /\ eats1 (t :: ts) r) (ts' := t :: ts).
      { apply eats_refl. } { apply IHe. lia. }
      intros n r [H1 H2]. pose proof (eats1_length _ _ H2) as Hl.
      assert (P1 : (forall rs, kind r <> TReps rs) ->
        good (fun ns r => seq_body (t :: ts) ns r /\ eats1 (t :: ts) r) (t :: ts)
          (pbind (seq_events f r) (fun ns r' => POk (n :: ns) r'))).
      { intros Hnr. apply good_bind with (P := fun ns r' => seq_body r ns r' /\ eats1 r r') (ts' := r).
        { now apply eats1_eats. } { apply IHs. lia. }
        intros ns r' [H3 H4]. apply good_ok. split; [now apply sb_event with r|].
        apply eats1_trans with r; [exact H2|now apply eats1_eats]. }
      destruct (kind r) eqn:K; try (apply P1; intros ?; discriminate).
      destruct r as [|u r]; [discriminate|]. cbn [kind tl length] in *.
      assert (E2 : eats1 (t :: ts) r).
      { apply eats1_trans with (u :: r); [exact H2|]. apply eats_one. kinds. }
      apply good_bind with (P := fun ns r' => seq_body r ns r' /\ eats1 r r') (ts' := r).
      { now apply eats1_eats. } { apply IHs. lia. }
      intros ns r' [H3 H4]. apply good_ok. split; [now apply sb_reps with u r|].
      apply eats1_trans with r; [exact E2|now apply eats1_eats]. }
    destruct (tkind t) eqn:K; try exact D.
    + apply good_err, eats_refl.
    + apply good_ok. split; [now apply sb_end|apply eats1_one; kinds].
  - (* cram *)
    intros ts Hf. rewrite cram_events_eq. destruct ts as [|t ts]; [apply good_err, eats_refl|].
    assert (D : good (fun ns r => (cram_body (t :: ts) ns r /\ (ns = [] -> kind (t :: ts) = TCramClose)) /\ eats1 (t :: ts) r) (t :: ts)
      (pbind (inner f (t :: ts)) (fun n r => pbind (cram_events f r) (fun ns r' => POk (n :: ns) r')))).
    { apply good_bind with (P := fun n r => event (t :: ts) n r /\ eats1 (t :: ts) r) (ts' := t :: ts).
      { apply eats_refl. } { apply IHe. lia. }
      intros n r [H1 H2]. pose proof (eats1_length _ _ H2) as Hl.
      apply good_bind with (P := fun ns r' => (cram_body r ns r' /\ (ns = [] -> kind r = TCramClose)) /\ eats1 r r') (ts' := r).
      { now apply eats1_eats. } { apply IHc. lia. }
      intros ns r' [[H3 _] H4]. apply good_ok.
      split; [split; [now apply cb_event with r|discriminate]|].
      apply eats1_trans with r; [exact H2|now apply eats1_eats]. }
    destruct (tkind t) eqn:K; try exact D.
    + apply good_ok. split; [split; [now apply cb_end|intros _; exact K]|apply eats1_one; kinds].
    + apply good_err, eats_refl.
  - (* voice events *)
    intros ts Hf. rewrite voice_events_eq. destruct (ends_voice ts) eqn:E.
    { apply good_ok. split; [now apply vb_end|apply eats_refl]. }
    apply good_bind with (P := fun n r => event ts n r /\ eats1 ts r) (ts' := ts).
    { apply eats_refl. } { apply IHe. lia. }
    intros n r [H1 H2]. pose proof (eats1_length _ _ H2) as Hl.
    apply good_bind with (P := fun ns r' => voice_body r ns r' /\ eats r r') (ts' := r).
    { now apply eats1_eats. } { apply IHv. lia. }
    intros ns r' [H3 H4]. apply good_ok. split; [now apply vb_event with r|].
    apply eats_trans with r; [now apply eats1_eats|exact H4].
  - (* voices *)
    intros n ts Hf. rewrite voices_eq.
    apply good_bind with (P := fun ns r => voice_body ts ns r /\ eats ts r) (ts' := ts).
    { apply eats_refl. } { apply IHv. lia. }
    intros es r [H1 H2].
    assert (D : (forall m, kind r <> TVoice m) ->
      good (fun ns r => voices_at n ts ns r /\ eats ts r) ts (POk [voice_node n es] r)).
    { intros Hk. apply good_ok. split; [now apply va_last|exact H2]. }
    destruct (kind r) eqn:K; try (apply D; intros ?; discriminate).
    destruct r as [|t r]; [discriminate|]. cbn [kind tl] in *.
    assert (E2 : eats ts r) by (apply eats_trans with (t :: r); [exact H2|apply eats_one; kinds]).
    destruct (n0 =? 0)%Z eqn:E0.
    + apply Z.eqb_eq in E0. subst. apply good_ok. split; [now apply va_end with t|exact E2].
    + apply Z.eqb_neq in E0. apply eats_length in H2. cbn [length] in H2.
      apply good_bind with (P := fun ns r' => voices_at n0 r ns r' /\ eats r r') (ts' := r).
      { exact E2. } { apply IHvs. lia. }
      intros vs r' [H3 H4]. apply good_ok. split; [now apply va_more with t n0 r|].
      now apply eats_trans with r.
Qed.

(** ** Parts *)
Lemma part_events_good fuel ts : (4 * length ts + 2 <= fuel)%nat ->
  good (fun ns r => part_body ts ns r /\ eats ts r) ts (part_events fuel ts).
Proof.
  revert ts. induction fuel as [|f IH]; intros ts Hf; [lia|]. cbn [part_events].
  assert (D : kind ts <> TEOF ->
    good (fun ns r => part_body ts ns r /\ eats ts r) ts
      (if looks_like_part ts then POk [] ts
       else pbind (inner f ts) (fun n r => pbind (part_events f r) (fun ns r' => POk (n :: ns) r')))).
  { intros Hk. destruct (looks_like_part ts) eqn:E.
    - apply good_ok. split; [apply pb_end; now right|apply eats_refl].
    - apply good_bind with (P := fun n r => event ts n r /\ eats1 ts r) (ts' := ts).
      { apply eats_refl. } { apply (event_good f). lia. }
      intros n r [H1 H2]. pose proof (eats1_length _ _ H2) as Hl.
      apply good_bind with (P := fun ns r' => part_body r ns r' /\ eats r r') (ts' := r).
      { now apply eats1_eats. } { apply IH. lia. }
      intros ns r' [H3 H4]. apply good_ok. split; [now apply pb_event with r|].
      apply eats_trans with r; [now apply eats1_eats|exact H4]. }
  destruct (kind ts) eqn:K; try (apply D; discriminate).
  apply good_ok. split; [apply pb_end; now left|apply eats_refl].
Qed.

Lemma more_names_good fuel ts : (length ts + 1 <= fuel)%nat ->
  good (fun ns r => names_at ts ns r /\ eats ts r) ts (more_names fuel ts).
Proof.
  revert ts. induction fuel as [|f IH]; intros ts Hf; [lia|]. cbn [more_names].
  destruct (kind ts) eqn:K;
    try (apply good_ok; split; [apply nm_end; congruence|apply eats_refl]).
  destruct ts as [|s ts]; [discriminate|]. cbn [kind tl length] in *.
  assert (E1 : eats (s :: ts) ts) by (apply eats_one; kinds).
  destruct ts as [|t ts]; [now apply good_err|].
  destruct (tkind t) eqn:K2; try (now apply good_err).
  assert (E2 : eats (s :: t :: ts) ts) by (apply eats_trans with (t :: ts); [exact E1|apply eats_one; kinds]).
  apply good_bind with (P := fun ns r => names_at ts ns r /\ eats ts r) (ts' := ts).
  { exact E2. } { apply IH. cbn [length] in Hf. lia. }
  intros ns r [H1 H2]. apply good_ok. split; [now apply nm_more|now apply eats_trans with ts].
Qed.

Lemma declaration_good fuel t ts : tkind t = TName -> (length ts + 1 <= fuel)%nat ->
  good (fun d r => declaration (t :: ts) d r /\ eats1 (t :: ts) r) (t :: ts) (part_declaration fuel t ts).
Proof.
  intros K Hf. unfold part_declaration.
  assert (E0 : eats1 (t :: ts) ts) by (apply eats1_one; kinds).
  apply good_bind with (P := fun ns r => names_at ts ns r /\ eats ts r) (ts' := ts).
  { now apply eats1_eats. } { now apply more_names_good. }
  intros ns r [H1 H2]. cbv zeta.
  assert (E1 : eats1 (t :: ts) r) by (now apply eats1_trans with ts).
  assert (D : (forall s, kind r <> TAlias s) ->
    good (fun d r => declaration (t :: ts) d r /\ eats1 (t :: ts) r) (t :: ts)
      (match kind r with
       | TColon => POk (branch PartDeclarationNode [branch PartNamesNode (name_node t :: ns)]) (tl r)
       | _ => PErr err_part r
       end)).
  { intros _. destruct (kind r) eqn:K2; try (apply good_err; now apply eats1_eats).
    destruct r as [|c r]; [discriminate|]. cbn [kind tl] in *. apply good_ok.
    split; [now apply dc_plain with c|]. apply eats1_trans with (c :: r); [exact E1|apply eats_one; kinds]. }
  destruct (kind r) eqn:K1; try (rewrite K1; apply D; intros ?; discriminate); clear D.
  destruct r as [|a r]; [discriminate|]. cbn [kind tl] in *.
  assert (E2 : eats1 (t :: ts) r) by (apply eats1_trans with (a :: r); [exact E1|apply eats_one; kinds]).
  destruct (kind r) eqn:K2; try (apply good_err; now apply eats1_eats).
  destruct r as [|c r]; [discriminate|]. cbn [kind tl] in *. apply good_ok.
  split; [now apply dc_alias with a c|]. apply eats1_trans with (c :: r); [exact E2|apply eats_one; kinds].
Qed.

Lemma looks_name ts : looks_like_part ts = true -> exists t ts', ts = t :: ts' /\ tkind t = TName.
Proof.
  unfold looks_like_part. destruct ts as [|t ts]; [discriminate|]. cbn [kind].
  destruct (tkind t) eqn:K; try discriminate. intros _. now exists t, ts.
Qed.


Lemma part_events_good1 fuel ts : (4 * length ts + 2 <= fuel)%nat -> kind ts <> TEOF -> looks_like_part ts = false ->
  good (fun ns r => part_body ts ns r /\ eats1 ts r) ts (part_events fuel ts).
Proof.
  intros Hf Hk Hl. destruct fuel as [|f]; [lia|]. cbn [part_events]. rewrite Hl.
  assert (D : good (fun ns r => part_body ts ns r /\ eats1 ts r) ts
    (pbind (inner f ts) (fun n r => pbind (part_events f r) (fun ns r' => POk (n :: ns) r')))).
  { apply good_bind with (P := fun n r => event ts n r /\ eats1 ts r) (ts' := ts).
    { apply eats_refl. } { apply (event_good f). lia. }
    intros n r [H1 H2]. pose proof (eats1_length _ _ H2) as Hl2.
    apply good_bind with (P := fun ns r' => part_body r ns r' /\ eats r r') (ts' := r).
    { now apply eats1_eats. } { apply part_events_good. lia. }
    intros ns r' [H3 H4]. apply good_ok. split; [now apply pb_event with r|].
    now apply eats1_trans with r. }
  destruct (kind ts); try exact D. congruence.
Qed.

Lemma top_levels_good fuel ts : (4 * length ts + 4 <= fuel)%nat ->
  good (fun ns r => parts_at ts ns r /\ eats ts r) ts (top_levels fuel ts).
Proof.
  revert ts. induction fuel as [|f IH]; intros ts Hf; [lia|]. cbn [top_levels].
  assert (D : kind ts <> TEOF ->
    good (fun ns r => parts_at ts ns r /\ eats ts r) ts
      (pbind (top_level f ts) (fun n r => pbind (top_levels f r) (fun ns r' => POk (n :: ns) r')))).
  { intros Hk. unfold top_level. destruct (looks_like_part ts) eqn:E.
    - destruct (looks_name _ E) as (t & ts' & -> & K). cbn [length] in Hf.
      assert (X : good (fun n r => (exists d r1 es, n = branch PartNode [d; branch EventSequenceNode es] /\
                     declaration (t :: ts') d r1 /\ part_body r1 es r) /\ eats1 (t :: ts') r) (t :: ts')
         (pbind (part_declaration f t ts') (fun d r =>
           pbind (part_events f r) (fun es r' => POk (branch PartNode [d; branch EventSequenceNode es]) r')))).
      { apply good_bind with (P := fun d r => declaration (t :: ts') d r /\ eats1 (t :: ts') r) (ts' := t :: ts').
        { apply eats_refl. } { apply declaration_good; [exact K|lia]. }
        intros d r [H1 H2]. pose proof (eats1_length _ _ H2) as Hl. cbn [length] in Hl.
        apply good_bind with (P := fun ns r' => part_body r ns r' /\ eats r r') (ts' := r).
        { now apply eats1_eats. } { apply part_events_good. lia. }
        intros es r' [H3 H4]. apply good_ok. split; [now exists d, r, es|now apply eats1_trans with r]. }
      eapply good_bind; [apply eats_refl|exact X|].
      intros n r [(d & r1 & es & -> & H1 & H2) He]. pose proof (eats1_length _ _ He) as Hl. cbn [length] in Hl.
      apply good_bind with (P := fun ns r' => parts_at r ns r' /\ eats r r') (ts' := r).
      { now apply eats1_eats. } { apply IH. lia. }
      intros ns r' [H3 H4]. apply good_ok. split; [now apply ps_part with r1 r|].
      apply eats_trans with r; [now apply eats1_eats|exact H4].
    - assert (X : good (fun n r => (exists es, n = branch ImplicitPartNode [branch EventSequenceNode es] /\
                     part_body ts es r) /\ eats1 ts r) ts
         (pbind (part_events f ts) (fun es r => POk (branch ImplicitPartNode [branch EventSequenceNode es]) r))).
      { apply good_bind with (P := fun ns r' => part_body ts ns r' /\ eats1 ts r') (ts' := ts).
        { apply eats_refl. } { apply part_events_good1; [lia|exact Hk|exact E]. }
        intros es r' [H3 H4]. apply good_ok. split; [now exists es|exact H4]. }
      eapply good_bind; [apply eats_refl|exact X|].
      intros n r [(es & -> & H1) He]. pose proof (eats1_length _ _ He) as Hl.
      apply good_bind with (P := fun ns r' => parts_at r ns r' /\ eats r r') (ts' := r).
      { now apply eats1_eats. } { apply IH. lia. }
      intros ns r' [H3 H4]. apply good_ok. split; [now apply ps_implicit with r|].
      apply eats_trans with r; [now apply eats1_eats|exact H4]. }
  destruct (kind ts) eqn:K; try (apply D; discriminate).
  apply good_ok. split; [now apply ps_end|apply eats_refl].
Qed.

Theorem parse_tokens_good ts :
  good (fun a r => score_tree ts a /\ eats ts r) ts (parse_tokens ts).
Proof.
  unfold parse_tokens.
  apply good_bind with (P := fun ns r => parts_at ts ns r /\ eats ts r) (ts' := ts).
  { apply eats_refl. } { apply top_levels_good. lia. }
  intros ns r [H1 H2]. apply good_ok. split; [now exists ns, r|exact H2].
Qed.

(** ** Everything the grammar describes is accepted *)
Lemma form_head ts n r : form ts n r -> exists t ts', ts = t :: ts' /\
  (tkind t = TSymbol \/ (exists x, tkind t = TNumber x) \/ (exists s, tkind t = TString s) \/ tkind t = TLParen).
Proof. destruct 1; eauto 10. Qed.

Lemma lisp_complete :
  (forall ts n r, form ts n r -> eats1 ts r /\
     forall fuel, (4 * length ts + 1 <= fuel)%nat -> lisp_form fuel ts = POk n r) /\
  (forall ts ns r, forms ts ns r -> eats1 ts r /\
     forall fuel, (4 * length ts + 2 <= fuel)%nat -> lisp_forms fuel ts = POk ns r).
Proof.
  apply form_forms_ind.
  - intros t r K. split; [apply eats1_one; kinds|]. intros [|f] Hf; [lia|]. rewrite lisp_form_eq. now rewrite K.
  - intros t x r K. split; [apply eats1_one; kinds|]. intros [|f] Hf; [lia|]. rewrite lisp_form_eq. now rewrite K.
  - intros t x r K. split; [apply eats1_one; kinds|]. intros [|f] Hf; [lia|]. rewrite lisp_form_eq. now rewrite K.
  - intros t ts ns r K _ [He IH]. split.
    { apply eats1_trans with ts; [apply eats1_one; kinds|now apply eats1_eats]. }
    intros [|f] Hf; [lia|]. cbn [length] in Hf. rewrite lisp_form_eq. rewrite K, IH by lia. reflexivity.
  - intros t r K. split; [apply eats1_one; kinds|]. intros [|f] Hf; [lia|]. rewrite lisp_forms_eq. now rewrite K.
  - intros ts n r ns r' Hform [He IH] _ [He2 IH2]. split.
    { apply eats1_trans with r; [exact He|now apply eats1_eats]. }
    intros [|f] Hf; [lia|]. pose proof (eats1_length _ _ He) as Hl. rewrite lisp_forms_eq.
    destruct (form_head _ _ _ Hform) as (t & ts' & -> & Hk).
    assert (E : pbind (lisp_form f (t :: ts')) (fun n0 r0 => pbind (lisp_forms f r0) (fun ns0 r'0 => POk (n0 :: ns0) r'0))
                = POk (n :: ns) r').
    { rewrite IH by lia. cbn [pbind]. rewrite IH2 by lia. reflexivity. }
    destruct Hk as [K|[(x & K)|[(x & K)|K]]]; rewrite K; exact E.
  - intros t ts n r ns r' K _ [He IH] _ [He2 IH2]. split.
    { apply eats1_trans with ts; [apply eats1_one; kinds|]. apply eats_trans with r; now apply eats1_eats. }
    intros [|f] Hf; [lia|]. pose proof (eats1_length _ _ He) as Hl. cbn [length] in Hf. rewrite lisp_forms_eq. rewrite K.
    rewrite IH by lia. cbn [pbind]. rewrite IH2 by lia. reflexivity.
Qed.

Lemma lisp_list_complete t ts n r fuel : tkind t = TLParen -> form (t :: ts) n r ->
  (4 * length ts + 2 <= fuel)%nat -> lisp_list fuel ts = POk n r.
Proof.
  intros K H Hf. inversion H as [| | |t' ts' ns r' K' Hfs]; subst; try congruence.
  unfold lisp_list. rewrite (proj2 (proj2 lisp_complete _ _ _ Hfs)) by exact Hf. reflexivity.
Qed.
Lemma form_eats ts n r : form ts n r -> eats1 ts r.
Proof. intros H. apply (proj1 lisp_complete _ _ _ H). Qed.

Lemma repeated_complete n ts n' r : repeated n ts n' r -> single_or_repeated n ts = POk n' r.
Proof.
  destruct 1 as [n r H|n t k r K]; unfold single_or_repeated.
  - destruct r as [|t r]; [reflexivity|]. cbn [kind] in H. destruct (tkind t); try reflexivity. now destruct (H times).
  - now rewrite K.
Qed.
Lemma repeated_eats n ts n' r : repeated n ts n' r -> eats ts r.
Proof. destruct 1; [apply eats_refl|apply eats_one; kinds]. Qed.

Lemma bars_none ts : kind ts <> TBarline -> bars ts = (O, ts).
Proof. intros H. exact (bars_app [] ts (Forall_nil _) H). Qed.

Lemma tied_eats ts ns r : tied_length ts ns r -> eats1 ts r.
Proof.
  intros H. destruct H as [t bs us l c r Ht Hb Hu Hl]. destruct (length_not_tie _ _ Hl) as (_ & _ & Nl).
  apply eats1_trans with (bs ++ us ++ l :: r); [apply eats1_one; kinds|].
  apply eats_trans with (us ++ l :: r); [now apply eats_bars|].
  apply eats_trans with (l :: r); [now apply eats_ties|now apply eats_one].
Qed.
Lemma duration_rest_eats ts ns r : duration_rest ts ns r -> eats ts r.
Proof.
  induction 1 as [r|t ts ns r K _ IH|ts ns r ms r' Ht _ IH].
  - apply eats_refl.
  - apply eats_trans with ts; [apply eats_one; kinds|exact IH].
  - apply eats_trans with r; [apply eats1_eats; now apply tied_eats in Ht|exact IH].
Qed.

Lemma more_duration_bar f t ts : tkind t = TBarline ->
  more_duration (S f) (t :: ts) = pbind (more_duration (S f) ts) (fun ns r => POk (barline :: ns) r).
Proof.
  intros K. cbn [more_duration]. cbn [bars]. rewrite K. destruct (bars ts) as [n r]. cbn [repeat].
  destruct r as [|u r]; [reflexivity|]. destruct (tkind u); try reflexivity.
  destruct (bars r) as [m ts2]. destruct (ties ts2) as [|l ts3]; [reflexivity|].
  destruct (length_node (tkind l)); [|reflexivity]. destruct (more_duration f ts3); reflexivity.
Qed.

Lemma more_duration_complete ts ns r : duration_rest ts ns r ->
  forall fuel, (length ts + 1 <= fuel)%nat -> more_duration fuel ts = POk ns r.
Proof.
  induction 1 as [r Hk Hno|t ts ns r K _ IH|ts ns r ms r' Ht _ IH]; intros [|f] Hf; try lia.
  - cbn [more_duration]. rewrite bars_none by exact Hk. cbn [repeat].
    destruct r as [|t r]; [reflexivity|].
    destruct (tkind t) eqn:K; try reflexivity.
    destruct (bars r) as [m ts2] eqn:E2. destruct (bars_spec _ _ _ E2) as (bs2 & -> & Hb2 & <- & Hk2).
    destruct (ties_spec ts2) as (us & Eu & Hu & Hku).
    destruct (ties ts2) as [|l r3]; [reflexivity|].
    destruct (length_node (tkind l)) as [c|] eqn:E4; [|reflexivity].
    exfalso. apply (Hno (map (fun _ => barline) bs2 ++ [c]) r3). rewrite Eu. now apply tied.
  - rewrite more_duration_bar by exact K. rewrite IH by (cbn [length] in Hf; lia). reflexivity.
  - pose proof (eats1_length _ _ (tied_eats _ _ _ Ht)) as Hl.
    destruct (tied_read _ _ _ Ht) as (t & ts1 & m & ts2 & l & c & -> & K & Hb & Hu & Hc & ->).
    cbn [more_duration]. rewrite bars_none by (cbn [kind]; kinds). cbn [repeat].
    rewrite K, Hb, Hu, Hc. rewrite IH by lia. cbn [pbind app]. now rewrite <- app_assoc.
Qed.

Lemma opt_duration_complete ts d r fuel : duration_at ts d r -> (length ts <= fuel)%nat -> opt_duration fuel ts = POk d r.
Proof.
  intros H Hf. destruct H as [r Hn|t ts c ns r Hc H]; unfold opt_duration.
  - destruct r as [|t r]; [reflexivity|]. cbn [kind] in Hn. now rewrite Hn.
  - rewrite Hc. rewrite (more_duration_complete _ _ _ H) by (cbn [length] in Hf; lia). reflexivity.
Qed.
Lemma duration_eats ts d r : duration_at ts d r -> eats ts r.
Proof.
  destruct 1 as [r Hn|t ts c ns r Hc H]; [apply eats_refl|].
  destruct (length_not_tie _ _ Hc) as (_ & _ & Nl).
  apply eats_trans with ts; [now apply eats_one|]. eapply duration_rest_eats; eauto.
Qed.

Lemma accidentals_complete ts l r : accs ts l r -> accidentals ts = (l, r) /\ eats ts r.
Proof.
  induction 1 as [r Hn|t ts a ns r Ha _ [IH He]].
  - split; [|apply eats_refl]. destruct r as [|t r]; [reflexivity|]. cbn [kind accidentals] in *. now rewrite Hn.
  - split; [cbn [accidentals]; now rewrite Ha, IH|]. apply eats_trans with ts; [|exact He].
    apply eats_one. destruct (tkind t); cbn in Ha; congruence.
Qed.

Lemma note_or_rest_complete ts n r : note_or_rest_at ts n r ->
  exists t ts', ts = t :: ts' /\ eats1 ts r /\ ((exists l, tkind t = TNote l) \/ tkind t = TRest) /\
    forall fuel, (length ts' <= fuel)%nat -> note_or_rest fuel t ts' = POk n r.
Proof.
  destruct 1 as [t l ts as_ r1 d r K Ha Hd Hk|t l ts as_ r1 d u r K Ha Hd Hk|t ts d r K Hd];
    exists t, ts; (split; [reflexivity|]).
  - destruct (accidentals_complete _ _ _ Ha) as [Ea He]. split; [|split; [left; now exists l|]].
    { apply eats1_trans with ts; [apply eats1_one; kinds|]. apply eats_trans with r1; [exact He|eapply duration_eats; eauto]. }
    intros fuel Hf. apply eats_length in He. unfold note_or_rest. rewrite K. unfold note. rewrite Ea.
    rewrite (opt_duration_complete _ _ _ fuel Hd) by lia. cbn [pbind].
    destruct r as [|u r]; [reflexivity|]. cbn [kind] in Hk. destruct (tkind u); try reflexivity. congruence.
  - destruct (accidentals_complete _ _ _ Ha) as [Ea He]. split; [|split; [left; now exists l|]].
    { apply eats1_trans with ts; [apply eats1_one; kinds|]. apply eats_trans with r1; [exact He|].
      apply eats_trans with (u :: r); [eapply duration_eats; eauto|]. apply eats_one. kinds. }
    intros fuel Hf. apply eats_length in He. unfold note_or_rest. rewrite K. unfold note. rewrite Ea.
    rewrite (opt_duration_complete _ _ _ fuel Hd) by lia. cbn [pbind]. now rewrite Hk.
  - split; [|split; [now right|]].
    { apply eats1_trans with ts; [apply eats1_one; kinds|eapply duration_eats; eauto]. }
    intros fuel Hf. unfold note_or_rest. rewrite K. rewrite (opt_duration_complete _ _ _ fuel Hd) by lia. reflexivity.
Qed.

Lemma between_complete ts ns r : between_notes ts ns r -> eats ts r /\
  forall fuel, (4 * length ts + 1 <= fuel)%nat -> between fuel ts = POk ns r.
Proof.
  induction 1 as [r H1 H2 H3 H4|t ts ns r K _ [He IH]|t ts ns r K _ [He IH]|t n ts ns r K _ [He IH]|t ts n r ns r' K Hform _ [He IH]].
  - split; [apply eats_refl|]. intros [|f] Hf; [lia|]. cbn [between].
    destruct r as [|t r]; [reflexivity|]. cbn [kind] in *. destruct (tkind t); try reflexivity; try congruence.
  - split; [apply eats_trans with ts; [apply eats_one; kinds|exact He]|]. intros [|f] Hf; [lia|]. cbn [length] in Hf.
    cbn [between]. rewrite K, IH by lia. reflexivity.
  - split; [apply eats_trans with ts; [apply eats_one; kinds|exact He]|]. intros [|f] Hf; [lia|]. cbn [length] in Hf.
    cbn [between]. rewrite K, IH by lia. reflexivity.
  - split; [apply eats_trans with ts; [apply eats_one; kinds|exact He]|]. intros [|f] Hf; [lia|]. cbn [length] in Hf.
    cbn [between]. rewrite K, IH by lia. reflexivity.
  - pose proof (form_eats _ _ _ Hform) as Hfe.
    split; [apply eats_trans with r; [now apply eats1_eats|exact He]|]. intros [|f] Hf; [lia|].
    apply eats1_length in Hfe. cbn [length] in *.
    cbn [between]. rewrite K. rewrite (lisp_list_complete _ _ _ _ f K Hform) by lia. cbn [pbind]. rewrite IH by lia. reflexivity.
Qed.

Lemma chord_complete ts ns k r : notes_at ts ns k r ->
  exists t ts', ts = t :: ts' /\ eats1 ts r /\ ((exists l, tkind t = TNote l) \/ tkind t = TRest) /\
    forall fuel, (4 * length ts' + 2 <= fuel)%nat -> chord fuel t ts' = POk (ns, k) r.
Proof.
  induction 1 as [ts n r Hn Hr (b & r' & Hb & Hs)|ts n u k r Hn K|ts n r b s r1 a r2 ns k r3 Hn Hb Hs Ha H (t2 & ts2 & -> & He2 & Hk2 & IH)];
    destruct (note_or_rest_complete _ _ _ Hn) as (t & ts' & -> & He & Hk & E); exists t, ts'; (split; [reflexivity|]).
  - split; [exact He|split; [exact Hk|]]. intros [|f] Hf; [lia|]. cbn [chord]. rewrite E by lia. cbn [pbind].
    apply eats1_length in He. cbn [length] in He.
    destruct (between_complete _ _ _ Hb) as [_ Eb].
    assert (X : pbind (between f r) (fun before ts2 =>
        match kind ts2 with
        | TSeparator =>
            pbind (between f (tl ts2)) (fun after ts3 =>
            match ts3 with
            | t' :: ts4 =>
                match tkind t' with
                | TNote _ | TRest =>
                    pbind (chord f t' ts4) (fun nk r =>
                      POk (n :: before ++ after ++ fst nk, snd nk) r)
                | _ => PErr err_chord ts3
                end
            | [] => PErr err_chord ts3
            end)
        | _ => POk ([n], 0%Z) r
        end) = POk ([n], 0%Z) r).
    { rewrite Eb by lia. cbn [pbind]. destruct (kind r'); try reflexivity. congruence. }
    destruct (kind r) eqn:Kr; try exact X. now destruct (Hr times).
  - split; [apply eats1_trans with (u :: r); [exact He|apply eats_one; kinds]|split; [exact Hk|]].
    intros [|f] Hf; [lia|]. cbn [chord]. rewrite E by lia. cbn [pbind kind]. now rewrite K.
  - destruct (between_complete _ _ _ Hb) as [Heb Eb]. destruct (between_complete _ _ _ Ha) as [Hea Ea].
    assert (E1 : eats1 (t :: ts') r1).
    { apply eats1_trans with r; [exact He|]. apply eats_trans with (s :: r1); [exact Heb|apply eats_one; kinds]. }
    split; [apply eats1_trans with r1; [exact E1|]; apply eats_trans with (t2 :: ts2); [exact Hea|now apply eats1_eats]|].
    split; [exact Hk|].
    intros [|f] Hf; [lia|]. cbn [chord]. rewrite E by lia. cbn [pbind].
    apply eats1_length in He. apply eats1_length in E1. apply eats_length in Hea. cbn [length] in *.
    assert (X : pbind (between f r) (fun before ts2 =>
        match kind ts2 with
        | TSeparator =>
            pbind (between f (tl ts2)) (fun after ts3 =>
            match ts3 with
            | t' :: ts4 =>
                match tkind t' with
                | TNote _ | TRest =>
                    pbind (chord f t' ts4) (fun nk r =>
                      POk (n :: before ++ after ++ fst nk, snd nk) r)
                | _ => PErr err_chord ts3
                end
            | [] => PErr err_chord ts3
            end)
        | _ => POk ([n], 0%Z) r
        end) = POk (n :: b ++ a ++ ns, k) r3).
    { rewrite Eb by lia. cbn [pbind kind tl]. rewrite Hs. rewrite Ea by lia. cbn [pbind].
      assert (Y : pbind (chord f t2 ts2) (fun nk r => POk (n :: b ++ a ++ fst nk, snd nk) r) = POk (n :: b ++ a ++ ns, k) r3).
      { rewrite IH by lia. reflexivity. }
      destruct Hk2 as [[l K2]|K2]; rewrite K2; exact Y. }
    destruct (kind r) eqn:Kr; try exact X.
    exfalso. inversion Hb as [? _ _ _ _|? ? ? ? Kx|? ? ? ? Kx|? ? ? ? ? Kx|? ? ? ? ? ? Kx]; subst; cbn [kind] in Kr; congruence.
Qed.

Lemma note_node_is t ts n r : note_or_rest_at (t :: ts) n r -> is_note_or_rest n = true.
Proof. apply note_is. Qed.

Lemma notes_complete ts ns k r : notes_at ts ns k r ->
  exists t ts', ts = t :: ts' /\ eats1 ts r /\ ((exists l, tkind t = TNote l) \/ tkind t = TRest) /\
    forall fuel, (4 * length ts' + 2 <= fuel)%nat ->
      note_rest_or_chord fuel t ts' = POk (maybe_times (one_or_chord ns) k) r.
Proof.
  intros H. destruct (chord_complete _ _ _ _ H) as (t & ts' & -> & He & Hk & E).
  exists t, ts'. split; [reflexivity|split; [exact He|split; [exact Hk|]]]. intros fuel Hf.
  unfold note_rest_or_chord. rewrite E by exact Hf. cbn [pbind fst snd].
  destruct (notes_head _ _ _ _ H) as (n & ms & -> & _ & H2). destruct ms as [|m ms].
  - assert (Hone : (1 <? Z.of_nat (length (filter is_note_or_rest [n])))%Z = false).
    { cbn [filter]. destruct (is_note_or_rest n); reflexivity. }
    rewrite Hone. unfold maybe_times. destruct (0 <? k)%Z; reflexivity.
  - rewrite H2 by discriminate. unfold maybe_times. destruct (0 <? k)%Z; reflexivity.
Qed.

(* what can begin an event *)
Definition starts_event (k : tok) : bool :=
  match k with
  | TLParen | TName | TOctSet _ | TOctUp | TOctDown | TNote _ | TRest | TBarline | TSeqOpen | TCramOpen
  | TVoice _ | TMarker _ | TAtMarker _ => true
  | _ => false
  end.
Lemma event_head ts n r : event ts n r -> starts_event (kind ts) = true.
Proof.
  destruct 1; cbn [kind];
    repeat match goal with H : tkind _ = _ |- _ => rewrite H end;
    repeat match goal with H : kind _ = _ |- _ => rewrite H end; try reflexivity.
  destruct (chord_complete _ _ _ _ H) as (t & ts' & -> & _ & [[l Hl]|Hl] & _); cbn [kind]; now rewrite Hl.
Qed.

Lemma event_complete :
  (forall ts n r, event ts n r -> eats1 ts r /\
     forall fuel, (4 * length ts + 1 <= fuel)%nat -> inner fuel ts = POk n r) /\
  (forall line ts ns r, on_line line ts ns r -> eats ts r /\
     forall fuel, (4 * length ts + 2 <= fuel)%nat -> line_events fuel line ts = POk ns r) /\
  (forall ts ns r, seq_body ts ns r -> eats1 ts r /\
     forall fuel, (4 * length ts + 2 <= fuel)%nat -> seq_events fuel ts = POk ns r) /\
  (forall ts ns r, cram_body ts ns r -> eats1 ts r /\
     forall fuel, (4 * length ts + 2 <= fuel)%nat -> cram_events fuel ts = POk ns r) /\
  (forall ts ns r, voice_body ts ns r -> eats ts r /\
     forall fuel, (4 * length ts + 2 <= fuel)%nat -> voice_events fuel ts = POk ns r) /\
  (forall n ts ns r, voices_at n ts ns r -> eats ts r /\
     forall fuel, (4 * length ts + 3 <= fuel)%nat -> voices fuel n ts = POk ns r).
Proof.
  apply event_mutind.
  - (* sexp *)
    intros ts n r n' r' K Hform Hrep. pose proof (form_eats _ _ _ Hform) as He.
    split; [apply eats1_trans with r; [exact He|eapply repeated_eats; eauto]|]. intros [|f] Hf; [lia|].
    destruct ts as [|t ts]; [discriminate|]. cbn [kind length] in *; rewrite inner_eq. rewrite K.
    rewrite (lisp_list_complete _ _ _ _ f K Hform) by lia. now apply repeated_complete.
  - (* define *)
    intros t e ts es r K Ke Hne Hl _ [He IH]. split.
    { apply eats1_trans with (e :: ts); [apply eats1_one; kinds|]. apply eats_trans with ts; [apply eats_one; kinds|exact He]. }
    intros [|f] Hf; [lia|]. cbn [length] in Hf. rewrite inner_eq. rewrite K. cbn [kind tl]. rewrite Ke.
    assert (X : (if (tline t <? line_of ts)%Z
           then PErr err_no_event (t :: e :: ts)
           else pbind (line_events f (tline t) ts) (fun es r => POk (var_def_node (ttext t) es) r)) = POk (var_def_node (ttext t) es) r).
    { destruct (tline t <? line_of ts)%Z eqn:EL; [apply Z.ltb_lt in EL; lia|]. rewrite IH by lia. reflexivity. }
    destruct (kind ts); try exact X. congruence.
  - (* name *)
    intros t r n' r' K Hne Hrep. split; [apply eats1_trans with r; [apply eats1_one; kinds|eapply repeated_eats; eauto]|].
    intros [|f] Hf; [lia|]. rewrite inner_eq. rewrite K. apply repeated_complete in Hrep.
    destruct (kind r); try exact Hrep. congruence.
  - intros t n r K. split; [apply eats1_one; kinds|]. intros [|f] Hf; [lia|]. rewrite inner_eq. now rewrite K.
  - intros t r K. split; [apply eats1_one; kinds|]. intros [|f] Hf; [lia|]. rewrite inner_eq. now rewrite K.
  - intros t r K. split; [apply eats1_one; kinds|]. intros [|f] Hf; [lia|]. rewrite inner_eq. now rewrite K.
  - (* notes *)
    intros ts ns k r H. destruct (notes_complete _ _ _ _ H) as (t & ts' & -> & He & Hk & E). split; [exact He|].
    intros [|f] Hf; [lia|]. cbn [length] in Hf. rewrite inner_eq.
    destruct Hk as [[l K]|K]; rewrite K; apply E; lia.
  - intros t r K. split; [apply eats1_one; kinds|]. intros [|f] Hf; [lia|]. rewrite inner_eq. now rewrite K.
  - (* seq *)
    intros t ts es r n' r' K _ [He IH] Hrep.
    assert (E1 : eats1 (t :: ts) r) by (apply eats1_trans with ts; [apply eats1_one; kinds|now apply eats1_eats]).
    split; [apply eats1_trans with r; [exact E1|eapply repeated_eats; eauto]|]. intros [|f] Hf; [lia|].
    cbn [length] in Hf. rewrite inner_eq. rewrite K, IH by lia. cbn [pbind]. now apply repeated_complete.
  - (* cram *)
    intros t ts es r1 d r n' r' K _ [He IH] Hes Hd Hrep.
    assert (E1 : eats1 (t :: ts) r1) by (apply eats1_trans with ts; [apply eats1_one; kinds|now apply eats1_eats]).
    split.
    { apply eats1_trans with r1; [exact E1|]. apply eats_trans with r; [eapply duration_eats; eauto|eapply repeated_eats; eauto]. }
    intros [|f] Hf; [lia|]. apply eats1_length in E1.
    cbn [length] in *. rewrite inner_eq. rewrite K, IH by lia. cbn [pbind].
    rewrite (opt_duration_complete _ _ _ f Hd) by lia. cbn [pbind]. apply repeated_complete in Hrep.
    destruct es; [congruence|exact Hrep].
  - (* voices *)
    intros t n ts vs r K _ [He IH].
    split; [apply eats1_trans with ts; [apply eats1_one; kinds|exact He]|]. intros [|f] Hf; [lia|].
    cbn [length] in Hf. rewrite inner_eq. rewrite K, IH by lia. reflexivity.
  - intros t s r K. split; [apply eats1_one; kinds|]. intros [|f] Hf; [lia|]. rewrite inner_eq. now rewrite K.
  - intros t s r K. split; [apply eats1_one; kinds|]. intros [|f] Hf; [lia|]. rewrite inner_eq. now rewrite K.
  - (* line: end *)
    intros line r H. split; [apply eats_refl|]. intros [|f] Hf; [lia|]. rewrite line_events_eq.
    destruct r as [|t r]; [reflexivity|]. cbn [kind line_of] in H.
    assert (X : tkind t <> TEOF -> (if (tline t =? line)%Z then pbind (inner f (t :: r)) (fun n r => pbind (line_events f line r) (fun ns r' => POk (n :: ns) r')) else POk [] (t :: r)) = POk [] (t :: r)).
    { intros Hk. destruct H as [H|H]; [congruence|]. now rewrite (proj2 (Z.eqb_neq _ _) H). }
    destruct (tkind t) eqn:K; try (apply X; discriminate). reflexivity.
  - (* line: event *)
    intros line ts n r ns r' Hk Hl _ [He IH] _ [He2 IH2].
    split; [apply eats_trans with r; [now apply eats1_eats|exact He2]|]. intros [|f] Hf; [lia|].
    pose proof (eats1_length _ _ He) as Hlen. rewrite line_events_eq.
    destruct ts as [|t ts]; [cbn in Hk; congruence|]. cbn [kind line_of] in *.
    assert (X : (if (tline t =? line)%Z then pbind (inner f (t :: ts)) (fun n r => pbind (line_events f line r) (fun ns r' => POk (n :: ns) r')) else POk [] (t :: ts)) = POk (n :: ns) r').
    { rewrite (proj2 (Z.eqb_eq _ _) Hl). rewrite IH by lia. cbn [pbind]. rewrite IH2 by lia. reflexivity. }
    destruct (tkind t); try exact X. congruence.
  - (* seq body *)
    intros t r K. split; [apply eats1_one; kinds|]. intros [|f] Hf; [lia|]. rewrite seq_events_eq. now rewrite K.
  - intros ts n r ns r' Hev [He IH] Hnr _ [He2 IH2].
    split; [apply eats1_trans with r; [exact He|now apply eats1_eats]|]. intros [|f] Hf; [lia|].
    pose proof (eats1_length _ _ He) as Hlen. apply event_head in Hev.
    destruct ts as [|t ts]; [cbn in Hlen; lia|]. cbn [kind] in Hev. rewrite seq_events_eq.
    assert (X : pbind (inner f (t :: ts)) (fun n r =>
              match kind r with
              | TReps rs => pbind (seq_events f (tl r)) (fun ns r' => POk (on_repetitions n rs :: ns) r')
              | _ => pbind (seq_events f r) (fun ns r' => POk (n :: ns) r')
              end) = POk (n :: ns) r').
    { rewrite IH by lia. cbn [pbind].
      assert (Y : pbind (seq_events f r) (fun ns r' => POk (n :: ns) r') = POk (n :: ns) r') by (rewrite IH2 by lia; reflexivity).
      destruct (kind r) eqn:Kr; try exact Y. now destruct (Hnr ranges). }
    destruct (tkind t); try exact X; discriminate.
  - intros ts n u rs r ns r' Hev [He IH] K _ [He2 IH2].
    assert (E1 : eats1 ts r) by (apply eats1_trans with (u :: r); [exact He|apply eats_one; kinds]).
    split; [apply eats1_trans with r; [exact E1|now apply eats1_eats]|]. intros [|f] Hf; [lia|].
    pose proof (eats1_length _ _ E1) as Hlen. apply event_head in Hev.
    destruct ts as [|t ts]; [cbn in Hlen; lia|]. cbn [kind] in Hev. rewrite seq_events_eq.
    assert (X : pbind (inner f (t :: ts)) (fun n r =>
              match kind r with
              | TReps rs => pbind (seq_events f (tl r)) (fun ns r' => POk (on_repetitions n rs :: ns) r')
              | _ => pbind (seq_events f r) (fun ns r' => POk (n :: ns) r')
              end) = POk (on_repetitions n rs :: ns) r').
    { rewrite IH by lia. cbn [pbind kind tl]. rewrite K, IH2 by lia. reflexivity. }
    destruct (tkind t); try exact X; discriminate.
  - (* cram body *)
    intros t r K. split; [apply eats1_one; kinds|]. intros [|f] Hf; [lia|]. rewrite cram_events_eq. now rewrite K.
  - intros ts n r ns r' Hev [He IH] _ [He2 IH2].
    split; [apply eats1_trans with r; [exact He|now apply eats1_eats]|]. intros [|f] Hf; [lia|].
    pose proof (eats1_length _ _ He) as Hlen. apply event_head in Hev.
    destruct ts as [|t ts]; [cbn in Hlen; lia|]. cbn [kind] in Hev. rewrite cram_events_eq.
    assert (X : pbind (inner f (t :: ts)) (fun n r => pbind (cram_events f r) (fun ns r' => POk (n :: ns) r')) = POk (n :: ns) r').
    { rewrite IH by lia. cbn [pbind]. rewrite IH2 by lia. reflexivity. }
    destruct (tkind t); try exact X; discriminate.
  - (* voice body *)
    intros r H. split; [apply eats_refl|]. intros [|f] Hf; [lia|]. rewrite voice_events_eq. now rewrite H.
  - intros ts n r ns r' Hend _ [He IH] _ [He2 IH2].
    split; [apply eats_trans with r; [now apply eats1_eats|exact He2]|]. intros [|f] Hf; [lia|].
    pose proof (eats1_length _ _ He) as Hlen. rewrite voice_events_eq. rewrite Hend, IH by lia. cbn [pbind].
    rewrite IH2 by lia. reflexivity.
  - (* voices *)
    intros n ts es r _ [He IH] Hnv. split; [exact He|]. intros [|f] Hf; [lia|]. rewrite voices_eq. rewrite IH by lia. cbn [pbind].
    destruct (kind r) eqn:K; try reflexivity. now destruct (Hnv n0).
  - intros n ts es t r _ [He IH] K. split; [apply eats_trans with (t :: r); [exact He|apply eats_one; kinds]|].
    intros [|f] Hf; [lia|]. rewrite voices_eq. rewrite IH by lia. cbn [pbind kind tl]. rewrite K. reflexivity.
  - intros n ts es t m r vs r' _ [He IH] K Hm _ [He2 IH2].
    assert (E1 : eats ts r) by (apply eats_trans with (t :: r); [exact He|apply eats_one; kinds]).
    split; [now apply eats_trans with r|]. intros [|f] Hf; [lia|].
    apply eats_length in He. cbn [length] in He.
    rewrite voices_eq. rewrite IH by lia. cbn [pbind kind tl]. rewrite K, (proj2 (Z.eqb_neq _ _) Hm), IH2 by lia. reflexivity.
Qed.

Lemma part_events_complete ts ns r : part_body ts ns r -> eats ts r /\
  forall fuel, (4 * length ts + 2 <= fuel)%nat -> part_events fuel ts = POk ns r.
Proof.
  induction 1 as [r H|ts n r ns r' Hk Hl Hev _ [He IH]].
  - split; [apply eats_refl|]. intros [|f] Hf; [lia|]. cbn [part_events].
    destruct (kind r) eqn:K; try reflexivity; destruct H as [H|H]; try congruence; now rewrite H.
  - destruct (proj1 event_complete _ _ _ Hev) as [He1 IH1].
    split; [apply eats_trans with r; [now apply eats1_eats|exact He]|]. intros [|f] Hf; [lia|].
    pose proof (eats1_length _ _ He1) as Hlen. cbn [part_events]. rewrite Hl.
    assert (X : pbind (inner f ts) (fun n r => pbind (part_events f r) (fun ns r' => POk (n :: ns) r')) = POk (n :: ns) r').
    { rewrite IH1 by lia. cbn [pbind]. rewrite IH by lia. reflexivity. }
    destruct (kind ts); try exact X. congruence.
Qed.

Lemma more_names_complete ts ns r : names_at ts ns r -> eats ts r /\
  forall fuel, (length ts + 1 <= fuel)%nat -> more_names fuel ts = POk ns r.
Proof.
  induction 1 as [r H|s t ts ns r Ks Kt _ [He IH]].
  - split; [apply eats_refl|]. intros [|f] Hf; [lia|]. cbn [more_names].
    destruct (kind r) eqn:K; try reflexivity. congruence.
  - split.
    { apply eats_trans with (t :: ts); [apply eats_one; kinds|]. apply eats_trans with ts; [apply eats_one; kinds|exact He]. }
    intros [|f] Hf; [lia|]. cbn [length] in Hf. cbn [more_names kind tl]. rewrite Ks, Kt, IH by lia. reflexivity.
Qed.

Lemma declaration_complete ts d r : declaration ts d r -> eats1 ts r /\ exists t ts', ts = t :: ts' /\ tkind t = TName /\
  forall fuel, (length ts' + 1 <= fuel)%nat -> part_declaration fuel t ts' = POk d r.
Proof.
  destruct 1 as [t ts ns c r K Hn Kc|t ts ns a s c r K Hn Ka Kc]; destruct (more_names_complete _ _ _ Hn) as [He E].
  - split.
    { apply eats1_trans with ts; [apply eats1_one; kinds|]. apply eats_trans with (c :: r); [exact He|apply eats_one; kinds]. }
    exists t, ts. split; [reflexivity|split; [exact K|]]. intros fuel Hf. unfold part_declaration. rewrite E by lia.
    cbn [pbind kind tl]. rewrite Kc. cbn [kind tl]. rewrite Kc. reflexivity.
  - split.
    { apply eats1_trans with ts; [apply eats1_one; kinds|]. apply eats_trans with (a :: c :: r); [exact He|].
      apply eats_trans with (c :: r); apply eats_one; kinds. }
    exists t, ts. split; [reflexivity|split; [exact K|]]. intros fuel Hf. unfold part_declaration. rewrite E by lia.
    cbn [pbind kind tl]. rewrite Ka. cbn [kind tl]. rewrite Kc. reflexivity.
Qed.

Lemma top_levels_complete ts ns r : parts_at ts ns r -> eats ts r /\
  forall fuel, (4 * length ts + 4 <= fuel)%nat -> top_levels fuel ts = POk ns r.
Proof.
  induction 1 as [r K|ts d r es r' ns r'' Hl Hd Hb _ [He IH]|ts es r ns r' Hk Hl Hb _ [He IH]].
  - split; [apply eats_refl|]. intros [|f] Hf; [lia|]. cbn [top_levels]. now rewrite K.
  - destruct (declaration_complete _ _ _ Hd) as (Hed & t & ts' & -> & K & E).
    destruct (part_events_complete _ _ _ Hb) as [Heb Eb].
    assert (E1 : eats1 (t :: ts') r') by (now apply eats1_trans with r).
    split; [apply eats_trans with r'; [now apply eats1_eats|exact He]|].
    intros [|f] Hf; [lia|]. apply eats1_length in E1. apply eats1_length in Hed. cbn [length] in *.
    cbn [top_levels kind]. rewrite K. unfold top_level. rewrite Hl, E by lia. cbn [pbind]. rewrite Eb by lia. cbn [pbind].
    rewrite IH by lia. reflexivity.
  - destruct (part_events_complete _ _ _ Hb) as [Heb Eb].
    assert (E1 : eats1 ts r).
    { inversion Hb as [? [Hx|Hx]|? n r1 ? ? _ _ Hev Hpb]; subst; try congruence.
      destruct (proj1 event_complete _ _ _ Hev) as [He1 _]. apply eats1_trans with r1; [exact He1|].
      exact (proj1 (part_events_complete _ _ _ Hpb)). }
    split; [apply eats_trans with r; [exact Heb|exact He]|].
    intros [|f] Hf; [lia|]. apply eats1_length in E1. cbn [top_levels].
    assert (X : pbind (top_level f ts) (fun n r => pbind (top_levels f r) (fun ns r' => POk (n :: ns) r')) =
       POk (branch ImplicitPartNode [branch EventSequenceNode es] :: ns) r').
    { unfold top_level. rewrite Hl. rewrite Eb by lia. cbn [pbind]. rewrite IH by lia. reflexivity. }
    destruct (kind ts); try exact X. congruence.
Qed.

Theorem parse_tokens_complete ts ast : score_tree ts ast -> exists r, parse_tokens ts = POk ast r.
Proof.
  intros (ns & r & H & ->). destruct (top_levels_complete _ _ _ H) as [_ E].
  exists r. unfold parse_tokens. rewrite E by lia. reflexivity.
Qed.

End Proofs.
