(** The levels that can be written in a text. *)
From Coq Require Import String Ascii ZArith NArith List Bool Lia.
From Verif Require Import Base Num ModelPitch ModelDuration ModelInstruments ModelTypes ModelLisp ModelScan ModelParser
  ModelAst ModelScore SpecScore SpecVars SpecScan ProofScan SpecParser ProofParser ProofParseText SpecAst ProofAst ProofAstTree ProofLevels.
Import ListNotations.
Local Open Scope list_scope.
Local Open Scope Z_scope.

Section Written.
Context {N : Num}.
Variables K V : num -> Prop.
Hypothesis V_percent : forall x v, K x -> percentage x = ROk v -> V v.
Implicit Types ts r : list token.

Definition numbers ts : Prop := Forall (fun t => forall x, tkind t = TNumber x -> K x) ts.
Lemma numbers_suffix r ts : suffix r ts -> numbers ts -> numbers r.
Proof. intros (p & ->) H. now apply Forall_app in H. Qed.

Lemma forms_wf : (forall ts n r, form ts n r -> numbers ts -> gives (wform K V) (ast_lisp n)) /\
  (forall ts ns r, forms ts ns r -> numbers ts -> gives (Forall (wform K V)) (rmapl ast_lisp ns)).
Proof.
  apply form_forms_ind.
  - intros t r _ _. now apply gives_ok.
  - intros t x r E H. inversion H; subst. apply gives_ok. cbn. auto.
  - intros t s r _ _. now apply gives_ok.
  - intros t ts ns r _ _ IH H. inversion H; subst. unfold branch. rewrite ast_lisp_list. eapply gives_map; [now apply IH|].
    intros l Hl. now apply wform_list.
  - intros t r _ _. apply gives_ok. constructor.
  - intros ts n r ns r' F IH1 _ IH2 H. cbn [rmapl]. eapply gives_bind; [now apply IH1|]. intros f Hf. eapply gives_bind.
    + apply IH2. eapply numbers_suffix; [|exact H]. apply (proj1 forms_all _ _ _ F).
    + intros fs Hfs. apply gives_ok. now constructor.
  - intros t ts n r ns r' _ F IH1 _ IH2 H. inversion H as [|? ? _ H']; subst. cbn [rmapl branch ast_lisp]. unfold rmap.
    eapply gives_bind; [eapply gives_bind; [now apply IH1|]; intros f Hf; apply gives_ok; exact (Hf : wform K V (LQuoted f))|]. intros f Hf.
    eapply gives_bind.
    + apply IH2. eapply numbers_suffix; [|exact H']. apply (proj1 forms_all _ _ _ F).
    + intros fs Hfs. apply gives_ok. now constructor.
Qed.

(** Nodes whose updates have levels. *)
Definition wn (n : node) : Prop := gives (Forall (lv V)) (updates n).
Lemma all_wn ns : Forall wn ns -> gives (Forall (lv V)) (updates_all ns).
Proof.
  induction 1 as [|n ns Hn _ IH]; cbn [updates_all]; [apply gives_ok; constructor|]. eapply gives_bind; [exact Hn|]. intros us Hu.
  eapply gives_bind; [exact IH|]. intros vs Hv. apply gives_ok. now apply Forall_app.
Qed.
Lemma one_lv u : lv V u -> Forall (lv V) [u].
Proof. now repeat constructor. Qed.
Lemma lv_seq es : Forall (lv V) es -> lv V (USeq es).
Proof. intros H. apply lv_list in H. exact H. Qed.
Lemma lv_chord es : Forall (lv V) es -> lv V (UChord es).
Proof. intros H. apply lv_list in H. exact H. Qed.
Lemma lv_cram es d : Forall (lv V) es -> lv V (UCram es d).
Proof. intros H. apply lv_list in H. exact H. Qed.
Lemma lv_def n es : Forall (lv V) es -> lv V (UVarDef n es).
Proof. intros H. apply lv_list in H. exact H. Qed.
Lemma as_one_lv us : Forall (lv V) us -> lv V (as_one us).
Proof. intros H. destruct us as [|u [|v us]]; cbn [as_one]; [exact I|now inversion H|]. now apply lv_seq. Qed.
Lemma sexp_wn ts n r : form ts n r -> kind ts = TLParen -> numbers ts -> wn n.
Proof.
  intros F E H. pose proof (proj1 forms_wf _ _ _ F H) as G. unfold wn. destruct F as [t r Et|t x r Et|t s r Et|t ts ns r Et F]; cbn in E; try congruence.
  unfold branch. rewrite up_lisp. eapply gives_bind; [exact G|]. intros f Hf. destruct f; try apply gives_panic. apply gives_ok, one_lv.
  apply (lisp_lv K V V_percent). now apply wform_list in Hf.
Qed.
Lemma note_wn ts n r : note_or_rest_at ts n r -> wn n.
Proof.
  intros H. unfold wn. assert (Nt : forall p more, gives (Forall (lv V)) (updates (Node NoteNode NoLit (p :: more)))).
  { intros p more. rewrite up_note. apply gives_any. intros p'. apply gives_mapany. intros [d sl]. apply one_lv. exact I. }
  destruct H as [t c ts as_ r1 d r E A D NT|t c ts as_ r1 d u r E A D KT|t ts d r E D]; [apply Nt|apply Nt|].
  destruct D; cbn; [apply gives_ok, one_lv; exact I|]. apply gives_mapany. intros d. apply one_lv. exact I.
Qed.
Lemma leaf_wn n u : updates n = ROk [u] -> lv V u -> wn n.
Proof. intros E H. unfold wn. rewrite E. apply gives_ok. now apply one_lv. Qed.
Lemma between_wn ts ns r : between_notes ts ns r -> numbers ts -> Forall wn ns.
Proof.
  induction 1 as [r|t ts ns r E H IH|t ts ns r E H IH|t k ts ns r E H IH|t ts n r ns r' E F H IH]; intros Hn; [constructor|..];
    try (inversion Hn; subst; constructor; [eapply leaf_wn; [reflexivity|exact I]|now apply IH]).
  constructor; [eapply sexp_wn; [exact F|exact E|exact Hn]|]. apply IH. eapply numbers_suffix; [|exact Hn]. apply (sexp_ok _ _ _ F E).
Qed.
Lemma notes_wn ts ns k r : notes_at ts ns k r -> numbers ts -> Forall wn ns.
Proof.
  induction 1 as [ts n r H _ _|ts n t k r H E|ts n r b s r1 a r2 ns k r3 H B Ks A H2 IH]; intros Hn.
  - constructor; [eapply note_wn; exact H|constructor].
  - constructor; [eapply note_wn; exact H|constructor].
  - destruct (note_ok _ _ _ H) as [S _]. pose proof (numbers_suffix _ _ S Hn) as H1. destruct (between_ok _ _ _ B) as (S1 & _).
    pose proof (numbers_suffix _ _ S1 H1) as H3. inversion H3 as [|? ? _ H4]; subst. destruct (between_ok _ _ _ A) as (S2 & _).
    constructor; [eapply note_wn; exact H|]. apply Forall_app. split; [eapply between_wn; eassumption|]. apply Forall_app.
    split; [eapply between_wn; eassumption|]. apply IH. eapply numbers_suffix; eassumption.
Qed.
Lemma repeat_wn n k : wn n -> wn (repeat_node n k).
Proof. intros H. unfold wn. rewrite up_repeat. eapply gives_bind; [exact H|]. intros us Hu. apply gives_ok, one_lv. cbn [lv]. now apply as_one_lv. Qed.
Lemma repeated_wn n r n' r' : repeated n r n' r' -> wn n -> wn n'.
Proof. destruct 1; [auto|apply repeat_wn]. Qed.
Lemma voice_wn k es : Forall wn es -> wn (voice_node k es).
Proof. intros H. unfold wn. rewrite up_voice. eapply gives_map; [now apply all_wn|]. intros us Hu. now constructor. Qed.

Theorem events_wn :
  (forall ts n r, event ts n r -> numbers ts -> wn n) /\
  (forall line ts ns r, on_line line ts ns r -> numbers ts -> Forall wn ns) /\
  (forall ts ns r, seq_body ts ns r -> numbers ts -> Forall wn ns) /\
  (forall ts ns r, cram_body ts ns r -> numbers ts -> Forall wn ns) /\
  (forall ts ns r, voice_body ts ns r -> numbers ts -> Forall wn ns) /\
  (forall k ts vs r, voices_at k ts vs r -> numbers ts -> Forall wn vs).
Proof.
  destruct events_ok as (Oe & _ & _ & _ & Ob & _).
  assert (After : forall ts n r, event ts n r -> numbers ts -> numbers r).
  { intros ts n r E. apply numbers_suffix. apply (Oe _ _ _ E). }
  assert (AfterV : forall ts es r, voice_body ts es r -> numbers ts -> numbers r).
  { intros ts n r E. apply numbers_suffix. apply (Ob _ _ _ E). }
  apply event_mutind.
  - intros ts n r n' r' E H R Hn. apply (repeated_wn _ _ _ _ R). eapply sexp_wn; eassumption.
  - intros t e ts es r _ _ _ _ _ IH Hn. inversion Hn as [|? ? _ H1]; subst. inversion H1 as [|? ? _ H2]; subst. unfold wn. rewrite up_vardef.
    eapply gives_map; [apply all_wn, IH, H2|]. intros us Hu. apply one_lv. now apply lv_def.
  - intros t r n' r' _ _ R _. apply (repeated_wn _ _ _ _ R). eapply leaf_wn; [reflexivity|exact I].
  - intros t k r _ _. eapply leaf_wn; [reflexivity|exact I].
  - intros t r _ _. eapply leaf_wn; [reflexivity|exact I].
  - intros t r _ _. eapply leaf_wn; [reflexivity|exact I].
  - intros ts ns k r H Hn. pose proof (notes_wn _ _ _ _ H Hn) as F.
    assert (X : wn (one_or_chord ns)).
    { destruct ns as [|n [|n2 ns]]; cbn [one_or_chord]; [apply gives_err|now inversion F|]. unfold wn, branch. rewrite up_chord.
      eapply gives_map; [now apply all_wn|]. intros us Hu. apply one_lv. now apply lv_chord. }
    unfold maybe_times. destruct (0 <? k); [now apply repeat_wn|exact X].
  - intros t r _ _. eapply leaf_wn; [reflexivity|exact I].
  - intros t ts es r n' r' _ _ IH R Hn. inversion Hn; subst. apply (repeated_wn _ _ _ _ R). unfold wn. rewrite up_seq.
    eapply gives_map; [now apply all_wn, IH|]. intros us Hu. apply one_lv. now apply lv_seq.
  - intros t ts es r1 d r n' r' _ _ IH _ D R Hn. inversion Hn; subst. apply (repeated_wn _ _ _ _ R). unfold wn, cram_node.
    assert (X : forall d' us, Forall (lv V) us -> Forall (lv V) [UCram us d']) by (intros d' us Hu; apply one_lv; now apply lv_cram).
    destruct D; unfold branch at 1.
    + rewrite up_cram. eapply gives_map; [now apply all_wn, IH|]. intros us Hu. now apply X.
    + rewrite up_cram_dur. eapply gives_bind; [now apply all_wn, IH|]. intros us Hu. apply gives_mapany. intros d'. now apply X.
  - intros t k ts vs r _ _ IH Hn. inversion Hn; subst. unfold wn. rewrite up_voices. now apply all_wn, IH.
  - intros t s r _ _. eapply leaf_wn; [reflexivity|exact I].
  - intros t s r _ _. eapply leaf_wn; [reflexivity|exact I].
  - constructor.
  - intros line ts n r ns r' _ _ E IH1 _ IH2 Hn. constructor; eauto.
  - constructor.
  - intros ts n r ns r' E IH1 _ _ IH2 Hn. constructor; eauto.
  - intros ts n t rs r ns r' E IH1 _ _ IH2 Hn. pose proof (After _ _ _ E Hn) as H1. inversion H1; subst. constructor; [|now apply IH2].
    unfold wn, on_repetitions. destruct rs as [|x rs]; cbn [map]; [apply gives_err|]. rewrite up_reps. eapply gives_bind; [now apply IH1|]. intros us Hu.
    apply gives_mapany. intros rs'. apply one_lv. cbn [lv]. now apply as_one_lv.
  - constructor.
  - intros ts n r ns r' E IH1 _ IH2 Hn. constructor; eauto.
  - constructor.
  - intros ts n r ns r' _ E IH1 _ IH2 Hn. constructor; eauto.
  - intros k ts es r _ IH _ Hn. constructor; [now apply voice_wn, IH|constructor].
  - intros k ts es t r _ IH _ Hn. constructor; [now apply voice_wn, IH|]. constructor; [eapply leaf_wn; [reflexivity|exact I]|constructor].
  - intros k ts es t m r vs r' B IH _ _ _ IH2 Hn. pose proof (AfterV _ _ _ B Hn) as H1. inversion H1; subst.
    constructor; [now apply voice_wn, IH|now apply IH2].
Qed.
Lemma part_body_wn ts ns r : part_body ts ns r -> numbers ts -> Forall wn ns.
Proof.
  induction 1 as [r _|ts n r ns r' _ _ E _ IH]; intros Hn; [constructor|]. constructor; [eapply (proj1 events_wn); eassumption|].
  apply IH. eapply numbers_suffix; [|exact Hn]. apply (proj1 events_ok _ _ _ E).
Qed.
Lemma parts_wn ts ns r : parts_at ts ns r -> numbers ts -> Forall wn ns.
Proof.
  induction 1 as [r E|ts d r es r' ns r'' _ D B _ IH|ts es r ns r' _ _ B _ IH]; intros Hn; [constructor|..].
  - destruct (declaration_ok _ _ _ D) as (S & u & E & _). pose proof (numbers_suffix _ _ S Hn) as H1. destruct (part_body_ok _ _ _ B) as (S2 & _).
    constructor; [|apply IH; eapply numbers_suffix; eassumption]. unfold wn. rewrite up_part, E. cbn [rbind].
    eapply gives_map; [apply all_wn; eapply part_body_wn; eassumption|]. intros us Hu. constructor; [|exact Hu].
    destruct D; cbn in E; unfold rmap in E; destruct (rmapl _ _); cbn in E; try discriminate; injection E as <-; exact I.
  - destruct (part_body_ok _ _ _ B) as (S2 & _). constructor; [|apply IH; eapply numbers_suffix; eassumption].
    unfold wn. rewrite up_implicit. apply all_wn. eapply part_body_wn; eassumption.
Qed.
(** A text whose numbers satisfy [K]. *)
Definition numbered (input : list rune) : Prop := forall ts, scan input = Scanned ts -> numbers ts.
Theorem compile_lv input : numbered input -> gives (Forall (lv V)) (compile input).
Proof.
  intros H. unfold compile. pose proof (parse_total input) as P. destruct (parse input) as [a|m line col| |]; try apply gives_err; try apply gives_panic.
  destruct P as (ts & Es & ns & r & P & ->). rewrite up_root. apply all_wn. eapply parts_wn; [exact P|]. now apply H.
Qed.
End Written.
