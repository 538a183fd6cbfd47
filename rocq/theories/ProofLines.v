(** A text reads like its lines (C58): proofs. *)
From Coq Require Import ZArith String Ascii List Bool Lia.
From Verif Require Import Base Num ModelPitch ModelDuration ModelInstruments ModelTypes ModelScan ModelParser ModelAst SpecScan SpecParser SpecLines ProofScan ProofParser ProofParseText ProofAstTree.
Import ListNotations.
Local Open Scope string_scope.
Local Open Scope list_scope.
Local Open Scope Z_scope.

(* ---------------- trees that what follows cannot extend ---------------- *)
Section Trees.
Context {N : Num}.
Definition last_is (P : node -> Prop) (ns : list node) : Prop := forall n ms, ns = ms ++ [n] -> P n.
Fixpoint closed (n : node) : Prop :=
  let at_end := fix go (l : list node) : Prop :=
    match l with [] => True | [x] => closed x | _ :: t => go t end in
  match n with
  | Node VoiceGroupNode _ vs => exists ms e, vs = ms ++ [e] /\ nty e = VoiceGroupEndMarkerNode
  | Node VariableDefinitionNode _ [_; Node EventSequenceNode _ es] => at_end es
  | _ => True
  end.
End Trees.

Section Join.
Context {N : Num}.
Implicit Types ts r : list token.

(* ---------------- replacing the end of the tokens ---------------- *)
Definition moved (d : Z) (t : token) : token := Token (tkind t) (ttext t) (tline t + d) (tcol t).
Variable eof : token.
Variable us : list token.
Variable d : Z.
Hypothesis is_eof : tkind eof = TEOF.
Definition plain_tok (t : token) : Prop := tkind t <> TEOF /\ (kind us = TEOF \/ tline t + d <> line_of us).
Definition ends ts ts' : Prop := exists pre, ts = pre ++ [eof] /\ ts' = map (moved d) pre ++ us /\ Forall plain_tok pre.

(** What [us] may not start with. *)
Definition continues (k : tok) : bool :=
  match k with
  | TRepeat _ | TBarline | TTie | TLength _ _ | TMs _ | TSeconds _ | TFlat | TNatural | TSharp | TEquals | TAlias _ | TSeparator | TColon | TReps _ => true
  | _ => false
  end.
Hypothesis fresh : continues (kind us) = false.
Hypothesis fresh_chord : no_chord us.

Lemma ends_cons : forall t ts ts', ends (t :: ts) ts' -> tkind t <> TEOF -> exists ts1, ts' = moved d t :: ts1 /\ ends ts ts1 /\ plain_tok t.
Proof.
  intros t ts ts' (pre & E & E' & F) K. destruct pre as [|x pre]; [cbn in E; injection E as -> ->; contradiction|].
  cbn in E. injection E as -> ->. inversion F; subst. exists (map (moved d) pre ++ us). split; [reflexivity|]. split; [|assumption]. exists pre. auto.
Qed.
Lemma ends_last : forall ts', ends [eof] ts' -> ts' = us.
Proof.
  intros ts' (pre & E & E' & F). destruct pre as [|x pre]; [exact E'|]. exfalso. inversion F as [|? ? [K _] _]; subst. cbn in E. injection E as <- _. contradiction.
Qed.
Lemma ends_case : forall ts ts', ends ts ts' -> (ts = [eof] /\ ts' = us) \/ exists t r r', ts = t :: r /\ ts' = moved d t :: r' /\ ends r r' /\ plain_tok t.
Proof.
  intros ts ts' (pre & E & E' & F). destruct pre as [|x pre]; [left; split; assumption|]. right. inversion F; subst. exists x, (pre ++ [eof]), (map (moved d) pre ++ us).
  repeat split; try assumption; try apply H1. exists pre. auto.
Qed.
Lemma ends_kind : forall ts ts', ends ts ts' -> ts <> [eof] -> kind ts' = kind ts /\ kind ts <> TEOF.
Proof. intros ts ts' H K. destruct (ends_case _ _ H) as [[E _]|(t & r & r' & -> & -> & _ & P)]; [contradiction|]. split; [reflexivity|apply P]. Qed.
Lemma ends_kind_eq : forall ts ts' k, ends ts ts' -> kind ts = k -> k <> TEOF -> kind ts' = k.
Proof. intros ts ts' k H K1 K2. destruct (ends_kind _ _ H) as [E _]; [intros ->; cbn in K1; congruence|]. congruence. Qed.
Lemma ends_not : forall ts ts' k, ends ts ts' -> continues k = true -> kind ts <> k -> kind ts' <> k.
Proof.
  intros ts ts' k H K1 K2. destruct (ends_case _ _ H) as [[-> ->]|(t & r & r' & -> & -> & _ & P)]; [|exact K2].
  intros E. rewrite E in fresh. congruence.
Qed.
Lemma ends_eof : forall ts ts', ends ts ts' -> kind ts = TEOF -> ts = [eof].
Proof. intros ts ts' H K. destruct (ends_case _ _ H) as [[E _]|(t & r & r' & -> & -> & _ & [P _])]; [exact E|contradiction]. Qed.


(* ---------------- S-expressions ---------------- *)
Ltac ne := match goal with H : tkind ?t = _ |- tkind ?t <> _ => rewrite H; discriminate end.
Lemma form_ends :
  (forall ts n r, form ts n r -> forall ts', ends ts ts' -> exists r', ends r r' /\ form ts' n r') /\
  (forall ts ns r, forms ts ns r -> forall ts', ends ts ts' -> exists r', ends r r' /\ forms ts' ns r').
Proof.
  apply form_forms_ind.
  - intros t r K ts' H. destruct (ends_cons _ _ _ H) as (r' & -> & E & _); [ne|]. exists r'. split; [exact E|]. exact (form_symbol (moved d t) r' K).
  - intros t x r K ts' H. destruct (ends_cons _ _ _ H) as (r' & -> & E & _); [ne|]. exists r'. split; [exact E|]. exact (form_number (moved d t) x r' K).
  - intros t s r K ts' H. destruct (ends_cons _ _ _ H) as (r' & -> & E & _); [ne|]. exists r'. split; [exact E|]. exact (form_string (moved d t) s r' K).
  - intros t ts ns r K _ IH ts' H. destruct (ends_cons _ _ _ H) as (ts1 & -> & E & _); [ne|]. destruct (IH _ E) as (r' & E' & F). exists r'. split; [exact E'|]. exact (form_list (moved d t) ts1 ns r' K F).
  - intros t r K ts' H. destruct (ends_cons _ _ _ H) as (r' & -> & E & _); [ne|]. exists r'. split; [exact E|]. exact (forms_end (moved d t) r' K).
  - intros ts n r ns r' _ IH1 _ IH2 ts' H. destruct (IH1 _ H) as (r1 & E1 & F1). destruct (IH2 _ E1) as (r2 & E2 & F2). exists r2. split; [exact E2|]. exact (forms_form ts' n r1 ns r2 F1 F2).
  - intros t ts n r ns r' K _ IH1 _ IH2 ts' H. destruct (ends_cons _ _ _ H) as (ts1 & -> & E & _); [ne|]. destruct (IH1 _ E) as (r1 & E1 & F1). destruct (IH2 _ E1) as (r2 & E2 & F2).
    exists r2. split; [exact E2|]. exact (forms_quoted (moved d t) ts1 n r1 ns r2 K F1 F2).
Qed.

Lemma repeated_ends : forall n ts n' r ts', repeated n ts n' r -> ends ts ts' -> exists r', ends r r' /\ repeated n ts' n' r'.
Proof.
  intros n ts n' r ts' H E. destruct H as [n r K|n t k r K].
  - exists ts'. split; [exact E|]. apply rep_once. intros k. apply (ends_not r ts' (TRepeat k) E eq_refl), K.
  - destruct (ends_cons _ _ _ E) as (r' & -> & E' & _); [ne|]. exists r'. split; [exact E'|]. exact (rep_times n (moved d t) k r' K).
Qed.

(* ---------------- durations ---------------- *)
Lemma length_kinds : forall k c, length_node k = Some c -> continues k = true /\ k <> TEOF.
Proof. intros k c H. destruct k; try discriminate; split; (reflexivity || discriminate). Qed.
Lemma tied_ends : forall ts ns r ts', tied_length ts ns r -> ends ts ts' -> exists r', ends r r' /\ tied_length ts' ns r'.
Proof.
  intros ts ns r ts' H E. destruct H as [t bs vs l c r K1 K2 K3 K4].
  destruct (ends_cons _ _ _ E) as (t1 & -> & E1 & _); [ne|].
  assert (S1 : forall bs rest x, Forall (fun b => tkind b = TBarline) bs -> ends (bs ++ rest) x -> exists bs' x', x = bs' ++ x' /\ ends rest x' /\ Forall (fun b => tkind b = TBarline) bs' /\ length bs' = length bs).
  { clear -is_eof. induction bs as [|b bs IH]; intros rest x F E; [exists [], x; auto|]. inversion_clear F as [|? ? F1 F2]. cbn [app] in E.
    destruct (ends_cons _ _ _ E) as (x1 & -> & E1 & _); [rewrite F1; discriminate|]. destruct (IH rest x1 F2 E1) as (bs' & x' & -> & E' & F' & L). exists (moved d b :: bs'), x'.
    repeat split; [exact E'|constructor; [exact F1|exact F']|cbn; now rewrite L]. }
  assert (S2 : forall bs rest x, Forall (fun b => tkind b = TTie) bs -> ends (bs ++ rest) x -> exists bs' x', x = bs' ++ x' /\ ends rest x' /\ Forall (fun b => tkind b = TTie) bs').
  { clear -is_eof. induction bs as [|b bs IH]; intros rest x F E; [exists [], x; auto|]. inversion_clear F as [|? ? F1 F2]. cbn [app] in E.
    destruct (ends_cons _ _ _ E) as (x1 & -> & E1 & _); [rewrite F1; discriminate|]. destruct (IH rest x1 F2 E1) as (bs' & x' & -> & E' & F'). exists (moved d b :: bs'), x'.
    repeat split; [exact E'|constructor; [exact F1|exact F']]. }
  destruct (S1 _ _ _ K2 E1) as (bs' & x1 & -> & E2 & B1 & B2). destruct (S2 _ _ _ K3 E2) as (vs' & x2 & -> & E3 & C1).
  destruct (ends_cons _ _ _ E3) as (r' & -> & E4 & _); [apply (length_kinds _ _ K4)|]. exists r'. split; [exact E4|].
  assert (Em : map (fun _ : token => barline) bs = map (fun _ : token => barline) bs') by (clear -B2; revert bs' B2; induction bs as [|b bs IH]; intros [|b' bs'] L; try discriminate; [reflexivity|]; cbn; f_equal; apply IH; now injection L).
  rewrite Em. exact (tied (moved d t) bs' vs' (moved d l) c r' K1 B1 C1 K4).
Qed.
Lemma untied_ends : forall ts ts' ns r', ends ts ts' -> tied_length ts' ns r' -> exists r, tied_length ts ns r.
Proof.
  intros ts ts' ns r' E H. destruct H as [t bs vs l c r K1 K2 K3 K4].
  assert (nb : forall ts x y, ends ts (x :: y) -> continues (tkind x) = true -> exists t1 r1, ts = t1 :: r1 /\ tkind t1 = tkind x /\ ends r1 y).
  { clear -fresh. intros ts x y E K. destruct (ends_case _ _ E) as [[-> E']|(t & r & r' & -> & E' & Er & _)]; [rewrite <- E' in fresh; cbn in fresh; congruence|].
    injection E' as -> ->. exists t, r. auto. }
  destruct (nb _ _ _ E) as (t0 & r0 & -> & Et & E0); [now rewrite K1|].
  assert (S1 : forall bs rest x, Forall (fun b => tkind b = TBarline) bs -> ends x (bs ++ rest) -> exists bs' x', x = bs' ++ x' /\ ends x' rest /\ Forall (fun b => tkind b = TBarline) bs' /\ length bs' = length bs).
  { clear -nb. induction bs as [|b bs IH]; intros rest x F E; [exists [], x; auto|]. inversion_clear F as [|? ? F1 F2]. cbn [app] in E.
    destruct (nb _ _ _ E) as (t1 & x1 & -> & T & E1); [now rewrite F1|]. destruct (IH rest x1 F2 E1) as (bs' & x' & -> & E' & F' & L). exists (t1 :: bs'), x'.
    repeat split; [exact E'|constructor; [congruence|exact F']|cbn; now rewrite L]. }
  assert (S2 : forall bs rest x, Forall (fun b => tkind b = TTie) bs -> ends x (bs ++ rest) -> exists bs' x', x = bs' ++ x' /\ ends x' rest /\ Forall (fun b => tkind b = TTie) bs').
  { clear -nb. induction bs as [|b bs IH]; intros rest x F E; [exists [], x; auto|]. inversion_clear F as [|? ? F1 F2]. cbn [app] in E.
    destruct (nb _ _ _ E) as (t1 & x1 & -> & T & E1); [now rewrite F1|]. destruct (IH rest x1 F2 E1) as (bs' & x' & -> & E' & F'). exists (t1 :: bs'), x'.
    repeat split; [exact E'|constructor; [congruence|exact F']]. }
  destruct (S1 _ _ _ K2 E0) as (bs' & x1 & -> & E2 & B1 & B2). destruct (S2 _ _ _ K3 E2) as (vs' & x2 & -> & E3 & C1).
  destruct (nb _ _ _ E3) as (l0 & r1 & -> & El & E4); [apply (length_kinds _ _ K4)|]. exists r1.
  assert (Em : map (fun _ : token => barline) bs = map (fun _ : token => barline) bs') by (clear -B2; revert bs' B2; induction bs as [|b bs IH]; intros [|b' bs'] L; try discriminate; [reflexivity|]; cbn; f_equal; apply IH; now injection L).
  rewrite Em. apply (tied t0 bs' vs' l0 c r1); [congruence|exact B1|exact C1|congruence].
Qed.
Lemma duration_rest_ends : forall ts ns r, duration_rest ts ns r -> forall ts', ends ts ts' -> exists r', ends r r' /\ duration_rest ts' ns r'.
Proof.
  induction 1 as [r K1 K2|t ts ns r K _ IH|ts ns r ms r' K _ IH]; intros ts' E.
  - exists ts'. split; [exact E|]. apply dr_end; [now apply (ends_not r ts' TBarline E)|]. intros ns x T. destruct (untied_ends _ _ _ _ E T) as (x0 & T0). now apply K2 in T0.
  - destruct (ends_cons _ _ _ E) as (t1 & -> & E1 & _); [ne|]. destruct (IH _ E1) as (r' & E2 & F). exists r'. split; [exact E2|]. exact (dr_bar (moved d t) t1 ns r' K F).
  - destruct (tied_ends _ _ _ _ K E) as (x & E1 & T). destruct (IH _ E1) as (y & E2 & F). exists y. split; [exact E2|]. exact (dr_tie ts' ns x ms y T F).
Qed.
Lemma length_none_ends : forall ts ts', ends ts ts' -> length_node (kind ts) = None -> length_node (kind ts') = None.
Proof.
  intros ts ts' E K. destruct (ends_case _ _ E) as [[-> ->]|(t & r & r' & -> & -> & _)]; [|exact K].
  destruct (length_node (kind us)) eqn:L; [|reflexivity]. apply length_kinds in L. destruct L. congruence.
Qed.
Lemma duration_ends : forall ts ns r ts', duration_at ts ns r -> ends ts ts' -> exists r', ends r r' /\ duration_at ts' ns r'.
Proof.
  intros ts ns r ts' H E. destruct H as [r K|t ts c ns r K H].
  - exists ts'. split; [exact E|]. apply dur_none. now apply (length_none_ends r).
  - destruct (ends_cons _ _ _ E) as (t1 & -> & E1 & _); [apply (length_kinds _ _ K)|]. destruct (duration_rest_ends _ _ _ H _ E1) as (r' & E2 & F).
    exists r'. split; [exact E2|]. exact (dur_some (moved d t) t1 c ns r' K F).
Qed.
Lemma accs_ends : forall ts ns r, accs ts ns r -> forall ts', ends ts ts' -> exists r', ends r r' /\ accs ts' ns r'.
Proof.
  induction 1 as [r K|t ts a ns r K _ IH]; intros ts' E.
  - exists ts'. split; [exact E|]. apply acc_end. destruct (ends_case _ _ E) as [[-> ->]|(t & x & x' & -> & -> & _)]; [|exact K].
    revert fresh. destruct (kind us); cbn; intros; try reflexivity; discriminate.
  - destruct (ends_cons _ _ _ E) as (t1 & -> & E1 & _); [intros X; rewrite X in K; discriminate|]. destruct (IH _ E1) as (r' & E2 & F). exists r'. split; [exact E2|]. exact (acc_one (moved d t) t1 a ns r' K F).
Qed.
Lemma note_ends : forall ts n r ts', note_or_rest_at ts n r -> ends ts ts' -> exists r', ends r r' /\ note_or_rest_at ts' n r'.
Proof.
  intros ts n r ts' H E. destruct H as [t l ts as_ r1 dd r K1 K2 K3 K4|t l ts as_ r1 dd u r K1 K2 K3 K4|t ts dd r K1 K2].
  - destruct (ends_cons _ _ _ E) as (t1 & -> & E1 & _); [ne|]. destruct (accs_ends _ _ _ K2 _ E1) as (x & E2 & F1). destruct (duration_ends _ _ _ _ K3 E2) as (y & E3 & F2).
    exists y. split; [exact E3|]. apply (nr_note (moved d t) l t1 as_ x dd y K1 F1 F2). now apply (ends_not r y TTie E3).
  - destruct (ends_cons _ _ _ E) as (t1 & -> & E1 & _); [ne|]. destruct (accs_ends _ _ _ K2 _ E1) as (x & E2 & F1). destruct (duration_ends _ _ _ _ K3 E2) as (y & E3 & F2).
    destruct (ends_cons _ _ _ E3) as (y1 & -> & E4 & _); [ne|]. exists y1. split; [exact E4|]. exact (nr_slurred (moved d t) l t1 as_ x dd (moved d u) y1 K1 F1 F2 K4).
  - destruct (ends_cons _ _ _ E) as (t1 & -> & E1 & _); [ne|]. destruct (duration_ends _ _ _ _ K2 E1) as (y & E3 & F2). exists y. split; [exact E3|]. exact (nr_rest (moved d t) t1 dd y K1 F2).
Qed.

(* ---------------- chords ---------------- *)
Lemma between_inside : forall ts ns r, between_notes ts ns r -> forall ts', ends ts ts' -> r <> [eof] -> exists r', ends r r' /\ between_notes ts' ns r'.
Proof.
  induction 1 as [r K1 K2 K3 K4|t ts ns r K _ IH|t ts ns r K _ IH|t n ts ns r K _ IH|t ts n r ns r' K F _ IH]; intros ts' E Hr.
  - exists ts'. split; [exact E|]. destruct (ends_kind _ _ E Hr) as [Ek _]. apply bn_end; rewrite Ek; assumption.
  - destruct (ends_cons _ _ _ E) as (t1 & -> & E1 & _); [ne|]. destruct (IH _ E1 Hr) as (x & E2 & B). exists x. split; [exact E2|]. exact (bn_up (moved d t) t1 ns x K B).
  - destruct (ends_cons _ _ _ E) as (t1 & -> & E1 & _); [ne|]. destruct (IH _ E1 Hr) as (x & E2 & B). exists x. split; [exact E2|]. exact (bn_down (moved d t) t1 ns x K B).
  - destruct (ends_cons _ _ _ E) as (t1 & -> & E1 & _); [ne|]. destruct (IH _ E1 Hr) as (x & E2 & B). exists x. split; [exact E2|]. exact (bn_set (moved d t) n t1 ns x K B).
  - destruct (proj1 form_ends _ _ _ F _ E) as (x & E1 & F1). destruct (IH _ E1 Hr) as (y & E2 & B). exists y. split; [exact E2|].
    destruct (ends_cons _ _ _ E) as (t1 & -> & _ & _); [ne|]. exact (bn_sexp (moved d t) t1 n x ns y K F1 B).
Qed.
Lemma between_outside : forall ts ns r, between_notes ts ns r -> forall ts', ends ts ts' -> r = [eof] -> no_chord ts'.
Proof.
  induction 1 as [r K1 K2 K3 K4|t ts ns r K _ IH|t ts ns r K _ IH|t n ts ns r K _ IH|t ts n r ns r' K F _ IH]; intros ts' E Hr.
  - subst r. apply ends_last in E. now subst ts'.
  - destruct (ends_cons _ _ _ E) as (t1 & -> & E1 & _); [ne|]. destruct (IH _ E1 Hr) as (ns' & x & B & S). eexists. exists x. split; [exact (bn_up (moved d t) t1 ns' x K B)|exact S].
  - destruct (ends_cons _ _ _ E) as (t1 & -> & E1 & _); [ne|]. destruct (IH _ E1 Hr) as (ns' & x & B & S). eexists. exists x. split; [exact (bn_down (moved d t) t1 ns' x K B)|exact S].
  - destruct (ends_cons _ _ _ E) as (t1 & -> & E1 & _); [ne|]. destruct (IH _ E1 Hr) as (ns' & x & B & S). eexists. exists x. split; [exact (bn_set (moved d t) n t1 ns' x K B)|exact S].
  - destruct (proj1 form_ends _ _ _ F _ E) as (x & E1 & F1). destruct (IH _ E1 Hr) as (ns' & y & B & S). destruct (ends_cons _ _ _ E) as (t1 & -> & _ & _); [ne|].
    eexists. exists y. split; [exact (bn_sexp (moved d t) t1 n x ns' y K F1 B)|exact S].
Qed.
Lemma list_eof_dec : forall ts ts', ends ts ts' -> ts = [eof] \/ ts <> [eof].
Proof. intros ts ts' E. destruct (ends_case _ _ E) as [[-> _]|(t & r & r' & -> & _ & _ & [P _])]; [now left|]. right. intros X. injection X as -> _. contradiction. Qed.
Lemma between_any : forall ts ns r ts', between_notes ts ns r -> ends ts ts' -> r = [eof] \/ exists r', ends r r' /\ between_notes ts' ns r'.
Proof.
  assert (D : forall ts ns r, between_notes ts ns r -> forall ts', ends ts ts' -> exists r', ends r r').
  { induction 1 as [r K1 K2 K3 K4|t ts ns r K _ IH|t ts ns r K _ IH|t n ts ns r K _ IH|t ts n r ns r' K F _ IH]; intros ts' E; [now exists ts'| | | |];
    [| | |destruct (proj1 form_ends _ _ _ F _ E) as (x & E1 & _); exact (IH _ E1)];
    (destruct (ends_cons _ _ _ E) as (t1 & -> & E1 & _); [ne|]; exact (IH _ E1)). }
  intros ts ns r ts' H E. destruct (D _ _ _ H _ E) as (x & Ex). destruct (list_eof_dec _ _ Ex) as [-> |Hr]; [now left|]. right. exact (between_inside _ _ _ H _ E Hr).
Qed.
Lemma no_chord_ends : forall ts ts', no_chord ts -> ends ts ts' -> no_chord ts'.
Proof.
  intros ts ts' (ns & r & B & S) E. destruct (between_any _ _ _ _ B E) as [-> |(r' & E' & B')].
  - exact (between_outside _ _ _ B _ E eq_refl).
  - exists ns, r'. split; [exact B'|]. now apply (ends_not r r' TSeparator E').
Qed.
Lemma no_note_eof : forall ns k r, notes_at [eof] ns k r -> False.
Proof.
  assert (X : forall n r, note_or_rest_at [eof] n r -> False) by (intros n r H; inversion H; subst; congruence).
  intros ns k r H. inversion H; subst; eapply X; eassumption.
Qed.
Lemma notes_ends : forall ts ns k r, notes_at ts ns k r -> forall ts', ends ts ts' -> exists r', ends r r' /\ notes_at ts' ns k r'.
Proof.
  induction 1 as [ts n r H K1 K2|ts n t k r H K|ts n r b s r1 a r2 ns k r3 H B1 K B2 NA IH]; intros ts' E.
  - destruct (note_ends _ _ _ _ H E) as (r' & E' & F). exists r'. split; [exact E'|]. apply na_one; [exact F| |exact (no_chord_ends _ _ K2 E')].
    intros k. apply (ends_not r r' (TRepeat k) E' eq_refl), K1.
  - destruct (note_ends _ _ _ _ H E) as (x & E' & F). destruct (ends_cons _ _ _ E') as (r' & -> & E2 & _); [ne|]. exists r'. split; [exact E2|]. exact (na_repeat ts' n (moved d t) k r' F K).
  - destruct (note_ends _ _ _ _ H E) as (x & E1 & F1).
    destruct (between_inside _ _ _ B1 _ E1) as (y & E2 & F2); [intros X; injection X as -> _; congruence|].
    destruct (ends_cons _ _ _ E2) as (y1 & -> & E3 & _); [ne|].
    destruct (between_any _ _ _ _ B2 E3) as [-> |(z & E4 & F4)].
    { exfalso. exact (no_note_eof _ _ _ NA). }
    destruct (IH _ E4) as (w & E5 & F5). exists w. split; [exact E5|]. exact (na_more ts' n x b (moved d s) y1 a z ns k w F1 F2 K F4 F5).
Qed.
(* ---------------- events ---------------- *)
Lemma ends_here : ends [eof] us.
Proof. exists []. repeat split; constructor. Qed.
Lemma looks_ends : forall ts ts', ends ts ts' -> ts <> [eof] -> looks_like_part ts' = looks_like_part ts.
Proof.
  intros ts ts' E H. destruct (ends_case _ _ E) as [[E1 _]|(t & r & r' & -> & -> & Er & _)]; [contradiction|].
  unfold looks_like_part. cbn [kind moved tkind kind2]. destruct (ends_case _ _ Er) as [[-> ->]|(t1 & r1 & r1' & -> & -> & _)]; [|reflexivity].
  destruct (tkind t); try reflexivity. cbn. rewrite is_eof. assert (X := fresh). revert X. destruct us as [|u us']; [reflexivity|]. cbn. destruct (tkind u); cbn; intros; try reflexivity; discriminate.
Qed.
Lemma looks_eof : looks_like_part [eof] = false.
Proof. unfold looks_like_part. cbn. now rewrite is_eof. Qed.
Lemma ends_voice_eof : ends_voice [eof] = true.
Proof. unfold ends_voice. cbn. now rewrite is_eof. Qed.
Lemma ends_voice_ends : forall ts ts', ends ts ts' -> ts <> [eof] -> ends_voice ts' = ends_voice ts.
Proof. intros ts ts' E H. unfold ends_voice. rewrite (looks_ends _ _ E H). destruct (ends_kind _ _ E H) as [-> _]. reflexivity. Qed.
Lemma no_event_eof : forall n r, event [eof] n r -> False.
Proof. intros n r H. apply event_head in H. cbn in H. rewrite is_eof in H. discriminate. Qed.

Lemma last_is_tl : forall P (n : node) ns, last_is P (n :: ns) -> last_is P ns.
Proof. intros P n ns H x ms ->. apply (H x (n :: ms)). reflexivity. Qed.
Lemma closed_def : forall name es, closed (var_def_node name es) <-> last_is closed es.
Proof.
  intros name es. unfold var_def_node, branch, leaf. 
  assert (G : forall l, (fix go (l : list node) : Prop := match l with [] => True | [x] => closed x | _ :: t => go t end) l <-> last_is closed l).
  { induction l as [|x l IH]; [split; [intros _ n ms E; destruct ms; discriminate|exact (fun _ => I)]|]. destruct l as [|y l].
    - split; [intros H n ms E; destruct ms as [|? [|]]; try discriminate; now injection E as ->|]. intros H. exact (H x [] eq_refl).
    - rewrite IH. split; [|apply last_is_tl]. intros H n ms E. destruct ms as [|z ms]; [discriminate|]. injection E as -> E. exact (H n ms E). }
  apply (G es).
Qed.
Definition ended (vs : list node) : Prop := exists ms e, vs = ms ++ [e] /\ nty e = VoiceGroupEndMarkerNode.

Definition may_end (r : list token) (P : Prop) : Prop := r = [eof] -> kind us = TEOF \/ P.
Definition ev_ok ts n r : Prop := forall ts', ends ts ts' -> exists r', ends r r' /\ (may_end r (closed n) -> event ts' n r').
Definition ol_ok (line : Z) ts ns r : Prop := forall ts', ends ts ts' -> kind us = TEOF \/ line + d <> line_of us -> exists r', ends r r' /\ (may_end r (last_is closed ns) -> on_line (line + d) ts' ns r').
Definition sb_ok ts ns r : Prop := forall ts', ends ts ts' -> exists r', ends r r' /\ seq_body ts' ns r'.
Definition cb_ok ts ns r : Prop := forall ts', ends ts ts' -> exists r', ends r r' /\ cram_body ts' ns r'.
Definition vb_ok ts ns r : Prop := forall ts', ends ts ts' -> exists r', ends r r' /\ (may_end r False -> voice_body ts' ns r').
Definition va_ok (n : Z) ts vs r : Prop := forall ts', ends ts ts' -> exists r', ends r r' /\ (may_end r (ended vs) -> voices_at n ts' vs r').

Lemma seq_not_eof : forall ns r, seq_body [eof] ns r -> False.
Proof. intros ns r H. inversion H; subst; [congruence| |]; eapply no_event_eof; eassumption. Qed.
Lemma cram_not_eof : forall ns r, cram_body [eof] ns r -> False.
Proof. intros ns r H. inversion H; subst; [congruence|]; eapply no_event_eof; eassumption. Qed.
Lemma may_end_not : forall r P, r <> [eof] -> may_end r P.
Proof. intros r P H E. contradiction. Qed.

Lemma events_ends :
  (forall ts n r, event ts n r -> ev_ok ts n r) /\
  (forall line ts ns r, on_line line ts ns r -> ol_ok line ts ns r) /\
  (forall ts ns r, seq_body ts ns r -> seq_body ts ns r /\ sb_ok ts ns r) /\
  (forall ts ns r, cram_body ts ns r -> cram_body ts ns r /\ cb_ok ts ns r) /\
  (forall ts ns r, voice_body ts ns r -> voice_body ts ns r /\ vb_ok ts ns r) /\
  (forall n ts vs r, voices_at n ts vs r -> va_ok n ts vs r).
Proof.
  apply event_mutind; unfold ev_ok, ol_ok, sb_ok, cb_ok, vb_ok, va_ok.
  - intros ts n r n' r' K F R ts' E. destruct (proj1 form_ends _ _ _ F _ E) as (x & E1 & F1). destruct (repeated_ends _ _ _ _ _ R E1) as (y & E2 & R2).
    exists y. split; [exact E2|]. intros _. apply (ev_sexp ts' n x n' y); [|exact F1|exact R2]. apply (ends_kind_eq _ _ _ E K). discriminate.
  - intros t e ts es r K1 K2 K3 K4 _ IH ts' E. destruct (ends_cons _ _ _ E) as (t1 & -> & E1 & P1); [ne|]. destruct (ends_cons _ _ _ E1) as (t2 & -> & E2 & P2); [ne|].
    destruct (IH _ E2) as (r' & E3 & C); [apply P1|]. exists r'. split; [exact E3|]. intros M. apply (ev_define (moved d t) (moved d e) t2 es r' K1 K2).
    + destruct (ends_kind _ _ E2) as [-> X]; [intros ->; cbn in K3; contradiction|exact X].
    + destruct (ends_case _ _ E2) as [[-> _]|(u & x & x' & -> & -> & _)]; [cbn in K3; contradiction|]. cbn in *. lia.
    + apply C. intros Hr. destruct (M Hr) as [Z0|Z0]; [now left|right]. now apply closed_def in Z0.
  - intros t r n' r' K1 K2 R ts' E. destruct (ends_cons _ _ _ E) as (t1 & -> & E1 & _); [ne|]. destruct (repeated_ends _ _ _ _ _ R E1) as (y & E2 & R2). exists y. split; [exact E2|]. intros _.
    apply (ev_name (moved d t) t1 n' y K1); [|exact R2]. now apply (ends_not r t1 TEquals E1).
  - intros t n r K ts' E. destruct (ends_cons _ _ _ E) as (t1 & -> & E1 & _); [ne|]. exists t1. split; [exact E1|]. intros _. exact (ev_octave_set (moved d t) n t1 K).
  - intros t r K ts' E. destruct (ends_cons _ _ _ E) as (t1 & -> & E1 & _); [ne|]. exists t1. split; [exact E1|]. intros _. exact (ev_octave_up (moved d t) t1 K).
  - intros t r K ts' E. destruct (ends_cons _ _ _ E) as (t1 & -> & E1 & _); [ne|]. exists t1. split; [exact E1|]. intros _. exact (ev_octave_down (moved d t) t1 K).
  - intros ts ns k r H ts' E. destruct (notes_ends _ _ _ _ H _ E) as (x & E1 & F). exists x. split; [exact E1|]. intros _. exact (ev_notes ts' ns k x F).
  - intros t r K ts' E. destruct (ends_cons _ _ _ E) as (t1 & -> & E1 & _); [ne|]. exists t1. split; [exact E1|]. intros _. exact (ev_barline (moved d t) t1 K).
  - intros t ts es r n' r' K _ [_ IH] R ts' E. destruct (ends_cons _ _ _ E) as (t1 & -> & E1 & _); [ne|]. destruct (IH _ E1) as (x & E2 & S). destruct (repeated_ends _ _ _ _ _ R E2) as (y & E3 & R3).
    exists y. split; [exact E3|]. intros _. exact (ev_seq (moved d t) t1 es x n' y K S R3).
  - intros t ts es r1 dd r n' r' K _ [_ IH] Hn D R ts' E. destruct (ends_cons _ _ _ E) as (t1 & -> & E1 & _); [ne|]. destruct (IH _ E1) as (x & E2 & S).
    destruct (duration_ends _ _ _ _ D E2) as (z & Ez & Dz). destruct (repeated_ends _ _ _ _ _ R Ez) as (y & E3 & R3).
    exists y. split; [exact E3|]. intros _. exact (ev_cram (moved d t) t1 es x dd z n' y K S Hn Dz R3).
  - intros t n ts vs r K _ IH ts' E. destruct (ends_cons _ _ _ E) as (t1 & -> & E1 & _); [ne|]. destruct (IH _ E1) as (x & E2 & C). exists x. split; [exact E2|]. intros M.
    exact (ev_voices (moved d t) n t1 vs x K (C M)).
  - intros t s r K ts' E. destruct (ends_cons _ _ _ E) as (t1 & -> & E1 & _); [ne|]. exists t1. split; [exact E1|]. intros _. exact (ev_marker (moved d t) s t1 K).
  - intros t s r K ts' E. destruct (ends_cons _ _ _ E) as (t1 & -> & E1 & _); [ne|]. exists t1. split; [exact E1|]. intros _. exact (ev_at_marker (moved d t) s t1 K).
  - intros line r K ts' E L. exists ts'. split; [exact E|]. intros _. apply ol_end. destruct (ends_case _ _ E) as [[-> ->]|(t & x & x' & -> & -> & _ & [P1 _])]; [destruct L as [L|L]; [now left|right; congruence]|].
    right. destruct K as [K|K]; [contradiction|]. cbn in *. lia.
  - intros line ts n r ns r' K L Hev IH1 Hol IH2 ts' E Hl. destruct (IH1 _ E) as (x & E1 & C1). destruct (IH2 _ E1 Hl) as (y & E2 & C2). exists y. split; [exact E2|]. intros M.
    destruct (list_eof_dec _ _ E) as [-> |Nt]; [cbn in K; contradiction|]. destruct (ends_case _ _ E) as [[-> _]|(t & z & z' & -> & -> & _)]; [contradiction|].
    apply (ol_event (line + d) _ n x ns y); [exact K|cbn in *; lia| |].
    + apply C1. intros ->. inversion Hol; subst; [|match goal with X : kind [eof] <> TEOF |- _ => cbn in X; contradiction end]. destruct (M eq_refl) as [Z0|Z0]; [now left|right]. exact (Z0 n [] eq_refl).
    + apply C2. intros Hr. destruct (M Hr) as [Z0|Z0]; [now left|right]. exact (last_is_tl _ _ _ Z0).
  - intros t r K. split; [now apply sb_end|]. intros ts' E. destruct (ends_cons _ _ _ E) as (t1 & -> & E1 & _); [ne|]. exists t1. split; [exact E1|]. exact (sb_end (moved d t) t1 K).
  - intros ts n r ns r' Hev IH1 K Hsb [Hs IH2]. split; [now apply (sb_event ts n r)|]. intros ts' E. destruct (IH1 _ E) as (x & E1 & C1). destruct (IH2 _ E1) as (y & E2 & C2). exists y. split; [exact E2|].
    assert (Nr : r <> [eof]) by (intros ->; exact (seq_not_eof _ _ Hsb)). apply (sb_event ts' n x ns y (C1 (may_end_not _ _ Nr))); [|exact C2].
    intros rs. destruct (ends_kind _ _ E1 Nr) as [-> _]. apply K.
  - intros ts n t rs r ns r' Hev IH1 K Hsb [Hs IH2]. split; [now apply (sb_reps ts n t rs r)|]. intros ts' E. destruct (IH1 _ E) as (x & E1 & C1).
    assert (Nr : t :: r <> [eof]) by (intros X; injection X as -> _; congruence). specialize (C1 (may_end_not _ _ Nr)).
    destruct (ends_cons _ _ _ E1) as (t1 & -> & E2 & _); [ne|]. destruct (IH2 _ E2) as (y & E3 & C2). exists y. split; [exact E3|].
    exact (sb_reps ts' n (moved d t) rs t1 ns y C1 K C2).
  - intros t r K. split; [now apply cb_end|]. intros ts' E. destruct (ends_cons _ _ _ E) as (t1 & -> & E1 & _); [ne|]. exists t1. split; [exact E1|]. exact (cb_end (moved d t) t1 K).
  - intros ts n r ns r' Hev IH1 Hsb [Hs IH2]. split; [now apply (cb_event ts n r)|]. intros ts' E. destruct (IH1 _ E) as (x & E1 & C1). destruct (IH2 _ E1) as (y & E2 & C2). exists y. split; [exact E2|].
    assert (Nr : r <> [eof]) by (intros ->; exact (cram_not_eof _ _ Hsb)). exact (cb_event ts' n x ns y (C1 (may_end_not _ _ Nr)) C2).
  - intros r K. split; [now apply vb_end|]. intros ts' E. exists ts'. split; [exact E|]. intros M. apply vb_end. destruct (list_eof_dec _ _ E) as [-> |Nr].
    + apply ends_last in E. subst ts'. destruct (M eq_refl) as [Z0|[]]. unfold ends_voice. now rewrite Z0.
    + now rewrite (ends_voice_ends _ _ E Nr).
  - intros ts n r ns r' K Hev IH1 Hvb [Hv IH2]. split; [now apply (vb_event ts n r)|]. intros ts' E. destruct (IH1 _ E) as (x & E1 & C1). destruct (IH2 _ E1) as (y & E2 & C2). exists y. split; [exact E2|]. intros M.
    destruct (list_eof_dec _ _ E) as [-> |Nt]; [rewrite ends_voice_eof in K; discriminate|].
    apply (vb_event ts' n x ns y); [now rewrite (ends_voice_ends _ _ E Nt)| |exact (C2 M)]. apply C1. intros ->. 
    inversion Hvb; subst; [|rewrite ends_voice_eof in *; discriminate]. destruct (M eq_refl) as [Z0|[]]. now left.
  - intros n ts es r _ [Hv IH] K ts' E. destruct (IH _ E) as (x & E1 & C). exists x. split; [exact E1|]. intros M.
    assert (M' : may_end r False). { intros Hr. destruct (M Hr) as [Z0|(ms & e & Ee & Ty)]; [now left|]. destruct ms as [|? [|]]; try discriminate. injection Ee as <-. discriminate. }
    apply va_last; [exact (C M')|]. intros m. destruct (list_eof_dec _ _ E1) as [-> |Nr]; [apply ends_last in E1; subst x; destruct (M' eq_refl) as [-> |[]]; discriminate|].
    destruct (ends_kind _ _ E1 Nr) as [-> _]. apply K.
  - intros n ts es t r _ [Hv IH] K ts' E. destruct (IH _ E) as (x & E1 & C). assert (Nr : t :: r <> [eof]) by (intros X; injection X as -> _; congruence). specialize (C (may_end_not _ _ Nr)).
    destruct (ends_cons _ _ _ E1) as (t1 & -> & E2 & _); [ne|]. exists t1. split; [exact E2|]. intros _. exact (va_end n ts' es (moved d t) t1 C K).
  - intros n ts es t m r vs r' _ [Hv IH] K Hm _ IH2 ts' E. destruct (IH _ E) as (x & E1 & C). assert (Nr : t :: r <> [eof]) by (intros X; injection X as -> _; congruence). specialize (C (may_end_not _ _ Nr)).
    destruct (ends_cons _ _ _ E1) as (t1 & -> & E2 & _); [ne|]. destruct (IH2 _ E2) as (y & E3 & C2). exists y. split; [exact E3|]. intros M.
    apply (va_more n ts' es (moved d t) m t1 vs y C K Hm). apply C2. intros Hr. destruct (M Hr) as [Z0|(ms & e & Ee & Ty)]; [now left|right].
    destruct ms as [|z ms]; [injection Ee as <- ->|injection Ee as _ ->; now exists ms, e]. discriminate.
Qed.

(* ---------------- lists of events across the boundary ---------------- *)
Definition radd (a b : res (list update)) : res (list update) := rbind a (fun x => rbind b (fun y => ROk (x ++ y))).
Lemma radd_assoc : forall a b c, radd (radd a b) c = radd a (radd b c).
Proof. intros [x|m|m] [y|m'|m'] [z|m''|m'']; cbn; try reflexivity. now rewrite app_assoc. Qed.
Lemma radd_nil_l : forall a, radd (ROk []) a = a.
Proof. intros [x|m|m]; reflexivity. Qed.
Lemma radd_nil_r : forall a, radd a (ROk []) = a.
Proof. intros [x|m|m]; cbn; try reflexivity. now rewrite app_nil_r. Qed.
Lemma all_cons : forall n ns, updates_all (n :: ns) = radd (updates n) (updates_all ns).
Proof. reflexivity. Qed.
Lemma all_nil : updates_all [] = ROk [].
Proof. reflexivity. Qed.
Lemma all_app : forall a b, updates_all (a ++ b) = radd (updates_all a) (updates_all b).
Proof. induction a as [|n a IH]; intros b; [now rewrite all_nil, radd_nil_l|]. cbn [app]. now rewrite !all_cons, IH, radd_assoc. Qed.
Lemma radd_ok : forall a b x, radd a b = ROk x -> exists y z, a = ROk y /\ b = ROk z /\ x = y ++ z.
Proof. intros [y|m|m] [z|m'|m'] x H; try discriminate. cbn in H. injection H as <-. now exists y, z. Qed.

Lemma part_eof : forall es r, part_body [eof] es r -> es = [] /\ r = [eof].
Proof. intros es r H. inversion H; subst; [auto|]. match goal with X : kind [eof] <> TEOF |- _ => cbn in X; contradiction end. Qed.
Lemma voice_eof : forall es r, voice_body [eof] es r -> es = [] /\ r = [eof].
Proof. intros es r H. inversion H; subst; [auto|]. rewrite ends_voice_eof in *. discriminate. Qed.

Lemma voice_join : forall ts es r, voice_body ts es r -> forall ts' es2 y, r = [eof] -> ends ts ts' -> voice_body us es2 y -> last_is closed es -> voice_body ts' (es ++ es2) y.
Proof.
  induction 1 as [r K|ts n r ns r' K Hev Hvb IH]; intros ts' es2 y -> E HB L.
  - apply ends_last in E. now subst ts'.
  - destruct (proj1 events_ends _ _ _ Hev _ E) as (x & E1 & C).
    assert (Nt : ts <> [eof]) by (intros ->; rewrite ends_voice_eof in K; discriminate).
    apply (vb_event ts' n x (ns ++ es2) y); [now rewrite (ends_voice_ends _ _ E Nt)| |exact (IH x es2 y eq_refl E1 HB (last_is_tl _ _ _ L))].
    apply C. intros ->. right. destruct (voice_eof _ _ Hvb) as [-> _]. exact (L n [] eq_refl).
Qed.
(** The events before the first voice of some events. *)
Lemma part_end : forall ts es r, part_body ts es r -> kind r = TEOF \/ looks_like_part r = true.
Proof. induction 1; assumption. Qed.
Lemma event_no_close : forall ts n r, event ts n r -> (forall m, kind ts <> TVoice m) -> kind ts <> TEOF -> looks_like_part ts = false -> ends_voice ts = false.
Proof.
  intros ts n r H V K L. apply event_head in H. unfold ends_voice. rewrite L. destruct (kind ts) eqn:Ek; try reflexivity; try discriminate; try contradiction. exfalso. exact (V _ eq_refl).
Qed.
Lemma part_split : forall ts es r, part_body ts es r -> exists es2 y, voice_body ts es2 y /\
  ((es = es2 /\ r = y /\ forall m, kind y <> TVoice m) \/
   exists t m y' vs z rest, y = t :: y' /\ tkind t = TVoice m /\ voices_at m y' vs z /\ part_body z rest r /\ es = es2 ++ branch VoiceGroupNode vs :: rest).
Proof.
  induction 1 as [r K|ts n r ns r' K1 K2 Hev Hpb IH].
  - exists [], r. split.
    + apply vb_end. unfold ends_voice. destruct K as [-> |K]; [reflexivity|]. rewrite K. now destruct (kind r).
    + left. repeat split. intros m E. destruct K as [K|K]; [congruence|]. unfold looks_like_part in K. rewrite E in K. discriminate.
  - assert (D : (exists m, kind ts = TVoice m) \/ forall m, kind ts <> TVoice m) by (destruct (kind ts); try (right; discriminate); left; now eexists).
    destruct D as [[m D]|D].
    + inversion Hev; subst; cbn [kind] in D; try congruence.
      * exfalso. destruct (chord_complete _ _ _ _ H) as (t & ts' & -> & _ & [[l Hl]|Hl] & _); cbn [kind] in D; congruence.
      * assert (n0 = m) by congruence. subst n0. exists [], (t :: ts0). split; [apply vb_end; unfold ends_voice; cbn [kind]; now rewrite D|]. right. exists t, m, ts0, vs, r, ns. repeat split; assumption.
    + destruct IH as (es2 & y & HV & IH). exists (n :: es2), y. split; [exact (vb_event ts n r es2 y (event_no_close _ _ _ Hev D K1 K2) Hev HV)|].
      destruct IH as [(-> & -> & IH)|(t & m & y' & vs & z & rest & -> & T & V & P & ->)]; [left; auto|right]. exists t, m, y', vs, z, rest. repeat split; assumption.
Qed.

(** The first voice of the second text does not close the first one's voices. *)
Definition no_zero (es0 : list node) : Prop := forall es2 k es vs rest, es0 = es2 ++ branch VoiceGroupNode (voice_node k es :: vs) :: rest -> Forall (fun n => nty n <> VoiceGroupNode) es2 -> k <> 0.
Definition last_voice (vs : list node) : Prop := forall ms k es, vs = ms ++ [voice_node k es] -> last_is closed es.
Lemma event_group : forall ts n r, event ts n r -> nty n <> VoiceGroupNode \/
  exists t m ts0 vs, ts = t :: ts0 /\ tkind t = TVoice m /\ n = branch VoiceGroupNode vs /\ voices_at m ts0 vs r.
Proof.
  intros ts n r Hev.
  assert (R : forall n ts n' r, repeated n ts n' r -> nty n <> VoiceGroupNode -> nty n' <> VoiceGroupNode) by (intros ? ? ? ? []; intros; [assumption|discriminate]).
  destruct Hev; try (left; discriminate).
  - left. match goal with H : form _ _ _ |- _ => inversion H; subst end; (eapply R; [eassumption|discriminate]).
  - left. eapply R; [eassumption|discriminate].
  - left. unfold maybe_times. destruct (0 <? k); [discriminate|]. match goal with H : notes_at _ _ _ _ |- _ => inversion H; subst end; cbn [one_or_chord];
      try (match goal with H : note_or_rest_at _ _ _ |- _ => inversion H; subst; discriminate end).
    destruct (b ++ a ++ ns0) eqn:X; [|discriminate]. match goal with H : note_or_rest_at ts _ _ |- _ => clear -H; inversion H; subst; discriminate end.
  - left. eapply R; [eassumption|discriminate].
  - left. eapply R; [eassumption|discriminate].
  - right. exists t, n, ts, vs. auto.
Qed.
Lemma voice_no_group : forall ts es r, voice_body ts es r -> Forall (fun n => nty n <> VoiceGroupNode) es.
Proof.
  induction 1 as [|ts n r ns r' K Hev _ IH]; constructor; [|exact IH]. destruct (event_group _ _ _ Hev) as [X|(t & m & ts0 & vs & -> & T & _)]; [exact X|].
  unfold ends_voice in K. cbn [kind] in K. rewrite T in K. discriminate.
Qed.
Lemma voices_first : forall k ts vs r, voices_at k ts vs r -> exists es vs', vs = voice_node k es :: vs'.
Proof. intros k ts vs r H. inversion H; subst; eexists; eexists; reflexivity. Qed.

Lemma voice_updates : forall k es es2, updates (voice_node k (es ++ es2)) = radd (updates (voice_node k es)) (updates_all es2).
Proof. intros k es es2. rewrite !up_voice, all_app. destruct (updates_all es) as [x|m|m], (updates_all es2) as [y|m'|m']; reflexivity. Qed.

Lemma voices_join : forall k ts vs r, voices_at k ts vs r -> forall ts' es0 us1, r = [eof] -> ends ts ts' -> part_body us es0 us1 -> no_zero es0 -> last_voice vs -> ~ ended vs ->
  exists vs' es1 x, voices_at k ts' vs' x /\ part_body x es1 us1 /\ radd (updates_all vs') (updates_all es1) = radd (updates_all vs) (updates_all es0).
Proof.
  induction 1 as [k ts es r Hvb K|k ts es t r Hvb K|k ts es t m r vs r' Hvb K Hm _ IH]; intros ts' es0 us1 -> E HP Z0 L NE.
  - destruct (part_split _ _ _ HP) as (es2 & y & HV & D). assert (J : voice_body ts' (es ++ es2) y) by exact (voice_join _ _ _ Hvb _ _ _ eq_refl E HV (L [] k es eq_refl)).
    destruct D as [(-> & -> & V)|(t & m & y' & vs & z & rest & -> & T & V & P & ->)].
    + exists [voice_node k (es ++ es2)], [], y. repeat split; [exact (va_last k ts' _ y J V)|apply pb_end, (part_end _ _ _ HP)|].
      rewrite all_nil, radd_nil_r, !all_cons, all_nil, !radd_nil_r. apply voice_updates.
    + destruct (voices_first _ _ _ _ V) as (e1 & vs1 & ->). exists (voice_node k (es ++ es2) :: voice_node m e1 :: vs1), rest, z. repeat split.
      * apply (va_more k ts' _ t m y' _ z J T); [|exact V]. exact (Z0 es2 m e1 vs1 rest eq_refl (voice_no_group _ _ _ HV)).
      * exact P.
      * rewrite all_app, (all_cons (branch VoiceGroupNode _)), up_voices, (all_cons (voice_node k _)), voice_updates, (all_cons (voice_node k es)), all_nil, radd_nil_r. now rewrite !radd_assoc.
  - exfalso. apply NE. exists [voice_node k es], (branch VoiceGroupEndMarkerNode []). split; reflexivity.
  - destruct (proj1 (proj2 (proj2 (proj2 (proj2 events_ends)))) _ _ _ Hvb) as [_ V]. destruct (V _ E) as (x & E1 & C).
    assert (Nr : t :: r <> [eof]) by (intros X; injection X as -> _; congruence). specialize (C (may_end_not _ _ Nr)). destruct (ends_cons _ _ _ E1) as (t1 & -> & E2 & _); [ne|].
    destruct (IH _ es0 us1 eq_refl E2 HP Z0) as (vs' & es1 & z & V1 & P1 & U).
    + intros ms k' es' ->. apply (L (voice_node k es :: ms) k' es'). reflexivity.
    + intros (ms & e & -> & Ty). apply NE. exists (voice_node k es :: ms), e. auto.
    + exists (voice_node k es :: vs'), es1, z. repeat split; [exact (va_more k ts' es (moved d t) m t1 vs' z C K Hm V1)|exact P1|]. rewrite !all_cons, !radd_assoc. now rewrite U.
Qed.

(** What the last event of the first text must be for the second to follow. *)
Definition may_follow (es0 : list node) (n : node) : Prop :=
  kind us = TEOF \/ closed n \/ exists vs, n = branch VoiceGroupNode vs /\ last_voice vs /\ no_zero es0.
Lemma closed_dec : forall k ts vs r, voices_at k ts vs r -> ended vs \/ ~ ended vs.
Proof.
  induction 1 as [k ts es r Hvb K|k ts es t r Hvb K|k ts es t m r vs r' Hvb K Hm _ IH].
  - right. intros (ms & e & X & Ty). destruct ms as [|? [|]]; try discriminate. injection X as <-. discriminate.
  - left. exists [voice_node k es], (branch VoiceGroupEndMarkerNode []). split; reflexivity.
  - destruct IH as [(ms & e & -> & Ty)|IH]; [left; exists (voice_node k es :: ms), e; auto|right]. intros (ms & e & X & Ty). destruct ms as [|z ms]; [injection X as <- ->; discriminate|]. injection X as _ ->. apply IH. now exists ms, e.
Qed.
Lemma part_join : forall ts es r, part_body ts es r -> forall ts' es0 us1, r = [eof] -> ends ts ts' -> part_body us es0 us1 -> last_is (may_follow es0) es ->
  exists es', part_body ts' es' us1 /\ updates_all es' = radd (updates_all es) (updates_all es0).
Proof.
  induction 1 as [r K|ts n r ns r' K1 K2 Hev Hpb IH]; intros ts' es0 us1 -> E HP L.
  - apply ends_last in E. subst ts'. exists es0. split; [exact HP|]. now rewrite all_nil, radd_nil_l.
  - destruct (proj1 events_ends _ _ _ Hev _ E) as (x & E1 & C).
    assert (Nt : ts <> [eof]) by (intros ->; cbn in K1; contradiction).
    destruct (ends_kind _ _ E Nt) as [Ek1 Ek2]. rewrite <- Ek1 in Ek2. assert (L' : looks_like_part ts' = false) by now rewrite (looks_ends _ _ E Nt).
    assert (S : event ts' n x -> exists es', part_body ts' es' us1 /\ updates_all es' = radd (updates_all (n :: ns)) (updates_all es0)).
    { intros V. destruct (IH x es0 us1 eq_refl E1 HP (last_is_tl _ _ _ L)) as (es' & P & U). exists (n :: es'). split; [exact (pb_event ts' n x es' us1 Ek2 L' V P)|]. now rewrite !all_cons, U, radd_assoc. }
    destruct (list_eof_dec _ _ E1) as [-> |Nr]; [|exact (S (C (may_end_not _ _ Nr)))].
    destruct (part_eof _ _ Hpb) as [-> _]. destruct (L n [] eq_refl) as [Z0|[Z0|(vs & -> & LV & Z0)]]; [apply S, C; now left|apply S, C; now right|].
    destruct (event_group _ _ _ Hev) as [X|(t & m & ts0 & vs0 & -> & T & X & H0)]; [cbn in X; contradiction|]. assert (vs0 = vs) by (injection X as ->; reflexivity). subst vs0.
    destruct (closed_dec _ _ _ _ H0) as [En|En]; [apply S, C; right; exact En|].
    destruct (ends_cons _ _ _ E) as (t1 & -> & E2 & _); [ne|].
    destruct (voices_join _ _ _ _ H0 _ es0 us1 eq_refl E2 HP Z0 LV En) as (vs' & es1 & z & V1 & P1 & U).
    exists (branch VoiceGroupNode vs' :: es1). split; [apply (pb_event _ _ z); [exact Ek2|exact L'| |exact P1]; exact (ev_voices (moved d t) m t1 vs' z T V1)|].
    rewrite !all_cons, !up_voices, all_nil, radd_nil_r. exact U.
Qed.
Lemma part_inside : forall ts es r, part_body ts es r -> forall ts', ends ts ts' -> r <> [eof] -> exists r', ends r r' /\ part_body ts' es r'.
Proof.
  induction 1 as [r K|ts n r ns r' K1 K2 Hev Hpb IH]; intros ts' E Nr.
  - exists ts'. split; [exact E|]. apply pb_end. rewrite (looks_ends _ _ E Nr). destruct (ends_kind _ _ E Nr) as [-> _]. exact K.
  - destruct (proj1 events_ends _ _ _ Hev _ E) as (x & E1 & C).
    assert (Nt : ts <> [eof]) by (intros ->; cbn in K1; contradiction).
    destruct (ends_kind _ _ E Nt) as [Ek1 Ek2]. rewrite <- Ek1 in Ek2. assert (L' : looks_like_part ts' = false) by now rewrite (looks_ends _ _ E Nt).
    destruct (IH x E1 Nr) as (y & E2 & P). exists y. split; [exact E2|]. apply (pb_event ts' n x ns y Ek2 L'); [|exact P]. apply C, may_end_not. intros ->. destruct (part_eof _ _ Hpb) as [_ ->]. contradiction.
Qed.
Lemma part_ends : forall ts es r, part_body ts es r -> forall ts', ends ts ts' -> exists r', ends r r'.
Proof.
  induction 1 as [r K|ts n r ns r' K1 K2 Hev Hpb IH]; intros ts' E; [now exists ts'|]. destruct (proj1 events_ends _ _ _ Hev _ E) as (x & E1 & _). exact (IH x E1).
Qed.
Lemma names_ends : forall ts ns r, names_at ts ns r -> forall ts', ends ts ts' -> r <> [eof] -> exists r', ends r r' /\ names_at ts' ns r'.
Proof.
  induction 1 as [r K|s t ts ns r K1 K2 _ IH]; intros ts' E Nr.
  - exists ts'. split; [exact E|]. apply nm_end. destruct (ends_kind _ _ E Nr) as [-> _]. exact K.
  - destruct (ends_cons _ _ _ E) as (t1 & -> & E1 & _); [ne|]. destruct (ends_cons _ _ _ E1) as (t2 & -> & E2 & _); [ne|]. destruct (IH _ E2 Nr) as (r' & E3 & F). exists r'. split; [exact E3|].
    exact (nm_more (moved d s) (moved d t) t2 ns r' K1 K2 F).
Qed.
Lemma declaration_ends : forall ts n r ts', declaration ts n r -> ends ts ts' -> exists r', ends r r' /\ declaration ts' n r'.
Proof.
  intros ts n r ts' H E. destruct H as [t ts ns c r K1 K2 K3|t ts ns a s c r K1 K2 K3 K4].
  - destruct (ends_cons _ _ _ E) as (t1 & -> & E1 & _); [ne|]. destruct (names_ends _ _ _ K2 _ E1) as (x & E2 & F); [intros X; injection X as -> _; congruence|]. destruct (ends_cons _ _ _ E2) as (y & -> & E3 & _); [ne|].
    exists y. split; [exact E3|]. exact (dc_plain (moved d t) t1 ns (moved d c) y K1 F K3).
  - destruct (ends_cons _ _ _ E) as (t1 & -> & E1 & _); [ne|]. destruct (names_ends _ _ _ K2 _ E1) as (x & E2 & F); [intros X; injection X as -> _; congruence|]. destruct (ends_cons _ _ _ E2) as (y & -> & E3 & _); [ne|].
    destruct (ends_cons _ _ _ E3) as (y1 & -> & E4 & _); [ne|].
    exists y1. split; [exact E4|]. exact (dc_alias (moved d t) t1 ns (moved d a) s (moved d c) y1 K1 F K3 K4).
Qed.

Lemma part_eof_tail : forall ns r, parts_at [eof] ns r -> ns = [].
Proof. intros ns r H. inversion H; subst; [reflexivity|rewrite looks_eof in *; discriminate|match goal with X : kind [eof] <> TEOF |- _ => cbn in X; contradiction end]. Qed.
Lemma up_partnode : forall dn es x u, updates_all es = ROk x -> updates (branch PartNode [dn; branch EventSequenceNode es]) = ROk u -> exists p, ast_declaration dn = ROk p /\ u = p :: x.
Proof. intros dn es x u H. rewrite up_part, H. destruct (ast_declaration dn); cbn; intros X; try discriminate. injection X as <-. now eexists. Qed.

(** The last events of the last part. *)
Definition events_of (n : node) : list node :=
  match n with
  | Node PartNode _ [_; Node EventSequenceNode _ es] => es
  | Node ImplicitPartNode _ [Node EventSequenceNode _ es] => es
  | _ => []
  end.
Fixpoint last_events (ns : list node) : list node :=
  match ns with [] => [] | n :: t => match t with [] => events_of n | _ => last_events t end end.
Lemma last_events_cons : forall n m ns, last_events (n :: m :: ns) = last_events (m :: ns).
Proof. reflexivity. Qed.

Lemma parts_join : forall ts ns r, parts_at ts ns r -> forall ts' es0 us1 ns1 r1, ends ts ts' -> part_body us es0 us1 -> parts_at us1 ns1 r1 ->
  last_is (may_follow es0) (last_events ns) ->
  (ns = [] -> exists nsB, parts_at us nsB r1 /\ updates_all nsB = radd (updates_all es0) (updates_all ns1)) ->
  exists ns', parts_at ts' ns' r1 /\ updates_all ns' = radd (updates_all ns) (radd (updates_all es0) (updates_all ns1)).
Proof.
  induction 1 as [r K|ts dn r es r' ns r'' K Hd Hp Hps IH|ts es r ns r' K1 K2 Hp Hps IH]; intros ts' es0 us1 ns1 r1 E P0 P1 L B.
  - pose proof (ends_eof _ _ E K) as ->. apply ends_last in E. subst ts'. destruct (B eq_refl) as (nsB & PB & U). exists nsB. split; [exact PB|]. now rewrite all_nil, radd_nil_l.
  - assert (Nt : ts <> [eof]) by (intros ->; rewrite looks_eof in K; discriminate). assert (K' : looks_like_part ts' = true) by now rewrite (looks_ends _ _ E Nt).
    destruct (declaration_ends _ _ _ _ Hd E) as (x & E1 & D1). destruct (part_ends _ _ _ Hp _ E1) as (y & Ey). destruct (list_eof_dec _ _ Ey) as [-> |Nr].
    + pose proof (part_eof_tail _ _ Hps) as ->. destruct (part_join _ _ _ Hp _ es0 us1 eq_refl E1 P0 L) as (es' & PJ & U).
      exists (branch PartNode [dn; branch EventSequenceNode es'] :: ns1). split; [exact (ps_part ts' dn x es' us1 ns1 r1 K' D1 PJ P1)|].
      rewrite !all_cons, all_nil, radd_nil_r, !up_part, U. destruct (ast_declaration dn), (updates_all es), (updates_all es0), (updates_all ns1); cbn; try reflexivity. now rewrite app_assoc.
    + destruct (part_inside _ _ _ Hp _ E1 Nr) as (z & E2 & PI).
      assert (Nn : ns <> []). { intros ->. inversion Hps; subst. apply Nr. eapply ends_eof; eassumption. }
      destruct (IH _ es0 us1 ns1 r1 E2 P0 P1) as (ns' & PJ & U).
      * destruct ns as [|n1 ns]; [contradiction|]. rewrite last_events_cons in L. exact L.
      * contradiction.
      * exists (branch PartNode [dn; branch EventSequenceNode es] :: ns'). split; [exact (ps_part ts' dn x es z ns' r1 K' D1 PI PJ)|]. now rewrite !all_cons, U, radd_assoc.
  - assert (Nt : ts <> [eof]) by (intros ->; cbn in K1; contradiction). assert (K' : looks_like_part ts' = false) by now rewrite (looks_ends _ _ E Nt).
    destruct (ends_kind _ _ E Nt) as [Ek1 Ek2]. rewrite <- Ek1 in Ek2.
    destruct (part_ends _ _ _ Hp _ E) as (y & Ey). destruct (list_eof_dec _ _ Ey) as [-> |Nr].
    + pose proof (part_eof_tail _ _ Hps) as ->. destruct (part_join _ _ _ Hp _ es0 us1 eq_refl E P0 L) as (es' & PJ & U).
      exists (branch ImplicitPartNode [branch EventSequenceNode es'] :: ns1). split; [exact (ps_implicit ts' es' us1 ns1 r1 Ek2 K' PJ P1)|].
      rewrite !all_cons, all_nil, radd_nil_r, !up_implicit, U. apply radd_assoc.
    + destruct (part_inside _ _ _ Hp _ E Nr) as (z & E2 & PI).
      assert (Nn : ns <> []). { intros ->. inversion Hps; subst. apply Nr. eapply ends_eof; eassumption. }
      destruct (IH _ es0 us1 ns1 r1 E2 P0 P1) as (ns' & PJ & U).
      * destruct ns as [|n1 ns]; [contradiction|]. rewrite last_events_cons in L. exact L.
      * contradiction.
      * exists (branch ImplicitPartNode [branch EventSequenceNode es] :: ns'). split; [exact (ps_implicit ts' es z ns' r1 Ek2 K' PI PJ)|]. now rewrite !all_cons, U, radd_assoc.
Qed.

End Join.

(* ---------------- what the updates tell of the tree ---------------- *)
Section Marks.
Context {N : Num}.
Implicit Types us : list update.

Definition is_mark (u : update) : bool := match u with UVoice _ | UVoiceEnd | UPart _ _ => true | _ => false end.
Lemma voices_start : forall us b, fold_left voices_after us b = true -> b = true \/ in_voices us = true.
Proof.
  unfold in_voices. induction us as [|u us IH]; intros b H; [now left|]. cbn [fold_left] in *. destruct u; cbn [voices_after] in *; try (right; exact H); apply IH, H.
Qed.
Lemma in_voices_voice : forall a k us, in_voices (a ++ UVoice k :: us) = in_voices (UVoice k :: us).
Proof. intros a k us. unfold in_voices. now rewrite fold_left_app. Qed.
Lemma unmarked_voices : forall us b, forallb (fun u => negb (is_mark u)) us = true -> fold_left voices_after us b = b.
Proof. induction us as [|u us IH]; intros b H; [reflexivity|]. cbn in *. apply andb_true_iff in H. destruct H as [H1 H2]. rewrite IH by exact H2. now destruct u. Qed.
Lemma ends_open_app : forall a u us, ends_open (a ++ u :: us) = ends_open (u :: us).
Proof. intros a u us. unfold ends_open. rewrite rev_app_distr. destruct (rev (u :: us)) as [|x l] eqn:E; [|reflexivity]. apply (f_equal (@length _)) in E. rewrite rev_length in E. discriminate. Qed.
Lemma open_def_eq : forall s us, open_definition (UVarDef s us) = in_voices us || ends_open us.
Proof.
  intros s us. cbn [open_definition]. unfold in_voices. f_equal. induction us as [|u us IH]; [reflexivity|]. destruct us as [|v us]; [reflexivity|]. rewrite IH. symmetry. apply (ends_open_app [u]).
Qed.
Lemma closes_app : forall us k vs, forallb (fun u => negb (is_mark u)) us = true -> closes_voices (us ++ UVoice k :: vs) = (k =? 0).
Proof. induction us as [|u us IH]; intros k vs H; [reflexivity|]. cbn in H. apply andb_true_iff in H. destruct H as [H1 H2]. destruct u; try discriminate H1; cbn; now apply IH. Qed.

Definition vo_ok (vs : list node) us : Prop :=
  (exists k us', us = UVoice k :: us') /\ (in_voices us = false -> ended vs) /\ (ends_open us = false -> last_voice vs).
Definition node_ok (n : node) : Prop := forall us, updates n = ROk us ->
  (nty n <> VoiceGroupNode /\ exists u, us = [u] /\ is_mark u = false /\ (open_definition u = false -> closed n)) \/
  (exists vs, n = branch VoiceGroupNode vs /\ vo_ok vs us).

Lemma one_ok_node : forall n, nty n <> VoiceGroupNode -> closed n -> (forall us, updates n = ROk us -> exists u, us = [u] /\ is_mark u = false) -> node_ok n.
Proof. intros n H1 H2 H3 us E. left. split; [exact H1|]. destruct (H3 us E) as (u & -> & M). exists u. auto. Qed.
Lemma node_repeat : forall n k, node_ok (repeat_node n k).
Proof.
  intros n k. apply one_ok_node; [discriminate|exact I|]. intros us. rewrite up_repeat. destruct (updates n); cbn; intros E; try discriminate. injection E as <-. now eexists.
Qed.
Lemma repeated_node : forall n ts n' r, repeated n ts n' r -> node_ok n -> node_ok n'.
Proof. intros n ts n' r R H; destruct R; [exact H|apply node_repeat]. Qed.

Lemma all_nonempty : forall n ns us, node_ok n -> updates_all (n :: ns) = ROk us -> us <> [].
Proof.
  intros n ns us H E. rewrite all_cons in E. apply radd_ok in E. destruct E as (y & z & E1 & _ & ->). destruct (H y E1) as [(_ & u & -> & _)|(vs & _ & (k & us' & ->) & _)]; discriminate.
Qed.
Lemma last_split : forall es us n ms, updates_all es = ROk us -> es = ms ++ [n] -> exists a b, us = a ++ b /\ updates n = ROk b.
Proof.
  intros es us n ms H ->. rewrite all_app in H. apply radd_ok in H. destruct H as (a & b & _ & Eb & ->). exists a, b. split; [reflexivity|]. rewrite all_cons, all_nil, radd_nil_r in Eb. exact Eb.
Qed.
Lemma last_closed : forall es us, Forall node_ok es -> updates_all es = ROk us -> in_voices us = false -> ends_open us = false -> last_is closed es.
Proof.
  intros es us F E H1 H2 n ms En. destruct (last_split _ _ _ _ E En) as (a & b & -> & Eb). subst es. apply Forall_app in F. destruct F as [_ F]. inversion F as [|? ? F1 _]; subst.
  destruct (F1 b Eb) as [(_ & u & -> & _ & C)|(vs & -> & (k & us' & ->) & V & _)].
  - apply C. rewrite ends_open_app in H2. exact H2.
  - rewrite in_voices_voice in H1. exact (V H1).
Qed.
Lemma last_closed_voice : forall es us, Forall node_ok es -> Forall (fun n => nty n <> VoiceGroupNode) es -> updates_all es = ROk us -> ends_open us = false -> last_is closed es.
Proof.
  intros es us F G E H2 n ms En. destruct (last_split _ _ _ _ E En) as (a & b & -> & Eb). subst es. apply Forall_app in F. destruct F as [_ F]. inversion F as [|? ? F1 _]; subst.
  apply Forall_app in G. destruct G as [_ G]. inversion G as [|? ? G1 _]; subst.
  destruct (F1 b Eb) as [(_ & u & -> & _ & C)|(vs & -> & _)]; [|cbn in G1; contradiction]. apply C. rewrite ends_open_app in H2. exact H2.
Qed.
Lemma all_unmarked : forall es us, Forall node_ok es -> Forall (fun n => nty n <> VoiceGroupNode) es -> updates_all es = ROk us -> forallb (fun u => negb (is_mark u)) us = true.
Proof.
  induction es as [|n es IH]; intros us F G E; [rewrite all_nil in E; injection E as <-; reflexivity|]. inversion_clear F as [|? ? F1 F2]. inversion_clear G as [|? ? G1 G2].
  rewrite all_cons in E. apply radd_ok in E. destruct E as (y & z & E1 & E2 & ->). destruct (F1 y E1) as [(_ & u & -> & M & _)|(vs & -> & _)]; [|cbn in G1; contradiction].
  cbn. rewrite M. exact (IH z F2 G2 E2).
Qed.

Lemma nodes_ok :
  (forall ts n r, event ts n r -> node_ok n) /\
  (forall line ts ns r, on_line line ts ns r -> Forall node_ok ns) /\
  (forall ts ns r, seq_body ts ns r -> True) /\
  (forall ts ns r, cram_body ts ns r -> True) /\
  (forall ts ns r, voice_body ts ns r -> Forall node_ok ns) /\
  (forall n ts vs r, voices_at n ts vs r -> forall us, updates_all vs = ROk us -> vo_ok vs us).
Proof.
  assert (V1 : forall k es us, updates (voice_node k es) = ROk us -> exists x, updates_all es = ROk x /\ us = UVoice k :: x).
  { intros k es us. rewrite up_voice. destruct (updates_all es); cbn; intros E; try discriminate. injection E as <-. now eexists. }
  apply event_mutind; try (intros; exact I); try (intros; constructor; assumption).
  - intros ts n r n' r' K F R. apply (repeated_node _ _ _ _ R). inversion F; subst; cbn [kind] in K; try congruence. apply one_ok_node; [discriminate|exact I|].
    intros us. unfold branch. rewrite up_lisp. destruct (ast_lisp _) as [f|m|m]; cbn; intros E; try discriminate. destruct f; try discriminate. injection E as <-. now eexists.
  - intros t e ts es r K1 K2 K3 K4 _ IH us E. left. split; [discriminate|]. rewrite up_vardef in E. destruct (updates_all es) as [x|m|m] eqn:Ex; try discriminate. cbn in E. injection E as <-.
    eexists. split; [reflexivity|]. split; [reflexivity|]. intros O. rewrite open_def_eq in O. apply orb_false_iff in O. destruct O as [O1 O2]. apply closed_def. exact (last_closed es x IH Ex O1 O2).
  - intros t r n' r' K1 K2 R. apply (repeated_node _ _ _ _ R). apply one_ok_node; [discriminate|exact I|]. intros us E. cbn in E. injection E as <-. now eexists.
  - intros t n r K. apply one_ok_node; [discriminate|exact I|]. intros us E. cbn in E. injection E as <-. now eexists.
  - intros t r K. apply one_ok_node; [discriminate|exact I|]. intros us E. cbn in E. injection E as <-. now eexists.
  - intros t r K. apply one_ok_node; [discriminate|exact I|]. intros us E. cbn in E. injection E as <-. now eexists.
  - intros ts ns k r H. unfold maybe_times. destruct (0 <? k); [apply node_repeat|].
    assert (R : forall ts n r, note_or_rest_at ts n r -> node_ok n).
    { clear. intros ts n r H. apply one_ok_node; [destruct H; discriminate|destruct H; exact I|]. intros us E. destruct H as [t l ts as_ r1 dd r _ _ _ _|t l ts as_ r1 dd u r _ _ _ _|t ts dd r _ D].
      - unfold note_node, branch at 1 in E. rewrite up_note in E. destruct (ast_pitch _); cbn [rbind] in E; try discriminate. destruct (ast_note_rest _ _ _) as [[? ?]| |]; cbn in E; try discriminate. injection E as <-. now eexists.
      - unfold note_node, branch at 1 in E. rewrite up_note in E. destruct (ast_pitch _); cbn [rbind] in E; try discriminate. destruct (ast_note_rest _ _ _) as [[? ?]| |]; cbn in E; try discriminate. injection E as <-. now eexists.
      - inversion D; subst; cbn [branch updates] in E; [injection E as <-; now eexists|]. destruct (ast_duration _); cbn in E; try discriminate. injection E as <-. now eexists. }
    inversion H; subst; cbn [one_or_chord]; try (eapply R; eassumption).
    destruct (b ++ a ++ ns0) eqn:X; [eapply R; eassumption|]. apply one_ok_node; [discriminate|exact I|]. intros us. unfold branch. rewrite up_chord. destruct (updates_all _); cbn; intros E; try discriminate. injection E as <-. now eexists.
  - intros t r K. apply one_ok_node; [discriminate|exact I|]. intros us E. cbn in E. injection E as <-. now eexists.
  - intros t ts es r n' r' K _ _ R. apply (repeated_node _ _ _ _ R). apply one_ok_node; [discriminate|exact I|]. intros us. rewrite up_seq. destruct (updates_all es); cbn; intros E; try discriminate. injection E as <-. now eexists.
  - intros t ts es r1 dd r n' r' K _ _ Hn D R. apply (repeated_node _ _ _ _ R). apply one_ok_node; [discriminate|exact I|]. intros us. destruct D as [r _|t1 ts1 c ns1 r _ _].
    + rewrite (up_cram es : updates (cram_node es []) = _). destruct (updates_all es); cbn; intros E; try discriminate. injection E as <-. now eexists.
    + rewrite (up_cram_dur es (c :: ns1) : updates (cram_node es [branch DurationNode (c :: ns1)]) = _). destruct (updates_all es); cbn; intros E; try discriminate. destruct (ast_duration _); cbn in E; try discriminate. injection E as <-. now eexists.
  - intros t n ts vs r K _ IH us E. right. exists vs. split; [reflexivity|]. rewrite up_voices in E. exact (IH us E).
  - intros t s r K. apply one_ok_node; [discriminate|exact I|]. intros us E. cbn in E. injection E as <-. now eexists.
  - intros t s r K. apply one_ok_node; [discriminate|exact I|]. intros us E. cbn in E. injection E as <-. now eexists.
  - intros k ts es r Hv F K us E. rewrite all_cons, all_nil, radd_nil_r in E. destruct (V1 _ _ _ E) as (x & Ex & ->). pose proof (voice_no_group _ _ _ Hv) as G. split; [now exists k, x|]. split.
    + intros H. unfold in_voices in H. cbn [fold_left voices_after] in H. rewrite (unmarked_voices x true (all_unmarked es x F G Ex)) in H. discriminate.
    + intros H ms k' es' X. destruct ms as [|? [|]]; try discriminate. injection X as <- <-. apply (last_closed_voice es x F G Ex). destruct x as [|u x]; [reflexivity|]. exact (eq_trans (eq_sym (ends_open_app [UVoice k] u x)) H).
  - intros k ts es t r Hv F K us E. rewrite !all_cons, all_nil, radd_nil_r in E. apply radd_ok in E. destruct E as (y & z & E1 & E2 & ->). destruct (V1 _ _ _ E1) as (x & Ex & ->). split; [exists k, (x ++ z); reflexivity|]. split.
    + intros _. exists [voice_node k es], (branch VoiceGroupEndMarkerNode []). split; reflexivity.
    + intros _ ms k' es' X. exfalso. destruct ms as [|? [|? [|]]]; try discriminate.
  - intros k ts es t m r vs r' Hv F K Hm Hva IH us E. rewrite all_cons in E. apply radd_ok in E. destruct E as (y & z & E1 & E2 & ->). destruct (V1 _ _ _ E1) as (x & Ex & ->). split; [exists k, (x ++ z); reflexivity|].
    destruct (IH z E2) as ((k' & z' & ->) & I1 & I2). split.
    + intros H. rewrite in_voices_voice in H. destruct (I1 H) as (ms & e & -> & Ty). exists (voice_node k es :: ms), e. auto.
    + intros H ms k1 es1 X. rewrite ends_open_app in H. destruct ms as [|w ms]; [|injection X as _ ->; exact (I2 H ms k1 es1 eq_refl)].
      injection X as _ _ ->. inversion Hva.
Qed.
Lemma part_nodes : forall ts es r, part_body ts es r -> Forall node_ok es.
Proof. induction 1 as [|ts n r ns r' _ _ H _ IH]; constructor; [exact (proj1 nodes_ok _ _ _ H)|exact IH]. Qed.

Lemma part_marks : forall ts es0 r, part_body ts es0 r -> forall x v, updates_all es0 = ROk x -> closes_voices (x ++ v) = false -> no_zero es0.
Proof.
  intros ts es0 r H x v E C es2 k es vs rest -> G. pose proof (part_nodes _ _ _ H) as F. apply Forall_app in F. destruct F as [F _].
  rewrite all_app in E. apply radd_ok in E. destruct E as (y & z & E1 & E2 & ->). rewrite all_cons, up_voices, all_cons, up_voice in E2.
  destruct (updates_all es) as [u|m|m]; try discriminate. cbn [rmap radd rbind] in E2. destruct (updates_all vs); try discriminate. cbn [rbind] in E2. destruct (updates_all rest); try discriminate. cbn in E2. injection E2 as <-.
  cbn [app] in C. rewrite <- app_assoc in C. cbn [app] in C. rewrite (closes_app y k _ (all_unmarked es2 y F G E1)) in C. intros ->. discriminate.
Qed.
Definition follows us vs : Prop := ends_open us = false /\ (in_voices us = true -> closes_voices vs = false).
Lemma last_follow : forall (tk : list token) ts ns r, parts_at ts ns r -> forall p ua es0 ub, updates_all ns = ROk ua -> follows (p ++ ua) ub -> (closes_voices ub = false -> no_zero es0) -> last_is (may_follow tk es0) (last_events ns).
Proof.
  intros tk ts ns r H.
  assert (G : forall es, Forall node_ok es -> forall p x es0 ub, updates_all es = ROk x -> follows (p ++ x) ub -> (closes_voices ub = false -> no_zero es0) -> last_is (may_follow tk es0) es).
  { intros es F p x es0 ub E [C1 C2] Z0 n ms En. destruct (last_split _ _ _ _ E En) as (a & b & -> & Eb). subst es. apply Forall_app in F. destruct F as [_ F]. inversion F as [|? ? F1 _]; subst.
    rewrite app_assoc in C1, C2. right. destruct (F1 b Eb) as [(_ & u & -> & _ & C)|(vs & -> & (k & us' & ->) & V1 & V2)].
    - left. apply C. rewrite ends_open_app in C1. exact C1.
    - rewrite in_voices_voice in C2. rewrite ends_open_app in C1. destruct (in_voices (UVoice k :: us')) eqn:Ev; [|left; exact (V1 eq_refl)]. right. exists vs. split; [reflexivity|]. split; [exact (V2 C1)|exact (Z0 (C2 eq_refl))]. }
  assert (S : forall n ns ua, updates_all (n :: ns) = ROk ua -> exists p x, ua = p ++ x /\ updates n = ROk p /\ updates_all ns = ROk x).
  { intros n l ua E. rewrite all_cons in E. apply radd_ok in E. destruct E as (y & z & E1 & E2 & ->). now exists y, z. }
  induction H as [r K|ts dn r es r' ns r'' K Hd Hp Hps IH|ts es r ns r' K1 K2 Hp Hps IH]; intros p ua es0 ub E C Z0.
  - intros n ms X. destruct ms; discriminate.
  - destruct ns as [|n1 ns].
    + rewrite all_cons, all_nil, radd_nil_r, up_part in E. destruct (ast_declaration dn) as [u|m|m]; try discriminate. cbn [rbind] in E. destruct (updates_all es) as [x|m|m] eqn:Ex; try discriminate. cbn in E. injection E as <-.
      change (u :: x) with ([u] ++ x) in C. rewrite app_assoc in C. exact (G es (part_nodes _ _ _ Hp) _ x es0 ub Ex C Z0).
    + rewrite last_events_cons. destruct (S _ _ _ E) as (q & x & -> & E1 & E2). rewrite app_assoc in C. exact (IH _ x es0 ub E2 C Z0).
  - destruct ns as [|n1 ns].
    + rewrite all_cons, all_nil, radd_nil_r, up_implicit in E. exact (G es (part_nodes _ _ _ Hp) p ua es0 ub E C Z0).
    + rewrite last_events_cons. destruct (S _ _ _ E) as (q & x & -> & E1 & E2). rewrite app_assoc in C. exact (IH _ x es0 ub E2 C Z0).
Qed.

(* ---------------- the start of the second text ---------------- *)
Lemma parts_lead : forall ts ns r, parts_at ts ns r -> exists es0 ts1 ns1, part_body ts es0 ts1 /\ parts_at ts1 ns1 r /\ updates_all ns = radd (updates_all es0) (updates_all ns1).
Proof.
  intros ts ns r H. destruct H as [r K|ts dn r es r' ns r'' K Hd Hp Hps|ts es r ns r' K1 K2 Hp Hps].
  - exists [], r, []. split; [apply pb_end; now left|]. split; [now apply ps_end|reflexivity].
  - exists [], ts, (branch PartNode [dn; branch EventSequenceNode es] :: ns). split; [apply pb_end; now right|]. split; [exact (ps_part ts dn r es r' ns r'' K Hd Hp Hps)|]. rewrite all_nil. symmetry. apply radd_nil_l.
  - exists es, r, ns. split; [exact Hp|]. split; [exact Hps|]. now rewrite all_cons, up_implicit.
Qed.
Lemma looks_kind : forall ts, looks_like_part ts = true -> kind ts = TName.
Proof. intros ts. unfold looks_like_part. destruct (kind ts); try discriminate. reflexivity. Qed.
Lemma parts_silent : forall ts ns r, parts_at ts ns r -> updates_all ns = ROk [] -> kind ts = TEOF.
Proof.
  intros ts ns r H E. destruct H as [r K|ts dn r es r' ns r'' K Hd Hp Hps|ts es r ns r' K1 K2 Hp Hps]; [exact K| |].
  - exfalso. rewrite all_cons, up_part in E. apply radd_ok in E. destruct E as (y & z & E & _ & X). destruct (ast_declaration dn); try discriminate. cbn [rbind] in E. destruct (updates_all es); try discriminate. cbn in E. injection E as <-. discriminate.
  - exfalso. rewrite all_cons, up_implicit in E. apply radd_ok in E. destruct E as (y & z & E & _ & X). symmetry in X. apply app_eq_nil in X. destruct X as [-> _].
    pose proof (part_nodes _ _ _ Hp) as F. destruct Hp as [r0 K|ts0 n r0 ns0 r0' _ _ _ _]; [destruct K; congruence|]. inversion_clear F as [|? ? F1 _]. exact (all_nonempty n ns0 [] F1 E eq_refl).
Qed.
Lemma parts_fresh : forall ts ns r, parts_at ts ns r -> kind ts <> TBarline -> continues (kind ts) = false.
Proof.
  intros ts ns r H B. destruct H as [r K|ts dn r es r' ns r'' K Hd Hp Hps|ts es r ns r' K1 K2 Hp Hps].
  - now rewrite K.
  - now rewrite (looks_kind _ K).
  - inversion Hp; subst; [match goal with X : _ \/ _ |- _ => destruct X as [X|X]; congruence end|]. match goal with X : event _ _ _ |- _ => apply event_head in X; revert X end. revert B. destruct (kind ts); cbn; try congruence; try discriminate.
Qed.
Lemma part_no_chord : forall ts es r, part_body ts es r -> no_chord ts.
Proof.
  assert (Q : forall ts, kind ts <> TOctUp -> kind ts <> TOctDown -> (forall n, kind ts <> TOctSet n) -> kind ts <> TLParen -> kind ts <> TSeparator -> no_chord ts).
  { intros ts H1 H2 H3 H4 H5. exists [], ts. split; [apply bn_end; assumption|exact H5]. }
  induction 1 as [r K|ts n r ns r' K1 K2 Hev Hpb IH].
  - destruct K as [K|K]; [|apply looks_kind in K]; apply Q; rewrite K; discriminate.
  - destruct IH as (bs & x & B & S). pose proof (event_head _ _ _ Hev) as Hh. inversion Hev; subst; cbn [kind] in *.
    all: try (apply Q; cbn [kind]; match goal with T : tkind ?t = _ |- tkind ?t <> _ => rewrite T; discriminate | T : tkind ?t = _ |- forall n, tkind ?t <> _ => rewrite T; discriminate end).
    + match goal with F : form ts _ _ |- _ => rename F into Hf end. match goal with R : repeated _ _ _ _ |- _ => rename R into Hr end. destruct ts as [|t ts]; [inversion Hf|]. inversion Hr; subst.
      * eexists. exists x. split; [eapply (bn_sexp t ts); eassumption|exact S].
      * eexists. eexists. split; [eapply (bn_sexp t ts); [eassumption|eassumption|]|]; [apply bn_end; cbn [kind]; match goal with T : tkind ?u = TRepeat _ |- _ => rewrite T; discriminate end|].
        cbn [kind]. match goal with T : tkind ?u = TRepeat _ |- _ => rewrite T; discriminate end.
    + eexists. exists x. split; [eapply bn_set; eassumption|exact S].
    + eexists. exists x. split; [eapply bn_up; eassumption|exact S].
    + eexists. exists x. split; [eapply bn_down; eassumption|exact S].
    + destruct (chord_complete _ _ _ _ H) as (t & ts' & -> & _ & [[l Hl]|Hl] & _); apply Q; cbn [kind]; rewrite Hl; discriminate.
Qed.
End Marks.

(* ---------------- joining two lists of tokens ---------------- *)
Section Texts.
Context {N : Num}.
Implicit Types ts r : list token.

Lemma moved_zero : forall ts, map (moved 0) ts = ts.
Proof. induction ts as [|t ts IH]; [reflexivity|]. cbn. rewrite IH. f_equal. destruct t. unfold moved. cbn. f_equal. apply Z.add_0_r. Qed.
Lemma tokens_moved : forall d pre eof eof' ns r, tkind eof = TEOF -> tkind eof' = TEOF -> Forall (fun t => tkind t <> TEOF) pre ->
  parts_at (pre ++ [eof]) ns r -> exists ns', parts_at (map (moved d) pre ++ [eof']) ns' [eof'] /\ updates_all ns' = updates_all ns.
Proof.
  intros d pre eof eof' ns r He He' F H.
  assert (P0 : part_body [eof'] [] [eof']) by (apply pb_end; left; exact He').
  destruct (parts_join eof [eof'] d He ltac:(cbn; now rewrite He') (part_no_chord _ _ _ P0) _ _ _ H (map (moved d) pre ++ [eof']) [] [eof'] [] [eof']) as (ns' & P & U).
  - exists pre. split; [reflexivity|]. split; [reflexivity|]. eapply Forall_impl; [|exact F]. intros t K. split; [exact K|left; exact He'].
  - exact P0.
  - apply ps_end. exact He'.
  - intros n ms _. left. exact He'.
  - intros _. exists []. split; [apply ps_end; exact He'|reflexivity].
  - exists ns'. split; [exact P|]. rewrite U, all_nil. cbn [radd rbind]. rewrite app_nil_r. apply radd_nil_r.
Qed.
Lemma tokens_join : forall preA eofA nsA rA us nsB rB ua ub, tkind eofA = TEOF -> Forall (fun t => tkind t <> TEOF /\ tline t <> line_of us) preA ->
  parts_at (preA ++ [eofA]) nsA rA -> parts_at us nsB rB -> updates_all nsA = ROk ua -> updates_all nsB = ROk ub -> can_follow ua ub -> kind us <> TBarline ->
  exists ns r, parts_at (preA ++ us) ns r /\ updates_all ns = ROk (ua ++ ub).
Proof.
  intros preA eofA nsA rA us nsB rB ua ub He F HA HB UA UB C K.
  destruct (parts_lead _ _ _ HB) as (es0 & us1 & ns1 & P0 & P1 & U).
  assert (Z0 : closes_voices ub = false -> no_zero es0). { rewrite UB in U. symmetry in U. apply radd_ok in U. destruct U as (x & v & Ex & _ & ->). exact (part_marks _ _ _ P0 x v Ex). }
  destruct (parts_join eofA us 0 He (parts_fresh _ _ _ HB K) (part_no_chord _ _ _ P0) _ _ _ HA (preA ++ us) es0 us1 ns1 rB) as (ns' & P & U').
  - exists preA. split; [reflexivity|]. split; [now rewrite moved_zero|]. eapply Forall_impl; [|exact F]. intros t [K1 K2]. split; [exact K1|right]. rewrite Z.add_0_r. exact K2.
  - exact P0.
  - exact P1.
  - destruct C as [-> |C]; [|exact (last_follow us _ _ _ HA [] ua es0 ub UA C Z0)]. intros n ms _. left. exact (parts_silent _ _ _ HB UB).
  - intros _. exists nsB. split; [exact HB|exact U].
  - exists ns', rB. split; [exact P|]. rewrite U', UA, <- U, UB. reflexivity.
Qed.

(* ---------------- parentheses ---------------- *)
Definition paren (t : token) : Z := match tkind t with TLParen => 1 | TRParen => -1 | _ => 0 end.
Fixpoint parens ts : Z := match ts with [] => 0 | t :: r => paren t + parens r end.
Lemma parens_app : forall a b, parens (a ++ b) = parens a + parens b.
Proof. induction a as [|t a IH]; intros b; [reflexivity|]. cbn [app parens]. rewrite IH. apply Z.add_assoc. Qed.
Lemma paren_kind : forall t k, tkind t = k -> paren t = match k with TLParen => 1 | TRParen => -1 | _ => 0 end.
Proof. intros t k <-. reflexivity. Qed.
Lemma parens_cons : forall t r, parens (t :: r) = paren t + parens r.
Proof. reflexivity. Qed.
Ltac pk := repeat match goal with H : tkind ?t = ?k |- _ => progress rewrite (paren_kind t k H) end; rewrite ?Z.add_0_l.
Ltac pc := rewrite ?parens_cons; pk; try lia.

Lemma form_parens : (forall ts n r, form ts n r -> parens ts = parens r) /\ (forall ts ns r, forms ts ns r -> parens ts = parens r - 1).
Proof. apply form_forms_ind; intros; pc. Qed.
Lemma repeated_parens : forall n ts n' r, repeated n ts n' r -> parens ts = parens r.
Proof. destruct 1; pc. Qed.
Lemma kinds_parens : forall k ts, (match k with TLParen => 1 | TRParen => -1 | _ => 0 end) = 0 -> Forall (fun b => tkind b = k) ts -> parens ts = 0.
Proof. intros k ts Hk. induction 1 as [|t ts H _ IH]; [reflexivity|]. rewrite parens_cons, (paren_kind t k H), Hk, IH. reflexivity. Qed.
Lemma length_paren : forall t c, length_node (tkind t) = Some c -> paren t = 0.
Proof. intros t c H. unfold paren. destruct (tkind t); try discriminate H; reflexivity. Qed.
Lemma tied_parens : forall ts ns r, tied_length ts ns r -> parens ts = parens r.
Proof. destruct 1 as [t bs vs l c r K1 K2 K3 K4]. rewrite parens_cons, !parens_app, parens_cons, (length_paren l c), (kinds_parens TBarline bs), (kinds_parens TTie vs) by (assumption || reflexivity). pc. Qed.
Lemma duration_rest_parens : forall ts ns r, duration_rest ts ns r -> parens ts = parens r.
Proof. induction 1; pc. apply tied_parens in H. lia. Qed.
Lemma duration_parens : forall ts ns r, duration_at ts ns r -> parens ts = parens r.
Proof. destruct 1; [reflexivity|]. apply duration_rest_parens in H0. rewrite parens_cons, (length_paren t c H). lia. Qed.
Lemma accs_parens : forall ts ns r, accs ts ns r -> parens ts = parens r.
Proof. induction 1; [reflexivity|]. rewrite parens_cons. unfold paren. destruct (tkind t); try discriminate; lia. Qed.
Lemma note_parens : forall ts n r, note_or_rest_at ts n r -> parens ts = parens r.
Proof.
  destruct 1.
  - apply accs_parens in H0. apply duration_parens in H1. pc.
  - apply accs_parens in H0. apply duration_parens in H1. rewrite parens_cons in H1. rewrite (paren_kind u _ H2) in H1. pc.
  - apply duration_parens in H0. pc.
Qed.
Lemma between_parens : forall ts ns r, between_notes ts ns r -> parens ts = parens r.
Proof. induction 1; pc. apply (proj1 form_parens) in H0. rewrite parens_cons, (paren_kind t _ H) in H0. lia. Qed.
Lemma notes_parens : forall ts ns k r, notes_at ts ns k r -> parens ts = parens r.
Proof.
  induction 1.
  - now apply note_parens in H.
  - apply note_parens in H. rewrite parens_cons, (paren_kind t _ H0) in H. lia.
  - apply note_parens in H. apply between_parens in H0. apply between_parens in H2. rewrite parens_cons, (paren_kind s _ H1) in H0. lia.
Qed.
Lemma event_parens :
  (forall ts n r, event ts n r -> parens ts = parens r) /\
  (forall line ts ns r, on_line line ts ns r -> parens ts = parens r) /\
  (forall ts ns r, seq_body ts ns r -> parens ts = parens r) /\
  (forall ts ns r, cram_body ts ns r -> parens ts = parens r) /\
  (forall ts ns r, voice_body ts ns r -> parens ts = parens r) /\
  (forall n ts vs r, voices_at n ts vs r -> parens ts = parens r).
Proof.
  apply event_mutind; intros;
    repeat match goal with
    | H : form _ _ _ |- _ => apply (proj1 form_parens) in H
    | H : repeated _ _ _ _ |- _ => apply repeated_parens in H
    | H : notes_at _ _ _ _ |- _ => apply notes_parens in H
    | H : duration_at _ _ _ |- _ => apply duration_parens in H
    end; rewrite ?parens_cons in *;
    repeat match goal with H : tkind ?t = ?k |- _ => rewrite ?(paren_kind t k H) in *; clear H end; cbv beta iota in *; lia.
Qed.
Lemma part_parens : forall ts es r, part_body ts es r -> parens ts = parens r.
Proof. induction 1; [reflexivity|]. apply (proj1 event_parens) in H1. lia. Qed.
Lemma names_parens : forall ts ns r, names_at ts ns r -> parens ts = parens r.
Proof. induction 1; pc. Qed.
Lemma declaration_parens : forall ts n r, declaration ts n r -> parens ts = parens r.
Proof. destruct 1; apply names_parens in H0; rewrite ?parens_cons in *; repeat match goal with H : tkind ?t = ?k |- _ => rewrite ?(paren_kind t k H) in *; clear H end; cbv beta iota in *; lia. Qed.
Lemma parts_parens : forall ts ns r, parts_at ts ns r -> parens ts = parens r /\ kind r = TEOF.
Proof.
  induction 1; [auto| |]; (split; [|now apply IHparts_at]).
  - apply declaration_parens in H0. apply part_parens in H1. destruct IHparts_at. lia.
  - apply part_parens in H1. destruct IHparts_at. lia.
Qed.

(* ---------------- joining two texts ---------------- *)
Definition bare (k : tok) (t : list rune) : Prop := (exists n, k = TOctSet n) /\ t = runes "o".
Lemma stops_newline : forall f rest more, f newline = false -> stops f rest -> stops f (rest ++ newline :: more).
Proof. intros f [|x rest] more H1 H2; assumption. Qed.
Lemma ends_newline : forall f rest more, f newline = true -> ends_with f rest -> ends_with f (rest ++ newline :: more).
Proof. intros f [|x rest] more H1 H2; assumption. Qed.
Lemma fraction_newline : forall rest more, no_fraction rest -> no_fraction (rest ++ newline :: more).
Proof.
  intros [|x [|y rest]] more H; [|intros [_ Y]; change newline with 10 in Y; lia|exact H]. cbn [app]. unfold no_fraction. destruct more; [exact I|]. intros [Y _]. discriminate.
Qed.
Lemma lexeme_newline : forall m k t rest more, lexeme m k t rest -> ~ bare k t -> lexeme m k t (rest ++ newline :: more).
Proof.
  intros m k t rest more H B. destruct H; try (constructor; try assumption; fail).
  - apply lx_number; try assumption; [now apply stops_newline|]. intros E. apply fraction_newline; auto.
  - apply lx_negative; try assumption; [now apply stops_newline|]. intros E. apply fraction_newline; auto.
  - apply lx_symbol; try assumption. now apply stops_newline.
  - apply lx_length; try assumption; [now apply stops_newline|intros E; apply stops_newline; auto|intros E1 E2; apply stops_newline; auto|].
    intros E. destruct (H5 E) as [A1 A2]. split.
    + intros (r0 & E1 & E2). destruct rest as [|x rest]; [discriminate|]. cbn [app] in E1. injection E1 as -> <-. apply A1. exists rest. split; [reflexivity|]. destruct rest; [exact I|exact E2].
    + intros (r0 & E1). destruct rest as [|x [|y rest]]; [discriminate|discriminate|]. cbn [app] in E1. injection E1 as -> -> <-. apply A2. now exists rest.
  - apply lx_seconds; try assumption. now apply ends_newline.
  - apply (lx_repetitions rs t b); try assumption; try (now apply stops_newline). intros E. apply stops_newline; auto.
  - apply lx_repeat; try assumption. now apply ends_newline.
  - apply lx_marker; try assumption. now apply stops_newline.
  - apply lx_at_marker; try assumption. now apply stops_newline.
  - apply lx_name; try assumption. now apply stops_newline.
  - apply lx_note; try assumption. now apply ends_newline.
  - apply lx_rest. now apply ends_newline.
  - apply lx_octave; [assumption| |now apply ends_newline]. intros ->. exfalso. apply B. split; [now eexists|reflexivity].
Qed.
Definition level_step (level : Z) (k : tok) : Z := match k with TLParen => level + 1 | TRParen => level - 1 | _ => level end.
Fixpoint level_after (level : Z) (ps : list piece) : Z :=
  match ps with [] => level | Lexeme k _ :: t => level_after (level_step level k) t | _ :: t => level_after level t end.
Lemma text_app : forall a b, text_of (a ++ b) = text_of a ++ text_of b.
Proof. intros a b. unfold text_of. now rewrite map_app, concat_app. Qed.
Lemma well_formed_join : forall psa level psb, well_formed level psa -> (forall k t, In (Lexeme k t) psa -> ~ bare k t) -> level_after level psa = 0 -> well_formed 0 psb ->
  well_formed level (psa ++ Blank newline :: psb).
Proof.
  induction psa as [|p psa IH]; intros level psb HA B L HB.
  - cbn in L. subst level. cbn. split; [right; right; left; reflexivity|exact HB].
  - assert (T : text_of (psa ++ Blank newline :: psb) = text_of psa ++ newline :: text_of psb) by (rewrite text_app; reflexivity).
    assert (B' : forall k t, In (Lexeme k t) psa -> ~ bare k t) by (intros k t I0; apply B; now right).
    destruct p as [x|body|k t]; cbn [app well_formed] in *.
    + destruct HA as [H1 H2]. split; [exact H1|exact (IH level psb H2 B' L HB)].
    + destruct HA as (H1 & H2 & H3). split; [exact H1|]. split; [rewrite T; now apply ends_newline|exact (IH level psb H3 B' L HB)].
    + destruct HA as [H1 H2]. split; [|exact (IH _ psb H2 B' L HB)]. rewrite T. apply lexeme_newline; [exact H1|]. apply B. now left.
Qed.
Lemma level_parens : forall ps level before, level_after level ps = level + parens (tokens_at before ps).
Proof.
  induction ps as [|p ps IH]; intros level before; [cbn; unfold paren; cbn; lia|]. destruct p as [x|body|k t]; cbn [level_after tokens_at]; [apply IH|apply IH|].
  rewrite (IH _ (before ++ t)), parens_cons. unfold level_step, paren. cbn [tkind]. destruct k; lia.
Qed.

(** The tokens without the end of file. *)
Fixpoint body_at (before : list rune) (ps : list piece) : list token :=
  match ps with
  | [] => []
  | Lexeme k t :: ps' => Token k t (line_after before) (column_after before) :: body_at (before ++ t) ps'
  | p :: ps' => body_at (before ++ piece_text p) ps'
  end.
Definition eof_at (before : list rune) : token := Token TEOF [] (line_after before) (column_after before).
Lemma tokens_body : forall ps before, tokens_at before ps = body_at before ps ++ [eof_at (before ++ text_of ps)].
Proof.
  induction ps as [|p ps IH]; intros before; [cbn; now rewrite app_nil_r|]. unfold text_of. cbn [map concat]. destruct p as [x|body|k t]; cbn [tokens_at body_at piece_text]; rewrite IH; unfold text_of; now rewrite <- !app_assoc.
Qed.
Lemma body_app : forall psa before psb, body_at before (psa ++ psb) = body_at before psa ++ body_at (before ++ text_of psa) psb.
Proof.
  induction psa as [|p psa IH]; intros before psb; [cbn; now rewrite app_nil_r|]. unfold text_of. cbn [map concat]. destruct p as [x|body|k t]; cbn [app body_at piece_text]; rewrite IH; unfold text_of; now rewrite <- ?app_assoc.
Qed.
Lemma line_app : forall a b, line_after (a ++ b) = line_after a + (line_after b - 1).
Proof. intros a b. unfold line_after, rune in *. rewrite filter_app, app_length, Nat2Z.inj_add. lia. Qed.
Lemma line_ge : forall a, 1 <= line_after a.
Proof. intros a. unfold line_after. lia. Qed.
Lemma last_line_newline : forall a b acc, last_line (a ++ newline :: b) acc = last_line b [].
Proof. induction a as [|x a IH]; intros b acc; [reflexivity|]. cbn [app last_line]. destruct (x =? newline); apply IH. Qed.
Lemma body_moved : forall ps a x, body_at (a ++ newline :: x) ps = map (moved (line_after a)) (body_at x ps).
Proof.
  assert (M : forall k t a x, Token k t (line_after (a ++ newline :: x)) (column_after (a ++ newline :: x)) = moved (line_after a) (Token k t (line_after x) (column_after x))).
  { intros k t a x. unfold moved. cbn [tkind ttext tline tcol]. f_equal.
    - change (newline :: x) with ([newline] ++ x). rewrite !line_app. change (line_after [newline]) with 2. lia.
    - unfold column_after. now rewrite last_line_newline. }
  induction ps as [|p ps IH]; intros a x; [reflexivity|]. destruct p as [y|body|k t]; cbn [body_at map]; rewrite <- app_assoc; cbn [app]; rewrite IH; try reflexivity. now rewrite M.
Qed.
Lemma body_lines : forall ps level before, well_formed level ps -> Forall (fun t => tkind t <> TEOF /\ line_after before <= tline t <= line_after (before ++ text_of ps)) (body_at before ps).
Proof.
  induction ps as [|p ps IH]; intros level before H; [constructor|].
  assert (G : forall l x, well_formed l ps -> piece_text p = x -> Forall (fun t => tkind t <> TEOF /\ line_after before <= tline t <= line_after (before ++ text_of (p :: ps))) (body_at (before ++ x) ps)).
  { intros l x W E. eapply Forall_impl; [|exact (IH l (before ++ x) W)]. intros t [K1 K2]. split; [exact K1|]. unfold text_of. cbn [map concat]. fold (text_of ps). rewrite E, app_assoc.
    pose proof (line_app before x). pose proof (line_ge x). lia. }
  destruct p as [y|body|k t]; cbn [well_formed body_at] in *.
  - destruct H as [_ H]. exact (G level _ H eq_refl).
  - destruct H as (_ & _ & H). exact (G level _ H eq_refl).
  - destruct H as [H1 H]. constructor; [|exact (G _ _ H eq_refl)]. cbn [tkind tline]. split; [exact (lexeme_not_eof _ _ _ _ H1)|]. rewrite line_app. pose proof (line_ge (text_of (Lexeme k t :: ps))). lia.
Qed.
Lemma body_in : forall ps before k t, In (Lexeme k t) ps -> exists x, In x (body_at before ps) /\ tkind x = k /\ ttext x = t.
Proof.
  induction ps as [|p ps IH]; intros before k t H; [destruct H|]. destruct H as [-> |H].
  - eexists. split; [left; reflexivity|]. split; reflexivity.
  - destruct p as [y|body|k' t']; cbn [body_at]; [exact (IH _ k t H)|exact (IH _ k t H)|]. destruct (IH (before ++ t') k t H) as (x & X & E). exists x. split; [now right|exact E].
Qed.

Lemma compile_tree : forall a ua, compile a = ROk ua -> exists ps ns r, text_of ps = a /\ well_formed 0 ps /\ scan a = Scanned (tokens_at [] ps) /\ parts_at (tokens_at [] ps) ns r /\ updates_all ns = ROk ua.
Proof.
  intros a ua H. unfold compile in H. pose proof (parse_total a) as P. destruct (parse a) as [t|m l c| |] eqn:E; try discriminate. destruct P as (ts & Es & ns & r & P & ->).
  pose proof (scan_total a) as S. rewrite Es in S. destruct S as (ps & T & W & ->). exists ps, ns, r. split; [exact T|]. split; [exact W|]. split; [exact Es|]. split; [exact P|]. now rewrite up_root in H.
Qed.
Lemma scan_join : forall a psa nsA rA b psb, text_of psa = a -> well_formed 0 psa -> scan a = Scanned (tokens_at [] psa) -> parts_at (tokens_at [] psa) nsA rA ->
  text_of psb = b -> well_formed 0 psb -> ~ bare_octave a ->
  scan (a ++ newline :: b) = Scanned (body_at [] psa ++ map (moved (line_after a)) (body_at [] psb) ++ [eof_at (a ++ newline :: b)]).
Proof.
  intros a psa nsA rA b psb TA WA SA PA TB WB BO.
  assert (L0 : level_after 0 psa = 0).
  { rewrite (level_parens psa 0 []). destruct (parts_parens _ _ _ PA) as [-> K]. destruct (parts_ok _ _ _ PA) as [[Sf _] _]. destruct rA as [|t rA]; [reflexivity|].
    rewrite (tokens_end psa 0 [] t rA WA Sf K), parens_cons, (paren_kind t _ K). reflexivity. }
  assert (W : well_formed 0 (psa ++ Blank newline :: psb)).
  { apply well_formed_join; [exact WA| |exact L0|exact WB]. intros k t I0 [[n ->] ->]. apply BO. destruct (body_in psa [] _ _ I0) as (x & X & K1 & K2). exists (tokens_at [] psa), x, n.
    split; [exact SA|]. split; [rewrite tokens_body; apply in_or_app; now left|]. split; assumption. }
  assert (T : text_of (psa ++ Blank newline :: psb) = a ++ newline :: b) by (rewrite text_app, TA; change (text_of (Blank newline :: psb)) with (newline :: text_of psb); now rewrite TB).
  pose proof (scan_accepts _ W) as S. rewrite T in S. rewrite S. f_equal.
  rewrite tokens_body, T, body_app. cbn [app body_at piece_text]. rewrite TA. change (a ++ [newline]) with (a ++ newline :: []). rewrite body_moved. now rewrite <- app_assoc.
Qed.
Theorem compile_join : forall a b ua ub, compile a = ROk ua -> compile b = ROk ub -> can_follow ua ub -> ~ bare_octave a -> ~ leading_bar b ->
  compile (a ++ newline :: b) = ROk (ua ++ ub) /\ (leading_bar (a ++ newline :: b) -> leading_bar a).
Proof.
  intros a b ua ub HA HB C BO LB. destruct (compile_tree _ _ HA) as (psa & nsA & rA & TA & WA & SA & PA & UA). destruct (compile_tree _ _ HB) as (psb & nsB & rB & TB & WB & SB & PB & UB).
  pose proof (scan_join a psa nsA rA b psb TA WA SA PA TB WB BO) as S.
  set (eof' := eof_at (a ++ newline :: b)) in *. rewrite tokens_body in PA, PB, SA, SB.
  split.
  2:{ intros (t & ts & Et & K). rewrite S in Et. injection Et as Et. destruct (body_at [] psa) as [|x la]; [|injection Et as -> _; eexists; eexists; split; [exact SA|exact K]].
    exfalso. apply LB. destruct (body_at [] psb) as [|y l]; [injection Et as <- _; discriminate K|]. injection Et as <- _. eexists; eexists. split; [exact SB|exact K]. }
  assert (FB0 : Forall (fun t => tkind t <> TEOF) (body_at [] psb)) by (eapply Forall_impl; [|exact (body_lines psb 0 [] WB)]; intros t [K _]; exact K).
  destruct (tokens_moved (line_after a) (body_at [] psb) (eof_at ([] ++ text_of psb)) eof' nsB rB eq_refl eq_refl FB0 PB) as (nsB' & PB' & UB').
  destruct (tokens_join (body_at [] psa) (eof_at ([] ++ text_of psa)) nsA rA (map (moved (line_after a)) (body_at [] psb) ++ [eof']) nsB' [eof'] ua ub) as (ns & r & P & U).
  - reflexivity.
  - pose proof (body_lines psa 0 [] WA) as FA. pose proof (body_lines psb 0 [] WB) as FB. eapply Forall_impl; [|exact FA]. intros t [K1 K2]. split; [exact K1|]. rewrite TA in K2. cbn [app] in K2.
    assert (G : line_after a < line_of (map (moved (line_after a)) (body_at [] psb) ++ [eof'])); [|lia].
    destruct (body_at [] psb) as [|y l].
    + change (line_after a < line_after (a ++ [newline] ++ b)). rewrite !line_app. change (line_after [newline]) with 2. pose proof (line_ge b). lia.
    + inversion_clear FB as [|? ? [_ F1] _]. cbn. change (line_after []) with 1 in F1. lia.
  - exact PA.
  - exact PB'.
  - exact UA.
  - now rewrite UB'.
  - exact C.
  - intros K. apply LB. destruct (body_at [] psb) as [|y l]; [discriminate K|]. eexists; eexists. split; [exact SB|exact K].
  - unfold compile. rewrite (parse_accepts (a ++ newline :: b) _ (branch RootNode ns) S).
    + now rewrite up_root.
    + exists ns, r. split; [exact P|reflexivity].
Qed.
Lemma compile_empty : compile [] = ROk [].
Proof. reflexivity. Qed.
Theorem compile_lines : forall texts uss, Forall2 (fun t us => compile t = ROk us /\ tidy t) texts uss -> follow_on uss ->
  compile (joined texts) = ROk (List.concat uss) /\ ~ leading_bar (joined texts).
Proof.
  induction 1 as [|t us texts uss [H1 [H2 H3]] _ IH]; intros F.
  - split; [reflexivity|]. intros (t & ts & E & K). cbn in E. injection E as <- _. discriminate.
  - destruct F as [F1 F2]. destruct (IH F2) as [I1 I2]. unfold joined in *. cbn [flat_map List.concat]. rewrite <- app_assoc. cbn [app].
    destruct (compile_join t _ us _ H1 I1 F1 H2 I2) as [J1 J2]. split; [exact J1|]. intros L. exact (H3 (J2 L)).
Qed.
End Texts.
