(** What can be played stays so: levels and patches of scores. *)
From Coq Require Import String Ascii ZArith NArith List Bool Lia.
From Verif Require Import Base Num ModelPitch ModelDuration ModelInstruments ModelTypes ModelLisp ModelScore SpecScore
  ProofHeap ProofStep ProofAst.
Import ListNotations.
Local Open Scope list_scope.
Local Open Scope Z_scope.

Section Levels.
Context {N : Num}.
(** Numbers that are written, and levels that MIDI has. *)
Variables K V : num -> Prop.
Hypothesis V_percent : forall x v, K x -> percentage x = ROk v -> V v.
Hypothesis V_dynamic : forall m, V (dynamic_volume m).
Hypothesis V_track : V (nlit 100 127).
Hypothesis V_middle : V (nlit 1 2).

Definition lv_attr (u : part_update) : Prop :=
  match u with PVolume v | PTrackVol v | PPan v => V v | _ => True end.
Definition lv_prim (q : prim) : Prop :=
  match q with Attr u | GAttr u => lv_attr u | _ => True end.
Fixpoint lv (u : update) {struct u} : Prop :=
  let all := (fix go (l : list update) : Prop := match l with [] => True | e :: t => lv e /\ go t end) in
  match u with
  | UPrim q => lv_prim q
  | ULisp els => match eval_update els with ROk (Some q) => lv_prim q | _ => True end
  | UChord es | UCram es _ | USeq es | UVarDef _ es => all es
  | URepeat e _ | UOnReps _ e => lv e
  | _ => True
  end.
Lemma lv_list : forall l, (fix go (l : list update) : Prop := match l with [] => True | e :: t => lv e /\ go t end) l <-> Forall lv l.
Proof. induction l as [|x l IH]; split; intros H; [constructor|exact I| |]. - destruct H. constructor; tauto. - inversion H; subst. tauto. Qed.

(** ** Lisp *)
Fixpoint wform (f : lform) : Prop :=
  match f with
  | LNum x => K x
  | LQuoted g => wform g
  | LList l => (fix go l := match l with [] => True | x :: t => wform x /\ go t end) l
  | LUpd p => lv_prim p
  | _ => True
  end.
Lemma wform_list l : wform (LList l) <-> Forall wform l.
Proof. cbn [wform]. now rewrite go_Forall. Qed.
(** Results whose value, if any, satisfies [P]. *)
Definition gives {A} (P : A -> Prop) (r : res A) : Prop := forall a, r = ROk a -> P a.
Lemma gives_ok {A} (P : A -> Prop) a : P a -> gives P (ROk a).
Proof. intros H b E. now injection E as <-. Qed.
Lemma gives_err {A} (P : A -> Prop) m : gives P (RErr m).
Proof. intros b E. discriminate. Qed.
Lemma gives_panic {A} (P : A -> Prop) m : gives P (RPanic m).
Proof. intros b E. discriminate. Qed.
Lemma gives_bind {A B} (P : A -> Prop) (Q : B -> Prop) r (k : A -> res B) :
  gives P r -> (forall a, P a -> gives Q (k a)) -> gives Q (rbind r k).
Proof. intros H G b E. destruct r as [a| |]; try discriminate. exact (G a (H a eq_refl) b E). Qed.
Lemma gives_any {A B} (Q : B -> Prop) r (k : A -> res B) : (forall a, gives Q (k a)) -> gives Q (rbind r k).
Proof. intros G. apply (gives_bind (fun _ => True)); [easy|]. intros a _. apply G. Qed.
Lemma gives_map {A B} (P : A -> Prop) (Q : B -> Prop) r (f : A -> B) : gives P r -> (forall a, P a -> Q (f a)) -> gives Q (rmap f r).
Proof. intros H G. apply (gives_bind P); [exact H|]. intros a Ha. apply gives_ok. auto. Qed.
Lemma gives_mapany {A B} (Q : B -> Prop) r (f : A -> B) : (forall a, Q (f a)) -> gives Q (rmap f r).
Proof. intros G. apply gives_any. intros a. apply gives_ok. auto. Qed.

Ltac step := first [apply gives_err | apply gives_panic | apply gives_ok; exact I | apply gives_mapany; intros; exact I | match goal with |- gives _ (rbind _ _) => apply gives_any; intros end].
Lemma attr_lv name args r : Forall wform args -> attr_fun name args = Some r -> gives lv_attr r.
Proof.
  intros W. unfold attr_fun, sig_err.
  repeat (match goal with |- (if ?b then _ else _) = _ -> _ => destruct b eqn:? end; [intros H; injection H as <-|]); [..|discriminate].
  all: repeat match goal with
       | |- gives _ (match ?l with [] => _ | _ => _ end) => is_var l; destruct l
       | |- gives _ (match ?f with LNil => _ | _ => _ end) => is_var f; destruct f
       | |- gives _ (if ?b then _ else _) => destruct b
       end; repeat step.
  all: inversion W as [|? ? Wn _]; subst; apply (gives_map V); [|intros; assumption]; intros v E; eapply V_percent; [exact Wn|exact E].
Qed.
Lemma defn_wf name args r : Forall wform args -> defn_fun name args = Some r -> gives wform r.
Proof.
  intros W. unfold defn_fun, sig_err.
  repeat (match goal with |- (if ?b then _ else _) = _ -> _ => destruct b eqn:? end; [intros H; injection H as <-|]); [..|discriminate].
  { apply gives_ok. now apply wform_list. }
  all: repeat match goal with
       | |- gives _ (match ?l with [] => _ | _ => _ end) => is_var l; destruct l
       | |- gives _ (match ?f with LNil => _ | _ => _ end) => is_var f; destruct f
       | |- gives _ (match ?f with Note _ _ _ => _ | _ => _ end) => is_var f; destruct f
       end; repeat step.
  apply gives_mapany. intros []; exact I.
Qed.
Lemma builtin_wf name args r : Forall wform args -> call_builtin name args = Some r -> gives wform r.
Proof.
  intros W. unfold call_builtin. destruct (defn_fun name args) as [x|] eqn:D.
  { intros H. injection H as <-. eapply defn_wf; eassumption. }
  destruct (attr_fun name args) as [x|] eqn:A.
  { intros H. injection H as <-. eapply gives_map; [eapply attr_lv; eassumption|]. intros u Hu. exact Hu. }
  destruct (strip_bang name) as [base|]; [|discriminate]. destruct (attr_fun base args) as [x|] eqn:B; [|discriminate].
  intros H. injection H as <-. eapply gives_map; [eapply attr_lv; eassumption|]. intros u Hu. exact Hu.
Qed.
Lemma eval_wf f : wform f -> gives wform (eval f).
Proof.
  induction f using lform_ind'; intros W; try (apply gives_ok; exact W).
  - cbn [eval]. destruct (String.eqb s "quote"); [now apply gives_ok|]. destruct (bound s); [now apply gives_ok|apply gives_err].
  - rename H into IHl. apply wform_list in W. destruct l as [|op rest]; [apply gives_panic|]. rewrite eval_list.
    inversion IHl as [|? ? _ IHrest]; subst. inversion W as [|? ? _ Wrest]; subst. apply gives_any. intros o.
    assert (A : gives (Forall wform) (evals rest)).
    { clear -IHrest Wrest. induction rest as [|x rest IH]; [apply gives_ok; constructor|]. inversion IHrest; subst. inversion Wrest; subst. cbn [evals].
      apply (gives_bind wform); [auto|]. intros v Hv. apply (gives_bind (Forall wform)); [now apply IH|]. intros vs Hvs. apply gives_ok. now constructor. }
    destruct o; try (apply (gives_bind _ _ _ _ A); intros args Wa; try apply gives_err).
    + destruct (call_builtin name args) as [x|] eqn:B; [|apply gives_err]. eapply builtin_wf; eassumption.
    + destruct rest as [|x [|]]; [apply gives_panic| |apply gives_err]. apply gives_ok. now inversion Wrest.
Qed.
Lemma lisp_lv els : Forall wform els -> lv (ULisp els).
Proof.
  intros W. cbn [lv]. unfold eval_update. pose proof (eval_wf (LList els) (proj2 (wform_list els) W)) as G. unfold rmap.
  destruct (eval (LList els)) as [v| |]; cbn [rbind]; [|exact I|exact I]. specialize (G v eq_refl). destruct v; try exact I. exact G.
Qed.

(** ** Scores *)
Definition lv_part (p : part) : Prop := V (pvol p) /\ V (ptvol p) /\ V (ppan p) /\ 0 <= ipatch (pstock p) < 128.
Definition lv_event (e : note_event) : Prop := V (ev_vol e) /\ V (ev_tvol e) /\ V (ev_pan e).
Record lv_score (s : score) : Prop := LvScore {
  lv_heap : Forall lv_part (heap s);
  lv_events : Forall lv_event (events s);
  lv_globals : forall o us, In (o, us) (ga_itin (globals s)) -> Forall lv_attr us;
  lv_vars : forall n es, In (n, es) (variables s) -> Forall lv es }.

Lemma lv_get s p : lv_score s -> lv_part (getp s p).
Proof.
  intros H. unfold getp. destruct (nth_in_or_default p (heap s) dead_part) as [I0| ->].
  - pose proof (lv_heap _ H) as F. rewrite Forall_forall in F. auto.
  - repeat split; try apply (V_dynamic ""); cbn; lia.
Qed.
Lemma upd_nth_all {A} (P : A -> Prop) n x l : P x -> Forall P l -> Forall P (upd_nth n x l).
Proof. intros Px H. revert n. induction H as [|y l Py Hl IH]; intros [|n]; cbn; constructor; auto. Qed.
Lemma lv_setp p v s : lv_part v -> lv_score s -> lv_score (setp p v s).
Proof. intros Hv [A B C D]. split; try assumption. cbn. now apply upd_nth_all. Qed.
Lemma lv_modp p f s : (forall q, lv_part q -> lv_part (f q)) -> lv_score s -> lv_score (modp p f s).
Proof. intros Hf H. apply lv_setp; [|exact H]. now apply Hf, lv_get. Qed.

Definition keeps (f : score -> score * outcome) : Prop := forall s, lv_score s -> lv_score (fst (f s)).
Lemma keeps_ok : keeps (fun s => (s, Ok)).
Proof. intros s H. exact H. Qed.
Lemma keeps_seqo r k : lv_score (fst r) -> keeps k -> lv_score (fst (seqo r k)).
Proof. intros H Hk. destruct r as [s []]; cbn in *; auto. Qed.
Lemma keeps_each {A} (f : A -> score -> score * outcome) l : (forall x, In x l -> keeps (f x)) -> keeps (each f l).
Proof.
  induction l as [|x l IH]; intros H s Hs; [exact Hs|]. cbn [each]. apply keeps_seqo; [apply H; [now left|exact Hs]|].
  apply IH. intros y Hy. apply H. now right.
Qed.
Lemma keeps_modp p f : (forall q, lv_part q -> lv_part (f q)) -> keeps (fun s => (modp p f s, Ok)).
Proof. intros Hf s Hs. now apply lv_modp. Qed.

Lemma keeps_update u g p : lv_attr u -> keeps (do_update_part u g p).
Proof.
  intros Hu s Hs. unfold do_update_part. pose proof (lv_get s p Hs) as (A & B & C & D).
  destruct (update_part u g (getp s p)) as [v|m|m] eqn:E; try exact Hs. apply lv_setp; [|exact Hs].
  destruct u; cbn [update_part] in E; try (injection E as <-; try destruct g; unfold record_tempo; repeat split; (assumption || exact Hu || apply V_dynamic || apply D)).
  destruct (_ && _); [discriminate|]. injection E as <-. repeat split; (assumption || apply D).
Qed.
Lemma keeps_attr u : lv_attr u -> keeps (run_attr u).
Proof.
  intros Hu s Hs. unfold run_attr. apply keeps_each; [|exact Hs]. intros p _ s1 H1. apply keeps_seqo; [now apply keeps_update|].
  apply keeps_modp. intros q Hq. exact Hq.
Qed.
Lemma window_lv g a b : (forall o us, In (o, us) (ga_itin g) -> Forall lv_attr us) -> Forall lv_attr (in_window g a b).
Proof.
  intros H. apply Forall_forall. intros u Hu. unfold in_window in Hu. induction (ga_offs g) as [|o l IH]; [destruct Hu|].
  cbn [in_window_offs] in Hu. destruct (nltb b o); [destruct Hu|]. apply in_app_or in Hu as [Hu|Hu]; [|auto].
  destruct (nltb a o); [|destruct Hu]. unfold ga_at in Hu. destruct (aget neqb o (ga_itin g)) as [us|] eqn:E; [|destruct Hu].
  assert (X : exists o', In (o', us) (ga_itin g)).
  { clear -E. induction (ga_itin g) as [|[o' us'] t IH]; [discriminate|]. cbn in E. destruct (neqb o' o); [injection E as <-; exists o'; now left|].
    destruct (IH E) as (x & Hx). exists x. now right. }
  destruct X as (o' & X). specialize (H _ _ X). rewrite Forall_forall in H. auto.
Qed.
Lemma keeps_apply : keeps apply_globals.
Proof.
  intros s Hs. unfold apply_globals. apply keeps_each; [|exact Hs]. intros p _ s1 H1. unfold apply_globals_to. apply keeps_seqo.
  - apply keeps_each; [|exact H1]. intros u Hu s2 H2. destruct (overrides _ u); [exact H2|]. apply keeps_update; [|exact H2].
    pose proof (window_lv (globals s1) (plast (getp s1 p)) (pcur (getp s1 p)) (lv_globals _ H1)) as F. rewrite Forall_forall in F. auto.
  - apply keeps_modp. intros q Hq. exact Hq.
Qed.
Lemma aset_in {A B} (eqb : A -> A -> bool) (k : A) (v : B) l x y : In (x, y) (aset eqb k v l) -> y = v \/ In (x, y) l.
Proof.
  induction l as [|[a b] l IH]; cbn; [intros [H|[]]; injection H; auto|]. destruct (eqb a k); cbn.
  - intros [H|H]; [injection H; auto|auto].
  - intros [H|H]; [auto|]. destruct (IH H); auto.
Qed.
Lemma record_lv off u g : lv_attr u -> (forall o us, In (o, us) (ga_itin g) -> Forall lv_attr us) ->
  forall o us, In (o, us) (ga_itin (ga_record off u g)) -> Forall lv_attr us.
Proof.
  intros Hu H o us. unfold ga_record. destruct (aget neqb off (ga_itin g)) as [vs|] eqn:E; cbn [ga_itin].
  - intros I0. apply aset_in in I0 as [->|I0]; [|eauto]. apply Forall_app. split; [|now repeat constructor].
    assert (X : exists o', In (o', vs) (ga_itin g)).
    { clear -E. induction (ga_itin g) as [|[o' us'] t IH]; [discriminate|]. cbn in E. destruct (neqb o' off); [injection E as <-; exists o'; now left|].
      destruct (IH E) as (x & Hx). exists x. now right. }
    destruct X as (o' & X). eauto.
  - intros I0. apply in_app_or in I0 as [I0|[I0|[]]]; [eauto|]. injection I0 as <- <-. now repeat constructor.
Qed.
Lemma keeps_gattr u : lv_attr u -> keeps (run_gattr u).
Proof.
  intros Hu s Hs. assert (X : forall off, lv_score (set_globals (ga_record off u (globals s)) s)).
  { intros off. destruct Hs as [A B C D]. split; try assumption. cbn [globals set_globals]. now apply record_lv. }
  unfold run_gattr. destruct (current s) as [|p rest]; [apply X|]. destruct (same_offset _ _ _); [apply X|exact Hs].
Qed.
Lemma keeps_emit pi sl dms p : keeps (emit_note pi sl dms p).
Proof.
  intros s Hs. unfold emit_note. destruct (nltb n0 _); [|exact Hs]. destruct (_ || _); [exact Hs|].
  unfold assign_channel. destruct (determine_channel _ _ _) as [c|m|m]; cbn [rbind]; try exact Hs.
  destruct (negb (chan_ok c)); [exact Hs|]. pose proof (lv_get s p Hs) as (A & B & C & _).
  assert (X : forall s1, lv_score s1 -> lv_score (set_events (events (modp (porigin (getp s p)) (set_pchan c) (modp p (set_pchan c) s1)) ++
     [NoteEvent (porigin (getp s p)) c (calc_midi_note pi (poctave (getp s p)) (pkey (getp s p)) (ptransp (getp s p))) (pcur (getp s p)) dms
        (if sl then dms else nmul dms (pquant (getp s p))) (pvol (getp s p)) (ptvol (getp s p)) (ppan (getp s p))]) (modp (porigin (getp s p)) (set_pchan c) (modp p (set_pchan c) s1)))).
  { intros s1 H1. assert (H2 : lv_score (modp (porigin (getp s p)) (set_pchan c) (modp p (set_pchan c) s1))).
    { apply lv_modp; [intros q Hq; exact Hq|]. apply lv_modp; [intros q Hq; exact Hq|exact H1]. }
    destruct H2 as [X1 X2 X3 X4]. split; try assumption. cbn [events set_events]. apply Forall_app. split; [exact X2|]. repeat constructor; assumption. }
  destruct (existsb _ _); cbn [fst]; apply X; [exact Hs|]. destruct Hs as [Y1 Y2 Y3 Y4]. now split.
Qed.
Lemma keeps_note nr d : keeps (add_note_or_rest nr d).
Proof.
  intros s Hs. unfold add_note_or_rest. apply keeps_seqo; [destruct (chordmode s); [exact Hs|now apply keeps_apply]|].
  intros s1 H1. cbv beta. destruct (dur_valid d); [|exact H1]. apply keeps_each; [|exact H1]. intros p _ s2 H2. unfold note_one. apply keeps_seqo.
  - destruct nr as [[pi sl]|]; [now apply keeps_emit|exact H2].
  - intros s3 H3. apply (lv_modp p); [|exact H3]. intros q Hq. unfold advance_part, update_default_dur.
    destruct (chordmode s3), (effective_dur d (getp s2 p)); exact Hq.
Qed.
Lemma keeps_prim q : lv_prim q -> keeps (run_prim q).
Proof. destruct q; cbn [run_prim lv_prim]; intros H; [apply keeps_note|apply keeps_note|now apply keeps_attr|now apply keeps_gattr]. Qed.

Lemma clone_lv p s : lv_score s -> lv_score (snd (clone p s)).
Proof.
  intros Hs. pose proof (lv_get s p Hs) as Hp. destruct Hs as [A B C D]. split; try assumption. cbn.
  apply Forall_app. split; [exact A|]. constructor; [exact Hp|constructor].
Qed.
Lemma voice_lv p n s : lv_score s -> gives (fun x => lv_score (snd x)) (get_voice p n s).
Proof.
  intros Hs. unfold get_voice. destruct (aget _ _ _); [now apply gives_ok|]. unfold new_voice.
  apply (gives_bind lv_score).
  - destruct (has_voices s p); [now apply gives_ok|]. destruct (ptmpl (getp s p)); [apply gives_panic|].
    pose proof (clone_lv p s Hs) as H1. destruct (clone p s) as [t s1]. apply gives_ok.
    apply lv_modp; [intros q Hq; exact Hq|]. apply lv_modp; [intros q Hq; exact Hq|exact H1].
  - intros s1 H1. destruct (ptmpl (getp s1 p)); [|apply gives_panic]. pose proof (clone_lv p0 s1 H1) as H2. destruct (clone p0 s1) as [v s2].
    apply gives_ok. destruct H2 as [A B C D]. now split.
Qed.
Lemma keeps_voice n : forall cnt i, keeps (voice_loop n i cnt).
Proof.
  induction cnt as [|k IH]; intros i s Hs; cbn [voice_loop]; [exact Hs|]. destruct (nth_error _ _) as [p|]; [|exact Hs].
  pose proof (voice_lv p n s Hs) as G. destruct (get_voice p n s) as [[v s1]|m|m]; try exact Hs. apply IH.
  destruct (G _ eq_refl) as [A B C D]. now split.
Qed.
Lemma vend_lv : forall cnt i s, lv_score s -> lv_score (voice_end_loop i cnt s).
Proof.
  induction cnt as [|k IH]; intros i s Hs; cbn [voice_end_loop]; [exact Hs|]. destruct (nth_error _ _) as [p|]; [|exact Hs]. apply IH.
  unfold voice_end_one. destruct (getv _ _) as [|x vs]; [exact Hs|].
  set (lvp := last_to_finish s (x :: vs) p). set (cell := length (vheap s)).
  assert (X : lv_score (modp lvp (fun q => set_ptmpl None (set_pvoices cell q)) (set_vheap (vheap s ++ [[]]) s))).
  { apply lv_modp; [intros q Hq; exact Hq|]. destruct Hs as [A B C D]. now split. }
  destruct X as [A B C D]. now split.
Qed.
Lemma stock_patches : forallb (fun x => (0 <=? ipatch (snd x)) && (ipatch (snd x) <? 128)) stock_instruments = true.
Proof. vm_compute. reflexivity. Qed.
Lemma new_part_lv n s : lv_score s -> gives (fun x => lv_score (snd x)) (new_part n s).
Proof.
  intros Hs. unfold new_part. destruct (stock_instrument n) as [i|] eqn:E; [|apply gives_err]. apply gives_ok.
  destruct Hs as [A B C D]. split; try assumption. cbn. apply Forall_app. split; [exact A|]. constructor; [|constructor].
  split; [apply V_dynamic|]. split; [exact V_track|]. split; [exact V_middle|]. cbn [pstock fresh_part].
  unfold stock_instrument in E. apply aget_in in E; [|apply String.eqb_eq]. pose proof stock_patches as S. rewrite forallb_forall in S.
  specialize (S _ E). cbn [snd] in S. apply andb_true_iff in S as [S1 S2]. apply Z.leb_le in S1. apply Z.ltb_lt in S2. now split.
Qed.
Lemma group_lv : forall names s, lv_score s -> gives (fun x => lv_score (snd x)) (group_parts names s).
Proof.
  induction names as [|n t IH]; intros s Hs; cbn [group_parts]; [now apply gives_ok|].
  destruct (nonempty _); [|destruct (nonempty _)].
  - eapply gives_map; [now apply IH|]. now intros [[np sp] s'].
  - eapply gives_map; [now apply IH|]. now intros [[np sp] s'].
  - eapply gives_bind; [now apply new_part_lv|]. intros [p s1] H1. eapply gives_map; [now apply IH|]. now intros [[np sp] s'].
Qed.
Lemma news_lv : forall names s, lv_score s -> gives (fun x => lv_score (snd x)) (new_parts names s).
Proof.
  induction names as [|n t IH]; intros s Hs; cbn [new_parts]; [now apply gives_ok|].
  eapply gives_bind; [now apply new_part_lv|]. intros [p s1] H1. eapply gives_map; [now apply IH|]. now intros [ps s'].
Qed.
Lemma determine_lv names alias s : lv_score s -> gives (fun x => lv_score (snd x)) (determine_parts names alias s).
Proof.
  intros Hs. assert (One : forall n, gives (fun x => lv_score (snd x)) (rmap (fun '(p, s1) => ([p], s1)) (new_part n s))).
  { intros n. eapply gives_map; [now apply new_part_lv|]. now intros [p s1]. }
  assert (Many : gives (fun x => lv_score (snd x)) (if has_dup names then RErr "name included multiple times in group"%string
      else
        rbind (group_parts names s) (fun '(np, sp, s1) =>
        if nonempty np && nonempty sp then RErr "invalid group"%string
        else if negb (is_empty_string alias) && nonempty sp then new_parts names s1
        else ROk (dedup (np ++ sp) [], s1)))).
  { destruct (has_dup names); [apply gives_err|]. eapply gives_bind; [now apply group_lv|]. intros [[np sp] s1] H1.
    destruct (_ && _); [apply gives_err|]. destruct (_ && _); [now apply news_lv|now apply gives_ok]. }
  unfold determine_parts. destruct names as [|n [|n2 t]]; [exact Many| |exact Many].
  repeat match goal with |- gives _ (if ?b then _ else _) => destruct b end; try apply gives_err; try apply One; now apply gives_ok.
Qed.
Lemma keeps_part names alias : keeps (run_part names alias).
Proof.
  intros s Hs. unfold run_part, run_voice_end. pose proof (vend_lv (length (current s)) 0 s Hs) as H0.
  set (s0 := voice_end_loop 0 (length (current s)) s) in *. clearbody s0.
  pose proof (determine_lv names alias s0 H0) as G. destruct (determine_parts names alias s0) as [[ps s1]|m|m]; try exact H0.
  specialize (G _ eq_refl). cbn [snd] in G.
  assert (Add : forall l s2, lv_score s2 -> lv_score (add_new_parts l s2)).
  { unfold add_new_parts. induction l as [|p l IH]; intros s2 H2; cbn [fold_left]; [exact H2|]. apply IH. destruct (existsb _ _); [exact H2|].
    destruct H2 as [A B C D]. now split. }
  assert (Set1 : forall a l s2, lv_score s2 -> lv_score (set_alias a l s2)).
  { intros a l s2 [A B C D]. now split. }
  assert (Sets : forall l p s2, lv_score s2 -> lv_score (fold_left (fun s a => set_alias (alias ++ "." ++ a) [p] s) l s2)).
  { induction l as [|a l IH]; intros p s2 H2; cbn [fold_left]; [exact H2|]. apply IH. now apply Set1. }
  assert (Def : forall l s2, lv_score s2 -> lv_score (define_aliases alias l s2)).
  { intros l s2 H2. unfold define_aliases. generalize (map (fun p => (p, aliases_for s2 p)) l). intros olds.
    assert (H3 : lv_score (set_alias alias l s2)) by now apply Set1. revert H3. generalize (set_alias alias l s2). clear s2 H2.
    induction olds as [|[p old] olds IH]; intros s2 H2; cbn [fold_left]; [exact H2|]. apply IH, Sets, Set1, H2. }
  assert (End : forall s2, lv_score s2 -> lv_score (fst (set_current ps (if is_empty_string alias then add_new_parts ps s2 else define_aliases alias ps (add_new_parts ps s2)), Ok))).
  { intros s2 H2. assert (H4 : lv_score (if is_empty_string alias then add_new_parts ps s2 else define_aliases alias ps (add_new_parts ps s2))).
    { destruct (is_empty_string alias); [now apply Add|now apply Def, Add]. }
    destruct H4 as [A B C D]. now split. }
  destruct (parts s1) as [|p1 pl]; [destruct ps as [|p0 ps']; [exact G|]|].
  - apply (End (modp p0 (set_pmaster true) s1)). apply lv_modp; [intros q Hq; exact Hq|exact G].
  - now apply (End s1).
Qed.
Lemma keeps_marker n : keeps (run_marker n).
Proof.
  intros s Hs. unfold run_marker. destruct (current s); [exact Hs|]. destruct (same_offset _ _ _); [|exact Hs]. destruct Hs as [A B C D]. now split.
Qed.
Lemma keeps_at n : keeps (run_at_marker n).
Proof.
  intros s Hs. unfold run_at_marker. apply keeps_seqo; [now apply keeps_apply|]. intros s1 H1. cbv beta.
  destruct (aget _ _ _); [|exact H1]. apply keeps_each; [|exact H1]. intros p _. apply keeps_modp. intros q Hq. exact Hq.
Qed.
Lemma value_lv vars : (forall n es, In (n, es) vars -> Forall lv es) -> forall u, lv u -> gives lv (var_value vars u).
Proof.
  intros Hv. assert (L : forall es, Forall (fun u => lv u -> gives lv (var_value vars u)) es -> Forall lv es ->
    gives (Forall lv) ((fix go (l : list update) : res (list update) :=
                 match l with [] => ROk [] | e :: t => rbind (var_value vars e) (fun v => rbind (go t) (fun vs => ROk (v :: vs))) end) es)).
  { intros es H F. induction H as [|e t He Ht IH]; [apply gives_ok; constructor|]. inversion F; subst.
    apply (gives_bind lv); [auto|]. intros v V0. apply (gives_bind (Forall lv)); [auto|]. intros vs V1. apply gives_ok. now constructor. }
  induction u using update_ind'; intros Hu; cbn [var_value]; try (apply gives_ok; exact Hu);
    try (cbn [lv] in Hu; rewrite lv_list in Hu; eapply gives_map; [eapply L; [eassumption|exact Hu]|]; intros vs Hvs; cbn [lv]; now rewrite lv_list).
  - cbn [lv] in Hu. intros v E. unfold rmap, rbind in E. destruct (eval_update els) as [[q|]|m|m]; try discriminate; injection E as <-; [exact Hu|exact I].
  - eapply gives_map; [apply IHu, Hu|]. auto.
  - eapply gives_map; [apply IHu, Hu|]. auto.
  - destruct (aget String.eqb n vars) as [es|] eqn:E; [|apply gives_err]. apply gives_ok. cbn [lv]. rewrite lv_list. eapply Hv.
    eapply aget_in; [apply String.eqb_eq|exact E].
  - apply gives_err.
Qed.
Lemma values_lv vars es : (forall n es, In (n, es) vars -> Forall lv es) -> Forall lv es -> gives (Forall lv) (rmapl (var_value vars) es).
Proof.
  intros Hv F. induction F as [|e t He Ht IH]; cbn [rmapl]; [apply gives_ok; constructor|].
  apply (gives_bind lv); [now apply value_lv|]. intros v V0. apply (gives_bind (Forall lv)); [auto|]. intros vs V1. apply gives_ok. now constructor.
Qed.
Lemma keeps_def n es : Forall lv es -> keeps (run_var_def n es).
Proof.
  intros F s Hs. unfold run_var_def. pose proof (values_lv _ _ (lv_vars _ Hs) F) as G. destruct (rmapl _ _) as [vs|m|m]; try exact Hs.
  specialize (G _ eq_refl). destruct Hs as [A B C D]. split; try assumption. cbn. intros x y I0. apply aset_in in I0 as [->|I0]; [exact G|eauto].
Qed.
Lemma keeps_times f : keeps f -> forall k r, keeps (run_times f r k).
Proof.
  intros Hf. induction k as [|k IH]; intros r s Hs; cbn [run_times]; [exact Hs|]. apply keeps_seqo.
  - apply keeps_each; [|exact Hs]. intros p _. apply keeps_modp. intros q Hq. exact Hq.
  - intros s1 H1. apply keeps_seqo; [now apply Hf|apply IH].
Qed.
Lemma keeps_onreps rs f : keeps f -> forall cnt i, keeps (onreps_loop rs f i cnt).
Proof.
  intros Hf. induction cnt as [|k IH]; intros i s Hs; cbn [onreps_loop]; [exact Hs|]. destruct (nth_error _ _); [|exact Hs].
  apply keeps_seqo; [|apply IH]. destruct (applies_to _ _); [now apply Hf|exact Hs].
Qed.

Section Upd.
Variables (deref : string -> score -> score * outcome) (dd : list (string * list update) -> string -> part -> dres).
Hypothesis Hderef : forall n, keeps (deref n).
Lemma keeps_list es : Forall (fun u => lv u -> keeps (run_upd deref dd u)) es -> Forall lv es ->
  keeps ((fix go (l : list update) (s : score) : score * outcome := match l with [] => (s, Ok) | e :: t => seqo (run_upd deref dd e s) (go t) end) es).
Proof.
  intros H F. induction H as [|e t He Ht IH]; intros s Hs; [exact Hs|]. inversion F; subst. apply keeps_seqo; [now apply He|now apply IH].
Qed.
Lemma keeps_upd : forall u, lv u -> keeps (run_upd deref dd u).
Proof.
  intros u. induction u using update_ind'; intros L s Hs; cbn [run_upd]; cbn [lv] in L; try rewrite lv_list in L; try exact Hs.
  - now apply keeps_prim.
  - destruct (eval_update els) as [[q|]|m|m]; try exact Hs. now apply keeps_prim.
  - (* chord *)
    apply keeps_seqo; [now apply keeps_apply|]. intros s1 H1. cbv beta zeta.
    assert (H2 : lv_score (set_chordmode true s1)) by (destruct H1 as [A B C D]; now split).
    revert H2. generalize (set_chordmode true s1). generalize (map (fun p : pid => (p, nmaxval)) (current s1)). clear s Hs s1 H1.
    induction H as [|e t He Ht IH]; intros m s Hs.
    + unfold chord_finish. apply keeps_each; [|destruct Hs as [A B C D]; now split]. intros p _. apply keeps_modp. intros q Hq. exact Hq.
    + inversion L; subst. apply keeps_seqo; [now apply He|]. intros s1 X1. now apply IH.
  - (* cram *)
    apply keeps_seqo.
    { unfold cram_scale. apply keeps_each; [|exact Hs]. intros p _ s1 H1. destruct (time_scale _ _ _ _) as [ts []]; try exact H1.
      apply lv_modp; [intros q Hq; exact Hq|exact H1]. }
    intros s1 H1. apply keeps_seqo; [now apply keeps_list|]. intros s2 H2. unfold cram_finish. apply keeps_each; [|exact H2].
    intros p _. apply keeps_modp. intros q Hq. exact Hq.
  - apply keeps_seqo; [now apply keeps_times, Hs; apply IHu|]. intros s1 H1. destruct (n =? max_int32); exact H1.
  - apply keeps_onreps; [now apply IHu|exact Hs].
  - now apply keeps_list.
  - now apply keeps_marker.
  - now apply keeps_at.
  - now apply keeps_def.
  - now apply Hderef.
  - now apply keeps_voice.
  - now apply vend_lv.
  - now apply keeps_part.
Qed.
End Upd.
Lemma keeps_deref : forall fuel n, keeps (run_deref fuel n).
Proof.
  induction fuel as [|f IH]; intros n s Hs; cbn [run_deref]; destruct (aget _ _ _) as [es|] eqn:E; try exact Hs.
  apply keeps_each; [|exact Hs]. intros u Hu. apply keeps_upd; [exact IH|].
  assert (F : Forall lv es) by (eapply lv_vars; [exact Hs|]; eapply aget_in; [apply String.eqb_eq|exact E]). rewrite Forall_forall in F. auto.
Qed.
Lemma new_lv : lv_score new_score.
Proof. split; cbn; try constructor; intros; contradiction. Qed.
Theorem session_lv calls : Forall (Forall lv) calls -> lv_score (session calls).
Proof.
  unfold session. generalize new_lv. generalize new_score. induction calls as [|us calls IH]; intros s Hs F; cbn [fold_left]; [exact Hs|].
  inversion F as [|? ? Fu Fc]; subst. apply IH; [|exact Fc]. unfold exec, run_all. apply keeps_each; [|exact Hs]. intros u Hu. unfold run.
  apply keeps_upd; [apply keeps_deref|]. rewrite Forall_forall in Fu. auto.
Qed.
End Levels.
