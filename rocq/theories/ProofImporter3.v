(** Proof of C48, third part: the passes of the optimizer, one by one. *)
From Coq Require Import ZArith List String Bool Lia Arith.
From Verif Require Import Base Num ModelPitch ModelDuration ModelInstruments ModelTypes ModelLisp
  ModelScore ModelImporter SpecScore SpecVars SpecParts SpecSolo SpecTiming SpecImporter ProofHeap ProofStep ProofInv ProofEvents
  ProofVoices ProofVars ProofSafe ProofTracks ProofSolo ProofTiming ProofImporter ProofImporter2.
Import ListNotations.
Local Open Scope list_scope.

Section Passes.
Context {N : Num} {FG : Forget}.
Hypothesis zero_law : forall t l,
  nadd (fold_left (fun acc c => nadd acc (comp_ms t c)) l n0) n0
  = fold_left (fun acc c => nadd acc (comp_ms t c)) l n0.
Hypothesis min_law : forall a b, nmin (nmin a b) b = nmin a b.
Variable feq : num -> num -> bool.
Variable D : num -> Prop.
Hypothesis feq_law : forall x y, D x -> D y -> feq x y = true -> x = y.
Variable deref : string -> score -> score * outcome.
Variable dd : list (string * list update) -> string -> part -> dres.
Notation run1 := (run_upd deref dd).
Notation runs := (runs deref dd).
Notation cgo := (cgo deref dd).
Notation srun := (srun deref dd).
Notation sruns := (sruns deref dd).
Variable b : bool.
Variable k : keysig.

Definition dnums (d : duration) : Prop := Forall D (comp_numbers (CDur d)).
Definition is_nr (u : update) : bool := note_or_rest_event u.
Definition nr_of (u : update) : note_or_rest :=
  match u with UPrim (Note p _ sl) => Some (p, sl) | _ => None end.
Lemma run_nr : forall u s, is_nr u = true -> run1 u s = add_note_or_rest (nr_of u) (nr_dur u) s.
Proof. intros u s H. destruct u as [[]| | | | | | | | | | | | | | |]; try discriminate H; reflexivity. Qed.
Lemma written_nr : forall u, written_dur u = nr_dur u.
Proof. intros u. destruct u as [[]| | | | | | | | | | | | | | |]; reflexivity. Qed.
Lemma runs_bar : forall v t, runs [v; UBarline] t = runs [v] t.
Proof. intros v t. unfold ProofImporter.runs. cbn [each]. destruct (run1 v t) as [s o]. destruct o; reflexivity. Qed.
Lemma cgo_one : forall v m t, snd (run1 v t) = Ok -> cgo [v] m t = (lower_shortest (written_dur v) t m, run1 v t).
Proof. intros v m t H. cbn. destruct (run1 v t) as [s o]. cbn in H. subst o. reflexivity. Qed.

(** An event that a pass leaves alone. *)
Definition plain_attr (u : update) : bool := match u with UBarline => true | UPrim (Attr a) => mild a | _ => false end.
Lemma flat_split : forall u, flat u = true -> is_nr u = true \/ plain_attr u = true.
Proof. intros u H. destruct u as [[]| | | | | | | | | | | | | | |]; try discriminate H; auto. Qed.
Lemma attr_step : forall u s t, plain_attr u = true -> playing b k s -> R s t ->
  RR (run1 u s) (run1 u t) /\ kept s (fst (run1 u s)) /\ kept t (fst (run1 u t)) /\ keeps pdur t (fst (run1 u t)).
Proof.
  intros u s t H P Q. destruct u as [[]| | | | | | | | | | | | | | |]; try discriminate H; cbn [run_upd run_prim].
  - split; [apply run_attr_like, Q|]. split; [apply mild_kept, H|]. split; apply mild_kept, H.
  - split; [split; [exact Q|reflexivity]|]. split; [apply kept_refl|]. split; [apply kept_refl|apply keeps_refl].
Qed.
Lemma attr_m : forall u s t m, plain_attr u = true -> R s t -> covered t m -> snd (run1 u t) = Ok ->
  fst (cgo [u] m t) = lower_shortest (written_dur u) s m /\ covered (fst (snd (cgo [u] m t))) (fst (cgo [u] m t)).
Proof.
  intros u s t m H Q V O. rewrite cgo_one by exact O. cbn [fst snd].
  destruct u as [[]| | | | | | | | | | | | | | |]; try discriminate H; cbn [written_dur run_upd run_prim] in *;
    rewrite (lower_none zero_law s t m Q), (lower_covered min_law t m V); (split; [reflexivity|]); [|exact V].
  destruct (run_attr u t) as [t1 o1] eqn:E. cbn [fst snd] in *. subst o1. eapply mild_covers; eassumption.
Qed.

(** A note or rest whose target has the same pitch and length. *)
Definition like (u v : update) (s t : score) : Prop :=
  is_nr u = true /\ is_nr v = true /\ dur_like (nr_dur u) (nr_dur v) /\
  forall pd, In pd (current s) -> nr_like (nr_of u) (nr_of v) s t pd.
Lemma note_step : forall u v s t l, playing b k s -> R s t -> like u v s t -> nr_dur v = Some l ->
  RR (run1 u s) (run1 v t) /\ kept s (fst (run1 u s)) /\ kept t (fst (run1 v t)) /\ keeps poctave t (fst (run1 v t)) /\
  (snd (run1 u s) = Ok -> dur_valid (Some l) = true /\ (forall p, In p (current t) -> pdur (getp (fst (run1 v t)) p) = Some l) /\
     forall m, lower_shortest (written_dur v) t m = lower_shortest (written_dur u) s m /\
       covered (fst (run1 v t)) (lower_shortest (written_dur v) t m)).
Proof.
  intros u v s t l P Q [A [B [L X]]] E. rewrite !run_nr by assumption. rewrite (written_nr u), (written_nr v).
  pose proof (playing_sound _ _ _ P) as S. pose proof (R_sound _ _ Q S) as S'.
  pose proof (add_note_like zero_law (nr_of u) (nr_of v) (nr_dur u) (nr_dur v) s t Q (proj1 S) X L) as Y.
  split; [exact Y|]. split; [apply add_note_kept, S|]. split; [apply add_note_kept, S'|]. split; [apply add_note_kept, S'|].
  intros O. destruct Y as [Y1 Y2]. rewrite O in Y2. destruct (add_note_or_rest (nr_of v) (nr_dur v) t) as [t1 o1] eqn:Z. cbn [fst snd] in *. subst o1.
  rewrite E in Z. destruct (add_note_sets _ _ _ _ S' Z) as [V W]. split; [exact V|]. split; [exact W|].
  intros m. split; [symmetry; apply (lower_like zero_law); assumption|]. rewrite E. eapply note_covers; eassumption.
Qed.

(* ------------------------- barlines ------------------------- *)

Lemma remove_bar_spec : forall d d', has_length d = true -> remove_bar d = Some d' ->
  dur_like d d' /\ has_length d' = true /\ (dnums d -> dnums d').
Proof.
  intros [l|] d' H E; [|discriminate E]. cbn [remove_bar] in E.
  destruct (rev l) as [|c r] eqn:X; [discriminate E|]. destruct c; try discriminate E.
  assert (Y : l = rev r ++ [CBar]) by (rewrite <- (rev_involutive l), X; reflexivity). subst l.
  unfold has_length in H. rewrite existsb_app in H. cbn in H. rewrite orb_false_r in H.
  assert (Hd : d' = Some (rev r)) by (destruct r; [discriminate H|inversion E; reflexivity]). subst d'. clear E X.
  split; [|split].
  - unfold dur_like, nobar. rewrite filter_app. cbn. rewrite app_nil_r. reflexivity.
  - exact H.
  - unfold dnums. intros Z. cbn [comp_numbers] in *. revert Z. generalize (rev r). intros q.
    induction q as [|c q IH]; intros Z; [constructor|]. cbn [app] in Z. apply Forall_app in Z. destruct Z as [Z1 Z2]. apply Forall_app. auto.
Qed.
Lemma length_some : forall d, has_length d = true -> exists l, d = Some l.
Proof. intros [l|] H; [eauto|discriminate H]. Qed.

(** The events of a voice before the durations are simplified. *)
Definition F1 (u : update) : Prop := flat_event b u = true /\ dnums (nr_dur u).
Definition C1 (es : list update) : Prop :=
  match es with [] => False | e :: _ => is_nr e = true end /\ Forall (fun u => flat u = true /\ F1 u) es.
Lemma F1_length : forall u, is_nr u = true -> F1 u -> has_length (nr_dur u) = true.
Proof.
  intros u H [A _]. destruct u as [[]| | | | | | | | | | | | | | |]; try discriminate H; cbn in *; [|exact A].
  apply andb_prop in A. apply A.
Qed.

Definition T1 (o : unit) (u : update) : unit * list update := (tt, std_upd u).
Lemma TL1 : forall l, TL unit T1 tt l = (tt, std_list l).
Proof. induction l as [|x l IH]; [reflexivity|]. cbn [TL T1 fst snd]. rewrite IH. reflexivity. Qed.
Lemma T1_nr : forall u, is_nr u = true -> F1 u ->
  (std_upd u = [u]) \/ exists v, std_upd u = [v; UBarline] /\ is_nr v = true /\ nr_of v = nr_of u /\
     dur_like (nr_dur u) (nr_dur v) /\ F1 v.
Proof.
  intros u H [A B]. destruct u as [[p d sl|d| | ]| | | | | | | | | | | | | | |]; try discriminate H; cbn [std_upd nr_dur flat_event] in *.
  - apply andb_prop in A. destruct A as [A1 A2]. destruct (remove_bar d) as [d'|] eqn:E; [right|left; reflexivity].
    destruct (remove_bar_spec _ _ A2 E) as [X [Y Z]]. exists (UPrim (Note p d' sl)).
    split; [reflexivity|]. split; [reflexivity|]. split; [reflexivity|]. split; [exact X|]. split; [cbn; rewrite A1, Y; reflexivity|]. apply Z, B.
  - destruct (remove_bar d) as [d'|] eqn:E; [right|left; reflexivity].
    destruct (remove_bar_spec _ _ A E) as [X [Y Z]]. exists (UPrim (Rest d')).
    split; [reflexivity|]. split; [reflexivity|]. split; [reflexivity|]. split; [exact X|]. split; [exact Y|]. apply Z, B.
Qed.
Lemma T1_attr : forall u, plain_attr u = true -> std_upd u = [u].
Proof. intros u H. destruct u as [[]| | | | | | | | | | | | | | |]; try discriminate H; reflexivity. Qed.
Definition letter_ok (u : update) : Prop := match nr_of u with Some (PLetter _ _, _) => (forget && b)%bool = false | _ => True end.
Lemma like_gen : forall u s t, is_nr u = true -> playing b k s -> R s t -> letter_ok u -> like u u s t.
Proof.
  intros u s t H P Q Fu. split; [exact H|]. split; [exact H|]. split; [reflexivity|]. intros pd Hp.
  unfold nr_like. unfold letter_ok in Fu. destruct (nr_of u) as [[p sl]|] eqn:E; [|exact I]. split; [reflexivity|].
  pose proof (R_getp _ _ pd Q) as X. rewrite (e1_key _ _ X), (e1_transp _ _ X).
  destruct p as [l a|n]; [|reflexivity]. rewrite (e1_octave _ _ X); [reflexivity|].
  destruct P as [_ P]. destruct (P pd Hp) as [_ [_ W]]. unfold hid. rewrite W. exact Fu.
Qed.
Lemma F1_letter : forall u, F1 u -> letter_ok u.
Proof.
  intros u [Fu _]. unfold letter_ok. destruct (nr_of u) as [[[l a|n] sl]|] eqn:E; auto.
  destruct u as [[]| | | | | | | | | | | | | | |]; try discriminate E. inversion E; subst.
  cbn in Fu. destruct b; [discriminate Fu|apply andb_false_r].
Qed.
Lemma like_self : forall u s t, is_nr u = true -> playing b k s -> R s t -> F1 u -> like u u s t.
Proof. intros u s t H P Q Fu. apply like_gen; auto. apply F1_letter, Fu. Qed.
Lemma T1_like : forall u v s t, is_nr u = true -> playing b k s -> R s t -> F1 u -> is_nr v = true -> nr_of v = nr_of u -> dur_like (nr_dur u) (nr_dur v) -> like u v s t.
Proof.
  intros u v s t H P Q Fu A B E. destruct (like_self u s t H P Q Fu) as [_ [_ [_ X]]]. split; [exact H|]. split; [exact A|]. split; [exact E|]. rewrite B. exact X.
Qed.
Lemma flat_nr : forall u, is_nr u = true -> flat u = true.
Proof. intros u H. destruct u as [[]| | | | | | | | | | | | | | |]; try discriminate H; reflexivity. Qed.

Lemma T1_out : forall u (o : unit), flat u = true -> F1 u -> True -> Forall (fun v => flat v = true) (snd (T1 o u)).
Proof.
  intros u o H Fu _. cbn [T1 snd]. destruct (flat_split u H) as [A|A]; [|rewrite T1_attr by exact A; repeat constructor; exact H].
  destruct (T1_nr u A Fu) as [->|[v [-> [B _]]]]; [repeat constructor; exact H|]. apply Forall_cons; [apply flat_nr, B|]. repeat constructor.
Qed.
Lemma T1_good : forall u, flat u = true -> F1 u -> good unit T1 F1 C1 (fun _ => True) u.
Proof.
  intros u H Fu o _. split; [exact I|]. cbn [T1 snd].
  assert (X : evts F1 C1 [u]).
  { cbn [evts]. split; [|exact I]. destruct u as [[]| | | | | | | | | | | | | | |]; try discriminate H; split; assumption. }
  destruct (flat_split u H) as [A|A]; [|rewrite T1_attr by exact A; exact X].
  destruct (T1_nr u A Fu) as [->|[v [-> [B [_ [_ Fv]]]]]]; [exact X|]. cbn [evts]. split; [|split; [|exact I]].
  - destruct v as [[]| | | | | | | | | | | | | | |]; try discriminate B; (split; [reflexivity|exact Fv]).
  - split; [reflexivity|]. split; [reflexivity|constructor].
Qed.
Lemma T1_note : forall u s t, is_nr u = true -> F1 u -> playing b k s -> R s t ->
  RR (run1 u s) (runs (std_upd u) t) /\ kept s (fst (run1 u s)) /\
  (snd (run1 u s) = Ok -> forall m, fst (cgo (std_upd u) m t) = lower_shortest (written_dur u) s m /\ covered (fst (runs (std_upd u) t)) (fst (cgo (std_upd u) m t))).
Proof.
  intros u s t A Fu P Q. destruct (T1_nr u A Fu) as [->|[v [-> [B [E [L Fv]]]]]].
  - destruct (length_some _ (F1_length u A Fu)) as [l Hl]. destruct (note_step u u s t l P Q (like_self u s t A P Q Fu) Hl) as [X [Y [_ [_ Z]]]].
    rewrite runs_one. split; [exact X|]. split; [exact Y|]. intros O m. destruct (Z O) as [_ [_ W]]. destruct (W m) as [W1 W2].
    rewrite cgo_one by (destruct X as [_ <-]; exact O). cbn [fst]. auto.
  - destruct (length_some _ (F1_length v B Fv)) as [l Hl]. destruct (note_step u v s t l P Q (T1_like u v s t A P Q Fu B E L) Hl) as [X [Y [_ [_ Z]]]].
    rewrite runs_bar, runs_one. split; [exact X|]. split; [exact Y|]. intros O m. destruct (Z O) as [_ [_ W]]. destruct (W m) as [W1 W2].
    assert (O' : snd (run1 v t) = Ok) by (destruct X as [_ <-]; exact O).
    assert (M : fst (cgo [v; UBarline] m t) = lower_shortest (written_dur v) t m).
    { cbn [ProofImporter2.cgo]. destruct (run1 v t) as [t1 o1]. cbn [snd] in O'. subst o1. cbn [fst] in *.
      change (run_upd deref dd UBarline t1) with (t1, Ok). cbn [fst written_dur]. apply (lower_covered min_law), W2. }
    rewrite M. auto.
Qed.
Lemma T1_sim : forall u, flat u = true -> F1 u -> sim deref dd b k unit T1 (fun _ => True) (fun _ _ => True) u.
Proof.
  intros u H Fu o s t _ P Q _. rewrite srun_flat by exact H. rewrite sruns_flat; [|apply T1_out; auto]. cbn [T1 fst snd].
  destruct (flat_split u H) as [A|A].
  - destruct (T1_note u s t A Fu P Q) as [X [Y _]]. auto.
  - rewrite T1_attr by exact A. rewrite runs_one. destruct (attr_step u s t A P Q) as [X [Y _]]. auto.
Qed.
Lemma T1_m : forall u (o : unit) s t m, flat u = true -> F1 u -> True -> playing b k s -> R s t -> True -> covered t m ->
  snd (run1 u s) = Ok ->
  fst (cgo (snd (T1 o u)) m t) = lower_shortest (written_dur u) s m /\
  covered (fst (snd (cgo (snd (T1 o u)) m t))) (fst (cgo (snd (T1 o u)) m t)).
Proof.
  intros u o s t m H Fu _ P Q _ V O. cbn [T1 snd]. destruct (flat_split u H) as [A|A].
  - rewrite cgo_runs. apply (T1_note u s t A Fu P Q). exact O.
  - rewrite T1_attr by exact A. apply attr_m; auto. destruct (attr_step u s t A P Q) as [[_ X] _]. rewrite <- X. exact O.
Qed.
Lemma split_nr : forall x l, is_nr x = true -> split_octaves (x :: l) = ([], x :: l).
Proof. intros x l H. destruct x as [[]| | | | | | | | | | | | | | |]; try discriminate H; reflexivity. Qed.
Lemma T1_chord_eq : forall es, std_upd (UChord es) = [UChord (std_list es)].
Proof. reflexivity. Qed.
Lemma T1_head : forall u l, is_nr u = true -> F1 u -> split_octaves (std_upd u ++ l) = ([], std_upd u ++ l).
Proof.
  intros u l H Fu. destruct (T1_nr u H Fu) as [->|[v [-> [B _]]]]; cbn [app]; apply split_nr; assumption.
Qed.
Lemma T1_goodc : forall es, C1 es -> good unit T1 F1 C1 (fun _ => True) (UChord es).
Proof.
  intros es [H Hf] o _. split; [exact I|]. cbn [T1 snd]. rewrite T1_chord_eq. cbn [evts evt]. split; [|exact I].
  assert (X : Forall (fun u => flat u = true /\ F1 u) (std_list es)).
  { clear H. induction Hf as [|u l [Hu Fu] Hl IH]; [constructor|]. cbn [std_list]. apply Forall_app. split; [|exact IH].
    destruct (flat_split u Hu) as [A|A]; [|rewrite T1_attr by exact A; repeat constructor; assumption || apply Fu].
    destruct (T1_nr u A Fu) as [->|[v [-> [B [_ [_ Fv]]]]]]; [apply Forall_cons; [auto|constructor]|].
    apply Forall_cons; [split; [apply flat_nr, B|exact Fv]|]. apply Forall_cons; [|constructor]. split; [reflexivity|]. split; [reflexivity|constructor]. }
  split; [|exact X]. destruct es as [|e es]; [contradiction|]. inversion Hf; subst. cbn [std_list].
  destruct (T1_nr e H (proj2 H2)) as [->|[v [-> [B _]]]]; cbn [app]; assumption.
Qed.
Lemma T1_simc : forall es, C1 es -> sim deref dd b k unit T1 (fun _ => True) (fun _ _ => True) (UChord es).
Proof.
  intros es [H Hf] o s t _ P Q _. destruct es as [|e es]; [contradiction|]. inversion Hf as [|x l [He Fe] Hl]; subst.
  cbn [T1 fst snd]. rewrite T1_chord_eq, sruns_one, !srun_chord. cbn [std_list]. rewrite split_nr by exact H. rewrite T1_head by assumption. cbn [fst snd].
  unfold ProofImporter.runs. cbn [each seqo].
  assert (X := chord_sim deref dd b k unit T1 F1 F1 C1 (fun _ => True) (fun _ _ => True) T1_good T1_sim T1_m T1_out e (std_upd e) tt es s t P Q I Hl).
  rewrite TL1 in X. cbn [snd] in X. destruct X as [X Y].
  - intros s1 t1 m P1 Q1 _ _ _. destruct (T1_note e s1 t1 H Fe P1 Q1) as [A [B C]]. split; [exact A|]. intros O. split; [exact B|]. split; [exact I|]. apply C, O.
  - split; [exact X|]. intros O. split; [apply Y, O|exact I].
Qed.
Lemma T1_rep : forall o es n, T1 o (URepeat (USeq es) n) = (fst (TL unit T1 o es), [URepeat (USeq (snd (TL unit T1 o es))) n]).
Proof. intros [] es n. rewrite TL1. reflexivity. Qed.
Lemma T1_on : forall o es rs, T1 o (UOnReps rs (USeq es)) = (fst (TL unit T1 o es), [UOnReps rs (USeq (snd (TL unit T1 o es)))]).
Proof. intros [] es rs. rewrite TL1. reflexivity. Qed.
Lemma T1_seq : forall o es, T1 o (USeq es) = (fst (TL unit T1 o es), [USeq (snd (TL unit T1 o es))]).
Proof. intros [] es. rewrite TL1. reflexivity. Qed.
Theorem std_sim : forall l, evts F1 C1 l -> evts F1 C1 (std_list l) /\ simf b k (sruns l) (sruns (std_list l)).
Proof.
  intros l H. split.
  - assert (X := pass_good unit T1 (fun o => o) (fun o => o) F1 F1 C1 C1 (fun _ => True) T1_rep T1_on T1_seq (fun _ x => x) (fun _ x => x) T1_good T1_goodc l H tt I).
    rewrite TL1 in X. apply X.
  - assert (X := pass_sim deref dd b k unit T1 (fun o => o) (fun o => o) F1 F1 C1 C1 (fun _ => True) (fun _ _ => True) T1_rep T1_on T1_seq (fun _ x => x) (fun _ x => x)
      (fun _ _ _ => I) (fun _ _ _ => I) T1_good T1_goodc T1_sim T1_simc l H tt).
    intros s t P Q. destruct (X s t I P Q I) as [A B]. rewrite TL1 in A. cbn [snd] in A. split; [exact A|]. intros O. apply B, O.
Qed.

(* ------------------------- passes from events to events ------------------------- *)

Definition is_oct (u : update) : bool := match u with UPrim (Attr (POctave _)) => true | _ => false end.
Lemma split_app : forall a e l, forallb is_oct a = true -> is_nr e = true -> split_octaves (a ++ e :: l) = (a, e :: l).
Proof.
  induction a as [|x a IH]; intros e l H E; cbn [app]; [apply split_nr, E|]. cbn [forallb] in H. apply andb_prop in H. destruct H as [H1 H2].
  destruct x as [[| |[]|]| | | | | | | | | | | | | | |]; try discriminate H1. cbn [split_octaves]. rewrite IH by assumption. reflexivity.
Qed.
Section One.
Variable St : Type.
Variable f : St -> update -> St * update.
Variable fl : St -> list update -> St * list update.
Variables pre post : St -> St.
Variables F F' : update -> Prop.
Variable SI : St -> Prop.
Variable Tr : St -> score -> Prop.
Definition CC (F : update -> Prop) (es : list update) : Prop :=
  exists a e l, es = a ++ e :: l /\ forallb is_oct a = true /\ is_nr e = true /\ Forall (fun u => flat u = true /\ F u) es.
Definition Tf (o : St) (u : update) : St * list update := (fst (f o u), [snd (f o u)]).
Hypothesis fl_eq : forall o l, fl o l = match l with [] => (o, []) | x :: t => (fst (fl (fst (f o x)) t), snd (f o x) :: snd (fl (fst (f o x)) t)) end.
Hypothesis f_rep : forall o es n, f o (URepeat (USeq es) n) = (post (fst (fl (pre o) es)), URepeat (USeq (snd (fl (pre o) es))) n).
Hypothesis f_on : forall o es rs, f o (UOnReps rs (USeq es)) = (post (fst (fl (pre o) es)), UOnReps rs (USeq (snd (fl (pre o) es)))).
Hypothesis f_seq : forall o es, f o (USeq es) = (post (fst (fl (pre o) es)), USeq (snd (fl (pre o) es))).
Hypothesis f_chord : forall o es, f o (UChord es) = (post (fst (fl (pre o) es)), UChord (snd (fl (pre o) es))).
Hypothesis f_oct : forall o u, is_oct u = true -> f o u = (o, u).
Hypothesis SI_pre : forall o, SI o -> SI (pre o).
Hypothesis SI_post : forall o, SI o -> SI (post o).
Hypothesis Tr_pre : forall o t, SI o -> Tr (pre o) t.
Hypothesis Tr_post : forall o t, SI o -> Tr (post o) t.
Hypothesis Tr_same : forall o t t', current t' = current t -> keeps poctave t t' -> keeps pdur t t' -> Tr o t -> Tr o t'.
Hypothesis f_good : forall o u, flat u = true -> F u -> SI o ->
  SI (fst (f o u)) /\ flat (snd (f o u)) = true /\ F' (snd (f o u)) /\ is_nr (snd (f o u)) = is_nr u.
Hypothesis f_sim : forall o u s t, flat u = true -> F u -> SI o -> playing b k s -> R s t -> Tr o t ->
  RR (run1 u s) (run1 (snd (f o u)) t) /\
  (snd (run1 u s) = Ok -> kept s (fst (run1 u s)) /\ Tr (fst (f o u)) (fst (run1 (snd (f o u)) t)) /\
    forall m, (is_nr u = true \/ covered t m) ->
      lower_shortest (written_dur (snd (f o u))) t m = lower_shortest (written_dur u) s m /\
      covered (fst (run1 (snd (f o u)) t)) (lower_shortest (written_dur (snd (f o u))) t m)).

Lemma TLf : forall l o, TL St Tf o l = fl o l.
Proof.
  induction l as [|x l IH]; intros o; rewrite fl_eq; [reflexivity|]. cbn [TL Tf fst snd app]. rewrite IH. reflexivity.
Qed.
Lemma evt_flat : forall (G : update -> Prop) (C : list update -> Prop) u, flat u = true -> G u -> evts G C [u].
Proof. intros G C u H Gu. cbn [evts]. split; [|exact I]. destruct u as [[]| | | | | | | | | | | | | | |]; try discriminate H; split; assumption. Qed.
Lemma f_Good : forall u, flat u = true -> F u -> good St Tf F' (CC F') SI u.
Proof.
  intros u H Fu o O. destruct (f_good o u H Fu O) as [A [B [C _]]]. cbn [Tf fst snd]. split; [exact A|]. apply evt_flat; assumption.
Qed.
Lemma f_out : forall u o, flat u = true -> F u -> SI o -> Forall (fun v => flat v = true) (snd (Tf o u)).
Proof. intros u o H Fu O. cbn. apply Forall_cons; [|constructor]. apply f_good; assumption. Qed.
Lemma f_Sim : forall u, flat u = true -> F u -> sim deref dd b k St Tf SI Tr u.
Proof.
  intros u H Fu o s t O P Q W. rewrite srun_flat by exact H. rewrite sruns_flat by (apply f_out; assumption). cbn [Tf fst snd]. rewrite runs_one.
  destruct (f_sim o u s t H Fu O P Q W) as [A B]. split; [exact A|]. intros Z. destruct (B Z) as [B1 [B2 _]]. auto.
Qed.
Lemma f_m : forall u o s t m, flat u = true -> F u -> SI o -> playing b k s -> R s t -> Tr o t -> covered t m ->
  snd (run1 u s) = Ok ->
  fst (cgo (snd (Tf o u)) m t) = lower_shortest (written_dur u) s m /\
  covered (fst (snd (cgo (snd (Tf o u)) m t))) (fst (cgo (snd (Tf o u)) m t)).
Proof.
  intros u o s t m H Fu O P Q W V Z. cbn [Tf snd]. destruct (f_sim o u s t H Fu O P Q W) as [[_ A] B]. destruct (B Z) as [_ [_ B3]].
  rewrite cgo_one by (rewrite <- A; exact Z). cbn [fst snd]. apply B3. right; exact V.
Qed.
Lemma f_octs : forall a o l, forallb is_oct a = true -> snd (fl o (a ++ l)) = a ++ snd (fl o l) /\ fst (fl o (a ++ l)) = fst (fl o l).
Proof.
  induction a as [|x a IH]; intros o l H; [auto|]. cbn [forallb] in H. apply andb_prop in H. destruct H as [H1 H2]. cbn [app].
  rewrite fl_eq, f_oct by exact H1. cbn [fst snd]. destruct (IH o l H2) as [-> ->]. auto.
Qed.
Lemma fl_good : forall l o, Forall (fun u => flat u = true /\ F u) l -> SI o ->
  SI (fst (fl o l)) /\ Forall (fun u => flat u = true /\ F' u) (snd (fl o l)).
Proof.
  induction l as [|u l IH]; intros o H O; rewrite fl_eq; cbn [fst snd]; [auto|]. inversion H as [|x y [Hu Fu] Hl]; subst.
  destruct (f_good o u Hu Fu O) as [A [B [C _]]]. destruct (IH _ Hl A) as [X Y]. split; [exact X|]. apply Forall_cons; auto.
Qed.
Lemma f_Goodc : forall es, CC F es -> good St Tf F' (CC F') SI (UChord es).
Proof.
  intros es [a [e [l [-> [Ha [He Hf]]]]]] o O. cbn [Tf fst snd]. rewrite f_chord. cbn [fst snd evts evt].
  destruct (fl_good _ (pre o) Hf (SI_pre _ O)) as [A B]. split; [apply SI_post, A|]. split; [|exact I].
  exists a, (snd (f (pre o) e)), (snd (fl (fst (f (pre o) e)) l)).
  destruct (f_octs a (pre o) (e :: l) Ha) as [X _]. rewrite (fl_eq (pre o) (e :: l)) in X. cbn [snd] in X. rewrite X in B |- *. split; [reflexivity|]. split; [exact Ha|].
  split; [|exact B]. apply Forall_app in Hf. destruct Hf as [_ Hf]. inversion Hf as [|x y [Hu Fu] Hl]; subst.
  destruct (f_good (pre o) e Hu Fu (SI_pre _ O)) as [_ [_ [_ ->]]]. exact He.
Qed.
Lemma octs_sim : forall a o s t, forallb is_oct a = true -> Forall (fun u => flat u = true /\ F u) a -> SI o -> playing b k s -> R s t -> Tr o t ->
  RR (runs a s) (runs a t) /\ (snd (runs a s) = Ok -> kept s (fst (runs a s)) /\ Tr o (fst (runs a t))).
Proof.
  induction a as [|x a IH]; intros o s t H Hf O P Q W.
  { split; [split; [exact Q|reflexivity]|]. intros _. split; [apply kept_refl|exact W]. }
  cbn [forallb] in H. apply andb_prop in H. destruct H as [H1 H2]. inversion Hf as [|y z [Hu Fu] Hl]; subst.
  unfold ProofImporter.runs. cbn [each]. destruct (f_sim o x s t Hu Fu O P Q W) as [[A B] C]. rewrite f_oct in A, B, C by exact H1. cbn [fst snd] in *.
  destruct (run1 x s) as [s1 o1], (run1 x t) as [t1 o1']. cbn [fst snd] in *. subst o1'.
  destruct o1; cbn [seqo fst snd]; try (split; [split; [exact A|reflexivity]|]; discriminate).
  destruct (C eq_refl) as [K [W1 _]]. destruct (IH o s1 t1 H2 Hl O (kept_playing _ _ _ _ K P) A W1) as [X Y].
  split; [exact X|]. intros Z. destruct (Y Z) as [Y1 Y2]. split; [eapply kept_trans; eassumption|exact Y2].
Qed.
Lemma f_Simc : forall es, CC F es -> sim deref dd b k St Tf SI Tr (UChord es).
Proof.
  intros es [a [e [l [-> [Ha [He Hf]]]]]] o s t O P Q W. cbn [Tf fst snd]. rewrite f_chord. cbn [fst snd]. rewrite sruns_one, !srun_chord.
  destruct (f_octs a (pre o) (e :: l) Ha) as [X X']. pose proof (fl_good _ (pre o) Hf (SI_pre _ O)) as [GG _].
  rewrite X, split_app by assumption. rewrite X' in *.
  rewrite (fl_eq (pre o) (e :: l)). cbn [fst snd].
  apply Forall_app in Hf. destruct Hf as [Hfa Hf]. inversion Hf as [|x y [Hu Fu] Hl]; subst.
  destruct (f_good (pre o) e Hu Fu (SI_pre _ O)) as [O1 [_ [_ N1]]].
  rewrite split_app by (rewrite ?N1; assumption). cbn [fst snd].
  destruct (octs_sim a (pre o) s t Ha Hfa (SI_pre _ O) P Q (Tr_pre _ _ O)) as [[A B] C].
  destruct (runs a s) as [s1 o1], (runs a t) as [t1 o1']. cbn [fst snd] in *. subst o1'.
  destruct o1; cbn [seqo fst snd]; try (split; [split; [exact A|reflexivity]|]; discriminate).
  destruct (C eq_refl) as [K W1].
  assert (Y := chord_sim deref dd b k St Tf F F' (CC F') SI Tr f_Good f_Sim f_m f_out e [snd (f (pre o) e)] (fst (f (pre o) e)) l s1 t1 (kept_playing _ _ _ _ K P) A O1 Hl).
  rewrite TLf in Y. cbn [app] in Y. destruct Y as [Y1 Y2].
  - intros s2 t2 m P2 Q2 K2 L1 L2. rewrite runs_one.
    assert (W2 : Tr (pre o) t2) by (eapply Tr_same; [apply (kept_cur _ _ K2)|exact L1|exact L2|exact W1]).
    destruct (f_sim (pre o) e s2 t2 Hu Fu (SI_pre _ O) P2 Q2 W2) as [DD EE]. split; [exact DD|]. intros Z. destruct (EE Z) as [E1 [E2 E3]].
    rewrite cgo_one by (destruct DD as [_ <-]; exact Z). cbn [fst]. split; [exact E1|]. split; [exact E2|]. apply E3. left; exact He.
  - split; [exact Y1|]. intros Z. split; [eapply kept_trans; [exact K|apply Y2, Z]|]. apply Tr_post.
    rewrite fl_eq in GG. exact GG.
Qed.
Theorem one_sim : forall l, evts F (CC F) l -> forall o, SI o -> SI (fst (fl o l)) /\ evts F' (CC F') (snd (fl o l)) /\
  forall s t, playing b k s -> R s t -> Tr o t -> RR (sruns l s) (sruns (snd (fl o l)) t) /\ (snd (sruns l s) = Ok -> kept s (fst (sruns l s))).
Proof.
  assert (TR : forall o es n, Tf o (URepeat (USeq es) n) = (post (fst (TL St Tf (pre o) es)), [URepeat (USeq (snd (TL St Tf (pre o) es))) n])) by (intros; unfold Tf at 1; rewrite f_rep, TLf; reflexivity).
  assert (TO : forall o es rs, Tf o (UOnReps rs (USeq es)) = (post (fst (TL St Tf (pre o) es)), [UOnReps rs (USeq (snd (TL St Tf (pre o) es)))])) by (intros; unfold Tf at 1; rewrite f_on, TLf; reflexivity).
  assert (TS : forall o es, Tf o (USeq es) = (post (fst (TL St Tf (pre o) es)), [USeq (snd (TL St Tf (pre o) es))])) by (intros; unfold Tf at 1; rewrite f_seq, TLf; reflexivity).
  intros l H o O. rewrite <- TLf.
  destruct (pass_good St Tf pre post F F' (CC F) (CC F') SI TR TO TS SI_pre SI_post f_Good f_Goodc l H o O) as [A B].
  split; [exact A|]. split; [exact B|]. intros s t P Q W.
  destruct (pass_sim deref dd b k St Tf pre post F F' (CC F) (CC F') SI Tr TR TO TS SI_pre SI_post Tr_pre Tr_post f_Good f_Goodc f_Sim f_Simc l H o s t O P Q W) as [X Y].
  split; [exact X|]. intros Z. apply Y, Z.
Qed.
End One.

(* ------------------------- accidentals ------------------------- *)

Lemma C1_CC : forall es, C1 es <-> exists e l, es = e :: l /\ is_nr e = true /\ Forall (fun u => flat u = true /\ F1 u) es.
Proof.
  intros es. split.
  - intros [A B]. destruct es as [|e l]; [contradiction|]. exists e, l. auto.
  - intros [e [l [-> [A B]]]]. split; assumption.
Qed.
Lemma acc_list_eq : forall o l, acc_list o l = match l with [] => (o, []) | x :: t =>
  (fst (acc_list (fst (acc_upd o x)) t), snd (acc_upd o x) :: snd (acc_list (fst (acc_upd o x)) t)) end.
Proof.
  intros o [|x t]; [reflexivity|]. cbn [acc_list]. destruct (acc_upd o x) as [o1 x']. cbn [fst snd]. destruct (acc_list o1 t). reflexivity.
Qed.
Lemma acc_rep : forall o es n, acc_upd o (URepeat (USeq es) n) = (fst (acc_list o es), URepeat (USeq (snd (acc_list o es))) n).
Proof. intros o es n. change (acc_upd o (URepeat (USeq es) n)) with (let (o', es') := acc_list o es in (o', URepeat (USeq es') n)). destruct (acc_list o es); reflexivity. Qed.
Lemma acc_on : forall o es n, acc_upd o (UOnReps n (USeq es)) = (fst (acc_list o es), UOnReps n (USeq (snd (acc_list o es)))).
Proof. intros o es n. change (acc_upd o (UOnReps n (USeq es))) with (let (o', es') := acc_list o es in (o', UOnReps n (USeq es'))). destruct (acc_list o es); reflexivity. Qed.
Lemma acc_seq : forall o es, acc_upd o (USeq es) = (fst (acc_list o es), USeq (snd (acc_list o es))).
Proof. intros o es. change (acc_upd o (USeq es)) with (let (o', es') := acc_list o es in (o', USeq es')). destruct (acc_list o es); reflexivity. Qed.
Lemma acc_chord : forall o es, acc_upd o (UChord es) = (fst (acc_list o es), UChord (snd (acc_list o es))).
Proof. intros o es. change (acc_upd o (UChord es)) with (let (o', es') := acc_list o es in (o', UChord es')). destruct (acc_list o es); reflexivity. Qed.
Lemma acc_oct : forall o u, is_oct u = true -> acc_upd o u = (o, u).
Proof. intros o u H. destruct u as [[| |[]|]| | | | | | | | | | | | | | |]; try discriminate H. reflexivity. Qed.
Lemma same_accs_eq : forall x y, same_accs x y = true -> x = y.
Proof. intros [x|] [y|] H; try discriminate H; [|reflexivity]. cbn in H. destruct (list_eq_dec _ x y); [subst; reflexivity|discriminate]. Qed.

Lemma acc_attr : forall o u, plain_attr u = true -> o_key (fst (acc_upd o u)) = o_key o /\ snd (acc_upd o u) = u.
Proof.
  intros o u H. destruct u as [[| |[]|]| | | | | | | | | | | | | | |]; try discriminate H; cbn; auto.
Qed.
Lemma acc_nr : forall o u, is_nr u = true -> F1 u -> o_key o = k ->
  let v := snd (acc_upd o u) in
  o_key (fst (acc_upd o u)) = k /\ is_nr v = true /\ nr_dur v = nr_dur u /\ F1 v /\
  (nr_of v = nr_of u \/ exists l sl, nr_of u = Some (PLetter l (ks_get k l), sl) /\ nr_of v = Some (PLetter l None, sl)).
Proof.
  intros o u H Fu O. destruct u as [[p d sl|d| | ]| | | | | | | | | | | | | | |]; try discriminate H.
  - change (acc_upd o (UPrim (Note p d sl))) with (acc_modify o (UPrim (Note p d sl))). unfold acc_modify.
    assert (X : forall (o' : opt_state) u, o_key (if has_bar u then reset_notes o' else o') = o_key o') by (intros o' u; destruct (has_bar u); reflexivity).
    destruct p as [l a|n].
    + destruct (same_accs a (ks_get (o_key o) l)) eqn:E.
      * apply same_accs_eq in E. rewrite O in E. destruct (existsb (letter_eqb l) (ModelImporter.o_notes o)); cbv zeta; cbn [fst snd]; rewrite X.
        -- split; [exact O|]. split; [reflexivity|]. split; [reflexivity|]. split; [exact Fu|]. left; reflexivity.
        -- split; [exact O|]. split; [reflexivity|]. split; [reflexivity|]. split; [exact Fu|]. right. exists l, sl. subst a. split; reflexivity.
      * cbv zeta; cbn [fst snd]; rewrite X. split; [exact O|]. split; [reflexivity|]. split; [reflexivity|]. split; [exact Fu|]. left; reflexivity.
    + cbv zeta; cbn [fst snd]; rewrite X. split; [exact O|]. split; [reflexivity|]. split; [reflexivity|]. split; [exact Fu|]. left; reflexivity.
  - cbv zeta. change (acc_upd o (UPrim (Rest d))) with (if has_bar (UPrim (Rest d)) then reset_notes o else o, UPrim (Rest d)). cbn [fst snd].
    split; [destruct (has_bar _); exact O|]. split; [reflexivity|]. split; [reflexivity|]. split; [exact Fu|]. left; reflexivity.
Qed.
Lemma acc_good : forall o u, flat u = true -> F1 u -> o_key o = k ->
  o_key (fst (acc_upd o u)) = k /\ flat (snd (acc_upd o u)) = true /\ F1 (snd (acc_upd o u)) /\ is_nr (snd (acc_upd o u)) = is_nr u.
Proof.
  intros o u H Fu O. destruct (flat_split u H) as [A|A].
  - destruct (acc_nr o u A Fu O) as [X [Y [Z [W _]]]]. split; [exact X|]. split; [apply flat_nr, Y|]. split; [exact W|]. rewrite Y, A. reflexivity.
  - destruct (acc_attr o u A) as [X Y]. rewrite Y, X. auto.
Qed.
Lemma attr_one : forall u s t, plain_attr u = true -> playing b k s -> R s t ->
  RR (run1 u s) (run1 u t) /\ (snd (run1 u s) = Ok -> kept s (fst (run1 u s)) /\
    forall m, (is_nr u = true \/ covered t m) -> lower_shortest (written_dur u) t m = lower_shortest (written_dur u) s m /\
      covered (fst (run1 u t)) (lower_shortest (written_dur u) t m)).
Proof.
  intros u s t A P Q. destruct (attr_step u s t A P Q) as [X [Y _]]. split; [exact X|]. intros O. split; [exact Y|].
  intros m V. assert (V' : covered t m) by (destruct V as [V|V]; [destruct u as [[]| | | | | | | | | | | | | | |]; discriminate A || discriminate V|exact V]).
  assert (O' : snd (run1 u t) = Ok) by (destruct X as [_ <-]; exact O). destruct (attr_m u s t m A Q V' O') as [Z W].
  rewrite cgo_one in Z, W by exact O'. cbn [fst snd] in *. auto.
Qed.
Lemma acc_fsim : forall o u s t, flat u = true -> F1 u -> o_key o = k -> playing b k s -> R s t -> True ->
  RR (run1 u s) (run1 (snd (acc_upd o u)) t) /\
  (snd (run1 u s) = Ok -> kept s (fst (run1 u s)) /\ True /\
    forall m, (is_nr u = true \/ covered t m) ->
      lower_shortest (written_dur (snd (acc_upd o u))) t m = lower_shortest (written_dur u) s m /\
      covered (fst (run1 (snd (acc_upd o u)) t)) (lower_shortest (written_dur (snd (acc_upd o u))) t m)).
Proof.
  intros o u s t H Fu O P Q _. destruct (flat_split u H) as [A|A].
  - destruct (acc_nr o u A Fu O) as [_ [Y [Z [W V]]]]. destruct (length_some _ (F1_length u A Fu)) as [l Hl]. rewrite <- Z in Hl.
    assert (L : like u (snd (acc_upd o u)) s t).
    { destruct (like_self u s t A P Q Fu) as [_ [_ [_ X]]]. split; [exact A|]. split; [exact Y|]. split; [rewrite Z; reflexivity|].
      intros pd Hp. destruct V as [V|[x [sl [V1 V2]]]]; [rewrite V; apply X, Hp|]. specialize (X pd Hp). rewrite V1, V2 in *.
      cbn [nr_like] in *. destruct X as [_ X]. split; [reflexivity|]. rewrite X. unfold calc_midi_note.
      pose proof (proj2 (R_playing _ _ _ _ Q P) pd) as P'. rewrite <- (R_current _ _ Q) in P'. destruct (P' Hp) as [_ [-> _]].
      unfold ks_index. destruct (ks_get k x); reflexivity. }
    destruct (note_step u _ s t l P Q L Hl) as [X1 [X2 [_ [_ X3]]]]. split; [exact X1|]. intros Ok'. destruct (X3 Ok') as [_ [_ X4]].
    split; [exact X2|]. split; [exact I|]. intros m _. apply X4.
  - destruct (acc_attr o u A) as [_ ->]. destruct (attr_one u s t A P Q) as [X Y]. split; [exact X|]. intros Z. destruct (Y Z) as [Y1 Y2]. auto.
Qed.
Definition CF1 := CC F1.
Theorem acc_sim : forall l, evts F1 (CC F1) l -> forall o, o_key o = k ->
  o_key (fst (acc_list o l)) = k /\ evts F1 (CC F1) (snd (acc_list o l)) /\ simf b k (sruns l) (sruns (snd (acc_list o l))).
Proof.
  intros l H o O.
  destruct (one_sim opt_state acc_upd acc_list (fun o => o) (fun o => o) F1 F1 (fun o => o_key o = k) (fun _ _ => True)
    acc_list_eq acc_rep acc_on acc_seq acc_chord acc_oct (fun _ x => x) (fun _ x => x) (fun _ _ _ => I) (fun _ _ _ => I) (fun _ _ _ _ _ _ _ => I)
    acc_good acc_fsim l H o O) as [A [B C]].
  split; [exact A|]. split; [exact B|]. intros s t P Q. apply C; auto.
Qed.

(* ------------------------- durations ------------------------- *)

Definition F3 (u : update) : Prop := letter_ok u /\ (is_nr u = true -> has_length (nr_dur u) = true) /\ dnums (nr_dur u).
Definition tracked (o : opt_state) (t : score) : Prop :=
  dcomps (o_dur o) = [] \/ exists l, o_dur o = Some l /\ dur_valid (Some l) = true /\ forall p, In p (current t) -> pdur (getp t p) = Some l.
Notation durf := (dur_upd_opt feq).
Notation durl := (dur_list feq).
Lemma dur_list_eq : forall o l, durl o l = match l with [] => (o, []) | x :: t =>
  (fst (durl (fst (durf o x)) t), snd (durf o x) :: snd (durl (fst (durf o x)) t)) end.
Proof.
  intros o [|x t]; [reflexivity|]. cbn [dur_list]. destruct (durf o x) as [o1 x']. cbn [fst snd]. destruct (durl o1 t). reflexivity.
Qed.
Lemma dur_rep : forall o es n, durf o (URepeat (USeq es) n) = (reset_dur (fst (durl (reset_dur o) es)), URepeat (USeq (snd (durl (reset_dur o) es))) n).
Proof. intros o es n. change (durf o (URepeat (USeq es) n)) with (let (o', es') := durl (reset_dur o) es in (reset_dur o', URepeat (USeq es') n)). destruct (durl _ es); reflexivity. Qed.
Lemma dur_on : forall o es n, durf o (UOnReps n (USeq es)) = (reset_dur (fst (durl (reset_dur o) es)), UOnReps n (USeq (snd (durl (reset_dur o) es)))).
Proof. intros o es n. change (durf o (UOnReps n (USeq es))) with (let (o', es') := durl (reset_dur o) es in (reset_dur o', UOnReps n (USeq es'))). destruct (durl _ es); reflexivity. Qed.
Lemma dur_seq : forall o es, durf o (USeq es) = (reset_dur (fst (durl (reset_dur o) es)), USeq (snd (durl (reset_dur o) es))).
Proof. intros o es. change (durf o (USeq es)) with (let (o', es') := durl (reset_dur o) es in (reset_dur o', USeq es')). destruct (durl _ es); reflexivity. Qed.
Lemma dur_chord : forall o es, durf o (UChord es) = (reset_dur (fst (durl (reset_dur o) es)), UChord (snd (durl (reset_dur o) es))).
Proof. intros o es. change (durf o (UChord es)) with (let (o', es') := durl (reset_dur o) es in (reset_dur o', UChord es')). destruct (durl _ es); reflexivity. Qed.
Lemma dur_oct : forall o u, is_oct u = true -> durf o u = (o, u).
Proof. intros o u H. destruct u as [[| |[]|]| | | | | | | | | | | | | | |]; try discriminate H. reflexivity. Qed.

(** Durations that compare equal are equal. *)
Fixpoint comp_list_numbers (l : list component) : list num := match l with [] => [] | x :: t => comp_numbers x ++ comp_list_numbers t end.
Lemma numbers_some : forall l, comp_numbers (CDur (Some l)) = comp_list_numbers l.
Proof. intros l. induction l as [|c l IH]; [reflexivity|]. cbn [comp_list_numbers]. rewrite <- IH. reflexivity. Qed.
Lemma same_comp_eq : forall x y, Forall D (comp_numbers x) -> Forall D (comp_numbers y) -> same_comp feq x y = true -> x = y.
Proof.
  fix IH 1. intros x y A B H. destruct x as [v n|v|v|v| |[l|]], y as [v' n'|v'|v'|v'| |[l'|]]; try discriminate H; cbn [same_comp] in H; try reflexivity;
    try (inversion A; inversion B; subst; f_equal; apply feq_law; assumption).
  - apply andb_prop in H. destruct H as [H1 H2]. apply Z.eqb_eq in H2. subst. inversion A; inversion B; subst. f_equal. apply feq_law; assumption.
  - f_equal. f_equal. rewrite numbers_some in A, B. revert l' B H. induction l as [|c l IHl]; intros [|c' l'] B H; try discriminate H; [reflexivity|].
    cbn [comp_list_numbers] in A, B. apply Forall_app in A. apply Forall_app in B. apply andb_prop in H. destruct A, B, H. f_equal; [apply IH; assumption|apply IHl; assumption].
Qed.
Lemma same_dur_eq : forall x y, dnums x -> dnums y -> same_dur feq x y = true -> x = y.
Proof. intros x y A B H. assert (X : CDur x = CDur y) by (apply same_comp_eq; assumption). congruence. Qed.

Lemma dur_attr : forall o u, plain_attr u = true -> snd (durf o u) = u /\ (fst (durf o u) = o \/ fst (durf o u) = reset_dur o).
Proof.
  intros o u H. destruct u as [[| |[]|]| | | | | | | | | | | | | | |]; try discriminate H; cbn; auto.
Qed.
Lemma dur_flat : forall o u, flat u = true -> durf o u = dur_modify feq o u.
Proof. intros o u H. destruct u as [[]| | | | | | | | | | | | | | |]; try discriminate H; reflexivity. Qed.
(** What happens to a note or rest. *)
Lemma dur_nr : forall o u, is_nr u = true -> F3 u -> dnums (o_dur o) ->
  exists l, nr_dur u = Some l /\
  ((durf o u = (reset_dur o, u)) \/ (durf o u = (set_odur (Some l) o, u)) \/
   (durf o u = (set_odur (Some l) o, set_nr_dur None u) /\ o_dur o = Some l /\ dcomps (o_dur o) <> [])).
Proof.
  intros o u H [_ [L X]] O. destruct (length_some _ (L H)) as [l Hl]. exists l. split; [exact Hl|].
  rewrite dur_flat by (apply flat_nr, H). unfold dur_modify. rewrite Hl in X |- *. destruct (has_bar u); [left; reflexivity|right].
  cbv zeta. cbn [dcomps]. destruct l as [|c l]; [rewrite Hl in L; specialize (L H); discriminate L|].
  destruct (dcomps (o_dur o)) as [|c' l'] eqn:E; [left; reflexivity|].
  destruct (same_dur feq (o_dur o) (Some (c :: l))) eqn:S; [|left; reflexivity]. right. split; [reflexivity|]. split; [|discriminate].
  apply same_dur_eq; assumption.
Qed.
Lemma set_nr : forall u, is_nr u = true -> is_nr (set_nr_dur None u) = true /\ nr_dur (set_nr_dur None u) = None /\ nr_of (set_nr_dur None u) = nr_of u.
Proof. intros u H. destruct u as [[]| | | | | | | | | | | | | | |]; try discriminate H; cbn; auto. Qed.
Lemma dur_good : forall o u, flat u = true -> F3 u -> dnums (o_dur o) ->
  dnums (o_dur (fst (durf o u))) /\ flat (snd (durf o u)) = true /\ True /\ is_nr (snd (durf o u)) = is_nr u.
Proof.
  intros o u H Fu O. destruct (flat_split u H) as [A|A].
  - destruct (dur_nr o u A Fu O) as [l [Hl X]]. destruct Fu as [_ [_ Y]]. rewrite Hl in Y. destruct (set_nr u A) as [B [_ _]].
    destruct X as [X|[X|[X _]]]; rewrite X; cbn [fst snd].
    + split; [constructor|]. split; [apply flat_nr, A|]. auto.
    + split; [exact Y|]. split; [apply flat_nr, A|]. auto.
    + split; [exact Y|]. split; [apply flat_nr, B|]. split; [exact I|]. congruence.
  - destruct (dur_attr o u A) as [-> [E|E]]; rewrite E; (split; [|split; [exact H|]; auto]); [exact O|constructor].
Qed.
Lemma tracked_same : forall o t t', current t' = current t -> keeps poctave t t' -> keeps pdur t t' -> tracked o t -> tracked o t'.
Proof.
  intros o t t' A _ B [W|[l [W1 [W2 W3]]]]; [left; exact W|right]. exists l. split; [exact W1|]. split; [exact W2|]. intros p Hp. rewrite A in Hp. rewrite (B p). apply W3, Hp.
Qed.
Lemma dur_fsim : forall o u s t, flat u = true -> F3 u -> dnums (o_dur o) -> playing b k s -> R s t -> tracked o t ->
  RR (run1 u s) (run1 (snd (durf o u)) t) /\
  (snd (run1 u s) = Ok -> kept s (fst (run1 u s)) /\ tracked (fst (durf o u)) (fst (run1 (snd (durf o u)) t)) /\
    forall m, (is_nr u = true \/ covered t m) ->
      lower_shortest (written_dur (snd (durf o u))) t m = lower_shortest (written_dur u) s m /\
      covered (fst (run1 (snd (durf o u)) t)) (lower_shortest (written_dur (snd (durf o u))) t m)).
Proof.
  intros o u s t H Fu O P Q W. destruct (flat_split u H) as [A|A].
  - destruct (dur_nr o u A Fu O) as [l [Hl X]].
    destruct (note_step u u s t l P Q (like_gen u s t A P Q (proj1 Fu)) Hl) as [X1 [X2 [X3 [_ X4]]]].
    assert (Same : forall o', o_dur o' = None \/ o_dur o' = Some l -> RR (run1 u s) (run1 u t) /\
      (snd (run1 u s) = Ok -> kept s (fst (run1 u s)) /\ tracked o' (fst (run1 u t)) /\
       forall m, (is_nr u = true \/ covered t m) -> lower_shortest (written_dur u) t m = lower_shortest (written_dur u) s m /\
         covered (fst (run1 u t)) (lower_shortest (written_dur u) t m))).
    { intros o' Ho. split; [exact X1|]. intros Z. destruct (X4 Z) as [V [Y M]]. split; [exact X2|]. split; [|intros m _; apply M].
      destruct Ho as [Ho|Ho]; [left; rewrite Ho; reflexivity|right]. exists l. split; [exact Ho|]. split; [exact V|]. intros p Hp. rewrite (kept_cur _ _ X3) in Hp. apply Y, Hp. }
    destruct X as [X|[X|[X [X5 X6]]]]; rewrite X; cbn [fst snd]; [apply Same; left; reflexivity|apply Same; right; reflexivity|].
    destruct (set_nr u A) as [B1 [B2 B3]]. destruct W as [W|[l' [W1 [W2 W3]]]]; [contradiction|]. rewrite X5 in W1. inversion W1; subst l'. clear W1.
    assert (E : run1 (set_nr_dur None u) t = run1 u t).
    { rewrite !run_nr by assumption. rewrite B2, B3, Hl. apply add_note_default; [eapply R_sound; [exact Q|eapply playing_sound; exact P]|exact W2|exact W3]. }
    assert (M0 : forall m, lower_shortest (written_dur (set_nr_dur None u)) t m = lower_shortest (written_dur u) t m).
    { intros m. rewrite (written_nr u), (written_nr (set_nr_dur None u)), B2, Hl. unfold lower_shortest.
      assert (Z : forall ps m, (forall p, In p ps -> In p (current t)) ->
        fold_left (fun m pd => aset Nat.eqb pd (nmin (pget n0 pd m) (nmul (dur_ms_of (ptempo (getp t pd)) (effective_dur None (getp t pd))) (pscale (getp t pd)))) m) ps m
        = fold_left (fun m pd => aset Nat.eqb pd (nmin (pget n0 pd m) (nmul (dur_ms_of (ptempo (getp t pd)) (effective_dur (Some l) (getp t pd))) (pscale (getp t pd)))) m) ps m).
      { induction ps as [|p ps IHp]; intros m' I; [reflexivity|]. cbn [fold_left effective_dur]. rewrite (W3 p (I p (or_introl eq_refl))). apply IHp. intros; apply I; right; assumption. }
      apply Z. auto. }
    rewrite E. destruct (Same (set_odur (Some l) o)) as [Y1 Y2]; [right; reflexivity|]. split; [exact Y1|]. intros Z. destruct (Y2 Z) as [Y3 [Y4 Y5]].
    split; [exact Y3|]. split; [exact Y4|]. intros m V. rewrite M0. apply Y5, V.
  - destruct (dur_attr o u A) as [-> E]. destruct (attr_one u s t A P Q) as [X Y]. destruct (attr_step u s t A P Q) as [_ [_ [K L]]].
    split; [exact X|]. intros Z. destruct (Y Z) as [Y1 Y2]. split; [exact Y1|]. split; [|exact Y2].
    destruct E as [->| ->]; [|left; reflexivity]. destruct W as [W|[l [W1 [W2 W3]]]]; [left; exact W|right]. exists l. split; [exact W1|]. split; [exact W2|].
    intros p Hp. rewrite (kept_cur _ _ K) in Hp. rewrite (L p). apply W3, Hp.
Qed.
Theorem dur_sim : forall l, evts F3 (CC F3) l -> forall o, o_dur o = None ->
  evts (fun _ => True) (CC (fun _ => True)) (snd (durl o l)) /\ simf b k (sruns l) (sruns (snd (durl o l))).
Proof.
  intros l H o O.
  destruct (one_sim opt_state durf durl reset_dur reset_dur F3 (fun _ => True) (fun o => dnums (o_dur o)) tracked
    dur_list_eq dur_rep dur_on dur_seq dur_chord dur_oct (fun _ _ => Forall_nil _) (fun _ _ => Forall_nil _) (fun _ _ _ => or_introl eq_refl) (fun _ _ _ => or_introl eq_refl) tracked_same
    dur_good dur_fsim l H o) as [A [B C]]; [rewrite O; constructor|].
  split; [exact B|]. intros s t P Q. apply C; auto. left. rewrite O. reflexivity.
Qed.
End Passes.
