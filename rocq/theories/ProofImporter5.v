(** Proof of C48, fifth part: the optimizer on the events of a voice. *)
From Coq Require Import ZArith List String Bool Lia Arith QArith Qcanon.
From Verif Require Import Base Num ModelPitch ModelDuration ModelInstruments ModelTypes ModelLisp
  ModelScore ModelImporter SpecScore SpecVars SpecParts SpecSolo SpecTiming SpecImporter ProofHeap ProofStep ProofInv ProofEvents
  ProofVoices ProofVars ProofSafe ProofTracks ProofSolo ProofTiming ProofImporter ProofImporter2 ProofImporter3 ProofImporter4.
Import ListNotations.
Local Open Scope list_scope.

Section Bridge.
Context {N : Num}.
Variable deref : string -> score -> score * outcome.
Variable dd : list (string * list update) -> string -> part -> dres.
Notation run1 := (run_upd deref dd).
Notation runs := (runs deref dd).
Notation srun := (srun deref dd).
Notation sruns := (sruns deref dd).

Lemma times_ext : forall f g n r s, (forall s, f s = g s) -> run_times f r n s = run_times g r n s.
Proof.
  intros f g n. induction n as [|n IH]; intros r s H; [reflexivity|]. cbn [run_times]. destruct (each _ _ s) as [s1 o1]. destruct o1; cbn [seqo]; try reflexivity.
  rewrite H. destruct (g s1) as [s2 o2]. destruct o2; cbn [seqo]; try reflexivity. apply IH, H.
Qed.
Lemma onreps_ext : forall f g rs n i s, (forall s, f s = g s) -> onreps_loop rs f i n s = onreps_loop rs g i n s.
Proof.
  intros f g rs n. induction n as [|n IH]; intros i s H; [reflexivity|]. cbn [onreps_loop]. destruct (nth_error _ _); [|reflexivity].
  destruct (applies_to _ _).
  - rewrite H. destruct (g s) as [s1 o1]. destruct o1; cbn [seqo]; try reflexivity. apply IH, H.
  - cbn [seqo]. apply IH, H.
Qed.
Lemma evt_all : forall F C es, evt F C (USeq es) -> Forall (evt F C) es.
Proof. intros F C. induction es as [|x es IH]; intros H; constructor; [apply H|apply IH, H]. Qed.
Lemma evts_forall : forall F C es, evts F C es <-> Forall (evt F C) es.
Proof.
  intros F C es. split.
  - induction es as [|x es IH]; intros H; constructor; [apply H|apply IH, H].
  - induction 1; split; auto.
Qed.
Lemma evt_impl : forall (F F' : update -> Prop) (C C' : list update -> Prop), (forall u, flat u = true -> F u -> F' u) -> (forall es, C es -> C' es) ->
  forall u, evt F C u -> evt F' C' u.
Proof.
  intros F F' C C' HF HC. induction u using update_ind'; intros X; cbn [evt] in *; try (destruct X as [X1 X2]; split; [exact X1|apply HF; assumption]; fail).
  - apply HC, X.
  - destruct u; try (destruct X as [X1 X2]; discriminate X1). apply (IHu X).
  - destruct u; try (destruct X as [X1 X2]; discriminate X1). apply (IHu X).
  - apply evt_seq, evts_forall. apply evt_all in X. rewrite Forall_forall in *. intros x Hx. apply (H x Hx), X, Hx.
Qed.
Lemma evts_impl : forall (F F' : update -> Prop) (C C' : list update -> Prop), (forall u, flat u = true -> F u -> F' u) -> (forall es, C es -> C' es) ->
  forall l, evts F C l -> evts F' C' l.
Proof. intros F F' C C' HF HC l H. rewrite evts_forall in *. eapply Forall_impl; [|exact H]. intros u X. eapply evt_impl; eassumption. Qed.

Lemma go_map : forall (g : update -> update) es, (fix go (l : list update) : list update := match l with [] => [] | x :: t => g x :: go t end) es = map g es.
Proof. intros g es. induction es as [|x es IH]; [reflexivity|]. cbn [map]. rewrite <- IH. reflexivity. Qed.
Lemma flat_same : forall u, flat u = true -> finished u = u /\ close_upd u = u /\ as_written u = [u].
Proof. intros u H. destruct u as [[]| | | | | | | | | | | | | | |]; try discriminate H; auto. Qed.
Lemma map_same : forall (g : update -> update) l, Forall (fun u => g u = u) l -> map g l = l.
Proof. intros g l H. induction H as [|x l Hx Hl IH]; [reflexivity|]. cbn [map]. rewrite Hx, IH. reflexivity. Qed.

(** The unoptimised events. *)
Lemma run_finished : forall (F : update -> Prop) (C : list update -> Prop), 
  (forall es, C es -> split_octaves es = ([], es) /\ Forall (fun u => flat u = true) es) ->
  forall u, evt F C u -> (forall s, srun u s = run1 (finished u) s).
Proof.
  intros F C HC. induction u using update_ind'; intros X; cbn [evt] in *;
    try (destruct X as [X1 X2]; intros s; rewrite srun_flat by exact X1; destruct (flat_same _ X1) as [-> _]; reflexivity).
  - intros s. destruct (HC _ X) as [E Hf]. rewrite srun_chord, E. cbn [fst snd]. unfold ProofImporter.runs. cbn [each seqo finished].
    rewrite go_map, map_same; [reflexivity|]. eapply Forall_impl; [|exact Hf]. intros u Hu. apply (flat_same u Hu).
  - destruct u; try (destruct X as [X1 X2]; discriminate X1). intros s. rewrite srun_rep. cbn [finished run_upd].
    rewrite (times_ext (sruns es) (run1 (finished (USeq es)))); [reflexivity|]. intros s1. rewrite <- (IHu X), srun_seq. reflexivity.
  - destruct u; try (destruct X as [X1 X2]; discriminate X1). intros s. rewrite srun_on. cbn [finished run_upd].
    apply onreps_ext. intros s1. change (sruns es s1 = run1 (finished (USeq es)) s1). rewrite <- (IHu X), srun_seq. reflexivity.
  - intros s. rewrite srun_seq. cbn [finished]. rewrite go_map, run_seq. apply evt_all in X. revert s. induction es as [|x es IH]; intros s; [reflexivity|].
    inversion H; inversion X; subst. cbn [ProofImporter2.sruns map]. unfold ProofImporter.runs. cbn [each]. rewrite H2 by assumption.
    destruct (run1 (finished x) s) as [s1 o1]. destruct o1; cbn [seqo]; try reflexivity. apply IH; assumption.
Qed.
Lemma runs_finished : forall (F : update -> Prop) (C : list update -> Prop),
  (forall es, C es -> split_octaves es = ([], es) /\ Forall (fun u => flat u = true) es) ->
  forall l, evts F C l -> forall s, sruns l s = runs (map finished l) s.
Proof.
  intros F C HC l H. apply evts_forall in H. induction H as [|x l Hx Hl IH]; intros s; [reflexivity|].
  cbn [ProofImporter2.sruns map]. unfold ProofImporter.runs. cbn [each]. rewrite (run_finished F C HC x Hx).
  destruct (run1 (finished x) s) as [s1 o1]. destruct o1; cbn [seqo]; try reflexivity. apply IH.
Qed.

(** The optimised events, written out. *)
Lemma go_flat : forall es, (fix go (l : list update) : list update := match l with [] => [] | x :: t => as_written x ++ go t end) es = text_of es.
Proof. intros es. unfold text_of. induction es as [|x es IH]; [reflexivity|]. cbn [flat_map]. rewrite <- IH. reflexivity. Qed.
Lemma written_rep : forall es n, as_written (URepeat (USeq es) n) = [URepeat (USeq (text_of es)) n].
Proof. intros es n. rewrite <- go_flat. reflexivity. Qed.
Lemma written_on : forall es n, as_written (UOnReps n (USeq es)) = [UOnReps n (USeq (text_of es))].
Proof. intros es n. rewrite <- go_flat. reflexivity. Qed.
Lemma written_seq : forall es, as_written (USeq es) = [USeq (text_of es)].
Proof. intros es. rewrite <- go_flat. reflexivity. Qed.
Lemma close_rep : forall es n, close_upd (URepeat (USeq es) n) = URepeat (USeq (close_list es)) (close_times n).
Proof. intros es n. unfold close_list. rewrite <- go_map. reflexivity. Qed.
Lemma close_on : forall es n, close_upd (UOnReps n (USeq es)) = UOnReps n (USeq (close_list es)).
Proof. intros es n. unfold close_list. rewrite <- go_map. reflexivity. Qed.
Lemma close_seq : forall es, close_upd (USeq es) = USeq (close_list es).
Proof. intros es. unfold close_list. rewrite <- go_map. reflexivity. Qed.
Lemma close_chord : forall es, close_upd (UChord es) = UChord (close_list es).
Proof. intros es. unfold close_list. rewrite <- go_map. reflexivity. Qed.
Lemma run_written : forall (F : update -> Prop) (C : list update -> Prop), (forall es, C es -> Forall (fun u => flat u = true) es) ->
  forall u, evt F C u -> (forall s, srun u s = runs (as_written (close_upd u)) s).
Proof.
  intros F C HC. induction u using update_ind'; intros X; cbn [evt] in *;
    try (destruct X as [X1 X2]; intros s; rewrite srun_flat by exact X1; destruct (flat_same _ X1) as [_ [-> ->]]; rewrite runs_one; reflexivity).
  - intros s. pose proof (HC _ X) as Hf. rewrite srun_chord, close_chord. unfold close_list. rewrite map_same.
    + cbn [as_written]. destruct (split_octaves es) as [a c]. cbn [fst snd]. rewrite runs_app. destruct (runs a s) as [s1 o1]. destruct o1; cbn [seqo]; try reflexivity. rewrite runs_one. reflexivity.
    + eapply Forall_impl; [|exact Hf]. intros u Hu. apply (flat_same u Hu).
  - destruct u; try (destruct X as [X1 X2]; discriminate X1). intros s. rewrite srun_rep, close_rep, written_rep, runs_one.
    assert (E : forall s1, sruns es s1 = run1 (USeq (text_of (close_list es))) s1).
    { intros s1. rewrite <- srun_seq, (IHu X), close_seq, written_seq, runs_one. reflexivity. }
    change (run1 (URepeat (USeq (text_of (close_list es))) (close_times n)) s) with
      (seqo (run_times (run1 (USeq (text_of (close_list es)))) 1 (Z.to_nat (close_times n)) s)
            (fun s => if (close_times n =? max_int32)%Z then (s, Hang) else (s, Ok))).
    rewrite (times_ext _ _ _ _ _ E). reflexivity.
  - destruct u; try (destruct X as [X1 X2]; discriminate X1). intros s. rewrite srun_on, close_on, written_on, runs_one.
    assert (E : forall s1, sruns es s1 = run1 (USeq (text_of (close_list es))) s1).
    { intros s1. rewrite <- srun_seq, (IHu X), close_seq, written_seq, runs_one. reflexivity. }
    change (run1 (UOnReps rs (USeq (text_of (close_list es)))) s) with (onreps_loop rs (run1 (USeq (text_of (close_list es)))) 0 (List.length (current s)) s).
    apply onreps_ext, E.
  - intros s. rewrite srun_seq, close_seq, written_seq, runs_one, run_seq. apply evt_all in X. revert s. induction es as [|x es IH]; intros s; [reflexivity|].
    inversion H; inversion X; subst. cbn [ProofImporter2.sruns]. unfold close_list, text_of. cbn [map flat_map]. rewrite runs_app, <- H2 by assumption.
    destruct (srun x s) as [s1 o1]. destruct o1; cbn [seqo]; try reflexivity. apply IH; assumption.
Qed.
Lemma runs_written : forall (F : update -> Prop) (C : list update -> Prop), (forall es, C es -> Forall (fun u => flat u = true) es) ->
  forall l, evts F C l -> forall s, sruns l s = runs (text_of (close_list l)) s.
Proof.
  intros F C HC l H. apply evts_forall in H. induction H as [|x l Hx Hl IH]; intros s; [reflexivity|].
  cbn [ProofImporter2.sruns]. unfold close_list, text_of. cbn [map flat_map]. rewrite runs_app, <- (run_written F C HC x Hx).
  destruct (srun x s) as [s1 o1]. destruct o1; cbn [seqo]; try reflexivity. apply IH.
Qed.
End Bridge.

Section Voice.
Context {N : Num}.
Hypothesis zero_law : forall t l,
  nadd (fold_left (fun acc c => nadd acc (comp_ms t c)) l n0) n0
  = fold_left (fun acc c => nadd acc (comp_ms t c)) l n0.
Hypothesis min_law : forall a b, nmin (nmin a b) b = nmin a b.
Variable feq : num -> num -> bool.
Variable deref : string -> score -> score * outcome.
Variable dd : list (string * list update) -> string -> part -> dres.
Notation runs := (runs deref dd).
Notation sruns := (sruns deref dd).

(** The events of a voice are what the passes expect. *)
Lemma flat_event_flat : forall b u, flat_event b u = true -> flat u = true.
Proof.
  intros b u H. destruct u as [[| |[]|]| | | | | | | | | | | | | | |]; try discriminate H; reflexivity.
Qed.
Lemma nums_flat : forall (D : num -> Prop) u, flat u = true -> (forall d, In d (durations_of u) -> Forall D (comp_numbers (CDur d))) -> dnums D (nr_dur u).
Proof.
  intros D u H X. unfold dnums. destruct u as [[]| | | | | | | | | | | | | | |]; try discriminate H; cbn [nr_dur]; try constructor; apply X; left; reflexivity.
Qed.
Lemma in_all : forall es d, In d ((fix go (l : list update) : list duration := match l with [] => [] | x :: t => durations_of x ++ go t end) es) <-> exists x, In x es /\ In d (durations_of x).
Proof.
  induction es as [|x es IH]; intros d; [split; [contradiction|intros [x [[] _]]]|]. rewrite in_app_iff, IH. split.
  - intros [H|[y [H1 H2]]]; [exists x; split; [left; reflexivity|exact H]|exists y; split; [right; exact H1|exact H2]].
  - intros [y [[<-|H1] H2]]; [left; exact H2|right; exists y; auto].
Qed.
Lemma voice_all : forall b es, (fix go (l : list update) : bool := match l with [] => true | x :: t => voice_event b x && go t end) es = forallb (voice_event b) es.
Proof. intros b es. induction es as [|x es IH]; [reflexivity|]. cbn [forallb]. rewrite <- IH. reflexivity. Qed.
Lemma voice_evt : forall (D : num -> Prop) b u, voice_event b u = true -> (forall d, In d (durations_of u) -> Forall D (comp_numbers (CDur d))) -> evt (F1 D b) (C1 D b) u.
Proof.
  intros D b. assert (Flat : forall u, flat_event b u = true -> (forall d, In d (durations_of u) -> Forall D (comp_numbers (CDur d))) -> flat u = true /\ F1 D b u).
  { intros u H X. pose proof (flat_event_flat b u H) as Y. split; [exact Y|]. split; [exact H|]. apply nums_flat; assumption. }
  assert (Seq : forall es, Forall (fun u => voice_event b u = true -> (forall d, In d (durations_of u) -> Forall D (comp_numbers (CDur d))) -> evt (F1 D b) (C1 D b) u) es ->
     forallb (voice_event b) es = true -> (forall d, In d (durations_of (USeq es)) -> Forall D (comp_numbers (CDur d))) -> evt (F1 D b) (C1 D b) (USeq es)).
  { intros es H Hv X. apply evt_seq, evts_forall. rewrite forallb_forall in Hv. rewrite Forall_forall in *. intros x Hx. apply H; auto.
    intros d Hd. apply X. cbn [durations_of]. apply in_all. exists x. auto. }
  induction u using update_ind'; intros Hv X; cbn [voice_event] in Hv; try (exact (Flat _ Hv X)).
  - cbn [evt]. apply andb_prop in Hv. destruct Hv as [Hv Hn]. split; [destruct es; [discriminate Hn|exact Hn]|].
    rewrite forallb_forall in Hv. rewrite Forall_forall. intros x Hx. apply Flat; [apply Hv, Hx|]. intros d Hd. apply X. cbn [durations_of]. apply in_all. exists x. auto.
  - destruct u; try discriminate Hv. apply (IHu Hv X).
  - destruct u; try discriminate Hv. apply (IHu Hv X).
  - rewrite voice_all in Hv. apply Seq; assumption.
Qed.
Lemma C1_head : forall D b es, C1 D b es -> split_octaves es = ([], es) /\ Forall (fun u => flat u = true) es.
Proof.
  intros D b es [A B]. split.
  - destruct es as [|e l]; [contradiction|]. apply split_nr, A.
  - eapply Forall_impl; [|exact B]. intros u X. apply X.
Qed.
Lemma acc_oct_same : forall o u, o_oct (fst (acc_upd o u)) = o_oct o /\ o_dur (fst (acc_upd o u)) = o_dur o.
Proof.
  assert (L : forall l, Forall (fun u => forall o, o_oct (fst (acc_upd o u)) = o_oct o /\ o_dur (fst (acc_upd o u)) = o_dur o) l ->
    forall o, o_oct (fst (acc_list o l)) = o_oct o /\ o_dur (fst (acc_list o l)) = o_dur o).
  { induction 1 as [|x l Hx Hl IH]; intros o; [auto|]. rewrite acc_list_eq. cbn [fst]. destruct (IH (fst (acc_upd o x))) as [-> ->]. apply Hx. }
  assert (Base : forall o u, o_oct (fst (acc_modify o u)) = o_oct o /\ o_dur (fst (acc_modify o u)) = o_dur o).
  { intros o u. unfold acc_modify. match goal with |- context[let (_, _) := ?x in _] => destruct x as [o1 u1] eqn:E end.
    cbn [fst]. assert (Y : o_oct o1 = o_oct o /\ o_dur o1 = o_dur o).
    { destruct u as [[[l a|n] d sl| |[]|]| | | | | | | | | | | | | | |]; inversion E; subst; auto.
      - destruct (same_accs a (ks_get (o_key o) l)); [destruct (existsb _ _)|]; inversion H0; subst; auto.
      - destruct (same_key (o_key o) k); auto. }
    destruct (has_bar u1); exact Y. }
  intros o u. revert o. induction u using update_ind'; intros o; try (apply Base).
  - rewrite acc_chord. apply L, H.
  - destruct u; try (apply Base). specialize (IHu o). rewrite acc_seq in IHu. rewrite acc_rep. exact IHu.
  - destruct u; try (apply Base). specialize (IHu o). rewrite acc_seq in IHu. rewrite acc_on. exact IHu.
  - rewrite acc_seq. apply L, H.
Qed.
Lemma acc_list_same : forall l o, o_oct (fst (acc_list o l)) = o_oct o /\ o_dur (fst (acc_list o l)) = o_dur o.
Proof.
  induction l as [|x l IH]; intros o; [auto|]. rewrite acc_list_eq. cbn [fst]. destruct (IH (fst (acc_upd o x))) as [-> ->]. apply acc_oct_same.
Qed.
Lemma mid_dur_same : forall u o, o_dur (fst (mid_upd o u)) = o_dur o /\ o_key (fst (mid_upd o u)) = o_key o.
Proof.
  assert (L : forall l, Forall (fun u => forall o, o_dur (fst (mid_upd o u)) = o_dur o /\ o_key (fst (mid_upd o u)) = o_key o) l ->
    forall o, o_dur (fst (TL opt_state mid_upd o l)) = o_dur o /\ o_key (fst (TL opt_state mid_upd o l)) = o_key o).
  { induction 1 as [|x l Hx Hl IH]; intros o; [auto|]. rewrite mid_TL. cbn [mid_list]. specialize (Hx o). destruct (mid_upd o x) as [o1 x'].
    specialize (IH o1). rewrite mid_TL in IH. destruct (mid_list o1 l) as [o2 t']. cbn [fst] in *. destruct IH as [-> ->]. exact Hx. }
  assert (Base : forall u o, o_dur (if has_bar u then reset_oct o else o) = o_dur o /\ o_key (if has_bar u then reset_oct o else o) = o_key o).
  { intros u o. destruct (has_bar u); auto. }
  Ltac base B o := match goal with |- context[mid_upd o ?u] => exact (B u o) end.
  induction u using update_ind'; intros o; try (base Base o).
  - destruct p as [pi d sl| | |]; try (base Base o). destruct pi as [|n]; [base Base o|]. cbn [mid_upd]. destruct (laa n) as [[l a] oc].
    cbv zeta. cbn [fst]. destruct (has_bar _); split; reflexivity.
  - rewrite mid_chord. cbn [fst]. destruct (L es H (reset_oct o)) as [X Y]. split; [exact X|exact Y].
  - destruct u; try (base Base o). specialize (IHu o). rewrite mid_seq in IHu. rewrite mid_rep. exact IHu.
  - destruct u; try (base Base o). specialize (IHu o). rewrite mid_seq in IHu. rewrite mid_on. exact IHu.
  - rewrite mid_seq. cbn [fst]. destruct (L es H (reset_oct o)) as [X Y]. split; [exact X|exact Y].
Qed.
Lemma mid_list_same : forall l o, o_dur (fst (mid_list o l)) = o_dur o /\ o_key (fst (mid_list o l)) = o_key o.
Proof.
  induction l as [|x l IH]; intros o; [auto|]. cbn [mid_list]. pose proof (mid_dur_same x o) as X. destruct (mid_upd o x) as [o1 x'].
  specialize (IH o1). destruct (mid_list o1 l) as [o2 t']. cbn [fst] in *. destruct IH as [-> ->]. exact X.
Qed.
Lemma dur_key_same : forall u o, o_key (fst (dur_upd_opt feq o u)) = o_key o.
Proof.
  assert (L : forall l, Forall (fun u => forall o, o_key (fst (dur_upd_opt feq o u)) = o_key o) l -> forall o, o_key (fst (dur_list feq o l)) = o_key o).
  { induction 1 as [|x l Hx Hl IH]; intros o; [auto|]. rewrite dur_list_eq. cbn [fst]. rewrite IH. apply Hx. }
  assert (Base : forall o u, o_key (fst (dur_modify feq o u)) = o_key o).
  { intros o u. unfold dur_modify. destruct (has_bar u); [reflexivity|]. destruct (dcomps (nr_dur u)); [reflexivity|]. reflexivity. }
  induction u using update_ind'; intros o; try (apply Base).
  - rewrite dur_chord. cbn [fst]. exact (L es H (reset_dur o)).
  - destruct u; try (apply Base). specialize (IHu o). rewrite dur_seq in IHu. rewrite dur_rep. exact IHu.
  - destruct u; try (apply Base). specialize (IHu o). rewrite dur_seq in IHu. rewrite dur_on. exact IHu.
  - rewrite dur_seq. cbn [fst]. exact (L es H (reset_dur o)).
Qed.
Lemma dur_list_key : forall l o, o_key (fst (dur_list feq o l)) = o_key o.
Proof. induction l as [|x l IH]; intros o; [reflexivity|]. rewrite dur_list_eq. cbn [fst]. rewrite IH. apply dur_key_same. Qed.

(** The accidentals pass keeps the shape of chords. *)
Lemma acc_C1 : forall D b k l, evts (F1 D b) (C1 D b) l -> forall o, o_key o = k -> evts (F1 D b) (C1 D b) (snd (acc_list o l)) /\ o_key (fst (acc_list o l)) = k.
Proof.
  intros D b k.
  assert (L : forall l, Forall (fun u => evt (F1 D b) (C1 D b) u -> forall o, o_key o = k -> evt (F1 D b) (C1 D b) (snd (acc_upd o u)) /\ o_key (fst (acc_upd o u)) = k) l ->
    evts (F1 D b) (C1 D b) l -> forall o, o_key o = k -> evts (F1 D b) (C1 D b) (snd (acc_list o l)) /\ o_key (fst (acc_list o l)) = k).
  { induction 1 as [|x l Hx Hl IH]; intros E o O; [auto|]. destruct E as [E1 E2]. rewrite acc_list_eq. cbn [fst snd]. destruct (Hx E1 o O) as [A B].
    destruct (IH E2 _ B) as [A2 B2]. split; [split; assumption|exact B2]. }
  assert (U : forall u, evt (F1 D b) (C1 D b) u -> forall o, o_key o = k -> evt (F1 D b) (C1 D b) (snd (acc_upd o u)) /\ o_key (fst (acc_upd o u)) = k).
  { assert (Base : forall u, flat u = true -> F1 D b u -> forall o, o_key o = k -> evt (F1 D b) (C1 D b) (snd (acc_upd o u)) /\ o_key (fst (acc_upd o u)) = k).
    { intros u X1 X2 o O. destruct (acc_good D b k o u X1 X2 O) as [A [B [C _]]]. split; [|exact A]. destruct (snd (acc_upd o u)) as [[]| | | | | | | | | | | | | | |]; try discriminate B; split; assumption. }
    induction u using update_ind'; intros X o O; try (cbn [evt] in X; destruct X as [X1 X2]; apply Base; assumption).
    - rewrite acc_chord. cbn [fst snd evt]. cbn [evt] in X. destruct X as [Hd X].
      assert (G : forall l, Forall (fun u => flat u = true /\ F1 D b u) l -> forall o, o_key o = k ->
        Forall (fun u => flat u = true /\ F1 D b u) (snd (acc_list o l)) /\ o_key (fst (acc_list o l)) = k).
      { clear. induction 1 as [|x l [Hx Hy] Hl IH]; intros o O; [split; [constructor|exact O]|]. rewrite acc_list_eq. cbn [fst snd].
        destruct (acc_good D b k o x Hx Hy O) as [A [B [C _]]]. destruct (IH _ A) as [P Q]. split; [|exact Q]. apply Forall_cons; [split; assumption|exact P]. }
      destruct (G es X o O) as [P Q]. split; [|exact Q]. split; [|exact P]. destruct es as [|e es]; [contradiction|]. rewrite acc_list_eq. cbn [snd].
      inversion X as [|x1 l1 [Y1 Y2]]; subst. destruct (acc_good D b _ o e Y1 Y2 eq_refl) as [_ [_ [_ ->]]]. exact Hd.
    - destruct u; try (destruct X as [X1 X2]; discriminate X1). specialize (IHu X o O). rewrite acc_seq in IHu. rewrite acc_rep. exact IHu.
    - destruct u; try (destruct X as [X1 X2]; discriminate X1). specialize (IHu X o O). rewrite acc_seq in IHu. rewrite acc_on. exact IHu.
    - rewrite acc_seq. cbn [fst snd]. apply evt_all, evts_forall in X. destruct (L es H X o O) as [A B]. split; [apply evt_seq, A|exact B]. }
  intros l. apply L. rewrite Forall_forall. auto.
Qed.

Lemma C1_CC : forall D b es, C1 D b es -> CC (F1 D b) es.
Proof.
  intros D b es [A B]. destruct es as [|e l]; [contradiction|]. exists [], e, l. split; [reflexivity|]. split; [reflexivity|]. split; [exact A|exact B].
Qed.
Lemma CC_impl : forall (F G : update -> Prop) es, (forall u, flat u = true -> F u -> G u) -> CC F es -> CC G es.
Proof.
  intros F G es H [a [e [l [X [Y [Z W]]]]]]. exists a, e, l. split; [exact X|]. split; [exact Y|]. split; [exact Z|].
  eapply Forall_impl; [|exact W]. intros u [U V]. split; [exact U|apply H; assumption].
Qed.

Lemma nobar_idem : forall d : duration, nobar (nobar d) = nobar d.
Proof.
  intros [l|]; [|reflexivity]. cbn [nobar]. f_equal. induction l as [|x l IH]; [reflexivity|]. cbn [filter]. destruct (negb (is_cbar x)) eqn:E; [|exact IH].
  cbn [filter]. rewrite E, IH. reflexivity.
Qed.
(** Comparing states with and without the octaves of percussion parts. *)
Lemma R_weaken : forall s t, @R N false s t -> @R N true s t.
Proof.
  intros s t H. pose proof (@R_heap N false s t H) as Hh.
  apply (@R_intro N true); try (apply (@R_vheap N false), H); try (apply (@R_parts N false), H); try (apply (@R_current N false), H);
    try (apply (@R_aliases N false), H); try (apply (@R_globals N false), H); try (apply (@R_chordmode N false), H); try (apply (@R_markers N false), H);
    try (apply (@R_variables N false), H); try (apply (@R_usage N false), H); try (apply (@R_events N false), H).
  assert (E : forall p : part, @e1 N true p = @e1 N true (@e1 N false p)) by (intros p; destruct p; unfold e1, hid, forget; cbn -[nobar]; rewrite nobar_idem; reflexivity).
  rewrite (map_ext _ _ E (heap s)), (map_ext _ _ E (heap t)), <- !(map_map (@e1 N false) (@e1 N true)), Hh. reflexivity.
Qed.

Lemma simf_trans : forall (FG : Forget) b k f g h, @simf N FG b k f g -> @simf N FG b k g h -> @simf N FG b k f h.
Proof.
  intros FG b k f g h A B s t P Q. destruct (A s t P Q) as [X Y]. split; [|exact Y].
  eapply RR_trans; [exact X|]. apply (B t t); [eapply R_playing; eassumption|apply R_refl].
Qed.
Lemma simf_weaken : forall b k f g, @simf N false b k f g -> forall t, playing b k t -> @RR N true (f t) (g t).
Proof. intros b k f g H t P. destruct (H t t P (R_refl t)) as [[X Y] _]. split; [apply R_weaken, X|exact Y]. Qed.

Theorem optimize_sim : forall b k us o, forallb (voice_event b) us = true ->
  (forall x y, In x (numbers_of us) -> In y (numbers_of us) -> feq x y = true -> x = y) ->
  o_key o = k -> o_oct o = (-1)%Z -> o_dur o = None -> (b = true -> forall l, ks_get k l = None) ->
  @simf N true b k (runs (map finished us)) (runs (text_of (snd (optimize_list feq o us)))).
Proof.
  intros b k us o Hv Hf Ok Oo Od Pk.
  set (D := fun x => In x (numbers_of us)).
  assert (E0 : evts (F1 D b) (C1 D b) us).
  { apply evts_forall. rewrite Forall_forall. rewrite forallb_forall in Hv. intros x Hx. apply voice_evt; [apply Hv, Hx|].
    intros d Hd. rewrite Forall_forall. intros y Hy. unfold D, numbers_of. apply in_flat_map. exists x. split; [exact Hx|]. apply in_flat_map. exists d. auto. }
  destruct (@std_sim N true zero_law min_law D deref dd b k us E0) as [E1 S1].
  destruct (acc_C1 D b k _ E1 o Ok) as [E2 K2].
  assert (E1' : evts (F1 D b) (CC (F1 D b)) (std_list us)) by (revert E1; apply evts_impl; [auto|apply C1_CC]).
  destruct (@acc_sim N true zero_law min_law D deref dd b k _ E1' o Ok) as [_ [_ S2]].
  unfold optimize_list. destruct (acc_list_same (std_list us) o) as [Oo2 Od2].
  destruct (acc_list o (std_list us)) as [o2 u2]. cbn [fst snd] in *. rewrite Oo in Oo2.
  destruct (@mid_sim N true zero_law min_law D deref dd b k (fun _ => eq_refl) Pk u2 E2 o2 Oo2) as [E3 S3].
  destruct (mid_list_same u2 o2) as [Od3 _]. rewrite Od2, Od in Od3. destruct (mid_list o2 u2) as [o3 u3]. cbn [fst snd] in *.
  assert (E3' : evts (@F3 N false D b) (CC (@F3 N false D b)) u3).
  { assert (X : forall u, flat u = true -> G3 D u -> @F3 N false D b u).
    { intros u _ [X Y]. split; [|split; assumption]. unfold letter_ok. destruct (nr_of u) as [[[] ?]|]; trivial. }
    revert E3. apply evts_impl; [exact X|]. intros es. apply CC_impl, X. }
  destruct (@dur_sim N false zero_law min_law feq D Hf deref dd b k u3 E3' o3 Od3) as [E4 S4].
  destruct (dur_list feq o3 u3) as [o4 u4]. cbn [fst snd] in *.
  pose proof (simf_trans true b k _ _ _ (simf_trans true b k _ _ _ S1 S2) S3) as S.
  intros s t P Q. rewrite <- (runs_finished deref dd _ _ (C1_head D b) us E0).
  rewrite <- (runs_written deref dd _ _ (fun es (X : CC _ es) => match X with ex_intro _ _ (ex_intro _ _ (ex_intro _ _ (conj _ (conj _ (conj _ W))))) => Forall_impl _ (fun u H => proj1 H) W end) u4 E4).
  destruct (S s t P Q) as [X Y]. split; [|exact Y]. eapply RR_trans; [exact X|]. apply (simf_weaken b k _ _ S4).
  eapply R_playing; eassumption.
Qed.
End Voice.

(* ------------------------- the exact numbers ------------------------- *)

Lemma xq_zero : forall t l,
  @nadd XQ (fold_left (fun acc c => nadd acc (comp_ms t c)) l n0) n0
  = fold_left (fun acc c => nadd acc (comp_ms t c)) l n0.
Proof.
  intros t l. generalize (fold_left (fun acc c => nadd acc (@comp_ms XQ t c)) l n0). intros x. change (xq_add x (Fin 0%Qc) = x).
  destruct x; try reflexivity. cbn [xq_add]. f_equal. ring.
Qed.
Lemma xq_min_law : forall a b : @num XQ, nmin (nmin a b) b = nmin a b.
Proof.
  intros a b. change (xq_min (xq_min a b) b = xq_min a b).
  assert (X : xq_min b b = b) by (destruct b; try reflexivity; unfold xq_min; destruct (xq_ltb _ _); reflexivity).
  destruct a as [a| | |], b as [b| | |]; try reflexivity; unfold xq_min at 2 3;
    match goal with |- context[xq_ltb ?x ?y] => destruct (xq_ltb x y) eqn:E end; try exact X; unfold xq_min; rewrite E; reflexivity.
Qed.

Lemma same_R : forall (N : Num) (s t : @score N), same_so_far s t <-> @R N true s t.
Proof.
  intros N s t. unfold same_so_far, R, er. assert (E : forall p : part, audible_part p = @e1 N true p).
  { intros p. unfold audible_part, e1, hid, forget, nobar. cbn [andb]. destruct (pdur p) as [l|]; [|reflexivity].
    replace (filter (fun c => match c with CBar => false | _ => true end) l) with (filter (fun c => negb (is_cbar c)) l); [reflexivity|].
    apply filter_ext. intros []; reflexivity. }
  rewrite (map_ext _ _ E (heap s)), (map_ext _ _ E (heap t)). reflexivity.
Qed.

Theorem c48_voice : forall (feq : num -> num -> bool) b o us (s t : @score XQ), forallb (voice_event b) us = true ->
  (forall x y, In x (numbers_of us) -> In y (numbers_of us) -> feq x y = true -> x = y) ->
  o_oct o = (-1)%Z -> o_dur o = None -> (b = true -> forall l, ks_get (o_key o) l = None) ->
  playing b (o_key o) s -> same_so_far s t ->
  let r := exec (map finished us) s in
  let r' := exec (text_of (snd (optimize_list feq o us))) t in
  same_so_far (fst r) (fst r') /\ snd r = snd r' /\ (snd r = Ok -> playing b (o_key o) (fst r)).
Proof.
  intros feq b o us s t Hv Hn Oo Od Pk P Q. cbv zeta. apply same_R in Q.
  destruct (optimize_sim xq_zero xq_min_law feq (run_deref 1) (dur_deref 1) b (o_key o) us o Hv Hn eq_refl Oo Od Pk s t P Q) as [[X Y] Z].
  split; [apply same_R, X|]. split; [exact Y|]. intros E. eapply kept_playing; [apply Z, E|exact P].
Qed.

Lemma one_playing : forall b k (s : @score XQ), ga_offs (globals s) = [] -> current s = [0%nat] -> (0 <? List.length (heap s))%nat = true ->
  pkey (getp s 0%nat) = k -> iperc (pstock (getp s 0%nat)) = b -> playing b k s.
Proof.
  intros b k s A B C D E. split; [exact A|]. intros p H. rewrite B in H. destruct H as [<-|[]]. apply Nat.ltb_lt in C. auto.
Qed.

Lemma xq_eqb_eq : forall x y : @num XQ, neqb x y = true -> x = y.
Proof.
  intros x y H. change (xq_eqb x y = true) in H. destruct x as [x| | |], y as [y| | |]; try discriminate H; try reflexivity.
  f_equal. apply Qc_is_canon, Qeq_bool_eq, H.
Qed.
