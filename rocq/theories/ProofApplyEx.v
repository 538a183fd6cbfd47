(** Runs of the player by computation, and counterexamples (C59). *)
From Coq Require Import ZArith String List Bool Lia Permutation Sorted.
From Verif Require Import PropertiesEvents Base Num ModelPitch ModelDuration ModelInstruments ModelTypes ModelLisp ModelScore SpecScore SpecGlobals ModelOsc SpecOsc ProofOsc
  ModelPlayer SpecPlayer ProofPlayer ModelApply SpecApply ProofApplyRun ProofApplyAll ProofApplyLive.
Import ListNotations.
Local Open Scope list_scope.
Local Open Scope Z_scope.

Section Ex.
Context {N : Num} {J : JNum N}.

(* ---------------- the theorems ---------------- *)
Lemma tempos_sets : forall l, tempos_in (filter sets l) = tempos_in l.
Proof. unfold tempos_in. induction l as [|[k m] l IH]; [reflexivity|]. cbn [filter flat_map]. rewrite <- IH. destruct m; reflexivity. Qed.
Lemma played_notes : linear_order -> forall t s s' b start stop notes en commands p,
  performed t s s' b start stop notes en -> Forall (Forall command) commands -> runs (sent b commands) p -> p_playing p = true ->
  Permutation (starts_in (en_events (p_engine p))) (map (should_start (en_tempos en) start) notes) /\
  Permutation (ends_in (en_events (p_engine p))) (map (should_end (en_tempos en) start) notes) /\
  tempos_in (en_events (p_engine p)) = tempos_in (en_events en).
Proof.
  intros LO t s s' b start stop notes en commands p [P1 P2 P3 P4 P5 P6 P7] CO R PL.
  pose proof (playing_complete t s s' b start stop notes (en_tempos en) LO P1 P2 P3 P4 P7 en commands P5 eq_refl CO P6 p R PL) as C.
  destruct (complete_starts t s s' b start stop notes (en_tempos en) LO P1 P2 P3 P4 P7 _ _ C) as [A B]. split; [exact A|]. split; [exact B|].
  rewrite (complete_tempos _ _ _ _ C). apply tempos_sets.
Qed.
Lemma played_heard : linear_order -> levels_agree -> forall t s s' b start stop notes en commands p,
  performed t s s' b start stop notes en -> Forall (Forall command) commands -> in_step (en_tempos en) start notes -> apart (en_tempos en) start notes ->
  runs (sent b commands) p -> p_playing p = true ->
  Permutation (heard_in [] (en_events (p_engine p))) (map (should_be_heard (en_tempos en) s start) notes).
Proof.
  intros LO LA t s s' b start stop notes en commands p [P1 P2 P3 P4 P5 P6 P7] CO IS AP R PL.
  pose proof (playing_complete t s s' b start stop notes (en_tempos en) LO P1 P2 P3 P4 P7 en commands P5 eq_refl CO P6 p R PL) as C.
  exact (complete_heard t s s' b start stop notes (en_tempos en) LO P1 P2 P3 P4 P7 _ _ LA IS AP C).
Qed.
Lemma filed : linear_order -> levels_agree -> forall t s s' b start stop notes en commands p f data d,
  performed t s s' b start stop notes en -> Forall (Forall command) commands -> runs (sent b commands) p -> In (f, data) (p_files p) -> first_tick (en_tempos en) start notes d ->
  Permutation (starts_in data) (map (fun e => start_from d (should_start (en_tempos en) start e)) notes) /\
  Permutation (ends_in data) (map (fun e => end_from d (should_end (en_tempos en) start e)) notes) /\
  tempos_in data = map (tempo_from d) (tempos_in (en_events en)) /\
  (in_step (en_tempos en) start notes -> apart (en_tempos en) start notes ->
   Permutation (heard_in [] data) (map (fun e => heard_from d (should_be_heard (en_tempos en) s start e)) notes)).
Proof.
  intros LO LA t s s' b start stop notes en commands p f data d [P1 P2 P3 P4 P5 P6 P7] CO R IN FT.
  destruct (file_complete t s s' b start stop notes (en_tempos en) LO P1 P2 P3 P4 P7 en commands P5 eq_refl CO P6 p f data R IN) as (L & C & ->).
  destruct (file_notes t s s' b start stop notes (en_tempos en) LO P1 P2 P3 P4 P7 en eq_refl P6 _ L d C FT) as (A & B & D). rewrite tempos_sets in D.
  split; [exact A|]. split; [exact B|]. split; [exact D|]. intros IS AP. exact (file_heard t s s' b start stop notes (en_tempos en) LO P1 P2 P3 P4 P7 en eq_refl P6 _ L d LA IS AP C FT).
Qed.
Lemma done : linear_order -> forall t s s' b start stop notes en commands,
  performed t s s' b start stop notes en -> Forall (can_end (en_tempos en)) b -> Forall (Forall simple) commands ->
  exists left : player -> nat, forall p, runs (sent b commands) p ->
    (forall q, works p q -> (left q < left p)%nat) /\ (forall q, moves p q -> (left q <= left p)%nat) /\
    (finished p \/ exists q, works p q) /\
    (finished p -> map fst (p_files p) = files_asked (concat commands) /\ p_playing p = fold_left playing_after (b :: commands) false).
Proof.
  intros LO t s s' b start stop notes en commands [P1 P2 P3 P4 P5 P6 P7] OF CO. exact (live LO t s s' b start stop notes en commands P1 P2 P3 P4 P5 P6 P7 OF CO).
Qed.

(* ---------------- sorted transmissions ---------------- *)
Fixpoint insert_event (e : note_event) (l : list note_event) : list note_event :=
  match l with [] => [e] | x :: t => if nltb (ev_off x) (ev_off e) then x :: insert_event e t else e :: l end.
Definition sort_events (l : list note_event) : list note_event := fold_right insert_event [] l.
Lemma insert_event_perm : forall e l, Permutation (e :: l) (insert_event e l).
Proof. induction l as [|x l IH]; cbn; [reflexivity|]. destruct (nltb _ _); [|reflexivity]. etransitivity; [apply perm_swap|]. constructor. exact IH. Qed.
Lemma sort_events_perm : forall l, Permutation l (sort_events l).
Proof. induction l as [|x l IH]; cbn; [constructor|]. etransitivity; [|apply insert_event_perm]. constructor. exact IH. Qed.
Lemma transmit_sorted : forall t s lo hi start stop, event_range t s = ROk (lo, hi) -> time_range t s = ROk (start, stop) ->
  in_order (sort_events (slice lo hi (events s))) = true ->
  exists s', transmits t s s' (ROk (bundle_of t s start stop (sort_events (slice lo hi (events s))))).
Proof.
  intros t s lo hi start stop H1 H2 H3. eexists. eapply Tr_bundle; [exact H1|exact H2|]. split; [apply sort_events_perm|]. intros _. apply in_order_sorted, H3.
Qed.

(* ---------------- runs ---------------- *)
Inductive choice := CMain | CLane (a : lane_action) (t : Z).
Definition choose (c : choice) (p : player) : option player :=
  match c with
  | CMain => match p_todo p with
             | [] => match p_inbox p with
                     | l :: rest => Some (Player rest (program (parse_updates l)) (p_engine p) (p_lanes p) (p_playing p) (p_tick p) (p_running p) (p_files p))
                     | [] => None
                     end
             | i :: l => obey i (set_todo l p)
             end
  | CLane a t => lane_act a t p
  end.
Lemma choose_moves : forall c p q, choose c p = Some q -> moves p q.
Proof.
  intros [|a t] p q H; cbn in H; [|eapply M_lane; exact H]. destruct (p_todo p) as [|i l] eqn:E; [|eapply M_instr; eassumption].
  destruct (p_inbox p) as [|l rest] eqn:F; [discriminate|]. inversion H; subst. apply M_packet; assumption.
Qed.
Fixpoint follow (l : list choice) (p : player) : option player :=
  match l with [] => Some p | c :: t => match choose c p with Some q => follow t q | None => None end end.
Lemma runs_left : forall p q r, moves p q -> runs q r -> runs p r.
Proof. intros p q r M R. induction R as [|x y R IH Mx]; [eapply Runs_more; [apply Runs_none|exact M]|]. eapply Runs_more; eassumption. Qed.
Lemma follow_runs : forall l p q, follow l p = Some q -> runs p q.
Proof.
  induction l as [|c l IH]; intros p q H; cbn in H; [inversion H; subst; apply Runs_none|]. destruct (choose c p) as [r|] eqn:E; [|discriminate].
  eapply runs_left; [eapply choose_moves; exact E|apply IH, H].
Qed.
(** The packets' thread whenever it can go on, else the first track that can. *)
Definition first_choice (p : player) : option player :=
  match choose CMain p with
  | Some q => Some q
  | None => fold_right (fun t acc => fold_right (fun a acc => match lane_act a t p with Some q => Some q | None => acc end) acc [LFinish; LAdd; LBegin; LLineUp 0; LTake])
              None (map fst (p_lanes p))
  end.
Fixpoint auto (n : nat) (p : player) : player :=
  match n with O => p | S n => match first_choice p with Some q => auto n q | None => p end end.
Lemma first_moves : forall p q, first_choice p = Some q -> moves p q.
Proof.
  intros p q H. unfold first_choice in H. destruct (choose CMain p) as [r|] eqn:E; [inversion H; subst; eapply choose_moves; exact E|].
  revert H. generalize (map fst (p_lanes p)) as l. induction l as [|t l IH]; intros H; [discriminate|]. cbn [fold_right] in H.
  repeat match type of H with match lane_act ?a t p with _ => _ end = _ => destruct (lane_act a t p) eqn:?; [inversion H; subst; eapply M_lane; eassumption|] end. apply IH, H.
Qed.
Lemma auto_runs : forall n p, runs p (auto n p).
Proof. induction n as [|n IH]; intros p; cbn; [apply Runs_none|]. destruct (first_choice p) as [q|] eqn:E; [|apply Runs_none]. eapply runs_left; [apply first_moves, E|apply IH]. Qed.

(* ---------------- checks ---------------- *)
Definition byteb (z : Z) : bool := (0 <=? z) && (z <? 128).
Definition playableb l s start e : bool :=
  (0 <=? ev_chan e) && (ev_chan e <? 16) && byteb (ev_note e) && byteb (level (ev_vol e)) && byteb (level (ev_tvol e)) && byteb (level (ev_pan e)) && byteb (patch_of s e) &&
  (0 <=? onset start e) && (0 <=? sounding e) && (lateness l + onset start e + sounding e <? 2 ^ 31) &&
  match ms_to_ticks l (nofZ (lateness l + onset start e)), ms_to_ticks l (nofZ (lateness l + onset start e + sounding e)) with
  | Some a, Some b => (a <=? b) && (b <? 2 ^ 63)
  | _, _ => false
  end.
Lemma playableb_ok : forall l s start notes, forallb (playableb l s start) notes = true -> Forall (playable l s start) notes.
Proof.
  intros l s start notes H. rewrite forallb_forall in H. apply Forall_forall. intros e I. specialize (H e I). unfold playableb in H. repeat rewrite andb_true_iff in H.
  destruct H as ((((((((((A1 & A2) & B1) & B2) & B3) & B4) & B5) & C1) & C2) & C3) & D).
  assert (BY : forall z, byteb z = true -> byte z) by (unfold byteb, byte; intros; lia). constructor.
  - lia.
  - split; [apply BY, B1|]. split; [apply BY, B2|]. split; [apply BY, B3|]. split; [apply BY, B4|apply BY, B5].
  - lia.
  - destruct (ms_to_ticks l (nofZ (lateness l + onset start e))) as [a|]; [|discriminate]. destruct (ms_to_ticks l (nofZ (lateness l + onset start e + sounding e))) as [b|]; [|discriminate].
    exists a, b. apply andb_true_iff in D. split; [reflexivity|]. split; [reflexivity|lia].
Qed.
Definition in_stepb l start notes : bool :=
  forallb (fun e => forallb (fun f => nltb (ev_off f) (ev_off e) || (on_tick l start e <=? on_tick l start f)) notes) notes.
Lemma in_stepb_ok : forall l start notes, in_stepb l start notes = true -> in_step l start notes.
Proof.
  intros l start notes H e f Ie If L. unfold in_stepb in H. rewrite forallb_forall in H. specialize (H e Ie). rewrite forallb_forall in H. specialize (H f If). rewrite L in H. cbn in H. lia.
Qed.
Definition apartb l start notes : bool :=
  forallb (fun e => forallb (fun f => negb (ev_chan e =? ev_chan f) || Nat.eqb (ev_part e) (ev_part f) || negb (on_tick l start e =? on_tick l start f)) notes) notes.
Lemma apartb_ok : forall l start notes, apartb l start notes = true -> apart l start notes.
Proof.
  intros l start notes H e f Ie If C P. unfold apartb in H. rewrite forallb_forall in H. specialize (H e Ie). rewrite forallb_forall in H. specialize (H f If).
  apply orb_true_iff in H. destruct H as [H|H]; [|lia]. apply orb_true_iff in H. destruct H as [H|H]; [lia|]. apply Nat.eqb_eq in H. contradiction.
Qed.
Definition first_tickb l start notes d : bool :=
  existsb (fun e => on_tick l start e =? d) notes && forallb (fun e => d <=? on_tick l start e) notes.
Lemma first_tickb_ok : forall l start notes d, first_tickb l start notes d = true -> first_tick l start notes d.
Proof.
  intros l start notes d H. apply andb_true_iff in H. destruct H as [A B]. apply existsb_exists in A. destruct A as (e & I & E). split; [exists e; split; [exact I|lia]|].
  intros f If. rewrite forallb_forall in B. specialize (B f If). lia.
Qed.
Definition is_some {A} (o : option A) : bool := match o with Some _ => true | None => false end.
Definition engine_of (b : list msg) : engine := match set_tempos (tempo_changes b) new_engine with Some en => en | None => new_engine end.
Definition endb (l : list tempo_entry) (m : msg) : bool :=
  match m with
  | MShutdown o => match ticks_to_ms l 0 with Some x => is_some (ms_to_ticks l (nofZ (wrap32 (wrap32 (jround x) + o)))) | None => false end
  | _ => true
  end.
Lemma endb_ok : forall l b, forallb (endb l) b = true -> Forall (can_end l) b.
Proof.
  intros l b H. rewrite forallb_forall in H. apply Forall_forall. intros m I. specialize (H m I). destruct m; try exact Logic.I. cbn in *.
  destruct (ticks_to_ms l 0) as [x|]; [|discriminate]. destruct (ms_to_ticks _ _) as [k|] eqn:E; [|discriminate]. exists x, k. auto.
Qed.
Lemma performed_now : forall t s lo hi start stop, event_range t s = ROk (lo, hi) -> time_range t s = ROk (start, stop) ->
  let b := bundle_of t s start stop (sort_events (slice lo hi (events s))) in
  let notes := filter (in_range start stop) (slice lo hi (events s)) in
  in_order (sort_events (slice lo hi (events s))) = true ->
  nisnan start = false -> nisnan stop = false -> forallb (fun e => negb (nisnan (ev_off e))) (events s) = true ->
  is_some (match t_sync t with [] => Some tt | _ => None end) = true -> (Z.of_nat (List.length (parts s)) <? 2 ^ 31 - 1) = true ->
  is_some (set_tempos (tempo_changes b) new_engine) = true -> is_some (ticks_to_ms (en_tempos (engine_of b)) 0) = true ->
  forallb (playableb (en_tempos (engine_of b)) s start) notes = true ->
  exists s', performed t s s' b start stop notes (engine_of b).
Proof.
  intros t s lo hi start stop R1 R2 b notes O N1 N2 N3 S P T0 T1 PL. destruct (transmit_sorted t s lo hi start stop R1 R2 O) as (s' & TR). exists s'. constructor.
  - exact TR.
  - apply asked_now; assumption.
  - destruct (t_sync t); [reflexivity|discriminate].
  - apply Z.ltb_lt, P.
  - unfold engine_of. destruct (set_tempos (tempo_changes b) new_engine); [reflexivity|discriminate].
  - destruct (ticks_to_ms _ 0) as [x|]; [exists x; reflexivity|discriminate].
  - apply playableb_ok, PL.
Qed.
End Ex.

(* ---------------- two parts on one channel ---------------- *)
Local Open Scope string_scope.
Local Open Scope list_scope.
Local Open Scope Z_scope.
(** midi-percussion "a": (track-volume 50) c   midi-percussion "b": (track-volume 90) d *)
Definition drums : list (list (@update B64)) :=
  [ [UPart ["midi-percussion"] "a"; UPrim (Attr (PTrackVol (nlit 1 2))); note_ LC];
    [UPart ["midi-percussion"] "b"; UPrim (Attr (PTrackVol (nlit 9 10))); note_ LD] ].
Definition dr_play : transmission (N := B64) := Transmission "" "" 0 2 [] false false.
Definition dr_notes : list (@note_event B64) := slice 0 2 (events (session (N := B64) drums)).
Definition dr_asked : list (@note_event B64) := filter (in_range n0 nmaxval) dr_notes.
Definition dr_bundle : list (@msg B64) := bundle_of dr_play (session drums) n0 nmaxval (sort_events dr_notes).
(** The second part's volume after the first part's and before its note. *)
Definition dr_choices : list choice :=
  [CMain; CMain; CMain; CMain; CLane LTake 1; CLane (LLineUp 0) 1; CLane LBegin 1; CLane LAdd 1; CLane LAdd 1;
   CLane LTake 2; CLane (LLineUp 0) 2; CLane LBegin 2; CLane LAdd 2; CLane LAdd 1].
Definition dr_mid : player (N := B64) := match follow dr_choices (sent dr_bundle []) with Some p => p | None => sent dr_bundle [] end.
Definition dr_end : player (N := B64) := auto 100 dr_mid.
Definition wrong (h : heard_note) : bool := (h_note h =? 60) && match h_vol h with Some v => v =? 114 | None => false end.
Lemma runs_trans : forall (N : Num) (J : JNum N) p q r, runs p q -> runs q r -> runs p r.
Proof. intros N J p q r A B. induction B as [|x y B IH M]; [exact A|]. eapply Runs_more; [exact IH|exact M]. Qed.
Lemma two_parts_refuted : exists (t : transmission (N := B64)) s s' b start stop notes en p,
  performed t s s' b start stop notes en /\ in_step (en_tempos en) start notes /\ runs (sent b []) p /\ p_playing p = true /\
  ~ Permutation (heard_in [] (en_events (p_engine p))) (map (should_be_heard (en_tempos en) s start) notes).
Proof.
  assert (P : exists s', performed dr_play (session drums) s' dr_bundle n0 nmaxval dr_asked (engine_of dr_bundle)) by (apply (performed_now dr_play (session drums) 0 2 n0 nmaxval); vm_compute; reflexivity).
  destruct P as [s' P]. exists dr_play, (session drums), s', dr_bundle, n0, nmaxval, dr_asked, (engine_of dr_bundle), dr_end. split; [exact P|]. split; [apply in_stepb_ok; vm_compute; reflexivity|]. split; [|split].
  - apply runs_trans with dr_mid; [|apply auto_runs]. apply (follow_runs dr_choices). unfold dr_mid.
    assert (E : is_some (follow dr_choices (sent dr_bundle [])) = true) by (vm_compute; reflexivity). destruct (follow dr_choices (sent dr_bundle [])); [reflexivity|discriminate].
  - vm_compute. reflexivity.
  - intros H. assert (A : existsb wrong (heard_in [] (en_events (p_engine dr_end))) = true) by (vm_compute; reflexivity). apply existsb_exists in A. destruct A as (h & I & W).
    apply (Permutation_in _ H) in I.
    assert (B : existsb wrong (map (should_be_heard (en_tempos (engine_of dr_bundle)) (session drums) n0) dr_asked) = false) by (vm_compute; reflexivity).
    assert (C : existsb wrong (map (should_be_heard (en_tempos (engine_of dr_bundle)) (session drums) n0) dr_asked) = true) by (apply existsb_exists; exists h; split; assumption).
    rewrite B in C. discriminate.
Qed.
