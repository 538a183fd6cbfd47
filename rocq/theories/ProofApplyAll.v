(** What is played and exported is the score (C59). *)
From Coq Require Import ZArith String List Bool Lia ZifyBool Permutation Sorted.
From Verif Require Import Base Num ModelPitch ModelDuration ModelInstruments ModelTypes ModelLisp ModelScore SpecScore SpecGlobals ModelOsc SpecOsc ProofOsc
  ModelPlayer SpecPlayer ProofPlayer ProofPackets ModelApply SpecApply ProofApply ProofApplyRun ProofApplyEnd.
Import ListNotations.
Local Open Scope list_scope.
Local Open Scope Z_scope.

Section All.
Context {N : Num} {J : JNum N}.

Lemma sorted_app : forall A (R : A -> A -> Prop) a b, StronglySorted R a -> StronglySorted R b -> (forall x y, In x a -> In y b -> R x y) -> StronglySorted R (a ++ b).
Proof.
  intros A R a b Sa Sb H. induction Sa as [|x a Sa IH F]; [exact Sb|]. cbn. constructor; [apply IH; intros; apply H; [right|]; assumption|].
  apply Forall_app. split; [exact F|]. apply Forall_forall. intros y Hy. apply H; [left; reflexivity|exact Hy].
Qed.

Lemma eq_perm : forall A (a b : list A), a = b -> Permutation a b.
Proof. intros A a b ->. reflexivity. Qed.
Lemma sends_in : forall s start l pre m, In m (sends s start [] pre l) -> exists e, In e l /\
  (m = MPatch (track_no s e) (ev_chan e) (onset start e) (patch_of s e) \/ m = MVolume (track_no s e) (ev_chan e) (onset start e) (level (ev_tvol e)) \/
   m = MPanning (track_no s e) (ev_chan e) (onset start e) (level (ev_pan e)) \/ m = note_message s start [] e).
Proof.
  intros s start. induction l as [|e l IH]; intros pre m H; [destruct H|]. cbn [sends] in H.
  repeat match type of H with In _ (_ ++ _) => apply in_app_or in H; destruct H as [H|H] end.
  - apply in_if in H. exists e. split; [left; reflexivity|auto].
  - apply in_if in H. exists e. split; [left; reflexivity|auto].
  - apply in_if in H. exists e. split; [left; reflexivity|auto].
  - destruct H as [H|[]]. exists e. split; [left; reflexivity|auto].
  - destruct (IH _ _ H) as (f & I & K). exists f. split; [right; exact I|exact K].
Qed.

Variables (t : transmission) (s s' : score) (b : list msg) (start stop : num) (notes : list note_event) (T : list tempo_entry).
Hypothesis LO : linear_order.
Hypothesis TR : transmits t s s' (ROk b).
Hypothesis AS : asked t s start stop notes.
Hypothesis SY : t_sync t = [].
Hypothesis PA : Z.of_nat (List.length (parts s)) < 2 ^ 31 - 1.
Hypothesis PL : Forall (playable T s start) notes.

Lemma shape : exists es tempos ends, Permutation notes es /\ StronglySorted (fun a b => nltb (ev_off b) (ev_off a) = false) es /\
  b = tempos ++ sends s start [] [] es ++ ends /\ Forall (fun m => event_of m = None /\ match m with MOffset _ | MStop => False | _ => True end) (tempos ++ ends).
Proof.
  destruct (bundle LO _ _ _ _ _ _ _ TR AS) as (es & P & S & E). rewrite SY in E. cbn [nonempty] in E. exists es, (tempo_messages s start stop), (ending t start es).
  split; [exact P|]. split; [exact S|]. split; [exact E|]. apply Forall_app. split; apply Forall_forall; intros m I.
  - apply tempo_kind in I. destruct m; try discriminate. split; [reflexivity|exact Logic.I].
  - unfold ending in I. apply in_app_or in I. destruct I as [I|I].
    + destruct (t_load t); [destruct I|]. destruct I as [<-|[]]. split; [reflexivity|exact Logic.I].
    + destruct (t_oneoff t); [|destruct I]. destruct I as [<-|[]]. split; [reflexivity|exact Logic.I].
Qed.
Lemma bundle_plain : Forall (fun m => match m with MOffset _ | MStop => False | _ => True end) b.
Proof.
  destruct shape as (es & tempos & ends & _ & _ & -> & F). apply Forall_app in F. destruct F as [F1 F2]. apply Forall_app. split; [|apply Forall_app; split].
  - eapply Forall_impl; [|exact F1]. intros m H. apply H.
  - apply Forall_forall. intros m I. apply sends_in in I. destruct I as (e & _ & [-> | [-> | [-> | ->]]]); exact Logic.I.
  - eapply Forall_impl; [|exact F2]. intros m H. apply H.
Qed.
Lemma late_pos : 0 <= lateness T.
Proof. unfold lateness. destruct (ticks_to_ms T 0); lia. Qed.

Definition is_from (e : note_event) (x : Z * midi) : Prop :=
  let on := lateness T + onset start e in
  x = (on, Program (ev_chan e) (patch_of s e)) \/ x = (on, Control (ev_chan e) 11 (level (ev_tvol e))) \/ x = (on, Control (ev_chan e) 10 (level (ev_pan e))) \/
  x = (on, NoteOn (ev_chan e) (ev_note e) (level (ev_vol e))) \/ x = (on + sounding e, NoteOff (ev_chan e) (ev_note e) (level (ev_vol e))).
Lemma placed_from : forall e m tr ev x, playable T s start e ->
  m = MPatch (track_no s e) (ev_chan e) (onset start e) (patch_of s e) \/ m = MVolume (track_no s e) (ev_chan e) (onset start e) (level (ev_tvol e)) \/
  m = MPanning (track_no s e) (ev_chan e) (onset start e) (level (ev_pan e)) \/ m = note_message s start [] e ->
  event_of m = Some (tr, ev) -> In x (messages_of (add_offset (lateness T) ev)) -> tr = track_no s e /\ is_from e x.
Proof.
  intros e m tr ev x [_ _ (T1 & T2 & T3) _] K E I. pose proof late_pos as L0. unfold is_from.
  assert (W1 : wrap32 (onset start e + lateness T) = lateness T + onset start e) by (rewrite wrap32_small; lia).
  destruct K as [-> | [-> | [-> | ->]]]; cbn in E; inversion E; subst; split; try reflexivity; cbn in I; try rewrite W1 in I.
  1-3: destruct I as [<-|[]]; auto.
  change (nround32 (relative start [] e)) with (onset start e) in I. change (nround32 (ev_aud e)) with (sounding e) in I. rewrite W1 in I.
  rewrite (wrap32_small (lateness T + onset start e + sounding e)) in I by lia. destruct I as [<-|[<-|[]]]; auto.
Qed.
Lemma note_of : forall m tr ev x, In m b -> event_of m = Some (tr, ev) -> In x (messages_of (add_offset (lateness T) ev)) ->
  exists e, In e notes /\ tr = track_no s e /\ is_from e x.
Proof.
  intros m tr ev x I E K. destruct shape as (es & tempos & ends & P & _ & Eb & F). rewrite Eb in I.
  assert (I' : In m (sends s start [] [] es)).
  { rewrite Forall_forall in F. apply in_app_or in I. destruct I as [I|I].
    - exfalso. specialize (F m (in_or_app _ _ _ (or_introl I))). destruct F. congruence.
    - apply in_app_or in I. destruct I as [I|I]; [exact I|]. exfalso. specialize (F m (in_or_app _ _ _ (or_intror I))). destruct F. congruence. }
  apply sends_in in I'. destruct I' as (e & Ie & Hm). apply (Permutation_in e (Permutation_sym P)) in Ie. exists e. split; [exact Ie|].
  rewrite Forall_forall in PL. eapply placed_from; try eassumption. apply PL, Ie.
Qed.
Lemma from_ok : forall e x, In e notes -> is_from e x -> valid_midi (snd x) = true /\ exists k, ms_to_ticks T (nofZ (fst x)) = Some k.
Proof.
  intros e x I H. rewrite Forall_forall in PL. destruct (PL e I) as [C (V1 & V2 & V3 & V4 & V5) _ (k1 & k2 & K1 & K2 & _)]. unfold byte in *.
  destruct H as [-> | [-> | [-> | [-> | ->]]]]; cbn [fst snd valid_midi]; (split; [lia|eauto]).
Qed.
Lemma labelled_from : forall x, In x (labelled T b) -> exists e y, In e notes /\ fst x = Some (track_no s e) /\ is_from e y /\ snd x = conv T y.
Proof.
  intros x I. unfold labelled in I. apply in_flat_map in I. destruct I as (m & Im & I). destruct (event_of m) as [[tr ev]|] eqn:E; [|destruct I].
  apply in_map_iff in I. destruct I as (y & <- & I). destruct (note_of m tr ev y Im E I) as (e & Ie & -> & H). exists e, y. auto.
Qed.

Let puts := u_tracks (parse_updates (map encode b)).
Lemma numbered_b : Forall numbered b.
Proof. eapply transmits_numbered; eassumption. Qed.
Lemma can_do : forall t' es x, In (t', es) puts -> In x (msgs T es) -> valid_midi (snd x) = true /\ exists k, ms_to_ticks T (nofZ (fst x)) = Some k.
Proof.
  intros t' es x I H. destruct (parse_adds b numbered_b) as (A & _). specialize (A t'). unfold track_events in A.
  assert (G : aget Z.eqb t' puts = Some es).
  { pose proof (parsed_once b numbered_b) as D. fold puts in D. clear - I D. induction puts as [|[k v] l IH]; [destruct I|]. cbn in *. inversion D; subst. destruct I as [I|I].
    - inversion I; subst. rewrite Z.eqb_refl. reflexivity.
    - destruct (k =? t') eqn:E; [|apply IH; assumption]. exfalso. apply H1. replace k with t' by lia. apply (in_map fst) in I. exact I. }
  unfold puts in G. rewrite G in A. subst es. unfold msgs in H. apply in_flat_map in H. destruct H as (ev' & I1 & I2). apply in_map_iff in I1. destruct I1 as (ev & <- & I1).
  unfold events_for in I1. apply in_flat_map in I1. destruct I1 as (m & Im & I1). destruct (event_of m) as [[tr ev0]|] eqn:E; [|destruct I1]. destruct (tr =? t'); [|destruct I1]. destruct I1 as [->|[]].
  destruct (note_of m tr ev x Im E I2) as (e & Ie & _ & F). exact (from_ok e x Ie F).
Qed.

Variables (en : engine) (commands : list (list msg)).
Hypothesis TE : set_tempos (tempo_changes b) new_engine = Some en.
Hypothesis TT : en_tempos en = T.
Hypothesis CO : Forall (Forall command) commands.
Hypothesis RE : exists x, ticks_to_ms T 0 = Some x.

Lemma begins : invariant T (filter sets (en_events en)) puts (sent b commands).
Proof.
  destruct (bundle_program b numbered_b bundle_plain) as (pre & tail & P & L & E).
  exists pre, (tempo_changes b), [], puts, (tail ++ flat_map (fun l => program (parse_updates l)) (map (map encode) commands)), [], en. constructor; try assumption; try reflexivity.
  - unfold ahead, sent, fresh. cbn [p_todo p_inbox app flat_map]. rewrite E. unfold puts. rewrite <- !app_assoc. reflexivity.
  - apply Forall_app. split; [exact L|]. generalize CO. clear. intros Q. induction Q as [|c l H _ IH]; [constructor|]. cbn. apply Forall_app. split; [apply commands_program, H|exact IH].
  - left. reflexivity.
  - split; [exact TE|]. split; [exact TT|reflexivity].
  - constructor.
  - intros t'. unfold lane_ok. cbn. split; reflexivity.
  - right. split; reflexivity.
  - constructor.
Qed.
Lemma stays : forall p, runs (sent b commands) p -> invariant T (filter sets (en_events en)) puts p.
Proof.
  intros p H. induction H as [|q r _ IH M]; [exact begins|]. eapply inv_moves; try eassumption; [apply parsed_once, numbered_b|exact can_do].
Qed.
Lemma playing_complete : forall p, runs (sent b commands) p -> p_playing p = true -> complete T (filter sets (en_events en)) puts (en_events (p_engine p)).
Proof.
  intros p H Pl. destruct (stays p H) as (pre & ts & puts1 & puts2 & tail & log & enT & [A B C D E F G M L S X]). destruct S as [(-> & -> & S)|[S _]]; [|congruence]. destruct F as (F1 & F2 & F3). cbn in F1. inversion F1; subst enT.
  rewrite app_nil_r in D. rewrite G. eapply done_complete; [apply parsed_once, numbered_b|exact can_do|exact L|exact S|exact D|rewrite <- G; exact F3|exact M].
Qed.
Lemma file_complete : forall p f data, runs (sent b commands) p -> In (f, data) (p_files p) -> exists L, complete T (filter sets (en_events en)) puts L /\ data = exported L.
Proof.
  intros p f data H I. destruct (stays p H) as (pre & ts & puts1 & puts2 & tail & log & enT & [A B C D E F G M L S X]). unfold files_ok in X. rewrite Forall_forall in X. exact (X _ I).
Qed.

(* ---------------- the notes ---------------- *)
Lemma starts_b : Permutation (starts_in (map snd (labelled T b))) (map (should_start T start) notes).
Proof.
  pose proof (c29 LO _ _ _ _ _ _ _ TR AS) as P. rewrite SY in P.
  transitivity (flat_map (fun m => match m with MNote _ c o k d a v => [(tick T (wrap32 (o + lateness T)), c, k, v)] | _ => [] end) (filter is_note b)).
  - apply eq_perm. clear. unfold starts_in. rewrite flat_map_map. unfold labelled. induction b as [|m l IH]; [reflexivity|]. cbn [flat_map filter]. rewrite flat_map_app, IH.
    destruct m; cbn; reflexivity.
  - etransitivity; [apply Permutation_flat_map, P|]. apply eq_perm. clear P. rewrite flat_map_map. pose proof late_pos as L0. generalize PL. clear - L0. intros Q. induction Q as [|e l [_ _ (T1 & T2 & T3) _] _ IH]; [reflexivity|].
    cbn [flat_map map]. rewrite IH. unfold note_message at 1. cbn [app]. f_equal. unfold should_start, on_tick. change (nround32 (relative start [] e)) with (onset start e).
    rewrite wrap32_small by lia. rewrite Z.add_comm. reflexivity.
Qed.
Lemma ends_b : Permutation (ends_in (map snd (labelled T b))) (map (should_end T start) notes).
Proof.
  pose proof (c29 LO _ _ _ _ _ _ _ TR AS) as P. rewrite SY in P.
  transitivity (flat_map (fun m => match m with MNote _ c o k d a v => [(tick T (wrap32 (wrap32 (o + lateness T) + a)), c, k)] | _ => [] end) (filter is_note b)).
  - apply eq_perm. clear. unfold ends_in. rewrite flat_map_map. unfold labelled. induction b as [|m l IH]; [reflexivity|]. cbn [flat_map filter]. rewrite flat_map_app, IH.
    destruct m; cbn; reflexivity.
  - etransitivity; [apply Permutation_flat_map, P|]. apply eq_perm. clear P. rewrite flat_map_map. pose proof late_pos as L0. generalize PL. clear - L0. intros Q. induction Q as [|e l [_ _ (T1 & T2 & T3) _] _ IH]; [reflexivity|].
    cbn [flat_map map]. rewrite IH. unfold note_message at 1. cbn [app]. f_equal. unfold should_end, off_tick. change (nround32 (relative start [] e)) with (onset start e).
    change (nround32 (ev_aud e)) with (sounding e). rewrite (wrap32_small (onset start e + lateness T)) by lia. rewrite wrap32_small by lia. rewrite (Z.add_comm (onset start e)). reflexivity.
Qed.
Definition as_heard (x : msg * option Z * option Z * option Z) : list heard_note :=
  let '(m, p, v, q) := x in match m with MNote _ c o k d a w => [Heard (tick T (wrap32 (o + lateness T))) c k w p v q] | _ => [] end.
Lemma last_label : forall (B : Type) (f : Z * midi -> option B) (g : msg -> option B),
  (forall m l, last_value f (l ++ map snd (labelled T [m])) = match g m with Some v => Some v | None => last_value f l end) ->
  forall l, last_value f (map snd (labelled T l)) = latest g l.
Proof.
  intros B f g H. induction l as [|m l IH] using rev_ind; [reflexivity|]. rewrite labelled_app, map_app, H, latest_app, IH. reflexivity.
Qed.
Lemma patch_label : forall c l, last_value (program_on c) (map snd (labelled T l)) = latest (patch_on c) l.
Proof.
  intros c. apply last_label. intros m l. destruct m; cbn; rewrite ?app_nil_r; try reflexivity.
  - rewrite last_value_snoc. cbn. reflexivity.
  - match goal with |- last_value _ (l ++ [?x; ?y]) = _ => change [x; y] with ([x] ++ [y]); rewrite app_assoc, !last_value_snoc; reflexivity end.
  - rewrite last_value_snoc. reflexivity.
  - rewrite last_value_snoc. reflexivity.
Qed.
Lemma volume_label : forall c l, last_value (control_on 11 c) (map snd (labelled T l)) = latest (volume_on c) l.
Proof.
  intros c. apply last_label. intros m l. destruct m; cbn; rewrite ?app_nil_r; try reflexivity.
  - rewrite last_value_snoc. cbn. reflexivity.
  - match goal with |- last_value _ (l ++ [?x; ?y]) = _ => change [x; y] with ([x] ++ [y]); rewrite app_assoc, !last_value_snoc; reflexivity end.
  - rewrite last_value_snoc. unfold control_on at 1. cbn. rewrite andb_true_r. reflexivity.
  - rewrite last_value_snoc. unfold control_on at 1. cbn. rewrite andb_false_r. reflexivity.
Qed.
Lemma panning_label : forall c l, last_value (control_on 10 c) (map snd (labelled T l)) = latest (panning_on c) l.
Proof.
  intros c. apply last_label. intros m l. destruct m; cbn; rewrite ?app_nil_r; try reflexivity.
  - rewrite last_value_snoc. cbn. reflexivity.
  - match goal with |- last_value _ (l ++ [?x; ?y]) = _ => change [x; y] with ([x] ++ [y]); rewrite app_assoc, !last_value_snoc; reflexivity end.
  - rewrite last_value_snoc. unfold control_on at 1. cbn. rewrite andb_false_r. reflexivity.
  - rewrite last_value_snoc. unfold control_on at 1. cbn. rewrite andb_true_r. reflexivity.
Qed.
Lemma heard_in_app : forall l l' pre, heard_in pre (l ++ l') = heard_in pre l ++ heard_in (pre ++ l) l'.
Proof. induction l as [|x l IH]; intros l' pre; cbn [heard_in app]; [rewrite app_nil_r; reflexivity|]. rewrite IH, <- !app_assoc. reflexivity. Qed.
Lemma heard_label : forall l pre, heard_in (map snd (labelled T pre)) (map snd (labelled T l)) = flat_map as_heard (heard pre l).
Proof.
  induction l as [|m l IH]; intros pre; [reflexivity|]. change (m :: l) with ([m] ++ l) at 1. rewrite labelled_app, map_app, heard_in_app.
  cbn [heard]. rewrite flat_map_app, <- IH, labelled_app, map_app. f_equal. destruct m; try reflexivity.
  cbn. rewrite patch_label, volume_label, panning_label. reflexivity.
Qed.
Lemma heard_b : levels_agree -> Permutation (heard_in [] (map snd (labelled T b))) (map (should_be_heard T s start) notes).
Proof.
  intros LA. pose proof (c30 LO LA _ _ _ _ _ _ _ TR AS) as P. rewrite SY in P. transitivity (flat_map as_heard (heard [] b)); [apply eq_perm; exact (heard_label b [])|]. etransitivity; [apply Permutation_flat_map, P|]. apply eq_perm. clear P.
  rewrite flat_map_map. pose proof late_pos as L0. generalize PL. clear - L0. intros Q. induction Q as [|e l [_ _ (T1 & T2 & T3) _] _ IH]; [reflexivity|].
  cbn [flat_map map]. rewrite IH. unfold intended at 1, note_message at 1. cbn [as_heard app]. f_equal. unfold should_be_heard, on_tick. change (nround32 (relative start [] e)) with (onset start e).
  rewrite wrap32_small by lia. rewrite Z.add_comm. reflexivity.
Qed.

(* ---------------- the order ---------------- *)
Lemma from_tick : forall e x, is_from e x -> about (ev_chan e) (conv T x) = true \/ counts (snd x) = true -> fst (conv T x) = on_tick T start e.
Proof. intros e x H K. destruct H as [-> | [-> | [-> | [-> | ->]]]]; try reflexivity. cbn in K. destruct K; discriminate. Qed.
Lemma from_chan : forall e x c, is_from e x -> about c (conv T x) = true -> ev_chan e = c.
Proof. intros e x c H K. destruct H as [-> | [-> | [-> | [-> | ->]]]]; cbn in K; try discriminate; lia. Qed.
Lemma labelled_none : forall l, Forall (fun m => event_of m = None /\ match m with MOffset _ | MStop => False | _ => True end) l -> labelled T l = [].
Proof. induction 1 as [|m l [H _] _ IH]; [reflexivity|]. unfold labelled in *. cbn [flat_map]. rewrite H, IH. reflexivity. Qed.
Lemma group_in : forall l pre x, incl l notes -> In x (labelled T (sends s start [] pre l)) -> exists e y, In e l /\ fst x = Some (track_no s e) /\ is_from e y /\ snd x = conv T y.
Proof.
  intros l pre x IN I. unfold labelled in I. apply in_flat_map in I. destruct I as (m & Im & I). destruct (event_of m) as [[tr ev]|] eqn:E; [|destruct I].
  apply in_map_iff in I. destruct I as (y & <- & I). apply sends_in in Im. destruct Im as (e & Ie & Hm). rewrite Forall_forall in PL.
  destruct (placed_from e m tr ev y (PL e (IN e Ie)) Hm E I) as [-> F]. exists e, y. auto.
Qed.
Lemma sorted_b : in_step T start notes -> forall c, StronglySorted (fun x y => fst x <= fst y) (filter (about c) (map snd (labelled T b))).
Proof.
  intros IS c. destruct shape as (es & tempos & ends & P & S & Eb & F). apply Forall_app in F. destruct F as [F1 F2].
  rewrite Eb, !labelled_app, (labelled_none _ F1), (labelled_none _ F2), app_nil_r. cbn [app].
  assert (IN : incl es notes) by (intros e I; apply (Permutation_in e (Permutation_sym P)); exact I). clear P Eb F1 F2. generalize (@nil note_event) as pre.
  induction S as [|e l S IH F]; intros pre; [constructor|]. rewrite sends_cons, labelled_app, map_app, filter_app.
  assert (IN' : incl l notes) by (intros f I; apply IN; right; exact I).
  assert (AT : forall x l' pre', incl l' notes -> In x (filter (about c) (map snd (labelled T (sends s start [] pre' l')))) -> exists f, In f l' /\ fst x = on_tick T start f).
  { intros x l' pre' IN1 I. apply filter_In in I. destruct I as [I A]. apply in_map_iff in I. destruct I as (z & <- & I). apply group_in in I; [|exact IN1]. destruct I as (f & y & If & _ & Fr & Ez).
    exists f. split; [exact If|]. rewrite Ez in *. apply from_tick; [exact Fr|]. left. rewrite (from_chan f y c Fr A). exact A. }
  assert (IN1 : incl [e] notes) by (intros f [<-|[]]; apply IN; left; reflexivity).
  apply sorted_app; [|apply IH; exact IN'|].
  - assert (G : forall g, (forall x, In x g -> fst x = on_tick T start e) -> StronglySorted (fun x y : Z * midi => fst x <= fst y) g).
    { induction g as [|x g Ig]; intros K; [constructor|]. constructor; [apply Ig; intros; apply K; right; assumption|]. apply Forall_forall. intros y Hy. rewrite (K x (or_introl eq_refl)), (K y (or_intror Hy)). lia. }
    apply G. intros x I. destruct (AT x _ _ IN1 I) as (f & [<-|[]] & E). exact E.
  - intros x y Ix Iy. destruct (AT x _ _ IN1 Ix) as (f & [<-|[]] & E). destruct (AT y _ _ IN' Iy) as (g & Ig & E'). rewrite E, E'. apply IS; [apply IN; left; reflexivity|apply IN'; exact Ig|].
    rewrite Forall_forall in F. exact (F g Ig).
Qed.

Lemma complete_starts : forall TS L, complete T TS puts L -> Permutation (starts_in L) (map (should_start T start) notes) /\ Permutation (ends_in L) (map (should_end T start) notes).
Proof.
  intros TS L C. destruct (complete_labelled T TS b puts L numbered_b eq_refl C) as (log & -> & M & O). split.
  - etransitivity; [|apply starts_b]. apply log_flat; try assumption. intros [k m] H. destruct m; try discriminate; reflexivity.
  - etransitivity; [|apply ends_b]. apply log_flat; try assumption. intros [k m] H. destruct m; try discriminate; reflexivity.
Qed.
Lemma complete_heard : forall TS L, levels_agree -> in_step T start notes -> apart T start notes -> complete T TS puts L ->
  Permutation (heard_in [] L) (map (should_be_heard T s start) notes).
Proof.
  intros TS L LA IS AP C. destruct (complete_labelled T TS b puts L numbered_b eq_refl C) as (log & -> & M & O). etransitivity; [|apply heard_b, LA]. apply heard_perm. intros c.
  apply (sorted_agree _ fst); [apply StronglySorted_filter, adds_sorted|apply sorted_b, IS|]. intros k.
  rewrite filter_swap, adds_at, !filter_filter. rewrite (filter_ext (fun x => about c x && (fst x =? k)) (fun x => (fst x =? k) && about c x)) by (intros; apply andb_comm).
  apply one_track; [exact O| |apply labelled_tags|].
  - eapply Forall_impl; [|exact M]. intros [a [z m]] H E. specialize (H E). cbn in *. unfold about. cbn. destruct m; try discriminate; apply andb_false_r.
  - intros x y Ix Iy Px Py. destruct (labelled_from x Ix) as (e & x' & Ie & -> & Fe & Ex). destruct (labelled_from y Iy) as (f & y' & If & -> & Ff & Ey). rewrite Ex in Px. rewrite Ey in Py.
    apply andb_true_iff in Px, Py. destruct Px as [Px1 Px2], Py as [Py1 Py2].
    pose proof (from_chan e x' c Fe Px2) as C1. pose proof (from_chan f y' c Ff Py2) as C2.
    rewrite (from_tick e x' Fe) in Px1 by (left; rewrite C1; exact Px2). rewrite (from_tick f y' Ff) in Py1 by (left; rewrite C2; exact Py2).
    f_equal. unfold track_no. destruct (Nat.eq_dec (ev_part e) (ev_part f)) as [Q|Q]; [rewrite Q; reflexivity|]. exfalso. apply (AP e f Ie If ltac:(congruence) Q). lia.
Qed.

(* ---------------- files ---------------- *)
Lemma on_before_off : forall e, In e notes -> on_tick T start e <= off_tick T start e < 2 ^ 63.
Proof. intros e I. rewrite Forall_forall in PL. destruct (PL e I) as [_ _ _ (k1 & k2 & K1 & K2 & K3)]. unfold on_tick, off_tick, tick. rewrite K1, K2. exact K3. Qed.
Lemma complete_earliest : forall TS L d, complete T TS puts L -> first_tick T start notes d -> earliest L = d.
Proof.
  intros TS L d C ((e & Ie & Ee) & D). destruct (complete_starts TS L C) as [P _]. pose proof (on_before_off e Ie) as B.
  destruct (complete_labelled T TS b puts L numbered_b eq_refl C) as (log & EL & M & O).
  assert (LOW : forall x, In x L -> counts (snd x) = true -> d <= fst x).
  { intros x I K. rewrite EL in I. apply (Permutation_in x (Permutation_sym (adds_perm _))) in I. apply in_map_iff in I. destruct I as ([a y] & <- & I). cbn [snd] in *. destruct a as [a|].
    - assert (I2 : In y (of_track a log)). { unfold of_track. apply in_map_iff. exists (Some a, y). split; [reflexivity|]. apply filter_In. split; [exact I|]. unfold tagged. cbn. apply Z.eqb_refl. }
      rewrite O in I2. unfold of_track in I2. apply in_map_iff in I2. destruct I2 as (z & <- & I2). apply filter_In in I2. destruct I2 as [I2 _].
      destruct (labelled_from z I2) as (f & w & If & _ & Ff & Ez). rewrite Ez in *. rewrite (from_tick f w Ff) by (right; exact K). apply D, If.
    - rewrite Forall_forall in M. specialize (M _ I eq_refl). cbn in M. destruct (snd y); discriminate. }
  assert (HIT : exists x, In x L /\ counts (snd x) = true /\ fst x = d).
  { assert (I : In (should_start T start e) (starts_in L)) by (apply (Permutation_in _ (Permutation_sym P)), in_map, Ie). unfold starts_in in I. apply in_flat_map in I. destruct I as (x & Ix & I).
    exists x. split; [exact Ix|]. destruct (snd x); try destruct I as []. unfold should_start in *. inversion H; subst. split; [reflexivity|]. congruence. contradiction. }
  destruct HIT as (x & Ix & Kx & Dx). destruct (earliest_fold L (2 ^ 63 - 1)) as (F1 & F2 & F3). fold (earliest L) in *. change (fold_left _ L (2 ^ 63 - 1)) with (earliest L) in F1, F2, F3.
  rewrite Forall_forall in F2. pose proof (F2 x Ix Kx) as U. cbn beta in U. destruct F3 as [F3|(y & Iy & Ky & Dy)].
  - rewrite F3 in *. lia.
  - pose proof (LOW y Iy Ky). lia.
Qed.
Lemma exported_all : forall TS L d, complete T TS puts L -> first_tick T start notes d -> exported L = map (fun x => (Z.max 0 (fst x - d), snd x)) L.
Proof.
  intros TS L d C D. rewrite exported_map; [rewrite (complete_earliest TS L d C D); reflexivity|]. destruct C as (_ & log & -> & _). apply adds_sorted.
Qed.
Lemma file_notes : forall TS L d, complete T TS puts L -> first_tick T start notes d ->
  Permutation (starts_in (exported L)) (map (fun e => start_from d (should_start T start e)) notes) /\
  Permutation (ends_in (exported L)) (map (fun e => end_from d (should_end T start e)) notes) /\
  tempos_in (exported L) = map (tempo_from d) (tempos_in TS).
Proof.
  intros TS L d C D. rewrite (exported_all TS L d C D). destruct (complete_starts TS L C) as [P1 P2]. split; [|split].
  - transitivity (map (fun x : Z * Z * Z * Z => let '(k, c, n, v) := x in (Z.max 0 (k - d), c, n, v)) (starts_in L)).
    { apply eq_perm. unfold starts_in. rewrite flat_map_map. clear. induction L as [|x L IH]; [reflexivity|]. cbn [flat_map]. rewrite map_app, IH. f_equal. cbn. destruct (snd x); reflexivity. }
    etransitivity; [apply Permutation_map, P1|]. rewrite map_map. apply eq_perm. apply map_ext_in. intros e I. unfold should_start, start_from. destruct D as [_ D]. specialize (D e I). rewrite Z.max_r by lia. reflexivity.
  - transitivity (map (fun x : Z * Z * Z => let '(k, c, n) := x in (Z.max 0 (k - d), c, n)) (ends_in L)).
    { apply eq_perm. unfold ends_in. rewrite flat_map_map. clear. induction L as [|x L IH]; [reflexivity|]. cbn [flat_map]. rewrite map_app, IH. f_equal. cbn. destruct (snd x); reflexivity. }
    etransitivity; [apply Permutation_map, P2|]. rewrite map_map. apply eq_perm. apply map_ext_in. intros e I. unfold should_end, end_from. destruct D as [_ D]. specialize (D e I). pose proof (on_before_off e I). rewrite Z.max_r by lia. reflexivity.
  - destruct C as (<- & _). clear. unfold tempos_in. rewrite flat_map_map. induction L as [|x L IH]; [reflexivity|]. cbn [flat_map filter]. rewrite IH. unfold sets at 2. destruct x as [k m]. cbn. destruct m; reflexivity.
Qed.
Lemma file_heard : forall TS L d, levels_agree -> in_step T start notes -> apart T start notes -> complete T TS puts L -> first_tick T start notes d ->
  Permutation (heard_in [] (exported L)) (map (fun e => heard_from d (should_be_heard T s start e)) notes).
Proof.
  intros TS L d LA IS AP C D. rewrite (exported_all TS L d C D). pose proof (complete_heard TS L LA IS AP C) as P.
  pose proof (heard_move (fun z => Z.max 0 (z - d)) L []) as Hm. cbn [map] in Hm. rewrite Hm. etransitivity; [apply Permutation_map, P|]. rewrite map_map. apply eq_perm. apply map_ext_in. intros e I.
  unfold move, heard_from, should_be_heard. cbn. destruct D as [_ D]. specialize (D e I). rewrite Z.max_r by lia. reflexivity.
Qed.
Lemma complete_tempos : forall TS L, complete T TS puts L -> tempos_in L = tempos_in TS.
Proof.
  intros TS L (<- & _). clear. unfold tempos_in. induction L as [|x L IH]; [reflexivity|]. cbn [flat_map filter]. rewrite IH. unfold sets at 2. destruct x as [k m]. cbn. destruct m; reflexivity.
Qed.
End All.
