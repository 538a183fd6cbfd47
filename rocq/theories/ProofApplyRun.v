(** The invariant of a player that is sent a bundle and commands (C59). *)
From Coq Require Import ZArith String List Bool Lia ZifyBool Permutation Sorted.
From Verif Require Import Base Num ModelPitch ModelDuration ModelInstruments ModelTypes ModelLisp ModelScore ModelOsc SpecOsc ProofOsc
  ModelPlayer SpecPlayer ProofPlayer ProofPackets ModelApply SpecApply ProofApply.
Import ListNotations.
Local Open Scope list_scope.
Local Open Scope Z_scope.

Section Run.
Context {N : Num} {J : JNum N}.

Definition meta (m : midi) : bool := match m with SetTempo _ | Continue | Pending _ | Shutdown => true | _ => false end.
Definition tagged (t : Z) (x : option Z * (Z * midi)) : bool := match fst x with Some t' => t' =? t | None => false end.
Definition of_track (t : Z) (log : list (option Z * (Z * midi))) : list (Z * midi) := map snd (filter (tagged t) log).
Lemma of_track_snoc : forall t log x, of_track t (log ++ [x]) = of_track t log ++ (if tagged t x then [snd x] else []).
Proof. intros t log x. unfold of_track. rewrite filter_app, map_app. cbn. destruct (tagged t x); reflexivity. Qed.
Lemma schedule_shape : forall o m en en', schedule_msg o m en = Some en' -> exists k, ms_to_ticks (en_tempos en) (nofZ o) = Some k /\
  en_tempos en' = en_tempos en /\ en_events en' = track_add k m (en_events en).
Proof. intros o m en en' H. unfold schedule_msg in H. destruct (valid_midi m); [|discriminate]. destruct (ms_to_ticks _ _) as [k|]; [|discriminate]. inversion H; subst. exists k. repeat split. Qed.
Lemma tempo_shape : forall o x en en', set_tempo o x en = Some en' -> exists k m, meta m = true /\ en_events en' = track_add k m (en_events en).
Proof.
  intros o x en en' H. unfold set_tempo in H. destruct (ms_to_ticks _ _) as [k|]; [|discriminate]. inversion H; subst. cbn. exists k, (tempo_message x). split; [|reflexivity].
  unfold tempo_message. destruct (_ <? _); reflexivity.
Qed.

Definition sets (x : Z * midi) : bool := match snd x with SetTempo _ => true | _ => false end.
Lemma add_other : forall t m l, sets (t, m) = false -> filter sets (track_add t m l) = filter sets l.
Proof. intros t m l H. induction l as [|[t' m'] l IH]; cbn [track_add]; [cbn [filter]; rewrite H; reflexivity|]. destruct (t <? t'); cbn [filter]; [rewrite H; reflexivity|rewrite IH; reflexivity]. Qed.
Lemma add_sets : forall t m l, in_ticks l -> sets (t, m) = true -> filter sets (track_add t m l) = track_add t m (filter sets l).
Proof.
  intros t m l S H. induction S as [|[t' m'] l S IH F]; cbn [track_add filter]; [rewrite H; reflexivity|]. destruct (t <? t') eqn:E.
  - cbn [filter]. rewrite H. destruct (sets (t', m')); [cbn [track_add]; rewrite E; reflexivity|].
    destruct (filter sets l) as [|[t2 m2] r] eqn:Q; [reflexivity|]. cbn [track_add]. assert (I : In (t2, m2) l) by (eapply proj1, filter_In; rewrite Q; left; reflexivity).
    rewrite Forall_forall in F. specialize (F _ I). cbn in F. replace (t <? t2) with true by lia. reflexivity.
  - cbn [filter]. rewrite IH. destruct (sets (t', m')); [cbn [track_add]; rewrite E; reflexivity|reflexivity].
Qed.
Lemma tempos_same : forall ts en en' x, en_tempos en = en_tempos en' -> filter sets (en_events en) = filter sets (en_events en') -> in_ticks (en_events en) -> in_ticks (en_events en') ->
  set_tempos ts en = Some x -> exists y, set_tempos ts en' = Some y /\ en_tempos y = en_tempos x /\ filter sets (en_events y) = filter sets (en_events x).
Proof.
  induction ts as [|[o b] ts IH]; intros en en' x E S S1 S2 H.
  - cbn in *. inversion H; subst. exists en'. split; [reflexivity|]. split; [congruence|symmetry; exact S].
  - cbn [set_tempos] in *. unfold set_tempo in *. rewrite <- E. destruct (ms_to_ticks (en_tempos en) (nofZ o)) as [k|]; [|discriminate]. eapply IH; [| | | |exact H]; cbn [en_tempos en_events].
    + reflexivity.
    + destruct (sets (k, tempo_message b)) eqn:Q; [rewrite !add_sets, S by assumption|rewrite !add_other by assumption]; [reflexivity|exact S].
    + apply track_add_sorted, S1.
    + apply track_add_sorted, S2.
Qed.

(** The instructions a player has yet to carry out. *)
Definition ahead (p : player) : list instr := p_todo p ++ flat_map (fun l => program (parse_updates l)) (p_inbox p).
Definition itempo (x : Z * num) : instr := ITempo (fst x) (snd x).
Definition iput (x : Z * list event) : instr := IPut (fst x) (snd x).
Definition later (i : instr) : bool := match i with IClear | IClearTrack _ | ITempo _ _ | IPut _ _ => false | _ => true end.

Variable T : list tempo_entry.
Variable TS : list (Z * midi).
Variable puts : list (Z * list event).
Definition conv (x : Z * midi) : Z * midi := (tick T (fst x), snd x).
Definition msgs (es : list event) : list (Z * midi) := flat_map messages_of (map (add_offset (lateness T)) es).
Hypothesis puts_once : NoDup (map fst puts).
Hypothesis can : forall t es x, In (t, es) puts -> In x (msgs es) -> valid_midi (snd x) = true /\ exists k, ms_to_ticks T (nofZ (fst x)) = Some k.
Hypothesis at_rest : exists x, ticks_to_ms T 0 = Some x.

(** Where a batch is, and which of its messages have yet to be added. *)
Inductive status (es : list event) : lane -> list (Z * midi) -> Prop :=
| St_queue : status es (Lane [es] [] [] None 1 0) (msgs es)
| St_thread : status es (Lane [] [es] [] None 1 0) (msgs es)
| St_line : status es (Lane [] [] [es] None 1 0) (msgs es)
| St_busy ms next : status es (Lane [] [] [] (Some (ms, next)) 1 0) ms
| St_done st : status es (Lane [] [] [] None 0 st) [].

Definition lane_ok (p : player) (log : list (option Z * (Z * midi))) (puts1 : list (Z * list event)) (t : Z) : Prop :=
  match aget Z.eqb t puts1 with
  | Some es => exists l dn ms, aget Z.eqb t (p_lanes p) = Some l /\ status es l ms /\ msgs es = dn ++ ms /\ of_track t log = map conv dn
  | None => aget Z.eqb t (p_lanes p) = None /\ of_track t log = []
  end.
Definition all_done (p : player) (puts1 : list (Z * list event)) : Prop :=
  forall t es, aget Z.eqb t puts1 = Some es -> exists st, aget Z.eqb t (p_lanes p) = Some (Lane [] [] [] None 0 st).
(** A sequence with all the messages. *)
Definition complete (L : list (Z * midi)) : Prop := filter sets L = TS /\ exists log, L = adds (map snd log) /\
  Forall (fun x => fst x = None -> meta (snd (snd x)) = true) log /\
  forall t, of_track t log = match aget Z.eqb t puts with Some es => map conv (msgs es) | None => [] end.
Definition files_ok (p : player) : Prop := Forall (fun x => exists L, complete L /\ snd x = exported L) (p_files p).

Record inv (p : player) (pre : list instr) (ts : list (Z * num)) (puts1 puts2 : list (Z * list event)) (tail : list instr)
    (log : list (option Z * (Z * midi))) (enT : engine) : Prop := Inv {
  iv_ahead : ahead p = pre ++ map itempo ts ++ map iput puts2 ++ tail;
  iv_pre : Forall (fun i => i = IShutdown) pre;
  iv_tail : Forall (fun i => later i = true) tail;
  iv_puts : puts = puts1 ++ puts2;
  iv_phase : puts1 = [] \/ pre = [] /\ ts = [];
  iv_tempos : set_tempos ts (p_engine p) = Some enT /\ en_tempos enT = T /\ filter sets (en_events enT) = TS;
  iv_events : en_events (p_engine p) = adds (map snd log);
  iv_meta : Forall (fun x => fst x = None -> meta (snd (snd x)) = true) log;
  iv_lanes : forall t, lane_ok p log puts1 t;
  iv_still : ts = [] /\ puts2 = [] /\ all_done p puts1 \/ p_playing p = false /\ p_tick p = 0;
  iv_files : files_ok p }.
Definition invariant (p : player) : Prop := exists pre ts puts1 puts2 tail log enT, inv p pre ts puts1 puts2 tail log enT.

Lemma aget_in : forall A (k : Z) (m : list (Z * A)) v, aget Z.eqb k m = Some v -> In (k, v) m.
Proof. induction m as [|[a b] m IH]; intros v H; [discriminate|]. cbn in H. destruct (a =? k) eqn:E; [left; f_equal; [lia|congruence]|right; apply IH, H]. Qed.
Lemma aget_none : forall A (k : Z) (m : list (Z * A)), ~ In k (map fst m) -> aget Z.eqb k m = None.
Proof. induction m as [|[a b] m IH]; intros H; [reflexivity|]. cbn in *. destruct (a =? k) eqn:E; [exfalso; apply H; left; lia|apply IH; tauto]. Qed.
Lemma aget_app : forall A (k : Z) (m n : list (Z * A)), aget Z.eqb k (m ++ n) = match aget Z.eqb k m with Some v => Some v | None => aget Z.eqb k n end.
Proof. induction m as [|[a b] m IH]; intros n; [reflexivity|]. cbn. destruct (a =? k); [reflexivity|apply IH]. Qed.

Lemma idle_done : forall p log puts1, (forall t, lane_ok p log puts1 t) -> idle p = true -> all_done p puts1.
Proof.
  intros p log puts1 H I t es E. specialize (H t). unfold lane_ok in H. rewrite E in H. destruct H as (l & dn & ms & A & S & _). rewrite A.
  unfold idle in I. rewrite forallb_forall in I. specialize (I _ (aget_in _ _ _ _ A)). cbn in I. destruct S; cbn in I; try discriminate. exists st. reflexivity.
Qed.
Lemma done_complete : forall p log puts1, (forall t, lane_ok p log puts1 t) -> all_done p puts1 -> puts = puts1 ->
  filter sets (adds (map snd log)) = TS -> Forall (fun x => fst x = None -> meta (snd (snd x)) = true) log -> complete (adds (map snd log)).
Proof.
  intros p log puts1 H D E Q M. split; [exact Q|]. exists log. split; [reflexivity|]. split; [exact M|]. intros t. specialize (H t). unfold lane_ok in H. rewrite E.
  destruct (aget Z.eqb t puts1) as [es|] eqn:A; [|apply H]. destruct H as (l & dn & ms & L & S & X & F). destruct (D t es A) as [st K]. rewrite K in L. inversion L; subst l.
  inversion S; subst. rewrite app_nil_r in X. rewrite X. exact F.
Qed.

(** Changes that leave the tracks alone. *)
Lemma lane_ok_log : forall p q log puts1 t x, lane_ok p log puts1 t -> p_lanes q = p_lanes p -> tagged t x = false -> lane_ok q (log ++ [x]) puts1 t.
Proof. intros p q log puts1 t x H E F. unfold lane_ok in *. rewrite E, of_track_snoc, F, app_nil_r. exact H. Qed.
Lemma lane_ok_same : forall p q log puts1 t, lane_ok p log puts1 t -> p_lanes q = p_lanes p -> lane_ok q log puts1 t.
Proof. intros p q log puts1 t H E. unfold lane_ok in *. rewrite E. exact H. Qed.
Lemma all_done_same : forall p q puts1, all_done p puts1 -> p_lanes q = p_lanes p -> all_done q puts1.
Proof. intros p q puts1 H E t es A. rewrite E. exact (H t es A). Qed.

Lemma msgs_plain : forall es x k, In x (msgs es) -> sets (k, snd x) = false.
Proof.
  intros es x k I. unfold msgs in I. apply in_flat_map in I. destruct I as (e & _ & I). destruct e; cbn in I; repeat (destruct I as [<-|I]; [reflexivity|]); destruct I.
Qed.
Lemma inv_instr : forall p i l q, invariant p -> p_todo p = i :: l -> obey i (set_todo l p) = Some q -> invariant q.
Proof.
  intros p i l q (pre & ts & puts1 & puts2 & tail & log & enT & [A B C D E F G M L S X]) Ht O.
  assert (Ah : ahead p = i :: ahead (set_todo l p)) by (unfold ahead; rewrite Ht; reflexivity).
  destruct pre as [|i0 pre]; [|].
  - destruct ts as [|x ts].
    + destruct F as [F1 F2]. cbn in F1. inversion F1; subst enT. clear F1. destruct F2 as [F2 F3]. cbn [app map] in A. destruct puts2 as [|x puts2].
      * cbn [app map] in A. rewrite Ah in A. destruct tail as [|i0 tail]; [discriminate|]. injection A as <- A. pose proof (Forall_inv C) as C1. apply Forall_inv_tail in C. cbn beta in C1. rewrite app_nil_r in D. subst puts1.
        assert (K : p_lanes q = p_lanes p -> en_tempos (p_engine q) = T -> en_events (p_engine q) = en_events (p_engine p) -> ahead q = ahead (set_todo l p) ->
          (all_done q puts \/ p_playing q = false /\ p_tick q = 0) -> files_ok q -> invariant q).
        { intros K1 K2 K3 K4 K5 K6. exists [], [], puts, [], tail, log, (p_engine q). constructor; cbn [app map]; try assumption.
          - rewrite K4. exact A.
          - symmetry. apply app_nil_r.
          - split; [reflexivity|]. split; [exact K2|rewrite K3; exact F3].
          - rewrite K3. exact G.
          - intros t. eapply lane_ok_same; [apply L|exact K1].
          - destruct K5; [left; split; [reflexivity|split; [reflexivity|assumption]]|right; assumption]. }
        assert (S0 : all_done p puts \/ p_playing p = false /\ p_tick p = 0) by (destruct S as [(_ & _ & S)|S]; [left|right]; exact S).
        assert (ID : idle p = true -> all_done p puts) by (intros I; eapply idle_done; [exact L|exact I]).
        destruct i; cbn [later] in *; try discriminate; cbn [obey] in O.
        -- inversion O; subst q. apply K; try reflexivity; try assumption.
        -- inversion O; subst q. apply K; try reflexivity; try assumption. destruct S0 as [S0|[S1 S2]]; [left; exact S0|right; split; [reflexivity|exact S2]].
        -- change (idle (set_todo l p)) with (idle p) in O. destruct (idle p) eqn:I; [|discriminate]. destruct (ms_to_ticks _ _); [|discriminate]. inversion O; subst q.
           apply K; try reflexivity; try assumption. left. exact (ID eq_refl).
        -- change (idle (set_todo l p)) with (idle p) in O. destruct (idle p) eqn:I; [|discriminate]. inversion O; subst q. apply K; try reflexivity; try assumption.
           unfold files_ok in *. cbn. apply Forall_app. split; [exact X|]. constructor; [|constructor]. exists (en_events (p_engine p)). split; [|reflexivity]. rewrite G.
           eapply done_complete; [exact L|exact (ID eq_refl)|reflexivity|rewrite <- G; exact F3|exact M].
        -- destruct (now_at _ _) as [now|]; [|discriminate]. destruct (schedule_msg _ _ _) as [en|] eqn:Sm; [|discriminate]. inversion O; subst q.
           apply schedule_shape in Sm. destruct Sm as (k & _ & T1 & T2). cbn in T1, T2.
           exists [], [], puts, [], tail, (log ++ [(None, (k, Shutdown))]), en. constructor; cbn [app map set_engine p_engine]; try assumption.
           ++ symmetry. apply app_nil_r.
           ++ split; [reflexivity|]. split; [congruence|]. rewrite T2, add_other; [exact F3|reflexivity].
           ++ rewrite map_app, T2. cbn [map snd]. rewrite adds_snoc, G. reflexivity.
           ++ apply Forall_app. split; [exact M|]. constructor; [reflexivity|constructor].
           ++ intros t. eapply lane_ok_log; [apply L|reflexivity|reflexivity].
        -- cbn [p_playing set_todo] in O. destruct (p_playing p) eqn:P.
           ++ inversion O; subst q. apply K; try reflexivity; try assumption. destruct S0 as [S0|[S0 _]]; [left; exact S0|discriminate].
           ++ change (idle (set_todo l p)) with (idle p) in O. destruct (idle p) eqn:I; [|discriminate]. inversion O; subst q. apply K; try reflexivity; try assumption. left. exact (ID eq_refl).
      * cbn [app map] in A. rewrite Ah in A. injection A as Ei A. subst i. destruct x as [t es]. cbn [obey iput fst snd] in O. inversion O; subst q. clear O.
        assert (Nt : aget Z.eqb t puts1 = None).
        { apply aget_none. intros K. rewrite D, map_app in puts_once. cbn in puts_once. apply NoDup_remove_2 in puts_once. apply puts_once. apply in_or_app. left. exact K. }
        pose proof (L t) as Lt. unfold lane_ok in Lt. rewrite Nt in Lt. destruct Lt as [Lt1 Lt2].
        assert (Ln : lane_of t (set_todo l p) = new_lane) by (unfold lane_of; cbn; rewrite Lt1; reflexivity). rewrite Ln. cbn.
        exists [], [], (puts1 ++ [(t, es)]), puts2, tail, log, (p_engine p). constructor; cbn [app map]; try assumption.
        -- rewrite D, <- app_assoc. reflexivity.
        -- right. split; reflexivity.
        -- split; [reflexivity|]. split; assumption.
        -- intros t'. unfold lane_ok, set_lane, set_lanes. cbn [p_lanes set_todo]. rewrite aget_app. cbn [aget]. rewrite aget_aset. specialize (L t'). unfold lane_ok in L.
           destruct (t =? t') eqn:Q.
           ++ apply Z.eqb_eq in Q. subst t'. rewrite Nt. exists (Lane [es] [] [] None 1 0), [], (msgs es). split; [reflexivity|]. split; [constructor|]. split; [reflexivity|exact Lt2].
           ++ destruct (aget Z.eqb t' puts1); exact L.
        -- right. destruct S as [(_ & S & _)|S]; [discriminate|exact S].
    + cbn [app map] in A. rewrite Ah in A. injection A as Ei A. subst i. cbn [obey itempo] in O. destruct F as [F1 F2]. cbn [set_tempos] in F1. destruct x as [o bpm]. cbn [fst snd set_todo p_engine] in *.
      destruct (set_tempo o bpm (p_engine p)) as [en|] eqn:Q; [|discriminate]. inversion O; subst q. apply tempo_shape in Q. destruct Q as (k & m & Qm & Qe).
      exists [], ts, puts1, puts2, tail, (log ++ [(None, (k, m))]), enT. constructor; cbn [set_engine p_engine]; try assumption.
      * destruct E as [E|[_ E]]; [left; exact E|discriminate].
      * split; assumption.
      * rewrite map_app. cbn [map snd]. rewrite adds_snoc, Qe, G. reflexivity.
      * apply Forall_app. split; [exact M|]. constructor; [intros _; exact Qm|constructor].
      * intros t. eapply lane_ok_log; [apply L|reflexivity|reflexivity].
      * right. destruct S as [(S & _)|S]; [discriminate|exact S].
  - cbn [app] in A. rewrite Ah in A. injection A as Ei A. subst i0. inversion B; subst. cbn in O. inversion O; subst q.
    exists pre, ts, puts1, puts2, tail, log, enT. constructor; try assumption.
    destruct E as [E|[E _]]; [left; exact E|discriminate].
Qed.

Lemma inv_lane : forall p a t q, invariant p -> lane_act a t p = Some q -> invariant q.
Proof.
  intros p a t q (pre & ts & puts1 & puts2 & tail & log & enT & [A B C D E F G M L S X]) O. unfold lane_act in O.
  destruct (aget Z.eqb t (p_lanes p)) as [la|] eqn:P; [|discriminate]. pose proof (L t) as Lt. unfold lane_ok in Lt.
  destruct (aget Z.eqb t puts1) as [es|] eqn:K; [|destruct Lt; congruence]. destruct Lt as (l & dn & ms & L1 & L2 & L3 & L4).
  rewrite P in L1. inversion L1; subst l. clear L1.
  destruct E as [E|[E1 E2]]; [subst puts1; discriminate|]. subst pre ts. destruct F as [F1 F2]. cbn in F1. inversion F1; subst enT. clear F1. destruct F2 as [F2 F3].
  assert (IN : In (t, es) puts) by (rewrite D; apply in_or_app; left; apply aget_in, K).
  assert (BUSY : (forall st, la <> Lane [] [] [] None 0 st) -> p_playing p = false /\ p_tick p = 0).
  { intros H. destruct S as [(_ & _ & S)|S]; [|exact S]. destruct (S t es K) as [st Z0]. rewrite P in Z0. inversion Z0. exfalso. eapply H. eassumption. }
  assert (GO : forall la' log' dn' ms' q', status es la' ms' -> msgs es = dn' ++ ms' -> of_track t log' = map conv dn' ->
    (forall t', t' <> t -> of_track t' log' = of_track t' log) -> Forall (fun x => fst x = None -> meta (snd (snd x)) = true) log' ->
    en_events (p_engine q') = adds (map snd log') -> en_tempos (p_engine q') = T -> p_lanes q' = aset Z.eqb t la' (p_lanes p) -> ahead q' = ahead p -> p_files q' = p_files p ->
    p_playing q' = p_playing p -> p_tick q' = p_tick p -> filter sets (en_events (p_engine q')) = TS -> (forall st, la <> Lane [] [] [] None 0 st) -> invariant q').
  { intros la' log' dn' ms' q' H1 H2 H3 H4 H5 H6 H7 H8 H9 H10 H11 H12 H14 H13. exists [], [], puts1, puts2, tail, log', (p_engine q'). constructor; try assumption.
    - rewrite H9. exact A.
    - right. split; reflexivity.
    - split; [reflexivity|]. split; [exact H7|exact H14].
    - intros t'. unfold lane_ok. rewrite H8, aget_aset. specialize (L t'). unfold lane_ok in L. destruct (t =? t') eqn:Q.
      + apply Z.eqb_eq in Q. subst t'. rewrite K. exists la', dn', ms'. repeat split; assumption.
      + rewrite H4 by lia. exact L.
    - right. rewrite H11, H12. exact (BUSY H13).
    - unfold files_ok. rewrite H10. exact X. }
  destruct L2 as [| | |ms next|st].
  - assert (NB : forall st, Lane [es] [] [] None 1 0 <> Lane [] [] [] None 0 st) by (intros st; discriminate).
    destruct a; cbn in O; try discriminate.
    + inversion O; subst q. eapply GO; try exact NB; try reflexivity; try eassumption. constructor.
    + destruct i; discriminate.
  - assert (NB : forall st, Lane [] [es] [] None 1 0 <> Lane [] [] [] None 0 st) by (intros st; discriminate).
    destruct a; cbn in O; try discriminate. destruct i as [|[|i]]; cbn in O; try discriminate. inversion O; subst q. eapply GO; try exact NB; try reflexivity; try eassumption. constructor.
  - assert (NB : forall st, Lane [] [] [es] None 1 0 <> Lane [] [] [] None 0 st) by (intros st; discriminate).
    destruct a; cbn in O; try discriminate; [destruct i; discriminate|]. destruct (BUSY NB) as [Q1 Q2]. rewrite Q1, Q2 in O. unfold now_at in O. rewrite F2 in O. destruct at_rest as [x R]. rewrite R in O.
    assert (AD : adjust (wrap32 (jround x)) false 0 = lateness T).
    { unfold adjust, lateness. rewrite R. cbn [andb]. rewrite (wrap32_small (wrap32 (jround x))) by apply wrap32_range. destruct (0 <? wrap32 (jround x)) eqn:Q; lia. }
    unfold place in O. rewrite AD in O. inversion O; subst q. eapply GO; try exact NB; try reflexivity; try eassumption. fold (msgs es). constructor.
  - assert (NB : forall st, Lane [] [] [] (Some (ms, next)) 1 0 <> Lane [] [] [] None 0 st) by (intros st; discriminate).
    destruct a; cbn in O; try discriminate.
    + destruct i; discriminate.
    + destruct ms as [|[o m] ms]; [discriminate|]. destruct (can t es (o, m) IN) as [V [k Tk]]; [rewrite L3; apply in_or_app; right; left; reflexivity|]. cbn in V, Tk.
      unfold schedule_msg in O. rewrite V, F2, Tk in O. inversion O; subst q.
      eapply (GO _ (log ++ [(Some t, (k, m))]) (dn ++ [(o, m)]) ms); try exact NB; try reflexivity; try eassumption.
      * constructor.
      * rewrite <- app_assoc. exact L3.
      * rewrite of_track_snoc, map_app, L4. unfold tagged. cbn. rewrite Z.eqb_refl. unfold conv. cbn. unfold tick. rewrite Tk. reflexivity.
      * intros t' Q. rewrite of_track_snoc. unfold tagged. cbn. replace (t =? t') with false by lia. apply app_nil_r.
      * apply Forall_app. split; [exact M|]. constructor; [intros Q; discriminate Q|constructor].
      * cbn. rewrite map_app. cbn [map snd]. rewrite adds_snoc, G. reflexivity.
      * cbn. rewrite add_other; [exact F3|]. apply (msgs_plain es (o, m)). rewrite L3. apply in_or_app. right. left. reflexivity.
    + destruct ms as [|[o m] ms]; [|discriminate]. inversion O; subst q. eapply GO; try exact NB; try reflexivity; try eassumption. constructor.
  - destruct a; cbn in O; try discriminate. destruct i; discriminate.
Qed.

Lemma inv_moves : forall p q, invariant p -> moves p q -> invariant q.
Proof.
  intros p q H H0. destruct H0 as [l rest Ht Hi|i l q Ht O|a t q O|t P Q|o en P Q].
  - destruct H as (pre & ts & puts1 & puts2 & tail & log & enT & [A B C D E F G M L S X]). exists pre, ts, puts1, puts2, tail, log, enT. constructor; try assumption.
    rewrite <- A. unfold ahead. rewrite Ht, Hi. reflexivity.
  - eapply inv_instr; eassumption.
  - eapply inv_lane; eassumption.
  - destruct H as (pre & ts & puts1 & puts2 & tail & log & enT & [A B C D E F G M L S X]). exists pre, ts, puts1, puts2, tail, log, enT. constructor; try assumption.
    destruct S as [S|[S _]]; [left; exact S|congruence].
  - destruct H as (pre & ts & puts1 & puts2 & tail & log & enT & [A B C D E F G M L S X]). destruct (schedule_shape _ _ _ _ Q) as (k & _ & Q1 & Q2).
    assert (W : exists e, set_tempos ts en = Some e /\ en_tempos e = T /\ filter sets (en_events e) = TS).
    { destruct F as (F1 & F2 & F3). destruct (tempos_same ts (p_engine p) en enT (eq_sym Q1)) as (e & W1 & W2 & W3).
      - rewrite Q2, add_other; reflexivity.
      - rewrite G. apply adds_sorted.
      - rewrite Q2. apply track_add_sorted. rewrite G. apply adds_sorted.
      - exact F1.
      - exists e. split; [exact W1|]. split; congruence. }
    destruct W as (e & W1 & W2 & W3).
    exists pre, ts, puts1, puts2, tail, (log ++ [(None, (k, Continue))]), e. constructor; cbn [set_engine p_engine]; try assumption.
    + split; [|split]; assumption.
    + rewrite map_app. cbn [map snd]. rewrite adds_snoc, Q2, G. reflexivity.
    + apply Forall_app. split; [exact M|]. constructor; [reflexivity|constructor].
    + intros t. eapply lane_ok_log; [apply L|reflexivity|reflexivity].
Qed.
End Run.
