(** A player finishes what it is sent (C59). *)
From Coq Require Import ZArith String List Bool Lia ZifyBool Permutation Sorted.
From Verif Require Import Base Num ModelPitch ModelDuration ModelInstruments ModelTypes ModelLisp ModelScore SpecScore SpecGlobals ModelOsc SpecOsc ProofOsc
  ModelPlayer SpecPlayer ProofPlayer ProofPackets ModelApply SpecApply ProofApply ProofApplyRun ProofApplyEnd ProofApplyAll.
Import ListNotations.
Local Open Scope list_scope.
Local Open Scope Z_scope.

Section Live.
Context {N : Num} {J : JNum N}.

(* ---------------- a measure ---------------- *)
Definition weight (es : list event) : nat := List.length (flat_map messages_of es) + 5.
Fixpoint total {A} (f : A -> nat) (l : list A) : nat := match l with [] => 0 | x :: t => f x + total f t end.
Lemma total_app : forall A (f : A -> nat) a b, (total f (a ++ b) = total f a + total f b)%nat.
Proof. induction a as [|x a IH]; intros b; cbn; [reflexivity|]. rewrite IH. lia. Qed.
Definition lane_left (l : lane) : nat :=
  (total weight (ln_queue l) + total (fun b => weight b - 1) (ln_threads l) + total (fun b => weight b - 2) (ln_line l) +
   match ln_busy l with Some (ms, _) => S (List.length ms) | None => 0 end)%nat.
Definition instr_left (i : instr) : nat := match i with IPut _ es => S (weight es) | _ => 1 end.
Definition left_over (p : player) : nat :=
  (total (fun l => S (total instr_left (program (parse_updates l)))) (p_inbox p) + total instr_left (p_todo p) + total (fun x => lane_left (snd x)) (p_lanes p))%nat.

Lemma total_set : forall t l la m, aget Z.eqb t m = Some la ->
  (total (fun x => lane_left (snd x)) (aset Z.eqb t l m) + lane_left la = total (fun x => lane_left (snd x)) m + lane_left l)%nat.
Proof.
  induction m as [|[k v] m IH]; intros H; [discriminate|]. cbn in *. destruct (k =? t) eqn:E; cbn.
  - inversion H; subst. lia.
  - specialize (IH H). lia.
Qed.
Lemma total_new : forall t l m, aget Z.eqb t m = None ->
  (total (fun x => lane_left (snd x)) (aset Z.eqb t l m) = total (fun x => lane_left (snd x)) m + lane_left l)%nat.
Proof. induction m as [|[k v] m IH]; intros H; cbn in *; [lia|]. destruct (k =? t) eqn:E; [discriminate|]. cbn. rewrite IH by exact H. lia. Qed.
Lemma placed_length : forall n es, List.length (flat_map messages_of (map (add_offset n) es)) = List.length (flat_map messages_of es).
Proof. intros n. induction es as [|e es IH]; [reflexivity|]. cbn [map flat_map]. rewrite !app_length, IH. f_equal. destruct e; reflexivity. Qed.
Lemma remove_total : forall i th b th' (f : list event -> nat), remove_nth i th = Some (b, th') -> (total f th = total f th' + f b)%nat.
Proof.
  induction i as [|i IH]; intros th b th' f H; destruct th as [|x th]; cbn in H; try discriminate.
  - inversion H; subst. cbn. lia.
  - destruct (remove_nth i th) as [[y r]|] eqn:E; [|discriminate]. inversion H; subst. cbn. rewrite (IH _ _ _ f E). lia.
Qed.
Lemma clear_left : forall l, (lane_left (clear_lane l) <= lane_left l)%nat.
Proof. intros [q th li bu ac st]. unfold lane_left, clear_lane. cbn. lia. Qed.

Lemma lane_down : forall a t p q, lane_act a t p = Some q -> (left_over q < left_over p)%nat.
Proof.
  intros a t p q H. unfold lane_act in H. destruct (aget Z.eqb t (p_lanes p)) as [[qu th li bu ac st]|] eqn:E; [|discriminate].
  assert (K : forall l' en, (lane_left l' < lane_left (Lane qu th li bu ac st))%nat -> (left_over (set_lane t l' (set_engine en p)) < left_over p)%nat).
  { intros l' en L. unfold left_over. cbn. pose proof (total_set t l' _ _ E). lia. }
  assert (K' : forall l', (lane_left l' < lane_left (Lane qu th li bu ac st))%nat -> (left_over (set_lane t l' p) < left_over p)%nat).
  { intros l' L. unfold left_over. cbn. pose proof (total_set t l' _ _ E). lia. }
  destruct a.
  - destruct qu as [|b0 qu]; [discriminate|]. inversion H; subst q. apply K'. unfold lane_left. cbn. rewrite total_app. cbn. unfold weight. lia.
  - destruct (remove_nth i th) as [[b0 th']|] eqn:R; [|destruct qu; destruct li; destruct bu; discriminate].
    assert (X : Some (set_lane t (Lane qu th' (li ++ [b0]) bu ac st) p) = Some q) by (destruct qu; destruct li; destruct bu; exact H).
    inversion X; subst q. apply K'. unfold lane_left. cbn. rewrite total_app, (remove_total _ _ _ _ _ R). cbn. unfold weight. lia.
  - destruct li as [|b0 li]; [destruct qu; discriminate|]. destruct bu; [destruct qu; discriminate|]. assert (X : match now_at (p_engine p) (p_tick p) with
      | Some now => let (es, next) := place now (p_playing p) st b0 in Some (set_lane t (Lane qu th li (Some (flat_map messages_of es, next)) ac st) p)
      | None => Some (set_lane t (Lane qu th li None (one_less ac) st) p) end = Some q) by (destruct qu; exact H).
    destruct (now_at _ _) as [now|].
    + unfold place in X. inversion X; subst q. apply K'. unfold lane_left. cbn. rewrite placed_length. unfold weight. lia.
    + inversion X; subst q. apply K'. unfold lane_left. cbn. unfold weight. lia.
  - destruct bu as [[[|[o m] ms] next]|]; [destruct qu; destruct li; discriminate| |destruct qu; destruct li; discriminate].
    assert (X : match schedule_msg o m (p_engine p) with Some en => Some (set_lane t (Lane qu th li (Some (ms, next)) ac st) (set_engine en p))
      | None => Some (set_lane t (Lane qu th li None (one_less ac) st) p) end = Some q) by (destruct qu; destruct li; exact H).
    destruct (schedule_msg _ _ _); inversion X; subst q; [apply K|apply K']; unfold lane_left; cbn; lia.
  - destruct bu as [[[|[o m] ms] next]|]; [|destruct qu; destruct li; discriminate|destruct qu; destruct li; discriminate].
    assert (X : Some (set_lane t (Lane qu th li None (one_less ac) next) p) = Some q) by (destruct qu; destruct li; exact H). inversion X; subst q. apply K'. unfold lane_left. cbn. lia.
Qed.
Lemma work_down : forall p q, works p q -> (left_over q < left_over p)%nat.
Proof.
  intros p q H. destruct H as [l rest Ht Hi|i l q Ht O|a t q O]; [| |eapply lane_down; exact O].
  - unfold left_over. cbn. rewrite Ht, Hi. cbn. lia.
  - assert (L0 : left_over p = (left_over (set_todo l p) + instr_left i)%nat) by (unfold left_over; cbn; rewrite Ht; cbn; lia). rewrite L0. clear L0 Ht. set (p' := set_todo l p) in *. clearbody p'.
    assert (POS : (0 < instr_left i)%nat) by (destruct i; cbn; lia).
    destruct i; cbn [obey] in O.
    + inversion O; subst q. unfold left_over. cbn. lia.
    + inversion O; subst q. unfold left_over. cbn. lia.
    + inversion O; subst q. unfold left_over. cbn. assert (C : (total (fun x => lane_left (snd x)) (map (fun x => (fst x, clear_lane (snd x))) (p_lanes p')) <= total (fun x => lane_left (snd x)) (p_lanes p'))%nat).
      { clear. induction (p_lanes p') as [|x m IH]; [cbn; lia|]. cbn [map total snd]. pose proof (clear_left (snd x)). lia. } lia.
    + destruct (idle p'); [|discriminate]. destruct (ms_to_ticks _ _); [|discriminate]. inversion O; subst q. unfold left_over. cbn. lia.
    + inversion O; subst q. unfold left_over, lane_of. cbn. destruct (aget Z.eqb t (p_lanes p')) as [la|] eqn:E.
      * pose proof (total_set t (clear_lane la) _ _ E). pose proof (clear_left la). lia.
      * rewrite total_new by exact E. cbn. lia.
    + destruct (set_tempo _ _ _); [|discriminate]. inversion O; subst q. unfold left_over. cbn. lia.
    + inversion O; subst q. unfold left_over, lane_of. cbn. destruct (aget Z.eqb t (p_lanes p')) as [[qu th li bu ac st]|] eqn:E.
      * cbn. pose proof (total_set t (Lane (qu ++ [es]) th li bu (ac + 1) st) _ _ E) as X. unfold lane_left in X at 2 4. cbn in X. rewrite total_app in X. cbn in X. lia.
      * rewrite total_new by exact E. unfold lane_left. cbn. lia.
    + destruct (idle p'); [|discriminate]. inversion O; subst q. unfold left_over. cbn. lia.
    + destruct (now_at _ _); [|discriminate]. destruct (schedule_msg _ _ _); [|discriminate]. inversion O; subst q. unfold left_over. cbn. lia.
    + destruct (p_playing p'); [|destruct (idle p'); [|discriminate]]; inversion O; subst q; unfold left_over; cbn; lia.
Qed.
Lemma moves_work : forall p q, moves p q -> works p q \/ left_over q = left_over p /\ p_todo q = p_todo p /\ p_inbox q = p_inbox p /\ p_lanes q = p_lanes p /\ p_files q = p_files p /\ p_playing p = true /\ p_playing q = true.
Proof.
  intros p q H. destruct H.
  - left. apply W_packet; assumption.
  - left. eapply W_instr; eassumption.
  - left. eapply W_lane; eassumption.
  - right. repeat split; assumption.
  - right. repeat split; assumption.
Qed.

(* ---------------- what is ahead ---------------- *)
Definition easy (i : instr) : bool := match i with IShutdown | IStop | ITempo _ _ | IPut _ _ | IExport _ | IPlay => true | _ => false end.
Definition names (l : list instr) : list string := flat_map (fun i => match i with IExport f => [f] | _ => [] end) l.
Definition turned (i : instr) (was : bool) : bool := match i with IPlay => true | IStop => false | _ => was end.
Lemma work_ahead : forall p q, works p q -> ahead q = ahead p /\ p_files q = p_files p /\ p_playing q = p_playing p /\ p_tick q = p_tick p \/
  exists i, ahead p = i :: ahead q /\ map fst (p_files q) = map fst (p_files p) ++ names [i] /\ p_playing q = turned i (p_playing p) /\ match i with IOffset _ => True | _ => p_tick q = p_tick p end.
Proof.
  intros p q H. destruct H as [l rest Ht Hi|i l q Ht O|a t q O].
  - left. unfold ahead. cbn. rewrite Ht, Hi. repeat split.
  - right. exists i. unfold ahead. rewrite Ht. destruct i; cbn [obey] in O.
    all: try (inversion O; subst q; cbn; rewrite ?app_nil_r; repeat split).
    + destruct (idle _); [|discriminate]. destruct (ms_to_ticks _ _); [|discriminate]. inversion O; subst q. cbn. rewrite ?app_nil_r; repeat split.
    + destruct (set_tempo _ _ _); [|discriminate]. inversion O; subst q. cbn. rewrite ?app_nil_r; repeat split.
    + destruct (idle _); [|discriminate]. inversion O; subst q. cbn. rewrite map_app. repeat split.
    + destruct (now_at _ _); [|discriminate]. destruct (schedule_msg _ _ _); [|discriminate]. inversion O; subst q. cbn. rewrite ?app_nil_r; repeat split.
    + destruct (p_playing (set_todo l p)) eqn:PP; [|destruct (idle _); [|discriminate]]; inversion O; subst q; cbn; rewrite ?app_nil_r; repeat split. exact PP.
  - left. unfold lane_act in O. destruct (aget Z.eqb t (p_lanes p)) as [[qu th li bu ac st]|]; [|discriminate].
    destruct a; destruct qu; destruct li; destruct bu as [[[|[o m] ms] next]|]; try discriminate;
      try (destruct (remove_nth i th) as [[b0 th']|]; [|discriminate]); try (destruct (now_at (p_engine p) (p_tick p)); unfold place in O); try (destruct (schedule_msg o m (p_engine p)));
      inversion O; subst q; repeat split.
Qed.

Definition passable (T : list tempo_entry) (i : instr) : Prop :=
  easy i = true \/ exists o x k, i = IEnd o /\ ticks_to_ms T 0 = Some x /\ ms_to_ticks T (nofZ (wrap32 (wrap32 (jround x) + o))) = Some k.
Fixpoint ends_first (l : list instr) : Prop :=
  match l with [] => True | i :: t => (i = IPlay -> forall o, ~ In (IEnd o) t) /\ ends_first t end.
Record tidy (T : list tempo_entry) (asks : list string) (final : bool) (p : player) : Prop := Tidy {
  td_easy : Forall (passable T) (ahead p);
  td_once : NoDup (map fst (p_lanes p));
  td_names : map fst (p_files p) ++ names (ahead p) = asks;
  td_first : ends_first (ahead p);
  td_end : forall o, In (IEnd o) (ahead p) -> p_playing p = false /\ p_tick p = 0;
  td_final : fold_left (fun was i => turned i was) (ahead p) (p_playing p) = final }.
Lemma names_app : forall a b, names (a ++ b) = names a ++ names b.
Proof. intros. apply flat_map_app. Qed.
Lemma lanes_once : forall p q, works p q -> NoDup (map fst (p_lanes p)) -> NoDup (map fst (p_lanes q)).
Proof.
  intros p q H D. destruct H as [l rest Ht Hi|i l q Ht O|a t q O].
  - exact D.
  - destruct i; cbn [obey] in O.
    + inversion O; subst q. exact D.
    + inversion O; subst q. exact D.
    + inversion O; subst q. cbn. rewrite map_map. exact D.
    + destruct (idle _); [|discriminate]. destruct (ms_to_ticks _ _); [|discriminate]. inversion O; subst q. exact D.
    + inversion O; subst q. apply aset_once, D.
    + destruct (set_tempo _ _ _); [|discriminate]. inversion O; subst q. exact D.
    + inversion O; subst q. apply aset_once, D.
    + destruct (idle _); [|discriminate]. inversion O; subst q. exact D.
    + destruct (now_at _ _); [|discriminate]. destruct (schedule_msg _ _ _); [|discriminate]. inversion O; subst q. exact D.
    + destruct (p_playing _); [|destruct (idle _); [|discriminate]]; inversion O; subst q; exact D.
  - unfold lane_act in O. destruct (aget Z.eqb t (p_lanes p)) as [[qu th li bu ac st]|]; [|discriminate].
    destruct a; destruct qu; destruct li; destruct bu as [[[|[o m] ms] next]|]; try discriminate;
      try (destruct (remove_nth i th) as [[b0 th']|]; [|discriminate]); try (destruct (now_at (p_engine p) (p_tick p)); unfold place in O); try (destruct (schedule_msg o m (p_engine p)));
      inversion O; subst q; cbn [set_lane set_lanes set_engine p_lanes]; apply aset_once, D.
Qed.
Lemma always_playing : forall p, (forall o, In (IEnd o) (ahead p) -> p_playing p = false /\ p_tick p = 0) -> p_playing p = true -> forall o, ~ In (IEnd o) (ahead p).
Proof. intros p H K o I. destruct (H o I). congruence. Qed.
Lemma tidy_moves : forall T asks final p q, tidy T asks final p -> moves p q -> tidy T asks final q.
Proof.
  intros T asks final p q [A B C D E F] M. destruct (moves_work p q M) as [W|(_ & E1 & E2 & E3 & E4 & E5 & E6)].
  - destruct (work_ahead p q W) as [(Eq & Ef & Ep & Et)|(i & Ea & Ef & Ep & Et)].
    + constructor; [rewrite Eq; exact A|eapply lanes_once; eassumption|rewrite Eq, Ef; exact C|rewrite Eq; exact D|rewrite Eq, Ep, Et; exact E|rewrite Eq, Ep; exact F].
    + rewrite Ea in A, C, D, E, F. constructor.
      * exact (Forall_inv_tail A).
      * eapply lanes_once; eassumption.
      * rewrite Ef, <- app_assoc, <- names_app. exact C.
      * exact (proj2 D).
      * intros o I. destruct (E o (or_intror I)) as [P1 P2]. destruct i; cbn in Ep; rewrite ?Ep, ?Et; try (split; assumption).
        -- split; [reflexivity|exact P2].
        -- apply Forall_inv in A. destruct A as [A|(o' & x & k & A & _)]; discriminate.
        -- exfalso. exact (proj1 D eq_refl o I).
      * rewrite Ep. exact F.
  - pose proof (always_playing p E E5) as NE.
    assert (Aq : ahead q = ahead p) by (unfold ahead; rewrite E1, E2; reflexivity). constructor; rewrite ?Aq, ?E3, ?E4; try assumption.
    + intros o I. exfalso. exact (NE o I).
    + rewrite E6. rewrite E5 in F. exact F.
Qed.

Lemma aget_once : forall A (k : Z) (m : list (Z * A)) v, NoDup (map fst m) -> In (k, v) m -> aget Z.eqb k m = Some v.
Proof.
  induction m as [|[a b] m IH]; intros v D I; [destruct I|]. cbn in *. inversion D; subst. destruct I as [I|I].
  - inversion I; subst. rewrite Z.eqb_refl. reflexivity.
  - destruct (a =? k) eqn:E; [|apply IH; assumption]. exfalso. apply H1. replace a with k by lia. apply (in_map fst) in I. exact I.
Qed.
Lemma progress : forall T TS puts asks final p, invariant T TS puts p -> tidy T asks final p -> finished p \/ exists q, works p q.
Proof.
  intros T TS puts asks final p (pre & ts & puts1 & puts2 & tail & log & enT & [A B C D E F G M L S X]) [TA TB _ _ TE _].
  destruct (p_todo p) as [|i l] eqn:Ht.
  { destruct (p_inbox p) as [|x rest] eqn:Hi; [left; split; assumption|]. right. eexists. apply (W_packet p x rest Ht Hi). }
  right. destruct (obey i (set_todo l p)) as [q|] eqn:O; [exists q; eapply W_instr; eassumption|].
  assert (WAIT : idle p = false -> exists q, works p q).
  { intros I. unfold idle in I. assert (Ex : exists x, In x (p_lanes p) /\ ln_active (snd x) <=? 0 = false).
    { revert I. generalize (p_lanes p) as m. induction m as [|x m IH]; intros I; [discriminate|]. cbn in I. apply andb_false_iff in I. destruct I as [I|I]; [exists x; split; [left; reflexivity|exact I]|].
      destruct (IH I) as (y & Iy & Hy). exists y. split; [right; exact Iy|exact Hy]. }
    destruct Ex as ([t la] & Ix & Ac). cbn in Ac. pose proof (aget_once _ _ _ _ TB Ix) as Ga. pose proof (L t) as Lt. unfold lane_ok in Lt.
    destruct (aget Z.eqb t puts1) as [es|]; [|destruct Lt; congruence]. destruct Lt as (la' & dn & ms & Ga' & St & _). rewrite Ga in Ga'. inversion Ga'; subst la'.
    destruct St as [| | |ms next|st]; cbn in Ac.
    - eexists. apply (W_lane p LTake t). unfold lane_act. rewrite Ga. reflexivity.
    - eexists. apply (W_lane p (LLineUp 0) t). unfold lane_act. rewrite Ga. reflexivity.
    - destruct (now_at (p_engine p) (p_tick p)) as [now|] eqn:Nw.
      + eexists. apply (W_lane p LBegin t). unfold lane_act. rewrite Ga, Nw. unfold place. reflexivity.
      + eexists. apply (W_lane p LBegin t). unfold lane_act. rewrite Ga, Nw. reflexivity.
    - destruct ms as [|[o m] ms].
      + eexists. apply (W_lane p LFinish t). unfold lane_act. rewrite Ga. reflexivity.
      + destruct (schedule_msg o m (p_engine p)) as [en|] eqn:Sm.
        * eexists. apply (W_lane p LAdd t). unfold lane_act. rewrite Ga, Sm. reflexivity.
        * eexists. apply (W_lane p LAdd t). unfold lane_act. rewrite Ga, Sm. reflexivity.
    - discriminate. }
  assert (Ei : passable T i). { unfold ahead in TA. rewrite Ht in TA. exact (Forall_inv TA). }
  assert (Ah : ahead p = i :: (l ++ flat_map (fun l => program (parse_updates l)) (p_inbox p))) by (unfold ahead; rewrite Ht; reflexivity).
  destruct Ei as [Ei|(o & x & k & -> & Hx & Hk)].
  2:{ exfalso. destruct (TE o) as [P1 P2]; [rewrite Ah; left; reflexivity|]. cbn [obey set_todo p_engine p_tick] in O. unfold now_at, schedule_msg in O. rewrite P2 in O.
    assert (Q : en_tempos (p_engine p) = T).
    { rewrite Ah in A. destruct pre as [|x0 pre]; [|cbn in A; injection A as A1 _; apply Forall_inv in B; congruence]. destruct ts as [|y ts]; [|discriminate A].
      destruct F as [F1 F2]. cbn [set_tempos] in F1. injection F1 as F1. rewrite F1. exact (proj1 F2). }
    rewrite Q, Hx in O. cbn [valid_midi] in O. rewrite Hk in O. discriminate. }
  destruct i; try discriminate Ei; cbn [obey] in O; try discriminate O.
  - exfalso. rewrite Ah in A. destruct pre as [|x pre]; [|cbn in A; injection A as A1 _; apply Forall_inv in B; congruence]. destruct ts as [|[o x] ts].
    + destruct puts2 as [|x puts2]; [|discriminate A]. cbn in A. destruct tail as [|x tail]; [discriminate|]. injection A as A1 _. apply Forall_inv in C. subst x. discriminate C.
    + cbn in A. injection A as A1 A2 _. cbn [fst snd] in *. subst. destruct F as [F _]. cbn [set_tempos] in F. cbn in O. destruct (set_tempo o x (p_engine p)); discriminate.
  - apply WAIT. change (idle (set_todo l p)) with (idle p) in O. destruct (idle p); [discriminate|reflexivity].
  - apply WAIT. cbn [p_playing set_todo] in O. change (idle (set_todo l p)) with (idle p) in O. destruct (p_playing p); [discriminate|]. destruct (idle p); [discriminate|reflexivity].
Qed.

Lemma names_program : forall u, names (program u) = flat_map (fun y => match y with YExport f => [f] | _ => [] end) (u_system u).
Proof.
  intros u. unfold program. rewrite !names_app.
  assert (Z0 : forall (f : system_event -> list instr) l, (forall y, names (f y) = []) -> names (flat_map f l) = []).
  { intros f l H. induction l as [|y l IH]; [reflexivity|]. cbn [flat_map]. rewrite names_app, H, IH. reflexivity. }
  assert (Z1 : forall A (f : A -> instr) l, (forall y, names [f y] = []) -> names (map f l) = []).
  { intros A f l H. induction l as [|y l IH]; [reflexivity|]. cbn [map]. change (f y :: map f l) with ([f y] ++ map f l). rewrite names_app, H, IH. reflexivity. }
  assert (Z2 : forall (c : bool) i, names [i] = [] -> names (if c then [i] else []) = []) by (intros [] i H; [exact H|reflexivity]).
  rewrite !Z2 by reflexivity. rewrite !Z1 by (intros; reflexivity). rewrite (Z0 (fun y => match y with YOffset o => [IOffset o] | _ => [] end)) by (intros []; reflexivity).
  rewrite (Z0 (fun y => match y with YTempo o b => [ITempo o b] | _ => [] end)) by (intros []; reflexivity). rewrite (Z0 (fun y => match y with YShutdown o => [IEnd o] | _ => [] end)) by (intros []; reflexivity).
  cbn [app]. rewrite app_nil_r. induction (u_system u) as [|y l IH]; [reflexivity|]. cbn [flat_map]. rewrite names_app, IH. destruct y; reflexivity.
Qed.
Lemma names_asked : forall l, Forall numbered l -> names (program (parse_updates (map encode l))) = files_asked l.
Proof.
  intros l F. rewrite names_program. destruct (parse_adds l F) as (_ & -> & _). unfold files_asked. clear F. induction l as [|m l IH]; [reflexivity|]. cbn [flat_map]. rewrite flat_map_app, IH. f_equal.
  destruct m; try reflexivity. cbn. destruct (off =? 0); reflexivity.
Qed.
Lemma program_passable : forall T l, Forall numbered l -> Forall (fun m => match m with MOffset _ => False | MShutdown o => o = 0 \/ passable T (IEnd o) | _ => True end) l ->
  Forall (passable T) (program (parse_updates (map encode l))).
Proof.
  intros T l F K. destruct (parse_adds l F) as (_ & B & _ & _ & _ & _ & H & I). unfold program. rewrite H, I, B. cbn [map app].
  assert (Y : Forall (fun y => match y with YOffset _ => False | YShutdown o => passable T (IEnd o) | _ => True end) (flat_map system_of l)).
  { clear - K. induction K as [|m l H _ IH]; [constructor|]. cbn [flat_map]. apply Forall_app. split; [|exact IH]. destruct m; try contradiction; cbn; try (repeat constructor).
    destruct (off =? 0) eqn:E; [constructor|]. destruct H as [H|H]; [lia|]. constructor; [exact H|constructor]. }
  assert (EZ : forall f : system_event -> list instr, (forall y, match y with YOffset _ => False | YShutdown o => passable T (IEnd o) | _ => True end -> Forall (passable T) (f y)) ->
    Forall (passable T) (flat_map f (flat_map system_of l))).
  { intros f Hf. clear - Y Hf. induction Y as [|y r H _ IH]; [constructor|]. cbn [flat_map]. apply Forall_app. split; [apply Hf, H|exact IH]. }
  assert (P : forall i, easy i = true -> passable T i) by (intros i Q; left; exact Q).
  repeat (apply Forall_app; split); try (apply EZ; intros y Q; destruct y; try contradiction; first [constructor; [first [exact Q|apply P; reflexivity]|constructor]|constructor]);
    try (match goal with |- Forall _ (if ?c then _ else _) => destruct c; repeat constructor end).
  apply Forall_map, Forall_forall. intros x _. apply P. reflexivity.
Qed.

(* ---------------- playing at the end ---------------- *)
Definition neutral (i : instr) : bool := match i with IPlay | IStop => false | _ => true end.
Lemma turned_neutral : forall l was, Forall (fun i => neutral i = true) l -> fold_left (fun w i => turned i w) l was = was.
Proof. induction l as [|i l IH]; intros was F; [reflexivity|]. inversion F; subst. cbn [fold_left]. destruct i; try discriminate; cbn [turned]; apply IH; assumption. Qed.
Lemma neutral_flat : forall (f : system_event -> list instr) l, (forall y, Forall (fun i => neutral i = true) (f y)) -> Forall (fun i => neutral i = true) (flat_map f l).
Proof. intros f l H. induction l as [|y l IH]; [constructor|]. cbn [flat_map]. apply Forall_app. split; [apply H|exact IH]. Qed.
Lemma neutral_map : forall A (f : A -> instr) l, (forall y, neutral (f y) = true) -> Forall (fun i => neutral i = true) (map f l).
Proof. intros A f l H. apply Forall_map, Forall_forall. intros y _. apply H. Qed.
Definition middle (u : updates) : list instr :=
  (if u_clear u then [IClear] else []) ++
  flat_map (fun y => match y with YOffset o => [IOffset o] | _ => [] end) (u_system u) ++
  map IClearTrack (u_clears u) ++
  flat_map (fun y => match y with YTempo o b => [ITempo o b] | _ => [] end) (u_system u) ++
  map (fun x => IPut (fst x) (snd x)) (u_tracks u) ++
  flat_map (fun y => match y with YExport f => [IExport f] | _ => [] end) (u_system u) ++
  flat_map (fun y => match y with YShutdown o => [IEnd o] | _ => [] end) (u_system u).
Lemma program_parts : forall u, exists a b, program u = a ++ (if u_stop u then [IStop] else []) ++ b ++ (if u_play u then [IPlay] else []) /\
  Forall (fun i => neutral i = true) a /\ Forall (fun i => neutral i = true) b.
Proof.
  intros u. exists (if u_shutdown u then [IShutdown] else []), (middle u). split; [unfold program, middle; rewrite <- !app_assoc; reflexivity|].
  split; [destruct (u_shutdown u); repeat constructor|]. unfold middle. repeat (apply Forall_app; split); try (apply neutral_flat; intros []; repeat constructor); try (apply neutral_map; intros; reflexivity).
  destruct (u_clear u); repeat constructor.
Qed.
Lemma program_turned : forall u was, fold_left (fun w i => turned i w) (program u) was = u_play u || (was && negb (u_stop u)).
Proof.
  intros u was. destruct (program_parts u) as (a & b & -> & A & B). rewrite !fold_left_app, (turned_neutral a) by assumption. rewrite (turned_neutral b) by assumption.
  destruct (u_stop u), (u_play u), was; reflexivity.
Qed.
Lemma ends_first_app : forall a b, ~ In IPlay a -> ends_first b -> ends_first (a ++ b).
Proof. induction a as [|i a IH]; intros b H K; [exact K|]. split; [intros ->; destruct H; left; reflexivity|]. apply IH; [intros I; apply H; right; exact I|exact K]. Qed.
Lemma ends_first_none : forall l, (forall o, ~ In (IEnd o) l) -> ends_first l.
Proof. induction l as [|i l IH]; intros H; [exact I|]. split; [intros _ o I; apply (H o); right; exact I|]. apply IH. intros o I. apply (H o). right. exact I. Qed.
Lemma ends_first_program : forall u rest, (forall o, ~ In (IEnd o) rest) -> ends_first (program u ++ rest).
Proof.
  intros u rest H. destruct (program_parts u) as (a & b & -> & A & B). rewrite <- !app_assoc.
  apply ends_first_app; [|apply ends_first_app; [|apply ends_first_app]].
  - intros I. rewrite Forall_forall in A. discriminate (A _ I).
  - destruct (u_stop u); intros I; [|exact I]. destruct I as [I|[]]. discriminate.
  - intros I. rewrite Forall_forall in B. discriminate (B _ I).
  - destruct (u_play u); [|apply ends_first_none, H]. split; [intros _; exact H|apply ends_first_none, H].
Qed.
Lemma asks_play : forall l was, Forall numbered l -> fold_left (fun w i => turned i w) (program (parse_updates (map encode l))) was = playing_after was l.
Proof.
  intros l was F. rewrite program_turned. destruct (parse_adds l F) as (_ & _ & _ & _ & P & S & _). unfold playing_after.
  assert (E : forall (x : msg) (f : msg -> bool) c, (c = true <-> In x l) -> (forall m, f m = true <-> m = x) -> c = existsb f l).
  { intros x f c C Fx. apply eq_true_iff_eq. rewrite C, existsb_exists. split; [intros I; exists x; split; [exact I|apply Fx; reflexivity]|intros (m & I & E); apply Fx in E; subst; exact I]. }
  rewrite (E _ (fun m => match m with MPlay => true | _ => false end) _ P) by (intros []; split; intros Q; try discriminate; reflexivity).
  rewrite (E _ (fun m => match m with MStop => true | _ => false end) _ S) by (intros []; split; intros Q; try discriminate; reflexivity). reflexivity.
Qed.

Lemma live : linear_order -> forall t s s' b start stop notes en commands,
  transmits t s s' (ROk b) -> asked t s start stop notes -> t_sync t = [] -> Z.of_nat (List.length (parts s)) < 2 ^ 31 - 1 ->
  set_tempos (tempo_changes b) new_engine = Some en -> (exists x, ticks_to_ms (en_tempos en) 0 = Some x) -> Forall (playable (en_tempos en) s start) notes ->
  Forall (can_end (en_tempos en)) b -> Forall (Forall simple) commands ->
  exists left : player -> nat, forall p, runs (sent b commands) p ->
    (forall q, works p q -> (left q < left p)%nat) /\ (forall q, moves p q -> (left q <= left p)%nat) /\
    (finished p \/ exists q, works p q) /\
    (finished p -> map fst (p_files p) = files_asked (concat commands) /\ p_playing p = fold_left playing_after (b :: commands) false).
Proof.
  intros LO t s s' b start stop notes en commands TR AS SY PA TE RE PL CE SI. exists left_over.
  assert (CO : Forall (Forall command) commands).
  { eapply Forall_impl; [|exact SI]. intros l H. eapply Forall_impl; [|exact H]. intros []; cbn; intros K; try reflexivity; destruct K. }
  assert (NU : Forall numbered b) by (eapply transmits_numbered; eassumption).
  assert (NC : Forall (Forall numbered) commands).
  { eapply Forall_impl; [|exact SI]. intros l H. eapply Forall_impl; [|exact H]. intros []; cbn; intros K; try exact I; destruct K. }
  assert (KB : Forall (fun m => match m with MOffset _ => False | MShutdown o => o = 0 \/ passable (en_tempos en) (IEnd o) | _ => True end) b /\ files_asked b = []).
  { destruct (bundle LO _ _ _ _ _ _ _ TR AS) as (es & _ & _ & Eb). rewrite SY in Eb. cbn [nonempty] in Eb.
    assert (K : Forall (fun m => match m with MOffset _ | MExport _ => False | _ => True end) b).
    { rewrite Eb. apply Forall_app. split; [|apply Forall_app; split]; apply Forall_forall; intros m I.
      - apply tempo_kind in I. destruct m; try discriminate; exact Logic.I.
      - apply sends_in in I. destruct I as (e & _ & [-> | [-> | [-> | ->]]]); exact Logic.I.
      - unfold ending in I. destruct (t_load t), (t_oneoff t); cbn in I; intuition (subst; exact Logic.I). }
    split. 2:{ clear - K. unfold files_asked. induction K as [|m l H _ IH]; [reflexivity|]. cbn [flat_map]. rewrite IH. destruct m; try reflexivity; destruct H. }
    clear - K CE. induction b as [|m l IH]; [constructor|]. inversion K; subst. inversion CE; subst. constructor; [|apply IH; assumption]. destruct m; try exact I; try assumption.
    right. right. destruct H3 as (x & k & E1 & E2). exists off, x, k. auto. }
  destruct KB as [KB KF].
  assert (PC : Forall (Forall (fun m => match m with MOffset _ => False | MShutdown o => o = 0 \/ passable (en_tempos en) (IEnd o) | _ => True end)) commands).
  { eapply Forall_impl; [|exact SI]. intros l H. eapply Forall_impl; [|exact H]. intros []; cbn; intros K; try exact I; try destruct K. left; reflexivity. }
  assert (NE : forall o, ~ In (IEnd o) (flat_map (fun l => program (parse_updates l)) (map (map encode) commands))).
  { intros o I. apply in_flat_map in I. destruct I as (l & I1 & I2). apply in_map_iff in I1. destruct I1 as (l' & <- & I1). rewrite Forall_forall in SI, NC. specialize (SI _ I1). specialize (NC _ I1).
    assert (G : Forall (passable []) (program (parse_updates (map encode l')))).
    { apply program_passable; [exact NC|]. eapply Forall_impl; [|exact SI]. intros []; cbn; intros K; try exact Logic.I; try destruct K. left; reflexivity. }
    rewrite Forall_forall in G. destruct (G _ I2) as [G1|(o' & x & k & _ & G1 & _)]; discriminate. }
  assert (TD : forall p, runs (sent b commands) p -> tidy (en_tempos en) (files_asked (concat commands)) (fold_left playing_after (b :: commands) false) p).
  { intros p R. induction R as [|q r _ IH M]; [|eapply tidy_moves; eassumption]. constructor.
    - unfold ahead, sent, fresh. cbn [p_todo p_inbox app flat_map]. apply Forall_app. split; [apply program_passable; assumption|].
      clear - PC NC. induction PC as [|l ls H _ IH]; [constructor|]. cbn [map flat_map]. apply Forall_app. inversion NC; subst. split; [|apply IH; assumption]. apply program_passable; assumption.
    - constructor.
    - unfold ahead, sent, fresh. cbn [p_todo p_inbox p_files app flat_map map]. rewrite names_app, names_asked, KF by assumption. cbn [app].
      clear - NC. induction NC as [|l ls H _ IH]; [reflexivity|]. cbn [map flat_map concat]. rewrite names_app, names_asked, IH by assumption. unfold files_asked. rewrite flat_map_app. reflexivity.
    - unfold ahead, sent, fresh. cbn [p_todo p_inbox app flat_map]. apply ends_first_program, NE.
    - intros o _. split; reflexivity.
    - unfold ahead, sent, fresh. cbn [p_todo p_inbox p_playing app flat_map fold_left]. rewrite fold_left_app, asks_play by assumption.
      generalize (playing_after false b) as w. clear - NC. induction NC as [|l ls H _ IH]; intros w; [reflexivity|]. cbn [map flat_map fold_left]. rewrite fold_left_app, asks_play by assumption. apply IH. }
  intros p R. pose proof (TD p R) as Tp. split; [intros q W; apply work_down, W|]. split; [|split].
  - intros q M. destruct (moves_work p q M) as [W|(E & _)]; [apply work_down in W; lia|lia].
  - eapply progress; [|exact Tp]. eapply (stays t s s' b start stop notes (en_tempos en)); try eassumption; reflexivity.
  - intros [F1 F2]. destruct Tp as [_ _ E _ _ G]. unfold ahead in E, G. rewrite F1, F2 in E, G. cbn in E, G. rewrite app_nil_r in E. split; [exact E|exact G].
Qed.
End Live.
