(** Proofs about the two threads of a REPL server. *)
From Coq Require Import ZArith String List Bool Lia.
From Verif Require Import Base ModelManage SpecManage.
Import ListNotations.
Local Open Scope Z_scope.
Local Open Scope list_scope.

(** All cases of a step. *)
Ltac step_cases H :=
  unfold steps in H;
  match type of H with context [match ?c with MStep => _ | _ => _ end] => destruct c end;
  unfold manages, handles in H;
  match type of H with
  | context [match mgr ?s with _ => _ end] => destruct (mgr s) eqn:M
  | context [match hnd ?s with _ => _ end] => destruct (hnd s) as [|[]|[]|[] ?|] eqn:K
  | _ => idtac
  end;
  repeat match type of H with
  | context [match ?m with Shutdown => _ | _ => _ end] => destruct m
  | context [match ?m with JShutdown => _ | _ => _ end] => destruct m
  | (if ?b then None else _) = _ => destruct b eqn:?
  end;
  try discriminate H;
  injection H as <- <-.

Lemma run_inv (I : list event -> shared -> Prop) (W : list event -> Prop) :
  (forall a b, W (a ++ b) -> W a) ->
  (forall past c s s' e, I past s -> W (past ++ e) -> steps c s = Some (s', e) -> I (past ++ e) s') ->
  forall cs s s' es past, I past s -> W (past ++ es) -> run cs s = Some (s', es) -> I (past ++ es) s'.
Proof.
  intros Wp St. induction cs as [|c cs IH]; intros s s' es past Hi Hw H; cbn in H.
  - injection H as <- <-. rewrite app_nil_r. exact Hi.
  - destruct (steps c s) as [[s1 e]|] eqn:E; [|discriminate H].
    destruct (run cs s1) as [[s2 es2]|] eqn:R; [|discriminate H]. injection H as <- <-.
    rewrite app_assoc in *. eapply IH; [|exact Hw|exact R].
    eapply St; [exact Hi| |exact E]. eapply Wp, Hw.
Qed.

(** *** Not to a player that was told to shut down *)
Lemma told_app a b id : told (a ++ b) id <-> told a id \/ told b id.
Proof.
  unfold told. split.
  - intros (p & H & E). apply in_app_or in H. destruct H; [left|right]; eauto.
  - intros [(p & H & E)|(p & H & E)]; exists p; (split; [apply in_or_app; tauto|exact E]).
Qed.
Lemma told_nil id : ~ told [] id.
Proof. intros (p & [] & _). Qed.
Lemma told_one e id : told [e] id -> exists p, e = ESent p Shutdown true /\ p_id p = id.
Proof. intros (p & [E|[]] & F). exists p. auto. Qed.

Definition W1 es := in_order es /\ undisturbed es.
Lemma W1_prefix a b : W1 (a ++ b) -> W1 a.
Proof.
  intros ((A & B & C) & U). split; [split; [|split]|].
  - intros id p H. apply (A id p). apply in_or_app. auto.
  - intros x p y H. apply (B x p (y ++ b)). rewrite H, <- app_assoc. reflexivity.
  - intros p m H. apply (C p m). apply in_or_app. auto.
  - intros H. apply U. apply in_or_app. auto.
Qed.
Lemma W1_blank es : W1 es -> ~ told es "".
Proof. intros ((_ & _ & C) & _) (p & H & E). exact (C _ _ H E). Qed.

Definition clean (es : list event) : Prop :=
  forall a p m ok b, es = a ++ ESent p m ok :: b -> ~ told a (p_id p).
Lemma clean_snoc es e : clean es -> (forall p m ok, e = ESent p m ok -> ~ told es (p_id p)) -> clean (es ++ [e]).
Proof.
  intros C H a p m ok b E.
  destruct b as [|x b' _] using rev_ind.
  - apply app_inj_tail in E. destruct E as [-> ->]. exact (H _ _ _ eq_refl).
  - rewrite app_comm_cons, app_assoc in E. apply app_inj_tail in E. destruct E as [-> _]. exact (C _ _ _ _ _ eq_refl).
Qed.

Definition held (m : mpc) (es : list event) : Prop :=
  match m with MAsking id => ~ told es id | MStore p | MTake p => ~ told es (p_id p) | _ => True end.
Definition I1 (es : list event) (s : shared) : Prop :=
  clean es /\
  (hnd s <> HUnset -> ~ told es (p_id (player s)) /\ held (mgr s) es) /\
  match hnd s with HHave _ p => ~ told es (p_id p) | _ => True end.

Lemma held_same m es e : (forall id, told (es ++ e) id -> told es id) -> held m es -> held m (es ++ e).
Proof. intros T. destruct m; cbn; auto. Qed.

Definition silent (e : list event) : Prop := forall id, ~ told e id.
Lemma silent_one e : (forall p, e <> ESent p Shutdown true) -> silent [e].
Proof. intros H id T. apply told_one in T. destruct T as (p & T & _). exact (H p T). Qed.

Definition unsent (e : list event) : Prop := e = [] \/ exists x, e = [x] /\ forall p m ok, x <> ESent p m ok.
Lemma unsent_silent e : unsent e -> silent e.
Proof.
  intros [->|(x & -> & H)]; [exact told_nil|]. apply silent_one. intros p. apply H.
Qed.
Lemma unsent_clean past e : clean past -> unsent e -> clean (past ++ e).
Proof.
  intros C [->|(x & -> & H)]; [rewrite app_nil_r; exact C|].
  apply clean_snoc; [exact C|]. intros p m ok E. destruct (H _ _ _ E).
Qed.
Lemma untold past e id : silent e -> ~ told past id -> ~ told (past ++ e) id.
Proof. intros S T H. apply told_app in H. destruct H as [H|H]; [exact (T H)|exact (S _ H)]. Qed.
Lemma held_on past e m : silent e -> held m past -> held m (past ++ e).
Proof. intros S. destruct m; cbn; auto; apply untold, S. Qed.
Lemma have_on past e h : silent e -> match h with HHave _ p => ~ told past (p_id p) | _ => True end ->
  match h with HHave _ p => ~ told (past ++ e) (p_id p) | _ => True end.
Proof. intros S. destruct h; auto. apply untold, S. Qed.

Lemma I1_keep past s s' e : I1 past s -> unsent e -> hnd s' = hnd s ->
  (hnd s <> HUnset -> ~ told (past ++ e) (p_id (player s')) /\ held (mgr s') (past ++ e)) -> I1 (past ++ e) s'.
Proof.
  intros (C & P & Q) U E H. split; [apply unsent_clean; assumption|]. rewrite E. split; [exact H|].
  apply have_on; [apply unsent_silent, U|exact Q].
Qed.

Lemma I1_step past c s s' e : I1 past s -> W1 (past ++ e) -> steps c s = Some (s', e) -> I1 (past ++ e) s'.
Proof.
  intros J Hw H. pose proof (W1_blank _ Hw) as Bl. destruct Hw as ((WA & WB & WC) & WU).
  assert (In1 : forall x, In x (past ++ [x])) by (intros x; apply in_or_app; right; left; reflexivity).
  assert (U0 : unsent []) by (left; reflexivity).
  pose proof J as (C & P & Q).
  step_cases H.
  (* the manager *)
  1-14: apply (I1_keep _ s); [exact J|first [exact U0|right; eexists; split; [reflexivity|discriminate]]|reflexivity|];
    intros U; specialize (P U); try rewrite M in P; destruct P as [P1 P2]; cbn [held] in P2;
    cbn [player mgr at_m set_player begins pinged]; rewrite ?app_nil_r in *.
  1: split; [exact P1|exact P1].
  1: split; [exact P2|exact I].
  1: split; [exact Bl|exact I].
  1: split; [exact P1|destruct (has _); exact I].
  1: split; [exact P2|exact I].
  1: split; [exact P1|destruct (_ && _); exact I].
  1: split; [exact P1|destruct (has _); exact I].
  1: split; [exact P1|exact I].
  1: split; [exact Bl|exact I].
  1: split; [apply untold; [apply silent_one; discriminate|exact P1]|exact I].
  1: split; [exact P1|destruct (has _); exact I].
  1: { split; [apply untold; [apply silent_one; discriminate|exact P1]|].
       destruct a as [p| |]; cbn [held]; try exact I. destruct (WA id p (In1 _)) as [-> _].
       apply untold; [apply silent_one; discriminate|exact P2]. }
  1: { split; [apply untold; [apply silent_one; discriminate|exact P1]|].
       destruct a as [p|]; cbn [held]; try exact I.
       apply untold; [apply silent_one; discriminate|]. exact (proj1 (WB past p [] eq_refl)). }
  1: split; [apply untold; [apply silent_one; discriminate|exact P1]|destruct ok; exact I].
  (* the handler *)
  all: try rewrite K in P, Q; try specialize (P ltac:(discriminate)).
  1-8, 14: rewrite app_nil_r; split; [exact C|]; split; [intros _; exact P|]; cbn [hnd at_h]; try destruct (has _);
    first [exact I|exact (proj1 P)].
  1: { assert (Cx : clean (past ++ [ESent p Shutdown ok])) by (apply clean_snoc; [exact C|]; intros ? ? ? [= <- <- <-]; exact Q).
       split; [exact Cx|]. destruct ok; cbn [hnd at_h player mgr]; [split; [congruence|exact I]|].
       split; [|exact I]. intros _. destruct P as [P1 P2].
       assert (S : silent [ESent p Shutdown false]) by (apply silent_one; discriminate).
       split; [apply untold|apply held_on]; assumption. }
  1-4: match goal with |- I1 (_ ++ [?x]) _ =>
    (split; [apply clean_snoc; [exact C|]; intros ? ? ? [= <- <- <-]; exact Q|]);
    assert (S : silent [x]) by (apply silent_one; discriminate);
    destruct P as [P1 P2];
    (split; [intros _; split; [apply untold|apply held_on]; assumption|]); rewrite K; apply untold; assumption end.
  split; [apply unsent_clean; [exact C|]; right; eexists; split; [reflexivity|discriminate]|].
  split; [|exact I]. intros _. cbn [player mgr at_h set_player]. split; [exact Bl|].
  assert (B : busy (mgr s) = false).
  { destruct (busy (mgr s)) eqn:B; [|reflexivity]. destruct (WU (In1 _)). }
  destruct (mgr s); cbn in *; try discriminate; exact I.
Qed.

Lemma not_told cs s es : run cs start = Some (s, es) -> in_order es -> undisturbed es ->
  forall a p m ok b, es = a ++ ESent p m ok :: b -> ~ told a (p_id p).
Proof.
  intros H A B.
  assert (J : I1 ([] ++ es) s).
  { refine (run_inv I1 W1 W1_prefix I1_step cs start s es [] _ (conj A B) H).
    split; [intros a p m ok b E; destruct a; discriminate E|]. split; [|exact I].
    intros _. split; [apply told_nil|exact I]. }
  destruct J as (C & _). exact C.
Qed.

(** *** Answering *)
Definition no_ping (es : list event) : Prop := forall t q ok, ~ In (EPinged t q ok) es.
Lemma this_turn_snoc es e : this_turn (es ++ [e]) = match e with ETurned _ _ => [] | _ => this_turn es ++ [e] end.
Proof. unfold this_turn. rewrite fold_left_app. reflexivity. Qed.
Lemma no_ping_snoc es e : no_ping es -> (forall t q ok, e <> EPinged t q ok) -> no_ping (es ++ [e]).
Proof. intros H N t q ok I. apply in_app_or in I. destruct I as [I|[I|[]]]; [exact (H _ _ _ I)|exact (N _ _ _ I)]. Qed.

(** What holds of a player in use at the end of a turn. *)
Definition fine (past : list event) (t : Z) (p : pstate) : Prop :=
  has p = true ->
  In (EPinged t p true) (this_turn past) \/
  (no_ping (this_turn past) /\ exists t' q ok, In (EPinged t' q ok) past /\ t - t' <= 1000).
Definition all_fine (es : list event) : Prop := forall a t p b, es = a ++ ETurned t p :: b -> fine a t p.
Definition I2 (es : list event) (s : shared) : Prop :=
  all_fine es /\ (forall t, ping s = Some t -> exists q ok, In (EPinged t q ok) es) /\
  match mgr s with
  | MPinging p => no_ping (this_turn es) /\ (has (player s) = true -> player s = p)
  | MDrop => True
  | MEnd => fine es (now s) (player s)
  | _ => no_ping (this_turn es)
  end.

Lemma all_fine_snoc es e : all_fine es -> (forall t p, e = ETurned t p -> fine es t p) -> all_fine (es ++ [e]).
Proof.
  intros C H a t p b E.
  destruct b as [|x b' _] using rev_ind.
  - apply app_inj_tail in E. destruct E as [-> ->]. exact (H _ _ eq_refl).
  - rewrite app_comm_cons, app_assoc in E. apply app_inj_tail in E. destruct E as [-> _]. exact (C _ _ _ _ eq_refl).
Qed.
Lemma pinged_on es e t : (exists q ok, In (EPinged t q ok) es) -> exists q ok, In (EPinged t q ok) (es ++ e).
Proof. intros (q & ok & H). exists q, ok. apply in_or_app. auto. Qed.
Lemma fine_on es e t p : (forall t p, e <> ETurned t p) -> (forall t q ok, e <> EPinged t q ok) -> fine es t p -> fine (es ++ [e]) t p.
Proof.
  intros N1 N2 F H. specialize (F H).
  assert (E : this_turn (es ++ [e]) = this_turn es ++ [e]) by (rewrite this_turn_snoc; destruct e; try reflexivity; destruct (N1 _ _ eq_refl)).
  rewrite E. destruct F as [F|(F & t' & q & ok & I & L)].
  - left. apply in_or_app. auto.
  - right. split; [apply no_ping_snoc; assumption|]. exists t', q, ok. split; [apply in_or_app; auto|exact L].
Qed.

Definition I2m (es : list event) (s : shared) : Prop :=
  match mgr s with
  | MPinging p => no_ping (this_turn es) /\ (has (player s) = true -> player s = p)
  | MDrop => True
  | MEnd => fine es (now s) (player s)
  | _ => no_ping (this_turn es)
  end.

(** The handler's steps. *)
Lemma I2_handler past s s' e : I2 past s -> mgr s' = mgr s -> now s' = now s -> ping s' = ping s ->
  (player s' = player s \/ has (player s') = false) ->
  (e = [] \/ exists x, e = [x] /\ (forall t p, x <> ETurned t p) /\ (forall t q ok, x <> EPinged t q ok)) -> I2 (past ++ e) s'.
Proof.
  intros (A & B & D) E1 E2 E3 E4 He.
  assert (D' : I2m past s').
  { unfold I2m. rewrite E1, E2. destruct (mgr s); try exact D.
    - destruct D as [D1 D2]. split; [exact D1|]. destruct E4 as [->|E4]; [exact D2|]. congruence.
    - destruct E4 as [->|E4]; [exact D|]. intros X. congruence. }
  unfold I2. rewrite E3. destruct He as [->|(x & -> & N1 & N2)].
  - rewrite app_nil_r. split; [exact A|]. split; [exact B|exact D'].
  - split; [apply all_fine_snoc; [exact A|intros t p ->; destruct (N1 _ _ eq_refl)]|].
    split; [intros t H; apply pinged_on, B, H|].
    assert (E : this_turn (past ++ [x]) = this_turn past ++ [x]) by (rewrite this_turn_snoc; destruct x; try reflexivity; destruct (N1 _ _ eq_refl)).
    unfold I2m in D'. rewrite E. destruct (mgr s'); try (apply no_ping_snoc; assumption); try exact I.
    + destruct D' as [D1 D2]. split; [apply no_ping_snoc; assumption|exact D2].
    + apply fine_on; assumption.
Qed.

Lemma I2_step past c s s' e : I2 past s -> True -> steps c s = Some (s', e) -> I2 (past ++ e) s'.
Proof.
  intros J _ H. pose proof J as (A & B & D).
  step_cases H.
  15-29: apply (I2_handler _ s); [exact J|reflexivity|reflexivity|reflexivity|first [left; reflexivity|right; reflexivity]|
    first [left; reflexivity|right; eexists; split; [reflexivity|split; discriminate]]].
  all: try rewrite M in D.
  1-9, 11: rewrite app_nil_r; split; [exact A|]; split; [exact B|]; cbn [mgr at_m begins player].
  1, 2, 3: exact D.
  1: destruct (has _); exact D.
  1: exact D.
  1: { destruct (has _ && due s) eqn:E; [exact D|]. intros Hp. cbn [player at_m] in Hp. rewrite Hp in E. cbn in E.
       right. split; [exact D|]. unfold due in E. destruct (ping s) as [t|] eqn:Pg; [|discriminate E].
       destruct (B t eq_refl) as (q & ok & I0). exists t, q, ok. split; [exact I0|]. cbn [now at_m]. apply Z.ltb_ge in E. exact E. }
  1: { destruct (has _) eqn:E; [exact D|]. split; [exact D|]. congruence. }
  1: split; [exact D|reflexivity].
  1: intros Hp; discriminate Hp.
  1: { assert (D2 : no_ping (this_turn past)) by exact D. destruct (has _); exact D2. }
  - (* the end of a turn *)
    split; [apply all_fine_snoc; [exact A|intros t p [= <- <-]; exact D]|].
    split; [intros t H; apply pinged_on, B, H|]. cbn [mgr at_m]. rewrite this_turn_snoc. intros t q ok [].
  - split; [apply all_fine_snoc; [exact A|discriminate]|].
    split; [intros t H; apply pinged_on, B, H|]. cbn [mgr at_m].
    assert (X : no_ping (this_turn (past ++ [EAsked id a]))) by (rewrite this_turn_snoc; apply no_ping_snoc; [exact D|discriminate]).
    destruct a; exact X.
  - split; [apply all_fine_snoc; [exact A|discriminate]|].
    split; [intros t H; apply pinged_on, B, H|]. cbn [mgr at_m].
    assert (X : no_ping (this_turn (past ++ [EFound a]))) by (rewrite this_turn_snoc; apply no_ping_snoc; [exact D|discriminate]).
    destruct a; exact X.
  - destruct D as [D1 D2].
    split; [apply all_fine_snoc; [exact A|discriminate]|].
    split. { intros t [= <-]. exists p, ok. apply in_or_app. right. left. reflexivity. }
    cbn [mgr at_m]. destruct ok; [|exact I]. intros Hp. cbn [player at_m pinged now] in *. left. rewrite this_turn_snoc. apply in_or_app. right. left.
    rewrite (D2 Hp). reflexivity.
Qed.

Lemma answers cs s es : run cs start = Some (s, es) ->
  forall a t p b, es = a ++ ETurned t p :: b -> has p = true ->
  In (EPinged t p true) (this_turn a) \/
  ((forall t' q ok, ~ In (EPinged t' q ok) (this_turn a)) /\ exists t' q ok, In (EPinged t' q ok) a /\ t - t' <= 1000).
Proof.
  intros H a t p b E Hp.
  assert (J : I2 ([] ++ es) s).
  { refine (run_inv I2 (fun _ => True) (fun _ _ _ => I) I2_step cs start s es [] _ I H).
    split; [intros x; destruct x; discriminate|]. split; [discriminate|]. intros ? ? ? []. }
  destruct J as (C & _). exact (C _ _ _ _ E Hp).
Qed.

(** *** The same player all along *)
Definition I3 (p : pstate) (es : list event) (s : shared) : Prop :=
  player s = p /\ (forall q m ok, In (ESent q m ok) es -> q = p) /\ (forall a, ~ In (EFound a) es) /\
  match mgr s with
  | MAsking id => id = p_id p
  | MStore q | MPinging q => q = p
  | MForget | MFinding | MTake _ | MDrop => False
  | _ => True
  end /\
  match hnd s with HHave _ q => q = p | HUnset => False | _ => True end.
Lemma healthy_prefix p a b : healthy p (a ++ b) -> healthy p a.
Proof.
  intros (A & B & C). split; [|split].
  - intros x H. apply A, in_or_app. auto.
  - intros t q ok H. apply (B t q ok), in_or_app. auto.
  - intros q ok H. apply (C q ok), in_or_app. auto.
Qed.
Lemma in_snoc {A} (x y : A) l : In x (l ++ [y]) <-> In x l \/ x = y.
Proof. rewrite in_app_iff. cbn. intuition. Qed.

Lemma I3_step p past c s s' e : has p = true -> I3 p past s -> healthy p (past ++ e) -> steps c s = Some (s', e) -> I3 p (past ++ e) s'.
Proof.
  intros Hp (A & B & C & D & F) (WA & WB & WC) H.
  assert (In1 : forall x, In x (past ++ [x])) by (intros x; apply in_or_app; right; left; reflexivity).
  step_cases H; rewrite ?app_nil_r; unfold I3; cbn [player mgr hnd at_m at_h set_player begins pinged];
    try rewrite M in D; try rewrite K in F; try contradiction; rewrite ?A, ?Hp in *.
  all: try (destruct (WC _ _ (In1 _))).
  all: try (split; [first [exact A|exact D|reflexivity]|]).
  all: try (split; [first [exact B|intros q m' ok' X; apply in_snoc in X; destruct X as [X|X]; [exact (B _ _ _ X)|first [discriminate X|injection X as -> _ _; exact F]]]|]).
  all: try (split; [first [exact C|intros a' X; apply in_snoc in X; destruct X as [X|X]; [exact (C _ X)|discriminate X]]|]).
  all: try (split; [|exact F]).
  all: try exact I; try reflexivity; try exact D.
  all: try (split; [exact D|first [exact I|reflexivity]]).
  all: try (rewrite K; split; [exact D|exact F]).
  - destruct (true && due s); exact I.
  - destruct (WA a ltac:(rewrite <- D; apply In1)) as [->| ->]; [reflexivity|exact I].
  - rewrite (WB _ _ _ (In1 _) D). exact I.
Qed.

Lemma same p cs s s' es : player s = p -> has p = true -> mgr s = MTop -> hnd s = HIdle -> run cs s = Some (s', es) -> healthy p es ->
  player s' = p /\ (forall q m ok, In (ESent q m ok) es -> q = p) /\ (forall a, ~ In (EFound a) es).
Proof.
  intros A Hp Hm Hh H Hw.
  assert (J : I3 p ([] ++ es) s').
  { refine (run_inv (I3 p) (healthy p) (healthy_prefix p) (fun past c s0 s1 e => I3_step p past c s0 s1 e Hp) cs s s' es [] _ Hw H).
    split; [exact A|]. split; [intros ? ? ? []|]. split; [intros ? []|]. rewrite Hm, Hh. split; exact I. }
  destruct J as (X & Y & Z & _). auto.
Qed.

(** *** Finding another player *)
Section Recovers.
Variable q : pstate.
Hypothesis Hq : has q = true.

Definition stranger (late : bool) (p : pstate) : Prop := p = q \/ late = false /\ p_id p <> p_id q.
Definition I4 (late : bool) (last : Z) (s : shared) : Prop :=
  (forall t, ping s = Some t -> t <= last) /\ (mgr s <> MTop -> now s = last) /\
  match mgr s with
  | MTop => late = true -> player s = q \/ has (player s) = false
  | MIdent => due s = true /\ (late = true -> player s = q)
  | MAsking id => due s = true /\ id = p_id (player s) /\ (late = true -> player s = q)
  | MStore p => due s = true /\ stranger late p
  | MForget => due s = true
  | MCheck => due s = true /\ (has (player s) = false \/ stranger late (player s))
  | MFinding => due s = true
  | MTake p => due s = true /\ p = q
  | MDue | MTrans | MPort => due s = true /\ has (player s) = true /\ stranger late (player s)
  | MPinging p => p = player s /\ stranger late p
  | MDrop => late = false
  | MEnd => player s = q \/ late = false /\ has (player s) = false
  end.

Lemma only_tail a b : only q (a ++ b) -> only q b.
Proof.
  intros (A & B & C & D). repeat split.
  - intros id p H. apply A, in_or_app. auto.
  - intros x H. apply B, in_or_app. auto.
  - intros x H. apply C, in_or_app. auto.
  - apply (D t p ok), in_or_app. auto.
  - apply (D t p ok), in_or_app. auto.
Qed.

Lemma I4_run cs : Forall by_manager cs -> forall late last s s' es, I4 late last s -> spaced last cs -> run cs s = Some (s', es) -> only q es ->
  Forall (fun x => snd x = q) (if late then turns es else tl (turns es)).
Proof.
  induction 1 as [|c cs Hc Hcs IH]; intros late last s s' es J Sp H O; cbn [run] in H.
  - injection H as <- <-. destruct late; constructor.
  - destruct (steps c s) as [[s1 e]|] eqn:E; [|discriminate H].
    destruct (run cs s1) as [[s2 es2]|] eqn:R; [|discriminate H]. injection H as <- <-.
    pose proof (only_tail _ _ O) as O2. destruct O as (OA & OB & OC & OD).
    destruct J as (J1 & J2 & J3).
    step_cases E; try destruct Hc; cbn [app] in *; cbn [spaced] in Sp; try rewrite M in J2, J3; try specialize (J2 ltac:(discriminate)).
    + eapply IH; [|exact Sp|exact R|exact O2]. split; [exact J1|]. split; [intros _; exact J2|]. cbn. destruct J3 as [J3 J4]. auto.
    + eapply IH; [|exact Sp|exact R|exact O2]. split; [exact J1|]. split; [intros _; exact J2|]. cbn. destruct J3 as [J3 J4]. auto.
    + eapply IH; [|exact Sp|exact R|exact O2]. split; [exact J1|]. split; [intros _; exact J2|]. cbn. auto.
    + eapply IH; [|exact Sp|exact R|exact O2]. split; [exact J1|]. split; [intros _; exact J2|]. cbn. destruct J3 as [J3 J4].
      destruct (has (player s)) eqn:Hp; [|exact J3]. split; [exact J3|]. split; [reflexivity|]. destruct J4; [congruence|assumption].
    + eapply IH; [|exact Sp|exact R|exact O2]. split; [exact J1|]. split; [intros _; exact J2|]. cbn. destruct J3 as [J3 ->].
      split; [exact J3|]. split; [exact Hq|left; reflexivity].
    + eapply IH; [|exact Sp|exact R|exact O2]. split; [exact J1|]. split; [intros _; exact J2|]. cbn. destruct J3 as (J3 & J4 & J5).
      rewrite J3, J4. cbn. auto.
    + eapply IH; [|exact Sp|exact R|exact O2]. split; [exact J1|]. split; [intros _; exact J2|]. cbn. destruct J3 as (J3 & J4 & J5).
      rewrite J4. cbn. auto.
    + eapply IH; [|exact Sp|exact R|exact O2]. split; [exact J1|]. split; [intros _; exact J2|]. cbn. destruct J3 as (J3 & J4 & J5). auto.
    + eapply IH; [|exact Sp|exact R|exact O2]. split; [exact J1|]. split; [intros _; exact J2|]. cbn. right. auto.
    + (* the end of a turn *)
      assert (X : Forall (fun x => snd x = q) (turns es2)).
      { apply (IH true last _ _ _) with (3 := R); [|exact Sp|exact O2]. split; [exact J1|]. split; [cbn; congruence|]. cbn. intros _. destruct J3 as [J3|[_ J3]]; auto. }
      cbn [turns]. destruct late; [|exact X]. constructor; [|exact X]. cbn. destruct J3 as [J3|[J3 _]]; [exact J3|discriminate J3].
    + destruct Sp as [Sp1 Sp]. eapply IH; [|exact Sp|exact R|exact O2]. split; [intros u Hu; specialize (J1 _ Hu); lia|].
      split; [intros _; reflexivity|]. cbn [mgr at_m].
      assert (Du : due (begins t s) = true).
      { unfold due. cbn. destruct (ping s) as [u|]; [|reflexivity]. specialize (J1 u eq_refl). apply Z.ltb_lt. lia. }
      destruct (has (player s)) eqn:Hp.
      * split; [exact Du|]. intros L. destruct (J3 L) as [J|J]; [exact J|]. congruence.
      * split; [exact Du|]. left. exact Hp.
    + assert (X : Forall (fun x => snd x = q) (if late then turns es2 else tl (turns es2))); [|exact X].
      eapply IH; [|exact Sp|exact R|exact O2]. split; [exact J1|]. split; [intros _; exact J2|]. cbn. destruct J3 as (J3 & -> & J5).
      destruct a as [p| |].
      * split; [exact J3|]. assert (Ei := OA _ _ (or_introl eq_refl)).
        destruct (string_dec (p_id (player s)) (p_id q)) as [Eq|Ne].
        -- left. rewrite Eq in OB. specialize (OB _ (or_introl eq_refl)). congruence.
        -- right. split; [|congruence]. destruct late; [|reflexivity]. destruct Ne. rewrite J5; reflexivity.
      * exact J3.
      * split; [exact J3|]. right. right.
        assert (Ne : p_id (player s) <> p_id q). { intros Eq. rewrite Eq in OB. discriminate (OB _ (or_introl eq_refl)). }
        split; [|exact Ne]. destruct late; [|reflexivity]. destruct Ne. rewrite J5; reflexivity.
    + assert (X : Forall (fun x => snd x = q) (if late then turns es2 else tl (turns es2))); [|exact X].
      eapply IH; [|exact Sp|exact R|exact O2]. split; [exact J1|]. split; [intros _; exact J2|].
      rewrite (OC _ (or_introl eq_refl)). cbn. auto.
    + assert (X : Forall (fun x => snd x = q) (if late then turns es2 else tl (turns es2))); [|exact X].
      destruct J3 as [-> J3].
      assert (Y := OD _ _ _ (or_introl eq_refl)).
      eapply IH; [|exact Sp|exact R|exact O2]. split; [intros u [= <-]; lia|]. split; [intros _; exact J2|].
      destruct ok; cbn.
      * left. apply Y. reflexivity.
      * destruct J3 as [J3|[J3 _]]; [|exact J3]. apply Y in J3. discriminate J3.
Qed.
End Recovers.

Lemma recovers q last cs s s' es : has q = true -> mgr s = MTop -> Forall by_manager cs -> run cs s = Some (s', es) ->
  (forall t, ping s = Some t -> t <= last) -> spaced last cs -> only q es ->
  forall t1 p1 rest, turns es = (t1, p1) :: rest -> forall t p, In (t, p) rest -> p = q.
Proof.
  intros Hq Hm Hc R Pg Sp O t1 p1 rest E t p Hi.
  assert (X : Forall (fun x => snd x = q) (tl (turns es))).
  { apply (I4_run q Hq cs Hc false last s s' es); [|exact Sp|exact R|exact O].
    split; [exact Pg|]. rewrite Hm. split; [congruence|discriminate]. }
  rewrite E in X. cbn in X. rewrite Forall_forall in X. exact (X _ Hi).
Qed.

(** *** Cases *)
Local Open Scope string_scope.
Local Open Scope list_scope.
Definition player_a : pstate := PState "aaa" 1111.
Definition player_b : pstate := PState "bbb" 2222.
(** A turn that finds a player and pings it. *)
Definition finds (t : Z) (p : pstate) : list choice :=
  [MTime t; MStep; MAvailable (Some p); MStep; MStep; MStep; MStep; MReply true; MStep].
(** Getting a transmitter and sending. *)
Definition sending (ms : list message) : list choice :=
  [HStart JSend; HPoll; HPort] ++ map (fun m => HSend m true) ms ++ [HDone].
(** Music is played; then the score is loaded afresh and exported.  The player is told to
    shut down while the manager is being told that it is there. *)
Definition racing : list choice :=
  finds 1000 player_a ++ sending [Score] ++
  [MTime 1200; MStep; HStart JShutdown; HPoll; HPort; HSend Shutdown true; MAnswer (Found player_a); HForget; MStep] ++
  sending [Score; Offset] ++ [MStep; MStep; MStep] ++
  [MTime 1400; MStep; MAnswer NotFound; MStep; MStep; MAvailable (Some player_b); MStep; MStep; MStep] ++
  [HStart JSend; HPoll; HPort; HSend Export true].
(** The same without a race. *)
Definition quiet : list choice :=
  finds 1000 player_a ++ sending [Score] ++
  [HStart JShutdown; HPoll; HPort; MTime 1200; HSend Shutdown true; HForget; MStep; MAnswer NotFound; MStep] ++
  [MStep; MAvailable (Some player_b); MStep; MStep; MStep] ++ sending [Score; Offset] ++ sending [Export].

Definition result (cs : list choice) (s : shared) : list event := match run cs s with Some (_, es) => es | None => [] end.
Definition final (cs : list choice) (s : shared) : shared := match run cs s with Some (s', _) => s' | None => s end.

Ltac member := vm_compute; repeat (first [left; reflexivity|right]).
Ltac in_cases H := vm_compute in H; repeat (destruct H as [H|H]); try discriminate H; try contradiction H.

Definition racing_state := Eval vm_compute in final racing start.
Definition racing_events := Eval vm_compute in result racing start.
Definition quiet_state := Eval vm_compute in final quiet start.
Definition quiet_events := Eval vm_compute in result quiet start.
Lemma racing_runs : run racing start = Some (racing_state, racing_events).
Proof. vm_compute. reflexivity. Qed.
Lemma quiet_runs : run quiet start = Some (quiet_state, quiet_events).
Proof. vm_compute. reflexivity. Qed.

(** Deciding whether a world is in order. *)
Definition toldb (es : list event) (id : string) : bool :=
  existsb (fun e => match e with ESent p Shutdown true => String.eqb (p_id p) id | _ => false end) es.
Definition orderb1 (past : list event) (e : event) : bool :=
  match e with
  | EAsked id (Found p) => String.eqb (p_id p) id && negb (String.eqb id "")
  | EFound (Some p) => negb (toldb past (p_id p)) && negb (String.eqb (p_id p) "")
  | ESent p _ true => negb (String.eqb (p_id p) "")
  | _ => true
  end.
Fixpoint orderb (past es : list event) : bool :=
  match es with [] => true | e :: r => orderb1 past e && orderb (past ++ [e]) r end.
Lemma toldb_told es id : told es id -> toldb es id = true.
Proof.
  intros (p & H & E). unfold toldb. apply existsb_exists. exists (ESent p Shutdown true). split; [exact H|]. apply String.eqb_eq, E.
Qed.
Lemma orderb_at es : forall past a e b, orderb past es = true -> es = a ++ e :: b -> orderb1 (past ++ a) e = true.
Proof.
  induction es as [|x es IH]; intros past a e b H E; [destruct a; discriminate E|].
  cbn in H. apply andb_true_iff in H. destruct H as [H1 H2]. destruct a as [|y a]; injection E as -> E.
  - rewrite app_nil_r. exact H1.
  - specialize (IH _ _ _ _ H2 E). rewrite <- app_assoc in IH. exact IH.
Qed.
Lemma neqb_string a b : negb (String.eqb a b) = true -> a <> b.
Proof. intros H E. apply String.eqb_eq in E. rewrite E in H. discriminate H. Qed.
Lemma orderb_in_order es : orderb [] es = true -> in_order es.
Proof.
  intros H. split; [|split].
  - intros id p I. apply in_split in I. destruct I as (a & b & E). specialize (orderb_at _ _ _ _ _ H E) as X. cbn [app orderb1] in X.
    apply andb_true_iff in X. destruct X as [X Y]. split; [apply String.eqb_eq, X|apply neqb_string, Y].
  - intros a p b E. specialize (orderb_at _ _ _ _ _ H E) as X. cbn [app orderb1] in X. apply andb_true_iff in X. destruct X as [X Y].
    split; [|apply neqb_string, Y]. intros T. apply toldb_told in T. rewrite T in X. discriminate X.
  - intros p m I. apply in_split in I. destruct I as (a & b & E). specialize (orderb_at _ _ _ _ _ H E) as X. cbn [app orderb1] in X. apply neqb_string, X.
Qed.

Lemma told_refuted : exists cs s es a b, run cs start = Some (s, es) /\ in_order es /\
  es = a ++ ESent player_a Score true :: b /\ told a (p_id player_a).
Proof.
  exists racing, racing_state, racing_events, (firstn 7 racing_events), (skipn 8 racing_events).
  split; [exact racing_runs|]. split; [apply orderb_in_order; vm_compute; reflexivity|]. split; [vm_compute; reflexivity|].
  exists player_a. split; [member|reflexivity].
Qed.
Lemma export_refuted : exists cs s es a, run cs start = Some (s, es) /\ in_order es /\
  es = a ++ [ESent player_b Export true] /\ In (ESent player_a Score true) a /\ (forall m ok, ~ In (ESent player_b m ok) a).
Proof.
  exists racing, racing_state, racing_events, (removelast racing_events).
  split; [exact racing_runs|]. split; [apply orderb_in_order; vm_compute; reflexivity|]. split; [vm_compute; reflexivity|].
  split; [member|]. intros m ok H. in_cases H.
Qed.
Lemma quiet_example : exists s es, run quiet start = Some (s, es) /\ in_order es /\ undisturbed es /\ told es "aaa" /\
  In (ESent player_b Score true) es /\ In (ESent player_b Export true) es /\ In (ETurned 1000 player_a) es.
Proof.
  exists quiet_state, quiet_events. split; [exact quiet_runs|]. split; [apply orderb_in_order; vm_compute; reflexivity|].
  split; [intros H; in_cases H|]. split; [exists player_a; split; [member|reflexivity]|]. split; [member|]. split; member.
Qed.
(** A player that answers, and one that has gone. *)
Definition settled : shared := Shared player_a MTop 1000 (Some 1000) HIdle.
Lemma settled_reached : exists es, run (finds 1000 player_a) start = Some (settled, es).
Proof. eexists. vm_compute. reflexivity. Qed.
Definition going_on : list choice :=
  [MTime 3000; MStep] ++ sending [Score] ++ [MAnswer (Found player_a); MStep; MStep; MStep; MStep; MStep] ++ sending [Score] ++ [MReply true; MStep] ++
  [MTime 3100; MStep; MAnswer OtherError; MStep; MStep; MStep] ++ sending [Stop].
Definition replacing : list choice :=
  [MTime 3000; MStep; MAnswer (Found player_a); MStep; MStep; MStep; MStep; MStep; MReply false; MStep; MStep] ++ finds 5000 player_b ++
  [MTime 7000; MStep; MAnswer (Found player_b); MStep; MStep; MStep; MStep; MStep; MReply true; MStep].
Definition going_on_state := Eval vm_compute in final going_on settled.
Definition going_on_events := Eval vm_compute in result going_on settled.
Definition replacing_state := Eval vm_compute in final replacing settled.
Definition replacing_events := Eval vm_compute in result replacing settled.
Lemma going_example : player settled = player_a /\ mgr settled = MTop /\ hnd settled = HIdle /\
  exists s es, run going_on settled = Some (s, es) /\ healthy player_a es /\ In (ESent player_a Score true) es.
Proof.
  split; [vm_compute; reflexivity|]. split; [vm_compute; reflexivity|]. split; [vm_compute; reflexivity|]. exists going_on_state, going_on_events. split; [vm_compute; reflexivity|]. split; [|member].
  split; [|split].
  - intros a H. in_cases H; injection H as <-; auto.
  - intros t q ok H _. in_cases H. injection H as <- <- <-. reflexivity.
  - intros q ok H. in_cases H.
Qed.
Lemma replacing_example : mgr settled = MTop /\ Forall by_manager replacing /\ ping settled = Some 1000 /\ spaced 1000 replacing /\
  exists s es, run replacing settled = Some (s, es) /\ only player_b es /\ turns es = [(3000, no_player); (5000, player_b); (7000, player_b)].
Proof.
  split; [vm_compute; reflexivity|]. split; [repeat constructor|]. split; [vm_compute; reflexivity|]. split; [cbn; lia|].
  exists replacing_state, replacing_events. split; [vm_compute; reflexivity|]. split; [|reflexivity].
  split; [|split; [|split]].
  - intros id p H. in_cases H; injection H as <- <-; reflexivity.
  - intros a H. in_cases H. injection H as <-. reflexivity.
  - intros a H. in_cases H. injection H as <-. reflexivity.
  - intros t p ok H. in_cases H; injection H as <- <- <-; split; intros X; first [reflexivity|discriminate X].
Qed.
