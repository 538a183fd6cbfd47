(** Proofs about telemetry. *)
From Coq Require Import String List Bool Lia.
From Verif Require Import ModelTelemetry SpecTelemetry.
Import ListNotations.
Local Open Scope string_scope.
Local Open Scope list_scope.

(* ---------------------------------------------------------------- lists *)
Lemma nth_set {A} (l : list A) i j a x : nth_error (set_nth l i a) j = Some x -> (j = i /\ x = a) \/ (j <> i /\ nth_error l j = Some x).
Proof.
  revert i j. induction l as [|y l IH]; intros i j H; [destruct i, j; discriminate|]. destruct i, j; cbn in *.
  - left. split; congruence.
  - right. split; [lia|exact H].
  - right. split; [lia|exact H].
  - destruct (IH _ _ H) as [[-> ->]|[]]; [left|right]; split; auto.
Qed.
Lemma nth_set_same {A} (l : list A) i a x : nth_error l i = Some x -> nth_error (set_nth l i a) i = Some a.
Proof. revert i. induction l as [|y l IH]; intros [|i] H; cbn in *; try discriminate; auto. Qed.
Lemma nth_set_other {A} (l : list A) i j a x : nth_error l j = Some x -> i <> j -> nth_error (set_nth l i a) j = Some x.
Proof. revert i j. induction l as [|y l IH]; intros [|i] [|j] H D; cbn in *; try discriminate; try congruence; auto. Qed.
Lemma in_set {A} (l : list A) i a x : In x (set_nth l i a) -> x = a \/ In x l.
Proof.
  intro H. apply In_nth_error in H. destruct H as [j H]. apply nth_set in H. destruct H as [[_ ->]|[_ H]]; [left; reflexivity|right].
  eapply nth_error_In; exact H.
Qed.

(* ---------------------------------------------------------------- all histories *)
Section Any.
Variable b : build.

Lemma aware_app tr es : aware tr -> aware (tr ++ es).
Proof. intros (i & [H|(x & H)]); exists i; [left|right; exists x]; apply in_or_app; left; exact H. Qed.
Lemma aware_last tr i : aware (tr ++ [(i, Noticed)]).
Proof. exists i. left. apply in_or_app. right. left. reflexivity. Qed.

Definition no_send (l : list task) : Prop := forall n, ~ In (Send n) l.
Lemma no_send_repeat n : no_send (repeat Inform n).
Proof. intros m H. apply repeat_spec in H. discriminate. Qed.
(** The user has been told, or told before, or has decided. *)
Definition told (tr : list (nat * event)) (file : option string) (p : process) : Prop := p_silent p = true \/ aware tr \/ file <> None.

Record pinv (tr : list (nat * event)) (file : option string) (i : nat) (p : process) : Prop := {
  v_started : In (i, Started (p_command p) (p_silent p)) tr;
  v_names : forall n, In (Send n) (p_todo p) -> runs (p_command p) n;
  v_enable : In (Apply true false) (p_todo p) -> aware tr;
  v_shape : match p_todo p with
            | Inform :: Send _ :: r => no_send r
            | Send _ :: r => no_send r /\ told tr file p
            | r => no_send r end;
  v_writes : forall s, p_at p = Creating s \/ p_at p = Writing s ->
     (s = "enabled" /\ aware tr) \/ (s = "disabled" /\ exists e d r, p_todo p = Apply e d :: r);
  v_silent : p_silent p = true -> p_at p <> Querying /\ p_at p <> Reading /\ p_at p <> Noticing;
  v_root : forall n r, p_todo p = Send n :: r -> p_at p <> Begin -> n <> "alda";
  v_sends : forall n r, p_todo p = Send n :: r -> p_at p = Begin \/ p_at p = Querying \/ p_at p = Reading;
  v_reports : forall s, p_at p = Reporting s -> exists e d r, p_todo p = Apply e d :: r;
  v_pending : forall n, p_pending p = Some n -> p_silent p = false /\ runs (p_command p) n /\ n <> "alda" /\ aware tr
}.

Lemma told_mono tr es f f' p : told tr f p -> (f <> None -> f' <> None) -> told (tr ++ es) f' p.
Proof. intros [H|[H|H]] F; [left; exact H|right; left; apply aware_app, H|right; right; auto]. Qed.
Lemma pinv_mono tr es f f' i p : pinv tr f i p -> (f <> None -> f' <> None) -> pinv (tr ++ es) f' i p.
Proof.
  intros [] F. constructor; auto.
  - apply in_or_app. left. assumption.
  - intro H. apply aware_app. auto.
  - destruct (p_todo p) as [|[|n|e d] r]; auto. destruct v_shape0. split; [assumption|]. eapply told_mono; eassumption.
  - intros s H. destruct (v_writes0 s H) as [[A B]|B]; [left; split; [exact A|apply aware_app, B]|right; exact B].
  - intros n H. destruct (v_pending0 n H) as (A & B & C & D). repeat split; auto. apply aware_app, D.
Qed.

Lemma tail_names (p : process) t r n : p_todo p = t :: r -> In (Send n) (tl (p_todo p)) -> In (Send n) (p_todo p).
Proof. intros -> H. right. exact H. Qed.

(** Moving within a task. *)
Lemma pinv_at tr f i p a : pinv tr f i p ->
  (forall s, a = Creating s \/ a = Writing s -> (s = "enabled" /\ aware tr) \/ (s = "disabled" /\ exists e d r, p_todo p = Apply e d :: r)) ->
  (p_silent p = true -> a <> Querying /\ a <> Reading /\ a <> Noticing) ->
  (forall n r, p_todo p = Send n :: r -> (a <> Begin -> n <> "alda") /\ (a = Begin \/ a = Querying \/ a = Reading)) ->
  (forall s, a = Reporting s -> exists e d r, p_todo p = Apply e d :: r) ->
  pinv tr f i (at_place a p).
Proof.
  intros [] W S R V. constructor; cbn [p_command p_silent p_at p_todo p_pending at_place]; auto.
  - intros n r H. apply (R n r H).
  - intros n r H. apply (R n r H).
Qed.
(** Finishing a task. *)
Lemma pinv_next tr f i p t r pend : pinv tr f i p -> p_todo p = t :: r ->
  (t = Inform -> told tr f p) ->
  (forall n, pend = Some n -> p_silent p = false /\ runs (p_command p) n /\ n <> "alda" /\ aware tr) ->
  pinv tr f i (Process (p_command p) (p_silent p) Begin (tl (p_todo p)) pend).
Proof.
  intros [] E T P. rewrite E in *. constructor; cbn [p_command p_silent p_at p_todo p_pending tl]; auto.
  - intros n H. apply v_names0. right. exact H.
  - intro H. apply v_enable0. right. exact H.
  - destruct t as [|n|e d]; [|destruct v_shape0 as [v_shape0 _]|]; (destruct r as [|[|m|e' d'] r]; [| |  |]); try (destruct r as [|[|m|e'' d''] r]; [| |  |]).
    all: try (split; [|unfold told in *; cbn; auto]).
    all: try solve [intros k K; apply (v_shape0 k); cbn in *; tauto | exfalso; apply (v_shape0 m); cbn; tauto | exfalso; apply (v_shape0 m0); cbn; tauto | intros k []].
  - intros s [H|H]; discriminate.
  - intros _. repeat split; discriminate.
  - intros; first [discriminate|congruence].
Qed.
Lemma pinv_end tr f i p : pinv tr f i p -> pinv tr f i (give_up p).
Proof.
  intros []. constructor; cbn [p_command p_silent p_at p_todo p_pending give_up]; auto.
  all: try solve [intros n []|intros []|intros s [H|H]; discriminate|intros _; repeat split; discriminate|intros; discriminate].
Qed.

(** What a step may emit. *)
Definition fine (p : process) (es : list event) : Prop :=
  es = [] \/ (es = [Noticed] /\ p_silent p = false) \/ es = [Failed] \/ exists s, es = [Reported s].

Lemma on_status_inv tr f i p t r s p' es : pinv tr f i p -> p_todo p = t :: r -> on_status t s p = (p', es) ->
  (s = NotInformed -> f = None) -> (s = Enabled -> aware tr) -> (s = Disabled -> p_silent p = true \/ f <> None) ->
  (s <> Disabled -> p_silent p = false) -> (forall n, t = Send n -> n <> "alda") ->
  pinv tr f i p' /\ fine p es.
Proof.
  intros I E H N A D S R. assert (I' := I). destruct I'. 
  assert (Q : forall n, t = Send n -> aware tr -> s <> Disabled -> pinv tr f i (request n p)).
  { intros n -> W X. unfold request. eapply pinv_next; [exact I|exact E|discriminate|]. intros m M. injection M as <-.
    repeat split; auto. apply v_names0. rewrite E. left. reflexivity. }
  assert (O : forall a, (forall s, a <> Creating s) -> (forall s, a <> Writing s) -> (forall n, t <> Send n) -> (p_silent p = true -> a <> Querying /\ a <> Reading /\ a <> Noticing) -> (forall s, a = Reporting s -> exists e d, t = Apply e d) -> pinv tr f i (at_place a p)).
  { intros a A1 A2 A3 A4 A5. apply pinv_at; auto.
    - intros x [X|X]; [elim (A1 x X)|elim (A2 x X)].
    - intros n r0 X. rewrite E in X. injection X as X _. elim (A3 n X).
    - intros x X. destruct (A5 x X) as (e & d & ->). rewrite E. eauto. }
  assert (Q2 : forall n, t = Send n -> s = NotInformed -> aware tr).
  { intros n -> ->. rewrite E in v_shape0. destruct v_shape0 as [_ [X|[X|X]]]; [|exact X|elim X; auto]. rewrite S in X by discriminate. discriminate. }
  destruct t as [|n|e d], s; cbn in H; injection H as <- <-; (split; [|unfold fine; eauto 6]).
  all: try (apply O; [intros; discriminate|intros; discriminate|intros; discriminate|intro X; rewrite S in X by discriminate; discriminate|intros; first [discriminate|eauto]]).
  - eapply pinv_next; [exact I|exact E|intros _; right; left; auto|exact v_pending0].
  - eapply pinv_next; [exact I|exact E|intros _; destruct (D eq_refl) as [X|X]; [left; exact X|right; right; exact X]|exact v_pending0].
  - apply Q; [reflexivity|eapply Q2; reflexivity|discriminate].
  - apply Q; auto. discriminate.
  - eapply pinv_next; [exact I|exact E|discriminate|exact v_pending0].
  - eapply pinv_next; [exact I|exact E|discriminate|exact v_pending0].
  - apply O; [intros; discriminate|intros; discriminate|intros; discriminate| |eauto]. intros _. repeat split; discriminate.
  - apply pinv_end, I.
Qed.

Lemma on_written_inv tr f i p t r s ok p' es : pinv tr f i p -> p_todo p = t :: r -> (p_at p = Creating s \/ p_at p = Writing s) -> on_written t s ok p = (p', es) ->
  pinv tr f i p' /\ fine p es.
Proof.
  intros I E W H. assert (I' := I). destruct I'.
  assert (T : t = Inform -> told tr f p).
  { intros ->. destruct (v_writes0 s W) as [[_ A]|(_ & e & d & r' & X)]; [right; left; exact A|]. rewrite E in X. discriminate. }
  assert (O : forall x e d, t = Apply e d -> pinv tr f i (at_place (Reporting x) p)).
  { intros x e d ->. apply pinv_at; auto.
    - intros y [Y|Y]; discriminate.
    - intros _. repeat split; discriminate.
    - intros n r0 X. rewrite E in X. discriminate.
    - rewrite E. eauto. }
  destruct t as [|n|[] []]; cbn in H; try destruct ok; injection H as <- <-; (split; [|unfold fine; eauto 6]).
  all: try (eapply O; reflexivity). all: try (apply pinv_end, I).
  all: (eapply pinv_next; [exact I|exact E|auto|exact v_pending0]); try discriminate.
Qed.

Lemma fine_app p es (i : nat) (tr : list (nat * event)) : fine p es -> (forall j c x, In (j, Started c x) (tr ++ map (fun e => (i, e)) es) -> In (j, Started c x) tr).
Proof.
  intros F j c x H. apply in_app_or in H. destruct H as [H|H]; [exact H|]. exfalso.
  destruct F as [->|[[-> _]|[->|[s ->]]]]; cbn in H; destruct H as [H|[]] || contradiction; discriminate.
Qed.

Lemma short_disabled n : substring 0 n "disabled" <> "enabled".
Proof. destruct n; cbn; discriminate. Qed.

Lemma process_inv tr f i p o f' p' es : pinv tr f i p -> (f = Some "enabled" -> aware tr) -> process_step f p o = Some (f', p', es) ->
  pinv (tr ++ map (fun e => (i, e)) es) f' i p' /\ (f' = Some "enabled" -> aware (tr ++ map (fun e => (i, e)) es)) /\ (f <> None -> f' <> None) /\ fine p es.
Proof.
  intros I F H. assert (I' := I). destruct I'. unfold process_step in H. destruct (p_todo p) as [|t r] eqn:E; [discriminate|].
  assert (K : forall x, Some (f, fst x, snd x) = Some (f', p', es) -> (pinv (tr ++ map (fun e => (i, e)) (snd x)) f i (fst x) /\ fine p (snd x)) ->
    pinv (tr ++ map (fun e => (i, e)) es) f' i p' /\ (f' = Some "enabled" -> aware (tr ++ map (fun e => (i, e)) es)) /\ (f <> None -> f' <> None) /\ fine p es).
  { intros x X [A B]. injection X as <- <- <-. split; [exact A|]. split; [intro Y; apply aware_app; auto|]. split; auto. }
  assert (K2 : forall x, pinv tr f i (fst x) /\ fine p (snd x) -> pinv (tr ++ map (fun e => (i, e)) (snd x)) f i (fst x) /\ fine p (snd x)).
  { intros x [A B]. split; [apply pinv_mono with (f := f); auto|exact B]. }
  destruct (p_at p) eqn:P.
  - assert (B0 : (forall n, t = Send n -> n <> "alda") -> p_silent p = false -> pinv tr f i (at_place Querying p) /\ fine p []).
    { intros B1 S. split; [|left; reflexivity]. apply pinv_at; auto.
      - intros s [X|X]; discriminate.
      - intro X. congruence.
      - intros n r0 X. rewrite E in X. injection X as X _. auto.
      - discriminate. }
    assert (B2 : (forall n, t = Send n -> n <> "alda") -> (if p_silent p then Some (f, fst (on_status t Disabled p), snd (on_status t Disabled p)) else Some (f, at_place Querying p, [])) = Some (f', p', es) ->
      pinv (tr ++ map (fun e => (i, e)) es) f' i p' /\ (f' = Some "enabled" -> aware (tr ++ map (fun e => (i, e)) es)) /\ (f <> None -> f' <> None) /\ fine p es).
    { intros B1 X. destruct (p_silent p) eqn:S.
      - apply (K _ X), K2. destruct (on_status t Disabled p) as [q qs] eqn:Q. cbn. eapply on_status_inv; try exact Q; eauto; try discriminate. intro Z; elim Z; reflexivity.
      - apply (K (at_place Querying p, []) X), K2. cbn. apply B0; auto. }
    assert (W : forall s e d, t = Apply e d -> (s = "enabled" /\ aware tr) \/ s = "disabled" -> pinv tr f i (at_place (Creating s) p) /\ fine p []).
    { intros s e d -> X. split; [|left; reflexivity]. apply pinv_at; auto.
      - intros y [Y|Y]; [|discriminate]. injection Y as <-. destruct X as [X|X]; [left; exact X|right]. split; [exact X|]. rewrite E. eauto.
      - intros _. repeat split; discriminate.
      - intros n r0 Y. rewrite E in Y. discriminate.
      - discriminate. }
    destruct t as [|n|[] []].
    + apply B2; [discriminate|exact H].
    + destruct (String.eqb_spec n "alda") as [->|D].
      * apply (K (next p, []) H), K2. split; [|left; reflexivity]. eapply pinv_next; [exact I|exact E|discriminate|exact v_pending0].
      * apply B2; [intros m M; congruence|exact H].
    + apply (K (give_up p, [Failed]) H), K2. split; [apply pinv_end, I|right; right; left; reflexivity].
    + apply (K (at_place (Creating "enabled") p, []) H), K2. eapply W; [reflexivity|left; split; [reflexivity|apply v_enable0; left; reflexivity]].
    + apply (K (at_place (Creating "disabled") p, []) H), K2. eapply W; [reflexivity|right; reflexivity].
    + apply B2; [discriminate|exact H].
  - assert (S : p_silent p = false) by (destruct (p_silent p) eqn:S; [destruct (v_silent0 eq_refl) as [X _]; elim X; reflexivity|reflexivity]).
    assert (R : pinv tr f i (at_place Reading p) /\ fine p []).
    { split; [|left; reflexivity]. apply pinv_at; auto.
      - intros s [X|X]; discriminate.
      - intro X. congruence.
      - intros n r0 X. rewrite E in X. split; [|right; right; reflexivity]. intros _. apply (v_root0 n r0 X). discriminate.
      - discriminate. }
    destruct f as [c|]; [apply (K _ H), K2, R|]. destruct o; [|apply (K _ H), K2, R].
    apply (K _ H), K2. destruct (on_status t NotInformed p) as [q qs] eqn:Q. cbn. eapply on_status_inv; try exact Q; eauto; try discriminate.
    intros n ->. apply (v_root0 n r eq_refl). discriminate.
  - assert (S : p_silent p = false) by (destruct (p_silent p) eqn:S; [destruct (v_silent0 eq_refl) as (_ & X & _); elim X; reflexivity|reflexivity]).
    assert (U : pinv tr f i (fst (on_status t Unreadable p)) /\ fine p (snd (on_status t Unreadable p))).
    { destruct (on_status t Unreadable p) as [q qs] eqn:Q. cbn. eapply on_status_inv; try exact Q; eauto; try discriminate.
      intros n ->. apply (v_root0 n r eq_refl). discriminate. }
    destruct f as [c|]; [|apply (K _ H), K2, U]. destruct o; [|apply (K _ H), K2, U].
    apply (K _ H), K2. destruct (on_status t (status_of c) p) as [q qs] eqn:Q. cbn. eapply on_status_inv; try exact Q; eauto.
    + unfold status_of. destruct (String.eqb c "enabled"); [discriminate|]. destruct (String.eqb c "disabled"); discriminate.
    + unfold status_of. destruct (String.eqb_spec c "enabled") as [->|]; [auto|]. destruct (String.eqb c "disabled"); discriminate.
    + intros _. right. discriminate.
    + intros n ->. apply (v_root0 n r eq_refl). discriminate.
  - assert (S : p_silent p = false) by (destruct (p_silent p) eqn:S; [destruct (v_silent0 eq_refl) as (_ & _ & X); elim X; reflexivity|reflexivity]).
    apply (K (at_place (Creating "enabled") p, [Noticed]) H). cbn. split; [|right; left; auto].
    apply pinv_at.
    + apply pinv_mono with (f := f); auto.
    + intros s [X|X]; [|discriminate]. injection X as <-. left. split; [reflexivity|apply aware_last].
    + intro X; congruence.
    + intros n r0 X. rewrite E in X. destruct (v_sends0 n r0 X) as [Y|[Y|Y]]; discriminate.
    + discriminate.
  - destruct o.
    + injection H as <- <- <-. split; [|split; [discriminate|split; [discriminate|left; reflexivity]]]. cbn [map]. rewrite app_nil_r.
      assert (Z : pinv tr (Some "") i p) by (rewrite <- (app_nil_r tr); apply pinv_mono with (f := f); [exact I|discriminate]).
      apply pinv_at; auto.
      * intros s [X|X]; [discriminate|]. injection X as <-. rewrite E. apply v_writes0. left. reflexivity.
      * intros _. repeat split; discriminate.
      * intros n r0 X. rewrite E in X. destruct (v_sends0 n r0 X) as [Y|[Y|Y]]; discriminate.
      * discriminate.
    + apply (K _ H), K2. destruct (on_written t status false p) as [q qs] eqn:Q. cbn. eapply on_written_inv; try exact Q; eauto.
  - assert (Z : forall c, pinv tr (Some c) i p) by (intro c; rewrite <- (app_nil_r tr); apply pinv_mono with (f := f); [exact I|discriminate]).
    assert (O : forall c ok q qs, (c = "enabled" -> aware tr) -> on_written t status ok p = (q, qs) -> Some (Some c, q, qs) = Some (f', p', es) ->
      pinv (tr ++ map (fun e => (i, e)) es) f' i p' /\ (f' = Some "enabled" -> aware (tr ++ map (fun e => (i, e)) es)) /\ (f <> None -> f' <> None) /\ fine p es).
    { intros c ok q qs A Q X. assert (X1 : f' = Some c) by congruence. assert (X2 : p' = q) by congruence. assert (X3 : es = qs) by congruence. subst f' p' es.
      destruct (on_written_inv tr (Some c) i p t r status ok q qs (Z c) E) as [U V]; [right; exact P|exact Q|].
      split; [apply pinv_mono with (f := Some c); auto|]. split; [intro Y; apply aware_app, A; congruence|]. split; [discriminate|exact V]. }
    assert (A : status = "enabled" -> aware tr).
    { intros ->. destruct (v_writes0 "enabled" (or_intror eq_refl)) as [[_ X]|[X _]]; [exact X|discriminate]. }
    destruct o as [|n].
    + destruct (on_written t status true p) as [q qs] eqn:Q. eapply O; [|exact Q|exact H]. exact A.
    + destruct (on_written t status false p) as [q qs] eqn:Q. eapply O; [|exact Q|exact H].
      intro X. destruct (v_writes0 status (or_intror eq_refl)) as [[-> Y]|[-> _]]; [exact Y|]. elim (short_disabled n X).
  - apply (K (next p, [Reported status]) H), K2. cbn. split; [|right; right; right; eauto].
    unfold next. eapply pinv_next; [exact I|exact E| |exact v_pending0].
    intros ->. destruct (v_reports0 status eq_refl) as (e & d & r0 & X). discriminate.
Qed.

Definition sound (tr : list (nat * event)) : Prop := forall before i r after, tr = before ++ (i, Sent r) :: after ->
  aware before /\ exists c n, In (i, Started c false) before /\ runs c n /\ n <> "alda" /\ r = payload b n.

Record inv (s : system) (tr : list (nat * event)) : Prop := {
  i_sound : sound tr;
  i_file : s_file s = Some "enabled" -> aware tr;
  i_procs : forall i p, nth_error (s_processes s) i = Some p -> pinv tr (s_file s) i p;
  i_started : forall i c x, In (i, Started c x) tr -> exists p, nth_error (s_processes s) i = Some p /\ p_command p = c /\ p_silent p = x;
  i_noticed : forall i, In (i, Noticed) tr -> exists c, In (i, Started c false) tr
}.

Lemma sound_add tr e : sound tr -> (forall i r, e = (i, Sent r) -> aware tr /\ exists c n, In (i, Started c false) tr /\ runs c n /\ n <> "alda" /\ r = payload b n) -> sound (tr ++ [e]).
Proof.
  intros S H before i r after X.
  destruct (exists_last (l := (i, Sent r) :: after)) as (mid & z & Y); [discriminate|]. rewrite Y in X.
  rewrite app_assoc in X. apply app_inj_tail in X. destruct X as [X ->].
  destruct mid as [|m mid].
  - cbn in Y. injection Y as Y ->. rewrite app_nil_r in X. subst before. apply H. exact (eq_sym Y).
  - cbn in Y. injection Y as <- Y. apply (S before i r mid X).
Qed.

Lemma aware_started tr i c x : aware (tr ++ [(i, Started c x)]) \/ True.
Proof. right. exact I. Qed.

Lemma program_shape c : match program c with
  | Inform :: Send _ :: r => no_send r
  | Send _ :: r => False
  | r => no_send r end.
Proof.
  destruct c as [n|name args n|e d]; cbn.
  - assert (H := no_send_repeat (S n)). cbn in H. destruct n; exact H.
  - apply no_send_repeat.
  - intros n [H|[]]. discriminate.
Qed.
Lemma program_names c n : In (Send n) (program c) -> runs c n.
Proof.
  destruct c as [k|name args k|e d]; cbn; intro H.
  - destruct H as [H|H]; [discriminate|]. elim (no_send_repeat k n H).
  - destruct H as [H|[H|H]]; [discriminate| |elim (no_send_repeat k n H)]. injection H as ->. constructor.
  - destruct H as [H|[H|[H|[]]]]; try discriminate. injection H as <-. constructor.
Qed.
Lemma program_apply c e d : In (Apply e d) (program c) -> c = Telemetry e d.
Proof.
  destruct c as [k|name args k|e' d']; cbn; intro H.
  - destruct H as [H|H]; [discriminate|]. apply repeat_spec in H. discriminate.
  - destruct H as [H|[H|H]]; try discriminate. apply repeat_spec in H. discriminate.
  - destruct H as [H|[H|[H|[]]]]; try discriminate. congruence.
Qed.

Lemma step_inv s tr l s' es : inv s tr -> system_step b s l = Some (s', es) -> inv s' (tr ++ es).
Proof.
  intros [] H. destruct l as [c x|i o|i|i]; cbn [system_step] in H.
  - injection H as <- <-. constructor; cbn [s_file s_processes].
    + apply sound_add; [assumption|]. intros i r E. discriminate.
    + intro X. apply aware_app. auto.
    + intros i p X. destruct (PeanoNat.Nat.lt_ge_cases i (length (s_processes s))) as [L|L].
      * rewrite nth_error_app1 in X by exact L. apply pinv_mono with (f := s_file s); auto.
      * rewrite nth_error_app2 in X by exact L. destruct (i - length (s_processes s)) as [|k] eqn:D; [|destruct k; discriminate].
        injection X as <-. replace i with (length (s_processes s)) by lia.
        constructor; cbn [p_command p_silent p_at p_todo p_pending].
        -- apply in_or_app. right. left. reflexivity.
        -- apply program_names.
        -- intro X. apply program_apply in X. subst c. exists (length (s_processes s)). right. exists x. apply in_or_app. right. left. reflexivity.
        -- assert (Y := program_shape c). destruct (program c) as [|[|n|e d] r]; auto. destruct Y.
        -- intros y [Y|Y]; discriminate.
        -- intros _. repeat split; discriminate.
        -- intros n r _ Y. congruence.
        -- intros n r _. left. reflexivity.
        -- discriminate.
        -- discriminate.
    + intros i c' x' X. apply in_app_or in X. destruct X as [X|[X|[]]].
      * destruct (i_started0 i c' x' X) as (p & P & Q). exists p. split; [|exact Q]. rewrite nth_error_app1; [exact P|]. apply nth_error_Some. congruence.
      * injection X as <- <- <-. eexists. split; [rewrite nth_error_app2 by lia; rewrite PeanoNat.Nat.sub_diag; reflexivity|]. split; reflexivity.
    + intros i X. apply in_app_or in X. destruct X as [X|[X|[]]]; [|discriminate]. destruct (i_noticed0 i X) as [c' Y]. exists c'. apply in_or_app. left. exact Y.
  - destruct (nth_error (s_processes s) i) as [p|] eqn:P; [|discriminate]. destruct (process_step (s_file s) p o) as [[[f' p'] es']|] eqn:Q; [|discriminate].
    injection H as <- <-. destruct (process_inv _ _ _ _ _ _ _ _ (i_procs0 i p P) i_file0 Q) as (A & B & C & D).
    assert (E : p_command p' = p_command p /\ p_silent p' = p_silent p).
    { revert Q. clear. unfold process_step, on_status, on_written, at_place, next, give_up, request. intro Q.
      destruct (p_todo p) as [|[|n|[] []] r]; [discriminate| | | | | |]; destruct (p_at p); cbn in Q.
      all: repeat match type of Q with context [match ?y with _ => _ end] => destruct y; cbn in Q end.
      all: try discriminate; injection Q as _ <- _; split; reflexivity. }
    constructor; cbn [s_file s_processes].
    + destruct D as [->|[[-> _]|[->|[y ->]]]]; [rewrite app_nil_r; assumption|apply sound_add; [assumption|intros; discriminate]..].
    + exact B.
    + intros j q X. apply nth_set in X. destruct X as [[-> ->]|[N X]]; [exact A|]. apply pinv_mono with (f := s_file s); auto.
    + intros j c x X. apply (fine_app p es' i tr D) in X. destruct (i_started0 j c x X) as (q & U & V & W).
      destruct (PeanoNat.Nat.eq_dec i j) as [->|N].
      * exists p'. split; [eapply nth_set_same; exact P|]. assert (q = p) by congruence. subst q. destruct E. split; congruence.
      * exists q. split; [apply nth_set_other; auto|]. split; assumption.
    + intros j X. apply in_app_or in X. destruct X as [X|X].
      * destruct (i_noticed0 j X) as [c Y]. exists c. apply in_or_app. left. exact Y.
      * exists (p_command p). apply in_or_app. left. apply in_map_iff in X. destruct X as (e & Y & Z). injection Y as <- ->.
        destruct D as [->|[[-> S]|[->|[y ->]]]]; cbn in Z; try contradiction; try (destruct Z as [Z|[]]; discriminate).
        rewrite <- S. apply (v_started _ _ _ _ (i_procs0 i p P)).
  - destruct (nth_error (s_processes s) i) as [p|] eqn:P; [|discriminate]. destruct (p_pending p) as [n|] eqn:Q; [|discriminate]. injection H as <- <-.
    assert (V := i_procs0 i p P). constructor; cbn [s_file s_processes].
    + apply sound_add; [assumption|]. intros j r E. injection E as <- <-. destruct (v_pending _ _ _ _ V n Q) as (A & B & C & D).
      split; [exact D|]. exists (p_command p), n. split; [rewrite <- A; apply (v_started _ _ _ _ V)|]. auto.
    + intro X. apply aware_app. auto.
    + intros j q X. apply nth_set in X. destruct X as [[-> ->]|[N X]]; [|apply pinv_mono with (f := s_file s); auto].
      apply pinv_mono with (f := s_file s); [|auto]. destruct V. constructor; cbn [p_command p_silent p_at p_todo p_pending]; auto. discriminate.
    + intros j c x X. apply in_app_or in X. destruct X as [X|[X|[]]]; [|discriminate]. destruct (i_started0 j c x X) as (q & U & Z & W).
      destruct (PeanoNat.Nat.eq_dec i j) as [->|N].
      * eexists. split; [eapply nth_set_same; exact P|]. assert (q = p) by congruence. subst q. cbn. auto.
      * exists q. split; [apply nth_set_other; auto|]. split; assumption.
    + intros j X. apply in_app_or in X. destruct X as [X|[X|[]]]; [|discriminate]. destruct (i_noticed0 j X) as [c Y]. exists c. apply in_or_app. left. exact Y.
  - destruct (nth_error (s_processes s) i) as [p|] eqn:P; [|discriminate]. injection H as <- <-. rewrite app_nil_r.
    assert (V := i_procs0 i p P). constructor; cbn [s_file s_processes]; auto.
    + intros j q X. apply nth_set in X. destruct X as [[-> ->]|[N X]]; [|auto].
      apply pinv_end in V. destruct V. constructor; cbn [p_command p_silent p_at p_todo p_pending give_up] in *; auto. discriminate.
    + intros j c x X. destruct (i_started0 j c x X) as (q & U & Z & W).
      destruct (PeanoNat.Nat.eq_dec i j) as [->|N].
      * eexists. split; [eapply nth_set_same; exact P|]. assert (q = p) by congruence. subst q. cbn. auto.
      * exists q. split; [apply nth_set_other; auto|]. split; assumption.
Qed.

Lemma history_inv ls : forall s tr s' es, inv s tr -> history b s ls = Some (s', es) -> inv s' (tr ++ es).
Proof.
  induction ls as [|l ls IH]; intros s tr s' es I H; cbn in H.
  - injection H as <- <-. rewrite app_nil_r. exact I.
  - destruct (system_step b s l) as [[s1 e1]|] eqn:S; [|discriminate]. destruct (history b s1 ls) as [[s2 e2]|] eqn:T; [|discriminate].
    injection H as <- <-. rewrite app_assoc. eapply IH; [|exact T]. eapply step_inv; eassumption.
Qed.
Lemma fresh_inv : inv fresh [].
Proof.
  constructor; cbn.
  - intros before i r after E. destruct before; discriminate.
  - discriminate.
  - intros [|i]; discriminate.
  - intros i c x [].
  - intros i [].
Qed.

Lemma c66_sent ls s es before i r after : history b fresh ls = Some (s, es) -> es = before ++ (i, Sent r) :: after ->
  aware before /\ exists c name, In (i, Started c false) before /\ runs c name /\ name <> "alda" /\
    r = [("os", b_os b); ("arch", b_arch b); ("version", b_version b); ("command", name)].
Proof. intros H E. apply (history_inv _ _ _ _ _ fresh_inv) in H. destruct H as [S _ _ _ _]. apply (S before i r after E). Qed.

Lemma c66_silent ls s es i c : history b fresh ls = Some (s, es) -> In (i, Started c true) es -> ~ In (i, Noticed) es /\ forall r, ~ In (i, Sent r) es.
Proof.
  intros H E. apply (history_inv _ _ _ _ _ fresh_inv) in H. cbn [app] in H. destruct H as [S _ _ U V].
  destruct (U i c true E) as (p & P & _ & Q).
  assert (K : forall c', In (i, Started c' false) es -> False).
  { intros c' X. destruct (U i c' false X) as (p' & P' & _ & Q'). congruence. }
  split.
  - intro X. destruct (V i X) as [c' Y]. eauto.
  - intros r X. apply in_split in X. destruct X as (l1 & l2 & X). destruct (S l1 i r l2 X) as (_ & c' & n & Y & _). apply (K c'). rewrite X. apply in_or_app. left. exact Y.
Qed.

(* ---------------------------------------------------------------- disabled *)
(** A process that finds telemetry disabled. *)
Record off (p : process) : Prop := {
  o_pending : p_pending p = None;
  o_at : p_todo p = [] \/ p_at p = Begin \/ p_at p = Querying \/ p_at p = Reading \/ exists s, p_at p = Reporting s;
  o_todo : forall e d, In (Apply e d) (p_todo p) -> e = d
}.
Definition harmless (es : list event) : Prop := forall e, In e es -> e <> Noticed /\ forall r, e <> Sent r.

Lemma off_step p f' p' es : off p -> process_step (Some "disabled") p Good = Some (f', p', es) -> f' = Some "disabled" /\ off p' /\ harmless es.
Proof.
  intros [P A T] H. unfold process_step in H. destruct (p_todo p) as [|t r] eqn:E; [discriminate|].
  assert (N : off (next p)).
  { constructor; cbn; [exact P|right; left; reflexivity|]. rewrite E. cbn. intros e d X. apply T. right. exact X. }
  assert (G : off (give_up p)) by (constructor; cbn; [exact P|left; reflexivity|intros e d []]).
  assert (M : forall a, (a = Querying \/ a = Reading \/ exists s, a = Reporting s) -> off (at_place a p)).
  { intros a X. constructor; cbn; [exact P|right; right; exact X|]. rewrite E. exact T. }
  assert (Z : harmless []) by (intros e []).
  assert (F : harmless [Failed]) by (intros e [<-|[]]; split; [discriminate|intros; discriminate]).
  destruct t as [|n|e d]; [| |assert (e = d) by (apply T; left; reflexivity); subst d];
    (destruct A as [A|A]; [congruence|]); destruct A as [A|[A|[A|[s A]]]]; rewrite A in H; cbn in H;
    repeat match type of H with context [if ?y then _ else _] => destruct y; cbn in H end;
    injection H as <- <- <-.
  all: split; [reflexivity|]; split; auto; try (apply M; eauto).
  all: intros x [<-|[]]; split; [discriminate|intros; discriminate].
Qed.

Lemma c66_disabled ls : forall s s' es, s_file s = Some "disabled" -> (forall p, In p (s_processes s) -> off p) ->
  (forall c x status, In (Starts c x) ls -> ~ changes c status) -> (forall i o, In (Runs i o) ls -> o = Good) ->
  history b s ls = Some (s', es) -> s_file s' = Some "disabled" /\ forall i, ~ In (i, Noticed) es /\ forall r, ~ In (i, Sent r) es.
Proof.
  induction ls as [|l ls IH]; intros s s' es F P C O H; cbn in H.
  - injection H as <- <-. split; [exact F|]. intro i. split; [intros []|intros r []].
  - destruct (system_step b s l) as [[s1 e1]|] eqn:S; [|discriminate]. destruct (history b s1 ls) as [[s2 e2]|] eqn:T; [|discriminate]. injection H as <- <-.
    assert (K : s_file s1 = Some "disabled" /\ (forall p, In p (s_processes s1) -> off p) /\ forall i, ~ In (i, Noticed) e1 /\ forall r, ~ In (i, Sent r) e1).
    { destruct l as [c x|i o|i|i]; cbn in S.
      - injection S as <- <-. cbn. split; [exact F|]. split.
        + intros p X. apply in_app_or in X. destruct X as [X|[<-|[]]]; [auto|]. constructor; cbn; auto.
          intros e d X. apply program_apply in X. subst c. destruct e, d; try reflexivity; exfalso; (eapply (C _ x); [left; reflexivity|constructor]).
        + intro i. split; [|intro r]; intros [X|[]]; discriminate.
      - destruct (nth_error (s_processes s) i) as [p|] eqn:N; [|discriminate]. destruct (process_step (s_file s) p o) as [[[f' p'] es']|] eqn:Q; [|discriminate].
        injection S as <- <-. rewrite F in Q. rewrite (O i o (or_introl eq_refl)) in Q. destruct (off_step p f' p' es' (P p (nth_error_In _ _ N)) Q) as (A & B & D).
        cbn. split; [exact A|]. split; [intros q X; apply in_set in X; destruct X as [->|X]; auto|].
        intro j. split; [|intro r]; intro X; apply in_map_iff in X; destruct X as (e & X & Y); injection X as _ ->; destruct (D _ Y) as [D1 D2]; [apply D1|eapply D2]; reflexivity.
      - destruct (nth_error (s_processes s) i) as [p|] eqn:N; [|discriminate]. destruct (P p (nth_error_In _ _ N)) as [X _ _]. rewrite X in S. discriminate.
      - destruct (nth_error (s_processes s) i) as [p|] eqn:N; [|discriminate]. injection S as <- <-. cbn. split; [exact F|]. split.
        + intros q X. apply in_set in X. destruct X as [->|X]; [|auto]. constructor; cbn; [reflexivity|left; reflexivity|intros e d []].
        + intro j. split; [|intro r]; intros []. }
    destruct K as (K1 & K2 & K3). destruct (IH s1 s2 e2 K1 K2) as [A B]; [intros c x st X; apply (C c x st); right; exact X|intros i o X; apply (O i o); right; exact X|exact T|].
    split; [exact A|]. intro i. destruct (K3 i) as [U V], (B i) as [U' V']. split; [|intro r]; intro X; apply in_app_or in X; destruct X as [X|X]; first [exact (U X)|exact (U' X)|exact (V r X)|exact (V' r X)].
Qed.
Lemma c66_off s ls s' es : quiet s -> s_file s = Some "disabled" ->
  (forall c x status, In (Starts c x) ls -> ~ changes c status) -> (forall i o, In (Runs i o) ls -> o = Good) ->
  history b s ls = Some (s', es) -> s_file s' = Some "disabled" /\ forall i, ~ In (i, Noticed) es /\ forall r, ~ In (i, Sent r) es.
Proof.
  intros Q F. apply c66_disabled; [exact F|]. intros p X. destruct (Q p X) as [A B]. split; [exact B|left; exact A|]. rewrite A. intros e d [].
Qed.

(* ---------------------------------------------------------------- one command alone *)
Definition over (p : process) : Prop := p_todo p = [] /\ p_pending p = None.
(** The only process that is not over, and that has reported, has written. *)
Definition settled (status : string) (s : system) (i : nat) (tr : list (nat * event)) : Prop :=
  exists p, nth_error (s_processes s) i = Some p /\
    (forall j q, nth_error (s_processes s) j = Some q -> j <> i -> over q) /\
    (forall j st, In (j, Reported st) tr -> p_todo p = [] /\ st = status /\ s_file s = Some status) /\
    match p_todo p with
    | [Inform; Send _; t] => (forall x, p_at p <> Reporting x) /\ exists e d, t = Apply e d /\ changes (Telemetry e d) status
    | [Send _; t] => (forall x, p_at p <> Reporting x) /\ exists e d, t = Apply e d /\ changes (Telemetry e d) status
    | [Apply e d] => changes (Telemetry e d) status /\ (p_at p = Begin \/ p_at p = Creating status \/ p_at p = Writing status \/ (p_at p = Reporting status /\ s_file s = Some status))
    | [] => True
    | _ => False
    end.

Lemma alone_first f p o f' p' es n t : p_todo p = [Inform; Send n; t] -> (forall x, p_at p <> Reporting x) -> process_step f p o = Some (f', p', es) ->
  (forall st, ~ In (Reported st) es) /\ ((p_todo p' = [Inform; Send n; t] /\ forall x, p_at p' <> Reporting x) \/ (p_todo p' = [Send n; t] /\ p_at p' = Begin)).
Proof.
  intros E A H. unfold process_step in H. rewrite E in H.
  destruct (p_at p) eqn:P; try (exfalso; eapply A; reflexivity).
  all: cbn [on_status on_written] in H.
  all: repeat match type of H with context [match ?y with _ => _ end] => destruct y; cbn in H end.
  all: injection H as <- <- <-; cbn; rewrite ?E; (split; [intros st X; cbn in X; intuition discriminate|]).
  all: try (right; split; reflexivity).
  all: left; split; [reflexivity|intros; discriminate].
Qed.
Lemma alone_second f p o f' p' es n t : p_todo p = [Send n; t] -> (forall x, p_at p <> Reporting x) -> process_step f p o = Some (f', p', es) ->
  (forall st, ~ In (Reported st) es) /\ ((p_todo p' = [Send n; t] /\ forall x, p_at p' <> Reporting x) \/ (p_todo p' = [t] /\ p_at p' = Begin)).
Proof.
  intros E A H. unfold process_step in H. rewrite E in H.
  destruct (p_at p) eqn:P; try (exfalso; eapply A; reflexivity).
  all: cbn [on_status on_written] in H.
  all: repeat match type of H with context [match ?y with _ => _ end] => destruct y; cbn in H end.
  all: injection H as <- <- <-; cbn; rewrite ?E; (split; [intros st X; cbn in X; intuition discriminate|]).
  all: try (right; split; reflexivity).
  all: left; split; [reflexivity|intros; discriminate].
Qed.
Definition writing (status : string) (f : option string) (p : process) : Prop :=
  p_at p = Begin \/ p_at p = Creating status \/ p_at p = Writing status \/ (p_at p = Reporting status /\ f = Some status).
Lemma alone_last status f p o f' p' es e d : p_todo p = [Apply e d] -> changes (Telemetry e d) status -> writing status f p ->
  process_step f p o = Some (f', p', es) ->
  (p_todo p' = [Apply e d] /\ writing status f' p' /\ forall st, ~ In (Reported st) es) \/
  (p_todo p' = [] /\ forall st, In (Reported st) es -> st = status /\ f' = Some status).
Proof.
  intros E C W H. unfold process_step in H. rewrite E in H. unfold writing in *.
  assert (Z : (e = true /\ d = false /\ status = "enabled") \/ (e = false /\ d = true /\ status = "disabled")) by (inversion C; auto).
  destruct Z as [(-> & -> & ->)|(-> & -> & ->)].
  all: destruct W as [W|[W|[W|[W F]]]]; rewrite W in H; cbn in H; try destruct o; injection H as <- <- <-; cbn; rewrite ?E.
  all: try (left; split; [reflexivity|]; split; [|intros st []]; solve [auto]).
  all: try (right; split; [reflexivity|]; intros st X; cbn in X; destruct X as [X|[]]; try discriminate; injection X as <-; auto).
Qed.

Lemma alone_step status s i tr l s' es : (forall c x, l <> Starts c x) -> settled status s i tr -> system_step b s l = Some (s', es) -> settled status s' i (tr ++ es).
Proof.
  intros L (p & P & O & R & T) H. destruct l as [c x|j o|j|j]; cbn in H; [elim (L c x eq_refl)| | |].
  - destruct (nth_error (s_processes s) j) as [q|] eqn:Q; [|discriminate]. destruct (process_step (s_file s) q o) as [[[f' p'] es']|] eqn:S; [|discriminate].
    injection H as <- <-. destruct (PeanoNat.Nat.eq_dec j i) as [->|N].
    2:{ destruct (O j q Q N) as [X _]. unfold process_step in S. rewrite X in S. discriminate. }
    assert (q = p) by congruence. subst q. exists p'. cbn [s_file s_processes].
    split; [eapply nth_set_same; exact P|]. split.
    { intros k q X D. apply nth_set in X. destruct X as [[X _]|[_ X]]; [elim (D X)|eauto]. }
    assert (R0 : p_todo p <> [] -> forall k st, ~ In (k, Reported st) tr) by (intros X k st Y; apply X; apply (R k st Y)).
    assert (M : forall k st, In (k, Reported st) (tr ++ map (fun e => (i, e)) es') -> p_todo p <> [] -> In (Reported st) es').
    { intros k st X Y. apply in_app_or in X. destruct X as [X|X]; [elim (R0 Y k st X)|]. apply in_map_iff in X. destruct X as (e & U & V). injection U as _ ->. exact V. }
    destruct (p_todo p) as [|[|n|e d] r] eqn:E; [unfold process_step in S; rewrite E in S; discriminate| | |].
    + destruct r as [|[|n|e d] [|t [|]]]; try contradiction. destruct T as (A & e & d & -> & C).
      destruct (alone_first _ _ _ _ _ _ _ _ E A S) as [U [[V W]|[V W]]]; rewrite V; (split; [intros k st X; apply M in X; [elim (U st X)|discriminate]|]).
      * split; [exact W|eauto].
      * split; [rewrite W; intros; discriminate|eauto].
    + destruct r as [|t [|]]; try contradiction. destruct T as (A & e & d & -> & C).
      destruct (alone_second _ _ _ _ _ _ _ _ E A S) as [U [[V W]|[V W]]]; rewrite V; (split; [intros k st X; apply M in X; [elim (U st X)|discriminate]|]).
      * split; [exact W|eauto].
      * split; [exact C|left; exact W].
    + destruct r as [|t r]; try contradiction. destruct T as (C & W).
      destruct (alone_last _ _ _ _ _ _ _ _ _ E C W S) as [(V & X & U)|(V & U)]; rewrite V.
      * split; [intros k st Y; apply M in Y; [elim (U st Y)|discriminate]|]. split; [exact C|exact X].
      * split; [|exact I]. intros k st Y. apply M in Y; [|discriminate]. destruct (U st Y). auto.
  - destruct (nth_error (s_processes s) j) as [q|] eqn:Q; [|discriminate]. destruct (p_pending q) as [n|] eqn:S; [|discriminate]. injection H as <- <-.
    destruct (PeanoNat.Nat.eq_dec j i) as [->|N].
    2:{ destruct (O j q Q N) as [_ X]. congruence. }
    assert (q = p) by congruence. subst q. eexists. cbn [s_file s_processes]. split; [eapply nth_set_same; exact P|]. split.
    { intros k q X D. apply nth_set in X. destruct X as [[X _]|[_ X]]; [elim (D X)|eauto]. }
    cbn [p_todo p_at]. split; [|exact T]. intros k st X. apply in_app_or in X. destruct X as [X|[X|[]]]; [eauto|discriminate].
  - destruct (nth_error (s_processes s) j) as [q|] eqn:Q; [|discriminate]. injection H as <- <-. rewrite app_nil_r.
    destruct (PeanoNat.Nat.eq_dec j i) as [->|N].
    + assert (q = p) by congruence. subst q. eexists. cbn [s_file s_processes]. split; [eapply nth_set_same; exact P|]. split.
      { intros k q X D. apply nth_set in X. destruct X as [[X _]|[_ X]]; [elim (D X)|eauto]. }
      cbn [p_todo p_at]. split; [|exact I]. intros k st X. destruct (R k st X) as (_ & Y). auto.
    + exists p. cbn [s_file s_processes]. split; [apply nth_set_other; [exact P|congruence]|]. split; [|auto].
      intros k q' X D. apply nth_set in X. destruct X as [[-> ->]|[_ X]]; [split; reflexivity|eauto].
Qed.
Lemma alone_history status i ls : forall s tr s' es, (forall c x, ~ In (Starts c x) ls) -> settled status s i tr -> history b s ls = Some (s', es) -> settled status s' i (tr ++ es).
Proof.
  induction ls as [|l ls IH]; intros s tr s' es L I H; cbn in H.
  - injection H as <- <-. rewrite app_nil_r. exact I.
  - destruct (system_step b s l) as [[s1 e1]|] eqn:S; [|discriminate]. destruct (history b s1 ls) as [[s2 e2]|] eqn:T; [|discriminate].
    injection H as <- <-. rewrite app_assoc. eapply IH; [|eapply alone_step; [|exact I|exact S]|exact T].
    + intros c x X. apply (L c x). right. exact X.
    + intros c x ->. apply (L c x). left. reflexivity.
Qed.
Lemma c66_set s c status x ls s' es i st : quiet s -> changes c status -> (forall c' y, ~ In (Starts c' y) ls) ->
  history b s (Starts c x :: ls) = Some (s', es) -> In (i, Reported st) es -> st = status /\ s_file s' = Some status.
Proof.
  intros Q C L H R. cbn [history system_step] in H.
  set (s1 := System (s_file s) (s_processes s ++ [Process c x Begin (program c) None])) in *.
  destruct (history b s1 ls) as [[s2 e2]|] eqn:T; [|discriminate]. injection H as <- <-.
  destruct (alone_history status (length (s_processes s)) ls s1 [] s2 e2) as (p & _ & _ & X & _); [exact L| |exact T|].
  - eexists. unfold s1. cbn [s_file s_processes]. split; [rewrite nth_error_app2 by lia; rewrite PeanoNat.Nat.sub_diag; reflexivity|]. split.
    + intros j q X D. destruct (PeanoNat.Nat.lt_ge_cases j (length (s_processes s))) as [K|K].
      * rewrite nth_error_app1 in X by exact K. apply (Q q). eapply nth_error_In; exact X.
      * rewrite nth_error_app2 in X by exact K. destruct (j - length (s_processes s)) as [|k] eqn:Y; [lia|destruct k; discriminate].
    + split; [intros j y []|]. cbn [p_todo p_at]. inversion C; cbn; (split; [intros; discriminate|]); repeat eexists; constructor.
  - destruct R as [R|R]; [discriminate|]. destruct (X i st R) as (_ & A & B). auto.
Qed.
End Any.
