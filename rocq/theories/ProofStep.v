(** Every update is a sequence of a few kinds of primitive steps, whatever its
    outcome.  Invariants are then proved step by step. *)
From Coq Require Import ZArith List String Bool Lia Arith.
From Verif Require Import Base Num ModelPitch ModelDuration ModelInstruments ModelTypes ModelLisp
  ModelScore SpecScore ProofHeap.
Import ListNotations.

Section Step.
Context {N : Num}.

(** The identity of a part: what plain attribute changes and movement in time
    leave alone. *)
Definition soft (p q : part) : Prop :=
  pname q = pname p /\ pstock q = pstock p /\ pmaster q = pmaster p /\ pchan q = pchan p /\
  pexplicit q = pexplicit p /\ ptmpl q = ptmpl p /\ porigin q = porigin p /\ pvoices q = pvoices p.

Lemma upd_all_list : forall L l,
  (fix go (l : list update) : Prop := match l with [] => True | e :: t => upd_all L e /\ go t end) l
  <-> Forall (upd_all L) l.
Proof.
  intros L. induction l as [|e t IH]; [split; auto|]. split.
  - intros [A B]. constructor; [exact A|apply IH; exact B].
  - intros H. inversion H; subst. split; [assumption|apply IH; assumption].
Qed.

(** The same for what the score has stored: variables and global attributes. *)
Definition store_all (L : label -> Prop) (s : score) : Prop :=
  (forall n es, In (n, es) (variables s) -> Forall (upd_all L) es) /\
  (forall off us, In (off, us) (ga_itin (globals s)) -> Forall (pu_all L) us).

Section Labelled.
Variable L : label -> Prop.

Inductive lstep (s : score) : score -> Prop :=
| St_soft p v : In p (current s) -> soft (getp s p) v ->
    ptvals v = ptvals (getp s p) \/ (L LTempo /\ v = record_tempo (set_ptempo (ptempo v) (getp s p))) ->
    lstep s (setp p v s)
| St_chan p c : In p (current s) ->
    (c = 9%Z -> iperc (pstock (getp s p)) = true) -> L (LChan c) ->
    lstep s (setp p (set_pexplicit true (set_pchan c (getp s p))) s)
| St_emit pi sl dms p s' : In p (current s) -> emit_note pi sl dms p s = (s', Ok) -> lstep s s'
| St_globals off u : pu_all L u -> L LGlobal -> lstep s (set_globals (ga_record off u (globals s)) s)
| St_markers name off : L (LMark name) ->
    lstep s (set_markers (aset String.eqb name off (markers s)) s)
| St_vars name es vs : rmapl (var_value (variables s)) es = ROk vs -> Forall (upd_all L) es -> L (LDef name) ->
    lstep s (set_variables (aset String.eqb name vs (variables s)) s)
| St_chord b : lstep s (set_chordmode b s)
| St_voice p n v s1 : In p (current s) -> get_voice p n s = ROk (v, s1) -> L (LVoice n) ->
    lstep s (set_current (redirect s1 (porigin (getp s1 p)) v (current s1)) s1)
| St_vend l : (l = LEnd \/ exists names alias, l = LPart names alias) -> L l ->
    lstep s (run_voice_end s)
| St_part names alias s' : run_part names alias s = (s', Ok) -> L (LPart names alias) -> lstep s s'.

Inductive lstar (s : score) : score -> Prop :=
| star_refl : lstar s s
| star_step t u : lstar s t -> lstep t u -> lstar s u.

Notation star := lstar.
Notation step := lstep.

Lemma star_trans : forall a b c, star a b -> star b c -> star a c.
Proof. intros a b c H1 H2. induction H2; [assumption|econstructor; eassumption]. Qed.
Lemma star_one : forall a b, step a b -> star a b.
Proof. intros. econstructor; [constructor|assumption]. Qed.

(* ---------------- the stored updates stay allowed ---------------- *)

Lemma var_value_all : forall vars, (forall n es, In (n, es) vars -> Forall (upd_all L) es) ->
  forall u v, upd_all L u -> var_value vars u = ROk v -> upd_all L v.
Proof.
  intros vars Hv u. induction u using update_ind'; intros v Hu H0; cbn [var_value] in H0;
    try (inversion H0; subst; exact Hu).
  - cbn [upd_all] in Hu. unfold rmap, rbind in H0.
    destruct (eval_update els) as [[q|]|m|m]; inversion H0; subst; cbn; [exact Hu|exact I].
  - (* chord *)
    unfold rmap, rbind in H0. cbn [upd_all] in Hu. rewrite upd_all_list in Hu.
    match type of H0 with match ?x with _ => _ end = _ => destruct x as [vs|m|m] eqn:E end; inversion H0; subst.
    cbn [upd_all]. rewrite upd_all_list. clear H0. revert vs E.
    induction H as [|e t He Ht IH]; intros vs E; [inversion E; constructor|].
    inversion Hu; subst. unfold rbind in E.
    destruct (var_value vars e) as [w|m|m] eqn:E1; try discriminate.
    match type of E with match ?x with _ => _ end = _ => destruct x as [ws|m|m] eqn:E2 end; inversion E; subst.
    constructor; [apply He; [assumption|reflexivity]|apply IH; [assumption|reflexivity]].
  - unfold rmap, rbind in H0. cbn [upd_all] in Hu. rewrite upd_all_list in Hu.
    match type of H0 with match ?x with _ => _ end = _ => destruct x as [vs|m|m] eqn:E end; inversion H0; subst.
    cbn [upd_all]. rewrite upd_all_list. clear H0. revert vs E.
    induction H as [|e t He Ht IH]; intros vs E; [inversion E; constructor|].
    inversion Hu; subst. unfold rbind in E.
    destruct (var_value vars e) as [w|m|m] eqn:E1; try discriminate.
    match type of E with match ?x with _ => _ end = _ => destruct x as [ws|m|m] eqn:E2 end; inversion E; subst.
    constructor; [apply He; [assumption|reflexivity]|apply IH; [assumption|reflexivity]].
  - unfold rmap, rbind in H0. destruct (var_value vars u) eqn:E; inversion H0; subst. cbn [upd_all] in Hu |- *.
    destruct Hu as [Hu1 Hu]. split; [exact Hu1|]. apply IHu; [exact Hu|reflexivity].
  - unfold rmap, rbind in H0. destruct (var_value vars u) eqn:E; inversion H0; subst. cbn [upd_all] in Hu |- *.
    destruct Hu as [Hu1 Hu]. split; [exact Hu1|]. apply IHu; [exact Hu|reflexivity].
  - unfold rmap, rbind in H0. cbn [upd_all] in Hu. rewrite upd_all_list in Hu.
    match type of H0 with match ?x with _ => _ end = _ => destruct x as [vs|m|m] eqn:E end; inversion H0; subst.
    cbn [upd_all]. rewrite upd_all_list. clear H0. revert vs E.
    induction H as [|e t He Ht IH]; intros vs E; [inversion E; constructor|].
    inversion Hu; subst. unfold rbind in E.
    destruct (var_value vars e) as [w|m|m] eqn:E1; try discriminate.
    match type of E with match ?x with _ => _ end = _ => destruct x as [ws|m|m] eqn:E2 end; inversion E; subst.
    constructor; [apply He; [assumption|reflexivity]|apply IH; [assumption|reflexivity]].
  - unfold rmap, rbind in H0. cbn [upd_all] in Hu. rewrite upd_all_list in Hu. destruct Hu as [Hn Hu].
    match type of H0 with match ?x with _ => _ end = _ => destruct x as [vs|m|m] eqn:E end; inversion H0; subst.
    cbn [upd_all]. split; [exact Hn|]. rewrite upd_all_list. clear H0. revert vs E.
    induction H as [|e t He Ht IH]; intros vs E; [inversion E; constructor|].
    inversion Hu; subst. unfold rbind in E.
    destruct (var_value vars e) as [w|m|m] eqn:E1; try discriminate.
    match type of E with match ?x with _ => _ end = _ => destruct x as [ws|m|m] eqn:E2 end; inversion E; subst.
    constructor; [apply He; [assumption|reflexivity]|apply IH; [assumption|reflexivity]].
  - destruct (aget String.eqb n vars) as [es|] eqn:E; inversion H0; subst.
    cbn [upd_all]. rewrite upd_all_list. eapply Hv. eapply aget_in; [apply String.eqb_eq|exact E].
Qed.

Lemma rmapl_all : forall vars, (forall n es, In (n, es) vars -> Forall (upd_all L) es) ->
  forall es vs, Forall (upd_all L) es -> rmapl (var_value vars) es = ROk vs -> Forall (upd_all L) vs.
Proof.
  intros vars Hv. induction es as [|e t IH]; intros vs Hes H; cbn [rmapl] in H; [inversion H; constructor|].
  inversion Hes; subst. unfold rbind in H. destruct (var_value vars e) eqn:E1; try discriminate.
  destruct (rmapl (var_value vars) t) eqn:E2; inversion H; subst.
  constructor; [eapply var_value_all; eassumption|apply IH; [assumption|reflexivity]].
Qed.

Lemma get_voice_store : forall p n s v s1, get_voice p n s = ROk (v, s1) ->
  variables s1 = variables s /\ globals s1 = globals s.
Proof.
  intros p n s v s1 H. unfold get_voice in H. destruct (aget _ _ _); [inversion H; subst; auto|].
  unfold new_voice, rbind in H. destruct (has_voices s p).
  - destruct (ptmpl _); [|discriminate]. unfold clone in H. inversion H; subst; auto.
  - destruct (ptmpl _); [discriminate|]. unfold clone in H.
    match type of H with match ?x with _ => _ end = _ => destruct x end; [|discriminate].
    inversion H; subst; auto.
Qed.
Lemma vend_loop_store : forall cnt i s,
  variables (voice_end_loop i cnt s) = variables s /\ globals (voice_end_loop i cnt s) = globals s.
Proof.
  induction cnt as [|k IH]; intros i s; cbn [voice_end_loop]; [auto|].
  destruct (nth_error (current s) i); [|auto].
  destruct (IH (S i) (voice_end_one i p s)) as [A B]. rewrite A, B.
  unfold voice_end_one. destruct (getv _ _); auto.
Qed.
Lemma new_part_store : forall n s p s1, new_part n s = ROk (p, s1) ->
  variables s1 = variables s /\ globals s1 = globals s.
Proof. intros n s p s1 H. unfold new_part in H. destruct (stock_instrument n); inversion H; subst; auto. Qed.
Lemma group_parts_store : forall names s np sp s1, group_parts names s = ROk (np, sp, s1) ->
  variables s1 = variables s /\ globals s1 = globals s.
Proof.
  induction names as [|n t IH]; intros s np sp s1 H; cbn [group_parts] in H; [inversion H; subst; auto|].
  unfold rmap, rbind in H.
  destruct (nonempty (named_parts s n)); [|destruct (nonempty (unnamed_parts s n))].
  - destruct (group_parts t s) as [[[a b] c]|m|m] eqn:E; [|discriminate H|discriminate H]. inversion H; subst. eauto.
  - destruct (group_parts t s) as [[[a b] c]|m|m] eqn:E; [|discriminate H|discriminate H]. inversion H; subst. eauto.
  - destruct (new_part n s) as [[p s2]|m|m] eqn:E2; [|discriminate H|discriminate H].
    destruct (group_parts t s2) as [[[a b] c]|m|m] eqn:E; [|discriminate H|discriminate H]. inversion H; subst.
    apply new_part_store in E2. apply IH in E. intuition congruence.
Qed.
Lemma new_parts_store : forall names s ps s1, new_parts names s = ROk (ps, s1) ->
  variables s1 = variables s /\ globals s1 = globals s.
Proof.
  induction names as [|n t IH]; intros s ps s1 H; cbn [new_parts] in H; [inversion H; subst; auto|].
  unfold rmap, rbind in H.
  destruct (new_part n s) as [[p s2]|m|m] eqn:E2; [|discriminate H|discriminate H].
  destruct (new_parts t s2) as [[a b]|m|m] eqn:E; [|discriminate H|discriminate H]. inversion H; subst.
  apply new_part_store in E2. apply IH in E. intuition congruence.
Qed.
Lemma determine_store : forall names alias s ps s1, determine_parts names alias s = ROk (ps, s1) ->
  variables s1 = variables s /\ globals s1 = globals s.
Proof.
  intros names alias s ps s1 H. unfold determine_parts in H.
  assert (Hnp : forall n, rmap (fun '(p, s1) => ([p], s1)) (new_part n s) = ROk (ps, s1) ->
                variables s1 = variables s /\ globals s1 = globals s).
  { intros n Hn. unfold rmap, rbind in Hn.
    destruct (new_part n s) as [[p s2]|m|m] eqn:E; [|discriminate Hn|discriminate Hn].
    inversion Hn; subst. eapply new_part_store; exact E. }
  assert (Hgr : forall (b : bool), (if b then RErr "name included multiple times in group"
      else rbind (group_parts names s) (fun '(np, sp, s1) =>
        if nonempty np && nonempty sp then RErr "invalid group"
        else if negb (is_empty_string alias) && nonempty sp then new_parts names s1
        else ROk (dedup (np ++ sp) [], s1))) = ROk (ps, s1) ->
        variables s1 = variables s /\ globals s1 = globals s).
  { intros b Hb. destruct b; [discriminate Hb|]. unfold rbind in Hb.
    destruct (group_parts names s) as [[[np sp] s2]|m|m] eqn:E; [|discriminate Hb|discriminate Hb].
    apply group_parts_store in E.
    destruct (nonempty np && nonempty sp); [discriminate Hb|].
    destruct (negb (is_empty_string alias) && nonempty sp).
    - apply new_parts_store in Hb. intuition congruence.
    - inversion Hb; subst. exact E. }
  destruct names as [|n [|n2 r]]; [exact (Hgr (has_dup []) H)| |exact (Hgr (has_dup (n :: n2 :: r)) H)].
  repeat match type of H with
         | (if ?b then _ else _) = _ => destruct b
         | RErr _ = _ => discriminate H
         end; try (apply (Hnp _ H)); inversion H; subst; auto.
Qed.
Lemma add_new_parts_store : forall ps s,
  variables (add_new_parts ps s) = variables s /\ globals (add_new_parts ps s) = globals s.
Proof.
  induction ps as [|p ps IH]; intros s; [auto|]. unfold add_new_parts. cbn [fold_left].
  fold (add_new_parts ps). destruct (existsb _ _); [apply IH|].
  destruct (IH (set_parts (parts s ++ [p]) s)) as [A B]. split; [exact A|exact B].
Qed.
Lemma define_aliases_store : forall alias ps s,
  variables (define_aliases alias ps s) = variables s /\ globals (define_aliases alias ps s) = globals s.
Proof.
  intros alias ps s. unfold define_aliases.
  set (olds := map _ ps). clearbody olds.
  assert (G : forall olds s0, variables s0 = variables s /\ globals s0 = globals s ->
    let r := fold_left (fun s '(p, old) =>
       fold_left (fun s a => set_alias (alias ++ "." ++ a) [p] s) old
                 (set_alias (alias ++ "." ++ pname (getp s p)) [p] s)) olds s0 in
    variables r = variables s /\ globals r = globals s).
  { clear olds. induction olds as [|[p old] olds IH]; intros s0 H0; cbn [fold_left]; [exact H0|].
    apply IH. clear IH.
    set (s1 := set_alias _ _ s0).
    assert (H1 : variables s1 = variables s /\ globals s1 = globals s) by exact H0.
    clearbody s1. revert s1 H1. induction old as [|a old IH]; intros s1 H1; cbn [fold_left]; [exact H1|].
    apply IH. exact H1. }
  apply G. split; reflexivity.
Qed.
Lemma run_part_store : forall names alias s s' o, run_part names alias s = (s', o) ->
  variables s' = variables s /\ globals s' = globals s.
Proof.
  intros names alias s s' o H. unfold run_part in H.
  assert (E0 : variables (run_voice_end s) = variables s /\ globals (run_voice_end s) = globals s)
    by apply vend_loop_store.
  destruct (determine_parts names alias (run_voice_end s)) as [[ps s1]|m|m] eqn:E;
    [|inversion H; subst; exact E0|inversion H; subst; exact E0].
  apply determine_store in E.
  assert (G : forall s2, variables s2 = variables s1 /\ globals s2 = globals s1 ->
     let s5 := set_current ps (let s3 := add_new_parts ps s2 in
                 if is_empty_string alias then s3 else define_aliases alias ps s3) in
     variables s5 = variables s /\ globals s5 = globals s).
  { intros s2 H2. cbv zeta. cbn [set_current variables globals].
    destruct (add_new_parts_store ps s2) as [A B].
    destruct (is_empty_string alias); [intuition congruence|].
    destruct (define_aliases_store alias ps (add_new_parts ps s2)) as [C D]. intuition congruence. }
  destruct (parts s1); [destruct ps as [|p0 ps]|].
  - inversion H; subst. intuition congruence.
  - inversion H; subst s'. apply (G (modp p0 (set_pmaster true) s1)). split; reflexivity.
  - inversion H; subst s'. apply (G s1). split; reflexivity.
Qed.

Lemma ga_record_all : forall off u g,
  (forall off us, In (off, us) (ga_itin g) -> Forall (pu_all L) us) -> pu_all L u ->
  forall o us, In (o, us) (ga_itin (ga_record off u g)) -> Forall (pu_all L) us.
Proof.
  intros off u g Hg Hu o us Hin. unfold ga_record in Hin.
  destruct (aget neqb off (ga_itin g)) as [us0|] eqn:E; cbn in Hin.
  - apply in_aset in Hin. destruct Hin as [->|Hin]; [|eapply Hg; exact Hin].
    apply Forall_app. split; [|constructor; [exact Hu|constructor]].
    revert E Hg. clear. generalize (ga_itin g). intros l.
    induction l as [|[k x] l IH]; cbn; intros E Hg; [discriminate|].
    destruct (neqb k off); [inversion E; subst; eapply Hg; left; reflexivity|].
    apply IH; [exact E|]. intros; eapply Hg; right; eassumption.
  - apply in_app_or in Hin. destruct Hin as [Hin|[Hin|[]]]; [eapply Hg; exact Hin|].
    inversion Hin; subst. constructor; [exact Hu|constructor].
Qed.

Lemma step_store : forall s s', store_all L s -> step s s' -> store_all L s'.
Proof.
  intros s s' [Hv Hg] H.
  assert (K : forall x, variables x = variables s /\ globals x = globals s -> store_all L x).
  { intros x [A B]. split; [rewrite A; exact Hv|rewrite B; exact Hg]. }
  destruct H.
  - apply K; split; reflexivity.
  - apply K; split; reflexivity.
  - apply K. unfold emit_note in H0.
    destruct (nltb n0 _); [|inversion H0; auto]. destruct (_ || _)%bool; [inversion H0|].
    destruct (assign_channel _ _ _) as [[c s1]|m|m] eqn:E; inversion H0; subst.
    unfold assign_channel, rbind in E. destruct (determine_channel _ _ _); try discriminate.
    destruct (negb (chan_ok a)); try discriminate.
    destruct (existsb _ _); inversion E; subst; split; reflexivity.
  - split; [exact Hv|]. apply ga_record_all; assumption.
  - apply K; split; reflexivity.
  - split; [|exact Hg]. cbn [set_variables variables]. intros n us Hin. apply in_aset in Hin.
    destruct Hin as [->|Hin]; [|eapply Hv; exact Hin]. eapply rmapl_all; eassumption.
  - apply K; split; reflexivity.
  - apply K. apply get_voice_store in H0. exact H0.
  - apply K. apply vend_loop_store.
  - apply K. eapply run_part_store; exact H.
Qed.
Lemma star_store : forall s s', star s s' -> store_all L s -> store_all L s'.
Proof. intros s s' H. induction H; intros; [assumption|]. eapply step_store; [|eassumption]. auto. Qed.

(** Steps from a score whose stored updates are allowed. *)
Definition gstar (s s' : score) : Prop := store_all L s -> star s s'.
Lemma gstar_refl : forall s, gstar s s.
Proof. intros s _. constructor. Qed.
Lemma gstar_trans : forall a b c, gstar a b -> gstar b c -> gstar a c.
Proof. intros a b c H1 H2 Ha. eapply star_trans; [apply H1; exact Ha|apply H2]. eapply star_store; eauto. Qed.
Lemma gstar_one : forall a b, step a b -> gstar a b.
Proof. intros a b H _. apply star_one, H. Qed.

(** A list of steps that keeps the current parts. *)
Definition starc (s s' : score) : Prop := gstar s s' /\ current s' = current s.
Lemma starc_refl : forall s, starc s s.
Proof. intros; split; [apply gstar_refl|reflexivity]. Qed.
Lemma starc_trans : forall a b c, starc a b -> starc b c -> starc a c.
Proof. intros a b c [H1 H2] [H3 H4]. split; [eapply gstar_trans; eassumption|congruence]. Qed.

Lemma each_starc : forall A (f : A -> score -> score * outcome) l s s' o,
  (forall x s1 s2 o2, In x l -> current s1 = current s -> f x s1 = (s2, o2) -> starc s1 s2) ->
  each f l s = (s', o) -> starc s s'.
Proof.
  intros A f l. induction l as [|x t IH]; intros s s' o Hf H; cbn [each] in H.
  - inversion H; subst. apply starc_refl.
  - unfold seqo in H. destruct (f x s) as [s1 o1] eqn:E.
    assert (H1 : starc s s1) by (eapply Hf; [left; reflexivity|reflexivity|exact E]).
    destruct o1; try (inversion H; subst; exact H1).
    eapply starc_trans; [exact H1|]. eapply IH; [|exact H].
    intros y a b o2 Hy Hc Hb. eapply Hf; [right; exact Hy| |exact Hb].
    destruct H1 as [_ H1]. congruence.
Qed.

Lemma each_star : forall A (f : A -> score -> score * outcome) l s s' o,
  (forall x s1 s2 o2, In x l -> f x s1 = (s2, o2) -> gstar s1 s2) ->
  each f l s = (s', o) -> gstar s s'.
Proof.
  intros A f l. induction l as [|x t IH]; intros s s' o Hf H; cbn [each] in H.
  - inversion H; subst. apply gstar_refl.
  - unfold seqo in H. destruct (f x s) as [s1 o1] eqn:E.
    assert (H1 : gstar s s1) by (eapply Hf; [left; reflexivity|exact E]).
    destruct o1; try (inversion H; subst; exact H1).
    eapply gstar_trans; [exact H1|]. eapply IH; [|exact H].
    intros y a b o2 Hy Hb. eapply Hf; [right; exact Hy|exact Hb].
Qed.

Lemma seqo_star : forall (r : score * outcome) k s s' o,
  seqo r k = (s', o) -> gstar s (fst r) ->
  (forall s1, r = (s1, Ok) -> k s1 = (s', o) -> gstar s1 s') -> gstar s s'.
Proof.
  intros [s1 o1] k s s' o H H1 H2. cbn [seqo fst] in *.
  destruct o1; try (inversion H; subst; exact H1).
  eapply gstar_trans; [exact H1|]. apply H2; [reflexivity|exact H].
Qed.
Lemma seqo_starc : forall (r : score * outcome) k s s' o,
  seqo r k = (s', o) -> starc s (fst r) ->
  (forall s1, r = (s1, Ok) -> k s1 = (s', o) -> starc s1 s') -> starc s s'.
Proof.
  intros [s1 o1] k s s' o H H1 H2. cbn [seqo fst] in *.
  destruct o1; try (inversion H; subst; exact H1).
  eapply starc_trans; [exact H1|]. apply H2; [reflexivity|exact H].
Qed.

Lemma soft_refl : forall p, soft p p.
Proof. intros; repeat split. Qed.

Lemma soft_starc : forall p f s, In p (current s) -> (forall q, soft q (f q) /\ ptvals (f q) = ptvals q) ->
  starc s (modp p f s).
Proof.
  intros p f s Hp Hf. split; [|reflexivity]. apply gstar_one. apply St_soft; [exact Hp|apply Hf|left; apply Hf].
Qed.

Lemma do_update_starc : forall u (g : bool) p s s' o, (if g then pu_all L u else prim_all L (Attr u)) ->
  In p (current s) -> do_update_part u g p s = (s', o) -> starc s s'.
Proof.
  intros u g p s s' o HL Hp H. unfold do_update_part in H.
  assert (Hsoft : forall v, soft (getp s p) v ->
    ptvals v = ptvals (getp s p) \/ (L LTempo /\ v = record_tempo (set_ptempo (ptempo v) (getp s p))) -> starc s (setp p v s)).
  { intros v Hv Ht. split; [|reflexivity]. apply gstar_one, St_soft; assumption. }
  destruct u; cbn [update_part] in H;
    try (inversion H; subst; apply Hsoft; [repeat split|left; reflexivity]; fail);
    try (destruct g; inversion H; subst; apply Hsoft; (repeat split; fail) || (left; reflexivity) || (right; split; [exact HL|reflexivity]); fail).
  destruct ((n =? 9)%Z && negb (iperc (pstock (getp s p)))) eqn:E.
  - inversion H; subst. apply starc_refl.
  - inversion H; subst. split; [|reflexivity]. apply gstar_one, St_chan; [exact Hp| |destruct g; exact HL].
    intros ->. cbn in E. destruct (iperc (pstock (getp s p))); [reflexivity|discriminate].
Qed.

Lemma run_attr_starc : forall u s s' o, prim_all L (Attr u) -> run_attr u s = (s', o) -> starc s s'.
Proof.
  intros u s s' o HL H. unfold run_attr in H. eapply each_starc; [|exact H].
  intros p s1 s2 o2 Hp Hc H1. cbn beta in H1. rewrite <- Hc in Hp.
  eapply seqo_starc; [exact H1| |].
  - destruct (do_update_part u false p s1) as [a b] eqn:E.
    apply (do_update_starc u false p s1 a b HL Hp E).
  - intros s3 E H3. inversion H3; subst. apply soft_starc; [|intros; split; [repeat split|reflexivity]].
    apply (do_update_starc u false p s1 s3 Ok HL Hp) in E. destruct E as [_ E]. rewrite E. exact Hp.
Qed.

Lemma do_update_current : forall u g p s s' o, do_update_part u g p s = (s', o) -> current s' = current s.
Proof.
  intros u g p s s' o H. unfold do_update_part in H.
  destruct u; cbn [update_part] in H;
    try (inversion H; subst; reflexivity); try (destruct g; inversion H; subst; reflexivity).
  destruct (_ && _); inversion H; subst; reflexivity.
Qed.
Lemma each_current : forall A (f : A -> score -> score * outcome) l s s' o,
  (forall x s1 s2 o2, f x s1 = (s2, o2) -> current s2 = current s1) ->
  each f l s = (s', o) -> current s' = current s.
Proof.
  intros A f l. induction l as [|x t IH]; intros s s' o Hf H; cbn [each] in H.
  - inversion H; subst. reflexivity.
  - unfold seqo in H. destruct (f x s) as [s1 o1] eqn:E. pose proof (Hf _ _ _ _ E) as E1.
    destruct o1; try (inversion H; subst; exact E1). apply IH in H; [congruence|exact Hf].
Qed.

Lemma in_window_in : forall g a b (u : part_update), In u (in_window g a b) ->
  exists off us, In (off, us) (ga_itin g) /\ In u us.
Proof.
  intros g a b u H. unfold in_window in H.
  assert (H1 : exists off, In u (ga_at g off)).
  { revert H. generalize (ga_offs g). intros l. induction l as [|o l IH]; cbn; [intros []|].
    destruct (nltb b o); [intros []|]. intros H. apply in_app_or in H. destruct H as [H|H]; [|auto].
    destruct (nltb a o); [eauto|destruct H]. }
  destruct H1 as [off H2]. unfold ga_at in H2.
  destruct (aget neqb off (ga_itin g)) as [us|] eqn:E; [|destruct H2].
  revert E. generalize (ga_itin g). intros l. induction l as [|[k x] l IH]; cbn; [discriminate|].
  destruct (neqb k off).
  - intros E; inversion E; subst. exists k, us. auto.
  - intros E. destruct (IH E) as [o2 [us2 [A B]]]. exists o2, us2. auto.
Qed.

Lemma apply_globals_to_starc : forall p s s' o, In p (current s) ->
  apply_globals_to p s = (s', o) -> starc s s'.
Proof.
  intros p s s' o Hp H. unfold apply_globals_to in H.
  assert (C : forall l a b o2,
     each (fun u s => if overrides (povr (getp s p)) u then (s, Ok)
                      else do_update_part u true p s) l a = (b, o2) -> current b = current a).
  { intros l a b o2 Hl. eapply each_current; [|exact Hl].
    intros u s1 s2 o3 H1. cbn beta in H1.
    destruct (overrides (povr (getp s1 p)) u); [inversion H1; reflexivity|].
    eapply do_update_current; exact H1. }
  assert (G : forall l a b o2, current a = current s -> Forall (pu_all L) l ->
     each (fun u s => if overrides (povr (getp s p)) u then (s, Ok)
                      else do_update_part u true p s) l a = (b, o2) -> starc a b).
  { intros l a b o2 Ha Hu Hl. eapply each_starc; [|exact Hl].
    intros u s1 s2 o3 Hin Hc H1. cbn beta in H1.
    destruct (overrides (povr (getp s1 p)) u); [inversion H1; subst; apply starc_refl|].
    rewrite Forall_forall in Hu. apply (do_update_starc u true p s1 s2 o3 (Hu _ Hin)); [congruence|exact H1]. }
  split.
  - intros Hst.
    assert (Hw : Forall (pu_all L) (in_window (globals s) (plast (getp s p)) (pcur (getp s p)))).
    { rewrite Forall_forall. intros u Hu. apply in_window_in in Hu. destruct Hu as [off [us [A B]]].
      destruct Hst as [_ Hst]. apply Hst in A. rewrite Forall_forall in A. apply A, B. }
    revert Hst. change (gstar s s'). eapply seqo_star; [exact H| |].
    + match goal with |- gstar _ (fst ?x) => destruct x as [a b] eqn:E end.
      eapply G; [reflexivity|exact Hw|exact E].
    + intros s1 E H1. inversion H1; subst. apply soft_starc; [|intros; split; [repeat split|reflexivity]].
      apply C in E. rewrite E. exact Hp.
  - unfold seqo in H. destruct (each _ _ s) as [s1 o1] eqn:E. apply C in E.
    destruct o1; inversion H; subst; exact E.
Qed.

Lemma apply_globals_starc : forall s s' o, apply_globals s = (s', o) -> starc s s'.
Proof.
  intros s s' o H. eapply each_starc; [|exact H].
  intros p s1 s2 o2 Hp Hc H1. eapply apply_globals_to_starc; [|exact H1]. congruence.
Qed.

Lemma assign_channel_frame : forall s p dur c s1, assign_channel s p dur = ROk (c, s1) ->
  exists us, s1 = set_usage us s.
Proof.
  intros s p dur c s1 H. unfold assign_channel, rbind in H.
  destruct (determine_channel s p dur); try discriminate.
  destruct (negb (chan_ok a)); try discriminate.
  destruct (existsb _ _); inversion H; subst; [exists (usage s1); destruct s1; reflexivity|eauto].
Qed.

Lemma emit_starc : forall pi sl dms p s s' o, In p (current s) ->
  emit_note pi sl dms p s = (s', o) -> starc s s'.
Proof.
  intros pi sl dms p s s' o Hp H.
  assert (G : o = Ok \/ s' = s).
  { unfold emit_note in H. destruct (nltb n0 _); [|inversion H; auto].
    destruct (_ || _)%bool; [inversion H; auto|].
    destruct (assign_channel _ _ _) as [[c s1]|m|m]; inversion H; auto. }
  destruct G as [->| ->]; [|apply starc_refl].
  split; [apply gstar_one; eapply St_emit; eassumption|].
  unfold emit_note in H. destruct (nltb n0 _); [|inversion H; auto].
  destruct (_ || _)%bool; [inversion H; auto|].
  destruct (assign_channel _ _ _) as [[c s1]|m|m] eqn:E; inversion H; subst.
  apply assign_channel_frame in E. destruct E as [us ->]. reflexivity.
Qed.

Lemma note_one_starc : forall nr d p s s' o, In p (current s) ->
  note_one nr d p s = (s', o) -> starc s s'.
Proof.
  intros nr d p s s' o Hp H. unfold note_one in H.
  match type of H with seqo ?r _ = _ => assert (H1 : starc s (fst r)) end.
  { destruct nr as [[pi sl]|]; [|apply starc_refl].
    match goal with |- starc _ (fst ?x) => destruct x as [a b] eqn:E end.
    eapply emit_starc; [exact Hp|exact E]. }
  eapply seqo_starc; [exact H|exact H1|].
  intros s1 E H2. rewrite E in H1. cbn [fst] in H1. destruct H1 as [_ H1].
  inversion H2; subst. apply soft_starc; [congruence|].
  intros q. unfold advance_part, update_default_dur.
  destruct (chordmode s1), (effective_dur d (getp s p)); repeat split.
Qed.

Lemma add_note_starc : forall nr d s s' o, add_note_or_rest nr d s = (s', o) -> starc s s'.
Proof.
  intros nr d s s' o H. unfold add_note_or_rest in H. eapply seqo_starc; [exact H| |].
  - destruct (chordmode s); [apply starc_refl|].
    destruct (apply_globals s) eqn:E. eapply apply_globals_starc; exact E.
  - intros s1 E H1. destruct (dur_valid d); [|inversion H1; subst; apply starc_refl].
    eapply each_starc; [|exact H1].
    intros p s2 s3 o2 Hp Hc H2. eapply note_one_starc; [|exact H2]. congruence.
Qed.

Lemma run_prim_starc : forall p s s' o, prim_all L p -> run_prim p s = (s', o) -> starc s s'.
Proof.
  intros [pi d sl|d|u|u] s s' o HL H; cbn [run_prim] in H.
  - eapply add_note_starc; exact H.
  - eapply add_note_starc; exact H.
  - eapply run_attr_starc; [exact HL|exact H].
  - unfold run_gattr in H.
    assert (G : forall off, starc s (set_globals (ga_record off u (globals s)) s)).
    { intros off. split; [apply gstar_one; apply St_globals; apply HL|reflexivity]. }
    destruct (current s) eqn:E; [inversion H; subst; apply G|].
    destruct (same_offset _ _ _); inversion H; subst; [apply G|apply starc_refl].
Qed.

Lemma voice_loop_star : forall n, L (LVoice n) -> forall cnt i s s' o, voice_loop n i cnt s = (s', o) -> gstar s s'.
Proof.
  intros n HL cnt. induction cnt as [|k IH]; intros i s s' o H; cbn [voice_loop] in H.
  - inversion H; subst; apply gstar_refl.
  - destruct (nth_error (current s) i) as [p|] eqn:E; [|inversion H; subst; apply gstar_refl].
    destruct (get_voice p n s) as [[v s1]|m|m] eqn:E2; try (inversion H; subst; apply gstar_refl).
    eapply gstar_trans; [|eapply IH; exact H].
    apply gstar_one. eapply St_voice; [|exact E2|exact HL]. eapply nth_error_In; exact E.
Qed.

Lemma run_part_star : forall names alias s s' o, L (LPart names alias) -> run_part names alias s = (s', o) -> gstar s s'.
Proof.
  intros names alias s s' o HL H.
  assert (Hve : gstar s (run_voice_end s)) by (apply gstar_one; eapply St_vend; [right; do 2 eexists; reflexivity|exact HL]).
  assert (G : o = Ok \/ s' = run_voice_end s \/
              exists ps, determine_parts names alias (run_voice_end s) = ROk (ps, s') /\
                         parts s' = [] /\ ps = []).
  { unfold run_part in H.
    destruct (determine_parts names alias (run_voice_end s)) as [[ps s1]|m|m];
      [|inversion H; auto|inversion H; auto].
    destruct (parts s1) eqn:E; [destruct ps|]; inversion H; subst; auto.
    right; right. eexists; repeat split; eassumption. }
  destruct G as [->|[->|[ps [D [_ ->]]]]].
  - apply gstar_one. eapply St_part; [exact H|exact HL].
  - exact Hve.
  - (* an empty list of names allocates nothing *)
    unfold determine_parts in D. destruct names as [|n [|n2 r]].
    + cbn in D. destruct (negb (is_empty_string alias)); cbn in D; inversion D; subst;
        exact Hve.
    + exfalso.
      repeat match type of D with
             | (if ?b then _ else _) = _ => destruct b eqn:?
             | RErr _ = _ => discriminate
             end;
        try (unfold rmap, rbind, new_part in D; destruct (stock_instrument n); discriminate);
        try (inversion D as [[Ha Hb]]; rewrite Ha in *; cbn in *; congruence).
    + (* a group of at least two names has at least one part *)
      exfalso. destruct (has_dup (n :: n2 :: r)); [discriminate|].
      destruct (group_parts (n :: n2 :: r) (run_voice_end s)) as [[[np sp] s1]|m|m] eqn:E;
        cbn [rbind] in D; try discriminate.
      assert (Hne : np ++ sp <> []).
      { cbn [group_parts] in E.
        repeat match type of E with
               | (if ?b then _ else _) = _ => destruct b eqn:?
               end; unfold rmap, rbind in E;
        repeat match type of E with
               | match ?x with _ => _ end = _ => destruct x as [[[? ?] ?]|?|?] eqn:?
               | match ?x with _ => _ end = _ => destruct x as [[? ?]|?|?] eqn:?
               end; try discriminate; inversion E; subst;
        try (destruct (named_parts (run_voice_end s) n); [discriminate|intro; discriminate]);
        try (destruct (unnamed_parts (run_voice_end s) n); [discriminate|]);
        match goal with |- ?l ++ _ <> [] => destruct l; intro; discriminate end. }
      destruct (nonempty np && nonempty sp); [discriminate|].
      destruct (negb (is_empty_string alias) && nonempty sp).
      * cbn [new_parts] in D. unfold rmap, rbind in D.
        destruct (new_part n s1) as [[? ?]|?|?]; try discriminate.
        destruct (new_part n2 s0) as [[? ?]|?|?]; try discriminate.
        destruct (new_parts r s2) as [[? ?]|?|?]; discriminate.
      * inversion D as [[Ha Hb]]. destruct (np ++ sp) as [|x l]; [congruence|]. cbn in Ha. discriminate.
Qed.

Lemma run_times_star : forall f k r s s' o,
  (forall s s' o, f s = (s', o) -> gstar s s') -> run_times f r k s = (s', o) -> gstar s s'.
Proof.
  intros f k. induction k as [|k IH]; intros r s s' o Hf H; cbn [run_times] in H.
  - inversion H; subst; apply gstar_refl.
  - assert (G : forall a b o2, each (fun p s => (modp p (set_prep r) s, Ok)) (current a) a = (b, o2) ->
                starc a b).
    { intros a b o2 G. eapply each_starc; [|exact G].
      intros p s1 s2 o3 Hp Hc H1. inversion H1; subst. apply soft_starc; [congruence|].
      intros; repeat split. }
    eapply seqo_star; [exact H| |].
    + match goal with |- gstar _ (fst ?x) => destruct x as [a b] eqn:E end.
      apply G in E. apply E.
    + intros s1 E H1. eapply seqo_star; [exact H1| |].
      * destruct (f s1) as [a b] eqn:E2. eapply Hf; exact E2.
      * intros s2 E2 H2. eapply IH; [exact Hf|exact H2].
Qed.

Lemma onreps_star : forall rs f cnt i s s' o,
  (forall s s' o, f s = (s', o) -> gstar s s') -> onreps_loop rs f i cnt s = (s', o) -> gstar s s'.
Proof.
  intros rs f cnt. induction cnt as [|k IH]; intros i s s' o Hf H; cbn [onreps_loop] in H.
  - inversion H; subst; apply gstar_refl.
  - destruct (nth_error (current s) i); [|inversion H; subst; apply gstar_refl].
    eapply seqo_star; [exact H| |].
    + destruct (applies_to rs _); [|apply gstar_refl]. destruct (f s) as [a b] eqn:E. eapply Hf; exact E.
    + intros s1 E H1. eapply IH; [exact Hf|exact H1].
Qed.

Section Upd.
Variable deref : string -> score -> score * outcome.
Variable dd : list (string * list update) -> string -> part -> dres.
Hypothesis Hderef : forall n s s' o, deref n s = (s', o) -> gstar s s'.

Lemma run_upd_star : forall u s s' o, upd_all L u -> run_upd deref dd u s = (s', o) -> gstar s s'.
Proof.
  intros u. induction u using update_ind'; intros s s' o HL Hr; cbn [run_upd] in Hr; cbn [upd_all] in HL;
    try rewrite upd_all_list in HL.
  - eapply run_prim_starc; [exact HL|exact Hr].
  - inversion Hr; subst; apply gstar_refl.
  - destruct (eval_update els) as [[q|]|m|m]; try (inversion Hr; subst; apply gstar_refl).
    eapply run_prim_starc; [exact HL|exact Hr].
  - inversion Hr; subst; apply gstar_refl.
  - (* chord *)
    eapply seqo_star; [exact Hr| |].
    { destruct (apply_globals s) eqn:E. eapply apply_globals_starc; exact E. }
    intros s1 E Hg. clear Hr E s. cbv beta zeta in Hg.
    eapply gstar_trans; [apply gstar_one, (St_chord s1 true)|].
    set (m := map (fun p : pid => (p, nmaxval)) (current s1)) in Hg. clearbody m.
    set (s := set_chordmode true s1) in *. clearbody s. clear s1.
    revert s m Hg HL.
    induction H as [|e t He Ht IH]; intros s m Hg HL.
    + eapply gstar_trans; [apply gstar_one, (St_chord s false)|].
      unfold chord_finish in Hg. eapply each_starc; [|exact Hg].
      intros p s1 s2 o2 Hp Hc H1. inversion H1; subst. apply soft_starc; [congruence|].
      intros; repeat split.
    + eapply seqo_star; [exact Hg| |].
      * destruct (run_upd deref dd e s) eqn:E. inversion HL; subst. eapply He; [assumption|exact E].
      * intros s1 E Hg1. inversion HL; subst. eapply IH; [exact Hg1|assumption].
  - (* cram *)
    eapply seqo_star; [exact Hr| |].
    { match goal with |- gstar _ (fst ?x) => destruct x as [a b] eqn:E end.
      unfold cram_scale in E. eapply each_starc; [|exact E].
      intros p s1 s2 o2 Hp Hc H1. cbn beta in H1.
      destruct (time_scale _ _ _ _) as [ts []]; inversion H1; subst; try apply starc_refl.
      apply soft_starc; [congruence|]. intros; split; [repeat split|reflexivity]. }
    intros s1 E Hg. eapply seqo_star; [exact Hg| |].
    + clear Hg E Hr. revert s1 HL. induction H as [|e t He Ht IH]; intros s1 HL; [apply gstar_refl|].
      inversion HL; subst.
      cbn [fst]. match goal with |- gstar _ (fst ?x) => destruct x as [a b] eqn:E end. cbn [fst].
      eapply seqo_star; [exact E| |].
      * destruct (run_upd deref dd e s1) eqn:E2. eapply He; [assumption|exact E2].
      * intros s2 _ Hg. match goal with H : Forall _ t |- _ => specialize (IH s2 H) end. rewrite Hg in IH. exact IH.
    + intros s2 _ Hf. unfold cram_finish in Hf. eapply each_starc; [|exact Hf].
      intros p s3 s4 o2 Hp Hc H1. inversion H1; subst. apply soft_starc; [congruence|].
      intros; repeat split.
  - eapply seqo_star; [exact Hr| |].
    + destruct (run_times _ _ _ _) eqn:E. eapply run_times_star; [intros ? ? ? K; eapply IHu; [exact (proj2 HL)|exact K]|exact E].
    + intros s1 E H1. destruct (n =? max_int32)%Z; inversion H1; subst; apply gstar_refl.
  - eapply onreps_star; [intros ? ? ? K; eapply IHu; [exact (proj2 HL)|exact K]|exact Hr].
  - revert s Hr HL. induction H as [|e t He Ht IH]; intros s Hr HL; [inversion Hr; subst; apply gstar_refl|].
    inversion HL; subst.
    eapply seqo_star; [exact Hr| |].
    + destruct (run_upd deref dd e s) eqn:E. eapply He; [assumption|exact E].
    + intros s1 E H9. eapply IH; [exact H9|assumption].
  - unfold run_marker in Hr. destruct (current s); [inversion Hr; subst; apply gstar_refl|].
    destruct (same_offset _ _ _); inversion Hr; subst; [apply gstar_one, St_markers; exact HL|apply gstar_refl].
  - unfold run_at_marker in Hr. eapply seqo_star; [exact Hr| |].
    { destruct (apply_globals s) eqn:E. eapply apply_globals_starc; exact E. }
    intros s1 E H1. cbv beta in H1. destruct (aget _ _ _); [|inversion H1; subst; apply gstar_refl].
    eapply each_starc; [|exact H1].
    intros p s2 s3 o2 Hp Hc H2. inversion H2; subst. apply soft_starc; [congruence|].
    intros; repeat split.
  - unfold run_var_def in Hr. destruct (rmapl _ _) eqn:E; inversion Hr; subst; try apply gstar_refl.
    apply gstar_one. destruct HL as [HL1 HL2]. eapply St_vars; [exact E|exact HL2|exact HL1].
  - eapply Hderef; exact Hr.
  - eapply voice_loop_star; [exact HL|exact Hr].
  - inversion Hr; subst. apply gstar_one. eapply St_vend; [left; reflexivity|exact HL].
  - eapply run_part_star; [exact HL|exact Hr].
Qed.
End Upd.

Lemma run_deref_star : forall fuel n s s' o, run_deref fuel n s = (s', o) -> gstar s s'.
Proof.
  induction fuel as [|f IH]; intros n s s' o H; cbn [run_deref] in H.
  - destruct (aget _ _ _); inversion H; subst; apply gstar_refl.
  - destruct (aget _ _ _) as [es|] eqn:Ea; [|inversion H; subst; apply gstar_refl].
    intros Hst. assert (Hes : Forall (upd_all L) es).
    { destruct Hst as [Hst _]. eapply Hst. eapply aget_in; [apply String.eqb_eq|exact Ea]. }
    revert Hst. change (gstar s s'). rewrite Forall_forall in Hes.
    eapply each_star; [|exact H]. intros u s1 s2 o2 Hu H1.
    eapply run_upd_star; [|apply Hes, Hu|exact H1]. intros; eapply IH; eassumption.
Qed.

(** Whatever the outcome, running allowed updates is a sequence of allowed steps. *)
Lemma run_lstar : forall fuel u s s' o, upd_all L u -> run fuel u s = (s', o) -> gstar s s'.
Proof.
  intros. unfold run in *. eapply run_upd_star; [|eassumption|eassumption].
  intros; eapply run_deref_star; eassumption.
Qed.
Lemma run_all_lstar : forall fuel us s s' o, Forall (upd_all L) us -> run_all fuel us s = (s', o) -> gstar s s'.
Proof.
  intros fuel us s s' o Hus H. rewrite Forall_forall in Hus.
  eapply each_star; [|eassumption]. intros; eapply run_lstar; [apply Hus|]; eassumption.
Qed.

Lemma lstar_inv : forall (I : score -> Prop), (forall a b, I a -> step a b -> I b) ->
  forall a b, star a b -> I a -> I b.
Proof. intros I HI a b H Ha. induction H; eauto. Qed.
End Labelled.

Notation step := (lstep (fun _ => True)).
Notation star := (lstar (fun _ => True)).

Lemma pu_all_true : forall u, pu_all (fun _ => True) u.
Proof. intros []; exact I. Qed.
Lemma prim_all_true : forall q, prim_all (fun _ => True) q.
Proof. intros [| |u|u]; cbn; try exact I; [destruct u; exact I|]. split; [exact I|apply pu_all_true]. Qed.
Lemma upd_all_true : forall u, upd_all (fun _ => True) u.
Proof.
  induction u using update_ind'; cbn [upd_all]; try exact I; try (apply upd_all_list; assumption); auto.
  - apply prim_all_true.
  - destruct (eval_update els) as [[q|]|m|m]; try exact I. apply prim_all_true.
  - split; [exact I|apply upd_all_list; assumption].
Qed.
Lemma store_all_true : forall s, store_all (fun _ => True) s.
Proof.
  split; intros; apply Forall_forall; intros; [apply upd_all_true|apply pu_all_true].
Qed.

Lemma upd_all_mono : forall (L L' : label -> Prop), (forall l, L l -> L' l) ->
  forall u, upd_all L u -> upd_all L' u.
Proof.
  intros L L' H.
  assert (P : forall q, prim_all L q -> prim_all L' q).
  { intros [| |[]|[]]; cbn; try tauto; auto; intros [A B]; auto. }
  assert (Q : forall es, Forall (fun u => upd_all L u -> upd_all L' u) es ->
              Forall (upd_all L) es -> Forall (upd_all L') es).
  { intros es K K2. rewrite Forall_forall in *. auto. }
  induction u using update_ind'; cbn [upd_all]; auto; rewrite ?upd_all_list; auto.
  - destruct (eval_update els) as [[q|]|m|m]; auto.
  - intros [A B]; auto.
  - intros [A B]; auto.
  - intros [A B]; auto.
Qed.

(** Whatever the outcome, running updates is a sequence of steps. *)
Lemma run_star : forall fuel u s s' o, run fuel u s = (s', o) -> star s s'.
Proof. intros. eapply run_lstar; [apply upd_all_true|eassumption|apply store_all_true]. Qed.
Lemma run_all_star : forall fuel us s s' o, run_all fuel us s = (s', o) -> star s s'.
Proof.
  intros. eapply run_all_lstar; [|eassumption|apply store_all_true].
  apply Forall_forall. intros; apply upd_all_true.
Qed.

Lemma lstep_step : forall L a b, lstep L a b -> step a b.
Proof.
  intros L a b H. destruct H; try (econstructor; eauto; fail).
  - apply St_soft; [assumption|assumption|tauto].
  - apply St_globals; [apply pu_all_true|exact I].
  - eapply St_vars; [eassumption| |exact I]. apply Forall_forall; intros; apply upd_all_true.
Qed.
Lemma lstar_star : forall L a b, lstar L a b -> star a b.
Proof. intros L a b H. induction H; [constructor|]. econstructor; [eassumption|eapply lstep_step; eassumption]. Qed.

(** Scores reached by updates. *)
Definition reachable (s : score) : Prop := star new_score s.

Lemma exec_reachable : forall us s o, exec us new_score = (s, o) -> reachable s.
Proof. intros us s o H. eapply run_all_star. exact H. Qed.

(** Induction over reachable scores. *)
Lemma star_inv : forall (I : score -> Prop), (forall a b, I a -> step a b -> I b) ->
  forall a b, star a b -> I a -> I b.
Proof. intros I HI a b H Ha. induction H; eauto. Qed.
End Step.

Notation step := (lstep (fun _ => True)).
Notation star := (lstar (fun _ => True)).
