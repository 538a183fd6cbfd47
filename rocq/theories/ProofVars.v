(** Variables (C15, C16) and crash freedom (C21). *)
From Coq Require Import ZArith List String Bool Lia Arith.
From Verif Require Import Base Num ModelPitch ModelDuration ModelInstruments ModelTypes ModelLisp
  ModelScore SpecScore SpecVars ProofHeap ProofStep ProofInv ProofEvents ProofVoices.
Import ListNotations.

Section Vars.
Context {N : Num}.
Local Opaque stock_instrument.

(* ---------------- captured values have no references ---------------- *)

Definition vclosed (s : score) : Prop :=
  forall n es, In (n, es) (variables s) -> Forall no_refs es.

Lemma no_refs_list : forall l,
  (fix go (l : list update) : Prop := match l with [] => True | e :: t => no_refs e /\ go t end) l
  <-> Forall no_refs l.
Proof. intros l. apply upd_all_list. Qed.

Lemma prim_no_refs : forall q, no_refs (UPrim q).
Proof. intros [| |[]|[]]; repeat split. Qed.

Definition vals vars := (fix go (l : list update) : res (list update) :=
                 match l with
                 | [] => ROk []
                 | e :: t => rbind (var_value vars e) (fun v =>
                             rbind (go t) (fun vs => ROk (v :: vs)))
                 end).
Lemma vals_rmapl : forall vars l, vals vars l = rmapl (var_value vars) l.
Proof. intros vars. induction l as [|e t IH]; [reflexivity|]. cbn [vals rmapl]. rewrite <- IH. reflexivity. Qed.

Lemma rmapl_inv : forall A B (f : A -> res B) l vs, rmapl f l = ROk vs -> Forall2 (fun a b => f a = ROk b) l vs.
Proof.
  intros A B f. induction l as [|a l IH]; intros vs H; cbn [rmapl] in H; [inversion H; constructor|].
  unfold rbind in H. destruct (f a) eqn:E; try discriminate. destruct (rmapl f l); try discriminate.
  inversion H; subst. constructor; [exact E|apply IH; reflexivity].
Qed.

Lemma var_value_no_refs : forall vars, (forall n es, In (n, es) vars -> Forall no_refs es) ->
  forall u v, var_value vars u = ROk v -> no_refs v.
Proof.
  intros vars Hv u. 
  assert (Q : forall es vs, Forall (fun u => forall v, var_value vars u = ROk v -> no_refs v) es ->
            rmapl (var_value vars) es = ROk vs -> Forall no_refs vs).
  { intros es vs H E. apply rmapl_inv in E. induction E; [constructor|]. inversion H; subst. constructor; auto. }
  induction u using update_ind'; intros v H0; cbn [var_value] in H0;
    try (inversion H0; subst; exact I).
  - inversion H0; subst; apply prim_no_refs.
  - unfold rmap, rbind in H0.
    destruct (eval_update els) as [[q|]|m|m]; inversion H0; subst; cbn [prim_of]; [apply prim_no_refs|exact I].
  - fold (vals vars) in H0. rewrite vals_rmapl in H0. unfold rmap, rbind in H0.
    destruct (rmapl (var_value vars) es) eqn:E; inversion H0; subst. apply (upd_all_list _ _). eapply Q; eauto.
  - fold (vals vars) in H0. rewrite vals_rmapl in H0. unfold rmap, rbind in H0.
    destruct (rmapl (var_value vars) es) eqn:E; inversion H0; subst. apply (upd_all_list _ _). eapply Q; eauto.
  - unfold rmap, rbind in H0. destruct (var_value vars u) eqn:E; inversion H0; subst. split; [exact I|]. apply IHu; reflexivity.
  - unfold rmap, rbind in H0. destruct (var_value vars u) eqn:E; inversion H0; subst. split; [exact I|]. apply IHu; reflexivity.
  - fold (vals vars) in H0. rewrite vals_rmapl in H0. unfold rmap, rbind in H0.
    destruct (rmapl (var_value vars) es) eqn:E; inversion H0; subst. apply (upd_all_list _ _). eapply Q; eauto.
  - fold (vals vars) in H0. rewrite vals_rmapl in H0. unfold rmap, rbind in H0.
    destruct (rmapl (var_value vars) es) eqn:E; inversion H0; subst. split; [exact I|]. apply (upd_all_list _ _). eapply Q; eauto.
  - destruct (aget String.eqb n vars) as [es|] eqn:E; inversion H0; subst.
    apply (upd_all_list _ _). eapply Hv. eapply aget_in; [apply String.eqb_eq|exact E].
Qed.

Lemma rmapl_no_refs : forall vars, (forall n es, In (n, es) vars -> Forall no_refs es) ->
  forall es vs, rmapl (var_value vars) es = ROk vs -> Forall no_refs vs.
Proof.
  intros vars Hv es vs H. apply rmapl_inv in H. induction H; constructor; auto.
  eapply var_value_no_refs; eassumption.
Qed.

Lemma var_value_resolves : forall vars u v, var_value vars u = ROk v -> resolves vars u v.
Proof.
  intros vars u.
  assert (Q : forall es vs, Forall (fun u => forall v, var_value vars u = ROk v -> resolves vars u v) es ->
            rmapl (var_value vars) es = ROk vs -> Forall2 (resolves vars) es vs).
  { intros es vs H E. apply rmapl_inv in E. induction E; [constructor|]. inversion H; subst. constructor; auto. }
  induction u using update_ind'; intros v H0; cbn [var_value] in H0;
    try (inversion H0; subst; constructor).
  - unfold rmap, rbind in H0.
    destruct (eval_update els) as [[q|]|m|m] eqn:E; inversion H0; subst; cbn [prim_of]; constructor; exact E.
  - fold (vals vars) in H0. rewrite vals_rmapl in H0. unfold rmap, rbind in H0.
    destruct (rmapl (var_value vars) es) eqn:E; inversion H0; subst. constructor; auto.
  - fold (vals vars) in H0. rewrite vals_rmapl in H0. unfold rmap, rbind in H0.
    destruct (rmapl (var_value vars) es) eqn:E; inversion H0; subst. constructor; auto.
  - unfold rmap, rbind in H0. destruct (var_value vars u) eqn:E; inversion H0; subst. constructor; auto.
  - unfold rmap, rbind in H0. destruct (var_value vars u) eqn:E; inversion H0; subst. constructor; auto.
  - fold (vals vars) in H0. rewrite vals_rmapl in H0. unfold rmap, rbind in H0.
    destruct (rmapl (var_value vars) es) eqn:E; inversion H0; subst. constructor; auto.
  - fold (vals vars) in H0. rewrite vals_rmapl in H0. unfold rmap, rbind in H0.
    destruct (rmapl (var_value vars) es) eqn:E; inversion H0; subst. constructor; auto.
  - destruct (aget String.eqb n vars) as [es|] eqn:E; inversion H0; subst. constructor; exact E.
Qed.

Lemma step_vclosed : forall s s', vclosed s -> step s s' -> vclosed s'.
Proof.
  intros s s' H St.
  assert (K : variables s' = variables s -> vclosed s') by (unfold vclosed; intros ->; exact H).
  destruct St; try (apply K; reflexivity).
  - apply K. unfold emit_note in H1.
    destruct (nltb n0 _); [|inversion H1; auto]. destruct (_ || _)%bool; [inversion H1|].
    destruct (assign_channel _ _ _) as [[c s1]|m|m] eqn:E; inversion H1; subst.
    apply assign_channel_frame in E. destruct E as [us ->]. reflexivity.
  - unfold vclosed. cbn [set_variables variables]. intros n us Hin. apply in_aset in Hin.
    destruct Hin as [->|Hin]; [|eapply H; exact Hin]. eapply rmapl_no_refs; eassumption.
  - apply K. apply get_voice_store in H1. apply H1.
  - apply K. apply vend_loop_store.
  - apply K. apply (run_part_store _ _ _ _ _ H0).
Qed.
Lemma star_vclosed : forall s s', star s s' -> vclosed s -> vclosed s'.
Proof. intros s s' H V. induction H; [exact V|]. eapply step_vclosed; eauto. Qed.
Lemma new_vclosed : vclosed new_score.
Proof. intros n es []. Qed.

(* ---------------- references are one level deep ---------------- *)

Lemma each_ext : forall A (f g : A -> score -> score * outcome) l s,
  (forall x s, In x l -> f x s = g x s) -> each f l s = each g l s.
Proof.
  intros A f g l. induction l as [|x t IH]; intros s H; [reflexivity|]. cbn [each].
  rewrite (H x s) by (left; reflexivity). destruct (g x s) as [s1 []]; cbn [seqo]; try reflexivity.
  apply IH. intros; apply H; right; assumption.
Qed.

(** Durations of events without references do not depend on [deref]. *)
Lemma dur_repeat_ext : forall f g, (forall p, f p = g p) -> forall k r p acc,
  dur_repeat f r k p acc = dur_repeat g r k p acc.
Proof.
  intros f g H k. induction k as [|k IH]; intros r p acc; [reflexivity|]. cbn [dur_repeat].
  rewrite H. destruct (g _) as [[q d] []]; cbn [dseq]; auto.
Qed.
Lemma dur_no_refs : forall u, no_refs u -> forall d1 d2 p, dur_upd d1 u p = dur_upd d2 u p.
Proof.
  intros u. induction u using update_ind'; intros Hu d1 d2 q0; try reflexivity.
  - (* chord *) unfold no_refs in Hu. cbn [upd_all] in Hu. rewrite upd_all_list in Hu.
    cbn [dur_upd]. generalize nmaxval as acc. revert q0.
    induction H as [|e t He Ht IH]; intros p acc; [reflexivity|]. inversion Hu; subst.
    rewrite (He H1 d1 d2 p). destruct (dur_upd d2 e p) as [[q d] []]; cbn [dseq]; try reflexivity. apply IH; assumption.
  - cbn [dur_upd]. rewrite (dur_repeat_ext _ (dur_upd d2 u)); [reflexivity|]. intros; apply IHu. apply Hu.
  - cbn [dur_upd]. destruct (applies_to rs (prep q0)); [apply IHu; exact (proj2 Hu)|reflexivity].
  - unfold no_refs in Hu. cbn [upd_all] in Hu. rewrite upd_all_list in Hu.
    cbn [dur_upd]. generalize n0 as acc. revert q0.
    induction H as [|e t He Ht IH]; intros p acc; [reflexivity|]. inversion Hu; subst.
    rewrite (He H1 d1 d2 p). destruct (dur_upd d2 e p) as [[q d] []]; cbn [dseq]; try reflexivity. apply IH; assumption.
  - destruct Hu.
Qed.
Lemma dur_sum_ext : forall f g l, (forall u p, In u l -> f u p = g u p) -> forall p acc,
  dur_sum f l p acc = dur_sum g l p acc.
Proof.
  intros f g l. induction l as [|e t IH]; intros H p acc; [reflexivity|].
  change (dseq (f e p) (fun p d => dur_sum f t p (nadd acc d)) = dseq (g e p) (fun p d => dur_sum g t p (nadd acc d))).
  rewrite H by (left; reflexivity). destruct (g e p) as [[q d] []]; cbn [dseq]; try reflexivity.
  apply IH. intros; apply H; right; assumption.
Qed.

Lemma run_times_ext : forall f g, (forall s, f s = g s) -> forall k r s, run_times f r k s = run_times g r k s.
Proof.
  intros f g H k. induction k as [|k IH]; intros r s; [reflexivity|]. cbn [run_times].
  destruct (each _ _ s) as [s1 []]; cbn [seqo]; try reflexivity.
  rewrite H. destruct (g s1) as [s2 []]; cbn [seqo]; try reflexivity. apply IH.
Qed.
Lemma onreps_ext : forall rs f g, (forall s, f s = g s) -> forall cnt i s,
  onreps_loop rs f i cnt s = onreps_loop rs g i cnt s.
Proof.
  intros rs f g H cnt. induction cnt as [|k IH]; intros i s; [reflexivity|]. cbn [onreps_loop].
  destruct (nth_error _ _); [|reflexivity]. destruct (applies_to _ _).
  - rewrite H. destruct (g s) as [s2 []]; cbn [seqo]; try reflexivity. apply IH.
  - cbn [seqo]. apply IH.
Qed.
Lemma cram_scale_ext : forall d1 d2 es d s,
  (forall p acc, dur_sum (dur_upd d1) es p acc = dur_sum (dur_upd d2) es p acc) ->
  cram_scale d1 es d s = cram_scale d2 es d s.
Proof.
  intros d1 d2 es d s H. unfold cram_scale. apply each_ext. intros p s1 _.
  unfold time_scale, inner_dur. rewrite H. reflexivity.
Qed.

Lemma run_no_refs : forall u, no_refs u -> forall r1 d1 r2 d2 s, run_upd r1 d1 u s = run_upd r2 d2 u s.
Proof.
  intros u. induction u using update_ind'; intros Hu r1 d1 r2 d2 s; try reflexivity.
  - unfold no_refs in Hu. cbn [upd_all] in Hu. rewrite upd_all_list in Hu.
    cbn [run_upd]. destruct (apply_globals s) as [s1 []]; cbn [seqo]; try reflexivity.
    generalize (map (fun p : pid => (p, nmaxval)) (current s1)) as m.
    generalize (set_chordmode true s1) as a. clear s s1.
    induction H as [|e t He Ht IH]; intros a m; [reflexivity|]. inversion Hu; subst.
    rewrite (He H1 r1 d1 r2 d2 a). destruct (run_upd r2 d2 e a) as [s2 []]; cbn [seqo]; try reflexivity.
    apply IH; assumption.
  - unfold no_refs in Hu. cbn [upd_all] in Hu. rewrite upd_all_list in Hu.
    cbn [run_upd]. rewrite (cram_scale_ext _ (d2 (variables s))).
    2:{ intros p acc. apply dur_sum_ext. intros w q Hin. apply dur_no_refs. rewrite Forall_forall in Hu. apply Hu; exact Hin. }
    destruct (cram_scale (d2 (variables s)) es d s) as [s1 []]; cbn [seqo]; try reflexivity.
    f_equal. revert s1. induction H as [|e t He Ht IH]; intros a; [reflexivity|]. inversion Hu; subst.
    rewrite (He H1 r1 d1 r2 d2 a). destruct (run_upd r2 d2 e a) as [s2 []]; cbn [seqo]; try reflexivity.
    apply IH; assumption.
  - cbn [run_upd]. rewrite (run_times_ext _ (run_upd r2 d2 u)); [reflexivity|]. intros; apply IHu, Hu.
  - cbn [run_upd]. apply onreps_ext. intros; apply IHu; exact (proj2 Hu).
  - unfold no_refs in Hu. cbn [upd_all] in Hu. rewrite upd_all_list in Hu.
    cbn [run_upd]. revert s. induction H as [|e t He Ht IH]; intros a; [reflexivity|]. inversion Hu; subst.
    rewrite (He H1 r1 d1 r2 d2 a). destruct (run_upd r2 d2 e a) as [s2 []]; cbn [seqo]; try reflexivity.
    apply IH; assumption.
  - destruct Hu.
Qed.

(** Running any update gives the same result for every budget of at least one. *)
Lemma deref_fuel : forall k n s, vclosed s -> run_deref (S k) n s = run_deref 1 n s.
Proof.
  intros k n s V. cbn [run_deref]. destruct (aget _ _ _) as [es|] eqn:E; [|reflexivity].
  apply aget_in in E; [|intros; apply String.eqb_eq]. apply V in E. rewrite Forall_forall in E.
  apply each_ext. intros. apply run_no_refs. auto.
Qed.
Lemma dur_deref_fuel : forall k n s p, vclosed s ->
  dur_deref (S k) (variables s) n p = dur_deref 1 (variables s) n p.
Proof.
  intros k n s p V. cbn [dur_deref]. destruct (aget _ _ _) as [es|] eqn:E; [|reflexivity].
  apply aget_in in E; [|intros; apply String.eqb_eq]. apply V in E. rewrite Forall_forall in E.
  apply dur_sum_ext. intros. apply dur_no_refs. auto.
Qed.

Section Ext.
Variables r1 r2 : string -> score -> score * outcome.
Variables d1 d2 : list (string * list update) -> string -> part -> dres.
Hypothesis Hr : forall n s, vclosed s -> r1 n s = r2 n s.
Hypothesis Hd : forall n s p, vclosed s -> d1 (variables s) n p = d2 (variables s) n p.
Hypothesis Hs : forall n s s' o, r1 n s = (s', o) -> star s s'.

Lemma run_upd_star1 : forall u s s' o, run_upd r1 d1 u s = (s', o) -> vclosed s -> vclosed s'.
Proof.
  intros u s s' o H V. eapply star_vclosed; [|exact V].
  eapply (run_upd_star (fun _ => True)); [|apply upd_all_true|exact H|apply store_all_true].
  intros n a b o2 E _. eapply Hs; exact E.
Qed.

Lemma dur_upd_ext : forall s, vclosed s -> forall u p,
  dur_upd (d1 (variables s)) u p = dur_upd (d2 (variables s)) u p.
Proof.
  intros s V u. induction u using update_ind'; intros q0; try reflexivity.
  - cbn [dur_upd]. generalize nmaxval as acc. revert q0.
    induction H as [|e t He Ht IH]; intros p acc; [reflexivity|].
    rewrite He. destruct (dur_upd _ e p) as [[q d] []]; cbn [dseq]; try reflexivity. apply IH.
  - cbn [dur_upd]. rewrite (dur_repeat_ext _ (dur_upd (d2 (variables s)) u)); [reflexivity|]. apply IHu.
  - cbn [dur_upd]. destruct (applies_to rs (prep q0)); [apply IHu|reflexivity].
  - cbn [dur_upd]. generalize n0 as acc. revert q0.
    induction H as [|e t He Ht IH]; intros p acc; [reflexivity|].
    rewrite He. destruct (dur_upd _ e p) as [[q d] []]; cbn [dseq]; try reflexivity. apply IH.
  - cbn [dur_upd]. apply Hd; exact V.
Qed.

Lemma starc_vclosed : forall s s', starc (fun _ => True) s s' -> vclosed s -> vclosed s'.
Proof. intros s s' [A _] V. eapply star_vclosed; [|exact V]. apply A, store_all_true. Qed.

Lemma run_upd_ext : forall u s, vclosed s -> run_upd r1 d1 u s = run_upd r2 d2 u s.
Proof.
  intros u. induction u using update_ind'; intros s V; try reflexivity.
  - cbn [run_upd]. destruct (apply_globals s) as [s1 []] eqn:E; cbn [seqo]; try reflexivity.
    apply (apply_globals_starc (fun _ => True)) in E.
    assert (V1 : vclosed (set_chordmode true s1)) by exact (starc_vclosed _ _ E V).
    generalize (map (fun p : pid => (p, nmaxval)) (current s1)) as m.
    revert V1. generalize (set_chordmode true s1) as a. clear s s1 V E.
    induction H as [|e t He Ht IH]; intros a V m; [reflexivity|].
    pose proof (run_upd_star1 e a) as P.
    rewrite <- (He a V). destruct (run_upd r1 d1 e a) as [s2 []]; cbn [seqo]; try reflexivity.
    apply IH. eapply P; [reflexivity|exact V].
  - cbn [run_upd]. rewrite (cram_scale_ext _ (d2 (variables s))).
    2:{ intros p acc. apply dur_sum_ext. intros u q Hin. apply dur_upd_ext; exact V. }
    destruct (cram_scale (d2 (variables s)) es d s) as [s1 []] eqn:E; cbn [seqo]; try reflexivity.
    assert (V1 : vclosed s1).
    { unfold cram_scale in E. eapply starc_vclosed; [|exact V]. eapply each_starc; [|exact E].
      intros p a b o2 Hp Hc H1. cbn beta in H1.
      destruct (time_scale _ _ _ _) as [ts []]; inversion H1; subst; try apply starc_refl.
      apply soft_starc; [congruence|]. intros; repeat split. }
    f_equal. revert s1 V1 E. induction H as [|e t He Ht IH]; intros a V1 E; [reflexivity|].
    pose proof (run_upd_star1 e a) as P. rewrite <- (He a V1).
    destruct (run_upd r1 d1 e a) as [s2 []]; cbn [seqo]; try reflexivity.
    specialize (P _ _ eq_refl V1). clear E. revert s2 P.
    clear IH. induction Ht as [|e2 t2 He2 Ht2 IH2]; intros s2 P; [reflexivity|].
    pose proof (run_upd_star1 e2 s2) as P2. rewrite <- (He2 s2 P).
    destruct (run_upd r1 d1 e2 s2) as [s3 []]; cbn [seqo]; try reflexivity.
    apply IH2. eapply P2; [reflexivity|exact P].
  - cbn [run_upd]. f_equal. generalize 1%Z as r. revert s V. induction (Z.to_nat n) as [|k IH]; intros s V r; [reflexivity|].
    cbn [run_times]. destruct (each _ (current s) s) as [s1 []] eqn:E; cbn [seqo]; try reflexivity.
    assert (V1 : vclosed s1).
    { eapply starc_vclosed; [|exact V]. eapply each_starc; [|exact E].
      intros p a b o3 Hp Hc H1. inversion H1; subst. apply soft_starc; [congruence|]. intros; repeat split. }
    pose proof (run_upd_star1 u s1) as P. rewrite <- (IHu s1 V1).
    destruct (run_upd r1 d1 u s1) as [s2 []]; cbn [seqo]; try reflexivity. apply IH. eapply P; [reflexivity|exact V1].
  - cbn [run_upd]. generalize 0%nat as i. generalize (List.length (current s)) as cnt. intros cnt. revert s V.
    induction cnt as [|k IH]; intros s V i; [reflexivity|]. cbn [onreps_loop].
    destruct (nth_error _ _); [|reflexivity]. destruct (applies_to _ _); [|cbn [seqo]; apply IH; exact V].
    pose proof (run_upd_star1 u s) as P. rewrite <- (IHu s V).
    destruct (run_upd r1 d1 u s) as [s2 []]; cbn [seqo]; try reflexivity. apply IH. eapply P; [reflexivity|exact V].
  - cbn [run_upd]. revert s V. induction H as [|e t He Ht IH]; intros a V; [reflexivity|].
    pose proof (run_upd_star1 e a) as P. rewrite <- (He a V).
    destruct (run_upd r1 d1 e a) as [s2 []]; cbn [seqo]; try reflexivity. apply IH. eapply P; [reflexivity|exact V].
  - cbn [run_upd]. apply Hr; exact V.
Qed.
End Ext.

Lemma deref_star1 : forall k n s s' o, run_deref k n s = (s', o) -> star s s'.
Proof. intros k n s s' o H. eapply (run_deref_star (fun _ => True)); [exact H|apply store_all_true]. Qed.

Lemma run_fuel : forall k u s, vclosed s -> run (S k) u s = run 1 u s.
Proof.
  intros k u s V. unfold run. apply run_upd_ext; [| | |exact V].
  - intros; apply deref_fuel; assumption.
  - intros; apply dur_deref_fuel; assumption.
  - intros n a b o; apply deref_star1.
Qed.
Lemma run_all_fuel : forall k us s, vclosed s -> run_all (S k) us s = run_all 1 us s.
Proof.
  intros k us. induction us as [|u us IH]; intros s V; [reflexivity|]. cbn [run_all each].
  rewrite run_fuel by exact V. destruct (run 1 u s) as [s1 []] eqn:E; cbn [seqo]; try reflexivity.
  apply IH. eapply star_vclosed; [|exact V]. eapply run_star; exact E.
Qed.

Lemma session_vclosed : forall calls, vclosed (session calls).
Proof. intros calls. eapply star_vclosed; [apply session_reachable|apply new_vclosed]. Qed.
Lemma continue_star : forall calls s, star s (continue s calls).
Proof.
  induction calls as [|us calls IH]; intros s; cbn [continue fold_left]; [constructor|].
  fold (continue (fst (exec us s)) calls). eapply star_trans; [|apply IH].
  destruct (exec us s) as [s1 o] eqn:E. eapply run_all_star; exact E.
Qed.
End Vars.
