(** A member of a group can always play on its own what the group plays: the
    run of one current part succeeds whenever the run of the group does. *)
From Coq Require Import ZArith List String Bool Lia Arith.
From Verif Require Import Base Num ModelPitch ModelDuration ModelInstruments ModelTypes ModelLisp
  ModelScore SpecScore SpecVars SpecParts SpecSolo ProofHeap ProofStep ProofInv ProofEvents ProofVoices
  ProofVars ProofSafe ProofTracks ProofSolo.
Import ListNotations.

Section SoloOk.
Context {N : Num}.
Local Notation nc := unchanneled.
Local Notation any := (fun _ : label => True).

Lemma starc_inv : forall s s', starc any s s' -> inv s -> inv s'.
Proof. intros s s' [H _] I. eapply star_inv_idext; [apply H, store_all_true|exact I]. Qed.

Section Lock.
Variable p : pid.

(** The channel of [p] is the same in both runs, or the lone part has chosen one
    itself; and the lone run has no foreign events that the group's run lacks. *)
Definition CH (g s : score) : Prop :=
  (pchan (getp g p) = pchan (getp s p) \/
   (pexplicit (getp s p) = false /\ chan_ok (pchan (getp s p)) = true)) /\
  (forall e, In e (events s) -> ev_part e <> porigin (getp s p) -> In e (events g)).

Lemma view_fields : forall g s, view p g = view p s ->
  nc (getp g p) = nc (getp s p) /\ globals g = globals s /\ markers g = markers s /\
  variables g = variables s /\ chordmode g = chordmode s.
Proof.
  intros g s V. repeat split.
  - exact (f_equal so_part V).
  - exact (f_equal so_glob V).
  - exact (f_equal so_mark V).
  - exact (f_equal so_vars V).
  - exact (f_equal so_chord V).
Qed.

(* ---------------- channels ---------------- *)

Lemma free_unavailable : forall s o off dur c, free_for s o off dur c -> unavailable s o off dur c = false.
Proof.
  intros s o off dur c H. unfold unavailable.
  match goal with |- ?b = false => destruct b eqn:E; [|reflexivity] end.
  apply existsb_exists in E. destruct E as [e [He E]].
  apply andb_true_iff in E. destruct E as [E E3]. apply andb_true_iff in E. destruct E as [E1 E2].
  apply Z.eqb_eq in E2. apply negb_true_iff, Nat.eqb_neq in E1.
  rewrite (H e He E2 E1) in E3. discriminate.
Qed.
Lemma find_ok : forall (f : Z -> bool) c, chan_ok c = true -> f c = true ->
  exists x, find f all_channels = Some x /\ chan_ok x = true.
Proof.
  intros f c Hc Hf.
  assert (Hin : In c all_channels).
  { apply chan_ok_iff in Hc. unfold all_channels.
    assert (X : (c = 0 \/ c = 1 \/ c = 2 \/ c = 3 \/ c = 4 \/ c = 5 \/ c = 6 \/ c = 7 \/ c = 8 \/ c = 9 \/ c = 10
      \/ c = 11 \/ c = 12 \/ c = 13 \/ c = 14 \/ c = 15)%Z) by lia.
    cbn. intuition congruence. }
  destruct (find f all_channels) as [x|] eqn:E.
  - exists x. split; [reflexivity|]. apply find_some in E. destruct E as [E _].
    unfold all_channels in E. cbn in E. intuition (subst; reflexivity).
  - exfalso. pose proof (find_none _ _ E c Hin). congruence.
Qed.
Lemma find_chan_ok : forall f c, find f all_channels = Some c -> chan_ok c = true.
Proof.
  intros f c E. apply find_some in E. destruct E as [E _].
  unfold all_channels in E. cbn in E. intuition (subst; reflexivity).
Qed.

(** The group's part found a channel, so the lone part finds one. *)
Lemma determine_lock : forall g s a b dur c, inv g ->
  (pchan a = 9%Z -> iperc (pstock a) = true) -> nc a = nc b ->
  (pchan a = pchan b \/ (pexplicit b = false /\ chan_ok (pchan b) = true)) ->
  (forall e, In e (events s) -> ev_part e <> porigin b -> In e (events g)) ->
  chan_ok c = true -> determine_channel g a dur = ROk c ->
  exists c', determine_channel s b dur = ROk c' /\ chan_ok c' = true /\
             (c = c' \/ pexplicit b = false).
Proof.
  intros g s a b dur c I H9 Hn Hch Hev Hc H.
  destruct (determine_ok g a dur c I H9 Hc H) as [D1 D2].
  assert (E1 : pstock a = pstock b) by exact (f_equal pstock Hn).
  assert (E2 : pexplicit a = pexplicit b) by exact (f_equal pexplicit Hn).
  assert (E3 : porigin a = porigin b) by exact (f_equal porigin Hn).
  assert (E4 : pcur a = pcur b) by exact (f_equal pcur Hn).
  assert (Free : c <> 9%Z -> unavailable s (porigin b) (pcur b) dur c = false).
  { intros N9. apply free_unavailable. intros e He Hec Hep.
    rewrite <- E4. apply (D2 N9 e); [apply Hev; assumption|exact Hec|congruence]. }
  unfold determine_channel in H |- *. rewrite E1, E2 in H. rewrite E1 in D1.
  destruct (iperc (pstock b)) eqn:Ep.
  { inversion H; subst. exists 9%Z. repeat split; auto. }
  assert (N9 : c <> 9%Z) by (intros X; apply D1 in X; discriminate). specialize (Free N9).
  destruct (pexplicit b) eqn:Ex.
  - assert (Hab : pchan a = pchan b) by (destruct Hch as [X|[X _]]; [exact X|discriminate]).
    rewrite Hab in H.
    destruct (chan_ok (pchan b)) eqn:Ok1; cbn [negb] in *; [|discriminate].
    assert (Ec : c = pchan b).
    { destruct (_ || _)%bool; [congruence|].
      destruct (complex_check g a dur) as [z|]; [destruct (z =? pchan b)%Z; congruence|].
      destruct (pchan b =? -1)%Z; congruence. }
    subst c. exists (pchan b). split; [|auto]. clear H.
    destruct (channel_unused s (pchan b) || exclusive s (porigin b) (pchan b))%bool; [reflexivity|]. unfold complex_check.
    assert (M1 : (pchan b =? -1)%Z = false).
    { apply Z.eqb_neq. intros X. rewrite X in Ok1. discriminate. }
    rewrite M1, Free. cbn [negb andb]. rewrite Z.eqb_refl. reflexivity.
  - assert (Av : (pchan b = -1 \/ chan_ok (pchan b) = true)%Z ->
       exists c', available_channel s b dur = ROk c' /\ chan_ok c' = true).
    { intros Hb. unfold available_channel. destruct (simple_check s (porigin b)) as [x|] eqn:Es.
      { exists x. split; [reflexivity|]. eapply find_chan_ok; exact Es. }
      unfold complex_check.
      destruct (negb (pchan b =? -1)%Z && negb (unavailable s (porigin b) (pcur b) dur (pchan b)))%bool eqn:E.
      - exists (pchan b). split; [reflexivity|]. apply andb_true_iff in E. destruct E as [E _].
        apply negb_true_iff, Z.eqb_neq in E. destruct Hb; congruence.
      - destruct (find_ok (fun c => negb (c =? 9)%Z && negb (unavailable s (porigin b) (pcur b) dur c)) c Hc) as [x [Hx Ho]].
        { rewrite Free. apply Z.eqb_neq in N9. rewrite N9. reflexivity. }
        rewrite Hx. exists x. auto. }
    assert (Hb : (pchan b = -1 \/ chan_ok (pchan b) = true)%Z).
    { destruct Hch as [X|[_ X]]; [|right; exact X]. rewrite <- X.
      destruct (pchan a =? -1)%Z eqn:Em; [left; apply Z.eqb_eq; exact Em|]. cbn [negb] in H.
      destruct (chan_ok (pchan a)); [right; reflexivity|discriminate]. }
    destruct (Av Hb) as [c' [A1 A2]].
    destruct (pchan b =? -1)%Z eqn:Em; cbn [negb].
    + exists c'. auto.
    + apply Z.eqb_neq in Em. assert (Ok1 : chan_ok (pchan b) = true) by (destruct Hb; congruence).
      rewrite Ok1. cbn [negb]. destruct (exclusive s (porigin b) (pchan b)).
      * exists (pchan b). auto.
      * exists c'. auto.
Qed.

(* ---------------- what one part does ---------------- *)

(** Another part leaves the channel of [p] alone and only adds events. *)
Definition quiet (s s' : score) : Prop :=
  pchan (getp s' p) = pchan (getp s p) /\ incl (events s) (events s').
Lemma quiet_refl : forall s, quiet s s.
Proof. intros; split; [reflexivity|apply incl_refl]. Qed.
Lemma quiet_trans : forall a b c, quiet a b -> quiet b c -> quiet a c.
Proof. intros a b c [A B] [C D]. split; [congruence|eapply incl_tran; eassumption]. Qed.
Lemma quiet_CH : forall g g' s, quiet g g' -> CH g s -> CH g' s.
Proof.
  intros g g' s [A B] [C D]. split; [rewrite A; exact C|]. intros e He Ho. apply B, D; assumption.
Qed.
Lemma quiet_setp : forall q v s, q <> p -> quiet s (setp q v s).
Proof. intros q v s H. split; [rewrite getp_setp_other by congruence; reflexivity|apply incl_refl]. Qed.
Lemma quiet_modp : forall q f s, q <> p -> quiet s (modp q f s).
Proof. intros. apply quiet_setp; assumption. Qed.

(** [f] is what the engine does for each current part. *)
Record lock (f : pid -> score -> score * outcome) : Prop := Lock {
  lk_only : forall q s1 s2, (q < List.length (heap s1))%nat -> f q s1 = (s2, Ok) -> only q s1 s2;
  lk_inv : forall q s1 s2, In q (current s1) -> inv s1 -> f q s1 = (s2, Ok) -> inv s2;
  lk_quiet : forall q s1 s2, q <> p -> porigin (getp s1 q) <> p -> f q s1 = (s2, Ok) -> quiet s1 s2 }.
(** ... and it succeeds for [p] alone. *)
Definition follow (f f' : pid -> score -> score * outcome) : Prop :=
  forall g g' s, inv g -> In p (current g) -> (p < List.length (heap s))%nat ->
    view p g = view p s -> CH g s -> f p g = (g', Ok) ->
    exists s', f' p s = (s', Ok) /\ CH g' s'.

Lemma each_rest : forall f, lock f -> forall l g g' s,
  (forall q, In q l -> In q (current g) /\ org g q <> org g p) -> In p (current g) ->
  inv g -> CH g s -> each f l g = (g', Ok) -> CH g' s /\ inv g'.
Proof.
  intros f Lf l. induction l as [|q l IH]; intros g g' s Hl Hp I C H; cbn [each] in H.
  - inversion H; subst. auto.
  - destruct (f q g) as [g1 []] eqn:E; try discriminate. cbn [seqo] in H.
    destruct (Hl q (or_introl eq_refl)) as [Hq Ho].
    assert (Lq : (q < List.length (heap g))%nat) by (apply in_cur; assumption).
    pose proof (lk_only f Lf q g g1 Lq E) as O. pose proof (o_keep _ _ _ O) as K.
    destruct (getp_good g q I Lq) as (_ & G2 & _).
    apply (IH g1 g' s); [| | | |exact H].
    + intros r Hr. rewrite (k_cur _ _ K). destruct (Hl r (or_intror Hr)) as [A B].
      split; [exact A|]. unfold org. rewrite !(k_org _ _ K). exact B.
    + rewrite (k_cur _ _ K). exact Hp.
    + eapply lk_inv; eassumption.
    + eapply quiet_CH; [|exact C]. eapply lk_quiet; [exact Lf| | |exact E].
      * intros ->. apply Ho; reflexivity.
      * intros X. apply Ho. unfold org. rewrite X in G2. congruence.
Qed.

Lemma each_front : forall f f', lock f -> follow f f' -> forall l g g' s,
  In p l -> NoDup l ->
  (forall q, In q l -> In q (current g) /\ (q <> p -> org g q <> org g p)) -> In p (current g) ->
  inv g -> (p < List.length (heap s))%nat -> view p g = view p s -> CH g s -> each f l g = (g', Ok) ->
  exists s', f' p s = (s', Ok) /\ CH g' s' /\ inv g'.
Proof.
  intros f f' Lf Ff l. induction l as [|q l IH]; intros g g' s Hin Hnd Hl Hp I Ls V C H; [destruct Hin|].
  cbn [each] in H. destruct (f q g) as [g1 []] eqn:E; try discriminate. cbn [seqo] in H.
  destruct (Hl q (or_introl eq_refl)) as [Hq Ho].
  assert (Lq : (q < List.length (heap g))%nat) by (apply in_cur; assumption).
  assert (Lp : (p < List.length (heap g))%nat) by (apply in_cur; assumption).
  pose proof (lk_only f Lf q g g1 Lq E) as O. pose proof (o_keep _ _ _ O) as K.
  pose proof (lk_inv f Lf q g g1 Hq I E) as I1.
  inversion Hnd as [|? ? Hnq Hnd']; subst.
  destruct (Nat.eq_dec q p) as [->|Nq].
  - destruct (Ff g g1 s I Hp Ls V C E) as [s' [F1 F2]].
    destruct (each_rest f Lf l g1 g' s') as [R1 R2]; [| |exact I1|exact F2|exact H|].
    + intros r Hr. rewrite (k_cur _ _ K). destruct (Hl r (or_intror Hr)) as [A B].
      split; [exact A|]. unfold org. rewrite !(k_org _ _ K). apply B. intros ->. contradiction.
    + rewrite (k_cur _ _ K). exact Hp.
    + exists s'. auto.
  - destruct (getp_good g q I Lq) as (_ & G2 & _). specialize (Ho Nq).
    destruct Hin as [X|Hin]; [contradiction|].
    apply (IH g1 g' s Hin Hnd'); [| |exact I1|exact Ls| | |exact H].
    + intros r Hr. rewrite (k_cur _ _ K). destruct (Hl r (or_intror Hr)) as [A B].
      split; [exact A|]. intros X. unfold org. rewrite !(k_org _ _ K). apply B, X.
    + rewrite (k_cur _ _ K). exact Hp.
    + rewrite <- V. eapply only_view; [exact O|]. congruence.
    + eapply quiet_CH; [|exact C]. eapply lk_quiet; [exact Lf|exact Nq| |exact E].
      intros X. apply Ho. unfold org. rewrite X in G2. congruence.
Qed.

(** One loop over the current parts. *)
Lemma each_lock : forall f f' g g' s, lock f -> follow f f' -> wf g -> inv g -> In p (current g) ->
  (p < List.length (heap s))%nat -> current s = [p] ->
  view p g = view p s -> CH g s -> each f (current g) g = (g', Ok) ->
  exists s', each f' (current s) s = (s', Ok) /\ CH g' s' /\ inv g'.
Proof.
  intros f f' g g' s Lf Ff [W1 W2] I Hp Ls Hc V C H.
  assert (Nd : NoDup (current g)) by (eapply NoDup_map_NoDup; exact W2).
  destruct (each_front f f' Lf Ff (current g) g g' s Hp Nd) as [s' [A B]]; try assumption.
  - intros q Hq. split; [exact Hq|]. intros X Y. apply X.
    clear - W2 Hq Hp Y. induction (current g) as [|r l IH]; [destruct Hq|].
    cbn [map] in W2. inversion W2 as [|? ? Hr W2']; subst.
    destruct Hq as [->|Hq], Hp as [->|Hp]; auto.
    + exfalso. apply Hr. rewrite Y. apply in_map; exact Hp.
    + exfalso. apply Hr. rewrite <- Y. apply in_map; exact Hq.
  - exists s'. rewrite Hc. cbn [each]. rewrite A. auto.
Qed.

(* ---- the loop bodies ---- *)

Lemma modp_lock : forall (f : pid -> part -> part),
  (forall q a, soft a (f q a) /\ ptvals (f q a) = ptvals a) ->
  lock (fun q s => (modp q (f q) s, Ok)).
Proof.
  intros f Hf. split; intros q s1 s2.
  - intros _ E. inversion E; subst. apply modp_only. intros a. apply Hf.
  - intros Hq I E. inversion E; subst. eapply starc_inv; [|exact I]. apply soft_starc; [exact Hq|apply Hf].
  - intros Hn _ E. inversion E; subst. apply quiet_modp, Hn.
Qed.
Lemma CH_modp : forall f f' g s, (p < List.length (heap g))%nat -> (p < List.length (heap s))%nat ->
  (forall a, pchan (f a) = pchan a) ->
  (forall a, pchan (f' a) = pchan a /\ pexplicit (f' a) = pexplicit a /\ porigin (f' a) = porigin a) ->
  CH g s -> CH (modp p f g) (modp p f' s).
Proof.
  intros f f' g s Lg Ls H H' [A B]. unfold CH. rewrite !getp_modp by assumption. rewrite Nat.eqb_refl.
  destruct (H' (getp s p)) as (H1 & H2 & H3). rewrite H, H1, H2, H3. split; [exact A|exact B].
Qed.
Lemma modp_follow : forall (f f' : pid -> part -> part),
  (forall a, pchan (f p a) = pchan a) ->
  (forall a, pchan (f' p a) = pchan a /\ pexplicit (f' p a) = pexplicit a /\ porigin (f' p a) = porigin a) ->
  follow (fun q s => (modp q (f q) s, Ok)) (fun q s => (modp q (f' q) s, Ok)).
Proof.
  intros f f' H H' g g' s I Hp Ls V C E. pose proof (in_cur g p I Hp) as Lg. inversion E; subst.
  eexists. split; [reflexivity|]. apply CH_modp; assumption.
Qed.

(** Attribute changes. *)
Lemma update_lock : forall u b a a' v, nc a = nc a' -> update_part u b a = ROk v ->
  exists v', update_part u b a' = ROk v' /\ porigin v' = porigin a' /\
    ((pchan v = pchan v') \/ (pchan v = pchan a /\ pchan v' = pchan a' /\ pexplicit v' = pexplicit a')).
Proof.
  intros u b a a' v Hn H.
  assert (E1 : pstock a = pstock a') by exact (f_equal pstock Hn).
  destruct u; cbn [update_part] in H |- *;
    try (eexists; split; [reflexivity|]; apply rok_inj in H; subst v; split; [reflexivity|]; right; repeat split; reflexivity);
    try (eexists; split; [reflexivity|]; apply rok_inj in H; subst v; split; [destruct b; reflexivity|]; right; destruct b; repeat split; reflexivity).
  rewrite <- E1. destruct (_ && _)%bool; [discriminate|]. eexists; split; [reflexivity|].
  apply rok_inj in H; subst v. split; [reflexivity|]. left; reflexivity.
Qed.
Lemma do_update_follow : forall u b, follow (do_update_part u b) (do_update_part u b).
Proof.
  intros u b g g' s I Hp Ls V [C1 C2] E. pose proof (in_cur g p I Hp) as Lg. unfold do_update_part in *.
  destruct (update_part u b (getp g p)) as [v|m|m] eqn:Eu; inversion E; subst g'.
  destruct (update_lock u b _ (getp s p) v (proj1 (view_fields _ _ V)) Eu) as (v' & A & A2 & B).
  rewrite A. eexists. split; [reflexivity|]. unfold CH. rewrite !getp_setp_same by assumption.
  split.
  - destruct B as [B|(B1 & B2 & B3)]; [left; exact B|]. rewrite B1, B2, B3. exact C1.
  - rewrite A2. exact C2.
Qed.
Lemma do_update_lock : forall u b, lock (do_update_part u b).
Proof.
  intros u b. split; intros q s1 s2.
  - intros Hq E. apply (do_update_solo _ _ _ _ _ Hq E).
  - intros Hq I E. eapply starc_inv; [|exact I]. eapply do_update_starc; [|exact Hq|exact E].
    destruct b; [destruct u; exact Logic.I|]. destruct u; cbn; auto.
  - intros Hn _ E. unfold do_update_part in E. destruct (update_part u b (getp s1 q)); inversion E; subst.
    apply quiet_setp, Hn.
Qed.
Definition attr_one (u : part_update) (q : pid) (s : score) : score * outcome :=
  seqo (do_update_part u false q s) (fun s => (modp q (set_povr (Some u)) s, Ok)).
Lemma ovr_soft : forall (o : option part_update) a, soft a (set_povr o a) /\ ptvals (set_povr o a) = ptvals a.
Proof. intros. repeat split. Qed.
Lemma attr_lock : forall u, lock (attr_one u).
Proof.
  intros u. destruct (do_update_lock u false) as [A B C].
  destruct (modp_lock (fun _ => set_povr (Some u)) (fun _ => ovr_soft (Some u))) as [A2 B2 C2].
  split; intros q s1 s2; unfold attr_one; destruct (do_update_part u false q s1) as [s3 []] eqn:E3;
    try (intros; discriminate); cbn [seqo].
  - intros Hq E. pose proof (A _ _ _ Hq E3) as O. eapply only_trans; [exact O|].
    apply A2; [rewrite (k_len _ _ (o_keep _ _ _ O)); exact Hq|exact E].
  - intros Hq I E. eapply B2; [|eapply B; eassumption|exact E].
    assert (Lq : (q < List.length (heap s1))%nat) by (apply in_cur; assumption).
    rewrite (k_cur _ _ (o_keep _ _ _ (A _ _ _ Lq E3))). exact Hq.
  - intros Hn Ho E. eapply quiet_trans; [exact (C _ _ _ Hn Ho E3)|]. inversion E; subst. apply quiet_modp, Hn.
Qed.
Lemma attr_follow : forall u, follow (attr_one u) (attr_one u).
Proof.
  intros u g g' s I Hp Ls V C E. pose proof (in_cur g p I Hp) as Lg. unfold attr_one in *.
  destruct (do_update_part u false p g) as [g1 []] eqn:E1; try discriminate. cbn [seqo] in E.
  destruct (do_update_follow u false g g1 s I Hp Ls V C E1) as [s1 [A B]]. rewrite A. cbn [seqo].
  eexists. split; [reflexivity|]. inversion E; subst.
  pose proof (k_len _ _ (o_keep _ _ _ (lk_only _ (do_update_lock u false) _ _ _ Lg E1))) as K1.
  pose proof (k_len _ _ (o_keep _ _ _ (lk_only _ (do_update_lock u false) _ _ _ Ls A))) as K2.
  apply CH_modp; [rewrite K1; exact Lg|rewrite K2; exact Ls|reflexivity|repeat split|exact B].
Qed.

(** Global attributes. *)
Definition glob_one (q : pid) (u : part_update) (s : score) : score * outcome :=
  if overrides (povr (getp s q)) u then (s, Ok) else do_update_part u true q s.
Lemma globs_quiet : forall q us s s', q <> p -> porigin (getp s q) <> p -> (q < List.length (heap s))%nat ->
  each (glob_one q) us s = (s', Ok) -> quiet s s'.
Proof.
  intros q us. induction us as [|u us IH]; intros s s' Hn Ho Hq H; cbn [each] in H.
  - inversion H; subst. apply quiet_refl.
  - unfold glob_one in H at 1. destruct (overrides _ _); [cbn [seqo] in H; apply IH; assumption|].
    destruct (do_update_part u true q s) as [s1 []] eqn:E; try discriminate. cbn [seqo] in H.
    destruct (do_update_lock u true) as [A B C]. pose proof (A _ _ _ Hq E) as O. pose proof (o_keep _ _ _ O) as K.
    eapply quiet_trans; [exact (C _ _ _ Hn Ho E)|]. apply IH; [exact Hn| | |exact H].
    + rewrite (k_org _ _ K). exact Ho.
    + rewrite (k_len _ _ K). exact Hq.
Qed.
Lemma globs_follow : forall us g g' s, inv g -> In p (current g) -> (p < List.length (heap s))%nat ->
  view p g = view p s -> CH g s -> each (glob_one p) us g = (g', Ok) ->
  exists s', each (glob_one p) us s = (s', Ok) /\ CH g' s'.
Proof.
  induction us as [|u us IH]; intros g g' s I Hp Ls V C H; cbn [each] in *.
  - inversion H; subst. exists s. auto.
  - assert (Lg : (p < List.length (heap g))%nat) by (apply in_cur; assumption).
    unfold glob_one in H at 1. unfold glob_one at 1.
    assert (Eo : povr (getp g p) = povr (getp s p)) by exact (f_equal povr (proj1 (view_fields _ _ V))).
    rewrite <- Eo. destruct (overrides (povr (getp g p)) u); [cbn [seqo] in *; apply (IH g g' s); assumption|].
    destruct (do_update_part u true p g) as [g1 []] eqn:E; try discriminate. cbn [seqo] in H.
    destruct (do_update_follow u true g g1 s I Hp Ls V C E) as [s1 [A B]]. rewrite A. cbn [seqo].
    destruct (do_update_solo _ _ _ _ _ Lg E) as [O1 V1]. destruct (do_update_solo _ _ _ _ _ Ls A) as [O2 V2].
    apply (IH g1 g' s1); [| | | |exact B|exact H].
    + eapply (lk_inv _ (do_update_lock u true)); eassumption.
    + rewrite (k_cur _ _ (o_keep _ _ _ O1)). exact Hp.
    + rewrite (k_len _ _ (o_keep _ _ _ O2)). exact Ls.
    + rewrite V in V1. rewrite V1 in V2. apply some_inj in V2. exact V2.
Qed.
Lemma globals_lock : lock apply_globals_to.
Proof.
  split; intros q s1 s2.
  - intros Hq E. unfold apply_globals_to in E.
    match type of E with seqo ?r _ = _ => destruct r as [s3 []] eqn:E3; try discriminate end.
    cbn [seqo] in E. inversion E; subst s2. destruct (globs_solo _ _ _ _ Hq E3) as [O V].
    eapply only_trans; [exact O|]. apply modp_only. reflexivity.
  - intros Hq I E. eapply starc_inv; [|exact I]. eapply apply_globals_to_starc; eassumption.
  - intros Hn Ho E. unfold apply_globals_to in E.
    match type of E with seqo ?r _ = _ => destruct r as [s3 []] eqn:E3; try discriminate end.
    cbn [seqo] in E. inversion E; subst s2. eapply quiet_trans; [|apply quiet_modp, Hn].
    destruct (Nat.lt_ge_cases q (List.length (heap s1))) as [Hq|Hq]; [exact (globs_quiet _ _ _ _ Hn Ho Hq E3)|].
    (* a part that does not exist *)
    clear - E3 Hn Hq. revert s1 Hq E3.
    intros s1 Hq. generalize (in_window (globals s1) (plast (getp s1 q)) (pcur (getp s1 q))). intros us.
    revert s1 Hq. induction us as [|u us IH]; intros s1 Hq E3; cbn [each] in E3.
    + inversion E3; subst. apply quiet_refl.
    + destruct (overrides _ _); [cbn [seqo] in E3; apply IH; assumption|].
      destruct (do_update_part u true q s1) as [s4 []] eqn:E; try discriminate. cbn [seqo] in E3.
      unfold do_update_part in E. destruct (update_part u true (getp s1 q)); inversion E; subst s4.
      eapply quiet_trans; [apply quiet_setp, Hn|]. apply IH; [rewrite heap_setp; exact Hq|exact E3].
Qed.
Lemma globals_follow : follow apply_globals_to apply_globals_to.
Proof.
  intros g g' s I Hp Ls V C E. unfold apply_globals_to in *.
  assert (Lg : (p < List.length (heap g))%nat) by (apply in_cur; assumption).
  destruct (view_fields _ _ V) as (Vp & Vg & _).
  assert (E1 : plast (getp g p) = plast (getp s p)) by exact (f_equal plast Vp).
  assert (E2 : pcur (getp g p) = pcur (getp s p)) by exact (f_equal pcur Vp).
  rewrite <- E1, <- E2, <- Vg.
  match type of E with seqo ?r _ = _ => destruct r as [g1 []] eqn:E3; try discriminate end.
  cbn [seqo] in E. inversion E; subst g'.
  destruct (globs_follow _ _ _ _ I Hp Ls V C E3) as [s1 [A B]]. unfold glob_one in A. rewrite A. cbn [seqo].
  eexists. split; [reflexivity|].
  destruct (globs_solo _ _ _ _ Lg E3) as [O1 _]. destruct (globs_solo _ _ _ _ Ls A) as [O2 _].
  apply CH_modp; [rewrite (k_len _ _ (o_keep _ _ _ O1)); exact Lg|rewrite (k_len _ _ (o_keep _ _ _ O2)); exact Ls|reflexivity|repeat split|exact B].
Qed.

(** Notes. *)
Lemma emit_quiet : forall pi sl dms q s s', q <> p -> porigin (getp s q) <> p ->
  emit_note pi sl dms q s = (s', Ok) -> quiet s s'.
Proof.
  intros pi sl dms q s s' Hn Ho H. apply emit_shape in H. cbv zeta in H.
  destruct H as [[-> _]|(c & us & _ & _ & _ & _ & _ & ->)]; [apply quiet_refl|].
  split; [|cbn; apply incl_appl, incl_refl].
  change (pchan (getp (modp (porigin (getp s q)) (set_pchan c) (modp q (set_pchan c) (set_usage us s))) p) = pchan (getp s p)).
  unfold modp at 1. rewrite getp_setp_other by congruence. unfold modp. rewrite getp_setp_other by congruence. reflexivity.
Qed.
Lemma pchan_emit : forall c q s, (p < List.length (heap s))%nat ->
  let s2 := modp q (set_pchan c) (modp p (set_pchan c) s) in
  pchan (getp s2 p) = c /\ pexplicit (getp s2 p) = pexplicit (getp s p) /\ porigin (getp s2 p) = porigin (getp s p).
Proof.
  intros c q s Hp s2. unfold s2.
  assert (B : getp (modp p (set_pchan c) s) p = set_pchan c (getp s p)).
  { rewrite getp_modp by exact Hp. rewrite Nat.eqb_refl. reflexivity. }
  destruct (Nat.lt_ge_cases q (List.length (heap s))) as [Hq|Hq].
  - rewrite getp_modp by (rewrite heap_modp; exact Hq). rewrite B. destruct (Nat.eqb p q); repeat split.
  - assert (E : modp q (set_pchan c) (modp p (set_pchan c) s) = modp p (set_pchan c) s).
    { unfold modp at 1. unfold setp. rewrite upd_nth_out; [destruct s; reflexivity|]. rewrite heap_modp. exact Hq. }
    rewrite E, B. repeat split.
Qed.
Lemma emit_follow : forall pi sl dms g g' s, inv g -> (p < List.length (heap g))%nat -> (p < List.length (heap s))%nat ->
  view p g = view p s -> CH g s -> emit_note pi sl dms p g = (g', Ok) ->
  exists s', emit_note pi sl dms p s = (s', Ok) /\ CH g' s'.
Proof.
  intros pi sl dms g g' s I Lg Ls V [C1 C2] H. apply emit_shape in H. cbv zeta in H.
  destruct (view_fields _ _ V) as (Vp & _).
  set (a := getp g p) in *. set (b := getp s p) in *.
  assert (E1 : pquant a = pquant b) by exact (f_equal pquant Vp).
  assert (E2 : calc_midi_note pi (poctave a) (pkey a) (ptransp a) = calc_midi_note pi (poctave b) (pkey b) (ptransp b)).
  { assert (X1 : poctave a = poctave b) by exact (f_equal poctave Vp).
    assert (X2 : pkey a = pkey b) by exact (f_equal pkey Vp).
    assert (X3 : ptransp a = ptransp b) by exact (f_equal ptransp Vp). congruence. }
  assert (E3 : porigin a = porigin b) by exact (f_equal porigin Vp).
  unfold emit_note. fold b. rewrite <- E1, <- E2.
  destruct H as [[-> Z0]|(c & us & Z0 & Hn & Hc & Hd & _ & ->)]; rewrite Z0.
  { exists s. split; [reflexivity|]. split; assumption. }
  assert (Hr : ((calc_midi_note pi (poctave a) (pkey a) (ptransp a) <? 0)%Z || (calc_midi_note pi (poctave a) (pkey a) (ptransp a) >? 127)%Z)%bool = false).
  { apply orb_false_iff. split; [apply Z.ltb_ge; lia|]. rewrite Z.gtb_ltb. apply Z.ltb_ge. lia. }
  rewrite Hr.
  destruct (getp_good g p I Lg) as (_ & _ & _ & _ & G5 & _).
  destruct (determine_lock g s a b _ c I G5 Vp C1 C2 (proj2 (chan_ok_iff c) Hc) Hd) as (c' & D1 & D2 & D3).
  unfold assign_channel. rewrite D1. cbn [rbind]. rewrite D2. cbn [negb].
  assert (K : forall us', CH
     (set_events (events g ++ [NoteEvent (porigin a) c (calc_midi_note pi (poctave a) (pkey a) (ptransp a)) (pcur a) dms
         (if sl then dms else nmul dms (pquant a)) (pvol a) (ptvol a) (ppan a)])
        (modp (porigin a) (set_pchan c) (modp p (set_pchan c) (set_usage us g))))
     (set_events (events s ++ [NoteEvent (porigin b) c' (calc_midi_note pi (poctave a) (pkey a) (ptransp a)) (pcur b) dms
         (if sl then dms else nmul dms (pquant a)) (pvol b) (ptvol b) (ppan b)])
        (modp (porigin b) (set_pchan c') (modp p (set_pchan c') (set_usage us' s))))).
  { intros us'. assert (GE : forall l x, getp (set_events l x) p = getp x p) by reflexivity.
    destruct (pchan_emit c (porigin a) (set_usage us g) Lg) as (P1 & _ & _).
    destruct (pchan_emit c' (porigin b) (set_usage us' s) Ls) as (Q1 & Q2 & Q3).
    change (getp (set_usage us' s) p) with b in Q2, Q3. split.
    - rewrite !GE.
      rewrite P1, Q1, Q2. destruct D3 as [->|D3]; [left; reflexivity|right; split; [exact D3|exact D2]].
    - intros e He Ho. cbn [events set_events] in He |- *.
      rewrite GE in Ho.
      rewrite Q3 in Ho. apply in_app_or in He. apply in_or_app. destruct He as [He|[<-|[]]].
      + left. apply C2; [exact He|exact Ho].
      + exfalso. apply Ho. reflexivity. }
  destruct (existsb (Nat.eqb (porigin b)) (usage_at s c')).
  - eexists. split; [reflexivity|]. specialize (K (usage s)).
    assert (X : set_usage (usage s) s = s) by (destruct s; reflexivity). rewrite X in K. exact K.
  - eexists. split; [reflexivity|]. apply K.
Qed.

Lemma advance_soft : forall ch dms ed a, soft a (advance_part ch dms ed a) /\ ptvals (advance_part ch dms ed a) = ptvals a.
Proof. intros. unfold advance_part, update_default_dur. destruct ch, ed; repeat split. Qed.
Lemma note_lock : forall nr d, lock (note_one nr d).
Proof.
  intros nr d. split; intros q s1 s2.
  - intros Hq E. apply (note_one_solo _ _ _ _ _ Hq E).
  - intros Hq I E. eapply starc_inv; [|exact I]. eapply note_one_starc; eassumption.
  - intros Hn Ho E. unfold note_one in E.
    match type of E with seqo ?r _ = _ => destruct r as [s3 []] eqn:E3; try discriminate end.
    cbn [seqo] in E. inversion E; subst s2. eapply quiet_trans; [|apply quiet_modp, Hn].
    destruct nr as [[pi sl]|]; [exact (emit_quiet _ _ _ _ _ _ Hn Ho E3)|]. inversion E3; subst. apply quiet_refl.
Qed.
Lemma note_follow : forall nr d, follow (note_one nr d) (note_one nr d).
Proof.
  intros nr d g g' s I Hp Ls V C E. pose proof (in_cur g p I Hp) as Lg. unfold note_one in *.
  destruct (view_fields _ _ V) as (Vp & _).
  assert (X1 : effective_dur d (getp g p) = effective_dur d (getp s p)).
  { assert (X : pdur (getp g p) = pdur (getp s p)) by exact (f_equal pdur Vp). unfold effective_dur. rewrite X. reflexivity. }
  assert (X2 : ptempo (getp g p) = ptempo (getp s p)) by exact (f_equal ptempo Vp).
  assert (X3 : pscale (getp g p) = pscale (getp s p)) by exact (f_equal pscale Vp).
  rewrite X1, X2, X3 in E.
  set (ed := effective_dur d (getp s p)) in *. set (dms := nmul (dur_ms_of (ptempo (getp s p)) ed) (pscale (getp s p))) in *.
  match type of E with seqo ?r _ = _ => destruct r as [g1 []] eqn:E1; try discriminate end.
  cbn [seqo] in E. inversion E; subst g'.
  assert (G : exists s1, match nr with Some (pi, sl) => emit_note pi sl dms p s | None => (s, Ok) end = (s1, Ok) /\ CH g1 s1
     /\ List.length (heap g1) = List.length (heap g) /\ List.length (heap s1) = List.length (heap s)).
  { destruct nr as [[pi sl]|].
    - destruct (emit_follow pi sl dms g g1 s I Lg Ls V C E1) as [s1 [A B]]. exists s1. split; [exact A|]. split; [exact B|].
      destruct (emit_solo _ _ _ _ _ _ Lg E1) as [O1 _]. destruct (emit_solo _ _ _ _ _ _ Ls A) as [O2 _].
      split; [apply (k_len _ _ (o_keep _ _ _ O1))|apply (k_len _ _ (o_keep _ _ _ O2))].
    - inversion E1; subst. exists s. auto. }
  destruct G as (s1 & A & B & L1 & L2). rewrite A. cbn [seqo]. eexists. split; [reflexivity|].
  apply CH_modp; [rewrite L1; exact Lg|rewrite L2; exact Ls| | |exact B].
  - intros a. destruct (advance_soft (chordmode g1) dms ed a) as [(_ & _ & _ & X & _) _]. exact X.
  - intros a. destruct (advance_soft (chordmode s1) dms ed a) as [(_ & _ & _ & X & Y & _ & Z & _) _]. auto.
Qed.

(* ---------------- both runs together ---------------- *)

Variable L : label -> Prop.
Hypothesis HL : forall l, L l -> group_label l.

Record Rel (g s : score) : Prop := MkRel {
  r_inv : inv g; r_okg : okay L True g; r_oks : okay L True s;
  r_in : In p (current g); r_cur : current s = [p];
  r_view : view p g = view p s; r_ch : CH g s }.
Definition pairs (f : score -> score * outcome) : Prop :=
  forall g g' s, Rel g s -> f g = (g', Ok) -> exists s', f s = (s', Ok) /\ Rel g' s'.

Lemma rel_len : forall g s, Rel g s -> (p < List.length (heap s))%nat.
Proof.
  intros g s R. destruct (ok_wf _ _ _ (r_oks _ _ R)) as [W _]. rewrite (r_cur _ _ R) in W.
  inversion W; assumption.
Qed.
Lemma rel_acts : forall f F g g' s s', acts L True f F -> Rel g s -> f g = (g', Ok) -> f s = (s', Ok) ->
  inv g' -> CH g' s' -> Rel g' s'.
Proof.
  intros f F g g' s s' A R H H' I C.
  destruct (A _ _ (r_okg _ _ R) H) as [S1 [K1 V1]]. destruct (A _ _ (r_oks _ _ R) H') as [S2 [K2 V2]].
  split; [exact I| | | | | |exact C].
  - eapply keep_okay; [exact K1|exact S1|apply R].
  - eapply keep_okay; [exact K2|exact S2|apply R].
  - rewrite (k_cur _ _ K1). apply R.
  - rewrite (k_cur _ _ K2). apply R.
  - specialize (V1 p (r_in _ _ R)). specialize (V2 p). rewrite (r_cur _ _ R) in V2.
    specialize (V2 (or_introl eq_refl)). rewrite (r_view _ _ R) in V1. rewrite V1 in V2.
    apply some_inj in V2. exact V2.
Qed.
Lemma pairs_each : forall f F, lock f -> follow f f -> acts L True (fun s => each f (current s) s) F ->
  pairs (fun s => each f (current s) s).
Proof.
  intros f F Lf Ff A g g' s R H.
  destruct (each_lock f f g g' s Lf Ff (ok_wf _ _ _ (r_okg _ _ R)) (r_inv _ _ R) (r_in _ _ R) (rel_len _ _ R)
    (r_cur _ _ R) (r_view _ _ R) (r_ch _ _ R) H) as (s' & E & C & I).
  exists s'. split; [exact E|]. exact (rel_acts _ _ _ _ _ _ A R H E I C).
Qed.
Lemma pairs_seq : forall f h, pairs f -> pairs h -> pairs (fun s => seqo (f s) h).
Proof.
  intros f h Pf Ph g g' s R H. destruct (f g) as [g1 []] eqn:E; try discriminate. cbn [seqo] in H.
  destruct (Pf _ _ _ R E) as [s1 [E1 R1]]. rewrite E1. cbn [seqo]. exact (Ph _ _ _ R1 H).
Qed.
Lemma pairs_list : forall (f : update -> score -> score * outcome) l, Forall (fun u => pairs (f u)) l -> pairs (each f l).
Proof.
  intros f l H. induction H as [|u l Hu Hl IH].
  - intros g g' s R E. inversion E; subst. exists s. split; [reflexivity|exact R].
  - apply (pairs_seq _ _ Hu IH).
Qed.
Lemma pairs_id : pairs (fun s => (s, Ok)).
Proof. intros g g' s R E. inversion E; subst. exists s. split; [reflexivity|exact R]. Qed.
Lemma HL' : forall l, L l -> local_label l.
Proof. intros l Hl. apply HL in Hl. destruct l; cbn in *; try exact I; contradiction. Qed.

Lemma globals_pairs : pairs apply_globals.
Proof. apply (pairs_each _ _ globals_lock globals_follow (globals_acts L True)). Qed.

Lemma prim_pairs : forall q, prim_all L q -> pairs (run_prim q).
Proof.
  intros q Hq g g' s R H. pose proof (prim_acts L True q Hq (or_introl I)) as A.
  assert (G : exists s', run_prim q s = (s', Ok) /\ CH g' s' /\ inv g').
  { assert (Gn : forall nr d, add_note_or_rest nr d g = (g', Ok) ->
       exists s', add_note_or_rest nr d s = (s', Ok) /\ CH g' s' /\ inv g').
    { intros nr d Hn. unfold add_note_or_rest in *.
      assert (Ec : chordmode g = chordmode s) by apply (view_fields _ _ (r_view _ _ R)).
      match type of Hn with seqo ?r _ = _ => destruct r as [g1 []] eqn:E; try discriminate end. cbn [seqo] in Hn.
      assert (X : exists s1, (if chordmode s then (s, Ok) else apply_globals s) = (s1, Ok) /\ Rel g1 s1).
      { rewrite <- Ec. destruct (chordmode g); [inversion E; subst; exists s; auto|]. eapply globals_pairs; eassumption. }
      destruct X as (s1 & X & R1). rewrite X. cbn [seqo]. destruct (dur_valid d); [|discriminate].
      apply (each_lock (note_one nr d) (note_one nr d) g1 g' s1 (note_lock nr d) (note_follow nr d) (ok_wf _ _ _ (r_okg _ _ R1)) (r_inv _ _ R1) (r_in _ _ R1) (rel_len _ _ R1)
    (r_cur _ _ R1) (r_view _ _ R1) (r_ch _ _ R1) Hn). }
    destruct q as [pi d sl|d|u|u]; cbn [run_prim] in *.
    - apply Gn, H.
    - apply Gn, H.
    - apply (each_lock (attr_one u) (attr_one u) g g' s (attr_lock u) (attr_follow u) (ok_wf _ _ _ (r_okg _ _ R)) (r_inv _ _ R) (r_in _ _ R) (rel_len _ _ R)
    (r_cur _ _ R) (r_view _ _ R) (r_ch _ _ R) H).
    - unfold run_gattr in *. rewrite (r_cur _ _ R). cbn [same_offset forallb]. eexists. split; [reflexivity|].
      assert (Y : exists off, g' = set_globals (ga_record off u (globals g)) g).
      { destruct (current g); [inversion H; eexists; reflexivity|]. destruct (same_offset _ _ _); inversion H. eexists; reflexivity. }
      destruct Y as [off ->]. split; [exact (r_ch _ _ R)|]. destruct (r_inv _ _ R); constructor; assumption. }
  destruct G as (s' & E & C & I0). exists s'. split; [exact E|]. exact (rel_acts _ _ _ _ _ _ A R H E I0 C).
Qed.
Lemma marker_pairs : forall n, L (LMark n) -> pairs (run_marker n).
Proof.
  intros n Hn g g' s R H. pose proof (marker_acts L True n I Hn) as A.
  assert (G : exists s', run_marker n s = (s', Ok) /\ CH g' s' /\ inv g').
  { unfold run_marker in *. rewrite (r_cur _ _ R). cbn [same_offset forallb]. eexists. split; [reflexivity|].
    assert (Y : exists off, g' = set_markers (aset String.eqb n off (markers g)) g).
    { destruct (current g); [discriminate|]. destruct (same_offset _ _ _); inversion H. eexists; reflexivity. }
    destruct Y as [off ->]. split; [exact (r_ch _ _ R)|]. destruct (r_inv _ _ R); constructor; assumption. }
  destruct G as (s' & E & C & I0). exists s'. split; [exact E|]. exact (rel_acts _ _ _ _ _ _ A R H E I0 C).
Qed.
Lemma each_modp_CH : forall (f f' : pid -> part -> part) g g' s,
  (forall q a, soft a (f q a) /\ ptvals (f q a) = ptvals a) ->
  (forall q a, soft a (f' q a) /\ ptvals (f' q a) = ptvals a) ->
  Rel g s -> each (fun q s => (modp q (f q) s, Ok)) (current g) g = (g', Ok) ->
  exists s', each (fun q s => (modp q (f' q) s, Ok)) (current s) s = (s', Ok) /\ CH g' s' /\ inv g'.
Proof.
  intros f f' g g' s Hf Hf' R H.
  assert (Ff : follow (fun q s => (modp q (f q) s, Ok)) (fun q s => (modp q (f' q) s, Ok))).
  2:{ exact (each_lock _ _ g g' s (modp_lock f Hf) Ff (ok_wf _ _ _ (r_okg _ _ R)) (r_inv _ _ R) (r_in _ _ R) (rel_len _ _ R)
        (r_cur _ _ R) (r_view _ _ R) (r_ch _ _ R) H). }
  apply (modp_follow f f').
  - intros a. apply Hf.
  - intros a. destruct (Hf' p a) as [(_ & _ & _ & X & Y & _ & Z & _) _]. auto.
Qed.
Lemma at_marker_pairs : forall n, L (LJump n) -> pairs (run_at_marker n).
Proof.
  intros n Hn g g' s R H. pose proof (at_marker_acts L True n Hn) as A.
  assert (G : exists s', run_at_marker n s = (s', Ok) /\ CH g' s' /\ inv g').
  { unfold run_at_marker in *. destruct (apply_globals g) as [g1 []] eqn:E; try discriminate. cbn [seqo] in H.
    destruct (globals_pairs _ _ _ R E) as [s1 [E1 R1]]. rewrite E1. cbn [seqo].
    assert (Em : markers g1 = markers s1) by apply (view_fields _ _ (r_view _ _ R1)). rewrite <- Em.
    destruct (aget String.eqb n (markers g1)) as [off|]; [|discriminate].
    apply (each_modp_CH (fun _ q => set_pcur off (set_plast (pcur q) q)) (fun _ q => set_pcur off (set_plast (pcur q) q)) g1 g' s1);
      [repeat split|repeat split|exact R1|exact H]. }
  destruct G as (s' & E & C & I0). exists s'. split; [exact E|]. exact (rel_acts _ _ _ _ _ _ A R H E I0 C).
Qed.
Lemma var_def_pairs : forall n es, L (LDef n) -> Forall (upd_all L) es -> pairs (run_var_def n es).
Proof.
  intros n es Hn Hes g g' s R H. pose proof (var_def_acts L True n es Hn Hes) as A.
  assert (G : exists s', run_var_def n es s = (s', Ok) /\ CH g' s' /\ inv g').
  { unfold run_var_def in *. assert (Ev : variables g = variables s) by apply (view_fields _ _ (r_view _ _ R)).
    rewrite <- Ev. destruct (rmapl (var_value (variables g)) es) as [vs|m|m]; try discriminate.
    eexists. split; [reflexivity|]. inversion H; subst. split; [exact (r_ch _ _ R)|]. destruct (r_inv _ _ R); constructor; assumption. }
  destruct G as (s' & E & C & I0). exists s'. split; [exact E|]. exact (rel_acts _ _ _ _ _ _ A R H E I0 C).
Qed.
Lemma set_prep_pairs : forall r, pairs (fun s => each (fun p s => (modp p (set_prep r) s, Ok)) (current s) s).
Proof.
  intros r.
  assert (A : lock (fun q s => (modp q (set_prep r) s, Ok))) by (apply (modp_lock (fun _ => set_prep r)); repeat split).
  assert (B : follow (fun q s => (modp q (set_prep r) s, Ok)) (fun q s => (modp q (set_prep r) s, Ok)))
    by (apply (modp_follow (fun _ => set_prep r) (fun _ => set_prep r)); repeat split).
  exact (pairs_each _ _ A B (set_prep_acts L True r)).
Qed.
Lemma times_pairs : forall f k r, pairs f -> pairs (run_times f r k).
Proof.
  intros f k. induction k as [|k IH]; intros r H; [apply pairs_id|].
  cbn [run_times]. apply (pairs_seq _ _ (set_prep_pairs r) (pairs_seq _ _ H (IH _ H))).
Qed.

Section Upd.
Variables (deref : string -> score -> score * outcome) (dd : list (string * list update) -> string -> part -> dres)
  (sderef : string -> solo -> option solo).
Hypothesis Hdd : forall vs n, com (dd vs n).
Hypothesis Hderef : forall n, acts L True (deref n) (sderef n).
Hypothesis Pderef : forall n, pairs (deref n).
Local Notation ru := (run_upd deref dd).

Lemma chord_go_pairs : forall es, Forall (fun u => pairs (ru u)) es -> forall m m' g g' s, Rel g s ->
  (fix go (l : list update) (m : list (pid * num)) (s : score) : score * outcome :=
         match l with
         | [] => chord_finish m (set_chordmode false s)
         | e :: t =>
             let m' := lower_shortest (written_dur e) s m in
             seqo (ru e s) (go t m')
         end) es m g = (g', Ok) ->
  exists s',
  (fix go (l : list update) (m : list (pid * num)) (s : score) : score * outcome :=
         match l with
         | [] => chord_finish m (set_chordmode false s)
         | e :: t =>
             let m' := lower_shortest (written_dur e) s m in
             seqo (ru e s) (go t m')
         end) es m' s = (s', Ok) /\ CH g' s' /\ inv g'.
Proof.
  intros es H. induction H as [|e t He Ht IH]; intros m m' g g' s R H.
  - assert (R0 : Rel (set_chordmode false g) (set_chordmode false s)).
    { destruct R as [I0 [[W1 W2] S1 F1] [[W3 W4] S2 F2] Hi Hc V C]. split.
      - destruct I0; constructor; assumption.
      - split; [split; assumption|exact S1|exact F1].
      - split; [split; assumption|exact S2|exact F2].
      - exact Hi.
      - exact Hc.
      - exact (f_equal (with_chord false) V).
      - exact C. }
    unfold chord_finish in *.
    apply (each_modp_CH (fun pd p => set_pcur (nadd (pcur p) (pget n0 pd m)) (set_plast (pcur p) p))
       (fun pd p => set_pcur (nadd (pcur p) (pget n0 pd m')) (set_plast (pcur p) p)) (set_chordmode false g) g' (set_chordmode false s));
      [repeat split|repeat split|exact R0|exact H].
  - cbv zeta in *. destruct (ru e g) as [g1 []] eqn:E; try discriminate. cbn [seqo] in H.
    destruct (He _ _ _ R E) as [s1 [E1 R1]]. rewrite E1. cbn [seqo]. eapply IH; [exact R1|exact H].
Qed.
Lemma chord_pairs : forall es, Forall (fun u => pairs (ru u)) es -> upd_all L (UChord es) -> pairs (ru (UChord es)).
Proof.
  intros es Hes Hu g g' s R H. pose proof (upd_acts L True deref dd sderef HL' I Hdd Hderef _ Hu) as A.
  assert (G : exists s', ru (UChord es) s = (s', Ok) /\ CH g' s' /\ inv g').
  { cbn [run_upd] in *. destruct (apply_globals g) as [g1 []] eqn:E; try discriminate. cbn [seqo] in H.
    destruct (globals_pairs _ _ _ R E) as [s1 [E1 R1]]. rewrite E1. cbn [seqo]. cbv zeta in *.
    eapply chord_go_pairs; [exact Hes| |exact H].
    destruct R1 as [I0 [[W1 W2] S1 F1] [[W3 W4] S2 F2] Hi Hc V C]. split.
    - destruct I0; constructor; assumption.
    - split; [split; assumption|exact S1|exact F1].
    - split; [split; assumption|exact S2|exact F2].
    - exact Hi.
    - exact Hc.
    - exact (f_equal (with_chord true) V).
    - exact C. }
  destruct G as (s' & E & C & I0). exists s'. split; [exact E|]. exact (rel_acts _ _ _ _ _ _ A R H E I0 C).
Qed.

Definition scale_one (dr : string -> part -> dres) (es : list update) (d : duration) (pd : pid) (s : score) : score * outcome :=
  match time_scale dr es d (getp s pd) with
  | (ts, Ok) => (modp pd (set_pscale ts) s, Ok)
  | (_, o) => (s, o)
  end.
Lemma scale_lock : forall dr es d, lock (scale_one dr es d).
Proof.
  intros dr es d. split; intros q s1 s2; unfold scale_one; destruct (time_scale dr es d (getp s1 q)) as [ts []]; try (intros; discriminate).
  - intros _ E. inversion E; subst. apply modp_only. reflexivity.
  - intros Hq I0 E. inversion E; subst. eapply starc_inv; [|exact I0]. apply soft_starc; [exact Hq|repeat split].
  - intros Hn _ E. inversion E; subst. apply quiet_modp, Hn.
Qed.
Lemma scale_follow : forall dr es d, (forall n, com (dr n)) -> follow (scale_one dr es d) (scale_one dr es d).
Proof.
  intros dr es d Hc g g' s I0 Hp Ls V C E. pose proof (in_cur g p I0 Hp) as Lg. unfold scale_one in *.
  assert (T : time_scale dr es d (getp g p) = time_scale dr es d (getp s p)).
  { rewrite <- (time_scale_nc dr es d (getp g p)), <- (time_scale_nc dr es d (getp s p)) by exact Hc.
    rewrite (proj1 (view_fields _ _ V)). reflexivity. }
  rewrite <- T. destruct (time_scale dr es d (getp g p)) as [ts []]; try discriminate. inversion E; subst.
  eexists. split; [reflexivity|]. apply CH_modp; try assumption; [reflexivity|repeat split].
Qed.
Lemma scale_acts : forall dr es d, (forall n, com (dr n)) ->
  acts L True (fun s => each (scale_one dr es d) (current s) s)
    (fun x => match time_scale dr es d (so_part x) with (ts, Ok) => Some (on_part (set_pscale ts) x) | _ => None end).
Proof.
  intros dr es d Hc s s' O H. destruct (ok_wf _ _ _ O) as [W1 W2].
  edestruct (fun A => each_only _ (fun _ x => match time_scale dr es d (so_part x) with
      | (ts, Ok) => Some (on_part (set_pscale ts) x) | _ => None end) _ _ _ W1 W2 A H) as (K1 & V1 & (A1 & _ & B1 & _) & _).
  { intros q s2 s3 _ Hq E2. unfold scale_one in E2. cbn [view so_part]. rewrite time_scale_nc by (intros; apply Hc).
    destruct (time_scale _ _ _ _) as [ts []]; try discriminate. inversion E2; subst s3.
    split; [apply modp_only; reflexivity|]. rewrite view_modp by auto. reflexivity. }
  split; [eapply same_store; [exact B1|exact A1|apply O]|]. split; [exact K1|exact V1].
Qed.
Lemma cram_pairs : forall es d, Forall (fun u => pairs (ru u)) es -> upd_all L (UCram es d) -> pairs (ru (UCram es d)).
Proof.
  intros es d Hes Hu g g' s R H. pose proof (upd_acts L True deref dd sderef HL' I Hdd Hderef _ Hu) as A.
  assert (G : exists s', ru (UCram es d) s = (s', Ok) /\ CH g' s' /\ inv g').
  { cbn [run_upd] in *. cbv zeta in *.
    assert (Ev : variables g = variables s) by apply (view_fields _ _ (r_view _ _ R)).
    destruct (cram_scale (dd (variables g)) es d g) as [g1 []] eqn:E; try discriminate. cbn [seqo] in H.
    destruct (pairs_each _ _ (scale_lock (dd (variables g)) es d) (scale_follow _ _ _ (Hdd (variables g))) (scale_acts _ _ _ (Hdd (variables g))) g g1 s R E) as [s1 [E1 R1]].
    change (cram_scale (dd (variables g)) es d s = (s1, Ok)) in E1. rewrite <- Ev, E1. cbn [seqo].
    match type of H with seqo ?r _ = _ => destruct r as [g2 []] eqn:E2; try discriminate end. cbn [seqo] in H.
    assert (Z : forall x, (fix go (l : list update) (s0 : score) : score * outcome :=
         match l with [] => (s0, Ok) | e :: t => seqo (ru e s0) (go t) end) es x = each ru es x).
    { clear. induction es as [|e t IH]; intros x; [reflexivity|]. cbn [each].
      destruct (ru e x) as [s3 []]; cbn [seqo]; auto. }
    rewrite Z in E2. destruct (pairs_list _ _ Hes _ _ _ R1 E2) as [s2 [E3 R2]].
    rewrite Z, E3. cbn [seqo]. unfold cram_finish in *.
    match goal with |- exists s', each (fun pd s0 => (modp pd (fun p0 => set_pscale (pget n0 pd ?A) (set_pdur (match d with Some _ => d | None => pget None pd ?B end) p0)) s0, Ok)) _ _ = _ /\ _ =>
    match type of H with each (fun pd s0 => (modp pd (fun p0 => set_pscale (pget n0 pd ?A') (set_pdur (match d with Some _ => d | None => pget None pd ?B' end) p0)) s0, Ok)) _ _ = _ =>
    apply (each_modp_CH (fun pd p => set_pscale (pget n0 pd A') (set_pdur (match d with Some _ => d | None => pget None pd B' end) p))
       (fun pd p => set_pscale (pget n0 pd A) (set_pdur (match d with Some _ => d | None => pget None pd B end) p)) g2 g' s2) end end;
      [repeat split|repeat split|exact R2|exact H]. }
  destruct G as (s' & E & C & I0). exists s'. split; [exact E|]. exact (rel_acts _ _ _ _ _ _ A R H E I0 C).
Qed.

Lemma upd_pairs : forall u, upd_all L u -> pairs (ru u).
Proof.
  intros u. induction u using update_ind'; intros Hu; pose proof Hu as Hu0; cbn [upd_all] in Hu; try rewrite upd_all_list in Hu;
    try (assert (HA : Forall (fun u => pairs (ru u)) es)
         by (rewrite Forall_forall in *; intros; apply H; auto)).
  - apply prim_pairs, Hu.
  - apply pairs_id.
  - intros g g' s R Hr. cbn [run_upd] in *. destruct (eval_update els) as [[q|]|m|m]; try discriminate.
    + exact (prim_pairs q Hu g g' s R Hr).
    + exact (pairs_id g g' s R Hr).
  - apply pairs_id.
  - apply chord_pairs; assumption.
  - apply cram_pairs; assumption.
  - intros g g' s R Hr. cbn [run_upd] in *.
    destruct (run_times _ _ _ g) as [g1 []] eqn:E; try discriminate. cbn [seqo] in Hr.
    destruct (times_pairs _ _ _ (IHu (proj2 Hu)) _ _ _ R E) as [s1 [E1 R1]]. rewrite E1. cbn [seqo].
    destruct (n =? max_int32)%Z; [discriminate|]. inversion Hr; subst. exists s1. auto.
  - exfalso. exact (HL _ (proj1 Hu)).
  - intros g g' s R Hr. cbn [run_upd] in *.
    assert (Z : forall x, (fix go (l : list update) (s0 : score) : score * outcome :=
         match l with [] => (s0, Ok) | e :: t => seqo (ru e s0) (go t) end) es x = each ru es x).
    { clear. induction es as [|e t IH]; intros x; [reflexivity|]. cbn [each].
      destruct (ru e x) as [s3 []]; cbn [seqo]; auto. }
    rewrite Z in Hr |- *. exact (pairs_list _ _ HA _ _ _ R Hr).
  - apply marker_pairs, Hu.
  - apply at_marker_pairs, Hu.
  - apply var_def_pairs; apply Hu.
  - apply Pderef.
  - exfalso. exact (HL _ Hu).
  - exfalso. exact (HL _ Hu).
  - exfalso. exact (HL _ Hu).
Qed.
End Upd.

Lemma deref_pairs : forall fuel n, pairs (run_deref fuel n).
Proof.
  induction fuel as [|f IH]; intros n g g' s R H; cbn [run_deref] in *;
    assert (Ev : variables g = variables s) by apply (view_fields _ _ (r_view _ _ R)); rewrite <- Ev;
    destruct (aget String.eqb n (variables g)) as [es|] eqn:E; try discriminate.
  assert (HA : Forall (fun u => pairs (run_upd (run_deref f) (dur_deref f) u)) es).
  { apply Forall_forall. intros u Hu. eapply upd_pairs; [intros; apply dur_deref_com|intros; apply deref_acts; [exact HL'|exact I]|exact IH|].
    destruct (ok_store _ _ _ (r_okg _ _ R)) as [S _]. specialize (S n es). rewrite Forall_forall in S. apply S; [|exact Hu].
    eapply aget_in; [apply String.eqb_eq|exact E]. }
  exact (pairs_list _ _ HA _ _ _ R H).
Qed.
Lemma exec_pairs : forall us, Forall (upd_all L) us -> pairs (exec us).
Proof.
  intros us Hus. unfold exec, run_all. apply pairs_list. rewrite Forall_forall in *. intros u Hu.
  eapply upd_pairs; [intros; apply dur_deref_com|intros; apply deref_acts; [exact HL'|exact I]|apply deref_pairs|apply Hus, Hu].
Qed.
End Lock.
End SoloOk.
