(** C01-C05: derived from the invariant. *)
From Coq Require Import ZArith QArith Qcanon List String Bool Lia Arith SpecFloat.
From Verif Require Import Base Num ModelPitch ModelDuration ModelInstruments ModelTypes ModelLisp
  ModelScore SpecScore ProofNum ProofHeap ProofStep ProofInv.
Import ListNotations.

Lemma ordered_XQ : @ordered XQ.
Proof.
  intros a b c H1 H2. change (xq_leb a b = true) in H1. change (xq_ltb b c = true) in H2.
  change (xq_ltb a c = true).
  destruct a as [x| | |], b as [y| | |], c as [z| | |]; cbn in *; try reflexivity; try discriminate.
  unfold xq_leb in H1. cbn in H1. apply qc_ltb_lt. apply qc_ltb_lt in H2.
  apply orb_true_iff in H1. destruct H1 as [H1|H1].
  - apply qc_ltb_lt in H1. eapply Qclt_trans; eassumption.
  - apply qc_eqb_eq in H1. subst. exact H2.
Qed.

Lemma ordered_B64 : @ordered B64.
Proof.
  intros a b c H1 H2. change (SFleb a b = true) in H1. change (SFltb b c = true) in H2.
  change (SFltb a c = true). unfold SFleb, SFltb in *.
  destruct (SFcompare a b) as [r1|] eqn:E1; [|discriminate].
  destruct (SFcompare b c) as [r2|] eqn:E2; [|discriminate].
  destruct r2; try discriminate. clear H2.
  assert (K : forall e1 m1 e2 m2 e3 m3 r r',
     match (e1 ?= e2)%Z with Lt => Lt | Gt => Gt | Eq => Pcompare m1 m2 Eq end = r ->
     match (e2 ?= e3)%Z with Lt => Lt | Gt => Gt | Eq => Pcompare m2 m3 Eq end = r' ->
     (r = Lt \/ r = Eq) -> r' = Lt ->
     match (e1 ?= e3)%Z with Lt => Lt | Gt => Gt | Eq => Pcompare m1 m3 Eq end = Lt).
  { intros e1 m1 e2 m2 e3 m3 r r' K1 K2 Kr Kr'. subst r r'.
    change (Pcompare m1 m2 Eq) with (m1 ?= m2)%positive in *.
    change (Pcompare m2 m3 Eq) with (m2 ?= m3)%positive in *.
    change (Pcompare m1 m3 Eq) with (m1 ?= m3)%positive in *.
    destruct (Z.compare_spec e1 e2), (Z.compare_spec e2 e3), (Z.compare_spec e1 e3); try lia;
      try reflexivity; try (destruct Kr; discriminate); try discriminate.
    destruct (Pos.compare_spec m1 m2), (Pos.compare_spec m2 m3), (Pos.compare_spec m1 m3);
      try lia; try reflexivity; try discriminate; destruct Kr; discriminate. }
  assert (K' : forall e1 m1 e2 m2 e3 m3 r r',
     match (e1 ?= e2)%Z with Lt => Gt | Gt => Lt | Eq => CompOpp (Pcompare m1 m2 Eq) end = r ->
     match (e2 ?= e3)%Z with Lt => Gt | Gt => Lt | Eq => CompOpp (Pcompare m2 m3 Eq) end = r' ->
     (r = Lt \/ r = Eq) -> r' = Lt ->
     match (e1 ?= e3)%Z with Lt => Gt | Gt => Lt | Eq => CompOpp (Pcompare m1 m3 Eq) end = Lt).
  { intros e1 m1 e2 m2 e3 m3 r r' K1 K2 Kr Kr'. subst r r'.
    change (Pcompare m1 m2 Eq) with (m1 ?= m2)%positive in *.
    change (Pcompare m2 m3 Eq) with (m2 ?= m3)%positive in *.
    change (Pcompare m1 m3 Eq) with (m1 ?= m3)%positive in *.
    destruct (Z.compare_spec e1 e2), (Z.compare_spec e2 e3), (Z.compare_spec e1 e3); try lia;
      try reflexivity; try (destruct Kr; discriminate); try discriminate.
    destruct (Pos.compare_spec m1 m2), (Pos.compare_spec m2 m3), (Pos.compare_spec m1 m3);
      cbn in *; try lia; try reflexivity; try discriminate; destruct Kr; discriminate. }
  assert (Hr1 : r1 = Lt \/ r1 = Eq) by (destruct r1; auto; discriminate).
  destruct a as [s1|s1| |s1 m1 e1], b as [s2|s2| |s2 m2 e2], c as [s3|s3| |s3 m3 e3];
    try discriminate;
    try destruct s1; try destruct s2; try destruct s3; cbn in *; try discriminate; try reflexivity;
    try (inversion E1; inversion E2; subst; destruct Hr1; discriminate).
  - injection E1 as E1; injection E2 as E2. erewrite K'; [reflexivity|exact E1|exact E2|exact Hr1|reflexivity].
  - injection E1 as E1; injection E2 as E2. erewrite K; [reflexivity|exact E1|exact E2|exact Hr1|reflexivity].
Qed.

Section Events.
Context {N : Num}.

Lemma session_reachable_from : forall calls s, reachable s ->
  reachable (fold_left (fun s us => fst (exec us s)) calls s).
Proof.
  induction calls as [|us calls IH]; intros s H; cbn [fold_left]; [exact H|].
  apply IH. destruct (exec us s) as [s1 o] eqn:E. cbn [fst].
  eapply star_trans; [exact H|]. eapply run_all_star. exact E.
Qed.
Lemma session_reachable : forall calls, reachable (session calls).
Proof. intros. apply session_reachable_from. constructor. Qed.

Lemma c01 : ordered -> forall calls e f,
  In e (events (session calls)) -> In f (events (session calls)) ->
  ev_part e <> ev_part f -> ev_chan e = ev_chan f -> ev_chan e <> 9%Z ->
  forall t, ~ (sounds e t /\ sounds f t).
Proof.
  intros Hord calls e f He Hf Hp Hc H9 t [[A1 A2] [B1 B2]].
  pose proof (reachable_inv _ (session_reachable calls)) as I.
  pose proof (inv_clash _ I e f He Hf Hp Hc H9) as H.
  unfold overlaps in H. apply andb_false_iff in H. destruct H as [H|H].
  - rewrite (Hord _ _ _ B1 A2) in H. discriminate.
  - rewrite (Hord _ _ _ A1 B2) in H. discriminate.
Qed.

Lemma c01_bool : forall calls e f,
  In e (events (session calls)) -> In f (events (session calls)) ->
  ev_part e <> ev_part f -> ev_chan e = ev_chan f -> ev_chan e <> 9%Z ->
  nltb (ev_off f) (nadd (ev_off e) (ev_aud e)) = false \/
  nltb (ev_off e) (nadd (ev_off f) (ev_aud f)) = false.
Proof.
  intros calls e f He Hf Hp Hc H9.
  pose proof (reachable_inv _ (session_reachable calls)) as I.
  pose proof (inv_clash _ I e f He Hf Hp Hc H9) as H.
  unfold overlaps in H. apply andb_false_iff in H. exact H.
Qed.

Lemma c02 : forall calls e, In e (events (session calls)) ->
  (0 <= ev_chan e <= 15)%Z /\
  (ev_chan e = 9%Z <-> plays_percussion (session calls) (ev_part e)).
Proof.
  intros calls e He. pose proof (reachable_inv _ (session_reachable calls)) as I.
  pose proof (inv_events _ I) as F. rewrite Forall_forall in F.
  destruct (F e He) as (_ & _ & A & B & _). split; [lia|exact B].
Qed.

Lemma c03 : forall calls e, In e (events (session calls)) ->
  (0 <= ev_note e <= 127)%Z /\ nltb n0 (ev_aud e) = true.
Proof.
  intros calls e He. pose proof (reachable_inv _ (session_reachable calls)) as I.
  pose proof (inv_events _ I) as F. rewrite Forall_forall in F.
  destruct (F e He) as (_ & _ & _ & _ & A & B & _). split; assumption.
Qed.

Lemma emit_out_of_range : forall pi (sl : bool) dms pd s,
  let p := getp s pd in
  let n := calc_midi_note pi (poctave p) (pkey p) (ptransp p) in
  nltb n0 (if sl then dms else nmul dms (pquant p)) = true ->
  (n < 0 \/ 127 < n)%Z -> exists m, emit_note pi sl dms pd s = (s, Err m).
Proof.
  intros pi sl dms pd s p n Ha Hn. unfold emit_note. fold p. rewrite Ha. fold n.
  assert (E : ((n <? 0)%Z || (n >? 127)%Z) = true).
  { apply orb_true_iff. destruct Hn; [left|right]; lia. }
  rewrite E. eexists; reflexivity.
Qed.

(** A note whose pitch is out of range for the first current part. *)
Lemma c03_range : forall pi d (sl : bool) s s1 pd rest,
  chordmode s = false -> apply_globals s = (s1, Ok) -> current s = pd :: rest -> dur_valid d = true ->
  let p := getp s1 pd in
  let ms := nmul (dur_ms_of (ptempo p) (effective_dur d p)) (pscale p) in
  let n := calc_midi_note pi (poctave p) (pkey p) (ptransp p) in
  nltb n0 (if sl then ms else nmul ms (pquant p)) = true ->
  (n < 0 \/ 127 < n)%Z ->
  exists m, exec [UPrim (Note pi d sl)] s = (s1, Err m) /\ events s1 = events s.
Proof.
  intros pi d sl s s1 pd rest Hcm Hg Hc Hd p ms n Ha Hn.
  destruct (emit_out_of_range pi sl ms pd s1 Ha Hn) as [m Hm].
  exists m.
  assert (Hc1 : current s1 = current s).
  { apply (apply_globals_starc (fun _ => True)) in Hg. apply Hg. }
  split.
  - unfold exec, run_all. cbn [each]. unfold run. cbn [run_upd run_prim].
    unfold add_note_or_rest. rewrite Hcm, Hg. cbn [seqo]. rewrite Hd, Hc1, Hc. cbn [each].
    unfold note_one. fold p. fold ms. rewrite Hm. reflexivity.
  - clear - Hg. unfold apply_globals in Hg.
    assert (G : forall l a b o, each apply_globals_to l a = (b, o) -> events b = events a).
    { assert (G1 : forall u g q a b o, do_update_part u g q a = (b, o) -> events b = events a).
      { intros u g q a b o H. unfold do_update_part in H. destruct (update_part _ _ _); inversion H; reflexivity. }
      assert (G2 : forall q l a b o, each (fun u s => if overrides (povr (getp s q)) u then (s, Ok)
                         else do_update_part u true q s) l a = (b, o) -> events b = events a).
      { intros q l. induction l as [|u l IH]; intros a b o H; cbn [each] in H; [inversion H; reflexivity|].
        unfold seqo in H. destruct (overrides (povr (getp a q)) u).
        - eapply IH; exact H.
        - destruct (do_update_part u true q a) as [a1 o1] eqn:E. apply G1 in E.
          destruct o1; try (inversion H; subst; exact E). rewrite <- E. eapply IH; exact H. }
      intros l. induction l as [|q l IH]; intros a b o H; cbn [each] in H; [inversion H; reflexivity|].
      unfold seqo at 1 in H. destruct (apply_globals_to q a) as [a1 o1] eqn:E.
      assert (Ea : events a1 = events a).
      { unfold apply_globals_to, seqo in E.
        destruct (each _ _ a) as [a2 o2] eqn:E2 in E. apply G2 in E2.
        destruct o2; inversion E; subst; exact E2. }
      destruct o1; try (inversion H; subst; exact Ea). rewrite <- Ea. eapply IH; exact H. }
    eapply G; exact Hg.
Qed.

(* ----------------------- C04 ----------------------- *)

Lemma emit_events : forall pi sl dms pd s s', emit_note pi sl dms pd s = (s', Ok) ->
  exists l, events s' = events s ++ l.
Proof.
  intros pi sl dms pd s s' H. apply emit_shape in H. cbv zeta in H.
  destruct H as [[-> _]|(c & us & _ & _ & _ & _ & _ & ->)].
  - exists []. rewrite app_nil_r. reflexivity.
  - eexists. reflexivity.
Qed.

Lemma clone_events : forall p s t s1, clone p s = (t, s1) -> events s1 = events s.
Proof. intros p s t s1 H. unfold clone in H. inversion H; subst. reflexivity. Qed.

Lemma get_voice_events : forall p n s v s1, get_voice p n s = ROk (v, s1) -> events s1 = events s.
Proof.
  intros p n s v s1 H. unfold get_voice in H. destruct (aget _ _ _); [inversion H; subst; reflexivity|].
  unfold new_voice in H. destruct (has_voices s p); cbn [rbind] in H.
  - destruct (ptmpl (getp s p)); [|discriminate]. inversion H; subst; reflexivity.
  - destruct (ptmpl (getp s p)); [discriminate|].
    destruct (clone p s) as [t s2] eqn:E. cbn [rbind] in H. apply clone_events in E.
    match type of H with match ?x with _ => _ end = _ => destruct x; [|discriminate] end.
    inversion H; subst. exact E.
Qed.

Lemma vend_one_events : forall i p s, events (voice_end_one i p s) = events s.
Proof. intros i p s. unfold voice_end_one. destruct (getv _ _); reflexivity. Qed.
Lemma vend_events : forall s, events (run_voice_end s) = events s.
Proof.
  intros s. unfold run_voice_end.
  assert (G : forall cnt i s, events (voice_end_loop i cnt s) = events s).
  { induction cnt as [|k IH]; intros i s0; cbn [voice_end_loop]; [reflexivity|].
    destruct (nth_error _ _); [|reflexivity]. rewrite IH. apply vend_one_events. }
  apply G.
Qed.

Lemma new_part_events : forall n s p s1, new_part n s = ROk (p, s1) -> events s1 = events s.
Proof. intros n s p s1 H. unfold new_part in H. destruct (stock_instrument n); inversion H; subst; reflexivity. Qed.
Lemma group_parts_events : forall names s np sp s1, group_parts names s = ROk (np, sp, s1) ->
  events s1 = events s.
Proof.
  induction names as [|n t IH]; intros s np sp s1 H; cbn [group_parts] in H.
  - inversion H; subst; reflexivity.
  - destruct (nonempty (named_parts s n)); [|destruct (nonempty (unnamed_parts s n))].
    + destruct (group_parts t s) as [[[a b] c]|m|m] eqn:E; try discriminate. inversion H; subst. eapply IH; exact E.
    + destruct (group_parts t s) as [[[a b] c]|m|m] eqn:E; try discriminate. inversion H; subst. eapply IH; exact E.
    + destruct (new_part n s) as [[p s2]|m|m] eqn:E2; try discriminate. cbn [rbind] in H.
      destruct (group_parts t s2) as [[[a b] c]|m|m] eqn:E; try discriminate. inversion H; subst.
      apply new_part_events in E2. rewrite <- E2. eapply IH; exact E.
Qed.
Lemma new_parts_events : forall names s ps s1, new_parts names s = ROk (ps, s1) -> events s1 = events s.
Proof.
  induction names as [|n t IH]; intros s ps s1 H; cbn [new_parts] in H.
  - inversion H; subst; reflexivity.
  - destruct (new_part n s) as [[p s2]|m|m] eqn:E2; try discriminate. cbn [rbind] in H.
    destruct (new_parts t s2) as [[a b]|m|m] eqn:E; try discriminate. inversion H; subst.
    apply new_part_events in E2. rewrite <- E2. eapply IH; exact E.
Qed.
Lemma determine_parts_events : forall names alias s ps s1,
  determine_parts names alias s = ROk (ps, s1) -> events s1 = events s.
Proof.
  intros names alias s ps s1 H. unfold determine_parts in H.
  assert (Hgr : forall (b : bool) e1 e2, (if b then RErr e1
      else rbind (group_parts names s) (fun '(np, sp, s1) =>
        if nonempty np && nonempty sp then RErr e2
        else if negb (is_empty_string alias) && nonempty sp then new_parts names s1
        else ROk (dedup (np ++ sp) [], s1))) = ROk (ps, s1) -> events s1 = events s).
  { intros b e1 e2 Hb. destruct b; [discriminate|].
    destruct (group_parts names s) as [[[np sp] s2]|m|m] eqn:E; try discriminate. cbn [rbind] in Hb.
    apply group_parts_events in E. destruct (nonempty np && nonempty sp); [discriminate|].
    destruct (negb (is_empty_string alias) && nonempty sp).
    - apply new_parts_events in Hb. congruence.
    - inversion Hb; subst. exact E. }
  destruct names as [|n [|n2 r]].
  - exact (Hgr (has_dup []) "name included multiple times in group"%string "invalid group"%string H).
  - repeat match type of H with
         | (if ?b then _ else _) = _ => destruct b
         | RErr _ = _ => discriminate
         end;
    try (destruct (new_part n s) as [[p s2]|m|m] eqn:E; try discriminate; inversion H; subst;
         eapply new_part_events; exact E);
    inversion H; subst; reflexivity.
  - exact (Hgr (has_dup (n :: n2 :: r)) "name included multiple times in group"%string "invalid group"%string H).
Qed.

Lemma run_part_events : forall names alias s s' o, run_part names alias s = (s', o) -> events s' = events s.
Proof.
  intros names alias s s' o H. unfold run_part in H.
  destruct (determine_parts names alias (run_voice_end s)) as [[ps s1]|m|m] eqn:E;
    try (inversion H; subst; apply vend_events).
  apply determine_parts_events in E. rewrite vend_events in E.
  set (s2 := match parts s1, ps with
             | [], p0 :: _ => modp p0 (set_pmaster true) s1
             | _, _ => s1
             end) in *.
  assert (E2 : events s2 = events s).
  { unfold s2. destruct (parts s1); [destruct ps|]; exact E. }
  destruct (add_new_parts_frame ps s2) as [pl [Hpl _]].
  destruct (define_aliases_frame alias ps (set_parts pl s2)) as [al [Hal _]].
  assert (G : events (set_current ps (if is_empty_string alias then add_new_parts ps s2
                else define_aliases alias ps (add_new_parts ps s2))) = events s).
  { rewrite Hpl. destruct (is_empty_string alias); [exact E2|rewrite Hal; exact E2]. }
  destruct (parts s1) eqn:Ep; [destruct ps as [|p0 ps']|].
  - inversion H; subst. exact E.
  - inversion H; subst. exact G.
  - inversion H; subst. exact G.
Qed.

Lemma step_events : forall s s', step s s' -> exists l, events s' = events s ++ l.
Proof.
  intros s s' H.
  assert (T : forall s', events s' = events s -> exists l, events s' = events s ++ l).
  { intros x Hx. exists []. rewrite app_nil_r. exact Hx. }
  destruct H; try (apply T; reflexivity).
  - eapply emit_events; eassumption.
  - apply T. cbn [set_current events].
    match goal with G : get_voice _ _ _ = _ |- _ => exact (get_voice_events _ _ _ _ _ G) end.
  - apply T, vend_events.
  - apply T. eapply run_part_events; eassumption.
Qed.

Lemma star_events : forall s s', star s s' -> exists l, events s' = events s ++ l.
Proof.
  intros s s' H. induction H as [|t u H [l IH] Hs].
  - exists []. rewrite app_nil_r. reflexivity.
  - apply step_events in Hs. destruct Hs as [l' Hs]. exists (l ++ l'). rewrite Hs, IH, app_assoc. reflexivity.
Qed.

Lemma c04 : forall us s, exists new, events (fst (exec us s)) = events s ++ new.
Proof.
  intros us s. destruct (exec us s) as [s' o] eqn:E. eapply star_events, run_all_star. exact E.
Qed.

(* ----------------------- C05 ----------------------- *)

Lemma each_app : forall A (f : A -> score -> score * outcome) a b s,
  each f (a ++ b) s = seqo (each f a s) (each f b).
Proof.
  induction a as [|x a IH]; intros b s; cbn [app each]; [reflexivity|].
  destruct (f x s) as [s1 o1]. destruct o1; cbn [seqo]; try reflexivity. apply IH.
Qed.

Lemma c05_app : forall a b s,
  exec (a ++ b) s = match exec a s with
                    | (s1, Ok) => exec b s1
                    | failure => failure
                    end.
Proof. intros. unfold exec, run_all. rewrite each_app. unfold seqo. destruct (each _ a s) as [? []]; reflexivity. Qed.

Lemma c05_first_failure : forall us s s' o, exec us s = (s', o) ->
  (o = Ok <-> forall a b, us = a ++ b -> snd (exec a s) = Ok) /\
  (failed o -> exists a u b s1, us = a ++ u :: b /\ exec a s = (s1, Ok) /\ exec [u] s1 = (s', o)).
Proof.
  intros us s s' o H. split.
  - split.
    + intros -> a b ->. rewrite c05_app in H. destruct (exec a s) as [s1 []]; try discriminate. reflexivity.
    + intros G. specialize (G us []). rewrite app_nil_r in G. rewrite H in G. apply G. reflexivity.
  - revert s H. induction us as [|u us IH]; intros s H Ho.
    + inversion H; subst. exfalso. apply Ho. reflexivity.
    + change (u :: us) with ([u] ++ us) in H. rewrite c05_app in H.
      destruct (exec [u] s) as [s1 o1] eqn:E. destruct o1.
      2-5: inversion H; subst; exists [], u, us, s; repeat split; auto.
      destruct (IH s1 H Ho) as (a & v & b & s2 & A & B & C).
      exists (u :: a), v, b, s2. split; [rewrite A; reflexivity|]. split; [|exact C].
      change (u :: a) with ([u] ++ a). rewrite c05_app, E. exact B.
Qed.

(** An event sequence [...] is the same as its events one by one. *)
Lemma c05_sequence : forall es s, exec [USeq es] s = exec es s.
Proof.
  intros es s. unfold exec, run_all. cbn [each]. unfold run at 1. cbn [run_upd].
  assert (G : forall es s, (fix go (l : list update) (s0 : score) {struct l} : score * outcome :=
        match l with
        | [] => (s0, Ok)
        | e :: t => seqo (run_upd (run_deref 1) (dur_deref 1) e s0) (go t)
        end) es s = each (run 1) es s).
  { induction es0 as [|e t IH]; intros s0; [reflexivity|]. cbn [each]. unfold run at 1.
    destruct (run_upd (run_deref 1) (dur_deref 1) e s0) as [s1 []]; cbn [seqo]; try reflexivity. apply IH. }
  rewrite G. destruct (each (run 1) es s) as [s1 []]; reflexivity.
Qed.
End Events.
