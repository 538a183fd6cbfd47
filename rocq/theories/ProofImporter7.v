(** Proof of C48, seventh part: whole parts and whole imports. *)
From Coq Require Import ZArith List String Bool Lia Arith QArith Qcanon.
From Verif Require Import Base Num ModelPitch ModelDuration ModelInstruments ModelTypes ModelLisp
  ModelScore ModelImporter SpecScore SpecVars SpecParts SpecSolo SpecTiming SpecImporter ProofHeap ProofStep ProofInv ProofEvents
  ProofVoices ProofVars ProofSafe ProofTracks ProofSolo ProofTiming ProofImporter ProofImporter2 ProofImporter3 ProofImporter4 ProofImporter5
  ProofImporter6.
Import ListNotations.
Local Open Scope list_scope.

Section Parts.
Context {N : Num}.
Hypothesis zero_law : forall t l,
  nadd (fold_left (fun acc c => nadd acc (comp_ms t c)) l n0) n0
  = fold_left (fun acc c => nadd acc (comp_ms t c)) l n0.
Hypothesis min_law : forall a b : num, nmin (nmin a b) b = nmin a b.
Variable feq : num -> num -> bool.
Variable deref : string -> score -> score * outcome.
Variable dd : list (string * list update) -> string -> part -> dres.
Variable D : num -> Prop.
Hypothesis feq_D : forall x y, D x -> D y -> feq x y = true -> x = y.
Notation runs := (runs deref dd).
Notation opt := (optimize_list feq).
Notation R := (@R N true).
Notation RR := (@RR N true).

Definition ost (k : keysig) (o : opt_state) : Prop := o_key o = k /\ o_oct o = (-1)%Z /\ o_dur o = None.
Definition pk (b : bool) (k : keysig) : Prop := b = true -> forall l, ks_get k l = None.
Definition usD (us : list update) : Prop := forall x, In x (numbers_of us) -> D x.

Lemma opt_state_ok : forall b k us o, forallb (voice_event b) us = true -> ost k o -> ost k (fst (opt o us)).
Proof.
  intros b k us o Hv [Ok [Oo Od]].
  set (D' := fun x => In x (numbers_of us)).
  assert (E0 : evts (F1 D' b) (C1 D' b) us).
  { apply evts_forall. rewrite Forall_forall. rewrite forallb_forall in Hv. intros x Hx. apply voice_evt; [apply Hv, Hx|].
    intros d Hd. rewrite Forall_forall. intros y Hy. unfold D', numbers_of. apply in_flat_map. exists x. split; [exact Hx|]. apply in_flat_map. exists d. auto. }
  destruct (@std_sim N true zero_law min_law D' deref dd b k us E0) as [E1 _].
  destruct (acc_C1 D' b k _ E1 o Ok) as [_ K2].
  unfold optimize_list. destruct (acc_list o (std_list us)) as [o2 u2]. cbn [fst snd] in *.
  destruct (mid_list_same u2 o2) as [_ K3]. destruct (mid_list o2 u2) as [o3 u3]. cbn [fst snd] in *.
  pose proof (dur_list_key feq u3 o3) as K4. destruct (dur_list feq o3 u3) as [o4 u4]. cbn [fst snd] in *.
  split; [|split; reflexivity]. cbn. congruence.
Qed.
Lemma text_app : forall a c : list update, text_of (a ++ c) = text_of a ++ text_of c.
Proof. intros a c. unfold text_of. apply flat_map_app. Qed.

(** Both sides do the same, and a property of the first is reached. *)
Definition both (P : score -> Prop) (a c : score * outcome) : Prop := RR a c /\ (snd a = Ok -> P (fst a)).
Lemma both_seq : forall (P Q : score -> Prop) us us' vs vs' s t, both P (runs us s) (runs us' t) ->
  (forall s1 t1, P s1 -> R s1 t1 -> both Q (runs vs s1) (runs vs' t1)) -> both Q (runs (us ++ vs) s) (runs (us' ++ vs') t).
Proof.
  intros P Q us us' vs vs' s t [[A B] C] H. rewrite !runs_app. destruct (runs us s) as [s1 o1], (runs us' t) as [t1 o1']. cbn [fst snd] in *. subst o1'.
  destruct o1; cbn [seqo]; try (split; [split; [exact A|reflexivity]|discriminate]). apply H; [apply C; reflexivity|exact A].
Qed.
Lemma both_impl : forall (P Q : score -> Prop) a c, both P a c -> (forall s, P s -> Q s) -> both Q a c.
Proof. intros P Q a c [A B] H. split; [exact A|]. auto. Qed.
Lemma both_nil : forall (P : score -> Prop) s t, P s -> R s t -> both P (runs [] s) (runs [] t).
Proof. intros P s t H Q. split; [split; [exact Q|reflexivity]|]. intros _. exact H. Qed.

Lemma voice_both : forall b k us o (P : score -> Prop) s t, forallb (voice_event b) us = true -> usD us -> ost k o -> pk b k ->
  (forall s s', kept s s' -> P s -> P s') -> P s -> playing b k s -> R s t ->
  both P (runs (map finished us) s) (runs (text_of (snd (opt o us))) t).
Proof.
  intros b k us o P s t Hv Hd [Ok [Oo Od]] Pk HP Ps Pl Q.
  destruct (optimize_sim zero_law min_law feq deref dd b k us o Hv (fun x y Hx Hy => feq_D x y (Hd x Hx) (Hd y Hy)) Ok Oo Od Pk s t Pl Q) as [A B].
  split; [exact A|]. intros E. eapply HP; [apply B, E|exact Ps].
Qed.

Lemma marker_both : forall b k n s t, ready b k s -> R s t -> both (ready b k) (runs [UVoice n] s) (runs [UVoice n] t).
Proof.
  intros b k n s t H Q. rewrite !runs_one. cbn [run_upd]. split; [apply run_voice_like, Q|]. intros E.
  destruct (run_voice n s) as [s' o] eqn:X. cbn in E. subst o. eapply run_voice_ready; eassumption.
Qed.
Lemma end_both : forall b k s t, ready b k s -> R s t -> both (closed b k) (runs [UVoiceEnd] s) (runs [UVoiceEnd] t).
Proof.
  intros b k s t H Q. rewrite !runs_one. cbn [run_upd]. split; [split; [apply run_voice_end_like, Q|reflexivity]|]. intros _.
  apply run_voice_end_closed, H.
Qed.

Lemma flush_cons : forall f o n us vs, effectively_empty us = false ->
  snd (@flush_voices N f o ((n, us) :: vs)) = UVoice n :: snd (f o us) ++ snd (flush_voices f (fst (f o us)) vs) /\
  fst (@flush_voices N f o ((n, us) :: vs)) = fst (flush_voices f (fst (f o us)) vs).
Proof.
  intros f o n us vs E. cbn [flush_voices]. rewrite E. destruct (f o us) as [o1 us']. cbn [fst snd].
  destruct (flush_voices f o1 vs) as [o2 r]. split; reflexivity.
Qed.
Lemma flush_both : forall b k vs o o' s t, forallb (fun v => forallb (voice_event b) (snd v)) vs = true ->
  (forall v, In v vs -> usD (snd v)) -> ost k o -> pk b k -> ready b k s -> R s t ->
  both (ready b k) (runs (snd (flush_voices plain o' vs)) s) (runs (text_of (snd (flush_voices opt o vs))) t) /\ ost k (fst (flush_voices opt o vs)).
Proof.
  intros b k. induction vs as [|[n us] vs IH]; intros o o' s t Hv Hd Ho Pk Rd Q.
  - split; [apply both_nil; assumption|exact Ho].
  - cbn [forallb snd] in Hv. apply andb_prop in Hv. destruct Hv as [Hv Hvs].
    assert (Hd1 : usD us) by apply (Hd (n, us) (or_introl eq_refl)).
    assert (Hd2 : forall v, In v vs -> usD (snd v)) by (intros v Hin; apply Hd; right; exact Hin).
    destruct (effectively_empty us) eqn:E.
    { cbn [flush_voices]. rewrite E. apply IH; assumption. }
    destruct (flush_cons plain o' n us vs E) as [-> _]. destruct (flush_cons opt o n us vs E) as [-> ->].
    pose proof (opt_state_ok b k us o Hv Ho) as Ho'.
    split; [|apply (IH _ o' s t); assumption].
    change (UVoice n :: snd (plain o' us) ++ ?r) with ([UVoice n] ++ snd (plain o' us) ++ r).
    change (UVoice n :: snd (opt o us) ++ ?r) with ([UVoice n] ++ snd (opt o us) ++ r). rewrite text_app.
    eapply both_seq; [apply (marker_both b k n s t Rd Q)|]. intros s1 t1 R1 Q1. rewrite text_app.
    eapply both_seq; [apply (voice_both b k us o (ready b k) s1 t1 Hv Hd1 Ho Pk)|].
    + intros; eapply kept_ready; eassumption.
    + exact R1.
    + apply ready_playing, R1.
    + exact Q1.
    + intros s2 t2 R2 Q2. apply (IH _ (fst (plain o' us)) s2 t2); assumption.
Qed.

(** The attributes of a part. *)
Lemma same_accs_eq : forall a c, same_accs a c = true -> a = c.
Proof. intros [a|] [c|] H; try discriminate H; [|reflexivity]. unfold same_accs in H. destruct (list_eq_dec _ a c); [congruence|discriminate H]. Qed.
Lemma same_key_eq : forall a c, same_key a c = true -> a = c.
Proof.
  intros [a1 a2 a3 a4 a5 a6 a7] [c1 c2 c3 c4 c5 c6 c7] H. unfold same_key in H. cbn [forallb ks_get ksA ksB ksC ksD ksE ksF ksG] in H.
  repeat (apply andb_prop in H; let X := fresh in destruct H as [X H]; apply same_accs_eq in X; subst). reflexivity.
Qed.
Lemma opt_key : forall o k', text_of (snd (opt o [UPrim (Attr (PKey k'))])) = [UPrim (Attr (PKey k'))] /\ ost k' (fst (opt o [UPrim (Attr (PKey k'))])).
Proof.
  intros o k'. unfold optimize_list. cbn -[same_key]. destruct (same_key (o_key o) k') eqn:E; (split; [reflexivity|]); (split; [|split; reflexivity]); [|reflexivity].
  apply same_key_eq, E.
Qed.
Lemma opt_transp : forall k o n, ost k o -> text_of (snd (opt o [UPrim (Attr (PTransp n))])) = [UPrim (Attr (PTransp n))] /\ ost k (fst (opt o [UPrim (Attr (PTransp n))])).
Proof. intros k o n [A [B C]]. split; [reflexivity|]. split; [exact A|split; reflexivity]. Qed.

Lemma voices_single : forall f o n us e, @do_step N f o (SFlush [(n, us)] e) = if effectively_empty us then (o, []) else f o us.
Proof. reflexivity. Qed.
Lemma do_flush : forall f o vs e, List.length vs <> 1%nat -> @do_step N f o (SFlush vs e) =
  (fst (flush_voices f o vs), if e && negb (forallb (fun v => effectively_empty (snd v)) vs) then snd (flush_voices f o vs) ++ [UVoiceEnd] else snd (flush_voices f o vs)).
Proof.
  intros f o vs e L. destruct vs as [|[n us] [|v2 vs]]; [|cbn in L; congruence|]; unfold do_step; destruct (flush_voices f o _) as [o' r]; reflexivity.
Qed.
Lemma flush_empty : forall f o vs, forallb (fun v => effectively_empty (snd v)) vs = true -> @flush_voices N f o vs = (o, []).
Proof.
  induction vs as [|[n us] vs IH]; intros H; [reflexivity|]. cbn [forallb snd] in H. apply andb_prop in H. destruct H as [A B]. cbn [flush_voices]. rewrite A. apply IH, B.
Qed.

(** One step of a part; the voices may stay open after a flush that does not
    end them. *)
Definition stays (e : bool) (n : nat) (b : bool) (k : keysig) : score -> Prop :=
  if (e || (n =? 1)%nat)%bool then closed b k else ready b k.
Lemma flush_step : forall b k vs e o o' s t, forallb (fun v => forallb (voice_event b) (snd v)) vs = true ->
  (forall v, In v vs -> usD (snd v)) -> ost k o -> pk b k -> closed b k s -> R s t ->
  both (stays e (List.length vs) b k) (runs (snd (do_step plain o' (SFlush vs e))) s) (runs (text_of (snd (do_step opt o (SFlush vs e)))) t) /\
  ost k (fst (do_step opt o (SFlush vs e))).
Proof.
  intros b k vs e o o' s t Hv Hd Ho Pk Cl Q. destruct (Nat.eq_dec (List.length vs) 1) as [L|L].
  - destruct vs as [|[n us] [|]]; try discriminate L. rewrite !voices_single. unfold stays. cbn [List.length Nat.eqb]. rewrite orb_true_r.
    cbn [forallb snd] in Hv. rewrite andb_true_r in Hv.
    destruct (effectively_empty us); [split; [apply both_nil; assumption|exact Ho]|].
    split; [|apply (opt_state_ok b k us o Hv Ho)]. apply (voice_both b k us o (closed b k) s t Hv).
    + apply (Hd (n, us)). left. reflexivity.
    + exact Ho.
    + exact Pk.
    + intros; eapply kept_closed; eassumption.
    + exact Cl.
    + apply ready_playing, Cl.
    + exact Q.
  - rewrite !(do_flush _ _ _ _ L). cbn [fst snd]. destruct (flush_both b k vs o o' s t Hv Hd Ho Pk (proj1 Cl) Q) as [B O]. split; [|exact O].
    apply Nat.eqb_neq in L. unfold stays. rewrite L, orb_false_r.
    destruct (forallb (fun v => effectively_empty (snd v)) vs) eqn:E.
    { rewrite andb_false_r, (flush_empty plain o' vs E), (flush_empty opt o vs E). apply both_nil; [|exact Q]. destruct e; [exact Cl|apply Cl]. }
    rewrite andb_true_r. destruct e; [|exact B]. rewrite text_app. eapply both_seq; [exact B|]. intros s1 t1 R1 Q1. apply end_both; assumption.
Qed.
Lemma attr_step : forall b k u o o' s t, part_step b (SAttr u) = true -> ost k o -> pk b k -> closed b k s -> R s t ->
  exists k', both (closed b k') (runs (snd (do_step plain o' (SAttr u))) s) (runs (text_of (snd (do_step opt o (SAttr u)))) t) /\
  ost k' (fst (do_step opt o (SAttr u))) /\ pk b k'.
Proof.
  intros b k u o o' s t Hs Ho Pk Cl Q. destruct u; try discriminate Hs; cbn [do_step].
  - exists k0. destruct (opt_key o k0) as [-> O]. split; [|split; [exact O|]].
    + change (snd (plain o' [UPrim (Attr (PKey k0))])) with [@UPrim N (Attr (PKey k0))]. rewrite !runs_one. cbn [run_upd run_prim].
      split; [apply run_attr_like, Q|]. intros _. destruct (key_closed b k k0 s Cl) as [s' [E C']]. rewrite E. exact C'.
    + intros ->. cbn [part_step negb orb] in Hs. rewrite forallb_forall in Hs. intros l.
      assert (X : In l [LA; LB; LC; LD; LE; LF; LG]) by (destruct l; cbn; tauto). specialize (Hs l X). destruct (ks_get k0 l); [discriminate Hs|reflexivity].
  - exists k. match goal with |- context[PTransp ?n] => destruct (opt_transp k o n Ho) as [-> O]; change (snd (plain o' [UPrim (Attr (PTransp n))])) with [@UPrim N (Attr (PTransp n))] end.
    split; [|split; assumption]. rewrite !runs_one. cbn [run_upd run_prim]. split; [apply run_attr_like, Q|]. intros _. eapply kept_closed; [apply transp_kept|exact Cl].
Qed.

Lemma steps_both : forall b l k o o' s t, forallb (part_step b) l = true -> voices_ended l = true ->
  (forall st x, In st l -> In x (step_numbers st) -> D x) -> ost k o -> pk b k -> closed b k s -> R s t ->
  both (fun s' => exists k', ready b k' s') (runs (do_steps plain o' l) s) (runs (text_of (do_steps opt o l)) t).
Proof.
  intros b. induction l as [|st l IH]; intros k o o' s t Hs He Hd Ho Pk Cl Q.
  { apply both_nil; [|exact Q]. exists k. apply Cl. }
  cbn [forallb] in Hs. apply andb_prop in Hs. destruct Hs as [Hs Hl].
  assert (Hd2 : forall st x, In st l -> In x (step_numbers st) -> D x) by (intros st' x A B; apply (Hd st' x); [right; exact A|exact B]).
  assert (E : forall f o0, @do_steps N f o0 (st :: l) = snd (do_step f o0 st) ++ do_steps f (fst (do_step f o0 st)) l).
  { intros f o0. cbn [do_steps]. destruct (do_step f o0 st). reflexivity. }
  rewrite !E, text_app. destruct st as [vs e|u].
  - assert (Hv : forall v, In v vs -> usD (snd v)).
    { intros v Hin x Hx. apply (Hd (SFlush vs e)); [left; reflexivity|]. cbn [step_numbers]. apply in_flat_map. exists v. auto. }
    destruct (flush_step b k vs e o o' s t Hs Hv Ho Pk Cl Q) as [B O].
    eapply both_seq; [exact B|]. intros s1 t1 S1 Q1. destruct l as [|st' l'].
    + apply both_nil; [|exact Q1]. exists k. unfold stays in S1. destruct (_ || _)%bool; [apply S1|exact S1].
    + cbn [voices_ended] in He. apply andb_prop in He. destruct He as [He1 He2]. unfold stays in S1. rewrite He1 in S1.
      eapply IH; try eassumption.
  - destruct (attr_step b k u o o' s t Hs Ho Pk Cl Q) as [k' [B [O P']]].
    eapply both_seq; [exact B|]. intros s1 t1 S1 Q1. eapply IH; eassumption.
Qed.
End Parts.

(* ------------------------- whole imports ------------------------- *)

Section Import.
Context {N : Num}.
Hypothesis zero_law : forall t l,
  nadd (fold_left (fun acc c => nadd acc (comp_ms t c)) l n0) n0
  = fold_left (fun acc c => nadd acc (comp_ms t c)) l n0.
Hypothesis min_law : forall a b : num, nmin (nmin a b) b = nmin a b.
Variable feq : num -> num -> bool.
Notation opt := (optimize_list feq).
Notation R := (@R N true).
Notation RR := (@RR N true).

Lemma vend_len : forall s, List.length (heap (run_voice_end s)) = List.length (heap s) /\ globals (run_voice_end s) = globals s.
Proof.
  intros s. unfold run_voice_end. generalize (List.length (current s)) as c, 0%nat as i. intros c. revert s.
  induction c as [|c IH]; intros s i; [split; reflexivity|]. cbn [voice_end_loop]. destruct (nth_error (current s) i) as [p|]; [|split; reflexivity].
  destruct (IH (voice_end_one i p s) (S i)) as [A B]. rewrite A, B. unfold voice_end_one. destruct (getv s _); [split; reflexivity|]. cbv zeta.
  split; [|reflexivity]. change (List.length (heap (modp (last_to_finish s (p0 :: l) p) (fun q => set_ptmpl None (set_pvoices (List.length (vheap s)) q)) (set_vheap (vheap s ++ [[]]) s))) = List.length (heap s)).
  rewrite heap_modp. reflexivity.
Qed.

(** A declaration that creates a part of its own. *)
Lemma declared_closed : forall calls names alias s', run_part names alias (session calls) = (s', Ok) ->
  ga_offs (globals (session calls)) = [] -> current s' = [List.length (heap (session calls))] ->
  closed (iperc (pstock (getp s' (List.length (heap (session calls)))))) ks_empty s'.
Proof.
  intros calls names alias s' H G C. pose proof (session_inv calls) as I. pose proof (session_vinv calls) as V. set (s := session calls) in *.
  destruct (run_part_shape _ _ _ _ I V H) as (ps & s1 & new & al & E & Hs' & _). clear H.
  destruct (vend_inv s I) as [I0 _]. destruct (vend_vinv s I V) as (V0 & _).
  destruct (vend_len s) as [L0 G0]. set (s0 := run_voice_end s) in *.
  destruct (determine_parts_grows _ _ _ _ _ I0 V0 E) as (Gr & _ & Hon).
  assert (Ps : ps = [List.length (heap s)]) by (rewrite <- C, Hs'; reflexivity).
  set (n := List.length (heap s)) in *.
  assert (Hn : (List.length (heap s0) <= n < List.length (heap s1))%nat).
  { destruct (Hon n) as [X|X]; [rewrite Ps; left; reflexivity| |exact X]. pose proof (in_parts s0 n I0 X). lia. }
  destruct (grows_fresh s0 s1 n Gr Hn) as (nm & ins & _ & Gp).
  set (s2 := match parts s0, ps with [], p0 :: _ => modp p0 (set_pmaster true) s1 | _, _ => s1 end) in *.
  assert (S2 : getp s2 n = getp s1 n \/ getp s2 n = set_pmaster true (getp s1 n)).
  { unfold s2. rewrite Ps. destruct (parts s0); [|left; reflexivity]. right. apply getp_modp_same. lia. }
  assert (L2 : List.length (heap s2) = List.length (heap s1)) by (unfold s2; rewrite Ps; destruct (parts s0); [apply heap_modp|reflexivity]).
  assert (V2 : vheap s2 = vheap s1) by (unfold s2; rewrite Ps; destruct (parts s0); reflexivity).
  assert (G2 : globals s2 = globals s1) by (unfold s2; rewrite Ps; destruct (parts s0); reflexivity).
  assert (Gp' : getp s' n = getp s2 n) by (rewrite Hs'; reflexivity).
  assert (Fields : pkey (getp s' n) = ks_empty /\ pvoices (getp s' n) = List.length (vheap s0)).
  { rewrite Gp'. replace n with (List.length (heap s0)) in * by lia. rewrite Nat.sub_diag, Nat.add_0_r in Gp. destruct S2 as [-> | ->]; rewrite Gp; split; reflexivity. }
  destruct Fields as [Fk Fv].
  assert (Vs : vheap s' = vheap s1) by (rewrite Hs'; exact V2).
  assert (Empty : getv s' (pvoices (getp s' n)) = []).
  { rewrite Fv. unfold getv. rewrite Vs. change (getv s1 (List.length (vheap s0)) = []). rewrite (grows_getv _ _ _ Gr). unfold getv. apply nth_overflow. lia. }
  assert (Vl : (List.length (vheap s0) < List.length (vheap s'))%nat).
  { rewrite Vs. destruct Gr as [hs [-> _]]. cbn in Hn |- *. rewrite app_length in *. rewrite map_length. lia. }
  assert (Lh : (n < List.length (heap s'))%nat) by (rewrite Hs'; change ((n < List.length (heap s2))%nat); lia).
  split.
  - split; [|split; [|split]].
    + destruct (grows_tables _ _ Gr) as (_ & _ & _ & _ & _ & _ & T & _). rewrite Hs'. change (ga_offs (globals s2) = []). rewrite G2, T, G0. exact G.
    + rewrite C. intros p [<-|[]]. unfold vok. rewrite Empty, Fv. split; [split; [exact Lh|split; [exact Fk|reflexivity]]|].
      split; [exact Vl|]. split; [congruence|]. intros ? ? [].
    + rewrite C. cbn. constructor; [intros []|constructor].
    + rewrite C. cbn. constructor; [intros []|constructor].
  - rewrite C. intros p [<-|[]]. exact Empty.
Qed.

Definition part_numbers (p : @xml_part N) : list num := flat_map step_numbers (x_steps p).
Lemma part_text : forall f ps, text_of (@import_updates N f ps) = flat_map (fun p => text_of (part_updates f p)) ps.
Proof. intros f ps. unfold import_updates. induction ps as [|p ps IH]; [reflexivity|]. cbn [flat_map]. rewrite text_app, IH. reflexivity. Qed.
Lemma exec_app : forall a c (s : score), exec (a ++ c) s = seqo (exec a s) (exec c).
Proof. intros a c s. apply (runs_app (run_deref 1) (dur_deref 1)). Qed.
Lemma session_snoc : forall calls (us : list update), fst (exec us (session calls)) = session (calls ++ [us]).
Proof. intros calls us. unfold session. rewrite fold_left_app. reflexivity. Qed.

Theorem import_both : forall ps calls t,
  (forall x y, In x (flat_map part_numbers ps) -> In y (flat_map part_numbers ps) -> feq x y = true -> x = y) ->
  ga_offs (globals (session calls)) = [] -> importable ps (session calls) -> R (session calls) t ->
  RR (exec (import_updates plain ps) (session calls)) (exec (text_of (import_updates opt ps)) t).
Proof.
  induction ps as [|p ps IH]; intros calls t Hf G Im Q; [split; [exact Q|reflexivity]|].
  unfold import_updates. cbn [flat_map]. fold (import_updates plain ps) (import_updates opt ps). rewrite text_app, !exec_app.
  set (s := session calls) in *. cbn [importable] in Im. cbv zeta in Im.
  assert (Step : RR (exec (part_updates plain p) s) (exec (text_of (part_updates opt p)) t) /\
     (snd (exec (part_updates plain p) s) = Ok -> ga_offs (globals (fst (exec (part_updates plain p) s))) = [] /\ importable ps (fst (exec (part_updates plain p) s)))).
  { unfold part_updates. change (text_of (UPart (x_names p) (x_alias p) :: ?l)) with ([@UPart N (x_names p) (x_alias p)] ++ text_of l).
    change (UPart (x_names p) (x_alias p) :: do_steps plain new_opt (x_steps p)) with ([@UPart N (x_names p) (x_alias p)] ++ do_steps plain new_opt (x_steps p)) in *.
    rewrite !exec_app. assert (Ex : forall s0, exec [UPart (x_names p) (x_alias p)] s0 = @run_part N (x_names p) (x_alias p) s0) by (intros s0; apply (runs_one (run_deref 1) (dur_deref 1) (UPart (x_names p) (x_alias p)) s0)).
    rewrite !Ex in *. pose proof (run_part_like (FG := true) (x_names p) (x_alias p) s t Q) as [Q1 E1].
    destruct (run_part (x_names p) (x_alias p) s) as [s1 o1] eqn:Er, (run_part (x_names p) (x_alias p) t) as [t1 o1']. cbn [fst snd] in *. subst o1'.
    destruct o1; cbn [seqo]; try (split; [split; [exact Q1|reflexivity]|discriminate]).
    destruct (Im eq_refl) as [C [P1 [P2 Im']]]. unfold part_updates in Im'.
    change (UPart (x_names p) (x_alias p) :: do_steps plain new_opt (x_steps p)) with ([@UPart N (x_names p) (x_alias p)] ++ do_steps plain new_opt (x_steps p)) in Im'.
    rewrite exec_app, Ex, Er in Im'. cbn [seqo] in Im'.
    pose proof (declared_closed calls _ _ _ Er G C) as Cl.
    destruct (steps_both zero_law min_law feq (run_deref 1) (dur_deref 1) (fun x => In x (flat_map part_numbers (p :: ps))) Hf _ (x_steps p) ks_empty new_opt new_opt s1 t1 P1 P2) as [A B].
    - intros st x Hst Hx. cbn [flat_map]. apply in_or_app. left. unfold part_numbers. apply in_flat_map. exists st. auto.
    - split; [reflexivity|split; reflexivity].
    - intros _ []; reflexivity.
    - exact Cl.
    - exact Q1.
    - split; [exact A|]. intros E. destruct (B E) as [k' Rd]. split; [apply Rd|exact Im']. }
  destruct Step as [[A B] C]. pose proof (session_snoc calls (part_updates plain p)) as S. fold s in S.
  destruct (exec (part_updates plain p) s) as [s1 o1], (exec (text_of (part_updates opt p)) t) as [t1 o1']. cbn [fst snd] in *. subst o1' s1.
  destruct o1; cbn [seqo]; try (split; [exact A|reflexivity]). destruct (C eq_refl) as [G1 Im1].
  apply IH; try assumption. intros x y Hx Hy. apply Hf; cbn [flat_map]; apply in_or_app; right; assumption.
Qed.
End Import.

Theorem c48_import : forall (feq : num -> num -> bool) calls ps (t : @score XQ),
  let s := session calls in
  importable ps s ->
  (forall x y, In x (flat_map (fun p => flat_map step_numbers (x_steps p)) ps) ->
     In y (flat_map (fun p => flat_map step_numbers (x_steps p)) ps) -> feq x y = true -> x = y) ->
  ga_offs (globals s) = [] -> same_so_far s t ->
  let r := exec (import_updates plain ps) s in
  let r' := exec (text_of (import_updates (optimize_list feq) ps)) t in
  events (fst r) = events (fst r') /\ snd r = snd r' /\ same_so_far (fst r) (fst r').
Proof.
  intros feq calls ps t s Im Hn G Q. cbv zeta. apply same_R in Q.
  destruct (import_both xq_zero xq_min_law feq ps calls t Hn G Im Q) as [A B]. split; [apply (R_events _ _ A)|]. split; [exact B|]. apply same_R, A.
Qed.
