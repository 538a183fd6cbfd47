(** Proof of C68: a part plays what is written in its own sections. *)
From Coq Require Import ZArith List String Bool Lia Arith.
From Verif Require Import Base Num ModelPitch ModelDuration ModelInstruments ModelTypes ModelLisp
  ModelScore SpecScore SpecVars SpecParts SpecSolo SpecSections ProofHeap ProofStep ProofInv ProofEvents ProofVoices
  ProofVars ProofSafe ProofTracks ProofSolo ProofSoloOk.
Import ListNotations.
Local Open Scope list_scope.

Section Sections.
Context {N : Num}.
Local Notation nc := unchanneled.

(* ---------------- chord mode is off between updates ---------------- *)

(** [f] leaves the chord mode alone. *)
Definition still (f : score -> score * outcome) : Prop :=
  forall s s' o, f s = (s', o) -> chordmode s' = chordmode s.
(** [f], when it succeeds, leaves the chord mode off. *)
Definition calm (f : score -> score * outcome) : Prop :=
  forall s s', f s = (s', Ok) -> chordmode s = false -> chordmode s' = false.

Lemma still_calm : forall f, still f -> calm f.
Proof. intros f H s s' E C. rewrite (H _ _ _ E). exact C. Qed.
Lemma still_seq : forall f h, still f -> still h -> still (fun s => seqo (f s) h).
Proof.
  intros f h Hf Hh s s' o H. destruct (f s) as [s1 o1] eqn:E. cbn [seqo] in H. pose proof (Hf _ _ _ E) as E1.
  destruct o1; try (injection H; intros; subst; exact E1). rewrite (Hh _ _ _ H). exact E1.
Qed.
Lemma calm_seq : forall f h, calm f -> calm h -> calm (fun s => seqo (f s) h).
Proof.
  intros f h Hf Hh s s' H C. destruct (f s) as [s1 o1] eqn:E. cbn [seqo] in H.
  destruct o1; try discriminate. exact (Hh _ _ H (Hf _ _ E C)).
Qed.
Lemma still_each : forall A (f : A -> score -> score * outcome), (forall x, still (f x)) -> forall l, still (each f l).
Proof.
  intros A f Hf l. induction l as [|x t IH]; intros s s' o H; cbn [each] in H.
  - injection H; intros; subst; reflexivity.
  - exact (still_seq (f x) (each f t) (Hf x) IH s s' o H).
Qed.
Lemma still_cur : forall (f : pid -> score -> score * outcome), (forall x, still (f x)) -> still (fun s => each f (current s) s).
Proof. intros f Hf s s' o H. exact (still_each _ f Hf (current s) s s' o H). Qed.
Lemma still_modp : forall p f, still (fun s => (modp p f s, Ok)).
Proof. intros p f s s' o H. injection H; intros; subst; reflexivity. Qed.
Lemma still_ret : still (fun s => (s, Ok)).
Proof. intros s s' o H. injection H; intros; subst; reflexivity. Qed.
Lemma still_update : forall u b p, still (do_update_part u b p).
Proof.
  intros u b p s s' o H. unfold do_update_part in H. destruct (update_part _ _ _); injection H; intros; subst; reflexivity.
Qed.
Lemma still_globals : still apply_globals.
Proof.
  unfold apply_globals. apply still_cur. intros p s s' o H. unfold apply_globals_to in H.
  revert H. generalize (in_window (globals s) (plast (getp s p)) (pcur (getp s p))). intros l H.
  refine (still_seq (each _ l) _ _ (still_modp p _) s s' o H). apply still_each. intros u s1 s2 o1 E.
  destruct (overrides _ _); [exact (still_ret _ _ _ E)|exact (still_update _ _ _ _ _ _ E)].
Qed.
Lemma still_emit : forall pi sl dms p, still (emit_note pi sl dms p).
Proof.
  intros pi sl dms p s s' o H. unfold emit_note in H.
  destruct (nltb n0 _); [|injection H; intros; subst; reflexivity].
  destruct (_ || _)%bool; [injection H; intros; subst; reflexivity|].
  destruct (assign_channel _ _ _) as [[c s1]|m|m] eqn:E; injection H; intros; subst; try reflexivity.
  apply assign_channel_frame in E. destruct E as [us ->]. reflexivity.
Qed.
Lemma still_prim : forall q, still (run_prim q).
Proof.
  assert (A : forall nr d, still (add_note_or_rest nr d)).
  { intros nr d. unfold add_note_or_rest. apply (still_seq (fun s => if chordmode s then (s, Ok) else apply_globals s)).
    - intros s s' o H. destruct (chordmode s) eqn:E; [injection H; intros; subst; exact E|rewrite <- E; exact (still_globals _ _ _ H)].
    - intros s s' o H. destruct (dur_valid d); [|injection H; intros; subst; reflexivity].
      revert H. apply (still_cur (note_one nr d)). intros p s1 s2 o1 H. unfold note_one in H.
      destruct nr as [[pi sl]|]; cbv beta iota zeta in H.
      + match type of H with seqo ?a _ = _ => destruct a as [s3 o3] eqn:E end. cbn [seqo] in H.
        pose proof (still_emit _ _ _ _ _ _ _ E). destruct o3; injection H; intros; subst; assumption.
      + cbn [seqo] in H. injection H; intros; subst; reflexivity. }
  intros [pi d sl|d|u|u]; unfold run_prim; [apply A|apply A| |].
  - unfold run_attr. apply (still_cur (fun p s => seqo (do_update_part u false p s) (fun s => (modp p (set_povr (Some u)) s, Ok)))).
    intros p. apply still_seq; [apply still_update|apply still_modp].
  - intros s s' o H. unfold run_gattr in H. destruct (current s); [|destruct (same_offset _ _ _)]; injection H; intros; subst; reflexivity.
Qed.
Lemma still_voice : forall n, still (run_voice n).
Proof.
  intros n s s' o. unfold run_voice. generalize (List.length (current s)) as c, 0%nat as i. intros c. revert s.
  induction c as [|c IH]; intros s i H; cbn [voice_loop] in H; [injection H; intros; subst; reflexivity|].
  destruct (nth_error (current s) i) as [p|]; [|injection H; intros; subst; reflexivity].
  destruct (get_voice p n s) as [[v s1]|m|m] eqn:E; [|injection H; intros; subst; reflexivity|injection H; intros; subst; reflexivity].
  apply IH in H. rewrite H. change (chordmode s1 = chordmode s).
  unfold get_voice in E. destruct (aget Z.eqb n _); [injection E; intros; subst; reflexivity|].
  unfold new_voice in E. destruct (has_voices s p).
  - cbn [rbind] in E. destruct (ptmpl (getp s p)); [|discriminate]. cbn in E. injection E; intros; subst; reflexivity.
  - destruct (ptmpl (getp s p)); [discriminate|]. cbn [rbind clone] in E.
    match type of E with match ?x with _ => _ end = _ => destruct x end; [|discriminate]. cbn in E. injection E; intros; subst; reflexivity.
Qed.
Lemma vend_chord : forall s, chordmode (run_voice_end s) = chordmode s.
Proof.
  intros s. unfold run_voice_end. generalize (List.length (current s)) as c, 0%nat as i. intros c. revert s.
  induction c as [|c IH]; intros s i; cbn [voice_end_loop]; [reflexivity|].
  destruct (nth_error (current s) i) as [p|]; [|reflexivity]. rewrite IH.
  unfold voice_end_one. destruct (getv s (pvoices (getp s p))); reflexivity.
Qed.
Lemma new_part_chord : forall n s p s1, new_part n s = ROk (p, s1) -> chordmode s1 = chordmode s.
Proof. intros n s p s1 H. unfold new_part in H. destruct (stock_instrument n); [|discriminate]. injection H; intros; subst; reflexivity. Qed.
Lemma new_parts_chord : forall ns s ps s1, new_parts ns s = ROk (ps, s1) -> chordmode s1 = chordmode s.
Proof.
  induction ns as [|n ns IH]; intros s ps s1 H; cbn [new_parts] in H; [injection H; intros; subst; reflexivity|].
  destruct (new_part n s) as [[p s2]|m|m] eqn:E; try discriminate. cbn [rbind] in H.
  destruct (new_parts ns s2) as [[qs s3]|m|m] eqn:E2; try discriminate. cbn in H. injection H; intros; subst.
  rewrite (IH _ _ _ E2). exact (new_part_chord _ _ _ _ E).
Qed.
Lemma group_parts_chord : forall ns s np sp s1, group_parts ns s = ROk (np, sp, s1) -> chordmode s1 = chordmode s.
Proof.
  induction ns as [|n ns IH]; intros s np sp s1 H; cbn [group_parts] in H; [injection H; intros; subst; reflexivity|].
  destruct (nonempty (named_parts s n)); [|destruct (nonempty (unnamed_parts s n))].
  - destruct (group_parts ns s) as [[[a b] s3]|m|m] eqn:E2; try discriminate. cbn in H. injection H; intros; subst. exact (IH _ _ _ _ E2).
  - destruct (group_parts ns s) as [[[a b] s3]|m|m] eqn:E2; try discriminate. cbn in H. injection H; intros; subst. exact (IH _ _ _ _ E2).
  - destruct (new_part n s) as [[p s2]|m|m] eqn:E; try discriminate. cbn [rbind] in H.
    destruct (group_parts ns s2) as [[[a b] s3]|m|m] eqn:E2; try discriminate. cbn in H. injection H; intros; subst.
    rewrite (IH _ _ _ _ E2). exact (new_part_chord _ _ _ _ E).
Qed.
Lemma determine_chord : forall names alias s ps s1, determine_parts names alias s = ROk (ps, s1) -> chordmode s1 = chordmode s.
Proof.
  intros names alias s ps s1 H. unfold determine_parts in H.
  assert (G : (if has_dup names then RErr "name included multiple times in group"%string
      else rbind (group_parts names s) (fun '(np, sp, s1) => if nonempty np && nonempty sp then RErr "invalid group"%string
        else if negb (is_empty_string alias) && nonempty sp then new_parts names s1 else ROk (dedup (np ++ sp) [], s1))) = ROk (ps, s1) ->
      chordmode s1 = chordmode s).
  { clear H. intros H. destruct (has_dup names); [discriminate|]. destruct (group_parts names s) as [[[a b] s3]|m|m] eqn:E2; try discriminate.
    cbn [rbind] in H. apply group_parts_chord in E2. destruct (_ && _)%bool; [discriminate|]. destruct (_ && _)%bool.
    - rewrite (new_parts_chord _ _ _ _ H). exact E2.
    - injection H; intros; subst. exact E2. }
  destruct names as [|name [|n2 names]]; [exact (G H)| |exact (G H)]. clear G.
  assert (K : rmap (fun '(p, s1) => ([p], s1)) (new_part name s) = ROk (ps, s1) -> chordmode s1 = chordmode s).
  { intros K. destruct (new_part name s) as [[p s2]|m|m] eqn:E; try discriminate. cbn in K. injection K; intros; subst. exact (new_part_chord _ _ _ _ E). }
  repeat match type of H with context[if ?c then _ else _] => destruct c end; try discriminate; try exact (K H);
    injection H; intros; subst; reflexivity.
Qed.
Lemma add_new_chord : forall ps s, chordmode (add_new_parts ps s) = chordmode s.
Proof.
  unfold add_new_parts. induction ps as [|p ps IH]; intros s; [reflexivity|]. cbn [fold_left]. rewrite IH. destruct (existsb _ _); reflexivity.
Qed.
Lemma define_chord : forall a ps s, chordmode (define_aliases a ps s) = chordmode s.
Proof.
  intros a ps s. unfold define_aliases. transitivity (chordmode (set_alias a ps s)); [|reflexivity].
  generalize (set_alias a ps s). induction (map (fun p => (p, aliases_for s p)) ps) as [|[p old] l IH]; intros s1; [reflexivity|].
  cbn [fold_left]. rewrite IH. transitivity (chordmode (set_alias (a ++ "." ++ pname (getp s1 p))%string [p] s1)); [|reflexivity].
  generalize (set_alias (a ++ "." ++ pname (getp s1 p))%string [p] s1). clear.
  induction old as [|x old IH]; intros s2; [reflexivity|]. cbn [fold_left]. rewrite IH. reflexivity.
Qed.
Lemma calm_part : forall names alias, calm (run_part names alias).
Proof.
  intros names alias s s' H C. unfold run_part in H. cbv zeta in H.
  destruct (determine_parts names alias (run_voice_end s)) as [[ps s1]|m|m] eqn:E; try discriminate.
  apply determine_chord in E. rewrite vend_chord in E. rewrite <- C, <- E.
  assert (K : forall s2, chordmode s2 = chordmode s1 ->
    (set_current ps (if is_empty_string alias then add_new_parts ps s2 else define_aliases alias ps (add_new_parts ps s2)), Ok) = (s', Ok) ->
    chordmode s' = chordmode s1).
  { intros s2 E2 H2. apply (f_equal fst) in H2. cbn [fst] in H2. rewrite <- H2, <- E2. change (chordmode (if is_empty_string alias then add_new_parts ps s2 else define_aliases alias ps (add_new_parts ps s2)) = chordmode s2).
    destruct (is_empty_string alias); [|rewrite define_chord]; apply add_new_chord. }
  destruct (parts s1); [destruct ps as [|p0 ps]; [discriminate|]|]; (eapply K; [|exact H]); reflexivity.
Qed.

Lemma calm_upd : forall deref dd, (forall n, calm (deref n)) -> forall u, calm (run_upd deref dd u).
Proof.
  intros deref dd Hd u. induction u using update_ind'.
  - apply still_calm, still_prim.
  - apply still_calm, still_ret.
  - intros s s' H C. cbn [run_upd] in H. destruct (eval_update els) as [[q|]|m|m]; try discriminate.
    + exact (still_calm _ (still_prim q) _ _ H C).
    + injection H; intros; subst; exact C.
  - apply still_calm, still_ret.
  - intros s s' E C. cbn [run_upd] in E. destruct (apply_globals s) as [s1 []]; try discriminate. cbn [seqo] in E.
    revert E. generalize (map (fun p => (p, nmaxval)) (current s1)) (set_chordmode true s1). clear.
    induction es as [|e t IH]; intros m s E.
    + transitivity (chordmode (set_chordmode false s)); [|reflexivity].
      refine (still_cur _ _ _ _ _ E). intros p. apply still_modp.
    + destruct (run_upd deref dd e s) as [s2 []]; try discriminate. cbn [seqo] in E. exact (IH _ _ E).
  - intros s s' E C. cbn [run_upd] in E. cbv zeta in E.
    destruct (cram_scale (dd (variables s)) es d s) as [s1 o1] eqn:E1. destruct o1; try discriminate. cbn [seqo] in E.
    assert (C1 : chordmode s1 = false).
    { rewrite <- C. refine (still_cur _ _ _ _ _ E1). intros p a b o X. destruct (time_scale _ _ _ _) as [ts []]; injection X; intros; subst; reflexivity. }
    match type of E with seqo ?x _ = _ => destruct x as [s2 o2] eqn:E2 end. destruct o2; try discriminate. cbn [seqo] in E.
    assert (C2 : chordmode s2 = false).
    { clear E E1. revert s1 C1 E2. induction H as [|e t He Ht IH]; intros s1 C1 E2; [injection E2; intros; subst; exact C1|].
      destruct (run_upd deref dd e s1) as [s3 o3] eqn:E3. destruct o3; try discriminate. cbn [seqo] in E2. eapply IH; [|exact E2]. eapply He; eassumption. }
    rewrite <- C2. refine (still_cur _ _ _ _ _ E). intros p. apply still_modp.
  - intros s s' E C. cbn [run_upd] in E.
    assert (G : forall k r, calm (run_times (run_upd deref dd u) r k)).
    { induction k as [|k IH]; intros r; cbn [run_times]; [apply still_calm, still_ret|].
      apply (calm_seq (fun s => each (fun p s => (modp p (set_prep r) s, Ok)) (current s) s)).
      - apply still_calm, still_cur. intros p. apply still_modp.
      - apply calm_seq; [exact IHu|apply IH]. }
    destruct (run_times _ _ _ s) as [s1 []] eqn:E1; try discriminate. cbn [seqo] in E.
    destruct (n =? max_int32)%Z; [discriminate|]. injection E; intros; subst. eapply G; eassumption.
  - intros s s' E C. cbn [run_upd] in E. revert E C. generalize (List.length (current s)) as c, 0%nat as i. intros c. revert s.
    induction c as [|c IH]; intros s i E C; cbn [onreps_loop] in E; [injection E; intros; subst; exact C|].
    destruct (nth_error (current s) i) as [p|]; [|injection E; intros; subst; exact C].
    destruct (if applies_to rs (prep (getp s p)) then run_upd deref dd u s else (s, Ok)) as [s1 []] eqn:E1; try discriminate.
    cbn [seqo] in E. eapply IH; [exact E|]. destruct (applies_to _ _); [eapply IHu; eassumption|injection E1; intros; subst; exact C].
  - intros s s' E C. cbn [run_upd] in E. revert s C E. induction H as [|e t He Ht IH]; intros s C E; [injection E; intros; subst; exact C|].
    destruct (run_upd deref dd e s) as [s3 o3] eqn:E3. destruct o3; try discriminate. cbn [seqo] in E. eapply IH; [|exact E]. eapply He; eassumption.
  - intros s s' E C. cbn [run_upd] in E. unfold run_marker in E. destruct (current s); [discriminate|]. destruct (same_offset _ _ _); [|discriminate].
    injection E; intros; subst; exact C.
  - cbn [run_upd]. unfold run_at_marker. apply (calm_seq apply_globals).
    + apply still_calm, still_globals.
    + apply still_calm. intros s s' o E. destruct (aget _ _ _); [|injection E; intros; subst; reflexivity].
      refine (still_cur _ _ _ _ _ E). intros p. apply still_modp.
  - intros s s' E C. cbn [run_upd] in E. unfold run_var_def in E. destruct (rmapl _ _); try discriminate. injection E; intros; subst; exact C.
  - apply Hd.
  - apply still_calm, still_voice.
  - intros s s' E C. cbn [run_upd] in E. injection E; intros; subst. rewrite vend_chord. exact C.
  - apply calm_part.
Qed.
Lemma calm_each : forall (f : update -> score -> score * outcome) l, (forall u, In u l -> calm (f u)) -> calm (each f l).
Proof.
  intros f l. induction l as [|x t IH]; intros H; cbn [each]; [apply still_calm, still_ret|].
  apply calm_seq; [apply H; left; reflexivity|apply IH; intros u Hu; apply H; right; exact Hu].
Qed.
Lemma calm_deref : forall fuel n, calm (run_deref fuel n).
Proof.
  induction fuel as [|f IH]; intros n s s' H C; cbn [run_deref] in H; destruct (aget _ _ _); try discriminate.
  refine (calm_each _ _ _ _ _ H C). intros u _. apply calm_upd, IH.
Qed.
Lemma calm_exec : forall us, calm (exec us).
Proof. intros us. unfold exec, run_all. apply calm_each. intros u _. unfold run. apply calm_upd, calm_deref. Qed.

(* ---------------- what playing leaves alone ---------------- *)

(** What declarations look at in a part. *)
Definition sk (a : part) := (pname a, pstock a, pvoices a, ptmpl a, porigin a, pmaster a).

Record frame (a b : score) : Prop := Frame {
  fr_cur : current b = current a; fr_parts : parts b = parts a; fr_alias : aliases b = aliases a;
  fr_vheap : vheap b = vheap a; fr_glob : globals b = globals a; fr_mark : markers b = markers a;
  fr_vars : variables b = variables a; fr_len : List.length (heap b) = List.length (heap a);
  fr_sk : forall q, sk (getp b q) = sk (getp a q);
  fr_part : forall q, ~ In q (current a) -> ~ In q (map (org a) (current a)) -> getp b q = getp a q;
  fr_incl : incl (events a) (events b);
  fr_notes : forall o, ~ In o (map (org a) (current a)) -> notes_of b o = notes_of a o }.

Lemma frame_refl : forall a, frame a a.
Proof. intros a. split; intros; try reflexivity. apply incl_refl. Qed.
Lemma sk_org : forall a b q, sk (getp b q) = sk (getp a q) -> org b q = org a q.
Proof. intros a b q H. unfold sk in H. unfold org. congruence. Qed.
Lemma frame_trans : forall a b c, frame a b -> frame b c -> frame a c.
Proof.
  intros a b c A B.
  assert (O : map (org b) (current b) = map (org a) (current a)).
  { rewrite (fr_cur _ _ A). apply map_ext. intros q. apply sk_org, A. }
  destruct A as [A1 A2 A3 A4 A5 A6 A7 A8 A9 A10 A11 A12], B as [B1 B2 B3 B4 B5 B6 B7 B8 B9 B10 B11 B12].
  split; [congruence|congruence|congruence|congruence|congruence|congruence|congruence|congruence| | | |].
  - intros q. rewrite B9. apply A9.
  - intros q H1 H2. rewrite B10; [apply A10; assumption|rewrite A1; exact H1|rewrite O; exact H2].
  - eapply incl_tran; eassumption.
  - intros o H. rewrite B12; [apply A12, H|rewrite O; exact H].
Qed.

(** Nothing shared is changed. *)
Definition private (l : label) : Prop :=
  match l with LVoice _ | LEnd | LPart _ _ | LMark _ | LGlobal | LDef _ => False | _ => True end.

Lemma frame_setp : forall a p v, In p (current a) -> sk v = sk (getp a p) -> frame a (setp p v a).
Proof.
  intros a p v Hp Hv. split; try reflexivity.
  - apply heap_setp.
  - intros q. destruct (Nat.lt_ge_cases p (List.length (heap a))) as [L|L].
    + rewrite getp_setp by exact L. destruct (Nat.eqb q p) eqn:E; [apply Nat.eqb_eq in E; subst q; exact Hv|reflexivity].
    + unfold setp, getp. cbn. rewrite upd_nth_out by exact L. reflexivity.
  - intros q H _. apply getp_setp_other. intros ->. contradiction.
  - apply incl_refl.
Qed.
Lemma frame_step : forall (L : label -> Prop), (forall l, L l -> private l) -> forall a b, lstep L a b -> frame a b.
Proof.
  intros L HL a b H. destruct H as [p v Hp Hs _|p c Hp _ _|pi sl dms p s' Hp He|off u _ G|name off G|name es vs _ _ G|m|p n v s1 _ _ G|l Hl G|names alias s' _ G];
    try (destruct (HL _ G); fail).
  - apply frame_setp; [exact Hp|]. destruct Hs as (A1 & A2 & A3 & _ & _ & A6 & A7 & A8). unfold sk. congruence.
  - apply frame_setp; [exact Hp|reflexivity].
  - apply emit_shape in He. cbv zeta in He. destruct He as [[-> _]|(c & us & _ & _ & _ & _ & _ & ->)]; [apply frame_refl|].
    set (o := porigin (getp a p)). set (a1 := modp p (set_pchan c) (set_usage us a)).
    assert (F : forall (x : score) q r, sk (getp (modp q (set_pchan c) x) r) = sk (getp x r)).
    { intros x q r. unfold modp. destruct (Nat.lt_ge_cases q (List.length (heap x))) as [Hq|Hq].
      - rewrite getp_setp by exact Hq. destruct (Nat.eqb r q) eqn:E; [apply Nat.eqb_eq in E; subst r|]; reflexivity.
      - unfold setp, getp. cbn. rewrite upd_nth_out by exact Hq. reflexivity. }
    split; try reflexivity.
    + change (List.length (heap (modp o (set_pchan c) a1)) = List.length (heap a)). rewrite heap_modp. exact (heap_modp p (set_pchan c) (set_usage us a)).
    + intros q. change (sk (getp (modp o (set_pchan c) a1) q) = sk (getp a q)). rewrite F. unfold a1. rewrite F. reflexivity.
    + intros q H1 H2. change (getp (modp o (set_pchan c) a1) q = getp a q). rewrite getp_modp_other.
      * unfold a1. rewrite getp_modp_other; [reflexivity|]. intros ->. contradiction.
      * intros <-. apply H2. apply in_map_iff. exists p. split; [reflexivity|exact Hp].
    + cbn. apply incl_appl, incl_refl.
    + intros x Hx. unfold notes_of.
      match goal with |- context[set_events ?l ?y] => change (events (set_events l y)) with l end. rewrite filter_app. cbn [filter ev_part].
      destruct (Nat.eqb o x) eqn:E; [|rewrite app_nil_r; reflexivity].
      apply Nat.eqb_eq in E. exfalso. apply Hx. apply in_map_iff. exists p. split; [exact E|exact Hp].
  - split; intros; try reflexivity. apply incl_refl.
  - exfalso. destruct Hl as [->|(names & alias & ->)]; exact (HL _ G).
Qed.
Lemma frame_exec : forall (L : label -> Prop), (forall l, L l -> private l) -> forall us s s' o,
  Forall (upd_all L) us -> store_all L s -> exec us s = (s', o) -> frame s s'.
Proof.
  intros L HL us s s' o Hus Hs H. pose proof (run_all_lstar L 1 us s s' o Hus H Hs) as St.
  clear -St HL. induction St as [|t u _ IH St]; [apply frame_refl|]. eapply frame_trans; [exact IH|exact (frame_step L HL _ _ St)].
Qed.

(* ---------------- declarations in two similar scores ---------------- *)

Section Two.
Variable p : pid.

(** The same part but for the channel, which may be one that the part on its own has chosen. *)
Definition twin (a b : part) : Prop :=
  nc a = nc b /\ (pchan a = pchan b \/ (pexplicit b = false /\ chan_ok (pchan b) = true)).
Record like (g s : score) : Prop := Like {
  l_len : List.length (heap g) = List.length (heap s);
  l_sk : forall q, sk (getp g q) = sk (getp s q);
  l_vheap : vheap g = vheap s; l_parts : parts g = parts s; l_alias : aliases g = aliases s;
  l_twin : twin (getp g p) (getp s p);
  l_glob : globals g = globals s; l_mark : markers g = markers s; l_vars : variables g = variables s;
  l_chord : chordmode g = chordmode s }.

Definition like_res {A} (a b : res (A * score)) : Prop :=
  match a, b with
  | ROk (x, s), ROk (y, t) => x = y /\ like s t
  | RErr m, RErr m' => m = m'
  | RPanic m, RPanic m' => m = m'
  | _, _ => False
  end.
Lemma sk_stock : forall g s q, like g s -> pstock (getp g q) = pstock (getp s q).
Proof. intros g s q H. pose proof (l_sk _ _ H q) as E. unfold sk in E. congruence. Qed.
Lemma sk_name : forall g s q, like g s -> pname (getp g q) = pname (getp s q).
Proof. intros g s q H. pose proof (l_sk _ _ H q) as E. unfold sk in E. congruence. Qed.
Lemma twin_refl : forall a, twin a a.
Proof. intros a. split; [reflexivity|left; reflexivity]. Qed.

Lemma new_part_like : forall name s t, like s t -> like_res (new_part name s) (new_part name t).
Proof.
  intros name s t [A B C D E F X1 X2 X3 X4]. unfold new_part. destruct (stock_instrument name) as [i|]; [|reflexivity]. rewrite C, A.
  split; [reflexivity|]. set (new := fresh_part name i (List.length (heap t)) (List.length (vheap t))).
  assert (G : forall (x : score) q, getp (set_heap (heap x ++ [new]) (set_vheap (vheap t ++ [[]]) x)) q =
                        if Nat.ltb q (List.length (heap x)) then getp x q else nth (q - List.length (heap x)) [new] (getp x q)).
  { intros x q. unfold getp. cbn [heap set_heap set_vheap]. destruct (Nat.ltb q (List.length (heap x))) eqn:Q.
    - apply Nat.ltb_lt in Q. apply app_nth1, Q.
    - apply Nat.ltb_ge in Q. rewrite app_nth2 by exact Q. rewrite (nth_overflow (heap x)) by exact Q. reflexivity. }
  split; try assumption.
  - cbn. rewrite !app_length, A. reflexivity.
  - intros q. rewrite !G, A. destruct (Nat.ltb q _); [apply B|].
    destruct (q - List.length (heap t))%nat as [|[|k]]; cbn [nth]; [reflexivity|apply B|apply B].
  - reflexivity.
  - rewrite !G, A. destruct (Nat.ltb p _); [exact F|].
    destruct (p - List.length (heap t))%nat as [|[|k]]; cbn [nth]; [apply twin_refl|exact F|exact F].
Qed.
Lemma named_like : forall s t a, like s t -> named_parts s a = named_parts t a.
Proof. intros s t a H. unfold named_parts. rewrite (l_alias _ _ H). reflexivity. Qed.
Lemma unnamed_like : forall s t a, like s t -> unnamed_parts s a = unnamed_parts t a.
Proof.
  intros s t a H. unfold unnamed_parts, is_named. rewrite (l_parts _ _ H), (l_alias _ _ H). apply filter_ext. intros q.
  rewrite (sk_stock _ _ q H). reflexivity.
Qed.
Lemma aliased_like : forall s t a, like s t -> aliased_stock s a = aliased_stock t a.
Proof.
  intros s t a H. unfold aliased_stock. rewrite (l_alias _ _ H). apply flat_map_ext. intros [b [|q [|r l]]]; try reflexivity.
  rewrite (sk_stock _ _ q H). reflexivity.
Qed.
Lemma like_rmap : forall A B (f : A * score -> B * score) a b, like_res a b ->
  (forall x s t, like s t -> fst (f (x, s)) = fst (f (x, t)) /\ like (snd (f (x, s))) (snd (f (x, t)))) -> like_res (rmap f a) (rmap f b).
Proof.
  intros A B f [[x s]|m|m] [[y t]|m'|m'] H F; try contradiction; try exact H. destruct H as [<- H]. specialize (F x s t H).
  unfold like_res, rmap. cbn. destruct (f (x, s)), (f (x, t)). exact F.
Qed.
Lemma like_rbind : forall A B (f : A * score -> res (B * score)) a b, like_res a b ->
  (forall x s t, like s t -> like_res (f (x, s)) (f (x, t))) -> like_res (rbind a f) (rbind b f).
Proof. intros A B f [[x s]|m|m] [[y t]|m'|m'] H F; try contradiction; try exact H. cbn [rbind]. destruct H as [<- H]. apply F, H. Qed.
Lemma new_parts_like : forall names s t, like s t -> like_res (new_parts names s) (new_parts names t).
Proof.
  induction names as [|n names IH]; intros s t H; cbn [new_parts]; [split; [reflexivity|exact H]|].
  apply like_rbind; [apply new_part_like, H|]. intros q s1 t1 H1. apply like_rmap; [apply IH, H1|]. intros ps s2 t2 H2. split; [reflexivity|exact H2].
Qed.
Lemma group_parts_like : forall names s t, like s t -> like_res (group_parts names s) (group_parts names t).
Proof.
  induction names as [|n names IH]; intros s t H; cbn [group_parts]; [split; [reflexivity|exact H]|].
  rewrite (named_like _ _ _ H), (unnamed_like _ _ _ H). destruct (nonempty _); [|destruct (nonempty _)].
  - apply like_rmap; [apply IH, H|]. intros [np sp] s2 t2 H2. split; [reflexivity|exact H2].
  - apply like_rmap; [apply IH, H|]. intros [np sp] s2 t2 H2. split; [reflexivity|exact H2].
  - apply like_rbind; [apply new_part_like, H|]. intros q s1 t1 H1. apply like_rmap; [apply IH, H1|]. intros [np sp] s2 t2 H2. split; [reflexivity|exact H2].
Qed.
Lemma determine_like : forall names alias s t, like s t -> like_res (determine_parts names alias s) (determine_parts names alias t).
Proof.
  intros names alias s t H. unfold determine_parts.
  assert (G : like_res
    (if has_dup names then RErr "name included multiple times in group"
      else rbind (group_parts names s) (fun '(np, sp, s1) => if nonempty np && nonempty sp then RErr "invalid group"
        else if negb (is_empty_string alias) && nonempty sp then new_parts names s1 else ROk (dedup (np ++ sp) [], s1)))
    (if has_dup names then RErr "name included multiple times in group"
      else rbind (group_parts names t) (fun '(np, sp, s1) => if nonempty np && nonempty sp then RErr "invalid group"
        else if negb (is_empty_string alias) && nonempty sp then new_parts names s1 else ROk (dedup (np ++ sp) [], s1)))).
  { destruct (has_dup names); [reflexivity|]. apply like_rbind; [apply group_parts_like, H|]. intros [np sp] s1 t1 H1.
    destruct (_ && _)%bool; [reflexivity|]. destruct (_ && _)%bool; [apply new_parts_like, H1|]. split; [reflexivity|exact H1]. }
  destruct names as [|name [|n2 names]]; [exact G| |exact G]. clear G.
  rewrite (named_like _ _ _ H), (unnamed_like _ _ _ H), (named_like _ _ alias H), (aliased_like _ _ _ H).
  assert (K : like_res (rmap (fun '(p, s1) => ([p], s1)) (new_part name s)) (rmap (fun '(p, s1) => ([p], s1)) (new_part name t))).
  { apply like_rmap; [apply new_part_like, H|]. intros q s2 t2 H2. split; [reflexivity|exact H2]. }
  repeat match goal with |- context[if ?c then _ else _] => destruct c end; try reflexivity; try exact K; split; try reflexivity; exact H.
Qed.
Lemma set_current_like : forall s t l l', like s t -> like (set_current l s) (set_current l' t).
Proof. intros s t l l' [A B C D E F X1 X2 X3 X4]. split; assumption. Qed.
Lemma set_parts_like : forall s t l, like s t -> like (set_parts l s) (set_parts l t).
Proof. intros s t l [A B C D E F X1 X2 X3 X4]. split; try assumption. reflexivity. Qed.
Lemma set_aliases_like : forall s t l, like s t -> like (set_aliases l s) (set_aliases l t).
Proof. intros s t l [A B C D E F X1 X2 X3 X4]. split; try assumption. reflexivity. Qed.
Lemma add_new_like : forall ps s t, like s t -> like (add_new_parts ps s) (add_new_parts ps t).
Proof.
  unfold add_new_parts. induction ps as [|q ps IH]; intros s t H; [exact H|]. cbn [fold_left]. apply IH. rewrite (l_parts _ _ H).
  destruct (existsb _ _); [exact H|]. apply set_parts_like, H.
Qed.
Lemma set_alias_like : forall a ps s t, like s t -> like (set_alias a ps s) (set_alias a ps t).
Proof. intros a ps s t H. unfold set_alias. rewrite (l_alias _ _ H). apply set_aliases_like, H. Qed.
Lemma define_like : forall a ps s t, like s t -> like (define_aliases a ps s) (define_aliases a ps t).
Proof.
  intros a ps s t H. unfold define_aliases. replace (map (fun p => (p, aliases_for s p)) ps) with (map (fun p => (p, aliases_for t p)) ps).
  2:{ apply map_ext. intros q. unfold aliases_for. rewrite (l_alias _ _ H). reflexivity. }
  assert (H1 : like (set_alias a ps s) (set_alias a ps t)) by apply set_alias_like, H. revert H1.
  generalize (set_alias a ps s) as s1, (set_alias a ps t) as t1. induction (map (fun p => (p, aliases_for t p)) ps) as [|[q old] l IH]; intros s1 t1 H1; [exact H1|].
  cbn [fold_left]. apply IH. rewrite (sk_name _ _ q H1).
  assert (H2 : like (set_alias (a ++ "." ++ pname (getp t1 q))%string [q] s1) (set_alias (a ++ "." ++ pname (getp t1 q))%string [q] t1)) by apply set_alias_like, H1.
  revert H2. generalize (set_alias (a ++ "." ++ pname (getp t1 q))%string [q] s1) as s2, (set_alias (a ++ "." ++ pname (getp t1 q))%string [q] t1) as t2.
  clear. induction old as [|x old IH]; intros s2 t2 H2; [exact H2|]. cbn [fold_left]. apply IH, set_alias_like, H2.
Qed.
Lemma master_like : forall q s t, like s t -> like (modp q (set_pmaster true) s) (modp q (set_pmaster true) t).
Proof.
  intros q s t [A B C D E F X1 X2 X3 X4].
  assert (G : forall (x : score) r, getp (modp q (set_pmaster true) x) r =
     if (Nat.eqb r q && Nat.ltb q (List.length (heap x)))%bool then set_pmaster true (getp x r) else getp x r).
  { intros x r. unfold modp. destruct (Nat.ltb q (List.length (heap x))) eqn:Q.
    - apply Nat.ltb_lt in Q. rewrite getp_setp by exact Q. destruct (Nat.eqb r q) eqn:R; [apply Nat.eqb_eq in R; subst r|]; reflexivity.
    - apply Nat.ltb_ge in Q. rewrite andb_false_r. unfold setp, getp. cbn. rewrite upd_nth_out by exact Q. reflexivity. }
  split; try assumption.
  - rewrite !heap_modp. exact A.
  - intros r. rewrite !G, A. destruct (_ && _)%bool; [|apply B]. specialize (B r). unfold sk in *. cbn. congruence.
  - rewrite !G, A. destruct (_ && _)%bool; [|exact F]. destruct F as [F1 F2]. split; [|exact F2].
    apply (f_equal (set_pmaster true)) in F1. exact F1.
Qed.

(** No voices are open. *)
Definition shut (s : score) : Prop := forall q, In q (current s) -> getv s (pvoices (getp s q)) = [].
Lemma shut_vend : forall s, shut s -> run_voice_end s = s.
Proof.
  intros s H. unfold run_voice_end. generalize (List.length (current s)) 0%nat.
  induction n as [|k IH]; intros i; cbn [voice_end_loop]; [reflexivity|].
  destruct (nth_error (current s) i) as [q|] eqn:E; [|reflexivity].
  unfold voice_end_one. rewrite H by (eapply nth_error_In; exact E). apply IH.
Qed.
Lemma run_part_like : forall names alias s t s', like s t -> shut s -> shut t -> run_part names alias s = (s', Ok) ->
  exists t', run_part names alias t = (t', Ok) /\ like s' t' /\ current t' = current s'.
Proof.
  intros names alias s t s' H Hs Ht E. unfold run_part in *. rewrite (shut_vend _ Hs) in E. rewrite (shut_vend _ Ht).
  pose proof (determine_like names alias _ _ H) as G. cbv zeta in *.
  destruct (determine_parts names alias s) as [[ps s1]|m|m]; try discriminate.
  destruct (determine_parts names alias t) as [[ps' t1]|m'|m']; try contradiction. destruct G as [<- G].
  assert (K : forall s2 t2, like s2 t2 ->
     (set_current ps (if is_empty_string alias then add_new_parts ps s2 else define_aliases alias ps (add_new_parts ps s2)), Ok) = (s', Ok) ->
     exists t', (set_current ps (if is_empty_string alias then add_new_parts ps t2 else define_aliases alias ps (add_new_parts ps t2)), Ok) = (t', Ok) /\
       like s' t' /\ current t' = current s').
  { intros s2 t2 H2 E2. eexists. split; [reflexivity|]. apply (f_equal fst) in E2. cbn [fst] in E2. rewrite <- E2. split; [|reflexivity].
    apply set_current_like. destruct (is_empty_string alias); [apply add_new_like, H2|apply define_like, add_new_like, H2]. }
  rewrite <- (l_parts _ _ G). destruct (parts s1) as [|p0 pl]; [|exact (K _ _ G E)]. destruct ps as [|q ps]; [discriminate|].
  exact (K _ _ (master_like q _ _ G) E).
Qed.

(* ---------------- the two runs ---------------- *)

Definition own : label -> Prop := own_label.
Lemma own_private : forall l, own l -> private l.
Proof. intros [] H; try exact I; destruct H. Qed.
Lemma own_group : forall l, own l -> group_label l.
Proof. intros [] H; try exact I; destruct H. Qed.
Lemma own_fit : forall s, fit own True s.
Proof. intros s _. right. split; [intros rs []|]. right. split; [intros []|intros n []]. Qed.
Lemma own_store : forall s, stored own s -> store_all own s.
Proof. intros s H. split; [exact H|]. intros off us _. apply Forall_forall. intros u _. destruct u; exact I. Qed.

(** A score between sections. *)
Record calmed (g : score) : Prop := Calmed {
  c_inv : inv g; c_vinv : vinv g; c_closed : forall q, In q (parts g) -> closed g q;
  c_cur : incl (current g) (parts g); c_stored : stored own g; c_chord : chordmode g = false }.
(** [p] is one of the parts, or yet to come. *)
Definition comes (g : score) : Prop := In p (parts g) \/ (List.length (heap g) <= p)%nat.

Lemma part_shape : forall names alias g g1, calmed g -> run_part names alias g = (g1, Ok) ->
  calmed g1 /\ idext g g1 /\ incl (parts g) (parts g1) /\
  (forall q, In q (parts g1) -> In q (parts g) \/ (List.length (heap g) <= q)%nat) /\ events g1 = events g.
Proof.
  intros names alias g g1 [I V Cl Cu St Ch] H.
  destruct (run_part_inv _ _ _ _ I H) as [I1 X]. destruct (run_part_vinv _ _ _ _ I V H) as (V1 & _ & Cl1 & Cu1).
  pose proof (calm_part names alias g g1 H Ch) as Ch1. pose proof (run_part_events _ _ _ _ _ H) as Ev.
  assert (Sh : run_voice_end g = g) by (apply shut_vend; intros q Hq; apply (Cl q (Cu q Hq))).
  destruct (run_part_shape _ _ _ _ I V H) as (ps & s1 & new & al & E & Hs' & _ & Hnew & _). rewrite Sh in *.
  destruct (determine_parts_grows _ _ _ _ _ I V E) as (Gr & _ & Hon).
  destruct (grows_tables _ _ Gr) as (_ & _ & _ & _ & _ & Tv & _).
  assert (Vs : variables g1 = variables g).
  { rewrite Hs', <- Tv. destruct (parts g); [destruct ps|]; reflexivity. }
  assert (Ps : parts g1 = parts g ++ new) by (rewrite Hs'; reflexivity).
  split; [split; try assumption; intros n es Hin; rewrite Vs in Hin; exact (St n es Hin)|].
  split; [exact X|]. split; [rewrite Ps; apply incl_appl, incl_refl|]. split; [|exact Ev].
  intros q Hq. rewrite Ps in Hq. apply in_app_or in Hq. destruct Hq as [Hq|Hq]; [left; exact Hq|].
  apply Hnew in Hq. destruct Hq as [Hq1 Hq2]. destruct (Hon q Hq1) as [K|K]; [contradiction|right; lia].
Qed.
Lemma body_shape : forall us g g1, calmed g -> Forall (upd_all own) us -> exec us g = (g1, Ok) -> calmed g1 /\ frame g g1.
Proof.
  intros us g g1 [I V Cl Cu St Ch] Hus H.
  pose proof (frame_exec own own_private us g g1 Ok Hus (own_store _ St) H) as F.
  pose proof (run_all_star _ _ _ _ _ H) as Str. destruct (star_inv_idext _ _ Str I) as [I1 _].
  split; [|exact F]. split; [exact I1|apply (star_vinv _ _ Str I V)| | | |exact (calm_exec us _ _ H Ch)].
  - intros q Hq. rewrite (fr_parts _ _ F) in Hq. destruct (Cl q Hq) as [A B]. pose proof (fr_sk _ _ F q) as E. unfold sk in E.
    split; [|congruence]. unfold cellof, getv in *. rewrite (fr_vheap _ _ F). replace (pvoices (getp g1 q)) with (pvoices (getp g q)) by congruence. exact A.
  - rewrite (fr_cur _ _ F), (fr_parts _ _ F). exact Cu.
  - intros n es Hin. rewrite (fr_vars _ _ F) in Hin. exact (St n es Hin).
Qed.

Lemma exec_cons : forall u us (s : score), exec (u :: us) s = seqo (exec [u] s) (exec us).
Proof. intros u us s. unfold exec, run_all. cbn [each]. destruct (run 1 u s) as [s1 []]; reflexivity. Qed.
Lemma exec_app2 : forall a c (s : score), exec (a ++ c) s = seqo (exec a s) (exec c).
Proof.
  induction a as [|u a IH]; intros c s; [reflexivity|]. rewrite <- app_comm_cons, (exec_cons u (a ++ c)), (exec_cons u a).
  destruct (exec [u] s) as [s1 []]; cbn [seqo]; [apply IH|reflexivity|reflexivity|reflexivity|reflexivity].
Qed.
Lemma exec_decl : forall names alias (s : score), exec [UPart names alias] s = run_part names alias s.
Proof.
  intros names alias s. unfold exec, run_all. cbn [each]. change (run 1 (UPart names alias) s) with (run_part names alias s).
  destruct (run_part names alias s) as [s1 []]; reflexivity.
Qed.
Lemma written_cons : forall x xs s, exec (written (x :: xs)) s =
  seqo (run_part (sec_names x) (sec_alias x) s) (fun s => seqo (exec (sec_body x) s) (exec (written xs))).
Proof.
  intros x xs s. unfold written. cbn [flat_map]. rewrite <- app_comm_cons, exec_cons, exec_decl.
  destruct (run_part _ _ s) as [s1 []]; cbn [seqo]; try reflexivity. apply exec_app2.
Qed.

Lemma comes_back : forall xs g g', calmed g -> Forall (fun x => Forall (upd_all own) (sec_body x)) xs ->
  exec (written xs) g = (g', Ok) -> comes g' -> comes g.
Proof.
  induction xs as [|x xs IH]; intros g g' C Hxs H K.
  - injection H; intros; subst. exact K.
  - rewrite written_cons in H. inversion_clear Hxs as [|? ? Hx Hxs'].
    destruct (run_part _ _ g) as [g1 []] eqn:E1; try discriminate. cbn [seqo] in H.
    destruct (exec (sec_body x) g1) as [g2 []] eqn:E2; try discriminate. cbn [seqo] in H.
    destruct (part_shape _ _ _ _ C E1) as (C1 & X & _ & P & _). destruct (body_shape _ _ _ C1 Hx E2) as [C2 F].
    specialize (IH _ _ C2 Hxs' H K). unfold comes in *. rewrite (fr_parts _ _ F), (fr_len _ _ F) in IH.
    destruct IH as [Hp|Hp]; [apply P, Hp|]. right. destruct X as [X _]. lia.
Qed.

Record both (g s : score) : Prop := Both {
  b_calm : calmed g; b_comes : comes g; b_like : like g s; b_cur : incl (current s) (parts s);
  b_notes : In p (parts g) -> notes_of g (org g p) = notes_of s (org g p);
  b_events : forall e, In e (events s) -> (In p (parts g) /\ ev_part e = org g p) \/ In e (events g) }.

Lemma like_org : forall g s q, like g s -> org g q = org s q.
Proof. intros g s q H. pose proof (l_sk _ _ H q) as E. unfold sk in E. unfold org. congruence. Qed.
Lemma both_shut : forall g s, both g s -> shut g /\ shut s.
Proof.
  intros g s [C _ L Cu _ _]. split.
  - intros q Hq. apply (c_closed _ C q), (c_cur _ C q Hq).
  - intros q Hq. apply Cu in Hq. rewrite <- (l_parts _ _ L) in Hq. destruct (c_closed _ C q Hq) as [A _].
    pose proof (l_sk _ _ L q) as E. unfold sk in E. unfold cellof, getv in *. rewrite <- (l_vheap _ _ L).
    replace (pvoices (getp s q)) with (pvoices (getp g q)) by congruence. exact A.
Qed.
Lemma none_notes : forall (s : score) o, (forall e, In e (events s) -> ev_part e <> o) -> notes_of s o = [].
Proof.
  intros s o H. unfold notes_of. replace (filter _ (events s)) with (@nil note_event); [reflexivity|].
  induction (events s) as [|e l IH]; [reflexivity|]. cbn [filter].
  destruct (Nat.eqb (ev_part e) o) eqn:E; [apply Nat.eqb_eq in E; exfalso; exact (H e (or_introl eq_refl) E)|].
  apply IH. intros x Hx. apply H. right. exact Hx.
Qed.
Lemma notes_events : forall (a b : score) o, events a = events b -> notes_of a o = notes_of b o.
Proof. intros a b o H. unfold notes_of. rewrite H. reflexivity. Qed.

Lemma both_decl : forall names alias g s g1, both g s -> run_part names alias g = (g1, Ok) -> comes g1 ->
  exists s1, run_part names alias s = (s1, Ok) /\ both g1 s1 /\ current s1 = current g1.
Proof.
  intros names alias g s g1 B H K. destruct (both_shut _ _ B) as [Sg Ss]. destruct B as [C Co Lk Cu Nt Ev].
  destruct (run_part_like _ _ _ _ _ Lk Sg Ss H) as (s1 & E & Lk1 & Ec).
  destruct (part_shape _ _ _ _ C H) as (C1 & X & Pi & P & Eg). pose proof (run_part_events _ _ _ _ _ E) as Es.
  exists s1. split; [exact E|]. split; [|exact Ec].
  assert (Old : In p (parts g) -> org g1 p = org g p).
  { intros Hp. apply X. exact (in_parts _ _ (c_inv _ C) Hp). }
  assert (New : ~ In p (parts g) -> In p (parts g1) -> forall e, In e (events g) -> ev_part e <> org g1 p).
  { intros Hn Hp e He Ee. pose proof (vi_events _ (c_vinv _ C) e He) as Q. apply in_map_iff in Q. destruct Q as [q [Q1 Q2]].
    assert (Eq : org g1 q = org g q) by (apply X; exact (in_parts _ _ (c_inv _ C) Q2)).
    destruct (Nat.eq_dec q p) as [->|Hne]; [contradiction|].
    apply (other_org g1 p q (c_vinv _ C1) Hp (Pi _ Q2) Hne). congruence. }
  split; [exact C1|exact K|exact Lk1| | |].
  - rewrite Ec, <- (l_parts _ _ Lk1). apply C1.
  - intros Hp. destruct (in_dec Nat.eq_dec p (parts g)) as [Ho|Hn].
    + rewrite (notes_events g1 g _ Eg), (notes_events s1 s _ Es), (Old Ho). apply Nt, Ho.
    + rewrite !none_notes; [reflexivity| |].
      * intros e He. rewrite Es in He. destruct (Ev e He) as [[Q _]|Q]; [contradiction|]. apply New; assumption.
      * intros e He. rewrite Eg in He. apply New; assumption.
  - intros e He. rewrite Es in He. rewrite Eg. destruct (Ev e He) as [[Q1 Q2]|Q]; [|right; exact Q].
    left. split; [apply Pi, Q1|]. rewrite (Old Q1). exact Q2.
Qed.

Lemma both_other : forall us g s g1, both g s -> Forall (upd_all own) us -> ~ In p (current g) -> exec us g = (g1, Ok) -> both g1 s.
Proof.
  intros us g s g1 [C Co Lk Cu Nt Ev] Hus Hp H. destruct (body_shape _ _ _ C Hus H) as [C1 F].
  assert (Pn : In p (parts g) -> ~ In p (map (org g) (current g)) /\ ~ In (org g p) (map (org g) (current g))).
  { intros Hin.
    assert (A : ~ In (org g p) (map (org g) (current g))).
    { intros Q. apply in_map_iff in Q. destruct Q as [q [Q1 Q2]].
      apply (other_org g p q (c_vinv _ C) Hin (c_cur _ C q Q2)); [intros ->; contradiction|exact Q1]. }
    split; [|exact A]. intros Q. apply A. apply in_map_iff in Q. destruct Q as [q [Q1 Q2]].
    apply in_map_iff. exists q. split; [|exact Q2].
    pose proof (inv_heap _ (c_inv _ C) q) as G. cbv zeta in G.
    destruct G as (_ & G & _); [exact (in_parts _ _ (c_inv _ C) (c_cur _ C q Q2))|].
    change (org g (org g q) = org g q) in G. rewrite Q1 in G. rewrite G. exact Q1. }
  assert (Ep : getp g1 p = getp g p).
  { destruct Co as [Hin|Hl]; [apply (fr_part _ _ F); [exact Hp|apply Pn, Hin]|].
    unfold getp. rewrite !nth_overflow; [reflexivity|exact Hl|rewrite (fr_len _ _ F); exact Hl]. }
  assert (Eo : org g1 p = org g p) by (unfold org; rewrite Ep; reflexivity).
  split.
  - exact C1.
  - unfold comes. rewrite (fr_parts _ _ F), (fr_len _ _ F). exact Co.
  - destruct Lk as [A1 A2 A3 A4 A5 A6 A7 A8 A9 A10].
    split; [rewrite (fr_len _ _ F); exact A1|intros q; rewrite (fr_sk _ _ F); apply A2|rewrite (fr_vheap _ _ F); exact A3|
      rewrite (fr_parts _ _ F); exact A4|rewrite (fr_alias _ _ F); exact A5|rewrite Ep; exact A6|rewrite (fr_glob _ _ F); exact A7|
      rewrite (fr_mark _ _ F); exact A8|rewrite (fr_vars _ _ F); exact A9|].
    rewrite (c_chord _ C1), <- A10. symmetry. apply C.
  - exact Cu.
  - rewrite (fr_parts _ _ F), Eo. intros Hin. rewrite (fr_notes _ _ F) by (apply Pn, Hin). apply Nt, Hin.
  - intros e He. rewrite (fr_parts _ _ F), Eo. destruct (Ev e He) as [Q|Q]; [left; exact Q|right; apply (fr_incl _ _ F), Q].
Qed.

Lemma both_own : forall us g s g1, both g s -> Forall (upd_all own) us -> In p (current g) -> exec us g = (g1, Ok) ->
  exists s1, exec us (set_current [p] s) = (s1, Ok) /\ both g1 s1.
Proof.
  intros us g s g1 [C Co Lk Cu Nt Ev] Hus Hp H. destruct (body_shape _ _ _ C Hus H) as [C1 F].
  pose proof (c_cur _ C p Hp) as Hin. pose proof (in_parts _ _ (c_inv _ C) Hin) as Hl.
  assert (Sts : stored own (set_current [p] s)).
  { intros n es Q. change (In (n, es) (variables s)) in Q. rewrite <- (l_vars _ _ Lk) in Q. exact (c_stored _ C n es Q). }
  assert (R : Rel p own g (set_current [p] s)).
  { split.
    - apply C.
    - split; [|apply own_store, C|apply own_fit]. split; [apply (inv_cur _ (c_inv _ C))|apply (vi_cur _ (c_vinv _ C))].
    - split; [|apply own_store, Sts|apply own_fit]. split.
      + constructor; [|constructor]. change ((p < List.length (heap s))%nat). rewrite <- (l_len _ _ Lk). exact Hl.
      + cbn. constructor; [intros []|constructor].
    - exact Hp.
    - reflexivity.
    - unfold view. apply f_equal5_solo; [apply (l_twin _ _ Lk)|apply Lk|apply Lk|apply Lk|apply Lk|].
      change (notes_of g (org g p) = notes_of s (org s p)). rewrite <- (like_org _ _ p Lk). apply Nt, Hin.
    - split; [apply (l_twin _ _ Lk)|]. intros e He Ho. change (In e (events s)) in He. change (ev_part e <> org s p) in Ho.
      destruct (Ev e He) as [[_ Q]|Q]; [|exact Q]. rewrite (like_org _ _ p Lk) in Q. contradiction. }
  destruct (exec_pairs p own own_group us Hus g g1 _ R H) as (s1 & E & R1).
  exists s1. split; [exact E|].
  pose proof (frame_exec own own_private us _ s1 Ok Hus (own_store _ Sts) E) as Fs.
  pose proof (r_view _ _ _ _ R1) as V. pose proof (r_ch _ _ _ _ R1) as [Ch1 Ch2].
  assert (Sk : forall q, sk (getp g1 q) = sk (getp s1 q)).
  { intros q. rewrite (fr_sk _ _ F), (fr_sk _ _ Fs). apply (l_sk _ _ Lk). }
  assert (Eo : org g1 p = org s1 p) by (apply sk_org, Sk).
  split.
  - exact C1.
  - left. rewrite (fr_parts _ _ F). exact Hin.
  - split.
    + rewrite (fr_len _ _ F), (fr_len _ _ Fs). apply Lk.
    + exact Sk.
    + rewrite (fr_vheap _ _ F), (fr_vheap _ _ Fs). apply Lk.
    + rewrite (fr_parts _ _ F), (fr_parts _ _ Fs). apply Lk.
    + rewrite (fr_alias _ _ F), (fr_alias _ _ Fs). apply Lk.
    + split; [exact (f_equal so_part V)|exact Ch1].
    + exact (f_equal so_glob V).
    + exact (f_equal so_mark V).
    + exact (f_equal so_vars V).
    + exact (f_equal so_chord V).
  - rewrite (fr_cur _ _ Fs), (fr_parts _ _ Fs). intros q [<-|[]]. change (In p (parts s)). rewrite <- (l_parts _ _ Lk). exact Hin.
  - intros _. pose proof (f_equal so_notes V) as Q. cbn [so_notes view] in Q.
    change (notes_of g1 (org g1 p) = notes_of s1 (org s1 p)) in Q. rewrite <- Eo in Q. exact Q.
  - intros e He. destruct (Nat.eq_dec (ev_part e) (org g1 p)) as [Q|Q].
    + left. split; [rewrite (fr_parts _ _ F); exact Hin|exact Q].
    + right. apply Ch2; [exact He|]. change (ev_part e <> org s1 p). rewrite <- Eo. exact Q.
Qed.

Lemma existsb_in : forall l, existsb (Nat.eqb p) l = true <-> In p l.
Proof.
  intros l. rewrite existsb_exists. split; [intros [x [A B]]; apply Nat.eqb_eq in B; subst; exact A|].
  intros H. exists p. split; [exact H|apply Nat.eqb_refl].
Qed.
Definition body_alone (us : list update) (s : score) : score * outcome :=
  if existsb (Nat.eqb p) (current s) then exec us (set_current [p] s) else (s, Ok).
Lemma both_body : forall us g s g1, both g s -> current s = current g -> Forall (upd_all own) us -> exec us g = (g1, Ok) ->
  exists s1, body_alone us s = (s1, Ok) /\ both g1 s1.
Proof.
  intros us g s g1 B Ec Hus H. unfold body_alone. rewrite Ec. destruct (existsb (Nat.eqb p) (current g)) eqn:Q.
  - apply existsb_in in Q. eapply both_own; eassumption.
  - exists s. split; [reflexivity|]. eapply both_other; [exact B|exact Hus| |exact H]. intros K. apply existsb_in in K. congruence.
Qed.
Lemma alone_cons : forall x xs s, alone p (x :: xs) s =
  seqo (run_part (sec_names x) (sec_alias x) s) (fun s => seqo (body_alone (sec_body x) s) (alone p xs)).
Proof. intros x xs s. cbn [alone]. rewrite exec_decl. reflexivity. Qed.

Lemma both_all : forall xs g s g', both g s -> Forall (fun x => Forall (upd_all own) (sec_body x)) xs ->
  exec (written xs) g = (g', Ok) -> comes g' -> exists s', alone p xs s = (s', Ok) /\ both g' s'.
Proof.
  induction xs as [|x xs IH]; intros g s g' B Hxs H K.
  - injection H; intros; subst. exists s. split; [reflexivity|exact B].
  - rewrite written_cons in H. inversion_clear Hxs as [|? ? Hx Hxs'].
    destruct (run_part _ _ g) as [g1 []] eqn:E1; try discriminate. cbn [seqo] in H.
    destruct (exec (sec_body x) g1) as [g2 []] eqn:E2; try discriminate. cbn [seqo] in H.
    destruct (part_shape _ _ _ _ (b_calm _ _ B) E1) as (C1 & _). destruct (body_shape _ _ _ C1 Hx E2) as [C2 F].
    pose proof (comes_back _ _ _ C2 Hxs' H K) as K2.
    assert (K1 : comes g1) by (unfold comes in *; rewrite (fr_parts _ _ F), (fr_len _ _ F) in K2; exact K2).
    destruct (both_decl _ _ _ _ _ B E1 K1) as (s1 & D1 & B1 & Ec).
    destruct (both_body _ _ _ _ B1 Ec Hx E2) as (s2 & D2 & B2).
    destruct (IH _ _ _ B2 Hxs' H K) as (s' & D3 & B3).
    exists s'. split; [|exact B3]. rewrite alone_cons, D1. cbn [seqo]. rewrite D2. exact D3.
Qed.
End Two.

Lemma accepted : forall us0 s0, exec us0 new_score = (s0, Ok) -> inv s0 /\ vinv s0 /\ chordmode s0 = false.
Proof.
  intros us0 s0 H0. pose proof (run_all_star _ _ _ _ _ H0) as Str. destruct (star_inv_idext _ _ Str inv_new) as [I0 _].
  split; [exact I0|]. split; [apply (star_vinv _ _ Str inv_new vinv_new)|]. eapply calm_exec; [exact H0|reflexivity].
Qed.
Lemma declared : forall us0 s0 names alias g1, exec us0 new_score = (s0, Ok) -> stored own_label s0 ->
  run_part names alias s0 = (g1, Ok) -> calmed g1.
Proof.
  intros us0 s0 names alias g1 H0 St E1. destruct (accepted _ _ H0) as (I0 & V0 & Ch).
  destruct (run_part_inv _ _ _ _ I0 E1) as [I1 _]. destruct (run_part_vinv _ _ _ _ I0 V0 E1) as (V1 & _ & Cl & Cu).
  split; try assumption; [|eapply calm_part; eassumption].
  intros n es Hin. destruct (run_part_store _ _ _ _ _ E1) as [Vs _]. rewrite Vs in Hin. exact (St n es Hin).
Qed.
Lemma both_refl : forall p g, calmed g -> comes p g -> both p g g.
Proof.
  intros p g C K. split; [exact C|exact K| |apply C|reflexivity|intros e He; right; exact He].
  split; intros; try reflexivity. apply twin_refl.
Qed.
Lemma c68_both : forall us0 x xs s0 s1 p, exec us0 new_score = (s0, Ok) -> stored own_label s0 ->
  Forall (fun x => Forall (upd_all own_label) (sec_body x)) (x :: xs) ->
  exec (written (x :: xs)) s0 = (s1, Ok) -> comes p s1 ->
  exists s2, alone p (x :: xs) s0 = (s2, Ok) /\ both p s1 s2.
Proof.
  intros us0 x xs s0 s1 p H0 St Hxs H Hp.
  rewrite written_cons in H. inversion_clear Hxs as [|? ? Hx Hxs'].
  destruct (run_part _ _ s0) as [g1 []] eqn:E1; try discriminate. cbn [seqo] in H.
  destruct (exec (sec_body x) g1) as [g2 []] eqn:E2; try discriminate. cbn [seqo] in H.
  pose proof (declared _ _ _ _ _ H0 St E1) as C1. destruct (body_shape _ _ _ C1 Hx E2) as [C2 F].
  pose proof (comes_back p _ _ _ C2 Hxs' H Hp) as K2.
  assert (K1 : comes p g1) by (unfold comes in *; rewrite (fr_parts _ _ F), (fr_len _ _ F) in K2; exact K2).
  destruct (both_body p _ _ _ _ (both_refl p g1 C1 K1) eq_refl Hx E2) as (s2 & D2 & B2).
  destruct (both_all p _ _ _ _ B2 Hxs' H Hp) as (s' & D3 & B3).
  exists s'. split; [rewrite alone_cons, E1; cbn [seqo]; rewrite D2; exact D3|exact B3].
Qed.

Lemma c68 : forall us0 xs s0 s1 p, exec us0 new_score = (s0, Ok) -> stored own_label s0 ->
  Forall (fun x => Forall (upd_all own_label) (sec_body x)) xs ->
  exec (written xs) s0 = (s1, Ok) -> In p (parts s1) ->
  exists s2, alone p xs s0 = (s2, Ok) /\
    notes_of s2 (instance s1 p) = notes_of s1 (instance s1 p) /\
    unchanneled (getp s2 p) = unchanneled (getp s1 p).
Proof.
  intros us0 xs s0 s1 p H0 St Hxs H Hp. destruct xs as [|x xs].
  { exists s0. assert (E : s0 = s1) by (injection H; auto). rewrite E. repeat split; reflexivity. }
  destruct (c68_both _ _ _ _ _ p H0 St Hxs H (or_introl Hp)) as (s' & D & B).
  exists s'. split; [exact D|].
  split; [symmetry; apply (b_notes _ _ _ B), Hp|symmetry; apply (l_twin _ _ _ (b_like _ _ _ B))].
Qed.

Lemma written_app : forall a b, written (a ++ b) = written a ++ written b.
Proof. intros a b. unfold written. apply flat_map_app. Qed.
Lemma alone_app : forall p a b s, alone p (a ++ b) s = seqo (alone p a s) (alone p b).
Proof.
  intros p a b. induction a as [|x a IH]; intros s; [reflexivity|]. rewrite <- app_comm_cons, !alone_cons.
  destruct (run_part _ _ s) as [s1 []]; try reflexivity. cbn [seqo].
  destruct (body_alone p (sec_body x) s1) as [s2 []]; try reflexivity. cbn [seqo]. apply IH.
Qed.

Lemma c68_skip : forall us0 a names alias body b s0 s1 t p, exec us0 new_score = (s0, Ok) -> stored own_label s0 ->
  Forall (fun x => Forall (upd_all own_label) (sec_body x)) (a ++ MkSection names alias body :: b) ->
  exec (written (a ++ MkSection names alias body :: b)) s0 = (s1, Ok) ->
  exec (written a ++ [UPart names alias]) s0 = (t, Ok) -> ~ In p (current t) -> In p (parts s1) ->
  alone p (a ++ MkSection names alias body :: b) s0 = alone p (a ++ MkSection names alias [] :: b) s0.
Proof.
  intros us0 a names alias body b s0 s1 t p H0 St Hxs H Ht Hc Hp.
  rewrite written_app, exec_app2 in H. rewrite exec_app2 in Ht. apply Forall_app in Hxs. destruct Hxs as [Ha Hb].
  inversion_clear Hb as [|? ? Hx Hb']. cbn [sec_body] in Hx.
  destruct (exec (written a) s0) as [ga []] eqn:Ea; try discriminate. cbn [seqo] in H, Ht. rewrite exec_decl in Ht.
  rewrite written_cons in H. cbn [sec_names sec_alias sec_body] in H. rewrite Ht in H. cbn [seqo] in H.
  destruct (exec body t) as [g2 []] eqn:E2; try discriminate. cbn [seqo] in H.
  rewrite !alone_app.
  assert (G : calmed t -> exists t', (exists sa, alone p a s0 = (sa, Ok) /\ run_part names alias sa = (t', Ok)) /\ current t' = current t).
  { intros Ct. destruct (body_shape _ _ _ Ct Hx E2) as [C2 F].
    pose proof (comes_back p _ _ _ C2 Hb' H (or_introl Hp)) as K2.
    assert (K1 : comes p t) by (unfold comes in *; rewrite (fr_parts _ _ F), (fr_len _ _ F) in K2; exact K2).
    destruct a as [|x a].
    - injection Ea; intros; subst. exists t. split; [exists ga; split; [reflexivity|exact Ht]|reflexivity].
    - assert (Ka : comes p ga /\ calmed ga).
      { assert (Ca : calmed ga).
        { assert (Kx : forall q, comes q ga -> calmed ga).
          { intros q Kq. destruct (c68_both _ _ _ _ _ q H0 St Ha Ea Kq) as (? & _ & B). apply B. }
          apply (Kx (List.length (heap ga))). right. lia. }
        split; [|exact Ca]. destruct (part_shape _ _ _ _ Ca Ht) as (_ & X & _ & P & _).
        destruct K1 as [K1|K1]; [apply P, K1|right; destruct X as [X _]; lia]. }
      destruct (c68_both _ _ _ _ _ p H0 St Ha Ea (proj1 Ka)) as (sa & D & B).
      destruct (both_decl p _ _ _ _ _ B Ht K1) as (t' & D' & _ & Ec).
      exists t'. split; [exists sa; split; assumption|exact Ec]. }
  assert (Ct : calmed t).
  { destruct a as [|x a].
    - injection Ea; intros; subst. eapply declared; eassumption.
    - destruct (c68_both _ _ _ _ _ (List.length (heap ga)) H0 St Ha Ea) as (? & _ & B); [right; lia|].
      apply (part_shape _ _ _ _ (b_calm _ _ _ B) Ht). }
  destruct (G Ct) as (t' & (sa & D1 & D2) & Ec). rewrite D1. cbn [seqo]. rewrite !alone_cons. cbn [sec_names sec_alias sec_body]. rewrite D2. cbn [seqo].
  assert (Q : existsb (Nat.eqb p) (current t') = false).
  { rewrite Ec. destruct (existsb (Nat.eqb p) (current t)) eqn:Q; [|reflexivity]. apply existsb_in in Q. contradiction. }
  unfold body_alone. rewrite Q. reflexivity.
Qed.

Lemma c68_edit : forall us0 a names alias body body' b s0 s1 s1' t p,
  exec us0 new_score = (s0, Ok) -> stored own_label s0 ->
  let xs := a ++ MkSection names alias body :: b in
  let ys := a ++ MkSection names alias body' :: b in
  Forall (fun x => Forall (upd_all own_label) (sec_body x)) xs ->
  Forall (fun x => Forall (upd_all own_label) (sec_body x)) ys ->
  exec (written xs) s0 = (s1, Ok) -> exec (written ys) s0 = (s1', Ok) ->
  exec (written a ++ [UPart names alias]) s0 = (t, Ok) -> ~ In p (current t) ->
  In p (parts s1) -> In p (parts s1') ->
  instance s1' p = instance s1 p /\
  notes_of s1' (instance s1 p) = notes_of s1 (instance s1 p) /\
  unchanneled (getp s1' p) = unchanneled (getp s1 p).
Proof.
  intros us0 a names alias body body' b s0 s1 s1' t p H0 St xs ys Hxs Hys H H' Ht Hc Hp Hp'.
  pose proof (c68_skip _ _ _ _ _ _ _ _ _ p H0 St Hxs H Ht Hc Hp) as E.
  pose proof (c68_skip _ _ _ _ _ _ _ _ _ p H0 St Hys H' Ht Hc Hp') as E'.
  destruct (c68 _ _ _ _ p H0 St Hxs H Hp) as (s2 & D & D1 & D2).
  destruct (c68 _ _ _ _ p H0 St Hys H' Hp') as (s2' & D' & D1' & D2').
  fold xs in E. fold ys in E'. rewrite E in D. rewrite E' in D'. rewrite D in D'. assert (Q : s2' = s2) by congruence. subst s2'.
  assert (Eu : unchanneled (getp s1' p) = unchanneled (getp s1 p)) by congruence.
  assert (Ei : instance s1' p = instance s1 p) by (exact (f_equal porigin Eu)).
  split; [exact Ei|]. split; [|exact Eu]. rewrite Ei in D1'. congruence.
Qed.
End Sections.
