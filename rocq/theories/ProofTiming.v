(** Proofs of the timing properties C06-C09, C11, C14. *)
From Coq Require Import Qcanon ZArith List String Bool Lia Arith.
From Verif Require Import Base Num ModelPitch ModelDuration ModelInstruments ModelTypes ModelLisp
  ModelScore ProofNum SpecScore SpecVars SpecParts SpecSolo SpecTiming ProofHeap ProofStep ProofInv ProofEvents
  ProofVoices ProofVars ProofSafe ProofTracks ProofSolo ProofSoloOk.
Import ListNotations.

Section Timing.
Context {N : Num}.
Local Notation nc := unchanneled.

Lemma session_wf : forall calls, wf (session calls).
Proof.
  intros calls. split; [apply (inv_cur _ (session_inv calls))|apply (vi_cur _ (session_vinv calls))].
Qed.

(** Lists of notes and rests need no condition on the store. *)
Definition follows (f : score -> score * outcome) (F : solo -> option solo) : Prop :=
  forall s s', wf s -> f s = (s', Ok) -> moved F s s'.
Lemma follows_list : forall A (f : A -> score -> score * outcome) F l, (forall u, In u l -> follows (f u) (F u)) ->
  follows (each f l) (oeach F l).
Proof.
  intros A f F l. induction l as [|u l IH]; intros Hl s s' W H.
  - cbn in H. inversion H; subst. split; [apply keep_refl|reflexivity].
  - cbn [each] in H. destruct (f u s) as [s1 []] eqn:E; try discriminate. cbn [seqo] in H.
    pose proof (Hl u (or_introl eq_refl) _ _ W E) as M1.
    assert (M2 : moved (oeach F l) s1 s').
    { apply IH; [intros; apply Hl; right; assumption|eapply keep_wf; [apply M1|exact W]|exact H]. }
    pose proof (moved_trans _ _ _ _ _ M1 M2) as M. exact M.
Qed.
Definition s_play (i : item) : solo -> option solo := s_note (it_note i) (it_dur i).
Lemma run_play : forall fuel i s, run fuel (play i) s = add_note_or_rest (it_note i) (it_dur i) s.
Proof. intros fuel [[[pi sl]|] d] s; reflexivity. Qed.
Lemma play_follows : forall fuel i, follows (run fuel (play i)) (s_play i).
Proof. intros fuel i s s' W H. rewrite run_play in H. apply add_note_solo in H; assumption. Qed.
Lemma plays_follow : forall l s s', wf s -> exec (map play l) s = (s', Ok) -> moved (oeach s_play l) s s'.
Proof.
  intros l s s' W H. unfold exec, run_all in H.
  assert (G : each (fun i => run 1 (play i)) l s = (s', Ok)).
  { rewrite <- H. clear. revert s. induction l as [|i l IH]; intros s; [reflexivity|]. cbn [map each].
    destruct (run 1 (play i) s) as [s1 []]; cbn [seqo]; auto. }
  eapply follows_list; [|exact W|exact G]. intros i _. apply play_follows.
Qed.

(* ---------------- C08 ---------------- *)

Lemma s_globals_facts : forall x y, s_globals x = Some y ->
  pcur (so_part y) = pcur (so_part x) /\ plast (so_part y) = plast (so_part x) /\
  pscale (so_part y) = pscale (so_part x) /\ prep (so_part y) = prep (so_part x) /\
  so_notes y = so_notes x /\ so_chord y = so_chord x /\
  so_glob y = so_glob x /\ so_vars y = so_vars x /\ so_mark y = so_mark x.
Proof.
  intros x y H. unfold s_globals in H. destruct (s_globs _ _) as [v|] eqn:E; [|discriminate].
  cbn in H. apply some_inj in H. subst y. cbn.
  assert (G : forall us p v, s_globs us p = Some v ->
    pcur v = pcur p /\ plast v = plast p /\ pscale v = pscale p /\ prep v = prep p).
  { clear. induction us as [|u us IH]; intros p v H; cbn in H; [apply some_inj in H; subst; auto|].
    destruct (overrides _ _); cbn in H; [auto|]. destruct (s_update u true p) as [w|] eqn:E; [|discriminate].
    cbn in H. apply IH in H. destruct H as (A & B & C & D). rewrite A, B, C, D. clear -E.
    unfold s_update in E. destruct u; cbn in E; try (apply some_inj in E; subst; auto; fail).
    destruct (_ && _)%bool; [discriminate|]. apply some_inj in E; subst; auto. }
  destruct (G _ _ _ E) as (A & B & C & D). repeat split; assumption.
Qed.
Lemma s_globals_quiet : forall x y, ga_offs (so_glob x) = [] -> s_globals x = Some y ->
  y = on_part (set_povr None) x.
Proof.
  intros x y Hg H. unfold s_globals, in_window in H. rewrite Hg in H. cbn in H. apply some_inj in H. subst; reflexivity.
Qed.

(** What playing one item does to a part, between events. *)
Lemma s_note_one_facts : forall i x y, so_chord x = false -> s_note_one (it_note i) (it_dur i) x = Some y ->
  let p := so_part x in let d := meant (it_dur i) (pdur p) in let len := nmul (dur_ms_of (ptempo p) d) (pscale p) in
  so_part y = set_pdur d (set_pcur (nadd (pcur p) len) (set_plast (pcur p) p)) /\
  so_glob y = so_glob x /\ so_mark y = so_mark x /\ so_vars y = so_vars x /\ so_chord y = so_chord x /\
  exists new, so_notes y = so_notes x ++ new /\
    map times new = sounding (pquant p) [i] [pcur p] [len].
Proof.
  intros [nr d] x y Hc H p d' len. unfold s_note_one in H. cbn [it_note it_dur] in *.
  change (effective_dur d (so_part x)) with d' in H.
  fold p in H. change (nmul (dur_ms_of (ptempo p) d') (pscale p)) with len in H.
  assert (Ea : forall q, advance_part false len d' q = set_pdur (match d' with None => pdur q | _ => d' end) (set_pcur (nadd (pcur q) len) (set_plast (pcur q) q))).
  { intros q. unfold advance_part, update_default_dur. destruct d'; [reflexivity|]. destruct q; reflexivity. }
  assert (Ed : match d' with None => pdur p | _ => d' end = d').
  { unfold d'. destruct d; [reflexivity|]. cbn. destruct (pdur p); reflexivity. }
  assert (Em : forall z, so_part z = p -> so_chord z = false ->
               so_part (on_part (advance_part (so_chord z) len d') z) = set_pdur d' (set_pcur (nadd (pcur p) len) (set_plast (pcur p) p))).
  { intros z Hz Hzc. cbn. rewrite Hzc, Ea, Hz, Ed. reflexivity. }
  destruct nr as [[pi sl]|].
  - destruct (s_emit pi sl len x) as [z|] eqn:Ez; [|discriminate]. cbn [obind] in H. apply some_inj in H. subst y.
    unfold s_emit in Ez. fold p in Ez. cbn [sounding combine flat_map it_note app]. unfold audible.
    destruct (nltb n0 (if sl then len else nmul len (pquant p))) eqn:En.
    + destruct (_ || _)%bool; [discriminate|]. apply some_inj in Ez. subst z.
      split; [apply Em; [reflexivity|exact Hc]|]. cbn. repeat split; try reflexivity.
      eexists. split; [reflexivity|]. reflexivity.
    + apply some_inj in Ez. subst z.
      split; [apply Em; [reflexivity|exact Hc]|]. cbn. repeat split; try reflexivity.
      exists []. split; [symmetry; apply app_nil_r|reflexivity].
  - cbn [obind] in H. apply some_inj in H. subst y.
    split; [apply Em; [reflexivity|exact Hc]|]. cbn. repeat split; try reflexivity.
    exists []. split; [symmetry; apply app_nil_r|reflexivity].
Qed.

Lemma c08_solo : forall i x y, so_chord x = false -> s_play i x = Some y ->
  let p := so_part x in let q := so_part y in
  let len := nmul (dur_ms_of (ptempo q) (pdur q)) (pscale q) in
  pcur q = nadd (pcur p) len /\ plast q = pcur p /\
  exists new, so_notes y = so_notes x ++ new /\ map times new = sounding (pquant q) [i] [pcur p] [len].
Proof.
  intros i x y Hc H p q len. unfold s_play, s_note in H. rewrite Hc in H.
  destruct (s_globals x) as [z|] eqn:Ez; [|discriminate]. cbn [obind] in H. destruct (dur_valid _); [|discriminate].
  destruct (s_globals_facts _ _ Ez) as (A & B & C & _ & D & E & _).
  rewrite Hc in E. destruct (s_note_one_facts _ _ _ E H) as (F & _ & _ & _ & _ & new & G1 & G2).
  unfold len, q, p in *. rewrite F. cbn. rewrite A in *. split; [reflexivity|]. split; [reflexivity|].
  exists new. split; [congruence|exact G2].
Qed.

Lemma c08 : forall calls i s' p, let s := session calls in
  between_events s -> In p (current s) -> exec [play i] s = (s', Ok) ->
  let q := getp s' p in
  let len := nmul (dur_ms_of (ptempo q) (pdur q)) (pscale q) in
  pcur q = nadd (pcur (getp s p)) len /\ plast q = pcur (getp s p) /\
  exists new, notes_of s' (instance s p) = notes_of s (instance s p) ++ new /\
    map times new = sounding (pquant q) [i] [pcur (getp s p)] [len].
Proof.
  intros calls i s' p s Hb Hp H q len.
  destruct (plays_follow [i] _ _ (session_wf calls) H) as [K V]. specialize (V p Hp).
  cbn [oeach] in V. destruct (s_play i (view p (session calls))) as [y|] eqn:E; [|discriminate].
  cbn [obind] in V. apply some_inj in V. subst y.
  pose proof (c08_solo i (view p s) (view p s') Hb E) as (A & B & new & C & D).
  split; [exact A|]. split; [exact B|]. exists new. split; [|exact D].
  cbn in C. rewrite (k_org _ _ K p) in C. exact C.
Qed.

(** Slurring changes nothing but the audible length. *)
Lemma c08_slur_solo : forall pi d x y z, s_play (Item (Some (pi, true)) d) x = Some y ->
  s_play (Item (Some (pi, false)) d) x = Some z -> so_part y = so_part z.
Proof.
  intros pi d x y z H1 H2. unfold s_play, s_note in *. cbn [it_note it_dur] in *.
  destruct (if so_chord x then Some x else s_globals x) as [w|]; [|discriminate]. cbn [obind] in *.
  destruct (dur_valid d); [|discriminate]. unfold s_note_one in *.
  set (dm := nmul _ _) in *. 
  assert (G : forall sl v, s_emit pi sl dm w = Some v -> so_part v = so_part w /\ so_chord v = so_chord w).
  { intros sl v E. unfold s_emit in E. destruct (nltb _ _); [|apply some_inj in E; subst; auto].
    destruct (_ || _)%bool; [discriminate|]. apply some_inj in E; subst; auto. }
  destruct (s_emit pi true dm w) as [v1|] eqn:E1; [|discriminate].
  destruct (s_emit pi false dm w) as [v2|] eqn:E2; [|discriminate].
  cbn [obind] in *. apply some_inj in H1. apply some_inj in H2. subst y z. cbn.
  destruct (G _ _ E1) as [A1 B1]. destruct (G _ _ E2) as [A2 B2]. rewrite A1, B1, A2, B2. reflexivity.
Qed.
Lemma c08_slur : forall calls pi d s1 s2 p, let s := session calls in
  In p (current s) -> exec [UPrim (Note pi d true)] s = (s1, Ok) -> exec [UPrim (Note pi d false)] s = (s2, Ok) ->
  unchanneled (getp s1 p) = unchanneled (getp s2 p).
Proof.
  intros calls pi d s1 s2 p s Hp H1 H2.
  destruct (plays_follow [Item (Some (pi, true)) d] _ _ (session_wf calls) H1) as [K1 V1].
  destruct (plays_follow [Item (Some (pi, false)) d] _ _ (session_wf calls) H2) as [K2 V2].
  specialize (V1 p Hp). specialize (V2 p Hp). cbn [oeach] in *.
  destruct (s_play (Item (Some (pi, true)) d) (view p (session calls))) as [y|] eqn:E1; [|discriminate].
  destruct (s_play (Item (Some (pi, false)) d) (view p (session calls))) as [z|] eqn:E2; [|discriminate].
  cbn [obind] in *. apply some_inj in V1. apply some_inj in V2. subst y z.
  exact (c08_slur_solo _ _ _ _ _ E1 E2).
Qed.

(* ---------------- C06 ---------------- *)

Fixpoint starts (off : num) (lens : list num) : list num :=
  match lens with [] => [] | x :: t => off :: starts (nadd off x) t end.
Lemma starts_spec : forall lens off, starts off lens = map (start off lens) (seq 0 (List.length lens)).
Proof.
  induction lens as [|x t IH]; intros off; [reflexivity|]. cbn [starts List.length seq map]. f_equal.
  rewrite IH. rewrite <- seq_shift, map_map. apply map_ext. intros i. reflexivity.
Qed.

Lemma plays_solo : forall l x y, so_chord x = false -> ga_offs (so_glob x) = [] -> oeach s_play l x = Some y ->
  let p := so_part x in let lens := lengths (ptempo p) (pscale p) (pdur p) l in
  pcur (so_part y) = fold_left nadd lens (pcur p) /\
  pdur (so_part y) = inforce_after (pdur p) l /\
  exists new, so_notes y = so_notes x ++ new /\ map times new = sounding (pquant p) l (starts (pcur p) lens) lens.
Proof.
  induction l as [|i l IH]; intros x y Hc Hg H p lens.
  - cbn in H. apply some_inj in H. subst y. repeat split. exists []. split; [symmetry; apply app_nil_r|reflexivity].
  - cbn [oeach] in H. destruct (s_play i x) as [z|] eqn:Ez; [|discriminate]. cbn [obind] in H.
    unfold s_play, s_note in Ez. rewrite Hc in Ez. destruct (s_globals x) as [w|] eqn:Ew; [|discriminate].
    cbn [obind] in Ez. destruct (dur_valid _); [|discriminate]. apply s_globals_quiet in Ew; [|exact Hg]. subst w.
    assert (Hcw : so_chord (on_part (set_povr None) x) = false) by exact Hc.
    destruct (s_note_one_facts _ _ _ Hcw Ez) as (F & G & _ & _ & I1 & new & J1 & J2). cbn in F, J1, J2.
    assert (Hcz : so_chord z = false) by (rewrite I1; exact Hc).
    assert (Hgz : ga_offs (so_glob z) = []) by (rewrite G; exact Hg).
    destruct (IH z y Hcz Hgz H) as (A & B & new2 & C & D). rewrite F in A, B, D. cbn in A, B, D.
    split; [exact A|]. split; [exact B|]. exists (new ++ new2). split; [rewrite C, J1; symmetry; apply app_assoc|].
    rewrite map_app, J2, D, app_nil_r. reflexivity.
Qed.

Lemma c06 : forall calls l s' p, let s := session calls in
  between_events s -> no_globals s -> In p (current s) -> exec (map play l) s = (s', Ok) ->
  let q := getp s p in let lens := lengths (ptempo q) (pscale q) (pdur q) l in
  pcur (getp s' p) = start (pcur q) lens (List.length l) /\
  exists new, notes_of s' (instance s p) = notes_of s (instance s p) ++ new /\
    map times new = sounding (pquant q) l (map (start (pcur q) lens) (seq 0 (List.length l))) lens.
Proof.
  intros calls l s' p s Hb Hg Hp H q lens.
  destruct (plays_follow l _ _ (session_wf calls) H) as [K V]. specialize (V p Hp).
  destruct (plays_solo l (view p s) (view p s') Hb Hg V) as (A & _ & new & C & D).
  assert (El : List.length lens = List.length l).
  { unfold lens, lengths. rewrite map_length. generalize (pdur q). clear. induction l; intros; cbn; auto. }
  split.
  - unfold start. rewrite <- El, firstn_all. exact A.
  - exists new. rewrite starts_spec in D. cbn in C. rewrite (k_org _ _ K p) in C. split; [exact C|].
    rewrite <- El. exact D.
Qed.

(* ---------------- C07 ---------------- *)

Definition all_default (d : duration) (s : score) : Prop := forall p, In p (current s) -> pdur (getp s p) = d.

Lemma note_one_default : forall nr d0 q s, pdur (getp s q) = Some d0 ->
  note_one nr None q s = note_one nr (Some d0) q s.
Proof. intros nr d0 q s H. unfold note_one, effective_dur. rewrite H. reflexivity. Qed.

Lemma setp_pdur : forall q v s p, pdur v = pdur (getp s q) -> pdur (getp (setp q v s) p) = pdur (getp s p).
Proof.
  intros q v s p H. destruct (Nat.lt_ge_cases q (List.length (heap s))) as [Hr|Hr].
  - rewrite getp_setp by exact Hr. destruct (Nat.eqb_spec p q); subst; auto.
  - unfold setp, getp. cbn. rewrite upd_nth_out by exact Hr. reflexivity.
Qed.


Lemma dsame : forall nr d0 q s s', (q < List.length (heap s))%nat -> pdur (getp s q) = Some d0 ->
  note_one nr (Some d0) q s = (s', Ok) -> forall p, pdur (getp s p) = Some d0 -> pdur (getp s' p) = Some d0.
Proof.
  intros nr d0 q s s' Hq Hd H p Hp. destruct (note_one_solo _ _ _ _ _ Hq H) as [O V].
  destruct (Nat.eq_dec p q) as [->|Hn].
  - unfold s_note_one in V.
    match type of V with obind ?r _ = _ => destruct r as [z|]; [|discriminate] end. cbn [obind] in V.
    apply some_inj in V. apply (f_equal (fun x => pdur (so_part x))) in V. cbn [view so_part on_part] in V.
    change (pdur (getp s' q)) with (pdur (nc (getp s' q))). rewrite <- V. reflexivity.
  - change (pdur (getp s' p)) with (pdur (nc (getp s' p))). rewrite (o_part _ _ _ O) by exact Hn. exact Hp.
Qed.
Lemma dset : forall nr d0 q s s', (q < List.length (heap s))%nat ->
  note_one nr (Some d0) q s = (s', Ok) -> pdur (getp s' q) = Some d0.
Proof.
  intros nr d0 q s s' Hq H. destruct (note_one_solo _ _ _ _ _ Hq H) as [O V]. unfold s_note_one in V.
  match type of V with obind ?r _ = _ => destruct r as [z|]; [|discriminate] end. cbn [obind] in V.
  apply some_inj in V. apply (f_equal (fun x => pdur (so_part x))) in V. cbn [view so_part on_part] in V.
  change (pdur (getp s' q)) with (pdur (nc (getp s' q))). rewrite <- V. reflexivity.
Qed.

Lemma each_default : forall nr d0 l s, Forall (fun p => (p < List.length (heap s))%nat) l ->
  (forall p, In p l -> pdur (getp s p) = Some d0) ->
  each (note_one nr None) l s = each (note_one nr (Some d0)) l s.
Proof.
  intros nr d0 l. induction l as [|q l IH]; intros s Hl Hd; [reflexivity|]. cbn [each].
  rewrite (note_one_default nr d0) by (apply Hd; left; reflexivity).
  destruct (note_one nr (Some d0) q s) as [s1 []] eqn:E; try reflexivity. cbn [seqo].
  inversion Hl; subst. destruct (note_one_solo _ _ _ _ _ H1 E) as [O _].
  apply IH.
  - rewrite (k_len _ _ (o_keep _ _ _ O)). assumption.
  - intros p Hp. eapply dsame; [exact H1|apply Hd; left; reflexivity|exact E|]. apply Hd; right; exact Hp.
Qed.

Lemma each_sets : forall nr d0 l s s', Forall (fun p => (p < List.length (heap s))%nat) l -> 
  each (note_one nr (Some d0)) l s = (s', Ok) ->
  (List.length (heap s') = List.length (heap s) /\ current s' = current s) /\
  forall p, In p l \/ pdur (getp s p) = Some d0 -> pdur (getp s' p) = Some d0.
Proof.
  intros nr d0 l. induction l as [|q l IH]; intros s s' Hl H.
  - cbn in H. inversion H; subst. split; [split; reflexivity|]. intros p [[]|H0]; exact H0.
  - cbn [each] in H. destruct (note_one nr (Some d0) q s) as [s1 []] eqn:E; try discriminate. cbn [seqo] in H.
    inversion Hl; subst. destruct (note_one_solo _ _ _ _ _ H2 E) as [O _]. pose proof (o_keep _ _ _ O) as K.
    apply IH in H; [|rewrite (k_len _ _ K); assumption]. destruct H as [[A B] C].
    split; [split; [rewrite A; apply K|rewrite B; apply K]|].
    intros p Hp. apply C. destruct (Nat.eq_dec p q) as [->|Hn].
    + right. eapply dset; eassumption.
    + destruct Hp as [[->|Hp]|Hp]; [congruence|left; exact Hp|]. right.
      change (pdur (getp s1 p)) with (pdur (nc (getp s1 p))). rewrite (o_part _ _ _ O) by exact Hn. exact Hp.
Qed.

(** Global attributes that set no default duration. *)
Definition quiet_dur (us : list part_update) : Prop := forall d, ~ In (PDurSet d) us.
Lemma in_window_in : forall g a b offs u, In u (in_window_offs g a b offs) -> exists off us, In (off, us) (ga_itin g) /\ In u us.
Proof.
  intros g a b offs u. induction offs as [|o t IH]; cbn; [intros []|].
  destruct (nltb b o); [intros []|]. rewrite in_app_iff. intros [H|H]; [|auto].
  destruct (nltb a o); [|destruct H]. unfold ga_at in H.
  destruct (aget neqb o (ga_itin g)) as [us|] eqn:E; [|destruct H].
  clear IH. revert E. generalize (ga_itin g). intros l. induction l as [|[o' us'] l IHl]; cbn; [discriminate|].
  destruct (neqb o' o).
  - intros E. inversion E; subst. exists o', us. split; [left; reflexivity|exact H].
  - intros E. destruct (IHl E) as (a1 & a2 & a3 & a4). exists a1, a2. split; [right; exact a3|exact a4].
Qed.
Lemma update_part_pdur : forall u g p v, update_part u g p = ROk v -> (forall d, u <> PDurSet d) -> pdur v = pdur p.
Proof.
  intros u g p v H Hu. destruct u; cbn in H; try (inversion H; subst; reflexivity);
    try (destruct g; inversion H; subst; reflexivity).
  - exfalso. eapply Hu; reflexivity.
  - destruct (_ && _)%bool; inversion H; subst; reflexivity.
Qed.
Lemma apply_globals_pdur : forall s s' o, apply_globals s = (s', o) ->
  (forall off us d, In (off, us) (ga_itin (globals s)) -> ~ In (PDurSet d) us) ->
  forall p, pdur (getp s' p) = pdur (getp s p).
Proof.
  intros s s' o H Hg. unfold apply_globals in H.
  assert (G : forall l s s' o, globals s = globals s -> each apply_globals_to l s = (s', o) ->
    (forall off us d, In (off, us) (ga_itin (globals s)) -> ~ In (PDurSet d) us) ->
    forall p, pdur (getp s' p) = pdur (getp s p)).
  { clear. intros l. induction l as [|q l IH]; intros s s' o _ H Hg p; [cbn in H; inversion H; reflexivity|].
    cbn [each] in H.
    assert (G : forall s1 o1, apply_globals_to q s = (s1, o1) -> globals s1 = globals s /\ forall p, pdur (getp s1 p) = pdur (getp s p)).
    { intros s1 o1 E. unfold apply_globals_to in E.
      assert (W : quiet_dur (in_window (globals s) (plast (getp s q)) (pcur (getp s q)))).
      { intros d Hd. apply in_window_in in Hd. destruct Hd as (off & us & A & B). exact (Hg _ _ _ A B). }
      revert W E. generalize (in_window (globals s) (plast (getp s q)) (pcur (getp s q))). intros us W E.
      match type of E with seqo ?r _ = _ => destruct r as [s2 o2] eqn:E2 end.
      assert (A : globals s2 = globals s /\ forall p, pdur (getp s2 p) = pdur (getp s p)).
      { clear E Hg IH H. revert s s2 o2 E2 W. induction us as [|u us IHu]; intros s s2 o2 E2 W; cbn [each] in E2.
        - inversion E2; subst. split; reflexivity.
        - assert (B : forall s3 o3, (if overrides (povr (getp s q)) u then (s, Ok) else do_update_part u true q s) = (s3, o3) ->
            globals s3 = globals s /\ forall p, pdur (getp s3 p) = pdur (getp s p)).
          { intros s3 o3 E3. destruct (overrides _ _); [inversion E3; subst; split; reflexivity|].
            unfold do_update_part in E3. destruct (update_part u true (getp s q)) as [v|m|m] eqn:E4; inversion E3; subst;
              try (split; reflexivity). split; [reflexivity|]. intros p0. apply setp_pdur.
            apply (update_part_pdur _ _ _ _ E4). intros d ->. apply (W d). left; reflexivity. }
          destruct (if overrides (povr (getp s q)) u then (s, Ok) else do_update_part u true q s) as [s3 o3].
          destruct (B s3 o3 eq_refl) as [B1 B2]. destruct o3; cbn [seqo] in E2; try (inversion E2; subst; split; assumption).
          apply IHu in E2; [|intros d Hd; apply (W d); right; exact Hd]. destruct E2 as [C D].
          split; [congruence|]. intros; rewrite D; apply B2. }
      destruct A as [A B]. destruct o2; cbn [seqo] in E; inversion E; subst; (split; [exact A|]); try exact B.
      intros p0. unfold modp. rewrite setp_pdur by reflexivity. apply B. }
    destruct (apply_globals_to q s) as [s1 o1]. destruct (G s1 o1 eq_refl) as [G1 G2].
    destruct o1; cbn [seqo] in H; try (inversion H; subst; apply G2).
    eapply IH in H; [|reflexivity|rewrite G1; exact Hg]. rewrite H. apply G2. }
  intros p. eapply G; [reflexivity|exact H|exact Hg].
Qed.

Lemma c07_list : forall fuel l s d0, wf s ->
  (forall off us d, In (off, us) (ga_itin (globals s)) -> ~ In (PDurSet d) us) ->
  dur_valid (Some d0) = true -> all_default (Some d0) s ->
  run_all fuel (map play (spelled (Some d0) l)) s = run_all fuel (map play l) s.
Proof.
  intros fuel l. induction l as [|i l IH]; intros s d0 W Hg Hv Hd; [reflexivity|].
  unfold run_all in *. cbn [spelled map each]. rewrite !run_play.
  set (d1 := match it_dur i with Some d => d | None => d0 end).
  assert (Ed : meant (it_dur i) (Some d0) = Some d1) by (unfold d1, meant; destruct (it_dur i); reflexivity).
  rewrite Ed. cbn [it_note it_dur].
  assert (Es : add_note_or_rest (it_note i) (Some d1) s = add_note_or_rest (it_note i) (it_dur i) s).
  { unfold d1. destruct (it_dur i) as [d|]; [reflexivity|]. unfold add_note_or_rest.
    assert (A : forall s1 o, (if chordmode s then (s, Ok) else apply_globals s) = (s1, o) -> o = Ok -> wf s1 /\ all_default (Some d0) s1).
    { intros s1 o E Ho. subst o. destruct (chordmode s); [inversion E; subst; split; assumption|].
      pose proof (apply_globals_pdur _ _ _ E Hg) as P. apply apply_globals_solo in E; [|exact W]. destruct E as (K & _).
      split; [eapply keep_wf; eassumption|]. intros p Hp. rewrite P. apply Hd. rewrite <- (k_cur _ _ K). exact Hp. }
    destruct (if chordmode s then (s, Ok) else apply_globals s) as [s1 []]; cbn [seqo]; try reflexivity.
    rewrite Hv. change (dur_valid None) with true. cbv iota. destruct (A s1 Ok eq_refl eq_refl) as [[W1 W2] D1]. symmetry. apply each_default; [exact W1|exact D1]. }
  rewrite Es. destruct (add_note_or_rest (it_note i) (it_dur i) s) as [s1 []] eqn:E; try reflexivity. cbn [seqo].
  pose proof Es as E0. pose proof (add_note_solo _ _ _ _ W E0) as [K V].
  apply IH.
  - eapply keep_wf; eassumption.
  - assert (G : globals s1 = globals s).
    { destruct (current s) as [|p0 rest] eqn:Ec.
      - unfold add_note_or_rest in E0. unfold apply_globals in E0. rewrite Ec in E0. cbn [each] in E0.
        destruct (chordmode s); cbn [seqo] in E0; rewrite Ec in E0; destruct (dur_valid (Some d1)); inversion E0; reflexivity.
      - specialize (V p0 (or_introl eq_refl)). unfold s_note in V.
        destruct (if so_chord (view p0 s) then Some (view p0 s) else s_globals (view p0 s)) as [z|] eqn:Ez; [|discriminate].
        cbn [obind] in V. destruct (dur_valid (Some d1)); [|discriminate].
        assert (Gz : so_glob z = globals s).
        { destruct (so_chord (view p0 s)); [apply some_inj in Ez; subst; reflexivity|].
          apply s_globals_facts in Ez. destruct Ez as (_ & _ & _ & _ & _ & _ & Ez & _). exact Ez. }
        unfold s_note_one in V. match type of V with obind ?r _ = _ => destruct r as [w|] eqn:Ew; [|discriminate] end.
        cbn [obind] in V. apply some_inj in V. apply (f_equal so_glob) in V. cbn in V. rewrite <- V.
        rewrite <- Gz. destruct (it_note i) as [[pi sl]|]; [|apply some_inj in Ew; subst; reflexivity].
        unfold s_emit in Ew. destruct (nltb _ _); [|apply some_inj in Ew; subst; reflexivity].
        destruct (_ || _)%bool; [discriminate|]. apply some_inj in Ew; subst; reflexivity. }
    rewrite G. exact Hg.
  - unfold d1. destruct (it_dur i) as [d|] eqn:Ei; [|exact Hv]. 
    unfold add_note_or_rest in E0. destruct (if chordmode s then (s, Ok) else apply_globals s) as [s2 []]; cbn [seqo] in E0; try discriminate.
    unfold d1 in E0. destruct (dur_valid (Some d)); [reflexivity|discriminate].
  - unfold add_note_or_rest in E0.
    destruct (if chordmode s then (s, Ok) else apply_globals s) as [s2 []] eqn:E2; cbn [seqo] in E0; try discriminate.
    destruct (dur_valid (Some d1)); [|discriminate].
    assert (K2 : keep s s2).
    { destruct (chordmode s); [inversion E2; subst; apply keep_refl|]. apply apply_globals_solo in E2; [|exact W]. apply E2. }
    apply each_sets in E0; [|apply (keep_wf _ _ K2 W)]. destruct E0 as [[A B] C].
    intros p Hp. apply C. left. rewrite <- B. exact Hp.
Qed.

Lemma c07 : forall calls l d, let s := session calls in
  (forall p, In p (current s) -> pdur (getp s p) = Some d) -> dur_valid (Some d) = true ->
  (forall off us d', In (off, us) (ga_itin (globals s)) -> ~ In (PDurSet d') us) ->
  exec (map play (spelled (Some d) l)) s = exec (map play l) s.
Proof. intros calls l d s Hd Hv Hg. apply c07_list; auto. apply session_wf. Qed.

(* ---------------- C09 ---------------- *)

Lemma wf_okay : forall s, wf s -> okay (fun _ => True) False s.
Proof. intros s W. split; [exact W|apply store_all_true|intros []]. Qed.
Lemma s_play_upd : forall sd dd i x, s_upd sd dd (play i) x = s_play i x.
Proof. intros sd dd [[[pi sl]|] d] x; reflexivity. Qed.
Lemma play_acts : forall sd dd i, acts (fun _ => True) False (run_upd sd dd (play i)) (s_upd (s_deref 0) dd (play i)).
Proof.
  intros sd dd i s s' O H. split; [apply store_all_true|].
  assert (A : add_note_or_rest (it_note i) (it_dur i) s = (s', Ok)).
  { rewrite <- H. destruct i as [[[pi sl]|] d]; reflexivity. }
  apply add_note_solo in A; [|apply O]. destruct A as [K V]. split; [exact K|].
  intros p Hp. rewrite s_play_upd. apply V, Hp.
Qed.
Lemma chord_follows : forall l s s', wf s -> exec [UChord (map play l)] s = (s', Ok) ->
  moved (s_upd (s_deref 0) (dur_deref 1) (UChord (map play l))) s s'.
Proof.
  intros l s s' W H. unfold exec, run_all in H. cbn [each] in H. 
  assert (H' : run 1 (UChord (map play l)) s = (s', Ok)).
  { destruct (run 1 (UChord (map play l)) s) as [s1 []]; cbn [seqo] in H; congruence. }
  eapply (chord_acts (fun _ => True) False); [|apply wf_okay, W|exact H'].
  apply Forall_forall. intros u Hu. apply in_map_iff in Hu. destruct Hu as [i [<- _]]. apply play_acts.
Qed.

Lemma ochord_solo : forall sd dd l m x y, so_chord x = true -> ochord (s_upd sd dd) (map play l) m x = Some y ->
  let p := so_part x in let lens := lengths (ptempo p) (pscale p) (pdur p) l in
  let q := so_part y in
  (ptempo q = ptempo p /\ pscale q = pscale p /\ pquant q = pquant p) /\
  pcur q = nadd (pcur p) (fold_left nmin lens m) /\ plast q = pcur p /\ so_chord y = false /\
  pdur q = inforce_after (pdur p) l /\
  exists new, so_notes y = so_notes x ++ new /\
    map times new = sounding (pquant p) l (map (fun _ => pcur p) l) lens.
Proof.
  intros sd dd l. induction l as [|i l IH]; intros m x y Hc H p lens q.
  - cbn in H. apply some_inj in H. unfold q. subst y. cbn. repeat split.
    exists []. split; [symmetry; apply app_nil_r|reflexivity].
  - cbn [map ochord] in H. rewrite s_play_upd in H. destruct (s_play i x) as [z|] eqn:Ez; [|discriminate].
    cbn [obind] in H. unfold s_play, s_note in Ez. rewrite Hc in Ez. cbn [obind] in Ez.
    destruct (dur_valid (it_dur i)); [|discriminate].
    set (d := meant (it_dur i) (pdur p)).
    set (len := nmul (dur_ms_of (ptempo p) d) (pscale p)).
    assert (Z : so_part z = set_pdur d p /\ so_chord z = true /\
      exists new, so_notes z = so_notes x ++ new /\ map times new = sounding (pquant p) [i] [pcur p] [len]).
    { unfold s_note_one in Ez. change (effective_dur (it_dur i) (so_part x)) with d in Ez.
      change (nmul (dur_ms_of (ptempo (so_part x)) d) (pscale (so_part x))) with len in Ez.
      assert (Ed : forall w, so_part w = p -> so_chord w = true -> on_part (advance_part (so_chord w) len d) w = z ->
               so_part z = set_pdur d p /\ so_chord z = true).
      { intros w Hw Hwc <-. cbn. rewrite Hwc, Hw. split; [|reflexivity]. unfold advance_part, update_default_dur.
        destruct d eqn:Ed; [reflexivity|]. unfold d, meant in Ed. destruct (it_dur i); [discriminate|]. rewrite <- Ed. destruct p; reflexivity. }
      destruct (it_note i) as [[pi sl]|] eqn:Ei.
      - unfold s_emit in Ez. cbn [sounding combine flat_map]. rewrite Ei. unfold audible. fold p in Ez.
        destruct (nltb n0 (if sl then len else nmul len (pquant p))).
        + destruct (_ || _)%bool; [discriminate|]. cbn [obind] in Ez. apply some_inj in Ez.
          edestruct Ed as [A B]; [| |exact Ez|]; [reflexivity|exact Hc|]. split; [exact A|]. split; [exact B|].
          subst z. cbn. eexists. split; reflexivity.
        + cbn [obind] in Ez. apply some_inj in Ez.
          edestruct Ed as [A B]; [| |exact Ez|]; [reflexivity|exact Hc|]. split; [exact A|]. split; [exact B|].
          subst z. cbn. exists []. split; [symmetry; apply app_nil_r|reflexivity].
      - cbn [obind] in Ez. apply some_inj in Ez.
        edestruct Ed as [A B]; [| |exact Ez|]; [reflexivity|exact Hc|]. split; [exact A|]. split; [exact B|].
        subst z. cbn. exists []. split; [symmetry; apply app_nil_r|]. rewrite Ei. reflexivity. }
    destruct Z as (Z1 & Z2 & new & Z3 & Z4).
    destruct (IH _ z y Z2 H) as ((T1 & T2 & T3) & A & B & C & D & new2 & E1 & E2). rewrite Z1 in *. cbn in T1, T2, T3, A, B, D, E2.
    assert (El : written_ms (play i) (so_part x) = len).
    { unfold written_ms, play, len, d. destruct (it_note i) as [[pi sl]|]; reflexivity. }
    rewrite El in A. cbn [pcur pdur ptempo pscale pquant] in *.
    split; [repeat split; assumption|]. split; [exact A|]. split; [exact B|]. split; [exact C|]. split; [exact D|].
    exists (new ++ new2). split; [rewrite E1, Z3; symmetry; apply app_assoc|].
    rewrite map_app, Z4, E2. cbn [sounding combine flat_map map]. rewrite app_nil_r. reflexivity.
Qed.

Lemma c09 : forall calls l s' p, let s := session calls in
  In p (current s) -> exec [UChord (map play l)] s = (s', Ok) ->
  exists d, (no_globals s -> d = pdur (getp s p)) /\
  let q := getp s' p in let lens := lengths (ptempo q) (pscale q) d l in
  pcur q = nadd (pcur (getp s p)) (fold_left nmin lens nmaxval) /\ plast q = pcur (getp s p) /\
  between_events s' /\ pdur q = inforce_after d l /\
  exists new, notes_of s' (instance s p) = notes_of s (instance s p) ++ new /\
    map times new = sounding (pquant q) l (map (fun _ => pcur (getp s p)) l) lens.
Proof.
  intros calls l s' p s Hp H. destruct (chord_follows _ _ _ (session_wf calls) H) as [K V]. specialize (V p Hp).
  fold s in V. cbn [s_upd] in V. destruct (s_globals (view p s)) as [z|] eqn:Ez; [|discriminate].
  cbn [obind] in V. destruct (s_globals_facts _ _ Ez) as (F1 & F2 & F3 & F4 & F5 & F6 & F7 & _).
  assert (Hc : so_chord (with_chord true z) = true) by reflexivity.
  destruct (ochord_solo _ _ _ _ _ _ Hc V) as ((T1 & T2 & T3) & A & B & C & D & new & E1 & E2).
  cbn [with_chord so_part so_notes view] in *.
  exists (pdur (so_part z)). split.
  - intros G. apply s_globals_quiet in Ez; [|exact G]. subst z. reflexivity.
  - cbv zeta.
    change (ptempo (nc (getp s' p))) with (ptempo (getp s' p)) in T1.
    change (pscale (nc (getp s' p))) with (pscale (getp s' p)) in T2.
    change (pquant (nc (getp s' p))) with (pquant (getp s' p)) in T3.
    rewrite T1, T2, T3. change (pcur (nc (getp s p))) with (pcur (getp s p)) in F1. rewrite F1 in *.
    split; [exact A|]. split; [exact B|]. split; [exact C|]. split; [exact D|].
    exists new. split; [|exact E2]. rewrite (k_org _ _ K p) in E1. rewrite F5 in E1. exact E1.
Qed.

(* ---------------- C11 ---------------- *)

Lemma lstep_current : forall (L : label -> Prop) (a b : score), (forall l, L l -> local_label l) ->
  Forall (fun p => (p < List.length (heap a))%nat) (current a) -> lstep L a b ->
  current b = current a /\ List.length (heap b) = List.length (heap a).
Proof.
  intros L a b HL W H. destruct H; try (split; [reflexivity|]; try reflexivity; apply heap_setp);
    try (exfalso; match goal with X : L _ |- _ => exact (HL _ X) end).
  - rewrite Forall_forall in W. destruct (emit_solo _ _ _ _ _ _ (W _ H) H0) as [O _]. split; apply O.
  - exfalso. destruct H as [->|(? & ? & ->)]; exact (HL _ H0).
Qed.

Lemma each_modp_get : forall (f : pid -> part -> part) l s s' p, In p l -> NoDup l ->
  Forall (fun p => (p < List.length (heap s))%nat) l ->
  each (fun q s => (modp q (f q) s, Ok)) l s = (s', Ok) -> getp s' p = f p (getp s p).
Proof.
  intros f l. induction l as [|q l IH]; intros s s' p Hp Hn Hl H; [destruct Hp|].
  cbn [each seqo] in H. inversion Hn; subst. inversion Hl; subst.
  assert (E : forall l s s', ~ In p l -> each (fun q s => (modp q (f q) s, Ok)) l s = (s', Ok) -> getp s' p = getp s p).
  { clear. induction l as [|q l IH]; intros s s' Hn H; cbn [each seqo] in H; [inversion H; reflexivity|].
    rewrite (IH (modp q (f q) s)); [|intros F; apply Hn; right; exact F|exact H].
    apply getp_setp_other. intros ->. apply Hn; left; reflexivity. }
  destruct Hp as [->|Hp].
  - rewrite (E _ _ _ H2 H). apply getp_setp_same. assumption.
  - rewrite (IH (modp q (f q) s) s'); [|exact Hp|assumption|rewrite heap_modp; assumption|exact H].
    f_equal. apply getp_setp_other. intros ->. contradiction.
Qed.

Lemma c11 : forall calls es d s' p, let s := session calls in
  Forall (upd_all local_label) es -> stored local_label s ->
  In p (current s) -> exec [UCram es d] s = (s', Ok) ->
  pscale (getp s' p) = pscale (getp s p) /\ pdur (getp s' p) = meant d (pdur (getp s p)).
Proof.
  intros calls es d s' p s Hes Hst Hp H. unfold exec, run_all in H. cbn [each] in H.
  assert (H' : run 1 (UCram es d) s = (s', Ok)).
  { destruct (run 1 (UCram es d) s) as [s1 []]; cbn [seqo] in H; congruence. }
  clear H. unfold run in H'. cbn [run_upd] in H'. cbv zeta in H'.
  destruct (session_wf calls) as [W1 W2]. fold s in W1, W2.
  destruct (cram_scale (dur_deref 1 (variables s)) es d s) as [s1 []] eqn:E; try discriminate. cbn [seqo] in H'.
  match type of H' with seqo ?r _ = _ => destruct r as [s2 []] eqn:E2; try discriminate end. cbn [seqo] in H'.
  assert (K1 : keep s s1 /\ (variables s1 = variables s /\ globals s1 = globals s)).
  { unfold cram_scale in E.
    edestruct (fun A => each_only _ (fun _ x => match time_scale (dur_deref 1 (variables s)) es d (so_part x) with
      | (ts, Ok) => Some (on_part (set_pscale ts) x) | _ => None end) _ _ _ W1 W2 A E) as (K1 & _ & (A1 & _ & B1 & _) & _); [|split; [exact K1|split; assumption]].
    intros q s3 s4 _ Hq E3. cbn [view so_part]. rewrite time_scale_nc by (intros; apply dur_deref_com).
    destruct (time_scale _ _ _ _) as [ts []]; try discriminate. inversion E3; subst s4.
    split; [apply modp_only; reflexivity|]. rewrite view_modp by auto. reflexivity. }
  destruct K1 as [K1 [G1 G2]].
  assert (S1 : store_all local_label s1).
  { split; [rewrite G1; exact Hst|]. intros off us _. apply Forall_forall. intros u _. destruct u; exact I. }
  assert (St : lstar local_label s1 s2).
  { assert (E3 : run_all 1 es s1 = (s2, Ok)).
    { rewrite <- E2. unfold run_all, run. clear. revert s1. induction es as [|e t IH]; intros s1; [reflexivity|]. cbn [each].
      destruct (run_upd _ _ e s1) as [s3 []]; cbn [seqo]; auto. }
    exact (run_all_lstar local_label 1 es s1 s2 Ok Hes E3 S1). }
  assert (C2 : current s2 = current s1 /\ List.length (heap s2) = List.length (heap s1)).
  { eapply (lstar_inv local_label (fun x => current x = current s1 /\ List.length (heap x) = List.length (heap s1))); [|exact St|split; reflexivity].
    intros a b [Ha1 Ha2] Hab. destruct (lstep_current _ a b (fun l x => x)) with (2 := Hab) as [B1 B2].
    - rewrite Ha1, Ha2, (k_cur _ _ K1), (k_len _ _ K1). exact W1.
    - split; congruence. }
  destruct C2 as [C2 L2]. rewrite (k_cur _ _ K1) in C2. rewrite (k_len _ _ K1) in L2.
  unfold cram_finish in H'.
  apply (each_modp_get (fun pd p => set_pscale (pget n0 pd (map (fun p => (p, pscale (getp s p))) (current s)))
                       (set_pdur (match d with Some _ => d | None => pget None pd (map (fun p => (p, pdur (getp s p))) (current s)) end) p)))
    with (p := p) in H'; [|rewrite C2; exact Hp|rewrite C2; eapply NoDup_map_NoDup; exact W2|rewrite C2, L2; exact W1].
  rewrite H'. rewrite (pget_map _ _ (fun p => pscale (getp s p))) by exact Hp.
  rewrite (pget_map _ _ (fun p => pdur (getp s p))) by exact Hp. split; reflexivity.
Qed.

(* ---------------- C14 ---------------- *)

Lemma stored_store : forall (L : label -> Prop) s, (forall c, L (LChan c)) -> stored L s -> store_all L s.
Proof.
  intros L s Hc H. split; [exact H|]. intros off us _. apply Forall_forall. intros u _. destruct u; try exact I. apply Hc.
Qed.
Lemma view_current : forall p l s, view p (set_current l s) = view p s.
Proof. reflexivity. Qed.

Lemma c14_gen : forall (L : label -> Prop), (forall l, L l -> group_label l) -> (forall c, L (LChan c)) ->
  (exact_equality \/ (~ L LGlobal /\ forall n, ~ L (LMark n))) ->
  forall calls us s1 p, let s := session calls in
  Forall (upd_all L) us -> stored L s -> In p (current s) ->
  exec us s = (s1, Ok) -> exists s2, exec us (set_current [p] s) = (s2, Ok) /\ view p s1 = view p s2.
Proof.
  intros L HL Hc Hx calls us s1 p s Hus Hst Hp H1.
  pose proof (session_wf calls) as W. fold s in W.
  assert (O1 : okay L True s).
  { split; [exact W|apply stored_store; assumption|]. intros _. right. split; [|exact Hx].
    intros rs Hr. exact (HL _ Hr). }
  assert (O2 : okay L True (set_current [p] s)).
  { split; [|apply stored_store; assumption|intros _; left; exists p; reflexivity].
    destruct W as [W1 W2]. split; cbn.
    - constructor; [|constructor]. rewrite Forall_forall in W1. apply W1, Hp.
    - constructor; [intros []|constructor]. }
  destruct (exec_pairs p L HL us Hus s s1 (set_current [p] s)) as [s2 [E R]]; [|exact H1|].
  - split; [apply session_inv|exact O1|exact O2|exact Hp|reflexivity|reflexivity|].
    split; [left; reflexivity|]. intros e He _. exact He.
  - exists s2. split; [exact E|apply R].
Qed.

Lemma c14_view : forall calls us s1 s2 p, let s := session calls in
  In p (current s) -> exec us s = (s1, Ok) -> view p s1 = view p s2 ->
  notes_of s1 (instance s p) = notes_of s2 (instance s p) /\
  unchanneled (getp s1 p) = unchanneled (getp s2 p) /\
  globals s1 = globals s2 /\ markers s1 = markers s2 /\ variables s1 = variables s2.
Proof.
  intros calls us s1 s2 p s Hp H1 V. unfold view in V.
  assert (O : porigin (getp s1 p) = instance s p).
  { destruct (session_inv calls) as [_ Hc _ _ _ _ _ _]. rewrite Forall_forall in Hc.
    destruct (star_inv_idext s s1 (run_all_star _ _ _ _ _ H1) (session_inv calls)) as [_ [_ X]].
    apply (X p (Hc p Hp)). }
  assert (O2 : porigin (getp s2 p) = porigin (getp s1 p)).
  { apply (f_equal (fun x => porigin (so_part x))) in V. symmetry. exact V. }
  split; [apply (f_equal so_notes) in V; cbn [so_notes] in V; rewrite O2, O in V; exact V|].
  split; [apply (f_equal so_part) in V; exact V|].
  split; [apply (f_equal so_glob) in V; exact V|].
  split; [apply (f_equal so_mark) in V; exact V|apply (f_equal so_vars) in V; exact V].
Qed.

Lemma c14 : forall calls us s1 p, let s := session calls in
  Forall (upd_all plain_label) us -> stored plain_label s -> In p (current s) ->
  exec us s = (s1, Ok) ->
  exists s2, exec us (set_current [p] s) = (s2, Ok) /\
  notes_of s1 (instance s p) = notes_of s2 (instance s p) /\
  unchanneled (getp s1 p) = unchanneled (getp s2 p).
Proof.
  intros calls us s1 p s Hus Hst Hp H1.
  destruct (c14_gen plain_label) with (calls := calls) (us := us) (s1 := s1) (p := p) as [s2 [E V]]; try assumption.
  - intros l Hl. destruct l; cbn in *; try exact I; contradiction.
  - intros c; exact I.
  - right. split; [intros []|intros n []].
  - exists s2. split; [exact E|]. destruct (c14_view calls us s1 s2 p Hp H1 V) as (A & B & _). auto.
Qed.

Lemma c14_shared : @exact_equality N -> forall calls us s1 p, let s := session calls in
  Forall (upd_all group_label) us -> stored group_label s -> In p (current s) ->
  exec us s = (s1, Ok) ->
  exists s2, exec us (set_current [p] s) = (s2, Ok) /\
  notes_of s1 (instance s p) = notes_of s2 (instance s p) /\
  unchanneled (getp s1 p) = unchanneled (getp s2 p) /\
  globals s1 = globals s2 /\ markers s1 = markers s2 /\ variables s1 = variables s2.
Proof.
  intros Hx calls us s1 p s Hus Hst Hp H1.
  destruct (c14_gen group_label) with (calls := calls) (us := us) (s1 := s1) (p := p) as [s2 [E V]]; try assumption; auto.
  - intros c; exact I.
  - exists s2. split; [exact E|]. apply (c14_view calls us s1 s2 p Hp H1 V).
Qed.
End Timing.

Lemma exact_XQ : @exact_equality XQ.
Proof.
  intros [a| | |] [b| | |] H; cbn in H; try discriminate; try reflexivity. f_equal. apply ProofNum.qc_eqb_eq. exact H.
Qed.

(** The fold of [math.Min] is the least element. *)
Lemma min_fold : forall (l : list xq) a, representable a -> Forall representable l ->
  (fold_left xq_min l a = a \/ In (fold_left xq_min l a) l) /\
  representable (fold_left xq_min l a) /\
  forall y, y = a \/ In y l -> xq_leb (fold_left xq_min l a) y = true.
Proof.
  assert (R : forall q, xq_leb (Fin q) (Fin q) = true).
  { intros q. rewrite xq_leb_fin. apply qc_leb_le, Qcle_refl. }
  assert (T : forall a b c, xq_leb (Fin a) (Fin b) = true -> xq_leb (Fin b) (Fin c) = true -> xq_leb (Fin a) (Fin c) = true).
  { intros a b c. rewrite !xq_leb_fin, !qc_leb_le. apply Qcle_trans. }
  induction l as [|b l IH]; intros a Ha Hl.
  - cbn [fold_left]. split; [left; reflexivity|]. split; [assumption|]. intros y [->|[]]. destruct Ha as [q [-> _]]. apply R.
  - inversion Hl as [|? ? Hb Hl']; subst. cbn [fold_left].
    assert (M : (xq_min a b = a \/ xq_min a b = b) /\ xq_leb (xq_min a b) a = true /\ xq_leb (xq_min a b) b = true).
    { destruct Ha as [qa [-> _]], Hb as [qb [-> _]]. cbn [xq_min xq_ltb]. destruct (qc_ltb qa qb) eqn:E.
      - split; [left; reflexivity|]. split; [apply R|]. rewrite xq_leb_fin. apply qc_leb_le, Qclt_le_weak, qc_ltb_lt, E.
      - split; [right; reflexivity|]. split; [|apply R]. rewrite xq_leb_fin. apply qc_leb_le, qc_ltb_ge, E. }
    destruct M as [M1 [M2 M3]].
    assert (Hm : representable (xq_min a b)) by (destruct M1 as [-> | ->]; assumption).
    destruct (IH _ Hm Hl') as [I1 [I2 I3]]. split; [|split; [exact I2|]].
    + destruct I1 as [I1|I1]; [rewrite I1|right; right; exact I1].
      destruct M1 as [->|M1]; [left; reflexivity|right; left; symmetry; exact M1].
    + intros y Hy. assert (F : xq_leb (fold_left xq_min l (xq_min a b)) (xq_min a b) = true) by (apply I3; left; reflexivity).
      destruct I2 as [qr [Er _]], Hm as [qm [Em _]], Ha as [qa [Ea _]], Hb as [qb [Eb _]].
      destruct Hy as [->|[<-|Hy]].
      * rewrite Er, Em in *. rewrite Ea in *. exact (T _ _ _ F M2).
      * rewrite Er, Em in *. rewrite Eb in *. exact (T _ _ _ F M3).
      * apply I3. right. exact Hy.
Qed.
Lemma c09_shortest : forall l : list xq, l <> [] -> Forall representable l ->
  shortest (N := XQ) (fold_left xq_min l xq_maxval) l.
Proof.
  intros l Hne Hl.
  destruct (min_fold l xq_maxval) as [A [_ B]]; [|exact Hl|].
  { eexists. split; [reflexivity|]. unfold xq_maxval, xq_ofZ. rewrite xq_leb_fin. apply qc_leb_le, Qcle_refl. }
  split; [|intros y Hy; apply B; right; exact Hy].
  destruct A as [A|A]; [|exact A]. destruct l as [|b l]; [contradiction|].
  assert (E : xq_leb (fold_left xq_min (b :: l) xq_maxval) b = true) by (apply B; right; left; reflexivity).
  inversion Hl as [|? ? [q [Hq Hb]] _]; subst. rewrite A in *. left. unfold xq_maxval, xq_ofZ in *.
  rewrite xq_leb_fin in *. apply qc_leb_le in E, Hb. f_equal. apply Qcle_antisym; assumption.
Qed.
Lemma c09_exact : forall calls l s' p, let s := session (N := XQ) calls in
  In p (current s) -> no_globals s -> l <> [] -> exec [UChord (map play l)] s = (s', Ok) ->
  let q := getp s' p in let lens := lengths (ptempo q) (pscale q) (pdur (getp s p)) l in
  Forall representable lens ->
  exists m, shortest m lens /\ pcur q = xq_add (pcur (getp s p)) m.
Proof.
  intros calls l s' p s Hp Hg Hl H q lens Hr. destruct (c09 calls l s' p Hp H) as [d [Hd [A _]]].
  specialize (Hd Hg). subst d. exists (fold_left xq_min lens xq_maxval). split; [|exact A].
  apply c09_shortest; [|exact Hr]. unfold lens, lengths. destruct l; [contradiction|discriminate].
Qed.
