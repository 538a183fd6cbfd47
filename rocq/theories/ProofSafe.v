(** Score updates only ever end in success or an error value (C16, C21). *)
From Coq Require Import ZArith List String Bool Lia Arith.
From Verif Require Import Base Num ModelPitch ModelDuration ModelInstruments ModelTypes ModelLisp
  ModelScore SpecScore SpecVars ProofHeap ProofStep ProofInv ProofEvents ProofVoices ProofVars.
Import ListNotations.

Section Safe.
Context {N : Num}.
Local Opaque stock_instrument.

(** With [b = true] updates are safe and no crash is allowed; with [b = false]
    nothing is assumed and only exhaustion of the budget is excluded. *)
Variable b : bool.

Definition SL (l : label) : Prop := b = true ->
  match l with
  | LChan c => (0 <= c <= 15)%Z
  | LPart names _ => names <> []
  | LTimes n => n <> max_int32
  | LLispPanic => False
  | _ => True
  end.

Definition fine (o : outcome) : Prop :=
  match o with Ok | Err _ => True | OutOfFuel => False | Panic _ | Hang => b = false end.

Definition chok (q : part) : Prop :=
  (-1 <= pchan q <= 15)%Z /\ (pexplicit q = true -> (0 <= pchan q)%Z).
Definition chans (s : score) : Prop := Forall chok (heap s).

Record J (s : score) : Prop := MkJ {
  j_inv : inv s; j_vinv : vinv s; j_vars : vclosed s; j_store : store_all SL s;
  j_chan : b = true -> chans s }.

Lemma chans_getp : forall s p, chans s -> chok (getp s p).
Proof.
  intros s p H. unfold getp. destruct (Nat.lt_ge_cases p (List.length (heap s))) as [L|L].
  - eapply Forall_forall in H; [exact H|]. apply nth_In; exact L.
  - rewrite nth_overflow by exact L. unfold chok; cbn. split; [lia|discriminate].
Qed.
Lemma Forall_upd_nth : forall A (P : A -> Prop) l i x, Forall P l -> P x -> Forall P (upd_nth i x l).
Proof.
  intros A P l i x H Hx. rewrite Forall_forall in *. intros y Hy. apply in_upd_nth in Hy.
  destruct Hy as [->|Hy]; auto.
Qed.
Lemma chans_setp : forall s p v, chans s -> chok v -> chans (setp p v s).
Proof. intros s p v H Hv. apply Forall_upd_nth; assumption. Qed.
Lemma chans_app : forall s v, chans s -> chok v -> Forall chok (heap s ++ [v]).
Proof. intros s v H Hv. apply Forall_app. split; [exact H|]. constructor; [exact Hv|constructor]. Qed.

Lemma new_voice_chans : forall p n s v s1, new_voice p n s = ROk (v, s1) -> chans s -> chans s1.
Proof.
  intros p n s v s1 H C. unfold new_voice, clone in H.
  assert (G : forall s0, chans s0 -> rbind (ROk s0) (fun s1 =>
       match ptmpl (getp s1 p) with
       | None => RPanic "nil pointer dereference"
       | Some t =>
           let (v, s2) := (List.length (heap s1), set_heap (heap s1 ++ [set_povr None (getp s1 t)]) s1) in
           let cell := pvoices (getp s2 p) in
           ROk (v, setv cell (getv s2 cell ++ [(n, v)]) s2)
       end) = ROk (v, s1) -> chans s1).
  { intros s0 C0 H0. cbn [rbind] in H0. destruct (ptmpl (getp s0 p)) as [p0|]; [|discriminate].
    inversion H0; subst. unfold chans. cbn [setv set_vheap set_heap heap]. apply chans_app; [exact C0|].
    apply (chans_getp s0 p0 C0). }
  destruct (has_voices s p); [exact (G _ C H)|].
  destruct (ptmpl (getp s p)); [discriminate|]. refine (G _ _ H).
  assert (C1 : chans (set_heap (heap s ++ [set_povr None (getp s p)]) s)).
  { apply chans_app; [exact C|]. apply (chans_getp s p C). }
  unfold modp. apply chans_setp; [apply chans_setp; [exact C1|]|].
  - apply (chans_getp _ _ C1).
  - match goal with |- context [getp ?x p] => assert (C2 : chans x) end.
    { apply chans_setp; [exact C1|]. apply (chans_getp _ _ C1). }
    apply (chans_getp _ _ C2).
Qed.
Lemma get_voice_chans : forall p n s v s1, get_voice p n s = ROk (v, s1) -> chans s -> chans s1.
Proof.
  intros p n s v s1 H C. unfold get_voice in H. destruct (aget _ _ _).
  - inversion H; subst; exact C.
  - eapply new_voice_chans; eassumption.
Qed.
Lemma vend_loop_chans : forall cnt i s, chans s -> chans (voice_end_loop i cnt s).
Proof.
  induction cnt as [|k IH]; intros i s C; cbn [voice_end_loop]; [exact C|].
  destruct (nth_error (current s) i) as [p|]; [|exact C]. apply IH.
  unfold voice_end_one. destruct (getv s (pvoices (getp s p))) as [|x l]; [exact C|].
  unfold chans. cbn [set_aliases set_parts set_current heap].
  apply (chans_setp (set_vheap (vheap s ++ [[]]) s)); [exact C|].
  apply (chans_getp (set_vheap (vheap s ++ [[]]) s)); exact C.
Qed.
Lemma new_part_chans : forall n s p s1, new_part n s = ROk (p, s1) -> chans s -> chans s1.
Proof.
  intros n s p s1 H C. unfold new_part in H. destruct (stock_instrument n); [|discriminate].
  inversion H; subst. apply (chans_app s); [exact C|]. split; cbn; [lia|discriminate].
Qed.
Lemma group_parts_chans : forall names s np sp s1, group_parts names s = ROk (np, sp, s1) -> chans s -> chans s1.
Proof.
  induction names as [|n t IH]; intros s np sp s1 H C; cbn [group_parts] in H; [inversion H; subst; auto|].
  unfold rmap, rbind in H.
  destruct (nonempty (named_parts s n)); [|destruct (nonempty (unnamed_parts s n))].
  - destruct (group_parts t s) as [[[x y] z]|m|m] eqn:E; [|discriminate H|discriminate H]. inversion H; subst. eauto.
  - destruct (group_parts t s) as [[[x y] z]|m|m] eqn:E; [|discriminate H|discriminate H]. inversion H; subst. eauto.
  - destruct (new_part n s) as [[p s2]|m|m] eqn:E2; [|discriminate H|discriminate H].
    destruct (group_parts t s2) as [[[x y] z]|m|m] eqn:E; [|discriminate H|discriminate H]. inversion H; subst.
    eapply IH; [exact E|]. eapply new_part_chans; eassumption.
Qed.
Lemma new_parts_chans : forall names s ps s1, new_parts names s = ROk (ps, s1) -> chans s -> chans s1.
Proof.
  induction names as [|n t IH]; intros s ps s1 H C; cbn [new_parts] in H; [inversion H; subst; auto|].
  unfold rmap, rbind in H.
  destruct (new_part n s) as [[p s2]|m|m] eqn:E2; [|discriminate H|discriminate H].
  destruct (new_parts t s2) as [[x y]|m|m] eqn:E; [|discriminate H|discriminate H]. inversion H; subst.
  eapply IH; [exact E|]. eapply new_part_chans; eassumption.
Qed.
Lemma determine_chans : forall names alias s ps s1, determine_parts names alias s = ROk (ps, s1) ->
  chans s -> chans s1.
Proof.
  intros names alias s ps s1 H C. unfold determine_parts in H.
  assert (Hnp : forall n, rmap (fun '(p, s1) => ([p], s1)) (new_part n s) = ROk (ps, s1) -> chans s1).
  { intros n Hn. unfold rmap, rbind in Hn.
    destruct (new_part n s) as [[p s2]|m|m] eqn:E; [|discriminate Hn|discriminate Hn].
    inversion Hn; subst. eapply new_part_chans; eassumption. }
  assert (Hgr : forall (c : bool), (if c then RErr "name included multiple times in group"
      else rbind (group_parts names s) (fun '(np, sp, s1) =>
        if nonempty np && nonempty sp then RErr "invalid group"
        else if negb (is_empty_string alias) && nonempty sp then new_parts names s1
        else ROk (dedup (np ++ sp) [], s1))) = ROk (ps, s1) -> chans s1).
  { intros c Hb. destruct c; [discriminate Hb|]. unfold rbind in Hb.
    destruct (group_parts names s) as [[[np sp] s2]|m|m] eqn:E; [|discriminate Hb|discriminate Hb].
    apply group_parts_chans in E; [|exact C].
    destruct (nonempty np && nonempty sp); [discriminate Hb|].
    destruct (negb (is_empty_string alias) && nonempty sp).
    - eapply new_parts_chans; eassumption.
    - inversion Hb; subst. exact E. }
  destruct names as [|n [|n2 r]]; [exact (Hgr (has_dup []) H)| |exact (Hgr (has_dup (n :: n2 :: r)) H)].
  repeat match type of H with
         | (if ?b then _ else _) = _ => destruct b
         | RErr _ = _ => discriminate H
         end; try (apply (Hnp _ H)); inversion H; subst; auto.
Qed.
Lemma run_part_chans : forall names alias s s' o, run_part names alias s = (s', o) -> chans s -> chans s'.
Proof.
  intros names alias s s' o H C. unfold run_part in H.
  assert (C0 : chans (run_voice_end s)) by (apply vend_loop_chans; exact C).
  destruct (determine_parts names alias (run_voice_end s)) as [[ps s1]|m|m] eqn:E;
    [|inversion H; subst; exact C0|inversion H; subst; exact C0].
  apply determine_chans in E; [|exact C0].
  assert (G : forall s2, chans s2 ->
     chans (set_current ps (let s3 := add_new_parts ps s2 in
                 if is_empty_string alias then s3 else define_aliases alias ps s3))).
  { intros s2 H2. cbv zeta. unfold chans. cbn [set_current heap].
    assert (H3 : chans (add_new_parts ps s2)).
    { unfold chans. destruct (add_new_parts_frame ps s2) as [pl [A _]]. rewrite A. exact H2. }
    destruct (is_empty_string alias); [exact H3|].
    destruct (define_aliases_frame alias ps (add_new_parts ps s2)) as [al [A _]]. rewrite A. exact H3. }
  destruct (parts s1); [destruct ps as [|p0 ps]|].
  - inversion H; subst. exact E.
  - inversion H; subst s'. apply (G (modp p0 (set_pmaster true) s1)).
    apply chans_setp; [exact E|]. apply (chans_getp s1 p0 E).
  - inversion H; subst s'. apply (G s1). exact E.
Qed.

Lemma step_chans : forall s s', b = true -> chans s -> lstep SL s s' -> chans s'.
Proof.
  intros s s' Hb C H. destruct H; try exact C.
  - apply chans_setp; [exact C|]. destruct H0 as (_ & _ & _ & A & B & _). unfold chok. rewrite A, B. apply chans_getp; exact C.
  - apply chans_setp; [exact C|]. specialize (H1 Hb). cbn in H1. split; cbn; lia.
  - apply emit_shape in H0. cbv zeta in H0.
    destruct H0 as [[-> _]|(c & us & Haud & Hn & Hcr & Hdet & Hus & ->)]; [exact C|].
    unfold chans. cbn [set_events heap]. unfold modp.
    assert (C1 : chans (setp p (set_pchan c (getp (set_usage us s) p)) (set_usage us s))).
    { apply chans_setp; [exact C|]. split; cbn; lia. }
    apply chans_setp; [exact C1|]. split; cbn; lia.
  - unfold chans. cbn [set_current heap]. eapply get_voice_chans; eassumption.
  - apply vend_loop_chans; exact C.
  - eapply run_part_chans; eassumption.
Qed.

Lemma J_step : forall s s', J s -> lstep SL s s' -> J s'.
Proof.
  intros s s' [A B C D E] H. pose proof (lstep_step _ _ _ H) as H0. constructor.
  - eapply step_inv; eassumption.
  - eapply step_vinv; eassumption.
  - eapply step_vclosed; eassumption.
  - eapply step_store; eassumption.
  - intros Hb. eapply step_chans; eauto.
Qed.
Lemma J_star : forall s s', J s -> lstar SL s s' -> J s'.
Proof. intros s s' Hj H. induction H; [exact Hj|]. eapply J_step; eauto. Qed.
Lemma J_gstar : forall s s', J s -> gstar SL s s' -> J s'.
Proof. intros s s' Hj H. eapply J_star; [exact Hj|]. apply H. apply (j_store s Hj). Qed.
Lemma J_starc : forall s s', J s -> starc SL s s' -> J s'.
Proof. intros s s' Hj H. eapply J_gstar; [exact Hj|apply H]. Qed.
Lemma J_new : J new_score.
Proof.
  constructor; [apply inv_new|apply vinv_new|apply new_vclosed| |intros _; constructor].
  split; cbn; intros ? ? [].
Qed.

(* ---------------- outcomes ---------------- *)

Lemma each_fine : forall A (f : A -> score -> score * outcome) l s,
  (forall x s1, In x l -> current s1 = current s -> J s1 ->
     fine (snd (f x s1)) /\ starc SL s1 (fst (f x s1))) ->
  J s -> fine (snd (each f l s)).
Proof.
  intros A f l. induction l as [|x t IH]; intros s H Hj; [exact I|]. cbn [each].
  destruct (H x s (or_introl eq_refl) eq_refl Hj) as [H1 H2].
  destruct (f x s) as [s1 o] eqn:E. cbn [fst snd] in *. destruct o; try exact H1. cbn [seqo].
  apply IH; [|eapply J_starc; eassumption].
  intros y s2 Hy Hc Hj2. apply H; [right; exact Hy| |exact Hj2]. destruct H2 as [_ H2]. congruence.
Qed.

Lemma each_always : forall A (f : A -> score -> score * outcome) l s,
  (forall x s1, fine (snd (f x s1))) -> fine (snd (each f l s)).
Proof.
  intros A f l. induction l as [|x t IH]; intros s H; [exact I|]. cbn [each].
  specialize (H x s) as H1. destruct (f x s) as [s1 []]; try exact H1. cbn [seqo]. apply IH, H.
Qed.

Lemma do_update_fine : forall u g p s, fine (snd (do_update_part u g p s)).
Proof.
  intros u g p s. unfold do_update_part.
  destruct u; cbn [update_part]; try exact I. destruct (_ && _); exact I.
Qed.
Lemma seqo_fine : forall r k, fine (snd r) -> (forall s1, r = (s1, Ok) -> fine (snd (k s1))) -> fine (snd (seqo r k)).
Proof. intros [s1 []] k H1 H2; cbn in *; auto. Qed.
Lemma run_attr_fine : forall u s, fine (snd (run_attr u s)).
Proof.
  intros u s. apply each_always. intros p s1. apply seqo_fine; [apply do_update_fine|]. intros; exact I.
Qed.
Lemma apply_globals_fine : forall s, fine (snd (apply_globals s)).
Proof.
  intros s. apply each_always. intros p s1. apply seqo_fine; [|intros; exact I].
  apply each_always. intros u s2. destruct (overrides _ _); [exact I|apply do_update_fine].
Qed.

Lemma emit_fine : forall pi sl dms p s, J s -> fine (snd (emit_note pi sl dms p s)).
Proof.
  intros pi sl dms p s Hj. unfold emit_note. destruct (nltb n0 _); [|exact I].
  destruct (_ || _)%bool; [exact I|].
  destruct (assign_channel s (getp s p) _) as [[c s1]|m|m] eqn:E; try exact I.
  cbn [snd fine]. destruct b eqn:Hb; [exfalso|reflexivity].
  pose proof (chans_getp s p (j_chan s Hj Hb)) as C.
  unfold assign_channel, rbind in E.
  assert (D : forall q dur, chok q -> exists r, determine_channel s q dur = r /\
      match r with ROk c => chan_ok c = true | RErr _ => True | RPanic _ => False end).
  { intros q dur [Cq Cx]. eexists; split; [reflexivity|]. unfold determine_channel.
    assert (Ck : pchan q <> (-1)%Z -> chan_ok (pchan q) = true) by (intros; unfold chan_ok; lia).
    assert (AV : match available_channel s q dur with ROk c => chan_ok c = true | RErr _ => True | RPanic _ => False end).
    { unfold available_channel. destruct (simple_check s (porigin q)) as [c|] eqn:Es.
      - unfold simple_check in Es. apply find_some in Es. destruct Es as [Es _].
        unfold all_channels in Es. cbn [In] in Es. unfold chan_ok. lia.
      - destruct (complex_check s q dur) as [c|] eqn:Ec; [|exact I].
        unfold complex_check in Ec. destruct (negb (pchan q =? -1)%Z && _) eqn:E1.
        + inversion Ec; subst. apply andb_prop in E1. apply Ck. lia.
        + apply find_some in Ec. destruct Ec as [Es2 _].
          unfold all_channels in Es2. cbn [In] in Es2. unfold chan_ok. lia. }
    destruct (iperc (pstock q)); [reflexivity|]. destruct (pexplicit q) eqn:Ex.
    - destruct (negb (chan_ok (pchan q))) eqn:Eo.
      + exfalso. apply negb_true_iff in Eo. rewrite Ck in Eo; [discriminate|]. specialize (Cx eq_refl). lia.
      + apply negb_false_iff in Eo. destruct (_ || _)%bool; [exact Eo|].
        destruct (complex_check s q dur); [destruct (_ =? _)%Z; [exact Eo|exact I]|].
        destruct (_ =? _)%Z; [exact Eo|exact I].
    - destruct (pchan q =? -1)%Z eqn:E1; cbn [negb]; [exact AV|].
      rewrite Ck by lia. cbn [negb]. destruct (exclusive _ _ _); [apply Ck; lia|exact AV]. }
  destruct (D (getp s p) (if sl then dms else nmul dms (pquant (getp s p))) C) as [r [D1 D2]].
  rewrite D1 in E. destruct r; [|discriminate|destruct D2]. rewrite D2 in E. cbn [negb] in E.
  destruct (existsb _ _); discriminate.
Qed.

Lemma note_one_fine : forall nr d p s, J s -> fine (snd (note_one nr d p s)).
Proof.
  intros nr d p s Hj. unfold note_one. apply seqo_fine; [|intros; exact I].
  destruct nr as [[pi sl]|]; [apply emit_fine; exact Hj|exact I].
Qed.

Lemma fst_snd : forall (r : score * outcome), r = (fst r, snd r).
Proof. intros [? ?]; reflexivity. Qed.

Lemma add_note_fine : forall nr d s, J s -> fine (snd (add_note_or_rest nr d s)).
Proof.
  intros nr d s Hj. unfold add_note_or_rest. apply seqo_fine.
  - destruct (chordmode s); [exact I|apply apply_globals_fine].
  - intros s1 E. assert (Hj1 : J s1).
    { destruct (chordmode s); [inversion E; subst; exact Hj|].
      apply (apply_globals_starc SL) in E. eapply J_starc; eassumption. }
    destruct (dur_valid d); [|exact I]. apply each_fine; [|exact Hj1].
    intros p s2 Hp Hc Hj2. split; [apply note_one_fine; exact Hj2|].
    eapply note_one_starc; [|apply fst_snd]. congruence.
Qed.
Lemma run_prim_fine : forall q s, J s -> fine (snd (run_prim q s)).
Proof.
  intros [pi d sl|d|u|u] s Hj; cbn [run_prim].
  - apply add_note_fine; exact Hj.
  - apply add_note_fine; exact Hj.
  - apply run_attr_fine.
  - unfold run_gattr. destruct (current s); [exact I|]. destruct (same_offset _ _ _); exact I.
Qed.

Lemma voice_loop_fine : forall n cnt i s, J s -> fine (snd (voice_loop n i cnt s)).
Proof.
  intros n cnt. induction cnt as [|k IH]; intros i s Hj; cbn [voice_loop]; [exact I|].
  destruct (nth_error (current s) i) as [p|] eqn:E; [|exact I]. apply nth_error_In in E.
  destruct (vi_link s (j_vinv s Hj) p E) as [q [Hq Hl]].
  destruct (get_voice_shape s p n q (j_inv s Hj) (j_vinv s Hj) E Hq Hl) as (v & s1 & G & _).
  rewrite G. apply IH. eapply J_step; [exact Hj|]. eapply St_voice; [exact E|exact G|]. intros _; exact I.
Qed.

Lemma determine_nonempty : forall names alias s s1, determine_parts names alias s = ROk ([], s1) -> names = [].
Proof.
  intros names alias s s' D. unfold determine_parts in D. destruct names as [|n [|n2 r]]; [reflexivity| |]; exfalso.
  - repeat match type of D with
             | (if ?b then _ else _) = _ => destruct b eqn:?
             | RErr _ = _ => discriminate D
             end;
        try (unfold rmap, rbind, new_part in D; destruct (stock_instrument n); discriminate D);
        try (inversion D as [[Ha Hb]]; rewrite Ha in *; cbn in *; congruence).
  - destruct (has_dup (n :: n2 :: r)); [discriminate D|].
    destruct (group_parts (n :: n2 :: r) s) as [[[np sp] s1]|m|m] eqn:E;
        cbn [rbind] in D; [|discriminate D|discriminate D].
    assert (Hne : np ++ sp <> []).
    { cbn [group_parts] in E. 
        repeat match type of E with
               | (if ?b then _ else _) = _ => destruct b eqn:?
               end; unfold rmap, rbind in E;
        repeat match type of E with
               | match ?x with _ => _ end = _ => destruct x as [[[? ?] ?]|?|?] eqn:?
               | match ?x with _ => _ end = _ => destruct x as [[? ?]|?|?] eqn:?
               end; try discriminate E; inversion E; subst;
        try (destruct (named_parts s n); [discriminate|intro; discriminate]);
        try (destruct (unnamed_parts s n); [discriminate|]);
        match goal with |- ?l ++ _ <> [] => destruct l; intro; discriminate end. }
    destruct (nonempty np && nonempty sp); [discriminate D|].
    destruct (negb (is_empty_string alias) && nonempty sp).
      * cbn [new_parts] in D. unfold rmap, rbind in D.
        destruct (new_part n s1) as [[? ?]|?|?]; [|discriminate D|discriminate D].
        destruct (new_part n2 s0) as [[? ?]|?|?]; [|discriminate D|discriminate D].
        destruct (new_parts r s2) as [[? ?]|?|?]; discriminate D.
      * inversion D as [[Ha Hb]]. destruct (np ++ sp) as [|x l]; [congruence|]. cbn in Ha. discriminate Ha.
Qed.
Lemma group_parts_nopanic : forall names s m, group_parts names s <> RPanic m.
Proof.
  induction names as [|n t IH]; intros s m H; cbn [group_parts] in H; [discriminate H|].
  unfold rmap, rbind in H.
  destruct (nonempty (named_parts s n)); [|destruct (nonempty (unnamed_parts s n))].
  - destruct (group_parts t s) as [[[x y] z]|k|k] eqn:E; [discriminate H|discriminate H|exact (IH _ _ E)].
  - destruct (group_parts t s) as [[[x y] z]|k|k] eqn:E; [discriminate H|discriminate H|exact (IH _ _ E)].
  - destruct (new_part n s) as [[p s2]|k|k] eqn:E2; [|discriminate H|].
    + destruct (group_parts t s2) as [[[x y] z]|k|k] eqn:E; [discriminate H|discriminate H|exact (IH _ _ E)].
    + unfold new_part in E2. destruct (stock_instrument n); discriminate E2.
Qed.
Lemma new_parts_nopanic : forall names s m, new_parts names s <> RPanic m.
Proof.
  induction names as [|n t IH]; intros s m H; cbn [new_parts] in H; [discriminate H|].
  unfold rmap, rbind in H.
  destruct (new_part n s) as [[p s2]|k|k] eqn:E2; [|discriminate H|].
  - destruct (new_parts t s2) as [[x y]|k|k] eqn:E; [discriminate H|discriminate H|exact (IH _ _ E)].
  - unfold new_part in E2. destruct (stock_instrument n); discriminate E2.
Qed.
Lemma determine_nopanic : forall names alias s m, determine_parts names alias s <> RPanic m.
Proof.
  intros names alias s m H. unfold determine_parts in H.
  assert (Hnp : forall n, rmap (fun '(p, s1) => ([p], s1)) (new_part n s) <> RPanic m).
  { intros n Hn. unfold rmap, rbind, new_part in Hn. destruct (stock_instrument n); discriminate Hn. }
  assert (Hgr : forall (c : bool), (if c then RErr "name included multiple times in group"
      else rbind (group_parts names s) (fun '(np, sp, s1) =>
        if nonempty np && nonempty sp then RErr "invalid group"
        else if negb (is_empty_string alias) && nonempty sp then new_parts names s1
        else ROk (dedup (np ++ sp) [], s1))) <> RPanic m).
  { intros c Hb. destruct c; [discriminate Hb|]. unfold rbind in Hb.
    destruct (group_parts names s) as [[[np sp] s2]|k|k] eqn:E; [|discriminate Hb|exact (group_parts_nopanic _ _ _ E)].
    destruct (nonempty np && nonempty sp); [discriminate Hb|].
    destruct (negb (is_empty_string alias) && nonempty sp); [exact (new_parts_nopanic _ _ _ Hb)|discriminate Hb]. }
  destruct names as [|n [|n2 r]]; [exact (Hgr (has_dup []) H)| |exact (Hgr (has_dup (n :: n2 :: r)) H)].
  repeat match type of H with
         | (if ?b then _ else _) = _ => destruct b
         | RErr _ = _ => discriminate H
         end; try (exact (Hnp _ H)); discriminate H.
Qed.
Lemma run_part_fine : forall names alias s, SL (LPart names alias) -> fine (snd (run_part names alias s)).
Proof.
  intros names alias s HL. unfold run_part.
  destruct (determine_parts names alias (run_voice_end s)) as [[ps s1]|m|m] eqn:E; [|exact I|].
  - destruct (parts s1); [destruct ps as [|p0 ps]|]; try exact I.
    apply determine_nonempty in E. cbn [snd fine]. destruct b eqn:Hb; [|reflexivity].
    exfalso. specialize (HL Hb). cbn in HL. auto.
  - exfalso. exact (determine_nopanic _ _ _ _ E).
Qed.

(* durations *)
Definition dfine (r : dres) : Prop := match r with (_, _, o) => fine o end.
Lemma dseq_fine : forall r k, dfine r -> (forall p d, dfine (k p d)) -> dfine (dseq r k).
Proof. intros [[p d] []] k H1 H2; cbn in *; auto. Qed.
Lemma prim_dur_fine : forall q p, dfine (prim_dur q p).
Proof. intros [] q0; exact I. Qed.
Lemma dur_repeat_fine : forall f, (forall p, dfine (f p)) -> forall k r p acc, dfine (dur_repeat f r k p acc).
Proof.
  intros f H k. induction k as [|k IH]; intros r p acc; [exact I|]. cbn [dur_repeat].
  apply dseq_fine; [apply H|]. intros; apply IH.
Qed.
Lemma dur_upd_fine : forall deref u, upd_all SL u ->
  (no_refs u \/ forall n p, dfine (deref n p)) -> forall p, dfine (dur_upd deref u p).
Proof.
  intros deref u. induction u using update_ind'; intros Hu Hr q; try exact I.
  - apply prim_dur_fine.
  - cbn [dur_upd upd_all] in *. destruct (eval_update els) as [[x|]|m|m]; try exact I; [apply prim_dur_fine|].
    cbn. destruct b eqn:Hb; [exfalso; exact (Hu Hb)|reflexivity].
  - cbn [upd_all] in Hu. rewrite upd_all_list in Hu. cbn [dur_upd].
    assert (Hr' : Forall no_refs es \/ forall n p, dfine (deref n p)).
    { destruct Hr as [Hr|Hr]; [left|right; exact Hr]. apply (upd_all_list _ _). exact Hr. }
    clear Hr. generalize nmaxval as acc. revert q.
    induction H as [|e t He Ht IH]; intros p acc; [exact I|]. inversion Hu; subst.
    apply dseq_fine.
    + apply He; [assumption|]. destruct Hr' as [Hr'|Hr']; [left; inversion Hr'; assumption|right; exact Hr'].
    + intros; apply IH; [assumption|]. destruct Hr' as [Hr'|Hr']; [left; inversion Hr'; assumption|right; exact Hr'].
  - destruct Hu as [Hn Hu]. cbn [dur_upd]. apply dseq_fine.
    + apply dur_repeat_fine. apply IHu; [exact Hu|]. destruct Hr as [Hr|Hr]; [left; apply Hr|right; exact Hr].
    + intros. destruct (n =? max_int32)%Z eqn:E; [|exact I]. cbn.
      destruct b eqn:Hb; [|reflexivity]. exfalso. specialize (Hn Hb). cbn in Hn. lia.
  - cbn [dur_upd]. destruct (applies_to rs (prep q)); [|exact I]. apply IHu; [exact (proj2 Hu)|].
    destruct Hr as [Hr|Hr]; [left; apply Hr|right; exact Hr].
  - cbn [upd_all] in Hu. rewrite upd_all_list in Hu. cbn [dur_upd].
    assert (Hr' : Forall no_refs es \/ forall n p, dfine (deref n p)).
    { destruct Hr as [Hr|Hr]; [left|right; exact Hr]. apply (upd_all_list _ _). exact Hr. }
    clear Hr. generalize n0 as acc. revert q.
    induction H as [|e t He Ht IH]; intros p acc; [exact I|]. inversion Hu; subst.
    apply dseq_fine.
    + apply He; [assumption|]. destruct Hr' as [Hr'|Hr']; [left; inversion Hr'; assumption|right; exact Hr'].
    + intros; apply IH; [assumption|]. destruct Hr' as [Hr'|Hr']; [left; inversion Hr'; assumption|right; exact Hr'].
  - destruct Hr as [[]|Hr]. apply Hr.
Qed.
Lemma dur_sum_fine : forall f l, (forall u p, In u l -> dfine (f u p)) -> forall p acc, dfine (dur_sum f l p acc).
Proof.
  intros f l. induction l as [|e t IH]; intros H p acc; [exact I|].
  change (dfine (dseq (f e p) (fun p d => dur_sum f t p (nadd acc d)))).
  apply dseq_fine; [apply H; left; reflexivity|]. intros; apply IH. intros; apply H; right; assumption.
Qed.
Lemma dur_deref_fine : forall s n p, J s -> dfine (dur_deref 1 (variables s) n p).
Proof.
  intros s n p Hj. cbn [dur_deref]. destruct (aget _ _ _) as [es|] eqn:E; [|exact I].
  apply aget_in in E; [|intros; apply String.eqb_eq].
  pose proof (j_vars s Hj _ _ E) as V. destruct (j_store s Hj) as [S _]. specialize (S _ _ E).
  rewrite Forall_forall in *. apply dur_sum_fine. intros u q Hu. apply dur_upd_fine; [auto|left; auto].
Qed.

Lemma run_times_fine : forall f, (forall s, J s -> fine (snd (f s))) -> (forall s, J s -> J (fst (f s))) ->
  forall k r s, J s -> fine (snd (run_times f r k s)).
Proof.
  intros f Hf Hg k. induction k as [|k IH]; intros r s Hj; cbn [run_times]; [exact I|].
  apply seqo_fine; [apply each_always; intros; exact I|]. intros s1 E.
  assert (Hj1 : J s1).
  { eapply J_starc; [exact Hj|]. eapply each_starc; [|exact E].
    intros p x y o3 Hp Hc H1. inversion H1; subst. apply soft_starc; [congruence|]. intros; repeat split. }
  apply seqo_fine; [apply Hf; exact Hj1|]. intros s2 E2. apply IH. specialize (Hg s1 Hj1). rewrite E2 in Hg. exact Hg.
Qed.
Lemma onreps_fine : forall rs f, (forall s, J s -> fine (snd (f s))) -> (forall s, J s -> J (fst (f s))) ->
  forall cnt i s, J s -> fine (snd (onreps_loop rs f i cnt s)).
Proof.
  intros rs f Hf Hg cnt. induction cnt as [|k IH]; intros i s Hj; cbn [onreps_loop]; [exact I|].
  destruct (nth_error _ _); [|exact I]. destruct (applies_to _ _).
  - apply seqo_fine; [apply Hf; exact Hj|]. intros s2 E2. apply IH. specialize (Hg s Hj). rewrite E2 in Hg. exact Hg.
  - cbn [seqo]. apply IH; exact Hj.
Qed.

Section Upd.
Variable deref : string -> score -> score * outcome.
Variable dd : list (string * list update) -> string -> part -> dres.
Hypothesis Hs : forall n s s' o, deref n s = (s', o) -> gstar SL s s'.

(** References are either absent or handled by [deref] and [dd]. *)
Definition rok (u : update) : Prop :=
  no_refs u \/ ((forall n s, J s -> fine (snd (deref n s))) /\
                (forall n s p, J s -> dfine (dd (variables s) n p))).

Lemma run_upd_J : forall u s, upd_all SL u -> J s -> J (fst (run_upd deref dd u s)).
Proof. intros u s Hu Hj. eapply J_gstar; [exact Hj|]. eapply run_upd_star; [exact Hs|exact Hu|apply fst_snd]. Qed.

Lemma rok_list : forall es, no_refs (USeq es) \/ ((forall n s, J s -> fine (snd (deref n s))) /\
                (forall n s p, J s -> dfine (dd (variables s) n p))) -> Forall rok es.
Proof.
  intros es [H|H]; [|rewrite Forall_forall; intros; right; exact H].
  unfold no_refs in H. cbn [upd_all] in H. rewrite upd_all_list in H.
  eapply Forall_impl; [|exact H]. intros u K; left; exact K.
Qed.

Lemma run_upd_fine : forall u s, upd_all SL u -> rok u -> J s -> fine (snd (run_upd deref dd u s)).
Proof.
  intros u. induction u using update_ind'; intros s Hu Hr Hj; cbn [run_upd]; try exact I.
  - apply run_prim_fine; exact Hj.
  - cbn [upd_all] in Hu. destruct (eval_update els) as [[x|]|m|m]; try exact I; [apply run_prim_fine; exact Hj|].
    cbn. destruct b eqn:Hb; [exfalso; exact (Hu Hb)|reflexivity].
  - cbn [upd_all] in Hu. rewrite upd_all_list in Hu. apply rok_list in Hr.
    apply seqo_fine; [apply apply_globals_fine|]. intros s1 E.
    assert (Hj1 : J (set_chordmode true s1)).
    { eapply J_step; [|apply (St_chord _ s1 true)]. eapply J_starc; [exact Hj|].
      eapply apply_globals_starc; exact E. }
    generalize (map (fun p : pid => (p, nmaxval)) (current s1)) as m. revert Hj1.
    generalize (set_chordmode true s1) as a. clear s s1 Hj E.
    induction H as [|e t He Ht IH]; intros a Hj m.
    + unfold chord_finish. apply each_always. intros; exact I.
    + inversion Hu; subst. inversion Hr; subst. apply seqo_fine; [apply He; assumption|].
      intros s1 E. apply IH; try assumption. pose proof (run_upd_J e a H1 Hj) as Hj1. rewrite E in Hj1. exact Hj1.
  - cbn [upd_all] in Hu. rewrite upd_all_list in Hu.
    assert (Hd : forall p acc, dfine (dur_sum (dur_upd (dd (variables s))) es p acc)).
    { apply dur_sum_fine. intros w q Hw. apply dur_upd_fine; [rewrite Forall_forall in Hu; auto|].
      destruct Hr as [Hr|[_ Hr]]; [left|right; intros; apply Hr; exact Hj].
      unfold no_refs in Hr. cbn [upd_all] in Hr. rewrite upd_all_list, Forall_forall in Hr. apply Hr; exact Hw. }
    apply rok_list in Hr.
    assert (Hts : forall p, fine (snd (time_scale (dd (variables s)) es d p))).
    { intros p. unfold time_scale, inner_dur. specialize (Hd (set_povr None p) n0).
      destruct (dur_sum _ es _ _) as [[q x] []]; cbn in *; auto. }
    apply seqo_fine.
    { unfold cram_scale. apply each_always. intros p s1. specialize (Hts (getp s1 p)).
      destruct (time_scale _ es d _) as [ts []]; cbn in *; auto. }
    intros s1 E.
    assert (Hj1 : J s1).
    { unfold cram_scale in E. eapply J_starc; [exact Hj|]. eapply each_starc; [|exact E].
      intros p x y o2 Hp Hc H1. cbn beta in H1.
      destruct (time_scale _ _ _ _) as [ts []]; inversion H1; subst; try apply starc_refl.
      apply soft_starc; [congruence|]. intros; repeat split. }
    apply seqo_fine; [|intros; apply each_always; intros; exact I].
    clear E Hts Hd Hj s. revert s1 Hj1. induction H as [|e t He Ht IH]; intros a Hj; [exact I|].
    inversion Hu; subst. inversion Hr; subst. apply seqo_fine; [apply He; assumption|].
    intros s1 E. apply IH; try assumption. pose proof (run_upd_J e a H1 Hj) as Hj1. rewrite E in Hj1. exact Hj1.
  - destruct Hu as [Hn Hu].
    assert (Hr' : rok u) by (destruct Hr as [Hr|Hr]; [left; apply Hr|right; exact Hr]).
    apply seqo_fine.
    + apply run_times_fine; [|intros; apply run_upd_J|exact Hj]; auto.
    + intros s1 E. destruct (n =? max_int32)%Z eqn:E2; [|exact I]. cbn.
      destruct b eqn:Hb; [|reflexivity]. exfalso. specialize (Hn Hb). cbn in Hn. lia.
  - destruct Hu as [_ Hu]. assert (Hr' : rok u) by (destruct Hr as [Hr|Hr]; [left; apply Hr|right; exact Hr]).
    apply onreps_fine; [|intros; apply run_upd_J|exact Hj]; auto.
  - cbn [upd_all] in Hu. rewrite upd_all_list in Hu. apply rok_list in Hr.
    revert s Hj. induction H as [|e t He Ht IH]; intros a Hj; [exact I|].
    inversion Hu; subst. inversion Hr; subst. apply seqo_fine; [apply He; assumption|].
    intros s1 E. apply IH; try assumption. pose proof (run_upd_J e a H1 Hj) as Hj1. rewrite E in Hj1. exact Hj1.
  - unfold run_marker. destruct (current s); [exact I|]. destruct (same_offset _ _ _); exact I.
  - unfold run_at_marker. apply seqo_fine; [apply apply_globals_fine|]. intros s1 _.
    destruct (aget _ _ _); [|exact I]. apply each_always. intros; exact I.
  - unfold run_var_def. destruct Hu as [Hn Hu]. rewrite upd_all_list in Hu.
    destruct (rmapl (var_value (variables s)) es) as [vs|m|m] eqn:E; try exact I.
    cbn. destruct b eqn:Hb; [exfalso|reflexivity]. clear H Hr Hn n Hj.
    assert (G : forall u, upd_all SL u -> forall m, var_value (variables s) u <> RPanic m).
    { assert (Q : forall l, Forall (fun u => upd_all SL u -> forall m, var_value (variables s) u <> RPanic m) l ->
         Forall (upd_all SL) l -> forall m, rmapl (var_value (variables s)) l <> RPanic m).
      { intros l H1 H2 k K. induction l as [|x l IH]; cbn [rmapl] in K; [discriminate K|].
        inversion H1; inversion H2; subst. unfold rbind in K.
        destruct (var_value (variables s) x) eqn:Ex; [|discriminate K|exact (H3 H7 _ eq_refl)].
        destruct (rmapl _ l) eqn:El; [discriminate K|discriminate K|]. apply IH; auto. }
      intros u. induction u using update_ind'; intros Hx k K; cbn [var_value] in K; try discriminate K;
        try (cbn [upd_all] in Hx).
      - unfold rmap, rbind in K. destruct (eval_update els) as [[x|]|j|j]; try discriminate K. exact (Hx Hb).
      - fold (vals (variables s)) in K. rewrite vals_rmapl in K. unfold rmap, rbind in K. rewrite upd_all_list in Hx.
        destruct (rmapl _ es0) eqn:El; try discriminate K. eapply Q; eassumption.
      - fold (vals (variables s)) in K. rewrite vals_rmapl in K. unfold rmap, rbind in K. rewrite upd_all_list in Hx.
        destruct (rmapl _ es0) eqn:El; try discriminate K. eapply Q; eassumption.
      - unfold rmap, rbind in K. destruct (var_value (variables s) u) eqn:El; try discriminate K.
        eapply IHu; [apply Hx|reflexivity].
      - unfold rmap, rbind in K. destruct (var_value (variables s) u) eqn:El; try discriminate K.
        eapply IHu; [apply Hx|reflexivity].
      - fold (vals (variables s)) in K. rewrite vals_rmapl in K. unfold rmap, rbind in K. rewrite upd_all_list in Hx.
        destruct (rmapl _ es0) eqn:El; try discriminate K. eapply Q; eassumption.
      - fold (vals (variables s)) in K. rewrite vals_rmapl in K. unfold rmap, rbind in K. rewrite upd_all_list in Hx.
        destruct (rmapl _ es0) eqn:El; try discriminate K. eapply Q; [eassumption|apply Hx|eassumption].
      - destruct (aget _ _ _); discriminate K. }
    revert m E. induction Hu as [|x l Hx Hl IH]; intros m E; cbn [rmapl] in E; [discriminate E|].
    unfold rbind in E. destruct (var_value (variables s) x) eqn:Ex; [|discriminate E|exact (G _ Hx _ Ex)].
    destruct (rmapl _ l) eqn:El; [discriminate E|discriminate E|]. eapply IH; reflexivity.
  - destruct Hr as [[]|[Hr _]]. apply Hr; exact Hj.
  - apply voice_loop_fine; exact Hj.
  - apply run_part_fine; exact Hu.
Qed.
End Upd.

Lemma run_deref_1 : forall n s, run_deref 1 n s =
  match aget String.eqb n (variables s) with
  | None => (s, Err "undefined variable")
  | Some es => each (run_upd (run_deref 0) (dur_deref 0)) es s
  end.
Proof. reflexivity. Qed.
Lemma deref_fine : forall n s, J s -> fine (snd (run_deref 1 n s)).
Proof.
  intros n s Hj. rewrite run_deref_1. destruct (aget _ _ _) as [es|] eqn:E; [|exact I].
  apply aget_in in E; [|intros; apply String.eqb_eq].
  pose proof (j_vars s Hj _ _ E) as V. destruct (j_store s Hj) as [S _]. specialize (S _ _ E). clear E.
  assert (Hs : forall n s s' o, run_deref 0 n s = (s', o) -> gstar SL s s').
  { intros; eapply run_deref_star; eassumption. }
  revert s Hj S. induction V as [|u es Vu Ves IH]; intros s Hj S; [exact I|]. inversion S; subst. cbn [each].
  apply seqo_fine; [apply run_upd_fine; [exact Hs|assumption|left; exact Vu|exact Hj]|].
  intros s1 E1. pose proof (run_upd_J _ (dur_deref 0) Hs u s H1 Hj) as Hj1. rewrite E1 in Hj1. apply IH; assumption.
Qed.

Lemma run_fine : forall u s, upd_all SL u -> J s -> fine (snd (run 1 u s)) /\ J (fst (run 1 u s)).
Proof.
  intros u s Hu Hj.
  assert (Hs : forall n s s' o, run_deref 1 n s = (s', o) -> gstar SL s s').
  { intros; eapply run_deref_star; eassumption. }
  split.
  - apply run_upd_fine; [exact Hs|exact Hu| |exact Hj]. right. split.
    + intros; apply deref_fine; assumption.
    + intros; apply dur_deref_fine; assumption.
  - apply run_upd_J; assumption.
Qed.

Lemma exec_fine : forall us s, Forall (upd_all SL) us -> J s -> fine (snd (exec us s)) /\ J (fst (exec us s)).
Proof.
  unfold exec, run_all. induction us as [|u us IH]; intros s Hu Hj; [split; [exact I|exact Hj]|].
  inversion Hu; subst. cbn [each]. destruct (run_fine u s H1 Hj) as [A B].
  destruct (run 1 u s) as [s1 []]; cbn [fst snd seqo] in *; try (split; assumption). apply IH; assumption.
Qed.

Lemma session_J : forall calls, Forall (Forall (upd_all SL)) calls -> J (session calls).
Proof.
  intros calls. unfold session. generalize J_new. generalize new_score as s.
  induction calls as [|us calls IH]; intros s Hj H; [exact Hj|]. inversion H; subst. cbn [fold_left].
  apply IH; [|assumption]. apply exec_fine; assumption.
Qed.
End Safe.

Section Final.
Context {N : Num}.

Lemma SL_false : forall u, upd_all (SL false) u.
Proof.
  intros u. eapply (upd_all_mono (fun _ => True)); [|apply upd_all_true]. intros l _ H; discriminate H.
Qed.

(** C16 *)
Lemma c16_closed : forall calls x es, lookup (session calls) x = Some es -> Forall no_refs es.
Proof.
  intros calls x es H. unfold lookup in H. apply aget_in in H; [|intros; apply String.eqb_eq].
  eapply session_vclosed; exact H.
Qed.
Lemma c16_terminates : forall calls us, snd (exec us (session calls)) <> OutOfFuel.
Proof.
  intros calls us H.
  assert (K : fine false (snd (exec us (session calls)))).
  { apply exec_fine; [apply Forall_forall; intros; apply SL_false|]. apply session_J.
    apply Forall_forall; intros; apply Forall_forall; intros; apply SL_false. }
  rewrite H in K. exact K.
Qed.
Lemma c16_depth : forall calls us k, run_all (S k) us (session calls) = exec us (session calls).
Proof. intros. apply run_all_fuel, session_vclosed. Qed.
Lemma c16_undefined : forall x s, lookup s x = None -> exists m, exec [UVarRef x] s = (s, Err m).
Proof.
  intros x s H. unfold exec, run_all. cbn [each]. unfold run. cbn [run_upd run_deref].
  unfold lookup in H. rewrite H. eexists; reflexivity.
Qed.

(** C15 *)
Lemma exec_ref : forall x es s, vclosed s -> lookup s x = Some es -> exec [UVarRef x] s = exec es s.
Proof.
  intros x es s V H. unfold exec, run_all. cbn [each]. unfold run at 1. cbn [run_upd]. rewrite run_deref_1.
  unfold lookup in H. rewrite H. apply aget_in in H; [|intros; apply String.eqb_eq]. apply V in H.
  rewrite Forall_forall in H.
  rewrite (each_ext _ (run_upd (run_deref 0) (dur_deref 0)) (run 1)).
  - destruct (each (run 1) es s) as [s1 []]; reflexivity.
  - intros. apply run_no_refs. auto.
Qed.

Lemma step_lookup : forall x s s', lstep (fun l => l <> LDef x) s s' -> lookup s' x = lookup s x.
Proof.
  intros x s s' H. unfold lookup.
  assert (K : variables s' = variables s -> aget String.eqb x (variables s') = aget String.eqb x (variables s)) by congruence.
  destruct H; try (apply K; reflexivity).
  - apply K. apply emit_shape in H0. cbv zeta in H0.
    destruct H0 as [[-> _]|(c & us & Haud & Hn & Hcr & Hdet & Hus & ->)]; reflexivity.
  - cbn [set_variables variables]. apply aget_aset_other; [intros; apply String.eqb_eq|]. congruence.
  - apply K. apply get_voice_store in H0. apply H0.
  - apply K. apply vend_loop_store.
  - apply K. apply (run_part_store _ _ _ _ _ H).
Qed.

Lemma continue_lookup : forall x calls s, store_all (fun l => l <> LDef x) s ->
  Forall (Forall (not_defining x)) calls -> lookup (continue s calls) x = lookup s x.
Proof.
  intros x calls. induction calls as [|us calls IH]; intros s St H; [reflexivity|].
  inversion H; subst. cbn [continue fold_left]. fold (continue (fst (exec us s)) calls).
  destruct (exec us s) as [s1 o] eqn:E. cbn [fst].
  assert (S1 : lstar (fun l => l <> LDef x) s s1).
  { eapply run_all_lstar; [exact H2|exact E|exact St]. }
  rewrite IH; [|eapply star_store; eassumption|assumption].
  clear -S1. induction S1; [reflexivity|]. rewrite <- IHS1. apply step_lookup. exact H.
Qed.

Lemma exec_def : forall x es s s1, exec [UVarDef x es] s = (s1, Ok) ->
  exists vs, rmapl (var_value (variables s)) es = ROk vs /\ lookup s1 x = Some vs.
Proof.
  intros x es s s1 H. unfold exec, run_all in H. cbn [each] in H. unfold run in H. cbn [run_upd] in H.
  unfold run_var_def in H. destruct (rmapl (var_value (variables s)) es) as [vs|m|m]; inversion H; subst.
  exists vs. split; [reflexivity|]. unfold lookup. cbn [set_variables variables].
  apply aget_aset_same. intros; apply String.eqb_refl.
Qed.

Lemma c15 : forall calls x es s1, exec [UVarDef x es] (session calls) = (s1, Ok) ->
  exists vs, Forall2 (resolves (variables (session calls))) es vs /\
    forall later, Forall (Forall (not_defining x)) later ->
      (forall n ws, In (n, ws) (variables s1) -> Forall (not_defining x) ws) ->
      exec [UVarRef x] (continue s1 later) = exec vs (continue s1 later).
Proof.
  intros calls x es s1 H. destruct (exec_def _ _ _ _ H) as [vs [E L]]. exists vs. split.
  - apply rmapl_inv in E. clear -E. induction E; constructor; [apply var_value_resolves; assumption|assumption].
  - intros later Hl Hst. apply exec_ref.
    + eapply star_vclosed; [apply continue_star|]. eapply star_vclosed; [|apply (session_vclosed calls)].
      eapply run_all_star; exact H.
    + rewrite continue_lookup; [exact L| |exact Hl]. split; [exact Hst|].
      intros off us _. apply Forall_forall. intros [] _; cbn; try exact I. discriminate.
Qed.

(** C21 *)
Lemma safe_SL : forall u, safe u -> upd_all (SL true) u.
Proof. intros u H. eapply upd_all_mono; [|exact H]. intros l K _. exact K. Qed.
Lemma safe_SLs : forall us, Forall safe us -> Forall (upd_all (SL true)) us.
Proof. intros us H. eapply Forall_impl; [|exact H]. apply safe_SL. Qed.
Lemma c21_safe : forall calls us, Forall (Forall safe) calls -> Forall safe us ->
  handled (snd (exec us (session calls))).
Proof.
  intros calls us Hc Hu.
  assert (K : fine true (snd (exec us (session calls)))).
  { apply exec_fine; [apply safe_SLs; exact Hu|]. apply session_J.
    eapply Forall_impl; [|exact Hc]. apply safe_SLs. }
  destruct (snd (exec us (session calls))); cbn in *; try exact I; congruence.
Qed.
Lemma c21_voice : forall calls n, snd (exec [UVoice n] (session calls)) = Ok.
Proof.
  intros calls n.
  assert (G : forall cnt i s, J false s -> snd (voice_loop n i cnt s) = Ok).
  { induction cnt as [|k IH]; intros i s Hj; cbn [voice_loop]; [reflexivity|].
    destruct (nth_error (current s) i) as [p|] eqn:E; [|reflexivity]. apply nth_error_In in E.
    destruct (vi_link s (j_vinv _ s Hj) p E) as [q [Hq Hl]].
    destruct (get_voice_shape s p n q (j_inv _ s Hj) (j_vinv _ s Hj) E Hq Hl) as (v & s1 & G & _).
    rewrite G. apply IH. eapply J_step; [exact Hj|]. eapply St_voice; [exact E|exact G|].
    intros Hb; discriminate Hb. }
  unfold exec, run_all. cbn [each]. unfold run. cbn [run_upd]. unfold run_voice.
  specialize (G (List.length (current (session calls))) 0%nat (session calls)).
  destruct (voice_loop n 0 _ (session calls)) as [s1 o]. cbn [snd] in G. rewrite G; [reflexivity|].
  apply session_J. apply Forall_forall; intros; apply Forall_forall; intros; apply SL_false.
Qed.
Lemma c21_voice_end : forall calls, snd (exec [UVoiceEnd] (session calls)) = Ok.
Proof. reflexivity. Qed.

(** Every pointer the engine follows from the tables leads to a live part. *)
Lemma c21_pointers : forall calls, let s := session calls in
  let live p := (p < List.length (heap s))%nat in
  Forall live (current s) /\ Forall live (parts s) /\
  (forall a ps, In (a, ps) (aliases s) -> Forall live ps) /\
  (forall p, live p -> live (porigin (getp s p)) /\
     (forall t, ptmpl (getp s p) = Some t -> live t) /\
     (forall n v, In (n, v) (getv s (pvoices (getp s p))) -> live v)) /\
  (forall e, In e (events s) -> live (ev_part e)).
Proof.
  intros calls s live. assert (I : inv s) by (apply reachable_inv, session_reachable).
  assert (V : vinv s) by (apply reachable_vinv, session_reachable).
  split; [apply (inv_cur s I)|]. split; [apply (inv_parts s I)|]. split; [apply (inv_alias s I)|]. split.
  - intros p Hp. destruct (getp_good s p I Hp) as (A & _ & _ & _ & _ & _ & B).
    split; [exact A|]. split; [exact B|]. intros n v Hv. eapply (inv_cells s I); exact Hv.
  - intros e He. apply (vi_events s V) in He. apply in_map_iff in He. destruct He as [q [E Hq]].
    rewrite <- E. destruct (getp_good s q I (in_parts s q I Hq)) as [A _]. exact A.
Qed.
End Final.


(** An endless repetition of an event that does nothing. *)
Lemma run_times_nil {N : Num} : forall k r s, current s = [] ->
  run_times (fun s => (s, Ok)) r k s = (s, Ok).
Proof.
  induction k as [|k IH]; intros r s H; [reflexivity|]. cbn [run_times]. rewrite H. cbn [each seqo]. apply IH. exact H.
Qed.
Lemma c21_hang {N : Num} : snd (exec [URepeat UNil max_int32] new_score) = Hang.
Proof.
  unfold exec, run_all. cbn [each]. unfold run. cbn [run_upd].
  rewrite run_times_nil by reflexivity. reflexivity.
Qed.
