(** Proofs about what is written being playable. *)
From Coq Require Import ZArith QArith Qround Qcanon Lqa String List Bool Lia Permutation Sorted.
From Verif Require Import Base Num ModelPitch ModelDuration ModelInstruments ModelTypes ModelLisp ModelScan ModelAst ModelScore SpecScore SpecGlobals ModelOsc SpecOsc
  ProofGlobals ProofOsc ModelPlayer SpecPlayer ProofPlayer ProofTicks ModelApply SpecApply ProofApplyExact ProofApplyEx SpecScan ProofScan SpecMidi ProofLevels ProofWritten
  PropertiesEvents PropertiesOsc.
Import ListNotations.
Local Open Scope list_scope.
Local Open Scope Z_scope.

Definition fin (x : @num XQ) : Prop := exists q, x = Fin q.
Definition unit (x : @num XQ) : Prop := exists q : Qc, x = Fin q /\ (0 <= q)%Q /\ (q <= 1)%Q.

Lemma lit_fin a (b : positive) : @nlit XQ a b = Fin (Q2Qc (inject_Z a) / Q2Qc (inject_Z (Zpos b)))%Qc.
Proof.
  unfold nlit. cbn. unfold xq_div, xq_ofZ. assert (E : qc_eqb (Q2Qc (inject_Z (Zpos b))) (Q2Qc 0) = false); [|now rewrite E].
  unfold qc_eqb. apply not_true_is_false. intros H. apply Qeq_bool_iff in H. rewrite !this_Q in H. unfold Qeq in H. cbn in H. lia.
Qed.
Lemma float_fin neg int frac : fin (@float_of XQ neg int frac).
Proof.
  unfold float_of.
  assert (X : exists q, (match frac with [] => @nofZ XQ (dval int) | _ => @nlit XQ (dval (int ++ frac)) (Pos.pow 10 (Pos.of_nat (List.length frac))) end) = Fin q).
  { destruct frac; [eexists; reflexivity|]. rewrite lit_fin. eexists. reflexivity. }
  destruct X as (q & E). destruct neg; [|exists q; exact E]. exists (Q2Qc (inject_Z 0) - q)%Qc. change (@nsub XQ n0 (match frac with [] => @nofZ XQ (dval int) | _ => @nlit XQ (dval (int ++ frac)) (Pos.pow 10 (Pos.of_nat (List.length frac))) end) = Fin (Q2Qc (inject_Z 0) - q)%Qc).
  now rewrite E.
Qed.
Lemma ltb_not (a b : Qc) : @nltb XQ (Fin a) (Fin b) = false -> (b <= a)%Q.
Proof. cbn. unfold qc_ltb. intros H. apply negb_false_iff in H. now apply Qle_bool_iff. Qed.
Lemma ltb_yes (a b : Qc) : @nltb XQ (Fin a) (Fin b) = true -> (a < b)%Q.
Proof. cbn. unfold qc_ltb. intros H. apply negb_true_iff in H. apply Qnot_le_lt. intros L. apply Qle_bool_iff in L. congruence. Qed.

Lemma percent_unit x v : fin x -> @percentage XQ x = ROk v -> unit v.
Proof.
  intros (q & ->) H. unfold percentage in H. destruct (@nltb XQ (Fin q) n0) eqn:A; [discriminate|]. cbn [orb] in H.
  destruct (@nltb XQ (nofZ 100) (Fin q)) eqn:B; [discriminate|]. injection H as <-.
  apply ltb_not in A. change (this (Q2Qc (inject_Z 0))) with 0%Q in A.
  change (@nofZ XQ 100) with (Fin (Q2Qc 100)) in B. apply ltb_not in B. rewrite this_Q in B.
  exists (q / Q2Qc 100)%Qc. split; [reflexivity|]. rewrite this_div, this_Q. assert (E : (q / 100 == q * (1 # 100))%Q) by field. rewrite E. lra.
Qed.
Lemma lit_unit a (b : positive) : 0 <= a <= Zpos b -> unit (@nlit XQ a b).
Proof.
  intros H. rewrite lit_fin. eexists. split; [reflexivity|]. rewrite this_div, !this_Q. split.
  - apply Qle_shift_div_l; [reflexivity|]. rewrite Qmult_0_l. change 0%Q with (inject_Z 0). rewrite <- Zle_Qle. lia.
  - apply Qle_shift_div_r; [reflexivity|]. rewrite Qmult_1_l. rewrite <- Zle_Qle. lia.
Qed.
Lemma dynamic_unit m : unit (@dynamic_volume XQ m).
Proof.
  unfold dynamic_volume. destruct (aget String.eqb m dynamic_volumes) as [v|] eqn:E; [|exists (Q2Qc 0); repeat split; cbn; discriminate].
  apply lit_unit. apply ProofHeap.aget_in in E; [|apply String.eqb_eq].
  assert (F : forallb (fun x => (0 <=? snd x) && (snd x <=? 100000)) dynamic_volumes = true) by (vm_compute; reflexivity).
  rewrite forallb_forall in F. specialize (F _ E). cbn [snd] in F. apply andb_true_iff in F as [F1 F2]. apply Z.leb_le in F1, F2. now split.
Qed.
Lemma unit_level x : unit x -> byte (level x).
Proof.
  intros (q & -> & A & B). unfold level, byte. change (@nround32 XQ (@nmul XQ (Fin q) (nofZ 127))) with (wrap32 (q_round (this (q * Q2Qc 127)%Qc))).
  assert (E : (this (q * Q2Qc 127)%Qc == q * 127)%Q) by (rewrite this_mult, this_Q; reflexivity).
  assert (L : (0 <= this (q * Q2Qc 127)%Qc)%Q) by (rewrite E; lra). assert (U : (this (q * Q2Qc 127)%Qc <= 127)%Q) by (rewrite E; lra).
  pose proof (q_round_mono _ _ L U) as M. change (q_round 127) with 127 in M. unfold wrap32. rewrite Z.mod_small; lia.
Qed.

(** Every number of a text is a number. *)
Lemma number_inj {N : Num} (a b : num) : TNumber a = TNumber b -> a = b.
Proof. intros H. congruence. Qed.
Lemma lexeme_fin m k t rest x : @lexeme XQ m k t rest -> k = TNumber x -> fin x.
Proof.
  intros H E. destruct H; try discriminate; try (apply number_inj in E; rewrite <- E; apply float_fin).
  match goal with S : simple _ _ |- _ => inversion S; subst; discriminate end.
Qed.
Lemma numbered_fin text : @numbered XQ fin text.
Proof.
  intros ts Es. pose proof (@scan_total XQ text) as Sc. rewrite Es in Sc. destruct Sc as (ps & _ & W & ->). unfold numbers.
  assert (G : forall level before, well_formed level ps -> Forall (fun t => forall x, tkind t = TNumber x -> fin x) (tokens_at before ps)); [|exact (G _ _ W)].
  clear. induction ps as [|p ps IH]; intros level before W; [now repeat constructor|]. destruct p; cbn [tokens_at well_formed] in *.
  - eapply IH, W.
  - eapply IH, W.
  - destruct W as [L W]. constructor; [|eapply IH, W]. cbn [tkind]. intros x E. eapply lexeme_fin; eassumption.
Qed.
Theorem written_score texts calls : compiled texts calls -> @lv_score XQ unit (session calls).
Proof.
  intros H. apply session_lv; try exact dynamic_unit; try (apply lit_unit; lia).
  induction H as [|text us texts calls H _ IH]; constructor; [|exact IH].
  exact (compile_lv fin unit percent_unit text (numbered_fin text) us H).
Qed.
Theorem c61_values texts calls e : @compiled XQ texts calls -> In e (events (session calls)) -> has_midi (session calls) e.
Proof.
  intros H I. pose proof (written_score _ _ H) as L. destruct (C02_channels _ _ _ I) as [C _]. destruct (C03_playable _ _ _ I) as [P A].
  pose proof (lv_events _ _ L) as E. rewrite Forall_forall in E. destruct (E _ I) as (E1 & E2 & E3).
  split; try (now apply unit_level); try assumption; try (unfold byte; lia).
  unfold patch_of. apply (lv_get unit dynamic_unit (session calls) (ev_part e) L).
Qed.

(** ** Tempos *)
Lemma changes_filter (b : list (@msg XQ)) : tempo_changes b = tempo_changes (filter is_tempo b).
Proof. induction b as [|m b IH]; [reflexivity|]. unfold tempo_changes in *. destruct m; cbn [filter is_tempo flat_map app]; try exact IH; now f_equal. Qed.
Lemma sorted_filter {A} (R : A -> A -> Prop) f l : StronglySorted R l -> StronglySorted R (filter f l).
Proof.
  induction 1 as [|x l S IH F]; [constructor|]. cbn. destruct (f x); [|exact IH]. constructor; [exact IH|].
  rewrite Forall_forall in *. intros y Hy. apply filter_In in Hy. apply F, Hy.
Qed.
Definition clamped (r o : Qc) : Qc := if qc_ltb (o - r)%Qc (Q2Qc 0) then Q2Qc 0 else (o - r)%Qc.
Lemma clamped_ok (r o : Qc) : (0 <= r)%Q -> (0 <= o)%Q -> (o < 2147483647)%Q -> (0 <= clamped r o)%Q /\ (clamped r o < 2147483647)%Q.
Proof.
  intros R O U. unfold clamped. destruct (qc_ltb (o - r) (Q2Qc 0)) eqn:E; [split; [apply Qle_refl|reflexivity]|].
  apply ltb_not in E. change (this (Q2Qc 0)) with 0%Q in E. rewrite this_minus in *. split; lra.
Qed.
Lemma clamped_mono (r a b : Qc) : (a <= b)%Q -> (clamped r a <= clamped r b)%Q.
Proof.
  intros H. unfold clamped. destruct (qc_ltb (a - r) (Q2Qc 0)) eqn:A, (qc_ltb (b - r) (Q2Qc 0)) eqn:B.
  - apply Qle_refl.
  - apply ltb_not in B. exact B.
  - apply ltb_not in A. apply (ltb_yes (b - r) (Q2Qc 0)) in B. change (this (Q2Qc 0)) with 0%Q in *. rewrite this_minus in *. lra.
  - rewrite !this_minus. lra.
Qed.
Lemma round_small (q : Qc) : (0 <= q)%Q -> (q < 2147483647)%Q -> @nround32 XQ (Fin q) = q_round q /\ 0 <= q_round q < 2 ^ 31.
Proof.
  intros A B. pose proof (q_round_top _ A B). pose proof (q_round_mono _ _ A (Qle_refl _)). split; [|lia].
  change (@nround32 XQ (Fin q)) with (wrap32 (q_round q)). unfold wrap32. rewrite Z.mod_small; lia.
Qed.
Lemma message_at (r o b : Qc) : SpecOsc.tempo_message (N := XQ) (Fin r) (Fin o, Fin b) = MTempo (@nround32 XQ (Fin (clamped r o))) (Fin b).
Proof.
  unfold SpecOsc.tempo_message, clamped. cbn [fst snd]. change (@nsub XQ (Fin o) (Fin r)) with (Fin (o - r)%Qc).
  change (@nltb XQ (Fin (o - r)%Qc) n0) with (qc_ltb (o - r)%Qc (Q2Qc 0)). destruct (qc_ltb _ _); reflexivity.
Qed.
Lemma chron t s s' b start stop notes : transmits t s s' (ROk b) -> asked t s start stop notes -> t_sync t = [] -> timely s start notes ->
  chronological (tempo_changes b).
Proof.
  intros TR AS SY [T (r & -> & R) _]. destruct (C33_tempos XQ linear_XQ _ _ _ _ _ _ _ TR AS) as [_ H].
  destruct (H SY) as (l & P & S & E).
  { cbn. unfold xq_leb. apply orb_true_iff. destruct (qc_ltb (Q2Qc (inject_Z 0)) r) eqn:B; [now left|right].
    apply (ltb_not (Q2Qc (inject_Z 0)) r) in B. change (this (Q2Qc (inject_Z 0))) with 0%Q in B. apply Qeq_bool_iff. change (this (Q2Qc (inject_Z 0))) with 0%Q. lra. }
  { intros x Hx. destruct (T x Hx) as (o & bp & -> & O & _). cbn [fst]. cbn. unfold xq_leb. apply orb_true_iff. destruct (qc_ltb (Q2Qc (inject_Z 0)) o) eqn:B; [now left|right].
    apply (ltb_not (Q2Qc (inject_Z 0)) o) in B. change (this (Q2Qc (inject_Z 0))) with 0%Q in B. apply Qeq_bool_iff. change (this (Q2Qc (inject_Z 0))) with 0%Q. lra. }
  rewrite changes_filter, E. clear E. pose proof (sorted_filter _ (fun x => concerns (tempo_itinerary s) (Fin r) stop (fst x)) _ S) as S2.
  assert (F : Forall (fun x => exists o b : Qc, x = (Fin o, Fin b) /\ (0 <= o)%Q /\ (o < 2147483647)%Q /\ (0 < b)%Q) (filter (fun x => concerns (tempo_itinerary s) (Fin r) stop (fst x)) l)).
  { apply Forall_forall. intros x Hx. apply filter_In in Hx as [Hx _]. apply T. eapply Permutation_in; [apply Permutation_sym, P|exact Hx]. }
  revert S2 F. generalize (filter (fun x => concerns (tempo_itinerary s) (Fin r) stop (fst x)) l). clear -R. intros l S F. split.
  - induction S as [|x l S IH Hx]; [constructor|]. inversion F as [|? ? (o & bp & -> & O1 & O2 & _) F']; subst.
    cbn [map]. rewrite message_at. unfold tempo_changes. cbn [flat_map app]. constructor; [now apply IH|]. cbn [fst].
    apply Forall_forall. intros y Hy. apply in_flat_map in Hy as (m & Hm & Hy). apply in_map_iff in Hm as (z & <- & Hz).
    rewrite Forall_forall in F', Hx. destruct (F' z Hz) as (o' & b' & -> & O1' & O2' & _). rewrite message_at in Hy. destruct Hy as [<-|[]]. cbn [fst].
    specialize (Hx _ Hz). cbn [fst] in Hx. apply ltb_not in Hx.
    destruct (clamped_ok r o R O1 O2) as [C1 C2]. destruct (clamped_ok r o' R O1' O2') as [C3 C4].
    rewrite (proj1 (round_small _ C1 C2)), (proj1 (round_small _ C3 C4)). apply q_round_mono; [exact C1|]. now apply clamped_mono.
  - induction F as [|x l (o & bp & -> & O1 & O2 & B) F IH]; [constructor|]. cbn [map]. rewrite message_at. unfold tempo_changes. cbn [flat_map app].
    inversion S; subst. constructor; [|now apply IH]. cbn [fst snd]. destruct (clamped_ok r o R O1 O2) as [C1 C2]. destruct (round_small _ C1 C2) as [E L].
    rewrite E. split; [lia|]. exists bp. split; [reflexivity|exact B].
Qed.

Theorem c61_performed texts calls t s' b start stop notes : @compiled XQ texts calls -> let s := session calls in
  transmits t s s' (ROk b) -> asked t s start stop notes -> t_sync t = [] -> Z.of_nat (List.length (parts s)) < 2 ^ 31 - 1 -> timely s start notes ->
  chronological (tempo_changes b) /\ exists en, set_tempos (tempo_changes b) new_engine = Some en /\
    ((forall e, In e notes -> lateness (en_tempos en) + onset start e + sounding e < 2 ^ 31) -> @performed XQ JXQ t s s' b start stop notes en).
Proof.
  intros C s TR AS SY NP TL. pose proof (chron _ _ _ _ _ _ _ TR AS SY TL) as CH. split; [exact CH|].
  destruct (exact_ok _ CH) as (en & E & Now & _ & Ticks & _). exists en. split; [exact E|]. intros Late. split; try assumption.
  apply Forall_forall. intros e He. destruct TL as [_ (r & -> & R) TN]. destruct (TN e He) as (q & a & Eq & Ea & Q1 & A1).
  assert (I : In e (events s)).
  { destruct (as_notes _ _ _ _ _ AS) as (lo & hi & _ & Hn). rewrite Hn in He. apply filter_In in He as [He _]. eapply slice_in, He. }
  assert (Rg : (r <= q)%Q).
  { destruct (as_notes _ _ _ _ _ AS) as (lo & hi & _ & Hn). rewrite Hn in He. apply filter_In in He as [_ He]. unfold in_range in He.
    apply andb_true_iff in He as [He _]. rewrite Eq in He. cbn in He. unfold xq_leb in He. apply orb_true_iff in He as [He|He].
    - apply (ltb_yes r q) in He. lra.
    - apply Qeq_bool_iff in He. rewrite He. apply Qle_refl. }
  destruct (c61_values _ _ _ C I) as [M1 M2 M3 M4 M5 M6 M7]. rewrite Ea in M7. apply ltb_yes in M7. change (this (Q2Qc (inject_Z 0))) with 0%Q in M7.
  assert (So : 0 <= sounding e).
  { unfold sounding. rewrite Ea. assert (A0 : (0 <= a)%Q) by lra. destruct (round_small a A0 A1) as [-> X]. lia. }
  assert (On : 0 <= onset (Fin r) e).
  { assert (L0 : (0 <= q - r)%Q) by lra. assert (L1 : (q - r < 2147483647)%Q) by lra.
    destruct (onset_at (Fin r) e q r Eq eq_refl L0 L1) as (z & Ez & ->). assert (Z0 : (0 <= z)%Q) by (rewrite Ez; exact L0).
    apply (q_round_mono z z Z0 (Qle_refl _)). }
  assert (La : 0 <= lateness (en_tempos en)). { unfold lateness. destruct (ticks_to_ms _ _); lia. }
  split; try assumption.
  - repeat split; try assumption; try apply M2; try apply M3; try apply M4; try apply M5; try apply M6.
  - repeat split; try assumption. now apply Late.
  - apply Ticks. lia.
Qed.

Theorem c61_heard texts calls t s' b start stop notes commands p en : @compiled XQ texts calls -> let s := session calls in
  transmits t s s' (ROk b) -> asked t s start stop notes -> t_sync t = [] -> Z.of_nat (List.length (parts s)) < 2 ^ 31 - 1 -> timely s start notes ->
  set_tempos (tempo_changes b) new_engine = Some en -> (forall e, In e notes -> lateness (en_tempos en) + onset start e + sounding e < 2 ^ 31) ->
  apart (en_tempos en) start notes -> Forall (Forall command) commands -> runs (sent b commands) p -> p_playing p = true ->
  Permutation (heard_in [] (en_events (p_engine p))) (map (should_be_heard (J := JXQ) (en_tempos en) s start) notes).
Proof.
  intros C s TR AS SY NP TL E Late AP CO RU PL. destruct (c61_performed _ _ _ _ _ _ _ _ C TR AS SY NP TL) as (CH & en' & E' & P).
  rewrite E in E'. injection E' as <-. destruct (exact_ok _ CH) as (en' & E' & _ & _ & _ & IS). rewrite E in E'. injection E' as <-.
  eapply (played_heard linear_XQ levels_XQ); try eassumption; [now apply P|]. apply IS. intros e He.
  destruct TL as [_ (r & -> & R) TN]. destruct (TN e He) as (q & a & Eq & _ & Q1 & _).
  destruct (as_notes _ _ _ _ _ AS) as (lo & hi & _ & Hn). rewrite Hn in He. apply filter_In in He as [_ He]. unfold in_range in He.
  apply andb_true_iff in He as [He _]. rewrite Eq in He. cbn in He. unfold xq_leb in He.
  assert (Rg : (r <= q)%Q).
  { apply orb_true_iff in He as [He|He]; [apply (ltb_yes r q) in He; lra|]. apply Qeq_bool_iff in He. rewrite He. apply Qle_refl. }
  exists q, r. split; [exact Eq|]. split; [reflexivity|]. split; lra.
Qed.

(** For examples. *)
Definition compiles (text : list rune) : list (@update XQ) := match compile text with ROk us => us | _ => [] end.
Lemma compiles_ok texts : forallb (fun t => match @compile XQ t with ROk _ => true | _ => false end) texts = true -> compiled texts (map compiles texts).
Proof.
  induction texts as [|t l IH]; intros H; [constructor|]. cbn [forallb] in H. apply andb_true_iff in H as [H1 H2]. cbn [map]. constructor; [|now apply IH].
  unfold compiles. destruct (compile t); [reflexivity|discriminate|discriminate].
Qed.
Definition finb (f : Qc -> bool) (x : @num XQ) : bool := match x with Fin q => f q | _ => false end.
Definition timelyb (s : @score XQ) (start : @num XQ) (notes : list (@note_event XQ)) : bool :=
  forallb (fun x => finb (fun o => Qle_bool 0 o && negb (Qle_bool 2147483647 o)) (fst x) && finb (fun b => negb (Qle_bool b 0)) (snd x)) (tempo_itinerary s) &&
  finb (fun r => Qle_bool 0 r) start &&
  forallb (fun e => finb (fun q => negb (Qle_bool 2147483647 q)) (ev_off e) && finb (fun q => negb (Qle_bool 2147483647 q)) (ev_aud e)) notes.
Lemma not_leb a b : negb (Qle_bool a b) = true -> (b < a)%Q.
Proof. intros H. apply negb_true_iff in H. apply Qnot_le_lt. intros L. apply Qle_bool_iff in L. congruence. Qed.
Lemma finb_ok f x : finb f x = true -> exists q, x = Fin q /\ f q = true.
Proof. destruct x; cbn; try discriminate. intros H. eexists. split; [reflexivity|exact H]. Qed.
Lemma timelyb_ok s start notes : timelyb s start notes = true -> timely s start notes.
Proof.
  unfold timelyb. intros H. apply andb_true_iff in H as [H H3]. apply andb_true_iff in H as [H1 H2]. rewrite forallb_forall in H1, H3. split.
  - intros [o b] I. specialize (H1 _ I). cbn [fst snd] in H1. apply andb_true_iff in H1 as [A B]. apply finb_ok in A as (qo & -> & A). apply finb_ok in B as (qb & -> & B).
    apply andb_true_iff in A as [A1 A2]. exists qo, qb. split; [reflexivity|]. split; [now apply Qle_bool_iff|]. split; now apply not_leb.
  - apply finb_ok in H2 as (r & -> & H2). exists r. split; [reflexivity|]. now apply Qle_bool_iff.
  - intros e I. specialize (H3 _ I). apply andb_true_iff in H3 as [A B]. apply finb_ok in A as (q & -> & A). apply finb_ok in B as (a & -> & B).
    exists q, a. split; [reflexivity|]. split; [reflexivity|]. split; now apply not_leb.
Qed.
Definition endless : list rune := runes "piano: c {c d}0 e".
Lemma endless_refuted : compiled [endless] [compiles endless] /\ exists e, In e (events (session [compiles endless])) /\ ev_off e = PInf.
Proof.
  split; [apply (compiles_ok [endless]); vm_compute; reflexivity|].
  assert (F : existsb (fun e => match ev_off e with PInf => true | _ => false end) (events (session [compiles endless])) = true) by (vm_compute; reflexivity).
  apply existsb_exists in F as (e & I & F). exists e. split; [exact I|]. destruct (ev_off e); (reflexivity || discriminate).
Qed.
