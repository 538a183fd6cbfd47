(** With exact numbers, what C59 supposes of the tempo map holds. *)
From Coq Require Import ZArith QArith Qround Qcanon Lqa String List Bool Lia Permutation Sorted.
From Verif Require Import PropertiesPlayer Base Num ModelPitch ModelDuration ModelInstruments ModelTypes ModelLisp ModelScore SpecScore SpecGlobals ModelOsc SpecOsc ProofOsc
  ModelPlayer SpecPlayer ProofPlayer ProofTicks ModelApply SpecApply.
Import ListNotations.
Local Open Scope list_scope.
Local Open Scope Z_scope.

Lemma last_in : forall A (l : list A) a, last_of l = Some a -> In a l.
Proof. induction l as [|b l IH]; intros a H; [discriminate|]. destruct l as [|c l]; [inversion H; left; reflexivity|]. right. apply IH, H. Qed.
Lemma take_in : forall A (f : A -> bool) l x, In x (take_while f l) -> In x l /\ f x = true.
Proof. induction l as [|y l IH]; intros x H; [destruct H|]. cbn in H. destruct (f y) eqn:E; [|destruct H]. destruct H as [->|H]; [split; [left; reflexivity|exact E]|]. destruct (IH x H). split; [right; assumption|assumption]. Qed.
Lemma last_some : forall A (l : list A) a, exists x, last_of (a :: l) = Some x.
Proof. induction l as [|b l IH]; intros a; [exists a; reflexivity|]. destruct (IH b) as [x E]. exists x. exact E. Qed.

Lemma conv_top : forall l x, conv l x < 2 ^ 63.
Proof. intros l x. pose proof (conv_clamped l x) as H. unfold clamp64 in H. lia. Qed.
Lemma nofZ_conv : forall l z, sound l -> 0 <= z -> ms_to_ticks l (nofZ z) = Some (conv l (this (Q2Qc (inject_Z z)))).
Proof.
  intros l z S Z0. change (@nofZ XQ z) with (Fin (Q2Qc (inject_Z z))). apply ms_to_ticks_conv; [exact S|]. rewrite this_Q. change 0%Q with (inject_Z 0). rewrite <- Zle_Qle. exact Z0.
Qed.
Lemma nofZ_mono : forall l a b, sound l -> 0 <= a <= b -> conv l (this (Q2Qc (inject_Z a))) <= conv l (this (Q2Qc (inject_Z b))).
Proof.
  intros l a b S H. apply conv_mono; [exact S| |]; rewrite !this_Q; change 0%Q with (inject_Z 0); rewrite <- Zle_Qle; lia.
Qed.

Lemma q_round_mono : forall x y : Q, (0 <= x)%Q -> (x <= y)%Q -> 0 <= q_round x <= q_round y.
Proof.
  intros x y X Y. unfold q_round. rewrite (proj2 (Qle_bool_iff 0 x) X), (proj2 (Qle_bool_iff 0 y)) by lra. split.
  - rewrite <- (Qfloor_Z 0). apply Qfloor_resp_le. change (inject_Z 0) with 0%Q. lra.
  - apply Qfloor_resp_le. lra.
Qed.
Lemma q_round_top : forall x : Q, (0 <= x)%Q -> (x < 2147483647)%Q -> q_round x < 2 ^ 31.
Proof.
  intros x X Y. unfold q_round. rewrite (proj2 (Qle_bool_iff 0 x) X). pose proof (Qfloor_le (x + (1 # 2))) as H. rewrite Zlt_Qlt. eapply Qle_lt_trans; [exact H|]. change (inject_Z (2 ^ 31)) with 2147483648%Q. lra.
Qed.

Lemma onset_at : forall start e (q r : Qc), ev_off e = Fin q -> start = Fin r -> (0 <= q - r)%Q -> (q - r < 2147483647)%Q ->
  exists z : Q, (z == q - r)%Q /\ onset start e = q_round z.
Proof.
  intros start e q r E R L H. unfold onset, relative. cbn [aget]. rewrite E, R. exists (this (q - r - Q2Qc 0)%Qc). split.
  - rewrite !this_minus. change (this (Q2Qc 0)) with 0%Q. ring.
  - change (@nround32 XQ (@nsub XQ (@nsub XQ (Fin q) (Fin r)) n0)) with (wrap32 (q_round (this (q - r - Q2Qc 0)%Qc))).
    assert (Eq : (this (q - r - Q2Qc 0)%Qc == q - r)%Q) by (rewrite !this_minus; change (this (Q2Qc 0)) with 0%Q; ring).
    assert (L1 : (0 <= this (q - r - Q2Qc 0)%Qc)%Q) by (rewrite Eq; exact L). assert (H1 : (this (q - r - Q2Qc 0)%Qc < 2147483647)%Q) by (rewrite Eq; exact H).
    pose proof (q_round_top _ L1 H1). pose proof (q_round_mono _ _ L1 (Qle_refl _)). unfold wrap32. rewrite Z.mod_small; lia.
Qed.

Lemma exact_ok : forall hist, chronological hist -> exists en, set_tempos hist new_engine = Some en /\
  (exists x, ticks_to_ms (en_tempos en) 0 = Some x) /\ (spread (en_tempos en) -> lateness (en_tempos en) = 0) /\
  (forall a b, 0 <= a <= b -> exists i j, ms_to_ticks (en_tempos en) (nofZ a) = Some i /\ ms_to_ticks (en_tempos en) (nofZ b) = Some j /\ i <= j < 2 ^ 63) /\
  (forall start notes, (forall e, In e notes -> placed_at start e) -> in_step (en_tempos en) start notes).
Proof.
  intros hist H. destruct (chron_sound hist H) as (en & E & So & _). exists en. split; [exact E|]. destruct (sound_head _ So) as [r Hr].
  assert (ENT : exists e, entry_by_ticks (en_tempos en) 0 = Some e).
  { unfold entry_by_ticks. rewrite Hr. cbn [take_while te_ticks]. change (0 <=? 0) with true. apply last_some. }
  destruct ENT as [e0 ENT]. split; [|split; [|split]].
  - unfold ticks_to_ms. rewrite ENT. eexists. reflexivity.
  - intros Sp. unfold lateness, ticks_to_ms. rewrite ENT. unfold entry_by_ticks in ENT. apply last_in, take_in in ENT. destruct ENT as [I0 T0].
    pose proof (sound_good _ So) as G. rewrite Forall_forall in G. destruct (G e0 I0) as (O0 & b0 & B0 & Bp).
    assert (T1 : te_ticks e0 = 0).
    { apply Z.leb_le in T0. assert (0 <= te_ticks e0); [|lia]. clear - So I0. revert e0 I0. induction So as [|l o b S IH F O B]; intros e0 I0.
      - destruct I0 as [<-|[]]. cbn. lia.
      - apply in_app_or in I0. destruct I0 as [I0|[<-|[]]]; [apply IH, I0|]. cbn. rewrite <- (conv_0 l S). apply conv_mono; [exact S|lra|]. change 0%Q with (inject_Z 0). rewrite <- Zle_Qle. exact O. }
    assert (O1 : te_off e0 = 0). { apply (Sp e0 (TempoEntry 0 (nofZ 120) 0) I0); [rewrite Hr; left; reflexivity|exact T1]. }
    rewrite T1, O1. unfold ms_per_tick. rewrite B0.
    assert (V : exists q : Qc, nadd (nofZ 0) (nmul (nofZ (0 - 0)) (@ndiv XQ (nofZ 60000) (nmul (Fin b0) (nofZ 128)))) = Fin q /\ (q == 0)%Q).
    { cbn [nadd ndiv nmul nofZ XQ xq_add xq_mul xq_ofZ xq_div]. destruct (qc_eqb (b0 * Q2Qc (inject_Z 128))%Qc (Q2Qc 0)) eqn:Q.
      - exfalso. unfold qc_eqb in Q. apply Qeq_bool_iff in Q. rewrite this_mult, !this_Q in Q. unfold Qclt in Bp. change (this (Q2Qc 0)) with 0%Q in Bp. change (inject_Z 128) with 128%Q in Q. lra.
      - eexists. split; [reflexivity|]. rewrite this_plus, this_mult, !this_Q. change (inject_Z (0 - 0)) with 0%Q. change (inject_Z 0) with 0%Q. ring. }
    destruct V as (q & -> & Eq). 
    assert (Hz : half_up q = 0) by (rewrite (half_up_comp q (inject_Z 0)) by (rewrite Eq; reflexivity); apply half_up_Z).
    change (@jround XQ JXQ (Fin q)) with (clamp64 (half_up q)). rewrite Hz. reflexivity.
  - intros a b L. exists (conv (en_tempos en) (this (Q2Qc (inject_Z a)))), (conv (en_tempos en) (this (Q2Qc (inject_Z b)))).
    split; [apply nofZ_conv; [exact So|lia]|]. split; [apply nofZ_conv; [exact So|lia]|]. split; [apply nofZ_mono; assumption|apply conv_top].
  - intros start notes K e f Ie If L. destruct (K e Ie) as (q1 & r1 & E1 & R1 & L1 & H1). destruct (K f If) as (q2 & r2 & E2 & R2 & L2 & H2).
    rewrite R1 in R2. inversion R2; subst r2. rewrite E1, E2 in L. cbn in L. unfold qc_ltb in L.
    assert (Q12 : (q1 <= q2)%Q). { destruct (Qlt_le_dec q2 q1) as [X|X]; [|exact X]. exfalso. revert L. destruct (Qle_bool q1 q2) eqn:Y; [apply Qle_bool_iff in Y; lra|discriminate]. }
    destruct (onset_at start e q1 r1 E1 R1 L1 H1) as (z1 & Z1 & O1). destruct (onset_at start f q2 r1 E2 R1 L2 H2) as (z2 & Z2 & O2).
    assert (M : 0 <= onset start e <= onset start f) by (rewrite O1, O2; apply q_round_mono; lra).
    unfold on_tick, SpecApply.tick. assert (P0 : 0 <= lateness (en_tempos en)) by (unfold lateness; destruct (ticks_to_ms _ _); lia).
    rewrite !nofZ_conv by (try exact So; lia). apply nofZ_mono; [exact So|lia].
Qed.

Lemma late_refuted : chronological dense /\ exists en, set_tempos dense new_engine = Some en /\ lateness (en_tempos en) = 60.
Proof.
  split; [exact (proj1 C36_dense_refuted)|].
  assert (E : match set_tempos dense new_engine with Some en => lateness (en_tempos en) =? 60 | None => false end = true) by (vm_compute; reflexivity).
  destruct (set_tempos dense new_engine) as [en|]; [|discriminate]. exists en. split; [reflexivity|apply Z.eqb_eq, E].
Qed.
