(** The times at which notes sound (C60). *)
From Coq Require Import ZArith QArith Qround Qcanon Qabs Lqa String List Bool Lia ZifyBool Permutation Sorted.
From Verif Require Import Base Num ModelPitch ModelDuration ModelInstruments ModelTypes ModelLisp ModelScore SpecScore SpecGlobals ModelOsc SpecOsc ProofOsc
  ModelPlayer SpecPlayer ProofPlayer ProofTicks ModelApply SpecApply ProofGlobals ProofApplyExact ProofApplyEx SpecTime.
Import ListNotations.
Local Notation tick := ProofTicks.tick.
Local Open Scope list_scope.
Local Open Scope Z_scope.

(* ---------------- files ---------------- *)
Fixpoint rising (from : Z) (l : list (Z * Z)) : Prop := match l with [] => True | (k, _) :: r => from <= k /\ rising k r end.
Lemma reached_later : forall d t l from us, rising from l -> d <= from -> from <= t -> reached (map (tempo_from d) l) (from - d) us (t - d) = reached l from us t.
Proof.
  intros d t l. induction l as [|[k u] l IH]; intros from us R D T; cbn [map reached]; [lia|]. destruct R as [R1 R2]. unfold tempo_from. cbn [fst snd]. rewrite Z.max_r by lia.
  destruct (k <=? t) eqn:E.
  - replace (k - d <=? t - d) with true by lia. rewrite IH by (assumption || lia). lia.
  - replace (k - d <=? t - d) with false by lia. lia.
Qed.
Lemma reached_from : forall d t l from us, rising from l -> from <= d -> d <= t ->
  reached (map (tempo_from d) l) 0 us (t - d) = reached l from us t - reached l from us d.
Proof.
  intros d t l. induction l as [|[k u] l IH]; intros from us R D T; cbn [map reached]; [lia|]. destruct R as [R1 R2]. unfold tempo_from at 1. cbn [fst snd].
  destruct (k <=? d) eqn:E.
  - rewrite Z.max_l by lia. replace (0 <=? t - d) with true by lia. replace (k <=? t) with true by lia. rewrite (IH k) by (assumption || lia). lia.
  - rewrite Z.max_r by lia. destruct (k <=? t) eqn:F.
    + replace (k - d <=? t - d) with true by lia. rewrite reached_later by (assumption || lia). lia.
    + replace (k - d <=? t - d) with false by lia. lia.
Qed.

Lemma inject_Z_minus' : forall a b, (inject_Z (a - b) == inject_Z a - inject_Z b)%Q.
Proof. intros. unfold Z.sub. rewrite inject_Z_plus, inject_Z_opp. reflexivity. Qed.
(* ---------------- one more tempo ---------------- *)
Lemma reached_before : forall l k u t from us, rising from l -> Forall (fun x => fst x <= k) l -> from <= t <= k -> reached (l ++ [(k, u)]) from us t = reached l from us t.
Proof.
  induction l as [|[k1 u1] l IH]; intros k u t from us R F T; cbn [app reached].
  - destruct (k <=? t) eqn:E; [replace k with t by lia; lia|lia].
  - destruct R as [R1 R2]. inversion F; subst. destruct (k1 <=? t) eqn:E; [|reflexivity]. rewrite IH by (assumption || lia). reflexivity.
Qed.
Lemma reached_after : forall l k u t from us, rising from l -> Forall (fun x => fst x <= k) l -> from <= k -> k <= t -> reached (l ++ [(k, u)]) from us t = reached l from us k + (t - k) * u.
Proof.
  induction l as [|[k1 u1] l IH]; intros k u t from us R F K T; cbn [app reached].
  - replace (k <=? t) with true by lia. lia.
  - destruct R as [R1 R2]. inversion F; subst. cbn in H1. replace (k1 <=? t) with true by lia. replace (k1 <=? k) with true by lia. rewrite IH by (assumption || lia). lia.
Qed.
Lemma rising_snoc : forall l from k u, rising from l -> Forall (fun x => fst x <= k) l -> from <= k -> rising from (l ++ [(k, u)]).
Proof.
  induction l as [|[k1 u1] l IH]; intros from k u R F K; cbn [app rising]; [split; [exact K|exact I]|]. destruct R as [R1 R2]. inversion F; subst. cbn in H1. split; [exact R1|]. apply IH; assumption.
Qed.
Lemma slack_app : forall a b z, (slack_of (a ++ b) z == slack_of a z + slack_of b z)%Q.
Proof. induction a as [|[o x] a IH]; intros b z; cbn [app slack_of]; [ring|]. rewrite IH. ring. Qed.
Lemma half_pos : forall b : Qc, (0 < b)%Qc -> (0 <= half_tick (Fin b))%Q.
Proof. intros b B. unfold half_tick. unfold Qclt in B. change (this (Q2Qc 0)) with 0%Q in B. apply Qle_shift_div_l; lra. Qed.
Lemma slack_mono : forall l y z, Forall (fun x => exists b : Qc, snd x = Fin b /\ (0 < b)%Qc) l -> y <= z -> (slack_of l y <= slack_of l z)%Q.
Proof.
  induction l as [|[o x] l IH]; intros y z F H; cbn [slack_of]; [lra|]. inversion F as [|? ? (b & E & B) F']; subst. cbn in E. subst x. specialize (IH y z F' H). pose proof (half_pos b B).
  destruct (o <? y) eqn:E1, (o <? z) eqn:E2; try lia; lra.
Qed.

Lemma track_add_end : forall t m l, Forall (fun x => fst x <= t) l -> track_add t m l = l ++ [(t, m)].
Proof. induction l as [|[k x] l IH]; intros F; [reflexivity|]. inversion F; subst. cbn in H1. cbn [track_add app]. replace (t <? k) with false by lia. rewrite IH by assumption. reflexivity. Qed.

Lemma message_near : forall b : Qc, (0 < b)%Qc -> (60000000 <= 16777215 * this b)%Q -> exists u, tempo_message (Fin b : @num XQ) = SetTempo u /\
  (60000000 / this b - (1 # 2) <= inject_Z u)%Q /\ (inject_Z u <= 60000000 / this b + (1 # 2))%Q.
Proof.
  intros b B HQ. unfold Qclt in B. change (this (Q2Qc 0)) with 0%Q in B.
  assert (D : qc_eqb b (Q2Qc 0) = false). { unfold qc_eqb. destruct (Qeq_bool _ _) eqn:K; [|reflexivity]. apply Qeq_bool_eq in K. cbn in K. lra. }
  assert (E : exists q : Q, (q == 60000000 / this b)%Q /\ jround (@ndiv XQ (nofZ 60000000) (Fin b)) = clamp64 (half_up q)).
  { exists (this (Q2Qc (inject_Z 60000000) / b)%Qc). split; [rewrite this_div, this_Q; reflexivity|]. cbn [ndiv nofZ XQ xq_div xq_ofZ]. rewrite D. reflexivity. }
  destruct E as (q & Eq & E). unfold tempo_message. rewrite E.
  assert (L0 : (0 <= q)%Q) by (rewrite Eq; apply Qle_shift_div_l; lra). assert (L1 : (q <= 16777215)%Q) by (rewrite Eq; apply Qle_shift_div_r; lra).
  assert (H0 : 0 <= half_up q). { rewrite <- (half_up_Z 0). apply half_up_mono. exact L0. }
  assert (H1 : half_up q <= 16777215). { rewrite <- (half_up_Z 16777215). apply half_up_mono. exact L1. }
  replace (clamp64 (half_up q)) with (half_up q) by (unfold clamp64; lia). replace (16777215 <? half_up q) with false by lia. exists (half_up q). split; [reflexivity|].
  pose proof (half_up_near q) as [A C]. split; lra.
Qed.

(* ---------------- all tempos ---------------- *)
Definition near (l : list tempo_entry) (ts : list (Z * Z)) (hist : list (Z * @num XQ)) : Prop :=
  forall z, 0 <= z -> conv l (inject_Z z) < 2 ^ 63 - 1 ->
    (Qabs (inject_Z (reached ts 0 500000 (conv l (inject_Z z))) - 128000 * inject_Z z) <= 128000 * slack hist z + inject_Z (conv l (inject_Z z)) / 2)%Q.
Lemma Qabs_tri : forall a b c d : Q, (Qabs a <= c)%Q -> (Qabs b <= d)%Q -> (Qabs (a + b) <= c + d)%Q.
Proof. intros a b c d A B. eapply Qle_trans; [apply Qabs_triangle|]. lra. Qed.
Lemma Qabs_between : forall a b : Q, (- b <= a)%Q -> (a <= b)%Q -> (Qabs a <= b)%Q.
Proof. intros a b A B. apply Qabs_Qle_condition. split; assumption. Qed.
(** The stretch of one tempo. *)
Lemma stretch : forall o (b : Qc) k z u, (0 < b)%Qc -> o < z -> 0 <= o -> 0 <= k -> tick (@TempoEntry XQ o (Fin b) k) (inject_Z z) < 2 ^ 63 - 1 -> k <= tick (@TempoEntry XQ o (Fin b) k) (inject_Z z) ->
  (60000000 / this b - (1 # 2) <= inject_Z u)%Q -> (inject_Z u <= 60000000 / this b + (1 # 2))%Q ->
  (Qabs (inject_Z ((tick (@TempoEntry XQ o (Fin b) k) (inject_Z z) - k) * u) - 128000 * (inject_Z z - inject_Z o)) <=
   128000 * half_tick (Fin b) + inject_Z (tick (@TempoEntry XQ o (Fin b) k) (inject_Z z) - k) / 2)%Q.
Proof.
  intros o b k z u B L O K T K' U1 U2. set (e := @TempoEntry XQ o (Fin b) k) in *. assert (G : good e) by (split; [exact O|exists b; split; [reflexivity|exact B]]).
  destruct (tick_near e (inject_Z z) G K) as [N1 N2]; [cbn; rewrite <- Zle_Qle; lia|exact T|]. set (n := tick e (inject_Z z)) in *. unfold pos, rate in N1, N2. cbn [te_bpm te_ticks te_off e] in N1, N2.
  unfold Qclt in B. change (this (Q2Qc 0)) with 0%Q in B. rewrite inject_Z_mult. set (m := inject_Z (n - k)). assert (M : (m == inject_Z n - inject_Z k)%Q) by (unfold m; rewrite inject_Z_minus'; reflexivity).
  assert (M0 : (0 <= m)%Q) by (unfold m; change 0%Q with (inject_Z 0); rewrite <- Zle_Qle; lia).
  set (w := (60000000 / this b)%Q) in *. set (x := (inject_Z z - inject_Z o)%Q) in *.
  assert (W : (w * this b == 60000000)%Q) by (unfold w; field; lra). assert (W0 : (0 < w)%Q) by (unfold w; apply Qlt_shift_div_l; lra).
  assert (P : (x * (this b * 128 / 60000) * w == 128000 * x)%Q) by (transitivity (x * (w * this b) * 128 / 60000)%Q; [field|rewrite W; field]).
  assert (H : (128000 * half_tick (Fin b) == w / 2)%Q) by (unfold half_tick, w; field; lra). rewrite H.
  set (y := (x * (this b * 128 / 60000))%Q) in *. set (v := inject_Z u) in *.
  assert (A1 : (m - y <= 1 # 2)%Q) by lra. assert (A2 : (- (1 # 2) <= m - y)%Q) by lra. clearbody y v m w. clear - P M0 W0 U1 U2 A1 A2.
  assert (B1 : (m * v <= m * (w + (1 # 2)))%Q) by (rewrite !(Qmult_comm m); apply Qmult_le_compat_r; lra).
  assert (B2 : (m * (w - (1 # 2)) <= m * v)%Q) by (rewrite !(Qmult_comm m); apply Qmult_le_compat_r; lra).
  assert (C1 : ((m - y) * w <= (1 # 2) * w)%Q) by (apply Qmult_le_compat_r; lra).
  assert (C2 : (- (1 # 2) * w <= (m - y) * w)%Q) by (apply Qmult_le_compat_r; lra).
  assert (D1 : (w / 2 == (1 # 2) * w)%Q) by field. assert (D2 : (m / 2 == (1 # 2) * m)%Q) by field.
  apply Qabs_between; rewrite <- P, D1, D2; ring_simplify in B1; ring_simplify in B2; ring_simplify in C1; ring_simplify in C2; ring_simplify; lra.
Qed.

Lemma conv_eq : forall l x y, (x == y)%Q -> conv l x = conv l y.
Proof.
  intros l x y H. unfold conv. replace (take_while (upto y) l) with (take_while (upto x) l).
  - destruct (last_of _); [apply tick_comp, H|reflexivity].
  - induction l as [|e l IH]; [reflexivity|]. cbn [take_while]. replace (upto y e) with (upto x e); [rewrite IH; reflexivity|].
    destruct (upto x e) eqn:U; symmetry; [apply upto_true in U; apply upto_true; lra|apply upto_false in U; apply upto_false; lra].
Qed.
Lemma conv_nonneg : forall l z, sound l -> 0 <= z -> 0 <= conv l (inject_Z z).
Proof. intros l z S Z0. rewrite <- (conv_0 l S). apply conv_mono; [exact S|lra|]. change 0%Q with (inject_Z 0). rewrite <- Zle_Qle. exact Z0. Qed.
Lemma first_near : near first_tempos [] [].
Proof.
  intros z Z0 L. assert (E : conv first_tempos (inject_Z z) = tick (@TempoEntry XQ 0 (Fin (Q2Qc 120)) 0) (inject_Z z)).
  { apply (conv_snoc_after [] _ (inject_Z z)); [constructor|]. change (te_off _) with 0. rewrite <- Zle_Qle. exact Z0. }
  pose proof (conv_nonneg first_tempos z S_first Z0) as P. rewrite E in *. cbn [reached]. destruct (Z.eq_dec z 0) as [->|NZ].
  - assert (T : tick (@TempoEntry XQ 0 (Fin (Q2Qc 120)) 0) (inject_Z 0) = 0) by (vm_compute; reflexivity). rewrite T. unfold slack. cbn. compute. discriminate.
  - assert (LT : 0 < z) by lia. pose proof (stretch 0 (Q2Qc 120) 0 z 500000 ltac:(reflexivity) LT (Z.le_refl 0) (Z.le_refl 0) L P ltac:(compute; discriminate) ltac:(compute; discriminate)) as H.
    unfold slack. cbn [slack_of]. replace (0 <? z) with true by lia. rewrite Z.sub_0_r in *. change (@nofZ XQ 120) with (Fin (Q2Qc 120)).
    set (n := tick _ _) in *. setoid_replace (128000 * inject_Z z)%Q with (128000 * (inject_Z z - inject_Z 0))%Q by (change (inject_Z 0) with 0%Q; ring). eapply Qle_trans; [exact H|]. lra.
Qed.
Lemma tempos_app : forall a b, tempos_in (a ++ b) = tempos_in a ++ tempos_in b.
Proof. intros. apply flat_map_app. Qed.
Lemma tempos_bound : forall k l, Forall (fun x => fst x <= k) l -> Forall (fun x => fst x <= k) (tempos_in l).
Proof. intros k l F. induction F as [|[a m] l H _ IH]; [constructor|]. unfold tempos_in in *. cbn [flat_map]. apply Forall_app. split; [|exact IH]. cbn. destruct m; repeat constructor. exact H. Qed.
Lemma all_near : forall hist, chronological hist -> Forall quick hist -> exists en, set_tempos hist new_engine = Some en /\ sound (en_tempos en) /\
  Forall (fun e => te_off e = 0 \/ exists x, In x hist /\ te_off e = fst x) (en_tempos en) /\
  rising 0 (tempos_in (en_events en)) /\ Forall (fun x => exists e, In e (en_tempos en) /\ fst x = te_ticks e) (en_events en) /\
  near (en_tempos en) (tempos_in (en_events en)) hist.
Proof.
  intros hist. induction hist as [|[o b] hist IH] using rev_ind; intros CH QK.
  - exists new_engine. split; [reflexivity|]. split; [constructor|]. split; [constructor; [left; reflexivity|constructor]|]. split; [exact I|]. split; [constructor|]. exact first_near.
  - destruct (chron_sound _ CH) as (en' & E' & So' & T'). destruct CH as [S F]. apply SS_snoc in S. destruct S as [S L]. apply Forall_snoc in F. destruct F as [F (O & q & Eb & Q0)].
    apply Forall_snoc in QK. destruct QK as [QK (q' & Eq' & Hq)]. cbn [fst snd] in *. rewrite Eb in Eq'. injection Eq' as <-.
    destruct (IH (conj S F) QK) as (en & E & So & T & R & Ev & Ne). exists en'. split; [exact E'|]. split; [exact So'|]. split; [exact T'|].
    rewrite set_tempos_app, E in E'. cbn [set_tempos] in E'. unfold set_tempo in E'.
    assert (M : ms_to_ticks (en_tempos en) (nofZ o) = Some (conv (en_tempos en) (inject_Z o))).
    { rewrite nofZ_conv by assumption. f_equal. apply conv_eq. apply this_Q. }
    rewrite M in E'. injection E' as E'. subst en'. cbn [en_tempos en_events] in *. set (k := conv (en_tempos en) (inject_Z o)) in *.
    assert (Fo : Forall (fun e => te_off e <= o) (en_tempos en)).
    { eapply Forall_impl; [|exact T]. cbn. intros e [-> |(x & I & ->)]; [exact O|]. rewrite Forall_forall in L. apply (L x I). }
    rewrite add_entry_last by exact Fo. set (e := @TempoEntry XQ o b k) in *. destruct (message_near q Q0 Hq) as (u & Mu & U1 & U2). subst b. rewrite Mu.
    assert (K0 : 0 <= k) by (apply conv_nonneg; assumption).
    assert (Fk : Forall (fun x => fst x <= k) (en_events en)).
    { apply Forall_forall. intros x Ix. rewrite Forall_forall in Ev. destruct (Ev x Ix) as (e1 & I1 & ->). pose proof (sound_ticks _ So) as ST. rewrite Forall_forall in ST. rewrite (ST e1 I1).
      rewrite Forall_forall in Fo. specialize (Fo e1 I1). pose proof (sound_good _ So) as G. rewrite Forall_forall in G. destruct (G e1 I1) as [G1 _].
      apply conv_mono; [exact So| |]; [change 0%Q with (inject_Z 0)|]; rewrite <- Zle_Qle; lia. }
    rewrite track_add_end by exact Fk. rewrite tempos_app. change (tempos_in [(k, SetTempo u)]) with [(k, u)]. pose proof (tempos_bound _ _ Fk) as Ft.
    split; [apply rising_snoc; assumption|]. split.
    { apply Forall_app. split; [eapply Forall_impl; [|exact Ev]; intros x (e1 & I1 & Ex); exists e1; split; [apply in_or_app; left; exact I1|exact Ex]|].
      constructor; [|constructor]. exists e. split; [apply in_or_app; right; left; reflexivity|reflexivity]. }
    intros z Z0 B. assert (SL : (slack (hist ++ [(o, Fin q)]) z == slack hist z + (if o <? z then half_tick (Fin q) else 0))%Q).
    { unfold slack. change ((0, nofZ 120) :: hist ++ [(o, Fin q)]) with (((0, nofZ 120) :: hist) ++ [(o, Fin q)]). rewrite slack_app. cbn [slack_of]. destruct (o <? z); ring. }
    destruct (Z_lt_le_dec z o) as [LT|GE].
    + rewrite conv_snoc_before in * by (cbn; rewrite <- Zlt_Qlt; exact LT). rewrite reached_before; [|exact R|exact Ft|].
      * replace (o <? z) with false in SL by lia. rewrite SL. pose proof (Ne z Z0 B). lra.
      * split; [apply conv_nonneg; assumption|]. apply conv_mono; [exact So|change 0%Q with (inject_Z 0)|]; rewrite <- Zle_Qle; lia.
    + rewrite conv_snoc_after in * by (exact Fo || (cbn; rewrite <- Zle_Qle; exact GE)).
      assert (KT : k <= tick e (inject_Z z)).
      { replace k with (tick e (inject_Z (te_off e))) by (apply tick_start; apply conv_clamped). apply tick_mono; [split; [exact O|exists q; split; [reflexivity|exact Q0]]|]. cbn. rewrite <- Zle_Qle. exact GE. }
      rewrite reached_after by assumption. pose proof (Ne o O ltac:(fold k; lia)) as No. fold k in No.
      assert (SM : (slack hist o <= slack hist z)%Q).
      { apply slack_mono; [|exact GE]. constructor; [exists (Q2Qc 120); split; [reflexivity|reflexivity]|]. eapply Forall_impl; [|exact F]. intros x (_ & Hx). exact Hx. }
      destruct (Z.eq_dec z o) as [->|NE].
      * replace (o <? o) with false in SL by lia. rewrite SL. replace (tick e (inject_Z o)) with k by (symmetry; apply (tick_start e); apply conv_clamped). rewrite Z.sub_diag, Z.mul_0_l, Z.add_0_r. lra.
      * replace (o <? z) with true in SL by lia. rewrite SL. pose proof (stretch o q k z u Q0 ltac:(lia) O K0 B KT U1 U2) as H. fold e in H. set (n := tick e (inject_Z z)) in *.
        rewrite inject_Z_plus. pose proof (Qabs_tri _ _ _ _ No H) as G. rewrite inject_Z_minus' in G.
        match type of G with (Qabs ?x <= ?y)%Q => match goal with |- (Qabs ?x' <= ?y')%Q => assert (XX : (x' == x)%Q) by ring; rewrite XX end end. eapply Qle_trans; [exact G|]. clear - SM. set (h := half_tick _). clearbody h. assert (HH : forall a : Q, (a / 2 == a * (1 # 2))%Q) by (intros; field). rewrite !HH. lra.
Qed.

(* ---------------- the theorems ---------------- *)
Lemma to_ms : forall (r t z : Z) (s : Q), (Qabs (inject_Z r - 128000 * inject_Z z) <= 128000 * s + inject_Z t / 2)%Q ->
  (Qabs (inject_Z r / 128000 - inject_Z z) <= s + inject_Z t / 256000)%Q.
Proof.
  intros r t z s H. apply Qabs_Qle_condition in H. destruct H as [A B].
  assert (H1 : (inject_Z r / 128000 == inject_Z r * (1 # 128000))%Q) by field. assert (H2 : (inject_Z t / 2 == inject_Z t * (1 # 2))%Q) by field.
  assert (H3 : (inject_Z t / 256000 == inject_Z t * (1 # 256000))%Q) by field. rewrite H2 in A, B. rewrite H1, H3. apply Qabs_between; lra.
Qed.
Lemma c60_time : forall hist en z t, chronological hist -> Forall quick hist -> set_tempos hist new_engine = Some en -> 0 <= z ->
  ms_to_ticks (en_tempos en) (nofZ z) = Some t -> t < 2 ^ 63 - 1 ->
  (Qabs (sounds_at (tempos_in (en_events en)) t - inject_Z z) <= slack hist z + inject_Z t / 256000)%Q.
Proof.
  intros hist en z t CH QK E Z0 M L. destruct (all_near hist CH QK) as (en' & E' & So & _ & _ & _ & Ne). rewrite E in E'. injection E' as <-.
  rewrite nofZ_conv in M by assumption. injection M as M. rewrite (conv_eq _ _ (inject_Z z) (this_Q _)) in M. subst t. apply to_ms. apply Ne; assumption.
Qed.
Lemma c60_tick : forall hist en z, chronological hist -> Forall quick hist -> set_tempos hist new_engine = Some en -> 0 <= z ->
  SpecApply.tick (en_tempos en) z < 2 ^ 63 - 1 ->
  (Qabs (sounds_at (tempos_in (en_events en)) (SpecApply.tick (en_tempos en) z) - inject_Z z) <= slack hist z + inject_Z (SpecApply.tick (en_tempos en) z) / 256000)%Q.
Proof.
  intros hist en z CH QK E Z0 L. destruct (all_near hist CH QK) as (en' & E' & So & _). rewrite E in E'. injection E' as <-.
  apply c60_time; try assumption. unfold SpecApply.tick. rewrite nofZ_conv by assumption. reflexivity.
Qed.
Lemma late_pos : forall l, 0 <= @lateness XQ JXQ l.
Proof. intros l. unfold lateness. destruct (ticks_to_ms l 0); lia. Qed.
Lemma c60_play : forall t s s' b start stop notes en commands p e,
  @performed XQ JXQ t s s' b start stop notes en -> chronological (tempo_changes b) -> Forall quick (tempo_changes b) ->
  Forall (Forall command) commands -> runs (sent b commands) p -> p_playing p = true -> In e notes -> off_tick (en_tempos en) start e < 2 ^ 63 - 1 ->
  let l := en_tempos en in let ts := tempos_in (en_events (p_engine p)) in let z := lateness l + onset start e in
  (Qabs (sounds_at ts (on_tick l start e) - inject_Z z) <= slack (tempo_changes b) z + inject_Z (on_tick l start e) / 256000)%Q /\
  (Qabs (sounds_at ts (off_tick l start e) - inject_Z (z + sounding e)) <= slack (tempo_changes b) (z + sounding e) + inject_Z (off_tick l start e) / 256000)%Q.
Proof.
  intros t s s' b start stop notes en commands p e PF CH QK CO R PL I L l ts z. destruct (played_notes linear_XQ _ _ _ _ _ _ _ _ _ _ PF CO R PL) as (_ & _ & TS). unfold ts. rewrite TS.
  pose proof (pf_notes _ _ _ _ _ _ _ _ PF) as PN. rewrite Forall_forall in PN. destruct (PN e I) as [_ _ (T1 & T2 & _) (a & c & M1 & M2 & AB)].
  pose proof (pf_tempos _ _ _ _ _ _ _ _ PF) as TE. pose proof (late_pos l) as LP. fold l in M1, M2.
  assert (E1 : on_tick l start e = a) by (unfold on_tick, SpecApply.tick; rewrite M1; reflexivity). assert (E2 : off_tick l start e = c) by (unfold off_tick, SpecApply.tick; rewrite M2; reflexivity).
  fold l in L. split; apply (c60_tick (tempo_changes b) en); try assumption; unfold z; try lia.
  change (on_tick l start e < 2 ^ 63 - 1). lia.
Qed.
Lemma rising_en : forall hist en, chronological hist -> Forall quick hist -> set_tempos hist new_engine = Some en -> rising 0 (tempos_in (en_events en)).
Proof. intros hist en CH QK E. destruct (all_near hist CH QK) as (en' & E' & _ & _ & R & _). rewrite E in E'. injection E' as <-. exact R. Qed.
Lemma c60_export : forall t s s' b start stop notes en commands p f data d e0 e,
  @performed XQ JXQ t s s' b start stop notes en -> chronological (tempo_changes b) -> Forall quick (tempo_changes b) ->
  Forall (Forall command) commands -> runs (sent b commands) p -> In (f, data) (p_files p) ->
  first_tick (en_tempos en) start notes d -> In e0 notes -> on_tick (en_tempos en) start e0 = d -> In e notes -> off_tick (en_tempos en) start e < 2 ^ 63 - 1 ->
  let l := en_tempos en in let h := tempo_changes b in let z0 := lateness l + onset start e0 in let z := lateness l + onset start e in
  (Qabs (sounds_at (tempos_in data) (on_tick l start e - d) - inject_Z (onset start e - onset start e0)) <=
     (slack h z + slack h z0) + inject_Z (on_tick l start e + d) / 256000)%Q /\
  (Qabs (sounds_at (tempos_in data) (off_tick l start e - d) - inject_Z (onset start e + sounding e - onset start e0)) <=
     (slack h (z + sounding e) + slack h z0) + inject_Z (off_tick l start e + d) / 256000)%Q.
Proof.
  intros t s s' b start stop notes en commands p f data d e0 e PF CH QK CO R IN FT I0 D0 I L l h z0 z.
  destruct (filed linear_XQ levels_XQ _ _ _ _ _ _ _ _ _ _ _ _ _ PF CO R IN FT) as (_ & _ & TS & _). rewrite TS.
  pose proof (pf_notes _ _ _ _ _ _ _ _ PF) as PN. rewrite Forall_forall in PN. destruct (PN e I) as [_ _ (T1 & T2 & _) (a & c & M1 & M2 & AB)]. destruct (PN e0 I0) as [_ _ (T01 & T02 & _) _].
  pose proof (pf_tempos _ _ _ _ _ _ _ _ PF) as TE. pose proof (late_pos l) as LP. fold l in M1, M2, L, D0, FT.
  assert (E1 : on_tick l start e = a) by (unfold on_tick, SpecApply.tick; rewrite M1; reflexivity). assert (E2 : off_tick l start e = c) by (unfold off_tick, SpecApply.tick; rewrite M2; reflexivity).
  pose proof (proj2 FT e I) as DE. pose proof (rising_en _ _ CH QK TE) as RS.
  assert (D00 : 0 <= d).
  { rewrite <- D0. unfold on_tick, SpecApply.tick. fold z0. destruct (all_near _ CH QK) as (en' & E' & So & _). rewrite TE in E'. injection E' as <-. fold l in So. unfold z0.
    rewrite nofZ_conv by (assumption || lia). rewrite (conv_eq _ _ _ (this_Q _)). apply conv_nonneg; [exact So|lia]. }
  pose proof (c60_tick h en z0 CH QK TE ltac:(unfold z0; lia)) as H0. fold l in H0. change (SpecApply.tick l z0) with (on_tick l start e0) in H0. rewrite D0 in H0. specialize (H0 ltac:(lia)).
  pose proof (c60_tick h en z CH QK TE ltac:(unfold z; lia)) as H1. fold l in H1. change (SpecApply.tick l z) with (on_tick l start e) in H1. specialize (H1 ltac:(lia)).
  pose proof (c60_tick h en (z + sounding e) CH QK TE ltac:(unfold z; lia)) as H2. fold l in H2. change (SpecApply.tick l (z + sounding e)) with (off_tick l start e) in H2. specialize (H2 L).
  assert (DIFF : forall x, d <= x -> (sounds_at (map (tempo_from d) (tempos_in (en_events en))) (x - d) == sounds_at (tempos_in (en_events en)) x - sounds_at (tempos_in (en_events en)) d)%Q).
  { intros x Hx. unfold sounds_at. rewrite (reached_from d x _ 0 500000 RS) by lia. rewrite inject_Z_minus'. field. }
  rewrite !DIFF by lia. apply Qabs_Qle_condition in H0, H1, H2.
  assert (V : forall x, (inject_Z x / 256000 == inject_Z x * (1 # 256000))%Q) by (intros; field). rewrite V in H0, H1, H2. rewrite !V.
  assert (Z1 : (inject_Z (onset start e - onset start e0) == inject_Z z - inject_Z z0)%Q) by (rewrite <- inject_Z_minus'; unfold z, z0; replace (lateness l + onset start e - (lateness l + onset start e0)) with (onset start e - onset start e0) by lia; reflexivity).
  assert (Z2 : (inject_Z (onset start e + sounding e - onset start e0) == inject_Z (z + sounding e) - inject_Z z0)%Q) by (rewrite <- inject_Z_minus'; unfold z, z0; replace (lateness l + onset start e + sounding e - (lateness l + onset start e0)) with (onset start e + sounding e - onset start e0) by lia; reflexivity).
  rewrite Z1, Z2, !inject_Z_plus. split; apply Qabs_between; rewrite ?inject_Z_plus in *; lra.
Qed.

(* ---------------- examples ---------------- *)
Fixpoint chronqb (z : Z) (l : list (Z * @num XQ)) : bool :=
  match l with
  | [] => true
  | (o, Fin b) :: t => (z <=? o) && negb (Qle_bool b 0) && chronqb o t
  | _ => false
  end.
Lemma chronqb_ok : forall l, chronqb 0 l = true -> chronological l.
Proof.
  assert (G : forall l z, chronqb z l = true -> 0 <= z -> chronological l /\ Forall (fun x => z <= fst x) l).
  { induction l as [|[o [b| | |]] l IH]; intros z H Z0; cbn [chronqb] in H; try discriminate; [split; [split; constructor|constructor]|].
    apply andb_prop in H as [H H2]. apply andb_prop in H as [H H1]. apply Z.leb_le in H. destruct (IH o H2 ltac:(lia)) as [[S F] B].
    split; [split; constructor; [exact S|exact B| |exact F]|constructor; [exact H|eapply Forall_impl; [|exact B]; cbn; intros; lia]].
    cbn [fst snd]. split; [lia|]. exists b. split; [reflexivity|]. unfold Qclt. destruct (Qlt_le_dec (Q2Qc 0) b) as [L|L]; [exact L|].
    apply negb_true_iff in H1. assert (L' : (b <= 0)%Q) by exact L. apply Qle_bool_iff in L'. congruence. }
  intros l H. apply (G l 0 H). lia.
Qed.
Definition quickb (l : list (Z * @num XQ)) : bool :=
  forallb (fun x => match snd x with Fin b => Qle_bool 60000000 (16777215 * this b) | _ => false end) l.
Lemma quickb_ok : forall l, quickb l = true -> Forall quick l.
Proof.
  intros l H. apply Forall_forall. intros [o x] I. unfold quickb in H. rewrite forallb_forall in H. specialize (H _ I). unfold quick. cbn [snd] in *.
  destruct x as [b| | |]; try discriminate. exists b. split; [reflexivity|apply Qle_bool_iff, H].
Qed.
Definition timed (h : list (Z * @num XQ)) (z t : Z) (q : Q) : bool :=
  match set_tempos h new_engine with
  | Some en => match ms_to_ticks (en_tempos en) (nofZ z) with Some t' => (t' =? t) && Qeq_bool (sounds_at (tempos_in (en_events en)) t) q | None => false end
  | None => false
  end.
Lemma timed_ok : forall h z t q, timed h z t q = true ->
  exists en, set_tempos h new_engine = Some en /\ ms_to_ticks (en_tempos en) (nofZ z) = Some t /\ (sounds_at (tempos_in (en_events en)) t == q)%Q.
Proof.
  intros h z t q H. unfold timed in H. destruct (set_tempos h new_engine) as [en|] eqn:E; [|discriminate]. destruct (ms_to_ticks (en_tempos en) (nofZ z)) as [t'|] eqn:M; [|discriminate].
  apply andb_prop in H as [H1 H2]. apply Z.eqb_eq in H1. subst t'. exists en. split; [reflexivity|]. split; [exact M|apply Qeq_bool_iff, H2].
Qed.
Definition crowded : list (Z * @num XQ) := map (fun i => (5 * Z.of_nat i, nofZ 60)) (seq 0 400).
Lemma drift_refuted : chronological crowded /\ Forall quick crowded /\
  exists en, set_tempos crowded new_engine = Some en /\ ms_to_ticks (en_tempos en) (nofZ 2000) = Some 400 /\ (sounds_at (tempos_in (en_events en)) 400 == 3125)%Q.
Proof. split; [apply chronqb_ok; vm_compute; reflexivity|]. split; [apply quickb_ok; vm_compute; reflexivity|apply timed_ok; vm_compute; reflexivity]. Qed.
Lemma slow_refuted : chronological [(0, nofZ 3)] /\
  exists en, set_tempos (N := XQ) [(0, nofZ 3)] new_engine = Some en /\ ms_to_ticks (en_tempos en) (nofZ 20000) = Some 128 /\ (sounds_at (tempos_in (en_events en)) 128 == 500)%Q.
Proof. split; [apply chronqb_ok; vm_compute; reflexivity|apply timed_ok; vm_compute; reflexivity]. Qed.
