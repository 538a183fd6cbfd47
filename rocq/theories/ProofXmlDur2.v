(** C55: the statements. *)
From Coq Require Import ZArith QArith Qabs Qround Qcanon Ascii String List Bool Lia Lqa.
From Verif Require Import Base Num ModelPitch ModelDuration ModelInstruments ModelTypes ModelLisp ModelImporter ModelMusicXml
  SpecMusicXml ProofNum ProofXmlDur.
Import ListNotations.
Local Open Scope list_scope.
Local Open Scope Q_scope.

Lemma units_some : forall e d, units e = Some d -> exists c, find_child "duration"%string e = Some c /\ digits (text c) = Some d.
Proof. intros e d H. unfold units in H. destruct (find_child _ e) as [c|]; [|discriminate]. exists c. now split. Qed.

Lemma c55_exact : forall other e (p : @xpart XQ) d,
  units e = Some d -> (1 <= d)%Z -> (1 <= p_div p <= 24)%Z ->
  (dots e = 0 -> d <= 40000 * p_div p)%Z -> (0 < dots e -> 2 ^ dots e * d < 10000)%Z ->
  exists du, translate_duration other e p = ROk du /\ dur_valid du = true /\ lasts du (inject_Z d / inject_Z (p_div p)).
Proof.
  intros other e p d H H1 H2 H3 H4. destruct (units_some _ _ H) as (c & Hc & Hd).
  destruct (translate_exact other e p c d Hc Hd H1 H2 H3 H4) as (du & b & X1 & X2 & X3 & X4).
  exists (Some du). split; [exact X1|]. split; [exact X3|]. unfold lasts. rewrite X2. f_equal. now apply qn_eq.
Qed.

Lemma c55_close : forall other e (p : @xpart XQ) d,
  units e = Some d -> (1 <= d <= 40000 * p_div p)%Z -> (dots e <= 2147483647)%Z ->
  exists du q, translate_duration other e p = ROk du /\ dur_valid du = true /\ lasts du q /\
    Qabs (q - inject_Z d / inject_Z (p_div p)) < 1 # 24.
Proof.
  intros other e p d H H1 H2. destruct (units_some _ _ H) as (c & Hc & Hd).
  destruct (translate_close other e p c d Hc Hd H1 H2) as (du & b & X1 & X2 & X3 & X4).
  exists (Some du), b. split; [exact X1|]. split; [exact X3|]. split; [exact X2|exact X4].
Qed.

Lemma digits_nonneg : forall s d, digits s = Some d -> (0 <= d)%Z.
Proof.
  intros s d. unfold digits. assert (G : forall l n m, (0 <= n)%Z -> digits_loop l n = Some m -> (0 <= m)%Z).
  { induction l as [|c t IH]; intros n m Hn H; cbn [digits_loop] in H; [injection H as <-; exact Hn|].
    destruct (digit_of c) as [k|] eqn:E; [|discriminate]. eapply IH; [|exact H].
    unfold digit_of in E. destruct (_ && _)%bool eqn:F; [|discriminate]. injection E as <-.
    apply andb_true_iff in F. destruct F as [F _]. apply Z.leb_le in F. lia. }
  intros H. destruct (list_ascii_of_string s) as [|a l]; [discriminate|]. eapply G; [|exact H]. lia.
Qed.

Lemma q_round_small : forall a, 0 < a -> a < 1 # 2 -> q_round a = 0%Z.
Proof.
  intros a H1 H2. unfold q_round. destruct (Qle_bool 0 a) eqn:E.
  - assert (L := Qfloor_le (a + (1 # 2))). assert (U := Qlt_floor (a + (1 # 2))).
    remember (Qfloor (a + (1 # 2))) as f. clear Heqf.
    assert (A : inject_Z f < inject_Z 1) by (change (inject_Z 1) with 1; lra).
    assert (B : inject_Z 0 < inject_Z (f + 1)) by (change (inject_Z 0) with 0; lra).
    rewrite <- Zlt_Qlt in A, B. lia.
  - exfalso. apply not_true_iff_false in E. apply E. apply Qle_bool_iff. lra.
Qed.

(** Undotted notes of more than forty thousand quarter notes: the loop of
    [idiomaticDuration] runs for ever. *)
Lemma c55_too_long : forall e (p : @xpart XQ) d, units e = Some d -> (1 <= p_div p)%Z -> (40000 * p_div p < d)%Z ->
  forall fuel, decompose fuel [1; 2; 4; 8; 16]%Z (round_close (ndiv (nmul (@nofZ XQ 4) (nofZ (p_div p))) (nofZ d))) = None.
Proof.
  intros e p d H H1 H2 fuel. assert (Pd := injZ_pos d ltac:(lia)). assert (PD := injZ_pos (p_div p) ltac:(lia)).
  rewrite !qn_ofZ, qn_mul, qn_div by lra.
  set (a := inject_Z 4 * inject_Z (p_div p) / inject_Z d).
  assert (Ha : 0 < a /\ a < 1 # 10000).
  { assert (40000 * inject_Z (p_div p) < inject_Z d).
    { change 40000 with (inject_Z 40000). rewrite <- inject_Z_mult, <- Zlt_Qlt. exact H2. }
    unfold a. change (inject_Z 4) with 4. split; [apply Qlt_shift_div_l|apply Qlt_shift_div_r]; lra. }
  assert (R : round_close (qn a) = qn 0).
  { unfold round_close. rewrite qn_round.
    assert (Z0 : q_round a = 0%Z) by (apply q_round_small; destruct Ha; lra).
    rewrite Z0, qn_sub, qn_abs, qn_lit. destruct (nltb _ _) eqn:E; [reflexivity|]. exfalso.
    apply not_true_iff_false in E. apply E. apply qn_lt. change (inject_Z 0) with 0.
    assert (G : a - 0 == a) by ring. rewrite G. destruct Ha. rewrite Qabs_pos; lra. }
  rewrite R. apply decompose_hangs.
Qed.
