(** What is written has MIDI values, with IEEE doubles too. *)
From Coq Require Import ZArith QArith Qround Reals Qreals Lqa Lra String List Bool Lia SpecFloat.
From Flocq Require Import Core.Core IEEE754.BinarySingleNaN.
From Verif Require Import Base Num ModelPitch ModelDuration ModelInstruments ModelTypes ModelLisp ModelScan ModelAst ModelScore SpecScore SpecGlobals ModelOsc SpecOsc
  ProofOsc ModelPlayer ModelApply SpecApply SpecMidi ProofLevels ProofWritten SpecScan ProofScan ProofApplyExact PropertiesEvents ProofIeee ProofTicks64.
Import ListNotations.
Local Open Scope list_scope.
Local Open Scope Z_scope.
#[local] Existing Instance Hp.
#[local] Existing Instance Hm.

Definition fin64 (x : @num B64) : Prop := exists b : bf, x = sf b.
Definition unit64 (x : @num B64) : Prop := exists b : bf, x = sf b /\ (is_finite b = true -> (0 <= B2R b <= 1)%R).

Lemma lit64 a (b : positive) : fin64 (@nlit B64 a b).
Proof. eexists. unfold nlit. cbn [nofZ ndiv B64]. rewrite !ofZ_equiv. apply div_equiv. Qed.
Lemma float64 neg int frac : fin64 (@float_of B64 neg int frac).
Proof.
  unfold float_of. set (v := match frac with [] => _ | _ => _ end).
  assert (X : fin64 v) by (subst v; destruct frac; [eexists; apply ofZ_equiv|apply lit64]).
  destruct neg; [|exact X]. destruct X as [b E]. cbv zeta. fold v. rewrite E. eexists. unfold n0. cbn [nofZ nsub B64]. rewrite ofZ_equiv. apply sub_equiv.
Qed.
Lemma ltb_not64 (x y : bf) : is_finite x = true -> is_finite y = true -> SFltb (sf x) (sf y) = false -> (B2R y <= B2R x)%R.
Proof.
  intros X Y H. pose proof (Bltb_correct 53 1024 x y X Y) as E. unfold Bltb in E. rewrite H in E.
  destruct (Rlt_bool_spec (B2R x) (B2R y)); [discriminate|assumption].
Qed.
Lemma finite_nz (x : bf) : is_finite x = true -> B2R x <> 0%R -> exists s m e H, x = B754_finite s m e H.
Proof. destruct x as [| | |s m e H]; try discriminate; intros _ N; [now elim N|]. now exists s, m, e, H. Qed.
Lemma percent64 x v : fin64 x -> @percentage B64 x = ROk v -> unit64 v.
Proof.
  intros (b & ->) H. unfold percentage in H. cbn [nltb ndiv B64] in H. unfold n0 in H. cbn [nofZ B64] in H. rewrite !ofZ_equiv in H.
  destruct (SFltb (sf b) (sf (bofZ 0))) eqn:A; [discriminate|]. cbn [orb] in H. destruct (SFltb (sf (bofZ 100)) (sf b)) eqn:B; [discriminate|].
  assert (v = SFdiv 53 1024 (sf b) (sf (bofZ 100))) as -> by congruence. rewrite div_equiv. eexists. split; [reflexivity|]. intros F.
  destruct (ofZ_exact 0) as [E0 F0]; [lia|]. destruct (ofZ_exact 100) as [E1 F1]; [lia|].
  pose proof (Bdiv_correct 53 1024 Hp Hm mode_NE b (bofZ 100)) as C. rewrite E1 in C. specialize (C ltac:(lra)). cbn [round_mode] in C.
  destruct (is_finite b) eqn:Fb.
  - apply ltb_not64 in A; [|assumption..]. apply ltb_not64 in B; [|assumption..]. rewrite E0 in A. rewrite E1 in B.
    assert (D : (0 <= B2R b / 100 <= bpow radix2 0)%R) by (change (bpow radix2 0) with 1%R; lra).
    rewrite (in_bounds 0) in C; [|lia|exact D]. destruct C as (R & _ & _). rewrite R. split; [apply rnd_nonneg|change 1%R with (bpow radix2 0); apply rnd_below; [lia|]]; apply D.
  - exfalso. destruct b as [|s| |]; try discriminate Fb.
    + assert (K : exists s' m e H, bofZ 100 = B754_finite s' m e H) by (apply finite_nz; [assumption|lra]).
      destruct K as (s' & m & e & Hb & K). rewrite K in F. discriminate.
    + clear - F. destruct (bofZ 100) as [|[]| |[]]; discriminate.
Qed.
Definition unitb (x : spec_float) : bool := valid_binary 53 1024 x && SFleb (b64_ofZ 0) x && SFleb x (b64_ofZ 1).
Lemma unitb_ok x : unitb x = true -> unit64 x.
Proof.
  intros H. unfold unitb in H. apply andb_true_iff in H as [H U]. apply andb_true_iff in H as [V L]. destruct (valid_B x V) as [b ->].
  exists b. split; [reflexivity|]. intros F. rewrite !ofZ_equiv in *. destruct (ofZ_exact 0) as [E0 F0]; [lia|]. destruct (ofZ_exact 1) as [E1 F1]; [lia|].
  apply leb_le in L; [|assumption..]. apply leb_le in U; [|assumption..]. rewrite E0 in L. rewrite E1 in U. lra.
Qed.
Lemma dynamic64 m : unit64 (@dynamic_volume B64 m).
Proof.
  unfold dynamic_volume. destruct (aget String.eqb m dynamic_volumes) as [v|] eqn:E; [|apply unitb_ok; vm_compute; reflexivity].
  apply unitb_ok. apply ProofHeap.aget_in in E; [|apply String.eqb_eq].
  assert (F : forallb (fun x => unitb (@nlit B64 (snd x) 100000)) dynamic_volumes = true) by (vm_compute; reflexivity).
  rewrite forallb_forall in F. exact (F _ E).
Qed.
Lemma unit64_level x : unit64 x -> SpecApply.byte (@level B64 x).
Proof.
  intros (b & -> & U). unfold level, SpecApply.byte. cbn [nround32 nmul nofZ B64]. rewrite ofZ_equiv, mul_equiv.
  destruct (ofZ_exact 127) as [E1 F1]; [lia|]. destruct (is_finite b) eqn:Fb.
  - specialize (U eq_refl). pose proof (Bmult_correct 53 1024 Hp Hm mode_NE b (bofZ 127)) as C. rewrite E1 in C. cbn [round_mode] in C.
    assert (D : (0 <= B2R b * 127 <= 127)%R) by lra. rewrite (in_bounds 7) in C; [|lia|change (bpow radix2 7) with 128%R; lra].
    destruct C as (R & F & _). rewrite Fb, F1 in F. destruct (toQ_B2R _ F) as (q & Eq & Rq). unfold b64_toint. rewrite Eq.
    assert (L : (0 <= q)%Q). { apply Rle_Qle. rewrite Rq, R. unfold Q2R at 1. cbn [Qnum Qden]. rewrite Rmult_0_l. apply rnd_nonneg, D. }
    assert (M : (q <= 127)%Q).
    { apply Rle_Qle. rewrite Rq, R. unfold Q2R. cbn [Qnum Qden]. rewrite Rinv_1, Rmult_1_r. apply round_le_generic; try typeclasses eauto; [apply (format_bound 127); lia|apply D]. }
    pose proof (q_round_mono _ _ L M) as X. change (q_round 127) with 127 in X. unfold wrap32. rewrite Z.mod_small; lia.
  - assert (X : b64_toQ (sf (Bmult mode_NE b (bofZ 127))) = None).
    { assert (K : exists s' m e H, bofZ 127 = B754_finite s' m e H) by (apply finite_nz; [assumption|lra]).
      destruct K as (s' & m & e & H & ->). destruct b as [|s| |]; try discriminate Fb; reflexivity. }
    unfold b64_toint. rewrite X. lia.
Qed.

Lemma number_inj64 {N : Num} (a b : num) : TNumber a = TNumber b -> a = b.
Proof. intros H. congruence. Qed.
Lemma lexeme64 m k t rest x : @lexeme B64 m k t rest -> k = TNumber x -> fin64 x.
Proof.
  intros H E. destruct H; try discriminate; try (apply number_inj64 in E; rewrite <- E; apply float64).
  match goal with S : simple _ _ |- _ => inversion S; subst; discriminate end.
Qed.
Lemma numbered64 text : @numbered B64 fin64 text.
Proof.
  intros ts Es. pose proof (@scan_total B64 text) as Sc. rewrite Es in Sc. destruct Sc as (ps & _ & W & ->). unfold numbers.
  assert (G : forall level before, well_formed level ps -> Forall (fun t => forall x, tkind t = TNumber x -> fin64 x) (tokens_at before ps)); [|exact (G _ _ W)].
  clear. induction ps as [|p ps IH]; intros level before W; [now repeat constructor|]. destruct p; cbn [tokens_at well_formed] in *.
  - eapply IH, W.
  - eapply IH, W.
  - destruct W as [L W]. constructor; [|eapply IH, W]. cbn [tkind]. intros x E. eapply lexeme64; eassumption.
Qed.
Theorem written64 texts calls : compiled texts calls -> @lv_score B64 unit64 (session calls).
Proof.
  intros H. apply session_lv; try exact dynamic64; try (apply unitb_ok; vm_compute; reflexivity).
  induction H as [|text us texts calls H _ IH]; constructor; [|exact IH].
  exact (compile_lv fin64 unit64 percent64 text (numbered64 text) us H).
Qed.
Theorem c64_values texts calls e : @compiled B64 texts calls -> In e (events (session calls)) -> has_midi (session calls) e.
Proof.
  intros H I. pose proof (written64 _ _ H) as L. destruct (C02_channels _ _ _ I) as [C _]. destruct (C03_playable _ _ _ I) as [P A].
  pose proof (lv_events _ _ L) as E. rewrite Forall_forall in E. destruct (E _ I) as (E1 & E2 & E3).
  split; try (now apply unit64_level); try assumption; try (unfold SpecApply.byte; lia).
  unfold patch_of. apply (lv_get unit64 dynamic64 (session calls) (ev_part e) L).
Qed.

(** For examples. *)
Definition compiles64 (text : list rune) : list (@update B64) := match compile text with ROk us => us | _ => [] end.
Lemma compiles64_ok texts : forallb (fun t => match @compile B64 t with ROk _ => true | _ => false end) texts = true -> compiled texts (map compiles64 texts).
Proof.
  induction texts as [|t l IH]; intros H; [constructor|]. cbn [forallb] in H. apply andb_true_iff in H as [H1 H2]. cbn [map]. constructor; [|now apply IH].
  unfold compiles64. destruct (compile t); [reflexivity|discriminate|discriminate].
Qed.
