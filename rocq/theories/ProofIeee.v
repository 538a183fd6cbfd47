(** IEEE doubles (stdlib SpecFloat, as in the model) are those of Flocq; so rounding
    is monotone.  The facts that follow rest on the axioms of the real numbers of the
    standard library. *)
From Coq Require Import ZArith QArith Qround Reals Qreals Lqa Lra Lia SpecFloat Bool.
From Flocq Require Import Core.Core IEEE754.BinarySingleNaN.
From Verif Require Import Base Num ModelPlayer.
Local Open Scope Z_scope.

#[local] Instance Hp : Prec_gt_0 53 := eq_refl.
#[local] Instance Hm : Prec_lt_emax 53 1024 := eq_refl.
Notation bf := (binary_float 53 1024).
Notation sf := B2SF.
Notation fexp64 := (SpecFloat.fexp 53 1024).
Notation rnd := (round radix2 fexp64 ZnearestE).

(** ** The operations *)
Lemma rne_equiv s m l : SpecFloat.round_nearest_even m l = choice_mode mode_NE s m l.
Proof. destruct l as [|[]]; try reflexivity. cbn. unfold Round.cond_incr. now destruct (Z.even m). Qed.
Lemma aux_equiv s m e l : SpecFloat.binary_round_aux 53 1024 s m e l = binary_round_aux 53 1024 mode_NE s m e l.
Proof.
  unfold SpecFloat.binary_round_aux, binary_round_aux. destruct (shr_fexp 53 1024 m e l) as [mrs e']. cbn zeta. rewrite (rne_equiv s). reflexivity.
Qed.
Lemma round_equiv s m e : SpecFloat.binary_round 53 1024 s m e = binary_round 53 1024 mode_NE s m e.
Proof. unfold SpecFloat.binary_round, binary_round, shl_align_fexp. destruct (shl_align _ _ _). apply aux_equiv. Qed.
Lemma normalize_equiv m e z : SpecFloat.binary_normalize 53 1024 m e z = sf (binary_normalize 53 1024 Hp Hm mode_NE m e z).
Proof. destruct m; cbn [SpecFloat.binary_normalize binary_normalize]; [reflexivity| |]; rewrite B2SF_SF2B; apply round_equiv. Qed.
Lemma add_equiv (x y : bf) : SFadd 53 1024 (sf x) (sf y) = sf (Bplus mode_NE x y).
Proof. destruct x as [| | |], y as [| | |]; try reflexivity; try (cbn; now destruct (Bool.eqb _ _)). apply normalize_equiv. Qed.
Lemma sub_equiv (x y : bf) : SFsub 53 1024 (sf x) (sf y) = sf (Bminus mode_NE x y).
Proof.
  destruct x as [| | |], y as [| | |]; try reflexivity; try (cbn; now destruct (Bool.eqb _ _)).
  cbn. unfold Zminus. rewrite <- cond_Zopp_negb. apply normalize_equiv.
Qed.
Lemma mul_equiv (x y : bf) : SFmul 53 1024 (sf x) (sf y) = sf (Bmult mode_NE x y).
Proof. destruct x as [| | |], y as [| | |]; try reflexivity. cbn. rewrite B2SF_SF2B. apply aux_equiv. Qed.
Lemma div_equiv (x y : bf) : SFdiv 53 1024 (sf x) (sf y) = sf (Bdiv mode_NE x y).
Proof.
  destruct x as [| | |], y as [| | |]; try reflexivity. cbn [SFdiv B2SF Bdiv]. rewrite B2SF_SF2B.
  destruct (SFdiv_core_binary _ _ _ _ _ _) as [[mz ez] lz]. apply aux_equiv.
Qed.
Definition bofZ (z : Z) : bf := binary_normalize 53 1024 Hp Hm mode_NE z 0 false.
Lemma ofZ_equiv z : b64_ofZ z = sf (bofZ z).
Proof. apply normalize_equiv. Qed.

(** ** What they are as numbers *)
Lemma rnd_le x y : (x <= y)%R -> (rnd x <= rnd y)%R.
Proof. apply round_le; typeclasses eauto. Qed.
Lemma rnd_same (x : bf) : rnd (B2R x) = B2R x.
Proof. apply round_generic; [typeclasses eauto|apply generic_format_B2R]. Qed.
Lemma format_bound z : Z.abs z <= 2 ^ 53 -> generic_format radix2 fexp64 (IZR z).
Proof.
  intros H. apply (generic_format_FLT radix2 (3 - 1024 - 53) 53).
  destruct (Z.eq_dec (Z.abs z) (2 ^ 53)) as [E|E].
  - apply FLT_format_generic; [reflexivity|].
    assert (X : generic_format radix2 (FLT_exp (3 - 1024 - 53) 53) (bpow radix2 53)) by (apply generic_format_FLT_bpow; [reflexivity|lia]).
    destruct (Z.abs_eq_or_opp z) as [A|A]; rewrite A in E.
    + rewrite E. exact X.
    + replace z with (- 2 ^ 53)%Z by lia. rewrite opp_IZR. apply generic_format_opp. exact X.
  - exists (Float radix2 z 0); cbn; [unfold F2R; cbn; lra| change (Z.pow_pos 2 53) with (2 ^ 53); lia|lia].
Qed.
Lemma bpow_lt_max (x : R) (k : Z) : k < 1024 -> (Rabs x <= bpow radix2 k)%R -> Rlt_bool (Rabs (rnd x)) (bpow radix2 1024) = true.
Proof.
  intros K H. apply Rlt_bool_true. apply Rle_lt_trans with (bpow radix2 (Z.max k 0)); [|apply bpow_lt; lia].
  apply abs_round_le_generic; [typeclasses eauto|typeclasses eauto| |apply Rle_trans with (1 := H), bpow_le; lia].
  apply (generic_format_FLT_bpow radix2 (3 - 1024 - 53) 53). lia.
Qed.
Lemma ofZ_exact z : Z.abs z <= 2 ^ 53 -> B2R (bofZ z) = IZR z /\ is_finite (bofZ z) = true.
Proof.
  intros H. pose proof (binary_normalize_correct 53 1024 Hp Hm mode_NE z 0 false) as C. cbv zeta in C.
  assert (E : F2R (Float radix2 z 0) = IZR z) by (unfold F2R; cbn; lra). rewrite E in C. cbn [round_mode] in C.
  rewrite (bpow_lt_max (IZR z) 53) in C; [|lia|].
  - destruct C as (C & F & _). split; [|exact F]. unfold bofZ. rewrite C. apply round_generic; [typeclasses eauto|apply format_bound, H].
  - rewrite <- abs_IZR. change (bpow radix2 53) with (IZR (2 ^ 53)). apply IZR_le, H.
Qed.


Lemma two_power e : Q2R (2 ^ e) = bpow radix2 e.
Proof.
  assert (P : forall p, Q2R (2 ^ Zpos p) = bpow radix2 (Zpos p)).
  { intros p. change (2%Q) with (inject_Z 2). rewrite <- (Qpower.Zpower_Qpower 2 (Zpos p)) by lia. unfold Q2R, inject_Z. cbn [Qnum Qden bpow].
    rewrite Rinv_1, Rmult_1_r. reflexivity. }
  destruct e as [|p|p]; [unfold Q2R; cbn; lra|apply P|].
  change (2 ^ Zneg p)%Q with (/ (2 ^ Zpos p))%Q. rewrite Q2R_inv, P; [reflexivity|].
  intros H. apply Qeq_eqR in H. rewrite P in H. pose proof (bpow_gt_0 radix2 (Zpos p)). unfold Q2R in H. cbn [Qnum Qden] in H. lra.
Qed.
Lemma toQ_B2R (x : bf) : is_finite x = true -> exists q, b64_toQ (sf x) = Some q /\ Q2R q = B2R x.
Proof.
  destruct x as [s|s| |s m e H]; intros F; try discriminate F; cbn [b64_toQ B2SF].
  - exists 0%Q. split; [reflexivity|]. cbn. unfold Q2R. cbn. lra.
  - eexists. split; [reflexivity|]. rewrite Q2R_mult, two_power. cbn [B2R]. unfold F2R. cbn [Fnum Fexp]. f_equal.
    unfold Q2R, inject_Z. cbn [Qnum Qden]. rewrite Rinv_1, Rmult_1_r. now destruct s.
Qed.

Lemma valid_B (x : spec_float) : valid_binary 53 1024 x = true -> exists b : bf, x = sf b.
Proof. intros H. exists (SF2B x H). symmetry. apply B2SF_SF2B. Qed.
Lemma B_valid (x : bf) : valid_binary 53 1024 (sf x) = true.
Proof. destruct x; try reflexivity. exact e0. Qed.
Lemma leb_le (x y : bf) : is_finite x = true -> is_finite y = true -> (SFleb (sf x) (sf y) = true <-> (B2R x <= B2R y)%R).
Proof.
  intros X Y. pose proof (Bleb_correct 53 1024 x y X Y) as E. unfold Bleb in E. rewrite E. split; [apply Rle_bool_true_inv || (intros H; destruct (Rle_bool_spec (B2R x) (B2R y)); [assumption|discriminate])|apply Rle_bool_true].
Qed.
Lemma leb_ofZ a b : Z.abs a <= 2 ^ 53 -> Z.abs b <= 2 ^ 53 -> SFleb (b64_ofZ a) (b64_ofZ b) = (a <=? b).
Proof.
  intros A B. rewrite !ofZ_equiv. destruct (ofZ_exact a A) as [Ea Fa]. destruct (ofZ_exact b B) as [Eb Fb].
  pose proof (leb_le _ _ Fa Fb) as L. rewrite Ea, Eb in L. destruct (Z.leb_spec a b) as [H|H].
  - apply L, IZR_le, H.
  - destruct (SFleb _ _); [|reflexivity]. exfalso. assert (K : (IZR a <= IZR b)%R) by (apply L; reflexivity). apply le_IZR in K. lia.
Qed.
Lemma eqb_ofZ a b : Z.abs a <= 2 ^ 53 -> Z.abs b <= 2 ^ 53 -> SFeqb (b64_ofZ a) (b64_ofZ b) = (a =? b).
Proof.
  intros A B. rewrite !ofZ_equiv. destruct (ofZ_exact a A) as [Ea Fa]. destruct (ofZ_exact b B) as [Eb Fb].
  pose proof (Beqb_correct 53 1024 _ _ Fa Fb) as L. unfold Beqb in L. rewrite L, Ea, Eb. destruct (Z.eqb_spec a b) as [->|H].
  - apply Req_bool_true. reflexivity.
  - apply Req_bool_false. intros K. apply eq_IZR in K. contradiction.
Qed.

(** ** Rounding to whole numbers *)
Lemma half_up_R q z : Q2R q = IZR z -> half_up q = z.
Proof.
  intros H. unfold half_up. assert (E : (q == inject_Z z)%Q). { apply eqR_Qeq. rewrite H. unfold Q2R, inject_Z. cbn. lra. }
  rewrite E. apply Z.le_antisymm.
  - apply Z.lt_succ_r. rewrite Zlt_Qlt. eapply Qle_lt_trans; [apply Qfloor_le|]. unfold Z.succ. rewrite inject_Z_plus. change (inject_Z 1) with 1%Q. Lqa.lra.
  - rewrite <- (Qfloor_Z z) at 1. apply Qfloor_resp_le. Lqa.lra.
Qed.
Lemma jround_mono (x y : bf) : is_finite x = true -> is_finite y = true -> (B2R x <= B2R y)%R -> jround_B64 (sf x) <= jround_B64 (sf y).
Proof.
  intros X Y H. destruct (toQ_B2R x X) as (p & Ep & Rp). destruct (toQ_B2R y Y) as (q & Eq & Rq). unfold jround_B64. rewrite Ep, Eq.
  assert ((p <= q)%Q) by (apply Rle_Qle; congruence). assert (half_up p <= half_up q) by (apply Qfloor_resp_le; Lqa.lra). unfold clamp64. lia.
Qed.
Lemma jround_Z (x : bf) z : is_finite x = true -> B2R x = IZR z -> jround_B64 (sf x) = clamp64 z.
Proof. intros X H. destruct (toQ_B2R x X) as (p & Ep & Rp). unfold jround_B64. rewrite Ep. f_equal. apply half_up_R. congruence. Qed.

(** A double of at least 2^53 is a whole number. *)
Lemma big_whole (x : bf) : (bpow radix2 53 <= B2R x)%R -> exists z, B2R x = IZR z.
Proof.
  intros L. destruct (FLT_format_B2R 53 1024 Hp x) as [[n k] E M _]. cbn [Fnum] in M. rewrite E in *. unfold F2R in *. cbn [Fnum Fexp] in *.
  destruct (Z.leb_spec 0 k) as [K|K].
  - exists (n * 2 ^ k). rewrite mult_IZR. f_equal. symmetry. apply (IZR_Zpower radix2), K.
  - exfalso. assert (B1 : (bpow radix2 k < 1)%R) by (change 1%R with (bpow radix2 0); apply bpow_lt; exact K).
    pose proof (bpow_gt_0 radix2 k) as B0. assert (M' : n < 2 ^ 53) by (change (Zpower radix2 53) with (2 ^ 53) in M; lia). apply IZR_lt in M'.
    change (bpow radix2 53) with (IZR (2 ^ 53)) in L. destruct (Rle_or_lt 0 (IZR n)); [nra|].
    assert (0 < IZR (2 ^ 53))%R by (apply IZR_lt; reflexivity). nra.
Qed.

(** Rounding what was rounded changes nothing. *)
Lemma jround_low (x : bf) : is_finite x = true -> (0 <= B2R x)%R -> 0 <= jround_B64 (sf x) < 2 ^ 63.
Proof.
  intros X H. split; [|unfold jround_B64; destruct (b64_toQ (sf x)); [unfold clamp64; lia|destruct (sf x) as [|[]| |]; reflexivity]].
  change 0 with (jround_B64 (sf (B754_zero false : bf))). apply jround_mono; [reflexivity|exact X|exact H].
Qed.
Lemma jround_again (x : bf) : is_finite x = true -> (0 <= B2R x)%R -> jround_B64 (b64_ofZ (jround_B64 (sf x))) = jround_B64 (sf x).
Proof.
  intros X H. pose proof (jround_low x X H) as L. destruct (Rle_or_lt (bpow radix2 53) (B2R x)) as [B|B].
  - destruct (big_whole x B) as [z E]. pose proof (jround_Z x z X E) as J. rewrite J in *. destruct (Z.ltb_spec z (2 ^ 63)) as [Z1|Z1].
    + assert (Z0 : 0 <= z) by (apply le_IZR; rewrite <- E; exact H). replace (clamp64 z) with z by (unfold clamp64; lia).
      rewrite ofZ_equiv. pose proof (binary_normalize_correct 53 1024 Hp Hm mode_NE z 0 false) as C. cbv zeta in C.
      assert (EF : F2R (Float radix2 z 0) = IZR z) by (unfold F2R; cbn; lra). rewrite EF in C. cbn [round_mode] in C.
      rewrite (bpow_lt_max (IZR z) 63) in C; [|lia|].
      * destruct C as (C & F & _). rewrite <- E, rnd_same in C. rewrite (jround_Z (bofZ z) z F); [unfold clamp64; lia|]. unfold bofZ. rewrite C. exact E.
      * rewrite <- abs_IZR. change (bpow radix2 63) with (IZR (2 ^ 63)). apply IZR_le. lia.
    + replace (clamp64 z) with (2 ^ 63 - 1) by (unfold clamp64; lia). vm_compute. reflexivity.
  - assert (U : jround_B64 (sf x) <= 2 ^ 53).
    { replace (2 ^ 53) with (jround_B64 (sf (bofZ (2 ^ 53)))).
      - destruct (ofZ_exact (2 ^ 53)) as [E F]; [lia|]. apply jround_mono; [exact X|exact F|]. rewrite E. left. exact B.
      - rewrite <- ofZ_equiv. vm_compute. reflexivity. }
    rewrite ofZ_equiv. destruct (ofZ_exact (jround_B64 (sf x))) as [E F]; [lia|]. rewrite (jround_Z _ _ F E). unfold clamp64. lia.
Qed.
Lemma ofZ_rnd z : 0 <= z < 2 ^ 63 -> B2R (bofZ z) = rnd (IZR z) /\ is_finite (bofZ z) = true /\ (0 <= B2R (bofZ z) <= bpow radix2 63)%R.
Proof.
  intros H. pose proof (binary_normalize_correct 53 1024 Hp Hm mode_NE z 0 false) as C. cbv zeta in C.
  assert (EF : F2R (Float radix2 z 0) = IZR z) by (unfold F2R; cbn; lra). rewrite EF in C. cbn [round_mode] in C.
  rewrite (bpow_lt_max (IZR z) 63) in C; [|lia|].
  - destruct C as (C & F & _). split; [exact C|]. split; [exact F|]. unfold bofZ. rewrite C. split.
    + rewrite <- (round_0 radix2 fexp64 ZnearestE). apply rnd_le, IZR_le. lia.
    + apply round_le_generic; try typeclasses eauto; [apply (generic_format_FLT_bpow radix2 (3 - 1024 - 53) 53); lia|].
      change (bpow radix2 63) with (IZR (2 ^ 63)). apply IZR_le. lia.
  - rewrite <- abs_IZR. change (bpow radix2 63) with (IZR (2 ^ 63)). apply IZR_le. lia.
Qed.
