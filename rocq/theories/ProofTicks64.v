(** The player's clock with IEEE doubles (C36). *)
From Coq Require Import ZArith QArith Reals Lra List Bool Sorted Lia ZifyBool SpecFloat.
From Flocq Require Import Core.Core IEEE754.BinarySingleNaN.
From Verif Require Import Base Num ModelPitch ModelDuration ModelInstruments ModelTypes ModelLisp ModelScore ModelOsc ModelPlayer SpecPlayer.
From Verif Require Import SpecIeee ProofTicks ProofIeee.
Import ListNotations.
Local Open Scope Z_scope.

#[local] Existing Instance Hp.
#[local] Existing Instance Hm.
(* ------------------------- an entry's ticks ------------------------- *)

Lemma format_bpow k : -1000 <= k -> generic_format radix2 fexp64 (bpow radix2 k).
Proof. intros H. apply (generic_format_FLT_bpow radix2 (3 - 1024 - 53) 53). lia. Qed.
Lemma rnd_below k x : -1000 <= k -> (x <= bpow radix2 k)%R -> (rnd x <= bpow radix2 k)%R.
Proof. intros K H. apply round_le_generic; try typeclasses eauto; [apply format_bpow, K|exact H]. Qed.
Lemma rnd_above k x : -1000 <= k -> (bpow radix2 k <= x)%R -> (bpow radix2 k <= rnd x)%R.
Proof. intros K H. apply round_ge_generic; try typeclasses eauto; [apply format_bpow, K|exact H]. Qed.
Lemma rnd_nonneg x : (0 <= x)%R -> (0 <= rnd x)%R.
Proof. intros H. rewrite <- (round_0 radix2 fexp64 ZnearestE). apply rnd_le, H. Qed.
Lemma in_bounds k x : -1000 <= k < 1024 -> (0 <= x <= bpow radix2 k)%R -> Rlt_bool (Rabs (rnd x)) (bpow radix2 1024) = true.
Proof. intros K [A B]. apply (bpow_lt_max x k); [lia|]. rewrite Rabs_pos_eq; assumption. Qed.

Lemma tempo64_B b : tempo64 b -> exists B : bf, b = sf B /\ is_finite B = true /\ (bpow radix2 (-149) <= B2R B <= bpow radix2 128)%R.
Proof.
  intros (V & L & U). destruct (valid_B b V) as [B ->]. exists B. split; [reflexivity|].
  pose (lo := binary_normalize 53 1024 Hp Hm mode_NE 1 (-149) false). pose (hi := binary_normalize 53 1024 Hp Hm mode_NE 1 128 false).
  assert (X : forall k, -1000 <= k < 1000 -> let f := binary_normalize 53 1024 Hp Hm mode_NE 1 k false in B2R f = bpow radix2 k /\ is_finite f = true).
  { intros k K. cbv zeta. pose proof (binary_normalize_correct 53 1024 Hp Hm mode_NE 1 k false) as C. cbv zeta in C.
    assert (E : F2R (Float radix2 1 k) = bpow radix2 k) by (unfold F2R; cbn [Fnum Fexp]; ring). rewrite E in C. cbn [round_mode] in C.
    rewrite (in_bounds k) in C; [|lia|split; [apply bpow_ge_0|apply Rle_refl]]. destruct C as (C & F & _). split; [|exact F].
    rewrite C. apply round_generic; [typeclasses eauto|apply format_bpow; lia]. }
  assert (L' : SFleb (sf lo) (sf B) = true) by (unfold lo; rewrite <- normalize_equiv; exact L).
  assert (U' : SFleb (sf B) (sf hi) = true) by (unfold hi; rewrite <- normalize_equiv; exact U).
  destruct (X (-149)) as [El Fl]; [lia|]. destruct (X 128) as [Eh Fh]; [lia|]. fold lo in El, Fl. fold hi in Eh, Fh.
  assert (F : is_finite B = true).
  { destruct B as [|[]| |]; try reflexivity; exfalso.
    - clear - L' Fl. destruct lo as [|[]| |[]]; discriminate.
    - clear - U' Fh. destruct hi as [|[]| |[]]; discriminate.
    - clear - L' Fl. destruct lo as [|[]| |[]]; discriminate. }
  split; [exact F|]. rewrite <- El, <- Eh. split; apply leb_le; assumption.
Qed.

(** What an offset is converted to, under one tempo. *)
Definition tick64 (e : @tempo_entry B64) (x : Z) : Z :=
  jround (nadd (nofZ (te_ticks e)) (ndiv (nsub (nofZ x) (nofZ (te_off e))) (ms_per_tick e))).
Definition moment (o : Z) := 0 <= o < 2 ^ 31.
Definition good64 (e : @tempo_entry B64) : Prop := moment (te_off e) /\ 0 <= te_ticks e < 2 ^ 63 /\ tempo64 (te_bpm e).

Lemma tick_double e : good64 e -> exists P : R, (0 < P)%R /\ forall x, moment x -> te_off e <= x -> exists s : bf,
  tick64 e x = jround_B64 (sf s) /\ is_finite s = true /\ B2R s = rnd (B2R (bofZ (te_ticks e)) + rnd (IZR (x - te_off e) / P)).
Proof.
  intros (O & T & G). destruct (tempo64_B _ G) as (b & Eb & Fb & Lb & Ub).
  destruct (ofZ_exact 128) as [E128 F128]; [lia|]. destruct (ofZ_exact 60000) as [E6 F6]; [lia|].
  pose proof (Bmult_correct 53 1024 Hp Hm mode_NE b (bofZ 128)) as C1. cbn [round_mode] in C1. rewrite E128 in C1.
  assert (B1 : (bpow radix2 (-142) <= B2R b * 128 <= bpow radix2 135)%R).
  { change 128%R with (bpow radix2 7). change (-142) with (-149 + 7). change 135 with (128 + 7). rewrite !bpow_plus.
    pose proof (bpow_gt_0 radix2 7). split; apply Rmult_le_compat_r; lra. }
  rewrite (in_bounds 135) in C1; [|lia|split; [apply Rle_trans with (2 := proj1 B1), bpow_ge_0|apply B1]]. destruct C1 as (R1 & F1 & _). rewrite Fb, F128 in F1. cbn [andb] in F1.
  set (m := Bmult mode_NE b (bofZ 128)) in *.
  assert (B2 : (bpow radix2 (-142) <= B2R m <= bpow radix2 135)%R) by (rewrite R1; split; [apply rnd_above|apply rnd_below]; try lia; apply B1).
  assert (N2 : (0 < B2R m)%R) by (apply Rlt_le_trans with (2 := proj1 B2), bpow_gt_0).
  pose proof (Bdiv_correct 53 1024 Hp Hm mode_NE (bofZ 60000) m (Rgt_not_eq _ _ N2)) as C2. cbn [round_mode] in C2. rewrite E6 in C2.
  assert (B3 : (bpow radix2 (-120) <= 60000 / B2R m <= bpow radix2 158)%R).
  { unfold Rdiv. split.
    - change (-120) with (15 + - (135)). rewrite bpow_plus, bpow_opp. apply Rmult_le_compat; [apply bpow_ge_0| |change (bpow radix2 15) with 32768%R; lra|apply Rinv_le; [exact N2|apply B2]].
      left. apply Rinv_0_lt_compat, bpow_gt_0.
    - change 158 with (16 + - (-142)). rewrite bpow_plus, bpow_opp. apply Rmult_le_compat; [lra| |change (bpow radix2 16) with 65536%R; lra|apply Rinv_le; [apply bpow_gt_0|apply B2]].
      left. apply Rinv_0_lt_compat, N2. }
  rewrite (in_bounds 158) in C2; [|lia|split; [apply Rle_trans with (2 := proj1 B3), bpow_ge_0|apply B3]]. destruct C2 as (R2 & F2 & _). rewrite F6 in F2.
  set (p := Bdiv mode_NE (bofZ 60000) m) in *.
  assert (B4 : (bpow radix2 (-120) <= B2R p)%R) by (rewrite R2; apply rnd_above; [lia|apply B3]).
  assert (N4 : (0 < B2R p)%R) by (apply Rlt_le_trans with (2 := B4), bpow_gt_0).
  exists (B2R p). split; [exact N4|]. intros x X L. unfold moment in *.
  destruct (ofZ_exact x) as [Ex Fx]; [lia|]. destruct (ofZ_exact (te_off e)) as [Eo Fo]; [lia|].
  pose proof (Bminus_correct 53 1024 Hp Hm mode_NE (bofZ x) (bofZ (te_off e)) Fx Fo) as C3. cbn [round_mode] in C3. rewrite Ex, Eo, <- minus_IZR in C3.
  assert (B5 : (0 <= IZR (x - te_off e) <= bpow radix2 31)%R) by (change (bpow radix2 31) with (IZR (2 ^ 31)); split; apply IZR_le; lia).
  rewrite (in_bounds 31) in C3; [|lia|exact B5]. destruct C3 as (R3 & F3 & _). set (d := Bminus mode_NE (bofZ x) (bofZ (te_off e))) in *.
  rewrite (round_generic radix2 fexp64 ZnearestE) in R3 by (apply format_bound; lia).
  pose proof (Bdiv_correct 53 1024 Hp Hm mode_NE d p (Rgt_not_eq _ _ N4)) as C4. cbn [round_mode] in C4. rewrite R3 in C4.
  assert (B6 : (0 <= IZR (x - te_off e) / B2R p <= bpow radix2 151)%R).
  { unfold Rdiv. assert (0 < / B2R p)%R by (apply Rinv_0_lt_compat, N4). split; [apply Rmult_le_pos; lra|].
    change 151 with (31 + - (-120)). rewrite bpow_plus, bpow_opp. apply Rmult_le_compat; [apply B5|lra|apply B5|apply Rinv_le; [apply bpow_gt_0|exact B4]]. }
  rewrite (in_bounds 151) in C4; [|lia|exact B6]. destruct C4 as (R4 & F4 & _). rewrite F3 in F4. set (q := Bdiv mode_NE d p) in *.
  destruct (ofZ_rnd (te_ticks e) T) as (_ & Ft & Bt).
  pose proof (Bplus_correct 53 1024 Hp Hm mode_NE (bofZ (te_ticks e)) q Ft F4) as C5. cbn [round_mode] in C5.
  assert (B7 : (0 <= B2R q <= bpow radix2 151)%R) by (rewrite R4; split; [apply rnd_nonneg|apply rnd_below; [lia|]]; apply B6).
  rewrite (in_bounds 152) in C5; [|lia|].
  - destruct C5 as (R5 & F5 & _). exists (Bplus mode_NE (bofZ (te_ticks e)) q). split; [|split; [exact F5|rewrite R5, R4; reflexivity]].
    unfold tick64, ms_per_tick. cbn [jround JB64 nadd ndiv nsub nmul nofZ B64]. rewrite Eb, !ofZ_equiv, mul_equiv, sub_equiv. fold m d. rewrite div_equiv. fold p. rewrite div_equiv. fold q. rewrite add_equiv. reflexivity.
  - split; [lra|]. change 152 with (1 + 151). rewrite bpow_plus. change (bpow radix2 1) with 2%R.
    assert (bpow radix2 63 <= bpow radix2 151)%R by (apply bpow_le; lia). lra.
Qed.
Lemma div_le_pos a b P : (0 < P)%R -> (a <= b)%R -> (a / P <= b / P)%R.
Proof. intros H L. unfold Rdiv. apply Rmult_le_compat_r; [left; apply Rinv_0_lt_compat, H|exact L]. Qed.
Lemma tick64_mono e x y : good64 e -> moment x -> moment y -> te_off e <= x -> x <= y -> tick64 e x <= tick64 e y.
Proof.
  intros G X Y O L. destruct (tick_double e G) as (P & P0 & H). destruct (H x X O) as (s & -> & Fs & Es). destruct (H y Y ltac:(lia)) as (r & -> & Fr & Er).
  apply jround_mono; [exact Fs|exact Fr|]. rewrite Es, Er. apply rnd_le, Rplus_le_compat_l, rnd_le, div_le_pos; [exact P0|]. apply IZR_le. lia.
Qed.
(** Ticks that come from doubles. *)
Definition whole64 (t : Z) := 0 <= t < 2 ^ 63 /\ jround_B64 (b64_ofZ t) = t.
Lemma tick64_start e : good64 e -> whole64 (te_ticks e) -> tick64 e (te_off e) = te_ticks e.
Proof.
  intros G [T W]. destruct (tick_double e G) as (P & P0 & H). destruct (H (te_off e)) as (s & -> & Fs & Es); [apply G|lia|].
  rewrite Z.sub_diag in Es. unfold Rdiv in Es. rewrite Rmult_0_l, round_0, Rplus_0_r, rnd_same in Es; [|typeclasses eauto].
  destruct (ofZ_rnd (te_ticks e) T) as (_ & Ft & Bt). rewrite ofZ_equiv in W. transitivity (jround_B64 (sf (bofZ (te_ticks e)))); [|exact W].
  apply Z.le_antisymm; apply jround_mono; try assumption; rewrite Es; apply Rle_refl.
Qed.
Lemma tick64_whole e x : good64 e -> moment x -> te_off e <= x -> whole64 (tick64 e x).
Proof.
  intros G X O. destruct (tick_double e G) as (P & P0 & H). destruct (H x X O) as (s & -> & Fs & Es).
  assert (S0 : (0 <= B2R s)%R).
  { rewrite Es. apply rnd_nonneg. destruct (ofZ_rnd (te_ticks e)) as (_ & _ & Bt); [apply G|]. 
    assert (0 <= rnd (IZR (x - te_off e) / P))%R; [|lra]. apply rnd_nonneg. unfold Rdiv. apply Rmult_le_pos; [apply IZR_le; lia|left; apply Rinv_0_lt_compat, P0]. }
  split; [apply jround_low; assumption|apply jround_again; assumption].
Qed.

(* ------------------------- lists of entries ------------------------- *)

Definition upto64 (x : Z) (e : @tempo_entry B64) : bool := te_off e <=? x.
Definition conv64 (l : list (@tempo_entry B64)) (x : Z) : Z := match last_of (take_while (upto64 x) l) with Some e => tick64 e x | None => 0 end.
Inductive sound64 : list (@tempo_entry B64) -> Prop :=
| S64_first : sound64 first_tempos
| S64_snoc l o b : sound64 l -> Forall (fun e => te_off e <= o) l -> moment o -> tempo64 b ->
    sound64 (l ++ [TempoEntry o b (conv64 l o)]).
Lemma first_good : good64 (@TempoEntry B64 0 (nofZ 120) 0).
Proof. repeat split; cbn [te_off te_ticks te_bpm]; lia || reflexivity. Qed.
Lemma before64 l e x : x < te_off e -> conv64 (l ++ [e]) x = conv64 l x.
Proof. intros H. unfold conv64. rewrite take_while_app_not by (unfold upto64; lia). reflexivity. Qed.
Lemma after64 l e x : Forall (fun e' => te_off e' <= te_off e) l -> te_off e <= x -> conv64 (l ++ [e]) x = tick64 e x.
Proof.
  intros F H. unfold conv64. rewrite take_while_all, last_of_snoc; [reflexivity|]. apply Forall_app. unfold upto64. split; [|constructor; [lia|constructor]].
  eapply Forall_impl; [|exact F]. cbn. intros. lia.
Qed.
Lemma sound64_ok l : sound64 l -> Forall good64 l /\ (forall x, moment x -> whole64 (conv64 l x)) /\ conv64 l 0 = 0 /\
  (forall x y, moment x -> moment y -> x <= y -> conv64 l x <= conv64 l y) /\ exists r, l = TempoEntry 0 (nofZ 120) 0 :: r.
Proof.
  intros H. induction H as [|l o b H (G & W & Z0 & M & r & R) F O B].
  - pose proof first_good as G. assert (E : forall x, moment x -> conv64 first_tempos x = tick64 (@TempoEntry B64 0 (nofZ 120) 0) x).
    { intros x X. apply (after64 []); [constructor|]. cbn [te_off]. unfold moment in X. lia. }
    split; [constructor; [exact G|constructor]|]. split; [|split; [|split; [|exists []; reflexivity]]].
    + intros x X. rewrite E by exact X. apply tick64_whole; [exact G|exact X|]. cbn [te_off]. unfold moment in X. lia.
    + rewrite E by (unfold moment; lia). apply (tick64_start _ G). split; [cbn; lia|reflexivity].
    + intros x y X Y L. rewrite !E by assumption. apply tick64_mono; try assumption. cbn [te_off]. unfold moment in X. lia.
  - set (e := @TempoEntry B64 o b (conv64 l o)). assert (Ge : good64 e) by (split; [exact O|split; [apply (W o O)|exact B]]).
    assert (Se : tick64 e o = conv64 l o) by (apply (tick64_start e Ge), (W o O)).
    split; [apply Forall_app; split; [exact G|constructor; [exact Ge|constructor]]|]. split; [|split; [|split]].
    + intros x X. destruct (Z.ltb_spec x o) as [L|L]; [rewrite before64 by exact L; apply W, X|]. rewrite after64 by assumption. apply tick64_whole; assumption.
    + destruct (Z.eq_dec o 0) as [E|E].
      * rewrite (after64 l e); [|exact F|cbn [te_off e]; lia]. rewrite <- E at 1. rewrite Se, E. exact Z0.
      * rewrite before64; [exact Z0|]. cbn [te_off e]. unfold moment in O. lia.
    + intros x y X Y L. destruct (Z.ltb_spec x o) as [Lx|Lx]; destruct (Z.ltb_spec y o) as [Ly|Ly].
      * rewrite !before64 by assumption. apply M; assumption.
      * rewrite (before64 l e x) by assumption. rewrite (after64 l e y) by assumption.
        apply Z.le_trans with (conv64 l o); [apply M; [exact X|exact O|lia]|]. rewrite <- Se. apply tick64_mono; try assumption. apply Z.le_refl.
      * lia.
      * rewrite !(after64 l e) by assumption. apply tick64_mono; assumption.
    + exists (r ++ [e]). rewrite R. reflexivity.
Qed.
Lemma last_in A (f : A -> bool) l e : last_of (take_while f l) = Some e -> In e l.
Proof. intros H. destruct (last_take A f l e H) as (l1 & l2 & -> & _). apply in_or_app. right; left; reflexivity. Qed.
Lemma ms_to_ticks64 l x : sound64 l -> moment x -> ms_to_ticks (N := B64) l (nofZ x) = Some (conv64 l x).
Proof.
  intros H X. destruct (sound64_ok l H) as (G & _ & Z0 & _ & r & R). unfold ms_to_ticks.
  assert (Q : neqb (Num := B64) (nofZ x) n0 = (x =? 0)) by (apply (eqb_ofZ x 0); unfold moment in X; lia). rewrite Q.
  destruct (Z.eqb_spec x 0) as [->|N]; [rewrite Z0; reflexivity|].
  assert (T : entry_by_offset (N := B64) l (nofZ x) = last_of (take_while (upto64 x) l)).
  { unfold entry_by_offset. f_equal. clear R Z0 Q H. induction G as [|e l (O & _) G IH]; [reflexivity|]. cbn [take_while].
    replace (nleb (Num := B64) (nofZ (te_off e)) (nofZ x)) with (upto64 x e); [rewrite IH; reflexivity|]. symmetry. apply (leb_ofZ (te_off e) x); unfold moment in *; lia. }
  rewrite T. unfold conv64. destruct (last_of (take_while (upto64 x) l)) eqn:L; [reflexivity|]. exfalso. subst l. cbn [take_while] in L.
  replace (upto64 x {| te_off := 0; te_bpm := nofZ 120; te_ticks := 0 |}) with true in L by (unfold upto64, moment in *; cbn [te_off]; lia).
  assert (S : forall A (l : list A) a, last_of (a :: l) <> None). { clear. induction l as [|b l IH]; intros a; [discriminate|]. apply IH. }
  apply (S _ _ _ L).
Qed.
Lemma chron_sound64 hist : chronological64 hist -> exists en, set_tempos hist new_engine = Some en /\ sound64 (en_tempos en) /\
  Forall (fun e => te_off e = 0 \/ exists x, In x hist /\ te_off e = fst x) (en_tempos en).
Proof.
  induction hist as [|[o b] hist IH] using rev_ind; intros [S F].
  - exists new_engine. split; [reflexivity|]. split; [constructor|]. constructor; [left; reflexivity|constructor].
  - apply SS_snoc in S. destruct S as [S L]. apply Forall_snoc in F. destruct F as [F (O & B)]. cbn [fst snd] in *.
    destruct (IH (conj S F)) as (en & E & So & T). rewrite set_tempos_app, E. cbn [set_tempos]. unfold set_tempo.
    rewrite (ms_to_ticks64 _ o So O). eexists. split; [reflexivity|]. cbn [en_tempos].
    assert (Fo : Forall (fun e => te_off e <= o) (en_tempos en)).
    { eapply Forall_impl; [|exact T]. cbn. intros e [-> |(x & I & ->)]; [lia|]. rewrite Forall_forall in L. apply (L x I). }
    rewrite add_entry_last by exact Fo. split.
    + apply S64_snoc; assumption.
    + apply Forall_app. split; [eapply Forall_impl; [|exact T]; cbn; intros e [K|(x & I & K)]; [left; exact K|right; exists x; split; [apply in_or_app; left; exact I|exact K]]|].
      constructor; [|constructor]. right. exists (o, b). split; [apply in_or_app; right; left; reflexivity|reflexivity].
Qed.
Theorem c64_mono hist x y : chronological64 hist -> 0 <= x -> x <= y -> y < 2 ^ 31 ->
  exists en a b, set_tempos hist new_engine = Some en /\
    ms_to_ticks (N := B64) (en_tempos en) (nofZ x) = Some a /\ ms_to_ticks (N := B64) (en_tempos en) (nofZ y) = Some b /\ 0 <= a <= b.
Proof.
  intros H X L Y. destruct (chron_sound64 hist H) as (en & E & So & _). exists en, (conv64 (en_tempos en) x), (conv64 (en_tempos en) y).
  split; [exact E|]. split; [apply ms_to_ticks64; [exact So|split; lia]|]. split; [apply ms_to_ticks64; [exact So|split; lia]|].
  destruct (sound64_ok _ So) as (_ & W & _ & M & _). split; [apply (W x); split; lia|apply M; [split; lia|split; lia|exact L]].
Qed.
Theorem c64_notes hist en c o k d a v : chronological64 hist -> set_tempos hist new_engine = Some en ->
  0 <= o -> 0 <= a -> o + a < 2 ^ 31 -> 0 <= c < 16 -> 0 <= k < 128 -> 0 <= v < 128 ->
  exists t1 t2, 0 <= t1 <= t2 /\
    schedule (N := B64) [ENote c o k d a v] en =
      (Engine (en_tempos en) (track_add t2 (NoteOff c k v) (track_add t1 (NoteOn c k v) (en_events en))), true).
Proof.
  intros H E O A OA C K V. destruct (chron_sound64 hist H) as (en' & E' & So & _). assert (en' = en) by congruence. subst en'.
  exists (conv64 (en_tempos en) o), (conv64 (en_tempos en) (o + a)). destruct (sound64_ok _ So) as (_ & W & _ & M & _).
  split; [split; [apply (W o); split; lia|apply M; [split; lia|split; lia|lia]]|].
  assert (Wr : wrap32 (o + a) = o + a) by (unfold wrap32; rewrite Z.mod_small; lia).
  unfold schedule. cbn [flat_map messages_of app schedule_msgs]. rewrite Wr. unfold schedule_msg.
  assert (V1 : valid_midi (NoteOn c k v) = true) by (cbn; lia). assert (V2 : valid_midi (NoteOff c k v) = true) by (cbn; lia). rewrite V1, V2.
  rewrite (ms_to_ticks64 _ o So) by (split; lia). cbn [en_tempos en_events]. rewrite (ms_to_ticks64 _ (o + a) So) by (split; lia). reflexivity.
Qed.

(** For examples. *)
Definition tempo64b (b : spec_float) : bool := valid_binary 53 1024 b && SFleb (@npow2 B64 (-149)) b && SFleb b (@npow2 B64 128).
Lemma tempo64b_ok b : tempo64b b = true -> tempo64 b.
Proof. intros H. apply andb_true_iff in H as [H U]. apply andb_true_iff in H as [V L]. exact (conj V (conj L U)). Qed.
