(** The player's clock: from milliseconds to ticks and back (C36). *)
From Coq Require Import ZArith QArith Qround Qcanon Qabs Lqa List Bool Sorted Lia ZifyBool.
From Verif Require Import Base Num ModelPitch ModelDuration ModelInstruments ModelTypes ModelLisp ModelScore ModelOsc ModelPlayer SpecPlayer.
Import ListNotations.
Local Open Scope Z_scope.

(* ------------------------- rounding ------------------------- *)

Lemma half_up_mono : forall a b : Q, (a <= b)%Q -> half_up a <= half_up b.
Proof. intros a b H. unfold half_up. apply Qfloor_resp_le. lra. Qed.
Lemma half_up_comp : forall a b : Q, (a == b)%Q -> half_up a = half_up b.
Proof. intros a b H. apply Z.le_antisymm; apply half_up_mono; lra. Qed.
Lemma half_up_Z : forall z, half_up (inject_Z z) = z.
Proof.
  intros z. unfold half_up. pose proof (Qfloor_le (inject_Z z + (1 # 2))) as A. pose proof (Qlt_floor (inject_Z z + (1 # 2))) as B.
  set (f := Qfloor (inject_Z z + (1 # 2))) in *. 
  assert (inject_Z f < inject_Z (z + 1))%Q by (rewrite inject_Z_plus; change (inject_Z 1) with 1%Q; lra).
  assert (inject_Z z < inject_Z (f + 1))%Q by lra. rewrite <- Zlt_Qlt in *. lia.
Qed.
Lemma half_up_near : forall q : Q, (q - (1 # 2) < inject_Z (half_up q) /\ inject_Z (half_up q) <= q + (1 # 2))%Q.
Proof.
  intros q. unfold half_up. pose proof (Qfloor_le (q + (1 # 2))) as A. pose proof (Qlt_floor (q + (1 # 2))) as B.
  rewrite inject_Z_plus in B. change (inject_Z 1) with 1%Q in B. split; lra.
Qed.
Lemma clamp64_mono : forall a b, a <= b -> clamp64 a <= clamp64 b.
Proof. intros. unfold clamp64. lia. Qed.
Lemma clamp64_idem : forall a, clamp64 (clamp64 a) = clamp64 a.
Proof. intros. unfold clamp64. lia. Qed.

(* ------------------------- an entry's ticks ------------------------- *)

(** A tempo's ticks per millisecond. *)
Definition rate (e : @tempo_entry XQ) : Q := match te_bpm e with Fin b => b * 128 / 60000 | _ => 1 end.
Definition good (e : @tempo_entry XQ) : Prop := 0 <= te_off e /\ exists b : Qc, te_bpm e = Fin b /\ (0 < b)%Qc.
Lemma rate_pos : forall e, good e -> (0 < rate e)%Q.
Proof.
  intros e (_ & b & E & B). unfold rate. rewrite E. unfold Qclt in B. change (this (Q2Qc 0)) with 0%Q in B. 
  apply Qlt_shift_div_l; [reflexivity|]. lra.
Qed.
Definition pos (e : @tempo_entry XQ) (x : Q) : Q := (inject_Z (te_ticks e) + (x - inject_Z (te_off e)) * rate e)%Q.
Definition tick (e : @tempo_entry XQ) (x : Q) : Z := clamp64 (half_up (pos e x)).
Lemma pos_mono : forall e x y, good e -> (x <= y)%Q -> (pos e x <= pos e y)%Q.
Proof. intros e x y G H. pose proof (rate_pos e G). unfold pos. nra. Qed.
Lemma tick_mono : forall e x y, good e -> (x <= y)%Q -> tick e x <= tick e y.
Proof. intros. apply clamp64_mono, half_up_mono, pos_mono; assumption. Qed.
Lemma tick_comp : forall e x y, (x == y)%Q -> tick e x = tick e y.
Proof. intros e x y H. unfold tick. f_equal. apply half_up_comp. unfold pos. rewrite H. reflexivity. Qed.
Lemma tick_start : forall e, clamp64 (te_ticks e) = te_ticks e -> tick e (inject_Z (te_off e)) = te_ticks e.
Proof.
  intros e H. unfold tick, pos. rewrite (half_up_comp _ (inject_Z (te_ticks e))) by ring. rewrite half_up_Z. exact H.
Qed.

Lemma this_plus : forall a b : Qc, (this (a + b)%Qc == a + b)%Q.
Proof. intros. apply Qred_correct. Qed.
Lemma this_mult : forall a b : Qc, (this (a * b)%Qc == a * b)%Q.
Proof. intros. apply Qred_correct. Qed.
Lemma this_opp : forall a : Qc, (this (- a)%Qc == - a)%Q.
Proof. intros. apply Qred_correct. Qed.
Lemma this_minus : forall a b : Qc, (this (a - b)%Qc == a - b)%Q.
Proof. intros. unfold Qcminus. rewrite this_plus, this_opp. reflexivity. Qed.
Lemma this_inv : forall a : Qc, (this (/ a)%Qc == / a)%Q.
Proof. intros. apply Qred_correct. Qed.
Lemma this_div : forall a b : Qc, (this (a / b)%Qc == a / b)%Q.
Proof. intros. unfold Qcdiv. rewrite this_mult, this_inv. reflexivity. Qed.
Lemma this_Q : forall q : Q, (this (Q2Qc q) == q)%Q.
Proof. intros. apply Qred_correct. Qed.

Lemma jround_pos : forall e (x : Qc), good e ->
  jround (nadd (nofZ (te_ticks e)) (ndiv (nsub (Fin x) (nofZ (te_off e))) (ms_per_tick e))) = tick e x.
Proof.
  intros e x (G0 & b & E & B). unfold ms_per_tick. rewrite E. unfold tick, pos, rate. rewrite E.
  unfold Qclt in B. change (this (Q2Qc 0)) with 0%Q in B.
  cbn [nadd ndiv nsub nmul nofZ XQ xq_add xq_div xq_sub xq_mul xq_ofZ].
  assert (N1 : ~ (b * 128 == 0)%Q) by lra.
  assert (Q1 : (this (b * Q2Qc (inject_Z 128))%Qc == b * 128)%Q).
  { rewrite this_mult, this_Q. reflexivity. }
  assert (D1 : qc_eqb (b * Q2Qc (inject_Z 128))%Qc (Q2Qc 0) = false).
  { unfold qc_eqb. destruct (Qeq_bool _ _) eqn:K; [|reflexivity]. apply Qeq_bool_eq in K. rewrite Q1 in K. cbn in K. lra. }
  rewrite D1. cbn [xq_add xq_div].
  assert (Q2 : (this (Q2Qc (inject_Z 60000) / (b * Q2Qc (inject_Z 128)))%Qc == 60000 / (b * 128))%Q).
  { rewrite this_div, Q1, this_Q. reflexivity. }
  assert (P2 : (0 < 60000 / (b * 128))%Q) by (apply Qlt_shift_div_l; lra).
  assert (D2 : qc_eqb (Q2Qc (inject_Z 60000) / (b * Q2Qc (inject_Z 128)))%Qc (Q2Qc 0) = false).
  { unfold qc_eqb. destruct (Qeq_bool _ _) eqn:K; [|reflexivity]. apply Qeq_bool_eq in K. rewrite Q2 in K. cbn in K. lra. }
  rewrite D2. cbn [xq_add jround JXQ jround_XQ]. f_equal. apply half_up_comp.
  rewrite this_plus, this_div, this_minus, Q2, !this_Q. field. lra.
Qed.

(* ------------------------- lists of entries ------------------------- *)

Lemma take_while_app_all : forall A (f : A -> bool) l r, Forall (fun x => f x = true) l -> take_while f (l ++ r) = l ++ take_while f r.
Proof. induction l as [|x l IH]; intros r H; [reflexivity|]. inversion H as [|? ? E F]; subst. cbn [app take_while]. rewrite E, (IH r F). reflexivity. Qed.
Lemma take_while_app_not : forall A (f : A -> bool) l x, f x = false -> take_while f (l ++ [x]) = take_while f l.
Proof. induction l as [|y l IH]; intros x H; cbn [app take_while]; [rewrite H; reflexivity|]. destruct (f y); [rewrite IH by exact H|]; reflexivity. Qed.
Lemma take_while_all : forall A (f : A -> bool) l, Forall (fun x => f x = true) l -> take_while f l = l.
Proof. intros A f l H. rewrite <- (app_nil_r l) at 1. rewrite (take_while_app_all A f l [] H). apply app_nil_r. Qed.
Lemma last_of_snoc : forall A l (x : A), last_of (l ++ [x]) = Some x.
Proof. induction l as [|y l IH]; intros x; [reflexivity|]. cbn [app]. specialize (IH x). destruct (l ++ [x]) eqn:E; [destruct l; discriminate|]. exact IH. Qed.
Lemma add_entry_last : forall N (e : @tempo_entry N) l, Forall (fun x => te_off x <= te_off e) l -> add_entry e l = l ++ [e].
Proof.
  induction l as [|x l IH]; intros H; [reflexivity|]. inversion H; subst. cbn [add_entry app]. replace (te_off e <? te_off x) with false by lia. rewrite IH by assumption. reflexivity.
Qed.

Definition upto (x : Q) (e : @tempo_entry XQ) : bool := Qle_bool (inject_Z (te_off e)) x.
Lemma xq_leb_fin : forall a b, xq_leb (Fin a) (Fin b) = Qle_bool a b.
Proof.
  intros a b. unfold xq_leb, xq_ltb, xq_eqb, qc_ltb, qc_eqb. destruct (Qle_bool a b) eqn:E.
  - apply Qle_bool_iff in E. destruct (Qle_bool b a) eqn:F; [|reflexivity]. apply Qle_bool_iff in F. cbn. apply Qeq_bool_iff. lra.
  - destruct (Qle_bool b a) eqn:F; cbn.
    + destruct (Qeq_bool a b) eqn:K; [|reflexivity]. apply Qeq_bool_iff in K. exfalso. assert ((a <= b)%Q) by lra. apply Qle_bool_iff in H. congruence.
    + exfalso. destruct (Qlt_le_dec a b) as [H|H]; [apply Qlt_le_weak in H|]; apply Qle_bool_iff in H; congruence.
Qed.
Lemma upto_le : forall l (x : Qc), entry_by_offset l (Fin x) = last_of (take_while (upto x) l).
Proof.
  intros l x. unfold entry_by_offset. f_equal. induction l as [|e l IH]; [reflexivity|]. cbn [take_while].
  replace (@nleb XQ (nofZ (te_off e)) (Fin x)) with (upto x e); [rewrite IH; reflexivity|].
  change (upto x e = xq_leb (xq_ofZ (te_off e)) (Fin x)). unfold xq_ofZ. rewrite xq_leb_fin. unfold upto.
  destruct (Qle_bool (inject_Z (te_off e)) x) eqn:E; symmetry; [apply Qle_bool_iff in E; apply Qle_bool_iff; rewrite this_Q; exact E|].
  destruct (Qle_bool (Q2Qc (inject_Z (te_off e))) x) eqn:F; [|reflexivity]. apply Qle_bool_iff in F. rewrite this_Q in F. apply Qle_bool_iff in F. congruence.
Qed.

(** The ticks an offset is converted to. *)
Definition conv (l : list (@tempo_entry XQ)) (x : Q) : Z := match last_of (take_while (upto x) l) with Some e => tick e x | None => 0 end.

Inductive sound : list (@tempo_entry XQ) -> Prop :=
| S_first : sound first_tempos
| S_snoc l o b : sound l -> Forall (fun e => te_off e <= o) l -> 0 <= o -> (exists q : Qc, b = Fin q /\ (0 < q)%Qc) ->
    sound (l ++ [TempoEntry o b (conv l (inject_Z o))]).
Lemma good_first : good (@TempoEntry XQ 0 (nofZ 120) 0).
Proof. split; [cbn; lia|]. exists (Q2Qc 120). split; [reflexivity|reflexivity]. Qed.
Lemma sound_good : forall l, sound l -> Forall good l.
Proof.
  intros l H. induction H as [|l o b H IH F O B]; [constructor; [exact good_first|constructor]|].
  apply Forall_app. split; [exact IH|]. constructor; [|constructor]. split; [exact O|exact B].
Qed.
Lemma sound_head : forall l, sound l -> exists r, l = TempoEntry 0 (nofZ 120) 0 :: r.
Proof. intros l H. induction H as [|l o b H [r ->] F O B]; [exists []; reflexivity|]. eexists. reflexivity. Qed.
Lemma conv_clamped : forall l x, clamp64 (conv l x) = conv l x.
Proof. intros. unfold conv. destruct (last_of _); [apply clamp64_idem|reflexivity]. Qed.
Lemma upto_true : forall x e, upto x e = true <-> (inject_Z (te_off e) <= x)%Q.
Proof. intros. apply Qle_bool_iff. Qed.
Lemma upto_false : forall x e, upto x e = false <-> (x < inject_Z (te_off e))%Q.
Proof.
  intros x e. split; intros H.
  - destruct (Qlt_le_dec x (inject_Z (te_off e))); [assumption|]. apply upto_true in q. congruence.
  - destruct (upto x e) eqn:E; [|reflexivity]. apply upto_true in E. lra.
Qed.
Lemma conv_snoc_before : forall l e x, (x < inject_Z (te_off e))%Q -> conv (l ++ [e]) x = conv l x.
Proof. intros l e x H. apply upto_false in H. unfold conv. rewrite take_while_app_not by exact H. reflexivity. Qed.
Lemma take_snoc_after : forall l e x, Forall (fun e' => te_off e' <= te_off e) l -> (inject_Z (te_off e) <= x)%Q ->
  take_while (upto x) (l ++ [e]) = l ++ [e].
Proof.
  intros l e x F H. apply take_while_all. apply Forall_app. split; [|constructor; [apply upto_true; exact H|constructor]].
  eapply Forall_impl; [|exact F]. cbn. intros a L. apply upto_true. rewrite Zle_Qle in L. lra.
Qed.
Lemma conv_snoc_after : forall l e x, Forall (fun e' => te_off e' <= te_off e) l -> (inject_Z (te_off e) <= x)%Q ->
  conv (l ++ [e]) x = tick e x.
Proof. intros l e x F H. unfold conv. rewrite take_snoc_after by assumption. rewrite last_of_snoc. reflexivity. Qed.
Lemma conv_mono : forall l, sound l -> forall x y, (0 <= x)%Q -> (x <= y)%Q -> conv l x <= conv l y.
Proof.
  intros l H. induction H as [|l o b H IH F O B]; intros x y X Y.
  - assert (G : forall z, (0 <= z)%Q -> conv first_tempos z = tick (@TempoEntry XQ 0 (nofZ 120) 0) z).
    { intros z Z0. apply (conv_snoc_after [] _ z); [constructor|exact Z0]. }
    rewrite (G x X), (G y) by lra. apply tick_mono; [exact good_first|exact Y].
  - set (e := @TempoEntry XQ o b (conv l (inject_Z o))). assert (Ge : good e) by (split; [exact O|exact B]).
    destruct (Qlt_le_dec x (inject_Z o)) as [Lx|Lx]; destruct (Qlt_le_dec y (inject_Z o)) as [Ly|Ly].
    + rewrite !conv_snoc_before by assumption. apply IH; assumption.
    + rewrite (conv_snoc_before l e x) by assumption. rewrite (conv_snoc_after l e y) by assumption.
      apply Z.le_trans with (te_ticks e); [apply IH; [exact X|lra]|].
      rewrite <- (tick_start e) by apply conv_clamped. apply tick_mono; assumption.
    + lra.
    + rewrite !(conv_snoc_after l e) by assumption. apply tick_mono; assumption.
Qed.
Lemma conv_0 : forall l, sound l -> conv l 0 = 0.
Proof.
  intros l H. induction H as [|l o b H IH F O B]; [reflexivity|]. set (e := @TempoEntry XQ o b (conv l (inject_Z o))).
  destruct (Z.eq_dec o 0) as [E|E].
  - rewrite (conv_snoc_after l e); [|exact F|unfold e; rewrite E; apply Qle_refl]. 
    replace 0%Q with (inject_Z (te_off e)) by (cbn; subst; reflexivity). rewrite (tick_start e) by apply conv_clamped. cbn. subst o. exact IH.
  - rewrite (conv_snoc_before l e); [exact IH|]. cbn. change 0%Q with (inject_Z 0). rewrite <- Zlt_Qlt. lia.
Qed.
Lemma ms_to_ticks_conv : forall l (x : Qc), sound l -> (0 <= x)%Q -> ms_to_ticks l (Fin x) = Some (conv l x).
Proof.
  intros l x H X. unfold ms_to_ticks. destruct (@neqb XQ (Fin x) n0) eqn:E.
  - cbn in E. unfold qc_eqb in E. apply Qeq_bool_iff in E. cbn in E. f_equal. rewrite <- (conv_0 l H). unfold conv.
    assert (T : take_while (upto 0) l = take_while (upto x) l).
    { clear H. induction l as [|e l IH]; [reflexivity|]. cbn [take_while]. replace (upto x e) with (upto 0 e); [rewrite IH; reflexivity|].
      destruct (upto 0 e) eqn:U; symmetry; [apply upto_true in U; apply upto_true; lra|apply upto_false in U; apply upto_false; lra]. }
    rewrite T. destruct (last_of _); [|reflexivity]. apply tick_comp. lra.
  - rewrite upto_le. pose proof (sound_good l H) as G. unfold conv.
    assert (I : forall e, last_of (take_while (upto x) l) = Some e -> In e l).
    { clear. intros e K. assert (S : forall A (l : list A) a, last_of l = Some a -> In a l).
      { clear. induction l as [|b l IH]; intros a H; [discriminate|]. destruct l as [|c l]; [inversion H; left; reflexivity|]. right. apply IH, H. }
      apply S in K. clear S. induction l as [|b l IH]; [exact K|]. cbn [take_while] in K. destruct (upto x b); [|destruct K]. destruct K as [->|K]; [left; reflexivity|right; apply IH, K]. }
    destruct (last_of (take_while (upto x) l)) as [e|] eqn:L.
    + rewrite Forall_forall in G. rewrite jround_pos by (apply G, I; reflexivity). reflexivity.
    + exfalso. destruct (sound_head l H) as [r ->]. cbn [take_while] in L. 
      replace (upto x {| te_off := 0; te_bpm := nofZ 120; te_ticks := 0 |}) with true in L by (symmetry; apply upto_true; exact X).
      destruct (take_while (upto x) r) eqn:K; [discriminate|]. rewrite <- K in L. clear K.
      assert (S : forall A (l : list A) a, last_of (a :: l) <> None). { clear. induction l as [|b l IH]; intros a; [discriminate|]. apply IH. }
      apply (S _ _ _ L).
Qed.

Lemma Forall_snoc : forall A (P : A -> Prop) l x, Forall P (l ++ [x]) -> Forall P l /\ P x.
Proof. intros A P l x H. apply Forall_app in H. destruct H as [A1 B]. inversion B; subst. split; assumption. Qed.
Lemma set_tempos_app : forall (N : Num) (J : JNum N) a b en, set_tempos (a ++ b) en = match set_tempos a en with Some en' => set_tempos b en' | None => None end.
Proof. intros N J. induction a as [|[o x] a IH]; intros b en; [reflexivity|]. cbn [app set_tempos]. destruct (set_tempo o x en); [apply IH|reflexivity]. Qed.
Lemma SS_snoc : forall A (R : A -> A -> Prop) l x, StronglySorted R (l ++ [x]) -> StronglySorted R l /\ Forall (fun y => R y x) l.
Proof.
  induction l as [|y l IH]; intros x H; cbn [app] in H; [split; constructor|]. inversion H as [|? ? S F]; subst. destruct (IH x S) as [A1 B]. apply Forall_snoc in F. destruct F as [F1 F2].
  split; [constructor; assumption|constructor; assumption].
Qed.
Lemma chron_sound : forall hist, chronological hist -> exists en, set_tempos hist new_engine = Some en /\ sound (en_tempos en) /\
  Forall (fun e => te_off e = 0 \/ exists x, In x hist /\ te_off e = fst x) (en_tempos en).
Proof.
  intros hist. induction hist as [|[o b] hist IH] using rev_ind; intros [S F].
  - exists new_engine. split; [reflexivity|]. split; [constructor|]. constructor; [left; reflexivity|constructor].
  - apply SS_snoc in S. destruct S as [S L]. apply Forall_snoc in F. destruct F as [F (O & q & Eb & Q0)]. cbn [fst snd] in *.
    destruct (IH (conj S F)) as (en & E & So & T). rewrite set_tempos_app, E. cbn [set_tempos]. unfold set_tempo.
    assert (M : ms_to_ticks (en_tempos en) (nofZ o) = Some (conv (en_tempos en) (inject_Z o))).
    { change (@nofZ XQ o) with (Fin (Q2Qc (inject_Z o))). rewrite ms_to_ticks_conv; [|exact So|rewrite this_Q; change 0%Q with (inject_Z 0); rewrite <- Zle_Qle; exact O].
      f_equal. unfold conv. replace (take_while (upto (Q2Qc (inject_Z o))) (en_tempos en)) with (take_while (upto (inject_Z o)) (en_tempos en)).
      - destruct (last_of _); [|reflexivity]. apply tick_comp. apply this_Q.
      - clear. induction (en_tempos en) as [|e l IH]; [reflexivity|]. cbn [take_while]. replace (upto (Q2Qc (inject_Z o)) e) with (upto (inject_Z o) e); [rewrite IH; reflexivity|].
        pose proof (this_Q (inject_Z o)). destruct (upto (inject_Z o) e) eqn:U; symmetry; [apply upto_true in U; apply upto_true; lra|apply upto_false in U; apply upto_false; lra]. }
    rewrite M. eexists. split; [reflexivity|]. cbn [en_tempos].
    assert (Fo : Forall (fun e => te_off e <= o) (en_tempos en)).
    { eapply Forall_impl; [|exact T]. cbn. intros e [-> |(x & I & ->)]; [exact O|]. rewrite Forall_forall in L. apply (L x I). }
    rewrite add_entry_last by exact Fo. split.
    + apply S_snoc; [exact So|exact Fo|exact O|]. exists q. split; assumption.
    + apply Forall_app. split; [eapply Forall_impl; [|exact T]; cbn; intros e [K|(x & I & K)]; [left; exact K|right; exists x; split; [apply in_or_app; left; exact I|exact K]]|].
      constructor; [|constructor]. right. exists (o, b). split; [apply in_or_app; right; left; reflexivity|reflexivity].
Qed.
Lemma c36_mono : forall hist (x y : Qc), chronological hist -> (0 <= x)%Qc -> (x <= y)%Qc ->
  exists en a b, set_tempos hist new_engine = Some en /\ ms_to_ticks (en_tempos en) (Fin x) = Some a /\ ms_to_ticks (en_tempos en) (Fin y) = Some b /\ 0 <= a <= b.
Proof.
  intros hist x y H X Y. destruct (chron_sound hist H) as (en & E & So & _). unfold Qcle in *. cbn in X. exists en, (conv (en_tempos en) x), (conv (en_tempos en) y).
  split; [exact E|]. split; [apply ms_to_ticks_conv; [exact So|lra]|]. split; [apply ms_to_ticks_conv; [exact So|lra]|].
  split; [rewrite <- (conv_0 _ So)|]; apply conv_mono; try exact So; lra.
Qed.

(* ------------------------- and back ------------------------- *)

Lemma app_snoc_inv : forall A (a b : list A) l x, a ++ b = l ++ [x] -> (b = [] /\ a = l ++ [x]) \/ (exists b', b = b' ++ [x] /\ l = a ++ b').
Proof.
  intros A a b l x H. destruct b as [|y b _] using rev_ind; [left; split; [reflexivity|rewrite app_nil_r in H; exact H]|].
  right. rewrite app_assoc in H. apply app_inj_tail in H. destruct H as [H ->]. exists b. split; [reflexivity|symmetry; exact H].
Qed.
Lemma sound_prefix : forall l, sound l -> forall a b, l = a ++ b -> a <> [] -> sound a.
Proof.
  intros l H. induction H as [|l o q H IH F O B]; intros a b E Na.
  - destruct a as [|x a]; [congruence|]. unfold first_tempos in E. inversion E as [[E1 E2]]. destruct a; [|discriminate E2]. constructor.
  - symmetry in E. apply app_snoc_inv in E. destruct E as [[-> ->]|(b' & -> & ->)]; [constructor; assumption|]. apply (IH a b' eq_refl Na).
Qed.
Lemma sound_next : forall l1 e e2 l2, sound (l1 ++ e :: e2 :: l2) -> te_off e <= te_off e2 /\ te_ticks e2 = tick e (inject_Z (te_off e2)).
Proof.
  intros l1 e e2 l2 H. assert (P : sound ((l1 ++ [e]) ++ [e2])).
  { apply (sound_prefix _ H _ l2); [rewrite <- !app_assoc; reflexivity|]. destruct l1; discriminate. }
  inversion P as [K|l o b Hl F O B K].
  - exfalso. destruct l1 as [|? [|? ?]]; discriminate K.
  - apply app_inj_tail in K. destruct K as [-> <-]. cbn [te_off te_ticks].
    apply Forall_snoc in F. destruct F as [F F2]. split; [exact F2|]. rewrite conv_snoc_after; [reflexivity| |rewrite <- Zle_Qle; exact F2].
    assert (S : sound (l1 ++ [e]) -> Forall (fun e' => te_off e' <= te_off e) l1).
    { clear. intros S. inversion S as [K|l o b Hl F O B K]; [destruct l1 as [|? [|? ?]]; [constructor|discriminate K..]|]. apply app_inj_tail in K. destruct K as [-> <-]. exact F. }
    apply S, Hl.
Qed.
Lemma SS_add : forall A (R : A -> A -> Prop) l x, StronglySorted R l -> Forall (fun y => R y x) l -> StronglySorted R (l ++ [x]).
Proof.
  induction l as [|y l IH]; intros x S F; cbn [app]; [repeat constructor|]. inversion S; subst. inversion F; subst. constructor; [apply IH; assumption|].
  apply Forall_app. split; [assumption|]. constructor; [assumption|constructor].
Qed.
Lemma sound_sorted : forall l, sound l -> StronglySorted (fun a b => te_off a <= te_off b) l.
Proof. intros l H. induction H as [|l o b H IH F O B]; [repeat constructor|]. apply SS_add; assumption. Qed.
Lemma sound_ticks : forall l, sound l -> Forall (fun e => te_ticks e = conv l (inject_Z (te_off e))) l.
Proof.
  intros l H. induction H as [|l o b H IH F O B]; [repeat constructor|]. set (e := @TempoEntry XQ o b (conv l (inject_Z o))).
  assert (Te : conv (l ++ [e]) (inject_Z o) = te_ticks e).
  { rewrite (conv_snoc_after l e); [apply (tick_start e), conv_clamped|exact F|cbn [te_off e]; lra]. }
  apply Forall_app. split; [|constructor; [symmetry; exact Te|constructor]].
  apply Forall_forall. intros a Ia. rewrite Forall_forall in IH, F. specialize (IH a Ia). specialize (F a Ia). cbn beta in *.
  destruct (Z.eq_dec (te_off a) o) as [E|E].
  - rewrite E, Te. cbn [te_ticks e]. rewrite IH, E. reflexivity.
  - rewrite (conv_snoc_before l e); [exact IH|]. cbn [te_off e]. rewrite <- Zlt_Qlt. lia.
Qed.
Lemma last_take : forall A (f : A -> bool) l e, last_of (take_while f l) = Some e ->
  exists l1 l2, l = l1 ++ e :: l2 /\ Forall (fun x => f x = true) (l1 ++ [e]) /\ match l2 with [] => True | x :: _ => f x = false end.
Proof.
  intros A f. induction l as [|x l IH]; intros e H; cbn [take_while] in H; [discriminate|]. destruct (f x) eqn:E; [|discriminate].
  destruct (take_while f l) as [|y r] eqn:T.
  - cbn in H. inversion H; subst. exists [], l. split; [reflexivity|]. split; [constructor; [exact E|constructor]|]. destruct l as [|y l]; [exact I|]. cbn in T. destruct (f y); [discriminate|reflexivity].
  - assert (L : last_of (y :: r) = Some e) by exact H. destruct (IH e L) as (l1 & l2 & -> & F & N). exists (x :: l1), l2. split; [reflexivity|]. split; [constructor; assumption|exact N].
Qed.
Lemma last_of_app : forall A (a b : list A), b <> [] -> last_of (a ++ b) = last_of b.
Proof.
  intros A a b H. destruct b as [|x b _] using rev_ind; [congruence|]. rewrite app_assoc, !last_of_snoc. reflexivity.
Qed.
Lemma last_of_some : forall A (l : list A), l <> [] -> exists x, last_of l = Some x /\ In x l.
Proof. intros A l H. destruct l as [|x l _] using rev_ind; [congruence|]. exists x. rewrite last_of_snoc. split; [reflexivity|]. apply in_or_app. right; left; reflexivity. Qed.

Lemma back_entry : forall e t, good e -> exists y : Qc, nadd (nofZ (te_off e)) (nmul (nofZ (t - te_ticks e)) (ms_per_tick e)) = Fin y /\
  (y == inject_Z (te_off e) + inject_Z (t - te_ticks e) / rate e)%Q.
Proof.
  intros e t (G0 & b & E & B). unfold ms_per_tick. rewrite E. unfold rate. rewrite E.
  unfold Qclt in B. change (this (Q2Qc 0)) with 0%Q in B.
  cbn [nadd ndiv nsub nmul nofZ XQ xq_add xq_div xq_sub xq_mul xq_ofZ].
  assert (Q1 : (this (b * Q2Qc (inject_Z 128))%Qc == b * 128)%Q) by (rewrite this_mult, this_Q; reflexivity).
  assert (D1 : qc_eqb (b * Q2Qc (inject_Z 128))%Qc (Q2Qc 0) = false).
  { unfold qc_eqb. destruct (Qeq_bool _ _) eqn:K; [|reflexivity]. apply Qeq_bool_eq in K. rewrite Q1 in K. cbn in K. lra. }
  rewrite D1. cbn [xq_mul xq_add]. eexists. split; [reflexivity|]. rewrite this_plus, this_mult, this_div, Q1, !this_Q. change (inject_Z 60000) with 60000%Q. field. lra.
Qed.
Lemma in_split_order : forall l1 (e : @tempo_entry XQ) l2 x, StronglySorted (fun a b => te_off a <= te_off b) (l1 ++ e :: l2) ->
  match l2 with [] => True | a :: _ => upto x a = false end -> Forall (fun a => (x < inject_Z (te_off a))%Q) l2.
Proof.
  intros l1 e l2 x S H. destruct l2 as [|a l2]; [constructor|]. apply upto_false in H.
  assert (K : StronglySorted (fun a b => te_off a <= te_off b) (a :: l2)).
  { clear H. induction l1 as [|y l1 IH]; cbn [app] in S; inversion S; subst; [inversion H1; subst; assumption|apply IH; assumption]. }
  inversion K as [|? ? S' F]; subst. constructor; [exact H|]. eapply Forall_impl; [|exact F]. cbn. intros z L. rewrite Zle_Qle in L. lra.
Qed.
Lemma clamp64_below : forall z, 0 <= z -> clamp64 z < 2 ^ 63 - 1 -> clamp64 z = z.
Proof. intros z A B. unfold clamp64 in *. lia. Qed.
Lemma tick_near : forall e x, good e -> 0 <= te_ticks e -> (inject_Z (te_off e) <= x)%Q -> tick e x < 2 ^ 63 - 1 ->
  (pos e x - (1 # 2) < inject_Z (tick e x) /\ inject_Z (tick e x) <= pos e x + (1 # 2))%Q.
Proof.
  intros e x G T X L. pose proof (rate_pos e G) as R. unfold tick in *. rewrite clamp64_below; [apply half_up_near| |exact L].
  rewrite <- (half_up_Z 0). apply half_up_mono. unfold pos. rewrite Zle_Qle in T. change (inject_Z 0) with 0%Q in *. nra.
Qed.

Lemma c36_back : forall hist en (x : Qc) t, chronological hist -> set_tempos hist new_engine = Some en -> spread (en_tempos en) ->
  (0 <= x)%Qc -> ms_to_ticks (en_tempos en) (Fin x) = Some t -> t < 2 ^ 63 - 1 ->
  exists e (b y : Qc), entry_by_offset (en_tempos en) (Fin x) = Some e /\ te_bpm e = Fin b /\ ticks_to_ms (en_tempos en) t = Some (Fin y) /\
    (Qabs (y - x) <= 60000 / (b * 128))%Q.
Proof.
  intros hist en x t H E Sp X M L. destruct (chron_sound hist H) as (en' & E' & So & _). rewrite E in E'. inversion E'; subst en'. clear E' E H hist.
  unfold Qcle in X. change (this (Q2Qc 0)) with 0%Q in X. rewrite (ms_to_ticks_conv _ x So X) in M. injection M as M. set (l := en_tempos en) in *. clearbody l. clear en.
  assert (Ct : t = conv l x) by (symmetry; exact M). unfold conv in M. destruct (last_of (take_while (upto x) l)) as [e|] eqn:Le.
  2:{ exfalso. destruct (sound_head l So) as [r ->]. cbn [take_while] in Le. replace (upto x {| te_off := 0; te_bpm := nofZ 120; te_ticks := 0 |}) with true in Le by (symmetry; apply upto_true; exact X).
      destruct (last_of_some _ (TempoEntry 0 (nofZ 120) 0 :: take_while (upto x) r)) as (z & K & _); [discriminate|]. rewrite K in Le. discriminate Le. }
  rewrite upto_le, Le. destruct (last_take _ _ _ _ Le) as (l1 & l2 & El & F1 & N2).
  pose proof (sound_sorted l So) as Srt. rewrite El in Srt. pose proof (in_split_order l1 e l2 x Srt N2) as F2.
  pose proof (sound_good l So) as G. rewrite Forall_forall in G.
  assert (Ie : In e l) by (rewrite El; apply in_or_app; right; left; reflexivity). pose proof (G e Ie) as Ge. pose proof (rate_pos e Ge) as Re.
  destruct (proj2 Ge) as (b & Eb & B0). exists e, b.
  assert (Ue : (inject_Z (te_off e) <= x)%Q) by (apply Forall_snoc in F1; apply upto_true, F1).
  pose proof (sound_ticks l So) as T. rewrite Forall_forall in T.
  assert (Pos : forall a, In a l -> 0 <= te_ticks a).
  { intros a Ia. rewrite (T a Ia). rewrite <- (conv_0 l So). apply conv_mono; [exact So|lra|]. destruct (G a Ia) as [Oa _]. change 0%Q with (inject_Z 0). rewrite <- Zle_Qle. exact Oa. }
  assert (Lower : Forall (fun a => (te_ticks a <=? t) = true) (l1 ++ [e])).
  { apply Forall_forall. intros a Ia. assert (Ial : In a l) by (rewrite El; apply in_app_or in Ia; apply in_or_app; destruct Ia as [Ia|[->|[]]]; [left; exact Ia|right; left; reflexivity]).
    rewrite Forall_forall in F1. pose proof (proj1 (upto_true x a) (F1 a Ia)) as Ua. rewrite (T a Ial). rewrite Ct. apply Z.leb_le. apply conv_mono; [exact So| |exact Ua]. destruct (G a Ial) as [Oa _]. change 0%Q with (inject_Z 0). rewrite <- Zle_Qle. exact Oa. }
  rewrite <- M in L. pose proof (tick_near e x Ge (Pos e Ie) Ue L) as [Lo Hi]. rewrite M in Lo, Hi, L.
  assert (W : (60000 / (b * 128) == 1 / rate e)%Q).
  { unfold rate. rewrite Eb. unfold Qclt in B0. change (this (Q2Qc 0)) with 0%Q in B0. field. lra. }
  unfold ticks_to_ms, entry_by_ticks. rewrite El. replace (l1 ++ e :: l2) with ((l1 ++ [e]) ++ l2) by (rewrite <- app_assoc; reflexivity).
  rewrite (take_while_app_all _ _ _ l2 Lower).
  destruct (take_while (fun a => te_ticks a <=? t) l2) as [|e2 r] eqn:T2.
  - rewrite app_nil_r, last_of_snoc. destruct (back_entry e t Ge) as (y & Ey & Vy). exists y. split; [reflexivity|]. split; [exact Eb|]. rewrite Ey. split; [reflexivity|].
    rewrite W, Vy. unfold Z.sub. rewrite inject_Z_plus, inject_Z_opp. unfold pos in Lo, Hi. set (k := rate e) in *.
    assert (D : (inject_Z (te_off e) + (inject_Z t + - inject_Z (te_ticks e)) / k - x == (inject_Z t - (inject_Z (te_ticks e) + (x - inject_Z (te_off e)) * k)) / k)%Q) by (field; lra).
    rewrite D. apply Qabs_Qle_condition. split; [|apply Qle_shift_div_r; [lra|]; setoid_replace (1 / k * k)%Q with 1%Q by (field; lra); lra].
    apply Qle_shift_div_l; [lra|]. setoid_replace (- (1 / k) * k)%Q with (-1)%Q by (field; lra). lra.
  - destruct l2 as [|e2' l2]; [discriminate|]. cbn [take_while] in T2. destruct (te_ticks e2' <=? t) eqn:K2; [|discriminate]. injection T2 as -> Tr.
    rewrite last_of_app by discriminate. destruct (last_of_some _ (e2 :: r)) as (e' & Le' & Ie'); [discriminate|]. rewrite Le'.
    assert (Ir : forall a, In a (e2 :: r) -> In a (e2 :: l2) /\ te_ticks a <= t).
    { intros a [->|Ia]; [split; [left; reflexivity|lia]|]. rewrite <- Tr in Ia. clear -Ia.
      assert (Q0 : In a l2 /\ te_ticks a <= t); [|split; [right; apply Q0|apply Q0]].
      induction l2 as [|c l2 IH]; [destruct Ia|]. cbn [take_while] in Ia. destruct (te_ticks c <=? t) eqn:Kc; [|destruct Ia]. destruct Ia as [->|Ia]; [split; [left; reflexivity|lia]|].
      destruct (IH Ia) as [A1 A2]. split; [right; exact A1|exact A2]. }
    assert (Eq : forall a, In a (e2 :: r) -> In a l /\ te_ticks a = t).
    { intros a Ia. destruct (Ir a Ia) as [Ia2 La]. assert (Ial : In a l) by (rewrite El; apply in_or_app; right; right; exact Ia2). split; [exact Ial|].
      apply Z.le_antisymm; [exact La|]. rewrite (T a Ial), Ct. apply conv_mono; [exact So|exact X|]. rewrite Forall_forall in F2. specialize (F2 a Ia2). lra. }
    destruct (Eq e' Ie') as [Il' Et']. destruct (Eq e2 (or_introl eq_refl)) as [Il2 Et2].
    assert (Off : te_off e' = te_off e2) by (apply Sp; [exact Il'|exact Il2|congruence]).
    destruct (back_entry e' t (G e' Il')) as (y & Ey & Vy). exists y. split; [reflexivity|]. split; [exact Eb|]. rewrite Ey. split; [reflexivity|].
    pose proof (rate_pos e' (G e' Il')) as Re'. rewrite W, Vy, Et', Z.sub_diag, Off. change (inject_Z 0) with 0%Q.
    rewrite El in So. destruct (sound_next l1 e e2 l2 So) as [Le2 Te2].
    assert (Ue2 : (inject_Z (te_off e) <= inject_Z (te_off e2))%Q) by (rewrite <- Zle_Qle; exact Le2).
    assert (L2 : tick e (inject_Z (te_off e2)) < 2 ^ 63 - 1) by (rewrite <- Te2, Et2; exact L).
    destruct (tick_near e _ Ge (Pos e Ie) Ue2 L2) as [Lo2 Hi2]. rewrite <- Te2, Et2 in Lo2, Hi2. unfold pos in *. set (k := rate e) in *.
    assert (X2 : (x < inject_Z (te_off e2))%Q) by (inversion F2; assumption).
    assert (D : (inject_Z (te_off e2) + 0 / rate e' - x == ((inject_Z (te_off e2) - x) * k) / k)%Q) by (field; split; lra).
    rewrite D. apply Qabs_Qle_condition. split; [apply Qle_shift_div_l; [lra|]; setoid_replace (- (1 / k) * k)%Q with (-1)%Q by (field; lra); nra|].
    apply Qle_shift_div_r; [lra|]. setoid_replace (1 / k * k)%Q with 1%Q by (field; lra). lra.
Qed.

Lemma c36_notes : forall hist en c o k d a v, chronological hist -> set_tempos hist new_engine = Some en ->
  0 <= o -> 0 <= a -> o + a < 2 ^ 31 -> 0 <= c < 16 -> 0 <= k < 128 -> 0 <= v < 128 ->
  exists t1 t2, 0 <= t1 <= t2 /\
    schedule [ENote c o k d a v] en =
      (Engine (en_tempos en) (track_add t2 (NoteOff c k v) (track_add t1 (NoteOn c k v) (en_events en))), true).
Proof.
  intros hist en c o k d a v H E O A B C K V.
  destruct (c36_mono hist (Q2Qc (inject_Z o)) (Q2Qc (inject_Z (o + a))) H) as (en' & t1 & t2 & E' & M1 & M2 & L).
  { unfold Qcle. rewrite !this_Q. change 0%Q with (inject_Z 0). rewrite <- Zle_Qle. exact O. }
  { unfold Qcle. rewrite !this_Q. rewrite <- Zle_Qle. lia. }
  rewrite E in E'. inversion E'; subst en'. exists t1, t2. split; [exact L|].
  assert (W : wrap32 (o + a) = o + a) by (unfold wrap32; rewrite Z.mod_small; lia).
  unfold schedule. cbn [flat_map messages_of app schedule_msgs]. rewrite W. unfold schedule_msg.
  assert (V1 : valid_midi (NoteOn c k v) = true) by (cbn; lia). assert (V2 : valid_midi (NoteOff c k v) = true) by (cbn; lia). rewrite V1, V2.
  change (@nofZ XQ o) with (Fin (Q2Qc (inject_Z o))). change (@nofZ XQ (o + a)) with (Fin (Q2Qc (inject_Z (o + a)))).
  rewrite M1. cbn [en_tempos en_events]. rewrite M2. reflexivity.
Qed.

(** For examples. *)
Definition spreadb (l : list (@tempo_entry XQ)) : bool :=
  forallb (fun a => forallb (fun b => negb (te_ticks a =? te_ticks b) || (te_off a =? te_off b))%bool l) l.
Lemma spreadb_spread : forall l, spreadb l = true -> spread l.
Proof.
  intros l H a b Ia Ib E. unfold spreadb in H. rewrite forallb_forall in H. specialize (H a Ia). rewrite forallb_forall in H. specialize (H b Ib). lia.
Qed.
Lemma tempos_spread : forall hist, match set_tempos hist new_engine with Some en => spreadb (en_tempos en) | None => false end = true ->
  exists en, set_tempos hist new_engine = Some en /\ spread (en_tempos en).
Proof. intros hist H. destruct (set_tempos hist new_engine) as [en|]; [|discriminate]. exists en. split; [reflexivity|apply spreadb_spread, H]. Qed.
Lemma tempos_back : forall hist t (y : @num XQ),
  match set_tempos hist new_engine with Some en => match ticks_to_ms (en_tempos en) t with Some z => neqb z y | None => false end | None => false end = true ->
  exists en z, set_tempos hist new_engine = Some en /\ ticks_to_ms (en_tempos en) t = Some z /\ neqb z y = true.
Proof. intros hist t y H. destruct (set_tempos hist new_engine) as [en|]; [|discriminate]. destruct (ticks_to_ms (en_tempos en) t) as [z|] eqn:E; [|discriminate]. exists en, z. split; [reflexivity|]. split; [exact E|exact H]. Qed.
Definition chronb (l : list (Z * Z)) : bool :=
  (fix go (last : Z) l := match l with [] => true | (o, b) :: t => (last <=? o) && (0 <? b) && go o t end)%bool 0 l.
Lemma chronb_chron : forall l, chronb l = true -> chronological (map (fun x => (fst x, nofZ (snd x))) l).
Proof.
  assert (G : forall l z, (fix go (last : Z) l := match l with [] => true | (o, b) :: t => (last <=? o) && (0 <? b) && go o t end)%bool z l = true ->
    0 <= z -> chronological (map (fun x => (fst x, @nofZ XQ (snd x))) l) /\ Forall (fun x => z <= fst x) l).
  { induction l as [|[o b] l IH]; intros z H Z0; [split; [split; constructor|constructor]|].
    apply andb_prop in H. destruct H as [H H2]. apply andb_prop in H. destruct H as [H0 H1].
    destruct (IH o H2) as [[S F] L]; [lia|]. split.
    - cbn [map]. split; constructor; try assumption.
      + rewrite Forall_map. cbn. exact L.
      + cbn [fst snd]. split; [lia|]. exists (Q2Qc (inject_Z b)). split; [reflexivity|]. unfold Qclt. rewrite !this_Q. change 0%Q with (inject_Z 0). rewrite <- Zlt_Qlt. lia.
    - constructor; [cbn; lia|]. eapply Forall_impl; [|exact L]. cbn. intros; lia. }
  intros l H. apply (G l 0 H). lia.
Qed.
