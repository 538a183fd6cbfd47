From Coq Require Import ZArith QArith Qpower Qcanon List Bool Lia Field Lqa Permutation.
From Verif Require Import Base Num ModelDuration SpecDuration ProofNum ProofPitch.
Import ListNotations.
Local Open Scope Qc_scope.

Lemma two_nz : two <> 0.
Proof. discriminate. Qed.

Lemma dotted_closed : forall n, dotted n = two - half_pow n.
Proof.
  induction n as [|n IH]; cbn [dotted half_pow].
  - apply Qc_is_canon. reflexivity.
  - rewrite IH. replace (half_pow n) with (half_pow n / two + half_pow n / two) at 1.
    + ring.
    + replace two with (1 + 1) by (apply Qc_is_canon; reflexivity). field. discriminate.
Qed.

Lemma pow2_half : forall n, xq_pow2 (- Z.of_nat n) = Fin (half_pow n).
Proof.
  intros n. unfold xq_pow2. f_equal.
  induction n as [|n IH].
  - apply Qc_is_canon. reflexivity.
  - cbn [half_pow]. rewrite <- IH. apply Qc_is_canon.
    rewrite this_Q2Qc, this_div, !this_Q2Qc.
    replace (- Z.of_nat (S n))%Z with (- Z.of_nat n + -1)%Z by lia.
    rewrite Qpower_plus by discriminate. reflexivity.
Qed.

Lemma note_length_exact : forall d k, d <> 0 -> (Z.of_nat k <= max_int32)%Z ->
  @note_length_beats XQ (Fin d) (Z.of_nat k) = Fin (four / d * dotted k).
Proof.
  intros d k Hd Hk. unfold note_length_beats. cbn [nmul ndiv nsub nofZ npow2 XQ].
  unfold xq_ofZ. rewrite xq_div_fin by exact Hd.
  rewrite wrap32_id by (unfold in_int32, min_int32, max_int32 in *; lia).
  rewrite pow2_half, dotted_closed. reflexivity.
Qed.

Lemma beats_ms_exact : forall q t, t <> 0 ->
  @beats_ms XQ (Fin q) (Fin t) = Fin (q * (Q2Qc 60000 / t)).
Proof.
  intros q t Ht. unfold beats_ms. cbn [nmul ndiv nofZ XQ]. unfold xq_ofZ.
  rewrite xq_div_fin by exact Ht. reflexivity.
Qed.

(** Induction principle for the nested tree. *)
Fixpoint xdur_ind' (P : xdur -> Prop)
  (HL : forall d k, P (XLen d k)) (HB : forall q, P (XBeats q)) (HM : forall q, P (XMs q))
  (HS : forall q, P (XSec q)) (Hb : P XBar)
  (HT : forall l, Forall P l -> P (XTied l)) (x : xdur) : P x :=
  match x with
  | XLen d k => HL d k | XBeats q => HB q | XMs q => HM q | XSec q => HS q | XBar => Hb
  | XTied l => HT l ((fix go l : Forall P l :=
                        match l with
                        | [] => Forall_nil _
                        | y :: t => Forall_cons _ (xdur_ind' P HL HB HM HS Hb HT y) (go t)
                        end) l)
  end.

Lemma meaningful_tied : forall l, meaningful (XTied l) <-> Forall meaningful l.
Proof.
  induction l as [|x t IH].
  - split; [constructor|exact (fun _ => I)].
  - change (meaningful (XTied (x :: t))) with (meaningful x /\ meaningful (XTied t)).
    rewrite IH. split; [intros [A B]; constructor; assumption|intros H; inversion H; tauto].
Qed.

Lemma positive_tied : forall l, positive_lengths (XTied l) <-> Forall positive_lengths l.
Proof.
  induction l as [|x t IH].
  - split; [constructor|exact (fun _ => I)].
  - change (positive_lengths (XTied (x :: t)))
      with (positive_lengths x /\ positive_lengths (XTied t)).
    rewrite IH. split; [intros [A B]; constructor; assumption|intros H; inversion H; tauto].
Qed.

Lemma ms_at_tied_cons : forall t x l,
  ms_at t (XTied (x :: l)) = ms_at t x + ms_at t (XTied l).
Proof. intros. unfold ms_at. cbn [beats fixed_ms sum_qc]. fold (sum_qc beats l) (sum_qc fixed_ms l). ring. Qed.

Lemma comp_ms_dur : forall (N : Num) t l,
  comp_ms t (CDur (Some l)) = dur_ms_of t (Some l).
Proof.
  intros N t l. unfold dur_ms_of, dcomps. cbn [comp_ms]. generalize n0.
  induction l as [|x r IH]; intros a; cbn [fold_left]; [reflexivity|apply IH].
Qed.

Lemma fold_ms : forall t l a,
  Forall (fun x => comp_ms (N := XQ) (Fin t) (embed x) = Fin (ms_at t x)) l ->
  fold_left (fun acc c => @nadd XQ acc (comp_ms (N := XQ) (Fin t) c)) (map embed l) (Fin a)
  = Fin (a + ms_at t (XTied l)).
Proof.
  intros t l. induction l as [|x r IH]; intros a H; cbn [map fold_left].
  - f_equal. unfold ms_at. cbn. ring.
  - inversion H as [|? ? Hx Hr]; subst. rewrite Hx. cbn [nadd XQ xq_add].
    rewrite (IH _ Hr). f_equal. rewrite ms_at_tied_cons. ring.
Qed.

(** C28, value: the code computes the exact length. *)
Lemma comp_ms_exact : forall x t, meaningful x -> t <> 0 ->
  comp_ms (N := XQ) (Fin t) (embed x) = Fin (ms_at t x).
Proof.
  intros x t Hm Ht. revert Hm.
  induction x using xdur_ind'; intros Hm; cbn [embed].
  - destruct Hm as [Hd Hk]. cbn [comp_ms].
    rewrite note_length_exact, beats_ms_exact by assumption.
    f_equal. unfold ms_at. cbn [beats fixed_ms]. ring.
  - cbn [comp_ms]. rewrite beats_ms_exact by assumption. f_equal. unfold ms_at; cbn [beats fixed_ms]; ring.
  - cbn [comp_ms]. f_equal. unfold ms_at; cbn [beats fixed_ms]; ring.
  - cbn [comp_ms]. cbn [nmul nofZ XQ]. unfold xq_ofZ. cbn [xq_mul].
    change (inject_Z 1000) with 1000%Q.
    f_equal. unfold ms_at; cbn [beats fixed_ms]; ring.
  - cbn [comp_ms]. unfold n0. cbn [nofZ XQ]. unfold xq_ofZ.
    apply f_equal. unfold ms_at; cbn [beats fixed_ms]. change (inject_Z 0) with 0%Q. ring.
  - rewrite comp_ms_dur. unfold dur_ms_of, dcomps, n0. cbn [nofZ XQ]. unfold xq_ofZ.
    change (inject_Z 0) with 0%Q.
    rewrite fold_ms.
    + f_equal. ring.
    + apply meaningful_tied in Hm.
      rewrite Forall_forall in *. intros y Hy. apply H; auto.
Qed.

Lemma dur_ms_exact : forall l t, Forall meaningful l -> t <> 0 ->
  dur_ms_of (N := XQ) (Fin t) (Some (map embed l)) = Fin (ms_at t (XTied l)).
Proof.
  intros l t Hm Ht. rewrite <- comp_ms_dur.
  apply (comp_ms_exact (XTied l) t); [apply meaningful_tied; exact Hm|exact Ht].
Qed.

(* ---------------- grouping of ties ---------------- *)

Lemma ms_at_app : forall t a b, ms_at t (XTied (a ++ b)) = ms_at t (XTied a) + ms_at t (XTied b).
Proof.
  intros t a b. induction a as [|x r IH]; cbn [app].
  - assert (E : ms_at t (XTied []) = 0) by (unfold ms_at; cbn [beats fixed_ms sum_qc]; ring).
    rewrite E. ring.
  - rewrite !ms_at_tied_cons, IH. ring.
Qed.

Lemma ms_at_nested : forall t a l b,
  ms_at t (XTied (a ++ [XTied l] ++ b)) = ms_at t (XTied (a ++ l ++ b)).
Proof.
  intros. rewrite !ms_at_app. f_equal. cbn [app]. rewrite ms_at_tied_cons.
  assert (E : ms_at t (XTied []) = 0) by (unfold ms_at; cbn [beats fixed_ms sum_qc]; ring).
  ring_simplify. rewrite E. ring.
Qed.

Lemma ms_at_bar : forall t a b, ms_at t (XTied (a ++ [XBar] ++ b)) = ms_at t (XTied (a ++ b)).
Proof.
  intros. rewrite !ms_at_app. cbn [app]. rewrite ms_at_tied_cons.
  assert (E : ms_at t (XTied []) = 0) by (unfold ms_at; cbn [beats fixed_ms sum_qc]; ring).
  assert (E2 : ms_at t XBar = 0) by (unfold ms_at; cbn [beats fixed_ms]; ring).
  rewrite E, E2. ring.
Qed.

(** Scaling the tempo by k divides the tempo-dependent part by k. *)
Lemma ms_at_tempo : forall t k x, t <> 0 -> k <> 0 ->
  ms_at (k * t) x - fixed_ms x = (ms_at t x - fixed_ms x) / k.
Proof. intros t k x Ht Hk. unfold ms_at. field. split; assumption. Qed.

(* ---------------- validation ---------------- *)

Lemma comp_valid_dur : forall (N : Num) l,
  comp_valid (CDur (Some l)) = forallb comp_valid l.
Proof. intros N l. cbn [comp_valid]. induction l as [|x r IH]; cbn; [reflexivity|]. rewrite IH. reflexivity. Qed.

Lemma nleb_zero : forall q, negb (@nleb XQ (Fin q) n0) = true <-> 0 < q.
Proof.
  intros q. unfold n0. cbn [nleb nofZ XQ]. unfold xq_ofZ. rewrite xq_leb_fin.
  rewrite negb_true_iff. change (Q2Qc (inject_Z 0)) with 0. split; intros H.
  - apply Qcnot_le_lt. intros F. apply qc_leb_le in F. congruence.
  - destruct (qc_leb q 0) eqn:E; [|reflexivity].
    apply qc_leb_le in E. exfalso. exact (Qcle_not_lt _ _ E H).
Qed.

Lemma comp_valid_iff : forall x, comp_valid (N := XQ) (embed x) = true <-> positive_lengths x.
Proof.
  intros x. induction x using xdur_ind'; cbn [embed].
  - apply nleb_zero.
  - apply nleb_zero.
  - apply nleb_zero.
  - apply nleb_zero.
  - cbn. tauto.
  - rewrite comp_valid_dur, positive_tied, forallb_forall, Forall_forall.
    rewrite Forall_forall in H. split; intros G.
    + intros y Hy. apply H; [exact Hy|]. apply G. apply in_map. exact Hy.
    + intros c Hc. apply in_map_iff in Hc. destruct Hc as [y [<- Hy]].
      apply H; [exact Hy|]. apply G. exact Hy.
Qed.

Lemma dur_valid_iff : forall l,
  dur_valid (N := XQ) (Some (map embed l)) = true <-> Forall positive_lengths l.
Proof.
  intros l. unfold dur_valid.
  change (CDur (Some (map embed l))) with (embed (XTied l)).
  rewrite comp_valid_iff. apply positive_tied.
Qed.

(** Positive lengths give a positive number of milliseconds. *)
Lemma half_pow_pos : forall n, 0 < half_pow n.
Proof.
  induction n as [|n IH]; cbn [half_pow]; [reflexivity|].
  unfold Qclt in *. rewrite this_div. apply Qlt_shift_div_l; [reflexivity|].
  change (this 0 * this two)%Q with 0%Q. exact IH.
Qed.
Lemma half_pow_le1 : forall n, half_pow n <= 1.
Proof.
  induction n as [|n IH]; cbn [half_pow]; [apply Qcle_refl|].
  unfold Qcle in *. rewrite this_div. apply Qle_shift_div_r; [reflexivity|].
  change (this 1 * this two)%Q with 2%Q. change (this 1) with 1%Q in IH. lra.
Qed.
Lemma dotted_pos : forall n, 0 < dotted n.
Proof.
  intros n. rewrite dotted_closed. pose proof (half_pow_le1 n) as H.
  unfold Qclt, Qcle in *. rewrite this_minus.
  change (this two) with 2%Q. change (this 1) with 1%Q in H. change (this 0) with 0%Q. lra.
Qed.

Lemma c28_value : forall x t, meaningful x -> t <> 0 ->
  comp_ms (N := XQ) (Fin t) (embed x) = Fin (beats x * (Q2Qc 60000 / t) + fixed_ms x).
Proof. exact comp_ms_exact. Qed.

Lemma c28_note : forall d k, d <> 0 ->
  beats (XLen d k) = Q2Qc 4 / d * (Q2Qc 2 - half_pow k).
Proof. intros d k _. cbn [beats]. rewrite dotted_closed. reflexivity. Qed.

Lemma meaningful_app : forall a b,
  Forall meaningful (a ++ b) <-> Forall meaningful a /\ Forall meaningful b.
Proof. intros. apply Forall_app. Qed.

Lemma c28_grouping : forall a l b t, Forall meaningful (a ++ l ++ b) -> t <> 0 ->
  dur_ms_of (N := XQ) (Fin t) (Some (map embed (a ++ [XTied l] ++ b))) =
  dur_ms_of (N := XQ) (Fin t) (Some (map embed (a ++ l ++ b))).
Proof.
  intros a l b t H Ht. rewrite !dur_ms_exact; try assumption.
  - f_equal. apply ms_at_nested.
  - rewrite !Forall_app in *. destruct H as [Ha [Hl Hb]]. repeat split; try assumption.
    constructor; [|constructor]. apply meaningful_tied. exact Hl.
Qed.

Lemma c28_barline : forall a b t, Forall meaningful (a ++ b) -> t <> 0 ->
  dur_ms_of (N := XQ) (Fin t) (Some (map embed (a ++ [XBar] ++ b))) =
  dur_ms_of (N := XQ) (Fin t) (Some (map embed (a ++ b))).
Proof.
  intros a b t H Ht. rewrite !dur_ms_exact; try assumption.
  - f_equal. apply ms_at_bar.
  - rewrite !Forall_app in *. destruct H as [Ha Hb]. repeat split; try assumption.
    constructor; [exact I|constructor].
Qed.

Lemma c28_order : forall l l' t, Forall meaningful l -> t <> 0 -> Permutation l l' ->
  dur_ms_of (N := XQ) (Fin t) (Some (map embed l)) =
  dur_ms_of (N := XQ) (Fin t) (Some (map embed l')).
Proof.
  intros l l' t H Ht Hp. rewrite !dur_ms_exact; try assumption.
  2:{ rewrite Forall_forall in *. intros x Hx. apply H.
      eapply Permutation_in; [apply Permutation_sym; exact Hp|exact Hx]. }
  f_equal. clear H. induction Hp as [|x l l' Hp IH|x y l|l l' l'' H1 IH1 H2 IH2].
  - reflexivity.
  - rewrite !ms_at_tied_cons, IH. reflexivity.
  - rewrite !ms_at_tied_cons. ring.
  - rewrite IH1. exact IH2.
Qed.

Lemma c28_tempo : forall x t k, meaningful x -> t <> 0 -> k <> 0 ->
  exists slow fast,
    comp_ms (N := XQ) (Fin t) (embed x) = Fin (fixed_ms x + slow) /\
    comp_ms (N := XQ) (Fin (k * t)) (embed x) = Fin (fixed_ms x + fast) /\
    fast = slow / k.
Proof.
  intros x t k Hm Ht Hk. exists (beats x * (Q2Qc 60000 / t)), (beats x * (Q2Qc 60000 / (k * t))).
  assert (Hkt : k * t <> 0).
  { intros F. apply Qcmult_integral in F. destruct F; contradiction. }
  rewrite !comp_ms_exact by assumption. unfold ms_at.
  repeat split; try (f_equal; ring). field. split; assumption.
Qed.

Lemma c28_positive : forall l, l <> [] -> Forall positive_lengths l ->
  (forall x, In x l -> x <> XBar /\ forall m, x <> XTied m) ->
  forall t, 0 < t -> 0 < ms_at t (XTied l).
Proof.
  intros l Hne Hp Hs t Ht.
  assert (Hq : 0 < Q2Qc 60000 / t).
  { unfold Qclt. rewrite this_div. apply Qlt_shift_div_l; [exact Ht|].
    change (this 0) with 0%Q. rewrite Qmult_0_l. reflexivity. }
  assert (Hx : forall x, In x l -> 0 < ms_at t x).
  { intros x Hx. rewrite Forall_forall in Hp. specialize (Hp x Hx). destruct (Hs x Hx) as [Hb Ht'].
    unfold ms_at. destruct x; cbn [beats fixed_ms positive_lengths] in *; try congruence.
    - assert (0 < four / d).
      { unfold Qclt. rewrite this_div. apply Qlt_shift_div_l; [exact Hp|].
        change (this 0) with 0%Q. rewrite Qmult_0_l. reflexivity. }
      rewrite Qcplus_0_r.
      pose proof (Qcmult_lt_compat_r 0 (four / d) (dotted dots) (dotted_pos dots) H) as G1.
      rewrite Qcmult_0_l in G1.
      pose proof (Qcmult_lt_compat_r 0 _ _ Hq G1) as G2. rewrite Qcmult_0_l in G2. exact G2.
    - rewrite Qcplus_0_r. pose proof (Qcmult_lt_compat_r 0 _ _ Hq Hp) as G2.
      rewrite Qcmult_0_l in G2. exact G2.
    - rewrite Qcmult_0_l, Qcplus_0_l. exact Hp.
    - rewrite Qcmult_0_l, Qcplus_0_l.
      pose proof (Qcmult_lt_compat_r 0 q (Q2Qc 1000)) as G. rewrite Qcmult_0_l in G.
      apply G; [reflexivity|exact Hp].
    }
  clear Hs Hp. destruct l as [|x l]; [congruence|]. clear Hne.
  rewrite ms_at_tied_cons.
  assert (Hr : 0 <= ms_at t (XTied l)).
  { assert (G : forall y, In y l -> 0 < ms_at t y) by (intros; apply Hx; right; assumption).
    clear Hx. induction l as [|y l IH].
    - unfold ms_at. cbn [beats fixed_ms sum_qc]. rewrite Qcmult_0_l, Qcplus_0_l. apply Qcle_refl.
    - rewrite ms_at_tied_cons. specialize (G y (or_introl eq_refl)) as Gy.
      assert (IH' : 0 <= ms_at t (XTied l)) by (apply IH; intros; apply G; right; assumption).
      unfold Qcle, Qclt in *. rewrite this_plus. change (this 0) with 0%Q in *. lra. }
  specialize (Hx x (or_introl eq_refl)).
  unfold Qcle, Qclt in *. rewrite this_plus. change (this 0) with 0%Q in *. lra.
Qed.
