From Coq Require Import ZArith List Lia Bool ZifyBool.
From Verif Require Import Base ModelPitch SpecPitch.
Import ListNotations.
Local Open Scope Z_scope.

Ltac Zify.zify_post_hook ::= Z.div_mod_to_equations.

Lemma wrap32_id : forall z, in_int32 z -> wrap32 z = z.
Proof. unfold in_int32, min_int32, max_int32, wrap32; intros; lia. Qed.

Lemma wrap32_range : forall z, in_int32 (wrap32 z).
Proof. unfold in_int32, min_int32, max_int32, wrap32; intros; lia. Qed.

Lemma wrap32_mod : forall z, exists k, wrap32 z = z + k * 4294967296.
Proof.
  intros z. exists (- ((z + 2147483648) / 4294967296)). unfold wrap32. lia.
Qed.

Lemma wrap32_shift : forall z k, wrap32 (z + k * 4294967296) = wrap32 z.
Proof.
  intros. unfold wrap32.
  replace (z + k * 4294967296 + 2147483648) with (z + 2147483648 + k * 4294967296) by lia.
  rewrite Z.mod_add by lia. reflexivity.
Qed.

Lemma wrap32_add_l : forall a b, wrap32 (wrap32 a + b) = wrap32 (a + b).
Proof.
  intros. destruct (wrap32_mod a) as [k Hk]. rewrite Hk.
  replace (a + k * 4294967296 + b) with (a + b + k * 4294967296) by lia.
  apply wrap32_shift.
Qed.

Lemma wrap32_mul_l : forall a b, wrap32 (wrap32 a * b) = wrap32 (a * b).
Proof.
  intros. destruct (wrap32_mod a) as [k Hk]. rewrite Hk.
  replace ((a + k * 4294967296) * b) with (a * b + (k * b) * 4294967296) by ring.
  apply wrap32_shift.
Qed.

Lemma accs_value_cons : forall a t, accs_value (a :: t) = acc_value a + accs_value t.
Proof. reflexivity. Qed.

Lemma fold_accidentals : forall accs n m, n = wrap32 m ->
  fold_left apply_accidental accs n = wrap32 (m + accs_value accs).
Proof.
  induction accs as [|a t IH]; intros n m H; [|rewrite accs_value_cons]; cbn [fold_left].
  - cbn. rewrite Z.add_0_r. exact H.
  - destruct a; cbn [apply_accidental acc_value].
    + rewrite (IH _ (m + -1)); [f_equal; lia|].
      subst n. replace (wrap32 m - 1) with (wrap32 m + -1) by lia. apply wrap32_add_l.
    + rewrite (IH _ m H). f_equal; lia.
    + rewrite (IH _ (m + 1)); [f_equal; lia|].
      subst n. apply wrap32_add_l.
Qed.

Lemma letter_interval_white : forall l, letter_interval l = white_key l.
Proof. destruct l; reflexivity. Qed.

(** The calculation is the specification modulo 2^32. *)
Lemma calc_wrap : forall p o k t,
  calc_midi_note p o k t = wrap32 (pitch_spec p o k t).
Proof.
  intros [l accs|n] o k t; cbn [calc_midi_note pitch_spec]; [|reflexivity].
  rewrite wrap32_mul_l, wrap32_add_l, letter_interval_white.
  assert (H : forall a, wrap32 (fold_left apply_accidental a (wrap32 ((o + 1) * 12 + white_key l)) + t)
                        = wrap32 (12 * (o + 1) + white_key l + accs_value a + t)).
  { intros a. rewrite (fold_accidentals a _ _ eq_refl), wrap32_add_l. f_equal. lia. }
  destruct accs as [a|]; [apply H|].
  rewrite H. unfold key_value, ks_index.
  destruct (ks_get k l); reflexivity.
Qed.

Lemma calc_correct : forall p o k t,
  in_int32 (pitch_spec p o k t) -> calc_midi_note p o k t = pitch_spec p o k t.
Proof. intros. rewrite calc_wrap. apply wrap32_id; assumption. Qed.

(* ---------------------------- keys ---------------------------- *)

Lemma shift_key_get : forall k this that l,
  ks_get (shift_key k this that) l = shift_entry this that (ks_get k l).
Proof. intros k this that l; destruct l; reflexivity. Qed.

Lemma accs_value_app : forall a b, accs_value (a ++ b) = accs_value a + accs_value b.
Proof. induction a; intros; simpl; [reflexivity|]. rewrite IHa. lia. Qed.

(** Once one accidental was dropped the rest is copied. *)
Lemma shift_copy_true : forall this accs, shift_copy this accs true = (accs, true).
Proof.
  induction accs as [|a t IH]; [reflexivity|].
  cbn [shift_copy]. rewrite orb_true_r, IH. reflexivity.
Qed.

Definition opposite (this that : accidental) : Prop :=
  (this = Sharp /\ that = Flat) \/ (this = Flat /\ that = Sharp).

Lemma shift_copy_value : forall this that accs r c,
  opposite this that -> ~ In Natural accs -> shift_copy this accs false = (r, c) ->
  (if c then accs_value r = accs_value accs + acc_value this
   else r = accs) /\ incl r accs.
Proof.
  intros this that accs. induction accs as [|a t IH]; intros r c Ho Hn H; cbn [shift_copy] in H.
  - inversion H; subst. split; [reflexivity|apply incl_refl].
  - destruct (acc_eqb a this || false) eqn:E.
    + destruct (shift_copy this t false) as [r' c'] eqn:E'.
      inversion H; subst r c.
      destruct (IH r' c' Ho) as [IH1 IH2]; [intro; apply Hn; right; assumption|reflexivity|].
      split.
      * destruct c'; [rewrite !accs_value_cons; lia
                     | rewrite IH1; reflexivity].
      * intros x [Hx|Hx]; [left; exact Hx|right; apply IH2; exact Hx].
    + rewrite shift_copy_true in H. inversion H; subst r c. split.
      * rewrite accs_value_cons.
        destruct Ho as [[-> ->]|[-> ->]]; destruct a; cbn [acc_value] in *; cbn in E; try discriminate;
          try (exfalso; apply Hn; left; reflexivity); lia.
      * intros x Hx; right; exact Hx.
Qed.

Definition entry_value (e : option (list accidental)) : Z :=
  match e with Some a => accs_value a | None => 0 end.

Lemma shift_entry_value : forall this that e,
  opposite this that -> (forall a, e = Some a -> ~ In Natural a) ->
  entry_value (shift_entry this that e) = entry_value e + acc_value this /\
  (forall a, shift_entry this that e = Some a -> ~ In Natural a).
Proof.
  intros this that e Ho Hn.
  assert (Hthis : this <> Natural) by (destruct Ho as [[-> ->]|[-> ->]]; discriminate).
  destruct e as [accs|].
  2:{ cbn [shift_entry]. split; [cbn; lia|]. intros a H; inversion H; subst.
      intros [F|[]]; congruence. }
  specialize (Hn accs eq_refl).
  assert (G : let '(r, c) := shift_copy this accs false in
              entry_value (Some (if c then r else r ++ [this])) = accs_value accs + acc_value this
              /\ ~ In Natural (if c then r else r ++ [this])).
  { destruct (shift_copy this accs false) as [r c] eqn:E.
    destruct (shift_copy_value _ _ _ _ _ Ho Hn E) as [H1 H2].
    destruct c; cbn [entry_value].
    - split; [exact H1|]. intro F; apply Hn, H2, F.
    - subst r. rewrite accs_value_app. cbn. split; [lia|].
      rewrite in_app_iff. intros [F|[F|[]]]; [tauto|congruence]. }
  destruct accs as [|a [|b t]]; cbn [shift_entry].
  - destruct (shift_copy this [] false) as [r c]. destruct G as [G1 G2].
    split; [exact G1|]. intros a H; inversion H; subst; exact G2.
  - destruct (acc_eqb a that) eqn:E.
    + split; [|discriminate].
      destruct Ho as [[-> ->]|[-> ->]]; destruct a; cbn in *; try discriminate; lia.
    + destruct (shift_copy this [a] false) as [r c]. destruct G as [G1 G2].
      split; [exact G1|]. intros x H; inversion H; subst; exact G2.
  - destruct (shift_copy this (a :: b :: t) false) as [r c]. destruct G as [G1 G2].
    split; [exact G1|]. intros x H; inversion H; subst; exact G2.
Qed.

Lemma key_value_entry : forall k l, key_value k l = entry_value (ks_get k l).
Proof. reflexivity. Qed.

Lemma sharpen_value : forall k, no_naturals k ->
  (forall l, key_value (sharpen k) l = key_value k l + 1) /\ no_naturals (sharpen k).
Proof.
  intros k Hk. unfold no_naturals, sharpen. split; [intros l|intros l a H].
  - rewrite !key_value_entry, shift_key_get.
    destruct (shift_entry_value Sharp Flat (ks_get k l)) as [H _];
      [left; split; reflexivity|exact (Hk l)|exact H].
  - rewrite shift_key_get in H.
    destruct (shift_entry_value Sharp Flat (ks_get k l)) as [_ G];
      [left; split; reflexivity|exact (Hk l)|exact (G a H)].
Qed.

Lemma flatten_value : forall k, no_naturals k ->
  (forall l, key_value (flatten k) l = key_value k l - 1) /\ no_naturals (flatten k).
Proof.
  intros k Hk. unfold no_naturals, flatten. split; [intros l|intros l a H].
  - rewrite !key_value_entry, shift_key_get.
    destruct (shift_entry_value Flat Sharp (ks_get k l)) as [H _];
      [right; split; reflexivity|exact (Hk l)|].
    rewrite H. cbn. lia.
  - rewrite shift_key_get in H.
    destruct (shift_entry_value Flat Sharp (ks_get k l)) as [_ G];
      [right; split; reflexivity|exact (Hk l)|exact (G a H)].
Qed.

Lemma shift_fold_value : forall accs k, no_naturals k ->
  forall l, key_value (fold_left (fun k a => match a with
                        | Flat => flatten k | Sharp => sharpen k | Natural => k
                        end) accs k) l = key_value k l + accs_value accs.
Proof.
  induction accs as [|a t IH]; intros k Hk l; cbn [fold_left accs_value fold_right].
  - lia.
  - fold (accs_value t). destruct a; cbn [acc_value].
    + destruct (flatten_value k Hk) as [Hv Hn]. rewrite (IH _ Hn), Hv. lia.
    + rewrite (IH _ Hk). lia.
    + destruct (sharpen_value k Hk) as [Hv Hn]. rewrite (IH _ Hn), Hv. lia.
Qed.

(** The unaltered tonic: checked for the 7 letters, 7 modes and 7 degrees. *)
Lemma circle_degrees : forall sc l i, (i < 7)%nat ->
  let '(m, c) := steps_up l i in
  white_key m + 12 * c + key_value (ks_from_circle (circle_placement sc l)) m
  = white_key l + nth i (mode_pattern sc) 0.
Proof.
  intros sc l i Hi.
  do 7 (destruct i as [|i]; [destruct sc, l; vm_compute; reflexivity|]).
  lia.
Qed.

Lemma circle_no_naturals : forall sc l, no_naturals (ks_from_circle (circle_placement sc l)).
Proof.
  intros sc l m a.
  destruct sc, l, m; vm_compute; intros H; inversion H; subst; cbn;
    intuition discriminate.
Qed.

Lemma steps_up_carry : forall l i, (i < 7)%nat -> 0 <= snd (steps_up l i) <= 1.
Proof.
  intros l i Hi.
  do 7 (destruct i as [|i]; [destruct l; vm_compute; split; discriminate|]). lia.
Qed.

Lemma accs_value_bound : forall a, Z.abs (accs_value a) <= Z.of_nat (List.length a).
Proof.
  induction a as [|x t IH]; [cbn; lia|]. cbn [accs_value fold_right List.length].
  fold (accs_value t). destruct x; cbn [acc_value]; lia.
Qed.

Lemma pattern_bound : forall sc i, (i < 7)%nat -> 0 <= nth i (mode_pattern sc) 0 <= 11.
Proof.
  intros sc i Hi.
  do 7 (destruct i as [|i]; [destruct sc; vm_compute; split; discriminate|]). lia.
Qed.

Lemma scale_degrees : forall sc l accs i, (i < 7)%nat ->
  let '(m, c) := steps_up l i in
  white_key m + 12 * c + key_value (ks_from_scale l accs sc) m
  = white_key l + accs_value accs + nth i (mode_pattern sc) 0.
Proof.
  intros sc l accs i Hi.
  pose proof (circle_degrees sc l i Hi) as H.
  destruct (steps_up l i) as [m c].
  unfold ks_from_scale.
  rewrite shift_fold_value by apply circle_no_naturals. lia.
Qed.

Lemma named_scale : forall sc l accs i o t,
  (i < 7)%nat ->
  -1000000 <= o <= 1000000 -> -1000000 <= t <= 1000000 ->
  (Z.of_nat (List.length accs) <= 1000000) ->
  let '(m, c) := steps_up l i in
  calc_midi_note (PLetter m None) (o + c) (ks_from_scale l accs sc) t
  = calc_midi_note (PLetter l (Some accs)) o ks_empty t + nth i (mode_pattern sc) 0.
Proof.
  intros sc l accs i o t Hi Ho Ht Ha.
  pose proof (scale_degrees sc l accs i Hi) as H.
  pose proof (steps_up_carry l i Hi) as Hc.
  pose proof (accs_value_bound accs) as Hb.
  pose proof (pattern_bound sc i Hi) as Hp.
  destruct (steps_up l i) as [m c]. cbn [snd] in Hc.
  assert (Hw : forall x, 0 <= white_key x <= 11) by (intros []; cbn; lia).
  pose proof (Hw l).
  rewrite !calc_correct; cbn [pitch_spec]; [lia| |]; unfold in_int32, min_int32, max_int32; lia.
Qed.

Lemma shift_key_spec : forall k, no_naturals k ->
  (forall l, key_value (sharpen k) l = key_value k l + 1) /\
  (forall l, key_value (flatten k) l = key_value k l - 1) /\
  (forall l, key_value (flatten (sharpen k)) l = key_value k l) /\
  (forall l, key_value (sharpen (flatten k)) l = key_value k l) /\
  no_naturals (sharpen k) /\ no_naturals (flatten k).
Proof.
  intros k Hk. destruct (sharpen_value k Hk) as [S1 S2]. destruct (flatten_value k Hk) as [F1 F2].
  destruct (flatten_value _ S2) as [FS _]. destruct (sharpen_value _ F2) as [SF _].
  repeat split; try assumption; intros l.
  - rewrite FS, S1. lia.
  - rewrite SF, F1. lia.
Qed.

Lemma calc_overflow_witness : exists p o k t,
  in_int32 o /\ in_int32 t /\
  0 <= calc_midi_note p o k t <= 127 /\ calc_midi_note p o k t <> pitch_spec p o k t.
Proof.
  exists (PLetter LC None), 357913941, ks_empty, 0.
  vm_compute. repeat split; discriminate.
Qed.

Lemma shift_natural_witness : exists k l, key_value (sharpen k) l <> key_value k l + 1.
Proof.
  exists (ks_set ks_empty LF (Some [Natural; Natural])), LF. vm_compute. discriminate.
Qed.
