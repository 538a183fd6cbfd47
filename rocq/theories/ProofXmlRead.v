(** Numbers, pitches and lengths read from a MusicXML document (C57). *)
From Coq Require Import ZArith QArith Qcanon Lqa Ascii String List Bool Lia Arith.
From Verif Require Import Base Num ModelPitch ModelDuration ModelInstruments ModelTypes ModelLisp ModelScore
  ModelImporter ModelMusicXml SpecPitch SpecImporter SpecMusicXml ProofPitch SpecXmlScore ProofXmlDur ProofXmlPlay.
Import ListNotations.
Local Open Scope string_scope.
Local Open Scope list_scope.
Local Open Scope Z_scope.

(* ---------------- options ---------------- *)
Lemma obind_some : forall A B (o : option A) (f : A -> option B) b, obind o f = Some b -> exists a, o = Some a /\ f a = Some b.
Proof. intros A B [a|] f b H; [now exists a|discriminate]. Qed.
Lemma only_true : forall b x, only b = Some x -> b = true.
Proof. intros [] x H; [reflexivity|discriminate]. Qed.
Ltac ob H x E := apply obind_some in H; destruct H as (x & E & H).
Ltac on H E := let u := fresh in apply obind_some in H; destruct H as (u & E & H); apply only_true in E; clear u.

(* ---------------- numbers ---------------- *)
Lemma digits_loop_ge : forall l n m, digits_loop l n = Some m -> 0 <= n -> n <= m.
Proof.
  induction l as [|c l IH]; intros n m H Hn; cbn [digits_loop] in H.
  - injection H as <-. lia.
  - unfold digit_of in H. destruct (_ && _)%bool eqn:E in H; [|discriminate]. apply IH in H; lia.
Qed.
Lemma uint_digits : forall top l n m, digits_loop l n = Some m -> 0 <= n -> m <= top -> uint_loop top l n = Some m.
Proof.
  intros top. induction l as [|c l IH]; intros n m H Hn Hm; cbn [digits_loop uint_loop] in *; [exact H|].
  destruct (digit_of c) as [d|] eqn:E; [|discriminate].
  assert (0 <= d) by (unfold digit_of in E; destruct (_ && _)%bool eqn:E1 in E; [injection E as <-; lia|discriminate]).
  pose proof (digits_loop_ge _ _ _ H ltac:(lia)). assert ((n * 10 + d >? top) = false) as -> by lia. apply IH; [exact H|lia|exact Hm].
Qed.
Lemma digits_uint : forall top s m, digits s = Some m -> m <= top -> parse_uint top (list_ascii_of_string s) = Some m.
Proof.
  intros top s m H Hm. unfold digits in H. unfold parse_uint. destruct (list_ascii_of_string s) as [|c l]; [discriminate|].
  apply uint_digits; [exact H|lia|exact Hm].
Qed.
Lemma digits_pos : forall s m, digits s = Some m -> 0 <= m.
Proof.
  intros s m H. unfold digits in H. destruct (list_ascii_of_string s) as [|c l]; [discriminate|]. apply digits_loop_ge in H; lia.
Qed.
Lemma parse_whole : forall bits s n, 8 <= bits -> whole s = Some n -> -127 <= n <= 127 -> parse_int bits s = n.
Proof.
  intros bits s n Hb H Hn. unfold parse_int. cbv zeta.
  assert (P1 : 128 <= 2 ^ (bits - 1)) by (change 128 with (2 ^ 7); apply Z.pow_le_mono_r; lia).
  assert (P2 : 256 <= 2 ^ bits) by (change 256 with (2 ^ 8); apply Z.pow_le_mono_r; lia).
  unfold whole in H. destruct s as [|c t]; [discriminate|].
  assert (Gd : forall x, digits x = Some n -> match parse_uint (2 ^ bits - 1) (list_ascii_of_string x) with
     | Some n0 => if n0 >=? 2 ^ (bits - 1) then 2 ^ (bits - 1) - 1 else n0 | None => 0 end = n).
  { intros x Hx. rewrite (digits_uint _ _ _ Hx) by lia. assert ((n >=? 2 ^ (bits - 1)) = false) as -> by lia. reflexivity. }
  cbn [list_ascii_of_string]. destruct (Ascii.eqb_spec c "-") as [-> | N1].
  - destruct (digits t) as [m|] eqn:Ed; [|discriminate]. injection H as H.
    pose proof (digits_pos _ _ Ed). rewrite (digits_uint _ _ _ Ed) by lia. assert ((m >? 2 ^ (bits - 1)) = false) as -> by lia. exact H.
  - destruct (Ascii.eqb_spec c "+") as [-> | N2].
    + now apply Gd.
    + specialize (Gd _ H). cbn [list_ascii_of_string] in Gd. rewrite <- Gd.
      destruct c as [[] [] [] [] [] [] [] []]; try reflexivity; exfalso; (apply N1; reflexivity) || (apply N2; reflexivity).
Qed.
Lemma number_range : forall lo hi s n, number_in lo hi s = Some n -> lo <= n <= hi /\ whole s = Some n.
Proof. intros lo hi s n H. unfold number_in in H. ob H k E. on H C. injection H as <-. split; [lia|exact E]. Qed.
Lemma parse_number : forall bits lo hi s n, 8 <= bits -> -127 <= lo -> hi <= 127 -> number_in lo hi s = Some n -> parse_int bits s = n.
Proof. intros bits lo hi s n Hb Hl Hh H. destruct (number_range _ _ _ _ H) as [R W]. apply parse_whole; [exact Hb|exact W|lia]. Qed.
Lemma child_parse : forall bits lo hi t e n, 8 <= bits -> -127 <= lo -> hi <= 127 -> child_number lo hi t e = Some n ->
  exists s, child_text t e = ROk s /\ parse_int bits s = n /\ lo <= n <= hi.
Proof.
  intros bits lo hi t e n Hb Hl Hh H. unfold child_number in H. ob H c E. exists (text c). unfold child_text. rewrite E.
  split; [reflexivity|]. split; [eapply parse_number; eassumption|]. apply (number_range _ _ _ _ H).
Qed.

(* ---------------- pitches ---------------- *)
Lemma step_ok : forall s l, step_of s = Some l -> step_letter s = ROk l.
Proof.
  intros s l H. unfold step_of in H.
  repeat match goal with H : (if String.eqb ?a ?b then _ else _) = _ |- _ => destruct (String.eqb_spec a b) as [-> |]; [injection H as <-; reflexivity|] end.
  discriminate.
Qed.
Lemma accs_repeat : forall a k, accs_value (repeat a k) = acc_value a * Z.of_nat k.
Proof.
  induction k as [|k IH]; [cbn; lia|]. cbn [repeat]. change (accs_value (a :: repeat a k)) with (acc_value a + accs_value (repeat a k)).
  rewrite IH, Nat2Z.inj_succ. lia.
Qed.
Lemma circle_key : forall f l, -7 <= f <= 7 -> altered f l = false -> key_value (ks_from_circle f) l = 0.
Proof.
  intros f l Hf H.
  assert (C : forallb (fun f => forallb (fun l => altered f l || (key_value (ks_from_circle f) l =? 0)) [LA; LB; LC; LD; LE; LF; LG])
    [-7; -6; -5; -4; -3; -2; -1; 0; 1; 2; 3; 4; 5; 6; 7] = true) by (vm_compute; reflexivity).
  rewrite forallb_forall in C. specialize (C f). rewrite forallb_forall in C. specialize (C ltac:(cbn; lia) l).
  rewrite H in C. cbn [orb] in C. apply Z.eqb_eq, C. destruct l; cbn; tauto.
Qed.
Lemma key_ok : forall r e p k, -7 <= r_fifths r <= 7 -> key_of r e p = Some k ->
  exists l o s x, child_text "step" p = ROk s /\ step_letter s = ROk l /\ child_text "octave" p = ROk x /\ parse_int 8 x = o /\ 0 <= o <= 9 /\
    sounds_at (ks_from_circle (r_fifths r)) (r_transp r) (PLetter l (note_accidentals e p)) o k.
Proof.
  intros r e p k Hf H. unfold key_of in H. ob H l El. ob El c Ec. ob H o Eo. ob H a Ea. cbv zeta in H. on H C1. on H C2.
  assert (H0 : 12 * (o + 1) + white_key l + a + r_transp r = k) by congruence. clear H. rename H0 into H.
  destruct (child_parse 8 0 9 "octave" p o) as (x & Ex & Ho & Ro); [lia|lia|lia|exact Eo|].
  exists l, o, (text c), x. split; [unfold child_text; now rewrite Ec|]. split; [now apply step_ok|]. split; [exact Ex|]. split; [exact Ho|].
  split; [exact Ro|].
  assert (V : pitch_spec (PLetter l (note_accidentals e p)) o (ks_from_circle (r_fifths r)) (r_transp r) = k).
  { rewrite <- H. unfold note_accidentals.
    destruct (match find_child "accidental" e with Some c => String.eqb (text c) "natural" | None => false end) eqn:En.
    - apply Z.eqb_eq in C1. cbn [pitch_spec accs_value fold_right acc_value]. lia.
    - unfold has_child in Ea. destruct (find_child "alter" p) as [ca|] eqn:Eca.
      + destruct (child_parse 8 (-127) 127 "alter" p a) as (y & Ey & Hy & Ry); [lia|lia|lia|exact Ea|].
        unfold child_text in Ey. rewrite Eca in Ey. injection Ey as <-. rewrite Hy.
        destruct (Z.to_nat (Z.abs a)) as [|n] eqn:En2.
        * assert (Ha : a = 0) by lia. rewrite Ha in *. cbn [pitch_spec]. rewrite circle_key; [lia|exact Hf|].
          destruct (altered (r_fifths r) l); [discriminate|reflexivity].
        * rewrite <- En2. cbn [pitch_spec]. rewrite accs_repeat. destruct (Z.gtb_spec a 0); cbn [acc_value]; lia.
      + injection Ea as <-. cbn [pitch_spec]. rewrite circle_key; [lia|exact Hf|].
        destruct (altered (r_fifths r) l); [discriminate|reflexivity]. }
  assert (Rk : 0 <= k <= 127) by lia. split; [|exact Rk]. rewrite calc_wrap, V. apply wrap32_id. clear - Rk. unfold in_int32, min_int32, max_int32. lia.
Qed.

(* ---------------- lengths ---------------- *)
Lemma has_length_pos : forall (d : @duration XQ) b, dur_beats d = Some (qn b) -> (0 < b)%Q -> has_length d = true.
Proof.
  intros d b H Hb. destruct (has_length d) eqn:E; [reflexivity|]. exfalso.
  assert (Z0 : dur_beats d = Some n0).
  { destruct d as [l|]; [|reflexivity]. rewrite beats_some. unfold has_length in E. clear H. induction l as [|c l IH]; [reflexivity|].
    cbn [existsb] in E. apply orb_false_iff in E. destruct E as [E1 E2]. destruct c; try discriminate. cbn [comp_beats].
    rewrite xadd_0. now apply IH. }
  rewrite Z0, qn_0 in H. assert (H1 : qn 0 = qn b) by congruence. apply qn_inj in H1. lra.
Qed.

Section Ticks.
Variable M : Z.
Hypothesis HM : 1 <= M <= 24.
Variable other : string -> @num XQ.

Lemma tq_frac : forall d D, 1 <= D -> (D | M) -> (inject_Z d / inject_Z D == inject_Z (d * (M / D)) / inject_Z M)%Q.
Proof.
  intros d D HD [k Hk]. rewrite Hk, Z.div_mul by lia. rewrite !inject_Z_mult.
  assert (~ inject_Z D == 0)%Q by (apply injZ_nz; lia). assert (~ inject_Z k == 0)%Q by (apply injZ_nz; nia).
  field. now split.
Qed.
Lemma ticks_ok : forall r e t (p : @xpart XQ), 1 <= r_div r <= 24 -> (r_div r | M) -> p_div p = r_div r -> ticks M r e = Some t ->
  exists du, translate_duration other e p = ROk du /\ len M du t.
Proof.
  intros r e t p HD Hd Hp H. unfold ticks in H. ob H d Ed. on H C. assert (t = d * (M / r_div r)) by congruence. subst t. clear H.
  unfold units in Ed. destruct (find_child "duration" e) as [c|] eqn:Ec; [|discriminate].
  apply andb_true_iff in C. destruct C as [C1 C2]. fold (dots e) in *.
  assert (Hk : 0 <= dots e) by (unfold dots; lia).
  assert (Hpow : dots e <> 0 -> d < 10000).
  { intros Hne. destruct (Z.eqb_spec (dots e) 0); [lia|]. assert (1 <= 2 ^ dots e) by (change 1 with (2 ^ 0); apply Z.pow_le_mono_r; lia). nia. }
  destruct (translate_exact other e p c d Ec Ed) as (du & b & T1 & T2 & T3 & T4); try lia.
  - intros E. change (dots e = 0) in E. rewrite E in C2. rewrite Hp. apply Z.leb_le in C2. exact C2.
  - intros E. change (0 < dots e) in E. change (2 ^ dots e * d < 10000). destruct (Z.eqb_spec (dots e) 0) as [E0|E0]; [lia|]. now apply Z.ltb_lt.
  - exists (Some du). split; [exact T1|].
    assert (Eb : (b == inject_Z (d * (M / r_div r)) / inject_Z M)%Q).
    { rewrite T4, Hp. apply tq_frac; [lia|exact Hd]. }
    assert (Hq : 1 <= M / r_div r) by (apply Z.div_le_lower_bound; [lia|]; apply Z.divide_pos_le in Hd; lia).
    assert (Hdm : r_div r * (M / r_div r) = M) by (symmetry; apply Z_div_exact_2; [lia|apply Z.mod_divide; [lia|exact Hd]]).
    assert (Pt : 1 <= d * (M / r_div r)) by nia.
    split; [|split; [exact T3|split]].
    + eapply has_length_pos; [exact T2|]. rewrite Eb. apply Qlt_shift_div_l; [apply injZ_pos; lia|]. rewrite Qmult_0_l. apply injZ_pos. lia.
    + rewrite T2. unfold tq. f_equal. apply qn_eq, Eb.
    + split; [exact Pt|]. destruct (Z.eqb_spec (dots e) 0) as [E0|E0]; [nia|]. specialize (Hpow E0).
      assert (d <= 40000 * r_div r) by lia. nia.
Qed.
Lemma pad_len : forall m, 1 <= m <= 40000 * M -> exists du, idiomatic (ndiv (nofZ 4) (tq M m)) 0 = ROk du /\ len M du m.
Proof.
  intros m Hm. destruct (idiomatic_exact M m HM Hm) as (d & b & T1 & T2 & T3 & T4). exists (Some d). split.
  - refine (eq_trans _ T1). f_equal. rewrite qn_ofZ. unfold tq. assert (~ inject_Z m == 0)%Q by (apply injZ_nz; lia). assert (~ inject_Z M == 0)%Q by (apply injZ_nz; lia).
    rewrite qn_div.
    + apply qn_eq. change (inject_Z 4) with 4%Q. field. now split.
    + intros E. apply H. rewrite <- (Qmult_0_l (inject_Z M)), <- E. field. exact H0.
  - split; [|split; [exact T3|split; [|exact Hm]]].
    + eapply has_length_pos; [exact T2|]. rewrite T4. apply Qlt_shift_div_l; [apply injZ_pos; lia|]. rewrite Qmult_0_l. apply injZ_pos. lia.
    + rewrite T2. unfold tq. f_equal. apply qn_eq, T4.
Qed.
End Ticks.
