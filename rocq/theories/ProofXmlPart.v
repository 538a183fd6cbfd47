(** Reading one part of a MusicXML document (C57): what the importer keeps
    agrees with the specification's reading. *)
From Coq Require Import ZArith QArith Qcanon Ascii String List Bool Lia Arith Permutation.
From Verif Require Import Base Num ModelPitch ModelDuration ModelInstruments ModelTypes ModelLisp ModelScore
  ModelImporter ModelMusicXml SpecImporter SpecMusicXml ProofHeap ProofPitch SpecXmlScore ProofXmlDur ProofXmlPlay ProofXmlExec ProofXmlParts
  ProofXmlRead ProofXmlVoice.
Import ListNotations.
Local Open Scope string_scope.
Local Open Scope list_scope.
Local Open Scope Z_scope.

(* ---------------- assoc lists ---------------- *)
Lemma zaget_in : forall B n i (l : list (Z * B)), aget Z.eqb n l = Some i -> In (n, i) l.
Proof.
  intros B n i l. induction l as [|[m j] l IH]; intros H; [discriminate|]. cbn [aget] in H. destruct (Z.eqb_spec m n) as [-> |Hn].
  - left. congruence.
  - right. now apply IH.
Qed.
Lemma zaget_key : forall B n i (l : list (Z * B)), aget Z.eqb n l = Some i -> In n (map fst l).
Proof. intros. apply zaget_in in H. change n with (fst (n, i)). now apply in_map. Qed.
Lemma key_zaget : forall B n (l : list (Z * B)), In n (map fst l) -> exists i, aget Z.eqb n l = Some i.
Proof.
  intros B n l. induction l as [|[m j] l IH]; intros H; [contradiction|]. cbn [aget]. destruct (Z.eqb_spec m n) as [-> |Hn]; [eauto|].
  apply IH. cbn in H. destruct H; [congruence|assumption].
Qed.
Lemma in_zaget : forall B n i (l : list (Z * B)), NoDup (map fst l) -> In (n, i) l -> aget Z.eqb n l = Some i.
Proof.
  intros B n i l. induction l as [|[m j] l IH]; intros Hn H; [contradiction|]. cbn [aget map fst] in *. inversion_clear Hn as [|? ? N1 N2].
  destruct H as [H|H].
  - injection H as -> ->. now rewrite Z.eqb_refl.
  - destruct (Z.eqb_spec m n) as [-> |Hm]; [|now apply IH]. exfalso. apply N1. change n with (fst (n, i)). now apply in_map.
Qed.
Lemma aset_keys : forall B k (x : B) l m, In m (map fst (aset Z.eqb k x l)) -> m = k \/ In m (map fst l).
Proof.
  intros B k x l m. induction l as [|[a y] l IH]; cbn [aset map fst].
  - intros [H|[]]. now left.
  - destruct (Z.eqb_spec a k) as [-> |Hn]; cbn [map fst In]; [tauto|]. intros [H|H]; [tauto|]. destruct (IH H); tauto.
Qed.
Lemma aset_nodup : forall B k (x : B) l, NoDup (map fst l) -> NoDup (map fst (aset Z.eqb k x l)).
Proof.
  intros B k x l. induction l as [|[a y] l IH]; cbn [aset map fst]; intros H.
  - constructor; [easy|constructor].
  - inversion_clear H as [|? ? N1 N2]. destruct (Z.eqb_spec a k) as [-> |Hn]; cbn [map fst]; constructor; auto.
    intros Hi. apply aset_keys in Hi. destruct Hi; [congruence|contradiction].
Qed.
(** Different voices are at different places. *)
Lemma idx_inj : forall (l : list (Z * nat)) n m i, NoDup (map snd l) -> aget Z.eqb n l = Some i -> aget Z.eqb m l = Some i -> n = m.
Proof.
  intros l n m i Hn H1 H2. apply zaget_in in H1, H2. induction l as [|[k j] l IH]; [contradiction|]. cbn [map snd] in Hn.
  inversion_clear Hn as [|? ? N1 N2]. cbn in H1, H2.
  assert (X : forall a, In (a, j) l -> False) by (intros a Ha; apply N1; change j with (snd (a, j)); now apply in_map).
  destruct H1 as [H1|H1], H2 as [H2|H2].
  - congruence.
  - exfalso. injection H1 as -> ->. eauto.
  - exfalso. injection H2 as -> ->. eauto.
  - now apply IH.
Qed.

Section Part.
Variable M : Z.
Hypothesis HM : 1 <= M <= 24.
Variable other : string -> @num XQ.
Variable names : list string.
Notation tq := (tq M).
Notation len := (len M).
Notation xpart := (@xpart XQ).
Notation voice := (@voice XQ).
Notation update := (@update XQ).
Notation KS r := (ks_from_circle (r_fifths r)).
Notation play r := (play M (KS r) (r_transp r)).

(** The sounds of one voice. *)
Definition sounds_of (n : Z) (l : list (Z * sound)) : list sound := map snd (filter (fun x => fst x =? n) l).
Lemma sounds_app : forall n a b, sounds_of n (a ++ b) = sounds_of n a ++ sounds_of n b.
Proof. intros. unfold sounds_of. now rewrite filter_app, map_app. Qed.
Lemma sounds_same : forall n s, sounds_of n [(n, s)] = [s].
Proof. intros. unfold sounds_of. cbn. now rewrite Z.eqb_refl. Qed.
Lemma sounds_none : forall n b, Forall (fun x => fst x <> n) b -> sounds_of n b = [].
Proof.
  intros n b H. induction H as [|x b Hx H IH]; [reflexivity|]. unfold sounds_of in *. cbn.
  destruct (Z.eqb_spec (fst x) n); [contradiction|exact IH].
Qed.

(** A voice, while the part is read. *)
Definition voice_at (r : reading) (n : Z) (v : voice) (l : list sound) : Prop :=
  0 <= v_oct v <= 9 /\ exists t, play r (v_ups v) 4 0 (v_oct v) t l /\
  (r_for r = Some n /\ t = r_now r /\ free r n <= r_now r /\ (exists b, v_beats v = tq b /\ r_now r <= b) \/
   r_for r <> Some n /\ v_beats v = tq t /\ match aget Z.eqb n (r_free r) with Some f => t = f | None => t <= r_from r end).

(** The current voice. *)
Definition cur_at (r : reading) (n : Z) (v : voice) (l : list sound) : Prop :=
  (forall w, r_for r = Some w -> w = n) /\
  (r_moved r = false -> play r (v_ups v) 4 0 (v_oct v) (r_now r) l) /\
  (forall v' on t, r_last r = Some (v', on, t) -> v' = n /\ r_for r = None /\ r_moved r = false /\ r_begun r = true /\
     on + t = r_now r /\ ends_with M (KS r) (r_transp r) on t v l).

Record PI (r : reading) (acc : list (Z * sound)) (p : xpart) (ns : list Z) : Prop := {
  pi_div : p_div p = r_div r;
  pi_divs : 1 <= r_div r <= 24 /\ (r_div r | M);
  pi_fifths : -7 <= r_fifths r <= 7;
  pi_beats : p_beats p = tq (r_now r);
  pi_from : 0 <= r_from r <= r_now r;
  pi_now : r_now r <= 40000 * M;
  pi_free : forall n f, aget Z.eqb n (r_free r) = Some f -> f <= 40000 * M;
  pi_ns : map fst (p_voices p) = ns;
  pi_keys : NoDup ns;
  pi_idx : NoDup (map snd (p_voices p));
  pi_heap : forall n i, aget Z.eqb n (p_voices p) = Some i -> (i < List.length (p_heap p))%nat;
  pi_cur : exists n c, p_cur p = Some c /\ aget Z.eqb n (p_voices p) = Some c /\ cur_at r n (vget c p) (sounds_of n acc);
  pi_voice : forall n i, aget Z.eqb n (p_voices p) = Some i -> voice_at r n (vget i p) (sounds_of n acc);
  pi_begun : r_begun r = false -> acc = [] /\ forall n i, aget Z.eqb n (p_voices p) = Some i -> v_ups (vget i p) = [];
  pi_attrs : exists at_, p_steps p = map SAttr at_ /\ attrs_to ks_empty 0 at_ (KS r) (r_transp r);
  pi_tags : Forall (fun x => In (fst x) ns) acc;
  pi_names : p_names p = names;
  pi_alias : p_alias p = "";
  pi_last : r_begun r = false -> r_last r = None /\ r_for r = None;
  pi_fkeys : NoDup (map fst (r_free r)) /\ incl (map fst (r_free r)) ns }.

(* ---------------- one voice is changed ---------------- *)
Lemma put_ok : forall r acc p ns r' new n c v', PI r acc p ns -> aget Z.eqb n (p_voices p) = Some c ->
  r_div r' = r_div r -> r_fifths r' = r_fifths r -> r_transp r' = r_transp r -> r_from r' = r_from r -> r_begun r' = true ->
  r_from r <= r_now r' <= 40000 * M ->
  (forall w, r_for r = Some w -> w = n) ->
  (forall m, m <> n -> aget Z.eqb m (r_free r') = aget Z.eqb m (r_free r)) ->
  (forall f, aget Z.eqb n (r_free r') = Some f -> f <= 40000 * M) ->
  NoDup (map fst (r_free r')) /\ incl (map fst (r_free r')) ns ->
  Forall (fun x => fst x = n) new ->
  voice_at r' n v' (sounds_of n (acc ++ new)) -> cur_at r' n v' (sounds_of n (acc ++ new)) ->
  PI r' (acc ++ new) (put c v' (tq (r_now r')) (set_cur (Some c) p)) ns.
Proof.
  intros r acc p ns r' new n c v' H Hc E1 E2 E3 E4 E5 Hnow Hfor Hfree Hf Hkeys Hnew Hv Hcur.
  destruct H as [D1 D2 D3 D4 D5 D6 D7 D8 D9 D10 D11 D12 D13 D14 D15 D16 D17 D18 D19 D20].
  pose proof (D11 _ _ Hc) as Lc.
  assert (Vo : forall m i, aget Z.eqb m (p_voices p) = Some i -> m <> n -> vget i (put c v' (tq (r_now r')) (set_cur (Some c) p)) = vget i p).
  { intros m i Hm Hn. rewrite vget_put_other; [reflexivity|]. intros ->. apply Hn. eapply idx_inj; eassumption. }
  assert (Vc : vget c (put c v' (tq (r_now r')) (set_cur (Some c) p)) = v') by now apply vget_put.
  constructor; cbn [put set_cur p_div p_beats p_voices p_heap p_cur p_steps p_names p_alias]; rewrite ?E1, ?E2, ?E3, ?E4; try assumption; try reflexivity; try lia.
  - intros m f Hm. destruct (Z.eq_dec m n) as [-> |Hn]; [now apply Hf|]. rewrite Hfree in Hm by exact Hn. eapply D7; eassumption.
  - intros m i Hm. rewrite upd_nth_length. eapply D11; eassumption.
  - exists n, c. split; [reflexivity|]. split; [exact Hc|]. now rewrite Vc.
  - intros m i Hm. destruct (Z.eq_dec m n) as [-> |Hn].
    + assert (i = c) by congruence. subst i. now rewrite Vc.
    + rewrite (Vo m i Hm Hn). destruct (D13 m i Hm) as (O & t & P & [(F & _)|(F & B & Tf)]).
      * exfalso. apply Hn. now apply Hfor.
      * split; [exact O|]. exists t. rewrite E2, E3, sounds_app, (sounds_none m new), app_nil_r.
        2:{ eapply Forall_impl; [|exact Hnew]. cbn. intros x ->. congruence. }
        split; [exact P|]. right. rewrite (Hfree m Hn), E4.
        split; [|split; [exact B|exact Tf]].
        destruct Hcur as [Hcf _]. intros Ef. apply Hn. now apply Hcf.
  - congruence.
  - rewrite Forall_app. split; [exact D16|]. eapply Forall_impl; [|exact Hnew]. cbn. intros x ->. rewrite <- D8. eapply zaget_key; eassumption.
  - congruence.
Qed.

(* ---------------- switching voices ---------------- *)
Definition switched (r : reading) (v : Z) : reading :=
  R (r_div r) (r_fifths r) (r_transp r) true (r_from r) (r_now r) (r_free r) None false (Some v).
Lemma switch_ok : forall r acc p ns n c, PI r acc p ns -> aget Z.eqb n (p_voices p) = Some c -> free r n <= r_now r ->
  (forall w, r_for r = Some w -> n = w) ->
  exists us vb, let v' := ups us (tq vb) (vget c p) in
    let p' := put c v' (tq (r_now r)) (set_cur (Some c) p) in
    pad_to_present (set_cur (Some c) p) = ROk p' /\
    PI (switched r n) acc p' ns /\
    (play r (v_ups (vget c p)) 4 0 (v_oct (vget c p)) (r_now r) (sounds_of n acc) -> us = v_ups (vget c p)).
Proof.
  intros r acc p ns n c H Hc Hf Hw. pose proof H as [D1 D2 D3 D4 D5 D6 D7 D8 D9 D10 D11 D12 D13 D14 D15 D16 D17 D18 D19 D20].
  pose proof (D11 _ _ Hc) as Lc. destruct (D13 _ _ Hc) as (O & t & P & Q).
  assert (B : exists vb, v_beats (vget c p) = tq vb /\ (vb = t \/ t = r_now r /\ r_now r <= vb) /\ t <= r_now r).
  { destruct Q as [(_ & Et & _ & b & Eb & Lb)|(_ & Eb & Tf)].
    - exists b. split; [exact Eb|]. lia.
    - exists t. split; [exact Eb|]. split; [now left|]. unfold free in Hf. destruct (aget Z.eqb n (r_free r)); lia. }
  destruct B as (vb & Eb & Hvb & Ht).
  destruct (pad_ok M HM (KS r) (r_transp r) (set_cur (Some c) p) c t vb (r_now r) (sounds_of n acc)) as (us & vb' & E & Pu & Hvb' & _ & Hus); try assumption; try reflexivity.
  change (vget c (set_cur (Some c) p)) with (vget c p) in *. rewrite Z.max_r in Pu, Hvb' by exact Ht.
  exists us, vb'. cbv zeta. split; [exact E|]. split.
  - replace (PI (switched r n) acc) with (PI (switched r n) (acc ++ [])) by now rewrite app_nil_r.
    change (r_now r) with (r_now (switched r n)) at 1. eapply put_ok; try eassumption; try reflexivity; cbn [switched r_now r_from r_free]; try lia.
    + intros f. apply D7.
    + constructor.
    + rewrite app_nil_r. split; [exact O|]. exists (r_now r). split; [exact Pu|]. left. split; [reflexivity|]. split; [reflexivity|]. split; [exact Hf|].
      exists vb'. split; [reflexivity|]. cbn [switched r_now]. lia.
    + rewrite app_nil_r. split; [cbn; congruence|]. split; [|cbn; congruence]. intros _. exact Pu.
  - intros P'. apply Hus. rewrite (play_time M HM _ _ _ _ _ _ _ _ _ P' P). lia.
Qed.

(* ---------------- notes and rests ---------------- *)
Lemma plain_parts : forall e, plain_note e = true -> has_child "cue" e = false /\ has_child "grace" e = false /\
  (let ty := match find_child "type" e with Some t => attr_value "type" "full" t | None => "full" end in String.eqb ty "cue" = false /\ String.eqb ty "grace" = false) /\
  existsb (fun t => String.eqb (attr_value "type" "" t) "stop") (find_children "tie" e) = false.
Proof.
  intros e H. unfold plain_note in H. apply andb_prop in H. destruct H as [H H4]. apply andb_prop in H. destruct H as [H H3].
  apply andb_prop in H. destruct H as [H1 H2]. apply negb_true_iff in H1, H2. split; [exact H2|]. split; [exact H1|]. split.
  - destruct (find_child "type" e) as [t|]; [|split; reflexivity]. unfold attr_value in *. destruct (aget String.eqb "type" (attrs t)) as [s|]; [|split; reflexivity].
    apply String.eqb_eq in H3. subst s. split; reflexivity.
  - clear -H4. induction (find_children "tie" e) as [|t l IH]; [reflexivity|]. cbn [forallb existsb] in *. apply andb_prop in H4. destruct H4 as [A B].
    apply negb_true_iff in A. rewrite A. now apply IH.
Qed.

Lemma translate_pitch : forall e p c du pe s l x oct, plain_note e = true -> translate_duration other e p = ROk du -> p_cur p = Some c ->
  find_child "pitch" e = Some pe -> child_text "step" pe = ROk s -> step_letter s = ROk l -> child_text "octave" pe = ROk x -> parse_int 8 x = oct ->
  exists sl change, translate_note other e p = ROk (octave_updates (vget c p) oct ++ [UPrim (Note (PLetter l (note_accidentals e pe)) du sl)], oct, change).
Proof.
  intros e p c du pe s l x oct Hp Hd Hc Hpe Hs Hl Hx Ho. destruct (plain_parts e Hp) as (P1 & P2 & (P3 & P4) & _). unfold translate_note.
  rewrite P1, P2, P3, P4, Hd. cbn [orb rbind]. unfold cur_voice. rewrite Hc. cbn [rbind]. rewrite Hpe, Hs. cbn [rbind]. rewrite Hl. cbn [rbind]. rewrite Hx. cbn [rbind]. rewrite Ho.
  eexists _, _. reflexivity.
Qed.
Lemma translate_rest : forall e p c du, plain_note e = true -> translate_duration other e p = ROk du -> p_cur p = Some c ->
  find_child "pitch" e = None -> has_child "rest" e = true ->
  translate_note other e p = ROk ([UPrim (Rest du)], v_oct (vget c p), 0).
Proof.
  intros e p c du Hp Hd Hc Hpe Hr. destruct (plain_parts e Hp) as (P1 & P2 & (P3 & P4) & _). unfold translate_note.
  rewrite P1, P2, P3, P4, Hd. cbn [orb rbind]. unfold cur_voice. rewrite Hc. cbn [rbind]. rewrite Hpe, Hr. reflexivity.
Qed.

(** A note or rest is added to the current voice. *)
Lemma add_ok : forall p c K T us oct change t t' e e' , p_cur p = Some c -> (c < List.length (p_heap p))%nat ->
  ProofXmlPlay.play M K T (v_ups (vget c p)) 4 0 (v_oct (vget c p)) t e -> ProofXmlPlay.play M K T us (v_oct (vget c p)) t oct t' e' ->
  rbind (commit_note oct change p) (append_all us) =
    ROk (put c (Voice (v_ups (vget c p) ++ us) (tq t') oct (v_slurs (vget c p) + change) (v_sec (vget c p)) (v_end (vget c p))) (tq t') p).
Proof.
  intros p c K T us oct change t t' e e' Hc Lc H1 H2. rewrite (commit_ok _ _ _ c Hc). cbn [rbind].
  set (v1 := Voice _ _ _ _ _ _). set (p1 := put c v1 (p_beats p) p).
  assert (L1 : (c < List.length (p_heap p1))%nat) by (cbn; now rewrite upd_nth_length).
  assert (V1 : vget c p1 = v1) by now apply vget_put.
  rewrite (append_ok M HM K T us p1 c (v_oct (vget c p)) t e oct t' (e ++ e') Hc L1); [|rewrite V1; exact H1|rewrite V1; eapply play_app; eassumption].
  rewrite V1. unfold p1. rewrite put_put. reflexivity.
Qed.

Definition switch_part (c : elem) (p : xpart) : res xpart :=
  match find_child "voice" c with
  | None => ROk p
  | Some x => pad_to_present (set_cur (aget Z.eqb (parse_int 8 (text x)) (p_voices p)) p)
  end.
Lemma voice_switch : forall e v (p : xpart), voice_of e = Some v -> switch_part e p = pad_to_present (set_cur (aget Z.eqb v (p_voices p)) p).
Proof.
  intros e v p H. unfold voice_of, child_number in H. ob H c E. unfold switch_part. rewrite E.
  now rewrite (parse_number 8 1 127 (text c) v ltac:(lia) ltac:(lia) ltac:(lia) H).
Qed.

Lemma note_ok : forall r acc p ns e r' new v, PI r acc p ns -> read_note M e r = Some (r', new) -> voice_of e = Some v -> In v ns ->
  exists p', rbind (switch_part e p) (note_handler other e) = ROk p' /\ PI r' (acc ++ new) p' ns.
Proof.
  intros r acc p ns e r' new v H Hr Ev Hv. pose proof H as [D1 D2 D3 D4 D5 D6 D7 D8 D9 D10 D11 D12 D13 D14 D15 D16 D17 D18 D19 D20].
  unfold read_note in Hr. on Hr Hp. rewrite Ev in Hr. cbn [obind] in Hr. ob Hr t Et. ob Hr key Ek.
  destruct (plain_parts e Hp) as (_ & _ & _ & Hstop).
  rewrite <- D8 in Hv. destruct (key_zaget _ _ _ Hv) as [c Hc]. pose proof (D11 _ _ Hc) as Lc.
  rewrite (voice_switch e v p Ev), Hc. destruct D2 as [D2 D2'].
  assert (Hlen : forall p1 : xpart, p_div p1 = p_div p -> exists du, translate_duration other e p1 = ROk du /\ len du t).
  { intros p1 E1. eapply (ticks_ok M HM other r e t p1); try assumption. congruence. }
  destruct (has_child "chord" e) eqn:Ech.
  - (* a further note of a chord *)
    ob Hr lst El. destruct lst as [[v' on] t']. ob Hr k Ekk. on Hr C. apply andb_prop in C. destruct C as [C1 C2].
    apply Z.eqb_eq in C1, C2. subst v' t'. assert (r' = r /\ new = [(v, Sound k on t)]) as [-> ->] by (split; congruence). clear Hr.
    destruct D12 as (n & c' & Hc' & Hn & Cf & Cm & Cl). destruct (Cl _ _ _ El) as (<- & Nf & Nm & Nb & Eon & Hend).
    assert (c' = c) by congruence. subst c'.
    assert (Pv : play r (v_ups (vget c p)) 4 0 (v_oct (vget c p)) (r_now r) (sounds_of v acc)) by now apply Cm.
    destruct (D13 _ _ Hc) as (O & t0 & P0 & [(F0 & _)|(F0 & B0 & T0)]); [congruence|].
    assert (t0 = r_now r) by (exact (play_time M HM _ _ _ _ _ _ _ _ _ P0 Pv)). subst t0.
    destruct (switch_ok r acc p ns v c H Hc) as (us & vb & E & HPI & Hus).
    { unfold free. destruct (aget Z.eqb v (r_free r)); lia. }
    { intros w Ew. congruence. }
    rewrite E. cbn [rbind]. specialize (Hus Pv). subst us.
    set (v1 := ups (v_ups (vget c p)) (tq vb) (vget c p)) in *. set (p1 := put c v1 (tq (r_now r)) (set_cur (Some c) p)) in *.
    assert (V1 : vget c p1 = v1) by (apply vget_put; exact Lc).
    assert (L1 : (c < List.length (p_heap p1))%nat) by (cbn; now rewrite upd_nth_length).
    destruct (Hlen p1 eq_refl) as (du & Edu & Ldu).
    destruct (find_child "pitch" e) as [pe|] eqn:Epe; [|on Ek Hx; congruence]. ob Ek k0 Ek0. assert (k0 = k) by congruence. subst k0.
    destruct (key_ok r e pe k D3 Ek0) as (l & o & s & x & K1 & K2 & K3 & K4 & K5 & K6).
    destruct (translate_pitch e p1 c du pe s l x o Hp Edu eq_refl Epe K1 K2 K3 K4) as (sl & change & Etr).
    unfold note_handler. rewrite Etr. cbn [rbind]. rewrite rev_app_distr. cbn [rev app]. rewrite Hstop, Ech.
    destruct (chord_ok M HM (KS r) (r_transp r) p1 c on t (sounds_of v acc) (octave_updates (vget c p1) o ++ [UPrim (Note (PLetter l (note_accidentals e pe)) du sl)]) o k change l (note_accidentals e pe) du sl eq_refl L1) as (v2 & E2 & O2 & B2 & F2); try reflexivity; try assumption.
    { rewrite V1. destruct Hend as (us0 & y & o1 & e1 & e2 & A1 & A2 & A3 & A4 & A5 & A6). exists us0, y, o1, e1, e2. repeat apply conj; try assumption; lia. }
    { rewrite V1. exact O. }
    rewrite E2. eexists. split; [reflexivity|]. unfold p1. rewrite put_put. rewrite Eon in *.
    assert (Pn : play r (v_ups v2) 4 0 (v_oct v2) (r_now r) (sounds_of v acc ++ [Sound k on t])).
    { destruct F2 as (us0 & y & o1 & e1 & e2 & A1 & A2 & A3 & A4 & A5 & A6). rewrite A1, A4, <- Eon. eapply play_app; [exact A2|]. now apply play_one. }
    refine (put_ok r acc p ns r [(v, Sound k on t)] v c v2 H Hc eq_refl eq_refl eq_refl eq_refl Nb _ _ _ _ D20 _ _ _).
    + lia.
    + intros w Ew. congruence.
    + reflexivity.
    + intros f. apply D7.
    + apply Forall_cons; [reflexivity|constructor].
    + rewrite sounds_app, sounds_same. split; [rewrite O2; exact K5|]. exists (r_now r). split; [exact Pn|]. right. split; [exact F0|]. split; [exact B2|exact T0].
    + rewrite sounds_app, sounds_same. split; [intros w Ew; congruence|]. split; [intros _; exact Pn|].
      intros v3 on3 t3 E3. assert (v3 = v /\ on3 = on /\ t3 = t) as (-> & -> & ->) by (repeat split; congruence).
      repeat apply conj; try assumption; reflexivity.
  - (* a note or rest *)
    cbv zeta in Hr. on Hr C. apply andb_prop in C. destruct C as [C C3]. apply andb_prop in C. destruct C as [C1 C2]. apply Z.leb_le in C1, C2.
    assert (Hfor : forall w, r_for r = Some w -> v = w).
    { intros w Ew. rewrite Ew in C3. now apply Z.eqb_eq in C3. }
    destruct (switch_ok r acc p ns v c H Hc C1 Hfor) as (us & vb & E & HPI & _).
    rewrite E. cbn [rbind]. set (v1 := ups us (tq vb) (vget c p)) in *. set (p1 := put c v1 (tq (r_now r)) (set_cur (Some c) p)) in *.
    assert (V1 : vget c p1 = v1) by (apply vget_put; exact Lc).
    assert (L1 : (c < List.length (p_heap p1))%nat) by (cbn; now rewrite upd_nth_length).
    destruct (Hlen p1 eq_refl) as (du & Edu & Ldu).
    pose proof HPI as [_ _ _ _ _ _ _ _ _ _ _ (n1 & c1 & Q1 & Q2 & Q3 & Q4 & _) Q5 _ _ _ _ _ _].
    assert (c1 = c) by (cbn in Q1; congruence). subst c1. assert (n1 = v) by (eapply idx_inj; eassumption). subst n1.
    specialize (Q4 eq_refl). rewrite V1 in Q4. cbn [switched r_fifths r_transp r_now] in Q4.
    destruct (Q5 _ _ Q2) as (O & _). rewrite V1 in O.
    assert (Fin : forall us' oct change e' l', 0 <= oct <= 9 -> play r us' (v_oct v1) (r_now r) oct (r_now r + t) e' ->
      new = map (pair v) e' ->
      r' = R (r_div r) (r_fifths r) (r_transp r) true (r_from r) (r_now r + t) (aset Z.eqb v (r_now r + t) (r_free r)) l' false None ->
      (forall v', v_ups v' = v_ups v1 ++ us' -> v_oct v' = oct -> forall a b d, l' = Some (a, b, d) -> a = v /\ b + d = r_now r + t /\
         ends_with M (KS r) (r_transp r) b d v' (sounds_of v acc ++ e')) ->
      exists p', rbind (commit_note oct change p1) (append_all us') = ROk p' /\ PI r' (acc ++ new) p' ns).
    { intros us' oct change e' l' Ho Hpl Hnew -> Hl.
      rewrite (add_ok p1 c (KS r) (r_transp r) us' oct change (r_now r) (r_now r + t) (sounds_of v acc) e' eq_refl L1); [|rewrite V1; exact Q4|rewrite V1; exact Hpl].
      eexists. split; [reflexivity|]. rewrite V1. unfold p1. rewrite put_put. set (v2 := Voice _ _ _ _ _ _).
      assert (Es : sounds_of v (acc ++ new) = sounds_of v acc ++ e').
      { rewrite sounds_app, Hnew. f_equal. clear. unfold sounds_of. induction e' as [|x l IH]; [reflexivity|]. cbn. rewrite Z.eqb_refl. cbn. now f_equal. }
      assert (Pn : play r (v_ups v2) 4 0 (v_oct v2) (r_now r + t) (sounds_of v acc ++ e')).
      { unfold v2. cbn [v_ups v_oct]. eapply play_app; [exact Q4|exact Hpl]. }
      set (r' := R _ _ _ _ _ _ _ _ _ _). change (r_now r + t) with (r_now r'). 
      assert (1 <= t) by (destruct Ldu as (_ & _ & _ & ?); lia).
      refine (put_ok r acc p ns r' new v c v2 H Hc eq_refl eq_refl eq_refl eq_refl eq_refl _ _ _ _ _ _ _ _).
      - unfold r'. cbn [r_now]. lia.
      - intros w Ew. symmetry. now apply Hfor.
      - intros m Hm. unfold r'. cbn [r_free]. apply aget_aset_other; [apply Z.eqb_eq|congruence].
      - intros f. unfold r'. cbn [r_free]. rewrite aget_aset_same by apply Z.eqb_refl. intros Ef. assert (f = r_now r + t) by congruence. lia.
      - unfold r'. cbn [r_free]. destruct D20 as [N1 N2]. split; [now apply aset_nodup|]. intros m Hm. apply aset_keys in Hm. destruct Hm as [-> |Hm]; [now rewrite <- D8|now apply N2].
      - rewrite Hnew. clear. induction e'; constructor; [reflexivity|assumption].
      - rewrite Es. split; [exact Ho|]. exists (r_now r + t). split; [exact Pn|]. right. split; [unfold r'; cbn; congruence|]. split; [reflexivity|].
        unfold r'. cbn [r_free]. rewrite aget_aset_same by apply Z.eqb_refl. reflexivity.
      - rewrite Es. split; [unfold r'; cbn; congruence|]. split; [intros _; exact Pn|]. intros a b d El. cbn [r' r_last] in El. unfold r' in El. cbn [r_last] in El.
        destruct (Hl v2 eq_refl eq_refl a b d El) as (-> & Eb & He). repeat apply conj; try reflexivity; try assumption. }
    destruct (find_child "pitch" e) as [pe|] eqn:Epe.
    + ob Ek k Ek0. assert (key = Some k) by congruence. subst key.
      destruct (key_ok r e pe k D3 Ek0) as (l & o & s & x & K1 & K2 & K3 & K4 & K5 & K6).
      destruct (translate_pitch e p1 c du pe s l x o Hp Edu eq_refl Epe K1 K2 K3 K4) as (sl & change & Etr).
      unfold note_handler. rewrite Etr. cbn [rbind]. rewrite rev_app_distr. cbn [rev app]. rewrite Hstop, Ech, V1.
      assert (Po : play r (octave_updates v1 o) (v_oct v1) (r_now r) o (r_now r) []) by (apply play_octave; assumption).
      assert (Pk : ProofXmlPlay.play1 M (KS r) (r_transp r) (UPrim (Note (PLetter l (note_accidentals e pe)) du sl)) o (r_now r) o (r_now r + t) [Sound k (r_now r) t]) by (constructor; assumption).
      eapply (Fin _ o change [Sound k (r_now r) t] (Some (v, r_now r, t))); [exact K5| |cbn [map]; congruence|congruence|].
      * change [Sound k (r_now r) t] with ([] ++ [Sound k (r_now r) t]). eapply play_app; [exact Po|]. apply play_one. exact Pk.
      * intros v' E1 E2 a b d Eq. assert (a = v /\ b = r_now r /\ d = t) as (-> & -> & ->) by (repeat split; congruence).
        split; [reflexivity|]. split; [reflexivity|].
        exists (v_ups v1 ++ octave_updates v1 o), (UPrim (Note (PLetter l (note_accidentals e pe)) du sl)), o, (sounds_of v acc), [Sound k (r_now r) t].
        split; [now rewrite E1, app_assoc|]. split; [rewrite <- (app_nil_r (sounds_of v acc)); eapply play_app; [exact Q4|exact Po]|].
        split; [rewrite E2; exact Pk|]. split; [reflexivity|]. split; [apply Ldu|exact Ldu].
    + on Ek Hx. assert (key = None) by congruence. subst key.
      unfold note_handler. rewrite (translate_rest e p1 c du Hp Edu eq_refl Epe Hx). cbn [rbind rev app]. rewrite Ech, V1.
      eapply (Fin _ (v_oct v1) 0 [] None); [exact O| |cbn [map]; congruence|congruence|congruence].
      apply play_one. constructor. exact Ldu.
Qed.

(* ---------------- backup and forward ---------------- *)
Lemma voice_keep : forall r r' n v l, r_fifths r' = r_fifths r -> r_transp r' = r_transp r -> r_from r' = r_from r -> r_free r' = r_free r ->
  r_for r' = r_for r -> (forall w, r_for r = Some w -> r_now r' = r_now r) -> voice_at r n v l -> voice_at r' n v l.
Proof.
  intros r r' n v l E1 E2 E3 E4 E5 E6 (O & t & P & Q). split; [exact O|]. exists t. unfold free in *. rewrite E1, E2, E3, E4, E5. split; [exact P|].
  destruct Q as [(F & Q)|Q]; [left|right; exact Q]. rewrite (E6 _ F). now split.
Qed.

Lemma beats_len : forall d t, len d t -> beats_of d = tq t.
Proof. intros d t (_ & _ & H & _). unfold beats_of. now rewrite H. Qed.

Lemma move_to : forall r acc p ns now, PI r acc p ns -> r_for r = None -> r_from r <= now <= 40000 * M ->
  PI (R (r_div r) (r_fifths r) (r_transp r) true (r_from r) now (r_free r) None true None) acc (set_beats (tq now) p) ns.
Proof.
  intros r acc p ns now [D1 D2 D3 D4 D5 D6 D7 D8 D9 D10 D11 D12 D13 D14 D15 D16 D17 D18 D19 D20] Hf Hn.
  constructor; cbn [set_beats p_div p_beats p_voices p_heap p_cur p_steps p_names p_alias r_div r_fifths r_transp r_begun r_from r_now r_free r_last r_moved r_for];
    try assumption; try reflexivity; try lia; try discriminate.
  - destruct D12 as (n & c & Hc & Hv & _). exists n, c. split; [exact Hc|]. split; [exact Hv|]. split; [discriminate|]. split; discriminate.
  - intros n i Hi. eapply voice_keep; [| | | | | |exact (D13 n i Hi)]; try reflexivity; [now rewrite Hf|rewrite Hf; discriminate].
Qed.

Lemma no_switch : forall e (p : xpart), has_child "voice" e = false -> switch_part e p = ROk p.
Proof. intros e p H. unfold has_child in H. unfold switch_part. now destruct (find_child "voice" e). Qed.

Lemma move_ok : forall dir r acc p ns e r', dir = 1 \/ dir = -1 -> PI r acc p ns -> read_move M dir e r = Some r' ->
  exists p', rbind (switch_part e p) (if dir =? 1 then forward_handler other e else backup_handler other e) = ROk p' /\ PI r' acc p' ns.
Proof.
  intros dir r acc p ns e r' Hdir H Hr. unfold read_move in Hr. ob Hr t Et. cbv zeta in Hr. on Hr C.
  apply andb_prop in C. destruct C as [C C5]. apply andb_prop in C. destruct C as [C C4]. apply andb_prop in C. destruct C as [C C3].
  apply andb_prop in C. destruct C as [_ C2]. apply negb_true_iff in C2. apply Z.leb_le in C3, C4.
  assert (Ef : r_for r = None) by now destruct (r_for r).
  rewrite (no_switch _ _ C2). cbn [rbind].
  pose proof H as [D1 [D2 D2'] _ D4 _ _ _ _ _ _ _ _ _ _ _ _ _ _ _].
  destruct (ticks_ok M HM other r e t p D2 D2' D1 Et) as (du & Edu & Ldu).
  exists (set_beats (tq (r_now r + dir * t)) p). split.
  - destruct Hdir as [-> | ->]; cbn [Z.eqb Pos.eqb]; unfold forward_handler, backup_handler; rewrite Edu; cbn [rmap rbind]; rewrite D4, (beats_len _ _ Ldu), (tq_0 M), (tq_add M HM).
    + rewrite (tq_add M HM). now replace (r_now r + 1 * t) with (r_now r + (0 + t)) by lia.
    + rewrite (tq_sub M HM). now replace (r_now r + -1 * t) with (r_now r - (0 + t)) by lia.
  - assert (r' = R (r_div r) (r_fifths r) (r_transp r) true (r_from r) (r_now r + dir * t) (r_free r) None true None) as -> by congruence.
    apply move_to; try assumption. lia.
Qed.

(* ---------------- other elements ---------------- *)
Lemma divisions_to : forall r acc p ns d, PI r acc p ns -> 1 <= d <= 24 -> (d | M) ->
  PI (R d (r_fifths r) (r_transp r) (r_begun r) (r_from r) (r_now r) (r_free r) (r_last r) (r_moved r) (r_for r)) acc (set_div d p) ns.
Proof.
  intros r acc p ns d [D1 D2 D3 D4 D5 D6 D7 D8 D9 D10 D11 D12 D13 D14 D15 D16 D17 D18 D19 D20] Hd Hm.
  constructor; cbn [set_div p_div p_beats p_voices p_heap p_cur p_steps p_names p_alias r_div r_fifths r_transp r_begun r_from r_now r_free r_last r_moved r_for];
    try assumption; try reflexivity; try (now split).
Qed.

Lemma attrs_snoc : forall l K T K' T' u K2 T2, attrs_to K T l K' T' -> attrs_to K' T' [u] K2 T2 -> attrs_to K T (l ++ [u]) K2 T2.
Proof. intros l K T K' T' u K2 T2 H1 H2. induction H1; cbn [app]; [exact H2| |]; constructor; auto. Qed.

Lemma collapse_none : forall r acc p ns, PI r acc p ns -> r_begun r = false -> collapse true p = ROk p.
Proof.
  intros r acc p ns H Hb. pose proof H as [_ _ _ _ _ _ _ D8 D9 _ _ (n & c & Hc & Hn & _) _ D14 _ _ _ _ _]. destruct (D14 Hb) as [_ Em].
  unfold collapse. destruct (p_voices p) as [|[m i] [|y l]] eqn:Ep.
  - discriminate.
  - unfold cur_voice. rewrite Hc. cbn [rbind]. now rewrite (Em n c Hn).
  - rewrite <- Ep in *.
    assert (G : forall q, In q (map (fun '(n, i) => (n, v_ups (vget i p))) (sort_by voice_before (p_voices p))) -> effectively_empty (snd q) = true).
    { intros q Hq. apply in_map_iff in Hq. destruct Hq as ([k j] & <- & Hk). cbn [snd].
      assert (Hin : In (k, j) (p_voices p)).
      { revert Hk. generalize (p_voices p). clear. induction l as [|x l IH]; [easy|]. cbn [sort_by fold_right]. intros H.
        assert (I : forall y l, In (k, j) (insert_by voice_before y l) -> (k, j) = y \/ In (k, j) l).
        { intros y. induction l0 as [|z l0 IH0]; cbn [insert_by]; intros H0.
          - destruct H0; [left; congruence|contradiction].
          - destruct (voice_before y z).
            + destruct H0 as [H0|H0]; [left; congruence|now right].
            + destruct H0 as [H0|H0]; [right; now left|]. destruct (IH0 H0); [now left|right; now right]. }
        destruct (I _ _ H) as [-> |H0]; [now left|right; now apply IH]. }
      rewrite (Em k j); [reflexivity|]. apply in_zaget; [|exact Hin]. rewrite D8. exact D9. }
    replace (forallb _ _) with true; [reflexivity|]. symmetry. apply forallb_forall. exact G.
Qed.

Lemma attr_to : forall r acc p ns u r', PI r acc p ns -> r_begun r = false ->
  attrs_to (KS r) (r_transp r) [u] (KS r') (r_transp r') -> -7 <= r_fifths r' <= 7 ->
  r' = R (r_div r) (r_fifths r') (r_transp r') false (r_from r) (r_now r) (r_free r) None (r_moved r) (r_for r) ->
  exists p', append_part_attr u p = ROk p' /\ PI r' acc p' ns.
Proof.
  intros r acc p ns u r' H Hb Hu Hf Er. unfold append_part_attr. rewrite (collapse_none r acc p ns H Hb). cbn [rmap rbind].
  eexists. split; [reflexivity|]. destruct H as [D1 D2 D3 D4 D5 D6 D7 D8 D9 D10 D11 D12 D13 D14 D15 D16 D17 D18 D19 D20].
  destruct (D14 Hb) as [-> Em]. destruct (D19 Hb) as [_ Nf].
  assert (Hp : forall n i t, aget Z.eqb n (p_voices p) = Some i -> play r (v_ups (vget i p)) 4 0 (v_oct (vget i p)) t [] ->
    play r' (v_ups (vget i p)) 4 0 (v_oct (vget i p)) t []).
  { intros n i t Hi Hq. rewrite (Em n i Hi) in *. inversion Hq; subst. constructor. }
  rewrite Er in *. clear Er. cbn [r_div r_fifths r_transp r_begun r_from r_now r_free r_last r_moved r_for] in *.
  constructor; cbn [set_steps p_div p_beats p_voices p_heap p_cur p_steps p_names p_alias r_div r_fifths r_transp r_begun r_from r_now r_free r_last r_moved r_for];
    try assumption; try reflexivity.
  - destruct D12 as (n & c & Hc & Hn & C1 & C2 & _). exists n, c. split; [exact Hc|]. split; [exact Hn|]. split; [exact C1|].
    split; [|discriminate]. intros Hm. eapply Hp; [exact Hn|]. now apply C2.
  - intros n i Hi. destruct (D13 n i Hi) as (O & t & P & Q). split; [exact O|]. exists t. split; [eapply Hp; eassumption|exact Q].
  - intros _. split; [reflexivity|exact Em].
  - destruct D15 as (at0 & E & A). exists (at0 ++ [u]). split; [rewrite E, map_app; reflexivity|]. eapply attrs_snoc; eassumption.
  - intros _. now split.
Qed.

Definition calm (r : reading) : reading :=
  R (r_div r) (r_fifths r) (r_transp r) true (r_from r) (r_now r) (r_free r) None false (r_for r).
Lemma calm_ok : forall r acc p ns, PI r acc p ns -> r_moved r = false -> PI (calm r) acc p ns.
Proof.
  intros r acc p ns [D1 D2 D3 D4 D5 D6 D7 D8 D9 D10 D11 D12 D13 D14 D15 D16 D17 D18 D19 D20] Hm.
  constructor; cbn [calm r_div r_fifths r_transp r_begun r_from r_now r_free r_last r_moved r_for]; try assumption; try discriminate.
  destruct D12 as (n & c & Hc & Hn & C1 & C2 & _). exists n, c. split; [exact Hc|]. split; [exact Hn|]. split; [exact C1|]. split; [|discriminate].
  intros _. exact (C2 Hm).
Qed.
Lemma dyn_ok : forall r acc p ns m, PI (calm r) acc p ns -> exists p', append_all [UPrim (Attr (PDynamic m))] p = ROk p' /\ PI (calm r) acc p' ns.
Proof.
  intros r acc p ns m H. pose proof H as [D1 D2 D3 D4 D5 D6 D7 D8 D9 D10 D11 (n & c & Hc & Hn & C1 & C2 & C3) D13 D14 D15 D16 D17 D18 D19 D20].
  pose proof (D11 _ _ Hn) as Lc. specialize (C2 eq_refl). destruct (D13 _ _ Hn) as (O & t & P & Q).
  assert (t = r_now (calm r)) by exact (play_time M HM _ _ _ _ _ _ _ _ _ P C2). subst t.
  assert (Pn : play (calm r) (v_ups (vget c p) ++ [UPrim (Attr (PDynamic m))]) 4 0 (v_oct (vget c p)) (r_now (calm r)) (sounds_of n acc)).
  { rewrite <- (app_nil_r (sounds_of n acc)). eapply play_app; [exact C2|]. apply play_one. constructor. constructor. }
  rewrite (append_ok M HM _ _ _ p c _ _ _ _ _ _ Hc Lc C2 Pn). eexists. split; [reflexivity|].
  assert (Ep : forall v b, put c v b p = put c v b (set_cur (Some c) p)) by (intros; unfold put; cbn; now rewrite Hc).
  rewrite Ep, <- (app_nil_r acc).
  refine (put_ok (calm r) acc p ns (calm r) [] n c _ H Hn eq_refl eq_refl eq_refl eq_refl eq_refl _ _ _ _ D20 _ _ _).
  - lia.
  - exact C1.
  - reflexivity.
  - intros f. apply D7.
  - constructor.
  - rewrite app_nil_r. split; [exact O|]. exists (r_now (calm r)). split; [exact Pn|].
    destruct Q as [(F & _ & Fr & _)|(F & _ & Q)].
    + left. repeat apply conj; try assumption; try reflexivity. exists (r_now (calm r)). split; [reflexivity|lia].
    + right. repeat apply conj; try assumption; try reflexivity.
  - rewrite app_nil_r. split; [exact C1|]. split; [intros _; exact Pn|discriminate].
Qed.
Lemma dynamics_ok : forall r acc p ns e, PI r acc p ns -> r_moved r = false -> exists p', dynamics_handler e p = ROk p' /\ PI (calm r) acc p' ns.
Proof.
  intros r acc p ns e H Hm. pose proof (calm_ok r acc p ns H Hm) as H1. clear H. unfold dynamics_handler. revert p H1.
  induction (children e) as [|m l IH]; intros p H; cbn [rfold].
  - eexists. now split.
  - destruct (existsb _ _).
    + destruct (dyn_ok r acc p ns (tag m) H) as (p1 & E1 & H1). rewrite E1. cbn [rbind]. now apply IH.
    + cbn [rbind]. now apply IH.
Qed.
Lemma plain_barline : forall r acc p ns e, PI r acc p ns -> has_child "ending" e = false -> has_child "repeat" e = false -> barline_handler e p = ROk p.
Proof.
  intros r acc p ns e H H1 H2. pose proof H as [_ _ _ _ _ _ _ _ _ _ _ (n & c & Hc & Hn & _) D13 _ _ _ _ _ _].
  destruct (D13 _ _ Hn) as (_ & t & P & _).
  unfold barline_handler, cur_voice. rewrite Hc. cbn [rbind]. rewrite (import_ok _ _ _ _ _ _ _ P). cbn [rbind].
  unfold has_child in *. destruct (find_child "ending" e); [discriminate|]. now destruct (find_child "repeat" e).
Qed.
End Part.
