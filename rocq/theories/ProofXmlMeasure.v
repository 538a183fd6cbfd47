(** The end of measures, and whole parts, in the MusicXML importer (C57). *)
From Coq Require Import ZArith QArith Qcanon Ascii String List Bool Lia Arith Permutation.
From Verif Require Import Base Num ModelPitch ModelDuration ModelInstruments ModelTypes ModelLisp ModelScore
  ModelImporter ModelMusicXml SpecImporter SpecMusicXml ProofHeap ProofPitch SpecXmlScore ProofXmlDur ProofXmlPlay ProofXmlExec ProofXmlParts
  ProofXmlRead ProofXmlVoice ProofXmlPart ProofXmlWalk.
Import ListNotations.
Local Open Scope string_scope.
Local Open Scope list_scope.
Local Open Scope Z_scope.

Section Measure.
Variable M : Z.
Hypothesis HM : 1 <= M <= 24.
Variable other : string -> @num XQ.
Variable part_order : nat -> list string -> list string.
Variable voice_order : nat -> list Z -> list Z.
Hypothesis voice_perm : forall k l, Permutation l (voice_order k l).
Variable names : list string.
Notation tq := (tq M).
Notation xpart := (@xpart XQ).
Notation voice := (@voice XQ).
Notation importer := (@importer XQ).
Notation KS r := (ks_from_circle (r_fifths r)).
Notation play r := (play M (KS r) (r_transp r)).
Notation PI := (PI M names).
Notation handle := (@handle XQ GXQ other part_order voice_order).

Definition visit (bar : bool) (p : xpart) (n : Z) : res xpart :=
  match aget Z.eqb n (p_voices p) with
  | None => ROk p
  | Some i => rbind (pad_to_present (set_cur (Some i) p)) (fun p1 => if bar then add_barline p1 else ROk p1)
  end.
Lemma after_eq : forall bar i p im, here i im ->
  after_measure voice_order bar (pset i p im) =
  rmap (fun p' => pset i p' (tick im)) (rfold (visit bar) (voice_order (i_clock im) (map fst (p_voices p))) p).
Proof.
  intros bar i p im H. unfold after_measure. rewrite (on_part_ok _ _ _ _ H). change (i_clock (pset i p im)) with (i_clock im).
  change (fun p n => match aget Z.eqb n (p_voices p) with None => ROk p | Some i => rbind (pad_to_present (set_cur (Some i) p)) (fun p1 => if bar then add_barline p1 else ROk p1) end)
    with (visit bar).
  destruct (rfold (visit bar) _ p); reflexivity.
Qed.

(** What does not change. *)
Definition same_frame (p q : xpart) : Prop :=
  p_div q = p_div p /\ p_steps q = p_steps p /\ List.length (p_heap q) = List.length (p_heap p) /\ p_voices q = p_voices p /\ p_names q = p_names p /\ p_alias q = p_alias p.

Section End_.
Variable r : reading.
Variable acc : list (Z * sound).
Variable p0 : xpart.
Variable E : Z.
Hypothesis Hnow : 0 <= r_now r <= E.
Hypothesis HE : E <= 40000 * M.
Hypothesis Hidx : NoDup (map snd (p_voices p0)).
Hypothesis Hheap : forall n i, aget Z.eqb n (p_voices p0) = Some i -> (i < List.length (p_heap p0))%nat.

(** A voice at the end of a measure: its time is at most [E]. *)
Definition vok (n : Z) (v : voice) (t : Z) : Prop :=
  0 <= v_oct v <= 9 /\ play r (v_ups v) 4 0 (v_oct v) t (sounds_of n acc) /\ t <= E /\
  (v_beats v = tq t \/ t = r_now r /\ E = r_now r /\ exists vb, v_beats v = tq vb /\ r_now r <= vb).

Record bars (p : xpart) (b : Z) (seen : list Z) : Prop := {
  w_frame : same_frame p0 p;
  w_beats : p_beats p = tq b;
  w_b : r_now r <= b <= E;
  w_voice : forall n i, aget Z.eqb n (p_voices p0) = Some i -> exists t, vok n (vget i p) t /\ (In n seen -> t <= b /\ v_beats (vget i p) = tq t);
  w_cur : seen <> [] -> exists n c, p_cur p = Some c /\ aget Z.eqb n (p_voices p0) = Some c /\ vok n (vget c p) b;
  w_end : b = E \/ exists n i, aget Z.eqb n (p_voices p0) = Some i /\ vok n (vget i p) E }.

Lemma vok_time : forall n v t t', vok n v t -> vok n v t' -> t = t'.
Proof. intros n v t t' (_ & H1 & _) (_ & H2 & _). exact (play_time M HM _ _ _ _ _ _ _ _ _ H1 H2). Qed.

Lemma visit_bar : forall p b seen n, bars p b seen -> exists p' b', visit true p n = ROk p' /\ bars p' b' (if match aget Z.eqb n (p_voices p0) with Some _ => true | None => false end then n :: seen else seen).
Proof.
  intros p b seen n [(F1 & F2 & F3 & F4 & F5 & F6) Wb Wr Wv Wc We]. unfold visit. rewrite F4.
  destruct (aget Z.eqb n (p_voices p0)) as [c|] eqn:Ec; [|exists p, b; split; [reflexivity|constructor; try assumption; repeat split; assumption]].
  destruct (Wv _ _ Ec) as (t & (O & P & Lt & B) & _).
  assert (Lc : (c < List.length (p_heap p))%nat) by (rewrite F3; eapply Hheap; eassumption).
  assert (exists vb, v_beats (vget c p) = tq vb /\ (vb = t \/ t = b /\ b <= vb)) as (vb & Eb & Hvb).
  { destruct B as [B|(B1 & B2 & vb & B3 & B4)]; [exists t; split; [exact B|now left]|]. exists vb. split; [exact B3|]. right. lia. }
  destruct (pad_ok M HM (KS r) (r_transp r) (set_cur (Some c) p) c t vb b (sounds_of n acc)) as (us & vb' & Ep & Pu & _); try assumption; try reflexivity; [lia|].
  change (vget c (set_cur (Some c) p)) with (vget c p) in *. rewrite Ep. cbn [rbind].
  set (v1 := ups us (tq vb') (vget c p)) in *. set (p1 := put c v1 (tq b) (set_cur (Some c) p)) in *.
  assert (V1 : vget c p1 = v1) by (apply vget_put; exact Lc).
  assert (L1 : (c < List.length (p_heap p1))%nat) by (cbn; now rewrite upd_nth_length).
  destruct (barline_ok M HM (KS r) (r_transp r) p1 c (Z.max t b) (sounds_of n acc)) as (us2 & Eb2 & Pb & _); [reflexivity|exact L1|rewrite V1; exact Pu|].
  rewrite Eb2, V1. rewrite V1 in Pb. unfold p1 at 1. rewrite put_put.
  set (v2 := ups us2 (tq (Z.max t b)) v1). set (p2 := put c v2 (tq (Z.max t b)) (set_cur (Some c) p)).
  exists p2, (Z.max t b). split; [reflexivity|].
  assert (V2 : vget c p2 = v2) by (apply vget_put; exact Lc).
  assert (Vo : forall m i, aget Z.eqb m (p_voices p0) = Some i -> m <> n -> vget i p2 = vget i p).
  { intros m i Hm Hn. unfold p2. rewrite vget_put_other; [reflexivity|]. intros ->. apply Hn. eapply idx_inj; eassumption. }
  assert (K2 : vok n v2 (Z.max t b)) by (repeat apply conj; try apply O; try exact Pb; [lia|now left]).
  constructor.
  - repeat split; try assumption. cbn. now rewrite upd_nth_length.
  - reflexivity.
  - lia.
  - intros m i Hm. destruct (Z.eq_dec m n) as [-> |Hn].
    + assert (i = c) by congruence. subst i. rewrite V2. exists (Z.max t b). split; [exact K2|]. intros _. split; [lia|reflexivity].
    + rewrite (Vo m i Hm Hn). destruct (Wv m i Hm) as (t' & T1 & T2). exists t'. split; [exact T1|]. intros [Hs|Hs]; [congruence|].
      destruct (T2 Hs). split; [lia|assumption].
  - intros _. exists n, c. split; [reflexivity|]. split; [exact Ec|]. now rewrite V2.
  - destruct We as [-> |(m & i & Hm & Km)]; [left; lia|]. destruct (Z.eq_dec m n) as [-> |Hn].
    + left. assert (i = c) by congruence. subst i. assert (t = E) by (eapply vok_time; [|exact Km]; repeat apply conj; try apply O; assumption). lia.
    + right. exists m, i. split; [exact Hm|]. now rewrite (Vo m i Hm Hn).
Qed.
Lemma bars_walk : forall l p b seen, bars p b seen -> exists p' b' seen', rfold (visit true) l p = ROk p' /\ bars p' b' seen' /\
  incl seen seen' /\ forall n, In n l -> In n (map fst (p_voices p0)) -> In n seen'.
Proof.
  induction l as [|n l IH]; intros p b seen H; cbn [rfold].
  - exists p, b, seen. split; [reflexivity|]. split; [exact H|]. split; [apply incl_refl|easy].
  - destruct (visit_bar p b seen n H) as (p1 & b1 & E1 & H1). rewrite E1. cbn [rbind].
    destruct (IH _ _ _ H1) as (p2 & b2 & seen2 & E2 & H2 & I2 & A2). exists p2, b2, seen2. split; [exact E2|]. split; [exact H2|].
    destruct (aget Z.eqb n (p_voices p0)) as [c|] eqn:Ec.
    + split; [intros x Hx; apply I2; now right|]. intros m [-> |Hm] Hk; [apply I2; now left|now apply A2].
    + split; [exact I2|]. intros m [-> |Hm] Hk; [|now apply A2]. destruct (key_zaget _ _ _ Hk) as [c Hc]. congruence.
Qed.
End End_.

(** The fold of [Z.max]. *)
Lemma max_fold : forall l a, (fold_left Z.max l a = a \/ In (fold_left Z.max l a) l) /\ a <= fold_left Z.max l a /\ forall x, In x l -> x <= fold_left Z.max l a.
Proof.
  induction l as [|y l IH]; intros a; cbn [fold_left].
  - split; [now left|]. split; [lia|easy].
  - destruct (IH (Z.max a y)) as (A & B & C). split; [|split].
    + destruct A as [A|A]; [|right; now right]. rewrite A. destruct (Z.max_spec a y) as [[_ X]|[_ X]]; rewrite X; [right; now left|now left].
    + lia.
    + intros x [-> |Hx]; [lia|now apply C].
Qed.

Lemma end_ok : forall r acc p ns r' k, PI r acc p ns -> end_measure r = Some r' ->
  exists p', rfold (visit true) (voice_order k (map fst (p_voices p))) p = ROk p' /\ PI r' acc p' ns.
Proof.
  intros r acc p ns r' k H Hr. pose proof H as [D1 D2 D3 D4 D5 D6 D7 D8 D9 D10 D11 D12 D13 D14 D15 D16 D17 D18 D19 [N1 N2]].
  unfold end_measure in Hr. set (E := fold_left Z.max (map snd (r_free r)) (r_now r)) in *. cbv zeta in Hr. on Hr C.
  destruct (max_fold (map snd (r_free r)) (r_now r)) as (M1 & M2 & M3). fold E in M1, M2, M3.
  assert (Lf : forall n f, aget Z.eqb n (r_free r) = Some f -> f <= E).
  { intros n f Hf. apply M3. apply zaget_in in Hf. change f with (snd (n, f)). now apply in_map. }
  assert (HE : E <= 40000 * M).
  { destruct M1 as [-> |M1]; [exact D6|]. apply in_map_iff in M1. destruct M1 as ([n f] & Ef & Hin). cbn in Ef. rewrite <- Ef.
    apply (D7 n f). now apply in_zaget. }
  assert (Vok : forall n i, aget Z.eqb n (p_voices p) = Some i -> exists t, vok r acc E n (vget i p) t /\
            (forall f, aget Z.eqb n (r_free r) = Some f -> t = f \/ E = r_now r)).
  { intros n i Hi. destruct (D13 n i Hi) as (O & t & P & [(F & Et & Fr & b & Eb & Lb)|(F & Eb & Tf)]).
    - rewrite F in C. apply Z.eqb_eq in C. exists t. split; [|intros; now right]. repeat apply conj; try apply O; [exact P|lia|]. right. eauto.
    - exists t. split.
      + repeat apply conj; try apply O; [exact P| |now left]. destruct (aget Z.eqb n (r_free r)) as [f|] eqn:Ef; [|lia]. subst t. eapply Lf; eassumption.
      + intros f Ef. rewrite Ef in Tf. now left. }
  assert (B0 : bars r acc p E p (r_now r) []).
  { constructor.
    - repeat split.
    - exact D4.
    - lia.
    - intros n i Hi. destruct (Vok n i Hi) as (t & T1 & _). exists t. split; [exact T1|easy].
    - easy.
    - destruct M1 as [M1|M1]; [now left|]. apply in_map_iff in M1. destruct M1 as ([n f] & Ef & Hin). cbn in Ef. subst f.
      assert (Hn : In n (map fst (p_voices p))) by (rewrite D8; apply N2; change n with (fst (n, E)); now apply in_map).
      destruct (key_zaget _ _ _ Hn) as [i Hi]. destruct (Vok n i Hi) as (t & T1 & T2).
      destruct (T2 E) as [-> |X]; [now apply in_zaget| |left; lia]. right. exists n, i. now split. }
  destruct (bars_walk r acc p E HE D10 D11 (voice_order k (map fst (p_voices p))) p (r_now r) [] B0) as (p' & b & seen & Ew & W & _ & All).
  assert (All' : forall n i, aget Z.eqb n (p_voices p) = Some i -> In n seen).
  { intros n i Hi. pose proof (zaget_key _ _ _ _ Hi) as Hk. apply All; [|exact Hk]. eapply Permutation_in; [apply voice_perm|exact Hk]. }
  exists p'. split; [exact Ew|]. destruct W as [(F1 & F2 & F3 & F4 & F5 & F6) Wb Wr Wv Wc We].
  assert (b = E).
  { destruct We as [We|(n & i & Hi & Kn)]; [exact We|]. destruct (Wv n i Hi) as (t & T1 & T2). destruct (T2 (All' n i Hi)) as [T3 _].
    assert (t = E) by (eapply vok_time; eassumption). lia. }
  subst b. destruct D12 as (n0 & c0 & Hc0 & Hn0 & _).
  destruct Wc as (n & c & Hc & Hn & Kc); [intros ->; exact (All' _ _ Hn0)|].
  assert (r' = R (r_div r) (r_fifths r) (r_transp r) true E E [] None false None) as -> by congruence.
  constructor; cbn [r_div r_fifths r_transp r_begun r_from r_now r_free r_last r_moved r_for aget]; rewrite ?F1, ?F2, ?F3, ?F4, ?F5, ?F6;
    try assumption; try lia; try discriminate.
  - exists n, c. split; [exact Hc|]. split; [exact Hn|]. split; [discriminate|]. split; [|discriminate]. intros _. apply Kc.
  - intros m i Hi. destruct (Wv m i Hi) as (t & (O & P & Lt & _) & T2). destruct (T2 (All' m i Hi)) as [T3 T4]. split; [exact O|]. exists t. split; [exact P|].
    right. split; [discriminate|]. split; [exact T4|exact T3].
  - split; [constructor|intros x []].
Qed.

(** The part when it has been read. *)
Record PF (r : reading) (acc : list (Z * sound)) (p : xpart) (ns : list Z) : Prop := {
  pf_ns : map fst (p_voices p) = ns;
  pf_keys : NoDup ns;
  pf_cur : exists n c, p_cur p = Some c /\ aget Z.eqb n (p_voices p) = Some c;
  pf_voice : forall n i, aget Z.eqb n (p_voices p) = Some i -> exists o t, play r (v_ups (vget i p)) 4 0 o t (sounds_of n acc);
  pf_attrs : exists at_, p_steps p = map SAttr at_ /\ attrs_to ks_empty 0 at_ (KS r) (r_transp r);
  pf_tags : Forall (fun x => In (fst x) ns) acc;
  pf_names : p_names p = names;
  pf_alias : p_alias p = "" }.
Lemma PI_PF : forall r acc p ns, PI r acc p ns -> PF r acc p ns.
Proof.
  intros r acc p ns [D1 D2 D3 D4 D5 D6 D7 D8 D9 D10 D11 D12 D13 D14 D15 D16 D17 D18 D19 D20]. constructor; try assumption.
  - destruct D12 as (n & c & H1 & H2 & _). eauto.
  - intros n i Hi. destruct (D13 n i Hi) as (_ & t & P & _). eauto.
Qed.
(** The last measure. *)
Lemma last_ok : forall r acc p ns k, PI r acc p ns ->
  exists p', rfold (visit false) (voice_order k (map fst (p_voices p))) p = ROk p' /\ PF r acc p' ns.
Proof.
  intros r acc p ns k H. pose proof H as [D1 D2 D3 D4 D5 D6 D7 D8 D9 D10 D11 D12 D13 D14 D15 D16 D17 D18 D19 D20].
  set (ok := fun q => same_frame p q /\ p_beats q = tq (r_now r) /\ (exists n c, p_cur q = Some c /\ aget Z.eqb n (p_voices p) = Some c) /\
    forall n i, aget Z.eqb n (p_voices p) = Some i -> exists t vb, play r (v_ups (vget i q)) 4 0 (v_oct (vget i q)) t (sounds_of n acc) /\
      v_beats (vget i q) = tq vb /\ (vb = t \/ t = r_now r /\ r_now r <= vb)).
  assert (G : forall l q, ok q -> exists q', rfold (visit false) l q = ROk q' /\ ok q').
  { induction l as [|n l IH]; intros q Hq; cbn [rfold]; [exists q; now split|].
    assert (exists q1, visit false q n = ROk q1 /\ ok q1) as (q1 & E1 & H1).
    { destruct Hq as ((F1 & F2 & F3 & F4 & F5 & F6) & Qb & Qc & Qv). unfold visit. rewrite F4. destruct (aget Z.eqb n (p_voices p)) as [c|] eqn:Ec.
      - destruct (Qv _ _ Ec) as (t & vb & P & Eb & Hvb). assert (Lc : (c < List.length (p_heap q))%nat) by (rewrite F3; eapply D11; eassumption).
        destruct (pad_ok M HM (KS r) (r_transp r) (set_cur (Some c) q) c t vb (r_now r) (sounds_of n acc)) as (us & vb' & Ep & Pu & Hvb' & _); try assumption; try reflexivity.
        change (vget c (set_cur (Some c) q)) with (vget c q) in *. rewrite Ep. cbn [rbind]. eexists. split; [reflexivity|].
        set (v1 := ups us (tq vb') (vget c q)) in *. set (q1 := put c v1 (tq (r_now r)) (set_cur (Some c) q)).
        split; [repeat split; try assumption; cbn; now rewrite upd_nth_length|]. split; [reflexivity|]. split; [exists n, c; now split|].
        intros m i Hm. destruct (Z.eq_dec m n) as [-> |Hn].
        + assert (i = c) by congruence. subst i. unfold q1. rewrite vget_put by exact Lc. exists (Z.max t (r_now r)), vb'. split; [exact Pu|]. split; [reflexivity|lia].
        + unfold q1. rewrite vget_put_other; [exact (Qv m i Hm)|]. intros ->. apply Hn. eapply idx_inj; eassumption.
      - exists q. split; [reflexivity|]. repeat split; assumption. }
    rewrite E1. cbn [rbind]. now apply IH. }
  destruct (G (voice_order k (map fst (p_voices p))) p) as (p' & E & (F1 & F2 & F3 & F4 & F5 & F6) & _ & Qc & Qv).
  { split; [repeat split|]. split; [exact D4|]. split.
    - destruct D12 as (n & c & H1 & H2 & _). eauto.
    - intros n i Hi. destruct (D13 n i Hi) as (O & t & P & [(F & Et & Fr & b & Eb & Lb)|(F & Eb & Tf)]).
      + exists t, b. split; [exact P|]. split; [exact Eb|]. right. lia.
      + exists t, t. split; [exact P|]. split; [exact Eb|now left]. }
  exists p'. split; [exact E|]. constructor; rewrite ?F2, ?F4, ?F5, ?F6; try assumption.
  intros n i Hi. destruct (Qv n i Hi) as (t & vb & P & _). eauto.
Qed.
End Measure.
