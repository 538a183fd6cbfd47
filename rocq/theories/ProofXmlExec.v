(** Playing imported updates (C57). *)
From Coq Require Import ZArith QArith Qcanon Lqa String List Bool Lia Arith.
From Verif Require Import Base Num ModelPitch ModelDuration ModelInstruments ModelTypes ModelLisp ModelScore
  ModelImporter ModelMusicXml SpecImporter SpecMusicXml ProofHeap ProofImporter SpecXmlScore ProofXmlDur ProofXmlPlay ProofXmlChan.
Import ListNotations.
Local Open Scope list_scope.
Local Open Scope Z_scope.

Section Exec.
Variable M : Z.
Hypothesis HM : 1 <= M <= 24.
Variable K : keysig.
Variable T : Z.
Notation tms := (tms M).
Notation len := (len M).
Notation play1 := (play1 M K T).
Notation play := (play M K T).
Notation members := (members M K T).

Lemma nmul_1 : forall t, nmul (tms t) n1 = tms t.
Proof. intros t. unfold ProofXmlPlay.tms. rewrite qn_1, qn_mul. apply qn_eq. ring. Qed.
Lemma nmin_same : forall t, nmin (tms t) (tms t) = tms t.
Proof. intros t. cbn [nmin XQ]. unfold ProofXmlPlay.tms, qn, xq_min. now destruct (xq_ltb _ _). Qed.
Lemma nmin_max : forall t, t <= 40000 * M -> nmin nmaxval (tms t) = tms t.
Proof.
  intros t H.
  assert (L : nltb (tms t) nmaxval = true).
  { change (@nmaxval XQ) with (qn (inject_Z ((2 ^ 53 - 1) * 2 ^ 971))). apply qn_lt.
    apply Qle_lt_trans with (inject_Z 20000000).
    - apply Qle_shift_div_r; [apply injZ_pos; lia|]. rewrite <- inject_Z_mult, <- Zle_Qle. lia.
    - rewrite <- Zlt_Qlt. vm_compute. reflexivity. }
  cbn [nmin XQ]. unfold xq_min. change (@nmaxval XQ) with (qn (inject_Z ((2 ^ 53 - 1) * 2 ^ 971))) in *.
  unfold ProofXmlPlay.tms, qn in *. destruct (xq_ltb (Fin (Q2Qc (inject_Z ((2 ^ 53 - 1) * 2 ^ 971)))) _) eqn:E; [|reflexivity].
  apply qn_lt in E. apply qn_lt in L. lra.
Qed.

(** A part that plays for instrument [q] in octave [o] and is at position [p]. *)
Definition pst (q : pid) (o p : Z) (P : @part XQ) : Prop :=
  porigin P = q /\ pexplicit P = false /\ iperc (pstock P) = false /\ ptempo P = nofZ 120 /\ pscale P = n1 /\
  pquant P = nlit 9 10 /\ pkey P = K /\ ptransp P = T /\ poctave P = o /\ pcur P = tms p /\ chan_good P.
Definition owned (q : pid) (s : @score XQ) : Prop := exists os, usage s = layout os /\ room q os.
Record at_ (v q : pid) (o p : Z) (s : @score XQ) : Prop := At {
  at_cur : current s = [v]; at_v : (v < List.length (heap s))%nat; at_q : (q < List.length (heap s))%nat;
  at_p : pst q o p (getp s v); at_glob : ga_offs (globals s) = []; at_own : owned q s }.

(** What playing in part [v] for instrument [q] leaves alone. *)
Definition same_id (a b : @part XQ) : Prop :=
  pname a = pname b /\ pstock a = pstock b /\ ptmpl a = ptmpl b /\ porigin a = porigin b /\ pvoices a = pvoices b.
Record fr (v q : pid) (s s' : @score XQ) : Prop := Fr {
  fr_len : List.length (heap s') = List.length (heap s);
  fr_vheap : vheap s' = vheap s; fr_parts : parts s' = parts s; fr_cur : current s' = current s;
  fr_alias : aliases s' = aliases s; fr_vars : variables s' = variables s; fr_glob : globals s' = globals s;
  fr_other : forall x, x <> v -> x <> q -> getp s' x = getp s x;
  fr_id : forall x, same_id (getp s x) (getp s' x);
  fr_use : forall os, usage s = layout os -> room q os -> exists os', usage s' = layout os' /\ joined q os os' }.

Lemma same_id_refl : forall a, same_id a a. Proof. repeat split. Qed.
Lemma same_id_trans : forall a b c, same_id a b -> same_id b c -> same_id a c.
Proof. unfold same_id. intuition congruence. Qed.
Lemma fr_refl : forall v q s, fr v q s s.
Proof.
  intros v q s. constructor; try reflexivity. { intros; apply same_id_refl. }
  intros os H _. exists os. split; [exact H|now left].
Qed.
Lemma joined_trans : forall q a b c, joined q a b -> joined q b c -> joined q a c.
Proof.
  intros q a b c [-> | [H1 ->]] H2; [exact H2|]. destruct H2 as [-> | [H2 _]]; [now right|].
  exfalso. apply H2, in_or_app. right. now left.
Qed.
Lemma fr_trans : forall v q a b c, fr v q a b -> fr v q b c -> fr v q a c.
Proof.
  intros v q a b c [] []. constructor; try congruence.
  - intros x H1 H2. rewrite fr_other1, fr_other0; auto.
  - intros x. eapply same_id_trans; eauto.
  - intros os H1 H2. destruct (fr_use0 os H1 H2) as (os1 & E1 & J1).
    destruct (fr_use1 os1 E1 (joined_room _ _ _ H2 J1)) as (os2 & E2 & J2).
    exists os2. split; [exact E2|]. eapply joined_trans; eassumption.
Qed.
Lemma fr_owned : forall v q s s', fr v q s s' -> owned q s -> owned q s'.
Proof.
  intros v q s s' F (os & E & R). destruct (fr_use _ _ _ _ F os E R) as (os' & E' & J). exists os'.
  split; [exact E'|]. eapply joined_room; eassumption.
Qed.

(** Changes of the part itself. *)
Lemma fr_modp : forall v q f s, (v < List.length (heap s))%nat -> same_id (getp s v) (f (getp s v)) -> fr v q s (modp v f s).
Proof.
  intros v q f s L H. constructor; try reflexivity.
  - apply heap_modp.
  - intros x H1 _. apply getp_modp_other. congruence.
  - intros x. rewrite getp_modp by exact L. destruct (Nat.eqb_spec x v) as [-> |]; [exact H|apply same_id_refl].
  - intros os E _. exists os. split; [exact E|now left].
Qed.
Lemma at_modp : forall v q o p o' p' f s, at_ v q o p s -> pst q o' p' (f (getp s v)) -> at_ v q o' p' (modp v f s).
Proof.
  intros v q o p o' p' f s [] H. constructor; try assumption.
  - now rewrite heap_modp.
  - now rewrite heap_modp.
  - now rewrite getp_modp_same.
Qed.

(** The events added. *)
Definition gained (q : pid) (s s' : @score XQ) (l : list sound) : Prop :=
  exists es, events s' = events s ++ es /\
    map (fun e => (ev_part e, ev_note e, ev_off e, ev_dur e)) es
    = map (fun x => (q, s_key x, tms (s_on x), tms (s_len x))) l.
Lemma gained_nil : forall q s s', events s' = events s -> gained q s s' [].
Proof. intros q s s' H. exists []. rewrite app_nil_r. now split. Qed.
Lemma gained_app : forall q a b c l m, gained q a b l -> gained q b c m -> gained q a c (l ++ m).
Proof.
  intros q a b c l m (e & E1 & E2) (f & F1 & F2). exists (e ++ f). rewrite F1, E1, app_assoc. split; [reflexivity|].
  now rewrite !map_app, E2, F2.
Qed.
Notation run1 := (run 1).

(* ---------------- attributes ---------------- *)
Lemma run_attr_ok : forall u o o' v q p s, attr_oct u o o' -> at_ v q o p s ->
  exists s', run1 (UPrim (Attr u)) s = (s', Ok) /\ at_ v q o' p s' /\ chordmode s' = chordmode s /\ fr v q s s' /\ gained q s s' [] /\
    pdur (getp s' v) = pdur (getp s v).
Proof.
  intros u o o' v q p s Hu A. pose proof A as [Ac Av Aq Ap Ag Ao].
  assert (G : exists f, update_part u false (getp s v) = ROk (f (getp s v)) /\ same_id (getp s v) (f (getp s v)) /\
    pst q o' p (f (getp s v)) /\ pdur (f (getp s v)) = pdur (getp s v)).
  { destruct Ap as (P1 & P2 & P3 & P4 & P5 & P6 & P7 & P8 & P9 & P10 & P11). destruct Hu as [n o|o|o|m o]; cbn [update_part].
    - exists (set_poctave n). repeat split; assumption.
    - exists (set_poctave (wrap32 (o + 1))). rewrite P9. repeat split; assumption.
    - exists (set_poctave (wrap32 (o - 1))). rewrite P9. repeat split; assumption.
    - exists (set_pvol (dynamic_volume m)). repeat split; assumption. }
  destruct G as (f & E & I & P & D).
  exists (modp v (set_povr (Some u)) (modp v f s)). 
  assert (L1 : (v < List.length (heap (modp v f s)))%nat) by now rewrite heap_modp.
  assert (A1 : at_ v q o' p (modp v f s)) by (eapply at_modp; eassumption).
  assert (F1 : fr v q s (modp v f s)) by (apply fr_modp; assumption).
  split; [|split; [|split; [reflexivity|split; [|split; [now apply gained_nil|]]]]].
  - unfold run. cbn [run_upd run_prim]. unfold run_attr. rewrite Ac. cbn [each]. unfold do_update_part at 1. rewrite E.
    reflexivity.
  - eapply at_modp; [exact A1|]. destruct A1 as [_ _ _ P1 _ _]. exact P1.
  - eapply fr_trans; [exact F1|]. apply fr_modp; [exact L1|]. repeat split.
  - rewrite getp_modp_same by exact L1. cbn [pdur set_povr]. now rewrite getp_modp_same.
Qed.

(* ---------------- notes and rests ---------------- *)
Lemma emit_ok : forall pi sl t k v q o p s, at_ v q o p s -> 1 <= t -> sounds_at K T pi o k ->
  exists s', emit_note pi sl (tms t) v s = (s', Ok) /\ at_ v q o p s' /\ chordmode s' = chordmode s /\ fr v q s s' /\
    gained q s s' [Sound k p t] /\ pdur (getp s' v) = pdur (getp s v).
Proof.
  intros pi sl t k v q o p s [Ac Av Aq Ap Ag (os & Eu & Ro)] Ht [Hk Rk].
  destruct Ap as (P1 & P2 & P3 & P4 & P5 & P6 & P7 & P8 & P9 & P10 & P11).
  unfold emit_note. cbv zeta. set (P := getp s v) in *.
  set (aud := if sl then tms t else nmul (tms t) (pquant P)).
  assert (Ha : nltb n0 aud = true).
  { unfold aud. rewrite (tms_0 M). destruct sl; [rewrite (tms_lt M HM); lia|].
    rewrite P6, qn_lit. unfold ProofXmlPlay.tms. rewrite qn_mul. apply qn_lt.
    assert (0 < inject_Z (500 * t) / inject_Z M)%Q.
    { apply Qlt_shift_div_l; [apply injZ_pos; lia|]. rewrite Qmult_0_l. apply injZ_pos. lia. }
    change (inject_Z (500 * 0)) with 0%Q. unfold Qdiv at 1. rewrite Qmult_0_l.
    apply (Qmult_lt_l _ _ (9 # 10)) in H; [|reflexivity]. lra. }
  rewrite Ha. rewrite P9, P7, P8, Hk.
  assert (((k <? 0) || (k >? 127))%bool = false) as -> by lia.
  rewrite <- P1 in Ro. destruct (assign_ok s os P aud Eu Ro P2 P3 P11) as (c & os' & E & Rc & J). rewrite E. rewrite P1 in *.
  set (s1 := modp v (set_pchan c) (set_usage (layout os') s)).
  assert (L1 : (q < List.length (heap s1))%nat) by (unfold s1; now rewrite heap_modp).
  set (s2 := modp q (set_pchan c) s1).
  assert (Gx : forall x, getp s2 x = getp s x \/ getp s2 x = set_pchan c (getp s x) \/ getp s2 x = set_pchan c (set_pchan c (getp s x))).
  { intros x. unfold s2. rewrite getp_modp by exact L1. unfold s1. rewrite getp_modp by exact Av.
    change (getp (set_usage (layout os') s) x) with (getp s x).
    destruct (Nat.eqb x q), (Nat.eqb x v); auto. }
  assert (Gv : getp s2 v = set_pchan c P \/ getp s2 v = set_pchan c (set_pchan c P)).
  { unfold s2. rewrite getp_modp by exact L1. unfold s1. rewrite getp_modp by exact Av. rewrite Nat.eqb_refl.
    change (getp (set_usage (layout os') s) v) with P. destruct (Nat.eqb v q); auto. }
  eexists. split; [reflexivity|].
  assert (Lh : List.length (heap s2) = List.length (heap s)) by (unfold s2, s1; now rewrite !heap_modp).
  split; [|split; [reflexivity|split; [|split]]].
  - constructor; cbn [current set_events heap globals]; try assumption.
    + now rewrite <- Lh in Av.
    + now rewrite <- Lh in Aq.
    + change (pst q o p (getp s2 v)). unfold pst, chan_good. clearbody P.
      destruct Gv as [-> | ->]; cbn; repeat split; try assumption; right; exact Rc.
    + exists os'. split; [reflexivity|]. eapply joined_room; eassumption.
  - constructor; try reflexivity.
    + exact Lh.
    + intros x H1 H2. change (getp s2 x = getp s x). unfold s2. rewrite getp_modp_other by congruence. unfold s1.
      now rewrite getp_modp_other by congruence.
    + intros x. change (same_id (getp s x) (getp s2 x)). destruct (Gx x) as [-> |[-> | ->]]; repeat split.
    + intros os1 E1 R1. exists os'. split; [reflexivity|].
      assert (os1 = os) as ->; [|exact J]. apply layout_inj. congruence.
  - eexists. split; [reflexivity|]. cbn. now rewrite P10.
  - change (pdur (getp s2 v) = pdur P). destruct Gv as [-> | ->]; reflexivity.
Qed.

(** The note or rest itself: in a chord the part stays where it is. *)
Definition after (b : bool) (p t : Z) : Z := if b then p else p + t.
Lemma advance_ok : forall v q o p d t s, at_ v q o p s -> len d t ->
  let s' := modp v (advance_part (chordmode s) (tms t) d) s in
  at_ v q o (after (chordmode s) p t) s' /\ fr v q s s' /\ pdur (getp s' v) = d.
Proof.
  intros v q o p d t s A Hd s'. pose proof A as [Ac Av Aq Ap Ag Ao].
  destruct (has_length_some _ (len_has _ _ _ Hd)) as [l ->]. unfold s'. split; [|split].
  - eapply at_modp; [exact A|]. unfold advance_part, update_default_dur, after.
    destruct Ap as (P1 & P2 & P3 & P4 & P5 & P6 & P7 & P8 & P9 & P10 & P11).
    destruct (chordmode s); cbn; repeat split; try assumption. cbn. rewrite P10. apply (tms_add M HM).
  - apply fr_modp; [exact Av|]. unfold advance_part, update_default_dur. destruct (chordmode s); repeat split.
  - rewrite getp_modp_same by exact Av. unfold advance_part, update_default_dur. now destruct (chordmode s).
Qed.

Lemma apply_ok : forall v q o p s, at_ v q o p s ->
  let s' := modp v (set_povr None) s in
  apply_globals s = (s', Ok) /\ at_ v q o p s' /\ fr v q s s' /\ pdur (getp s' v) = pdur (getp s v).
Proof.
  intros v q o p s A s'. pose proof A as [Ac Av Aq Ap Ag Ao]. unfold s'. split; [|split; [|split]].
  - unfold apply_globals. rewrite Ac. cbn [each]. now rewrite apply_to_none by exact Ag.
  - eapply at_modp; [exact A|]. exact Ap.
  - apply fr_modp; [exact Av|]. repeat split.
  - now rewrite getp_modp_same by exact Av.
Qed.

(** A note ([Some]) or rest, with the key it sounds. *)
Definition nr_ok (nr : note_or_rest) (o : Z) (ks : list Z) : Prop :=
  match nr with
  | Some (pi, _) => exists k, ks = [k] /\ sounds_at K T pi o k
  | None => ks = []
  end.
Lemma note_ok : forall nr d t ks v q o p s, at_ v q o p s -> len d t -> nr_ok nr o ks ->
  exists s', add_note_or_rest nr d s = (s', Ok) /\ at_ v q o (after (chordmode s) p t) s' /\ chordmode s' = chordmode s /\
    fr v q s s' /\ gained q s s' (map (fun k => Sound k p t) ks) /\ pdur (getp s' v) = d.
Proof.
  intros nr d t ks v q o p s A Hd Hn. unfold add_note_or_rest.
  assert (G : exists s0, (if chordmode s then (s, Ok) else apply_globals s) = (s0, Ok) /\ at_ v q o p s0 /\
    chordmode s0 = chordmode s /\ fr v q s s0 /\ events s0 = events s).
  { destruct (chordmode s) eqn:C.
    - exists s. split; [reflexivity|]. split; [exact A|]. split; [exact C|]. split; [apply fr_refl|reflexivity].
    - destruct (apply_ok v q o p s A) as (E1 & E2 & E3 & _). eexists. split; [exact E1|]. split; [exact E2|].
      split; [exact C|]. split; [exact E3|reflexivity]. }
  destruct G as (s0 & -> & A0 & C0 & F0 & Ev0). cbn [seqo].
  assert (dur_valid d = true) as -> by (destruct Hd as (_ & H & _); exact H).
  pose proof A0 as [Ac Av Aq Ap Ag Ao]. rewrite Ac. cbn [each]. unfold note_one.
  destruct (has_length_some _ (len_has _ _ _ Hd)) as [l El].
  assert (effective_dur d (getp s0 v) = d) as -> by (rewrite El; reflexivity).
  destruct Ap as (P1 & P2 & P3 & P4 & P5 & P6 & P7 & P8 & P9 & P10 & P11).
  rewrite P4, P5, (len_ms M HM _ _ Hd), nmul_1.
  assert (E : exists s1, match nr with Some (pi, sl) => emit_note pi sl (tms t) v s0 | None => (s0, Ok) end = (s1, Ok) /\
    at_ v q o p s1 /\ chordmode s1 = chordmode s0 /\ fr v q s0 s1 /\ gained q s0 s1 (map (fun k => Sound k p t) ks)).
  { destruct nr as [[pi sl]|]; cbn [nr_ok] in Hn.
    - destruct Hn as (k & -> & Hk). destruct Hd as (_ & _ & _ & Rt).
      destruct (emit_ok pi sl t k v q o p s0 A0 (proj1 Rt) Hk) as (s1 & E1 & E2 & E3 & E4 & E5 & _).
      exists s1. repeat apply conj; assumption.
    - subst ks. exists s0. split; [reflexivity|]. split; [exact A0|]. split; [reflexivity|]. split; [apply fr_refl|now apply gained_nil]. }
  destruct E as (s1 & -> & A1 & C1 & F1 & G1). cbn [seqo].
  destruct (advance_ok v q o p d t s1 A1 Hd) as (A2 & F2 & D2).
  eexists. split; [reflexivity|]. rewrite C1, C0 in A2. split; [now rewrite C1, C0|]. split; [cbn; congruence|].
  split; [eapply fr_trans; [exact F0|eapply fr_trans; [exact F1|exact F2]]|]. split; [|exact D2].
  destruct G1 as (es & G1 & G2). exists es. split; [cbn; congruence|exact G2].
Qed.

Lemma sm_at : forall v q o p b s, at_ v q o p s -> at_ v q o p (set_chordmode b s).
Proof. intros v q o p b s []. constructor; assumption. Qed.
Lemma sm_fr : forall v q b s, fr v q s (set_chordmode b s).
Proof.
  intros v q b s. constructor; try reflexivity.
  - intros x. apply same_id_refl.
  - intros os H _. exists os. split; [exact H|now left].
Qed.

(** The members of a chord after the first one. *)
Lemma members_ok : forall t es o o' ks, members t es o o' ks -> forall v q p s,
  at_ v q o p s -> chordmode s = true -> len (pdur (getp s v)) t ->
  exists s', chord_go (run_deref 1) (dur_deref 1) es [(v, tms t)] s = (s', Ok) /\ at_ v q o' (p + t) s' /\ chordmode s' = false /\
    fr v q s s' /\ gained q s s' (map (fun k => Sound k p t) ks).
Proof.
  intros t es o o' ks H. induction H as [o|l a d sl es o o' k ks Hd Hk H IH|u es o o1 o' ks Hu H IH]; intros v q p s A C L; cbn [chord_go].
  - unfold chord_finish. change (current (set_chordmode false s)) with (current s). pose proof A as [Ac Av Aq Ap Ag Ao].
    rewrite Ac. cbn [each seqo]. unfold ModelScore.pget. cbn [aget]. rewrite Nat.eqb_refl.
    eexists. split; [reflexivity|]. split; [|split; [reflexivity|split; [|now apply gained_nil]]].
    + eapply at_modp; [apply sm_at, A|].
      change (getp (set_chordmode false s) v) with (getp s v).
      destruct Ap as (P1 & P2 & P3 & P4 & P5 & P6 & P7 & P8 & P9 & P10 & P11).
      cbn; repeat split; try assumption. cbn. rewrite P10. apply (tms_add M HM).
    + eapply fr_trans; [apply sm_fr|]. apply fr_modp; [exact Av|]. repeat split.
  - destruct (note_ok (Some (PLetter l a, sl)) d t [k] v q o p s A Hd) as (s1 & E1 & A1 & C1 & F1 & G1 & D1).
    { exists k. now split. }
    change (run_upd (run_deref 1) (dur_deref 1) (UPrim (Note (PLetter l a) d sl)) s) with (add_note_or_rest (Some (PLetter l a, sl)) d s).
    rewrite E1. cbn [seqo]. rewrite C in A1, C1. cbn [after] in A1.
    pose proof A as [Ac Av Aq Ap Ag Ao].
    assert (El : lower_shortest (written_dur (UPrim (Note (PLetter l a) d sl))) s [(v, tms t)] = [(v, tms t)]).
    { unfold lower_shortest. rewrite Ac. cbn [fold_left written_dur]. unfold ModelScore.pget. cbn [aget aset].
      rewrite Nat.eqb_refl. destruct (has_length_some _ (len_has _ _ _ Hd)) as [dl El0].
      assert (effective_dur d (getp s v) = d) as -> by (rewrite El0; reflexivity).
      destruct Ap as (P1 & P2 & P3 & P4 & P5 & _). now rewrite P4, P5, (len_ms M HM _ _ Hd), nmul_1, nmin_same. }
    rewrite El. destruct (IH v q p s1 A1 C1) as (s2 & E2 & A2 & C2 & F2 & G2); [now rewrite D1|].
    exists s2. split; [exact E2|]. split; [exact A2|]. split; [exact C2|]. split; [eapply fr_trans; eassumption|].
    cbn [map]. eapply (gained_app _ _ _ _ [_]); eassumption.
  - destruct (run_attr_ok u o o1 v q p s Hu A) as (s1 & E1 & A1 & C1 & F1 & G1 & D1).
    unfold run in E1. rewrite E1. cbn [seqo].
    pose proof A as [Ac Av Aq Ap Ag Ao].
    assert (El : lower_shortest (written_dur (UPrim (Attr u))) s [(v, tms t)] = [(v, tms t)]).
    { unfold lower_shortest. rewrite Ac. cbn [fold_left written_dur]. unfold ModelScore.pget. cbn [aget aset effective_dur].
      rewrite Nat.eqb_refl. destruct Ap as (P1 & P2 & P3 & P4 & P5 & _). now rewrite P4, P5, (len_ms M HM _ _ L), nmul_1, nmin_same. }
    rewrite El. rewrite C in C1. destruct (IH v q p s1 A1 C1) as (s2 & E2 & A2 & C2 & F2 & G2); [now rewrite D1|].
    exists s2. split; [exact E2|]. split; [exact A2|]. split; [exact C2|]. split; [eapply fr_trans; eassumption|].
    eapply (gained_app _ _ _ _ []); eassumption.
Qed.

Lemma play1_ok : forall x o p o' p' e v q s, play1 x o p o' p' e -> at_ v q o p s -> chordmode s = false ->
  exists s', run1 x s = (s', Ok) /\ at_ v q o' p' s' /\ chordmode s' = false /\ fr v q s s' /\ gained q s s' e.
Proof.
  intros x o p o' p' e v q s H A C. destruct H as [l a d sl t o p k Hd Hk|d t o p Hd|u o p o' Hu|o p|l a d sl es t o p o' ks Ht Hm].
  - destruct (note_ok (Some (PLetter l a, sl)) d t [k] v q o p s A Hd) as (s1 & E1 & A1 & C1 & F1 & G1 & D1).
    { exists k. now split. }
    rewrite C in *. exists s1. repeat apply conj; assumption.
  - destruct (note_ok None d t [] v q o p s A Hd eq_refl) as (s1 & E1 & A1 & C1 & F1 & G1 & D1).
    rewrite C in *. exists s1. repeat apply conj; assumption.
  - destruct (run_attr_ok u o o' v q p s Hu A) as (s1 & E1 & A1 & C1 & F1 & G1 & D1).
    rewrite C in *. exists s1. repeat apply conj; assumption.
  - exists s. split; [reflexivity|]. split; [exact A|]. split; [exact C|]. split; [apply fr_refl|now apply gained_nil].
  - inversion Hm as [|? ? ? ? ? ? ? k ks' Hd Hk Hes|]; subst.
    unfold run. rewrite run_chord. destruct (apply_ok v q o p s A) as (E0 & A0 & F0 & _). rewrite E0. cbn [seqo].
    set (s0 := modp v (set_povr None) s) in *. pose proof A0 as [Ac Av Aq Ap Ag Ao].
    change (current (modp v (set_povr None) s)) with (current s0). rewrite Ac. cbn [map chord_go].
    destruct (note_ok (Some (PLetter l a, sl)) d t [k] v q o p (set_chordmode true s0) (sm_at _ _ _ _ _ _ A0) Hd) as (s1 & E1 & A1 & C1 & F1 & G1 & D1).
    { exists k. now split. }
    change (run_upd (run_deref 1) (dur_deref 1) (UPrim (Note (PLetter l a) d sl)) (set_chordmode true s0))
      with (add_note_or_rest (Some (PLetter l a, sl)) d (set_chordmode true s0)).
    rewrite E1. cbn [seqo].
    assert (El : lower_shortest (written_dur (UPrim (Note (PLetter l a) d sl))) (set_chordmode true s0) [(v, nmaxval)] = [(v, tms t)]).
    { unfold lower_shortest. change (current (set_chordmode true s0)) with (current s0). rewrite Ac. cbn [fold_left written_dur].
      unfold ModelScore.pget. cbn [aget aset]. rewrite Nat.eqb_refl. change (getp (set_chordmode true s0) v) with (getp s0 v).
      destruct (has_length_some _ (len_has _ _ _ Hd)) as [dl El0].
      assert (effective_dur d (getp s0 v) = d) as -> by (rewrite El0; reflexivity).
      destruct Ap as (P1 & P2 & P3 & P4 & P5 & _). now rewrite P4, P5, (len_ms M HM _ _ Hd), nmul_1, nmin_max by lia. }
    rewrite El. destruct (members_ok t es o o' ks' Hes v q p s1 A1 C1) as (s2 & E2 & A2 & C2 & F2 & G2); [now rewrite D1|].
    exists s2. split; [exact E2|]. split; [exact A2|]. split; [exact C2|]. split.
    + eapply fr_trans; [exact F0|]. eapply fr_trans; [apply sm_fr|]. eapply fr_trans; eassumption.
    + cbn [map]. destruct G1 as (es1 & G11 & G12). destruct G2 as (es2 & G21 & G22). exists (es1 ++ es2).
      split; [rewrite G21, G11, app_assoc; reflexivity|]. rewrite map_app, G12, G22. reflexivity.
Qed.

Lemma play_ok : forall us o p o' p' e, play us o p o' p' e -> forall v q s, at_ v q o p s -> chordmode s = false ->
  exists s', exec us s = (s', Ok) /\ at_ v q o' p' s' /\ chordmode s' = false /\ fr v q s s' /\ gained q s s' e.
Proof.
  intros us o p o' p' e H. induction H as [o p|x us o p o1 p1 o' p' e es H1 H2 IH]; intros v q s A C.
  - exists s. split; [reflexivity|]. split; [exact A|]. split; [exact C|]. split; [apply fr_refl|now apply gained_nil].
  - destruct (play1_ok _ _ _ _ _ _ v q s H1 A C) as (s1 & E1 & A1 & C1 & F1 & G1).
    destruct (IH v q s1 A1 C1) as (s2 & E2 & A2 & C2 & F2 & G2).
    exists s2. split; [unfold exec, run_all in *; cbn [each]; rewrite E1; exact E2|]. split; [exact A2|]. split; [exact C2|].
    split; [eapply fr_trans; eassumption|]. eapply gained_app; eassumption.
Qed.
End Exec.
