(** The basic invariant of reachable scores: pointers are in range, origins are
    consistent, the channel table covers the emitted events, and the emitted
    events are playable and collision free (C01-C04). *)
From Coq Require Import ZArith List String Bool Lia Arith.
From Verif Require Import Base Num ModelPitch ModelDuration ModelInstruments ModelTypes ModelLisp
  ModelScore ProofHeap ProofStep.
Import ListNotations.

Section Inv.
Context {N : Num}.

(** Every cell of the heap is consistent with its origin; pointers in range. *)
Definition good (h : list part) (nv : nat) : Prop :=
  forall p, (p < List.length h)%nat ->
    let q := nth p h dead_part in
    (porigin q < List.length h)%nat /\
    porigin (nth (porigin q) h dead_part) = porigin q /\
    pstock (nth (porigin q) h dead_part) = pstock q /\
    pname (nth (porigin q) h dead_part) = pname q /\
    (pchan q = 9%Z -> iperc (pstock q) = true) /\
    (pvoices q < nv)%nat /\
    (forall t, ptmpl q = Some t -> (t < List.length h)%nat).

Lemma good_nv : forall h nv nv', good h nv -> (nv <= nv')%nat -> good h nv'.
Proof.
  intros h nv nv' H Hle p Hp. destruct (H p Hp) as (A & B & C & D & E & F & G).
  repeat split; try assumption. lia.
Qed.

Lemma good_upd : forall h nv p v, good h nv -> (p < List.length h)%nat ->
  porigin v = porigin (nth p h dead_part) -> pstock v = pstock (nth p h dead_part) ->
  pname v = pname (nth p h dead_part) ->
  (pchan v = 9%Z -> iperc (pstock v) = true) -> (pvoices v < nv)%nat ->
  (forall t, ptmpl v = Some t -> (t < List.length h)%nat) ->
  good (upd_nth p v h) nv.
Proof.
  intros h nv p v H Hp Ho Hs Hn Hc Hv Ht q Hq. rewrite upd_nth_length in *.
  rewrite (nth_upd _ h p q v dead_part Hp).
  assert (Hid : forall x, porigin (nth x (upd_nth p v h) dead_part) = porigin (nth x h dead_part) /\
                          pstock (nth x (upd_nth p v h) dead_part) = pstock (nth x h dead_part) /\
                          pname (nth x (upd_nth p v h) dead_part) = pname (nth x h dead_part)).
  { intros x. rewrite (nth_upd _ h p x v dead_part Hp). destruct (Nat.eqb x p) eqn:E.
    - apply Nat.eqb_eq in E; subst. auto.
    - auto. }
  destruct (Nat.eqb q p) eqn:E.
  - apply Nat.eqb_eq in E; subst q. destruct (H p Hp) as (A & B & C & D & _).
    cbv zeta. rewrite Ho, Hs, Hn. destruct (Hid (porigin (nth p h dead_part))) as (I1 & I2 & I3).
    rewrite I1, I2, I3. rewrite Hs in Hc. repeat split; assumption.
  - destruct (H q Hq) as (A & B & C & D & F & G & I).
    cbv zeta. destruct (Hid (porigin (nth q h dead_part))) as (I1 & I2 & I3).
    rewrite I1, I2, I3. repeat split; assumption.
Qed.

Lemma nth_app_l : forall A (h : list A) v p d, (p < List.length h)%nat -> nth p (h ++ [v]) d = nth p h d.
Proof. intros. apply app_nth1; assumption. Qed.
Lemma nth_app_last : forall A (h : list A) v d, nth (List.length h) (h ++ [v]) d = v.
Proof. intros. rewrite app_nth2 by lia. rewrite Nat.sub_diag. reflexivity. Qed.

Lemma good_app : forall h nv v, good h nv ->
  (porigin v = List.length h \/
   ((porigin v < List.length h)%nat /\
    porigin (nth (porigin v) h dead_part) = porigin v /\
    pstock (nth (porigin v) h dead_part) = pstock v /\
    pname (nth (porigin v) h dead_part) = pname v)) ->
  (pchan v = 9%Z -> iperc (pstock v) = true) -> (pvoices v < nv)%nat ->
  (forall t, ptmpl v = Some t -> (t < S (List.length h))%nat) ->
  good (h ++ [v]) nv.
Proof.
  intros h nv v H Ho Hc Hv Ht q Hq. rewrite app_length in *. cbn [List.length] in *.
  destruct (Nat.eq_dec q (List.length h)) as [->|Hne].
  - rewrite nth_app_last. cbv zeta. destruct Ho as [Ho|(A & B & C & D)].
    + rewrite Ho, nth_app_last. repeat split; auto; try lia.
      intros t Hx. apply Ht in Hx. lia.
    + rewrite nth_app_l by assumption. repeat split; auto; try lia.
      intros t Hx. apply Ht in Hx. lia.
  - assert (Hq' : (q < List.length h)%nat) by lia.
    rewrite nth_app_l by assumption. destruct (H q Hq') as (A & B & C & D & F & G & I).
    cbv zeta. rewrite nth_app_l by assumption. repeat split; auto; try lia.
    intros t Hx. apply I in Hx. lia.
Qed.

(** One event has a valid channel, a playable pitch and a positive length. *)
Definition event_ok (s : score) (e : note_event) : Prop :=
  (ev_part e < List.length (heap s))%nat /\ porigin (getp s (ev_part e)) = ev_part e /\
  (0 <= ev_chan e < 16)%Z /\ (ev_chan e = 9%Z <-> iperc (pstock (getp s (ev_part e))) = true) /\
  (0 <= ev_note e <= 127)%Z /\ nltb n0 (ev_aud e) = true /\
  In (ev_part e) (usage_at s (ev_chan e)).

(** Two events of different parts on one melodic channel do not overlap. *)
Definition no_clash (e f : note_event) : Prop :=
  ev_part e <> ev_part f -> ev_chan e = ev_chan f -> ev_chan e <> 9%Z ->
  overlaps (ev_off e) (ev_aud e) (ev_off f) (ev_aud f) = false.

Record inv (s : score) : Prop := Inv {
  inv_heap : good (heap s) (List.length (vheap s));
  inv_cur : Forall (fun p => (p < List.length (heap s))%nat) (current s);
  inv_parts : Forall (fun p => (p < List.length (heap s))%nat) (parts s);
  inv_alias : forall a ps, In (a, ps) (aliases s) ->
    Forall (fun p => (p < List.length (heap s))%nat) ps;
  inv_cells : forall c n v, In (n, v) (nth c (vheap s) []) -> (v < List.length (heap s))%nat;
  inv_usage : List.length (usage s) = 16%nat;
  inv_events : Forall (event_ok s) (events s);
  inv_clash : forall e f, In e (events s) -> In f (events s) -> no_clash e f }.

Lemma inv_new : inv new_score.
Proof.
  constructor; cbn.
  - intros p Hp. cbn in Hp. lia.
  - constructor.
  - constructor.
  - intros a ps [].
  - intros c n v H. destruct c; destruct H.
  - reflexivity.
  - constructor.
  - intros e f [].
Qed.

(** Growing the heap without changing identities keeps events ok. *)
Definition idext (s s' : score) : Prop :=
  (List.length (heap s) <= List.length (heap s'))%nat /\
  forall p, (p < List.length (heap s))%nat ->
    porigin (getp s' p) = porigin (getp s p) /\ pstock (getp s' p) = pstock (getp s p) /\
    pname (getp s' p) = pname (getp s p).

Lemma idext_refl : forall s, idext s s.
Proof. intros; split; auto. Qed.
Lemma idext_trans : forall a b c, idext a b -> idext b c -> idext a c.
Proof.
  intros a b c [L1 H1] [L2 H2]. split; [lia|]. intros p Hp.
  destruct (H1 p Hp) as (A1 & A2 & A3). destruct (H2 p) as (B1 & B2 & B3); [lia|].
  repeat split; congruence.
Qed.

Lemma event_ok_ext : forall s s' e, idext s s' -> usage s' = usage s -> event_ok s e -> event_ok s' e.
Proof.
  intros s s' e [L H] Hu (A & B & C & D & E & F & G).
  destruct (H _ A) as (H1 & H2 & H3). unfold event_ok, usage_at in *.
  rewrite H1, H2, Hu. repeat split; try assumption; try apply D; try lia.
Qed.

Lemma Forall_lt_mono : forall n m l, (n <= m)%nat ->
  Forall (fun p => (p < n)%nat) l -> Forall (fun p => (p < m)%nat) l.
Proof. intros n m l H. apply Forall_impl. intros; lia. Qed.

(** Steps that write one cell of the heap, keeping identities. *)
Lemma inv_setp : forall s p v, inv s -> (p < List.length (heap s))%nat ->
  porigin v = porigin (getp s p) -> pstock v = pstock (getp s p) -> pname v = pname (getp s p) ->
  (pchan v = 9%Z -> iperc (pstock v) = true) -> (pvoices v < List.length (vheap s))%nat ->
  (forall t, ptmpl v = Some t -> (t < List.length (heap s))%nat) ->
  inv (setp p v s) /\ idext s (setp p v s).
Proof.
  intros s p v I Hp Ho Hs Hn Hc Hv Ht.
  assert (X : idext s (setp p v s)).
  { split; [rewrite heap_setp; lia|]. intros q Hq. rewrite getp_setp by exact Hp.
    destruct (Nat.eqb q p) eqn:E; [apply Nat.eqb_eq in E; subst|]; auto. }
  split; [|exact X]. destruct I. constructor; cbn [heap vheap parts current aliases usage events setp set_heap];
    rewrite ?upd_nth_length; try assumption.
  - apply good_upd; assumption.
  - eapply Forall_impl; [|exact inv_events0]. intros e He. eapply event_ok_ext; [exact X|reflexivity|exact He].
Qed.

Lemma getp_good : forall s p, inv s -> (p < List.length (heap s))%nat ->
  (porigin (getp s p) < List.length (heap s))%nat /\
  porigin (getp s (porigin (getp s p))) = porigin (getp s p) /\
  pstock (getp s (porigin (getp s p))) = pstock (getp s p) /\
  pname (getp s (porigin (getp s p))) = pname (getp s p) /\
  (pchan (getp s p) = 9%Z -> iperc (pstock (getp s p)) = true) /\
  (pvoices (getp s p) < List.length (vheap s))%nat /\
  (forall t, ptmpl (getp s p) = Some t -> (t < List.length (heap s))%nat).
Proof. intros s p I Hp. exact (inv_heap s I p Hp). Qed.

Lemma in_cur : forall s p, inv s -> In p (current s) -> (p < List.length (heap s))%nat.
Proof. intros s p I H. pose proof (inv_cur s I) as F. rewrite Forall_forall in F. auto. Qed.

(* ----------------------- channel assignment ----------------------- *)

Lemma chan_ok_iff : forall c, chan_ok c = true <-> (0 <= c < 16)%Z.
Proof. intros. unfold chan_ok. rewrite andb_true_iff, Z.leb_le, Z.ltb_lt. lia. Qed.

Lemma find_some_in : forall A (f : A -> bool) l x, find f l = Some x -> f x = true.
Proof. intros A f l x H. apply find_some in H. apply H. Qed.

(** What the chosen channel guarantees with respect to the events. *)
Definition free_for (s : score) (o : pid) (off dur : num) (c : Z) : Prop :=
  forall e, In e (events s) -> ev_chan e = c -> ev_part e <> o ->
    overlaps (ev_off e) (ev_aud e) off dur = false.

Lemma unavailable_false : forall s o off dur c,
  unavailable s o off dur c = false -> free_for s o off dur c.
Proof.
  intros s o off dur c H e He Hc Ho. unfold unavailable in H.
  destruct (overlaps (ev_off e) (ev_aud e) off dur) eqn:E; [|reflexivity].
  exfalso. assert (X : existsb (fun e => negb (Nat.eqb (ev_part e) o) && (ev_chan e =? c)%Z
                    && overlaps (ev_off e) (ev_aud e) off dur) (events s) = true).
  { apply existsb_exists. exists e. split; [exact He|].
    apply Nat.eqb_neq in Ho. rewrite Ho, E. subst c. rewrite Z.eqb_refl. reflexivity. }
  congruence.
Qed.

Lemma unused_free : forall s o off dur c, inv s -> channel_unused s c = true -> free_for s o off dur c.
Proof.
  intros s o off dur c I H e He Hc _. exfalso.
  pose proof (inv_events s I) as F. rewrite Forall_forall in F.
  destruct (F e He) as (_ & _ & _ & _ & _ & _ & G).
  unfold channel_unused in H. rewrite Hc in G. destruct (usage_at s c); [destruct G|discriminate].
Qed.

Lemma exclusive_free : forall s o off dur c, inv s -> exclusive s o c = true -> free_for s o off dur c.
Proof.
  intros s o off dur c I H e He Hc Ho. exfalso.
  pose proof (inv_events s I) as F. rewrite Forall_forall in F.
  destruct (F e He) as (_ & _ & _ & _ & _ & _ & G).
  unfold exclusive in H. rewrite Hc in G. destruct (usage_at s c) as [|x [|y r]]; try discriminate.
  apply Nat.eqb_eq in H. destruct G as [G|[]]. congruence.
Qed.

Lemma simple_check_ok : forall s o off dur c, inv s -> simple_check s o = Some c ->
  c <> 9%Z /\ free_for s o off dur c.
Proof.
  intros s o off dur c I H. unfold simple_check in H. apply find_some_in in H.
  apply andb_true_iff in H. destruct H as [H1 H2]. apply orb_true_iff in H2.
  split; [intros ->; discriminate|].
  destruct H2; [apply unused_free|apply exclusive_free]; assumption.
Qed.

Lemma complex_check_ok : forall s p dur c, complex_check s p dur = Some c ->
  (c = pchan p \/ c <> 9%Z) /\ free_for s (porigin p) (pcur p) dur c.
Proof.
  intros s p dur c H. unfold complex_check in H.
  destruct (negb (pchan p =? -1)%Z && negb (unavailable s (porigin p) (pcur p) dur (pchan p))) eqn:E.
  - inversion H; subst. apply andb_true_iff in E. destruct E as [_ E].
    apply negb_true_iff in E. split; [left; reflexivity|apply unavailable_false; exact E].
  - apply find_some_in in H. apply andb_true_iff in H. destruct H as [H1 H2].
    apply negb_true_iff in H2. split; [right; intros ->; discriminate|apply unavailable_false; exact H2].
Qed.

Lemma determine_ok : forall s p dur c, inv s -> (pchan p = 9%Z -> iperc (pstock p) = true) ->
  chan_ok c = true -> determine_channel s p dur = ROk c ->
  (c = 9%Z <-> iperc (pstock p) = true) /\
  (c <> 9%Z -> free_for s (porigin p) (pcur p) dur c).
Proof.
  intros s p dur c I H9 Hok H. unfold determine_channel in H.
  destruct (iperc (pstock p)) eqn:Ep.
  { inversion H; subst. split; [tauto|congruence]. }
  assert (Hp9 : pchan p <> 9%Z) by (intros E; apply H9 in E; discriminate).
  assert (G : (c <> 9%Z /\ free_for s (porigin p) (pcur p) dur c) ->
     (c = 9%Z <-> false = true) /\ (c <> 9%Z -> free_for s (porigin p) (pcur p) dur c)).
  { intros [A B]. split; [split; [congruence|discriminate]|auto]. }
  apply G. clear G.
  assert (Gav : forall c, available_channel s p dur = ROk c ->
                c <> 9%Z /\ free_for s (porigin p) (pcur p) dur c).
  { intros x Hx. unfold available_channel in Hx.
    destruct (simple_check s (porigin p)) eqn:E1.
    - inversion Hx; subst. eapply simple_check_ok; eassumption.
    - destruct (complex_check s p dur) eqn:E2; inversion Hx; subst.
      apply complex_check_ok in E2. destruct E2 as [[->|A] B]; auto. }
  destruct (pexplicit p).
  - destruct (negb (chan_ok (pchan p))); [discriminate|].
    destruct (channel_unused s (pchan p) || exclusive s (porigin p) (pchan p)) eqn:E.
    + inversion H; subst. split; [exact Hp9|].
      apply orb_true_iff in E. destruct E; [apply unused_free|apply exclusive_free]; assumption.
    + destruct (complex_check s p dur) eqn:E2.
      * destruct (z =? pchan p)%Z eqn:E3; [|discriminate]. inversion H; subst.
        apply Z.eqb_eq in E3; subst. apply complex_check_ok in E2. tauto.
      * destruct (pchan p =? -1)%Z eqn:E3; [|discriminate]. inversion H; subst.
        apply Z.eqb_eq in E3. rewrite E3 in Hok. discriminate.
  - destruct (negb (pchan p =? -1)%Z).
    + destruct (negb (chan_ok (pchan p))); [discriminate|].
      destruct (exclusive s (porigin p) (pchan p)) eqn:E.
      * inversion H; subst. split; [exact Hp9|apply exclusive_free; assumption].
      * apply Gav; exact H.
    + apply Gav; exact H.
Qed.

Lemma overlaps_sym : forall a b c d, overlaps a b c d = overlaps c d a b.
Proof. intros. unfold overlaps. apply andb_comm. Qed.

(** The shape of a successful emission. *)
Lemma emit_shape : forall pi sl dms pd s s', emit_note pi sl dms pd s = (s', Ok) ->
  let p := getp s pd in
  let aud := if sl then dms else nmul dms (pquant p) in
  let n := calc_midi_note pi (poctave p) (pkey p) (ptransp p) in
  (s' = s /\ nltb n0 aud = false) \/
  (exists c us, nltb n0 aud = true /\ (0 <= n <= 127)%Z /\ (0 <= c < 16)%Z /\
     determine_channel s p aud = ROk c /\
     (us = usage s /\ In (porigin p) (usage_at s c) \/
      us = upd_nth (Z.to_nat c) (usage_at s c ++ [porigin p]) (usage s)) /\
     s' = set_events (events s ++ [NoteEvent (porigin p) c n (pcur p) dms aud (pvol p) (ptvol p) (ppan p)])
            (modp (porigin p) (set_pchan c) (modp pd (set_pchan c) (set_usage us s)))).
Proof.
  intros pi sl dms pd s s' H p aud n. unfold emit_note in H. fold p in H. fold aud in H. fold n in H.
  destruct (nltb n0 aud) eqn:E1; [right|left; inversion H; auto].
  destruct ((n <? 0)%Z || (n >? 127)%Z) eqn:E2; [discriminate|].
  apply orb_false_iff in E2. destruct E2 as [E2 E3].
  destruct (assign_channel s p aud) as [[c s1]|m|m] eqn:E4; try discriminate.
  unfold assign_channel, rbind in E4. destruct (determine_channel s p aud) as [c'|m|m] eqn:E5; try discriminate.
  destruct (chan_ok c') eqn:E6; cbn [negb] in E4; [|discriminate].
  apply chan_ok_iff in E6.
  destruct (existsb (Nat.eqb (porigin p)) (usage_at s c')) eqn:E7; inversion E4; subst c' s1.
  - exists c, (usage s). split; [reflexivity|]. split; [lia|]. split; [exact E6|]. split; [reflexivity|].
    split; [left; split; [reflexivity|apply existsb_In; exact E7]|].
    assert (X : set_usage (usage s) s = s) by (destruct s; reflexivity). rewrite X.
    inversion H. reflexivity.
  - exists c, (upd_nth (Z.to_nat c) (usage_at s c ++ [porigin p]) (usage s)).
    split; [reflexivity|]. split; [lia|]. split; [exact E6|]. split; [reflexivity|].
    split; [right; reflexivity|]. inversion H. reflexivity.
Qed.

(** A usage table that only gains entries keeps events ok. *)
Lemma event_ok_gen : forall s s' e, idext s s' ->
  (forall c x, (0 <= c < 16)%Z -> In x (usage_at s c) -> In x (usage_at s' c)) ->
  event_ok s e -> event_ok s' e.
Proof.
  intros s s' e [L H] Hu (A & B & C & D & E & F & G).
  destruct (H _ A) as (H1 & H2 & H3). unfold event_ok.
  rewrite H1, H2. repeat split; try assumption; try apply D; try lia. apply Hu; [exact C|exact G].
Qed.

Lemma emit_inv : forall pi sl dms pd s s', inv s -> In pd (current s) ->
  emit_note pi sl dms pd s = (s', Ok) -> inv s' /\ idext s s'.
Proof.
  intros pi sl dms pd s s' I Hc H. pose proof (in_cur s pd I Hc) as Hpd.
  apply emit_shape in H. cbv zeta in H.
  destruct H as [[-> _]|(c & us & Haud & Hn & Hcr & Hdet & Hus & ->)]; [split; [exact I|apply idext_refl]|].
  set (p := getp s pd) in *. set (aud := if sl then dms else nmul dms (pquant p)) in *.
  set (ev := NoteEvent _ _ _ _ _ _ _ _ _).
  destruct (getp_good s pd I Hpd) as (O1 & O2 & O3 & O4 & O5 & O6 & O7). fold p in O1, O2, O3, O4, O5, O6, O7.
  destruct (determine_ok s p aud c I O5) as [D1 D2]; [apply chan_ok_iff; exact Hcr|exact Hdet|].
  (* usage *)
  assert (Hlen : List.length us = 16%nat).
  { destruct Hus as [[-> _]| ->]; rewrite ?upd_nth_length; apply (inv_usage s I). }
  assert (Hci : (Z.to_nat c < List.length (usage s))%nat) by (rewrite (inv_usage s I); lia).
  assert (Hu1 : forall x y, (0 <= x < 16)%Z -> In y (usage_at s x) -> In y (nth (Z.to_nat x) us [])).
  { intros x y Hx Hy. destruct Hus as [[-> _]| ->]; [exact Hy|].
    rewrite nth_upd by exact Hci. destruct (Nat.eqb (Z.to_nat x) (Z.to_nat c)) eqn:E; [|exact Hy].
    apply Nat.eqb_eq in E. assert (x = c) by lia. subst x. apply in_or_app. left; exact Hy. }
  assert (Hu2 : In (porigin p) (nth (Z.to_nat c) us [])).
  { destruct Hus as [[-> Hin]| ->]; [exact Hin|].
    rewrite nth_upd_same by exact Hci. apply in_or_app. right; left; reflexivity. }
  set (s0 := set_usage us s).
  assert (I0 : inv s0 /\ idext s s0).
  { assert (X : idext s s0) by (split; [apply le_n|intros; repeat split]).
    split; [|exact X]. destruct I. constructor; try assumption.
    eapply Forall_impl; [|exact inv_events0]. intros e He.
    eapply event_ok_gen; [exact X| |exact He]. intros x y Hx Hy. apply Hu1; assumption. }
  destruct I0 as [I0 X0].
  set (s1 := modp pd (set_pchan c) s0).
  assert (I1 : inv s1 /\ idext s0 s1).
  { apply inv_setp; try assumption; try reflexivity.
    cbn. intros ->. apply D1. reflexivity. }
  destruct I1 as [I1 X1].
  assert (Ho1 : (porigin p < List.length (heap s1))%nat) by (unfold s1; rewrite heap_modp; exact O1).
  set (s2 := modp (porigin p) (set_pchan c) s1).
  assert (Hst : pstock (getp s1 (porigin p)) = pstock p).
  { destruct X1 as [_ X1]. destruct (X1 (porigin p)) as (_ & Y & _); [exact O1|]. rewrite Y. exact O3. }
  assert (I2 : inv s2 /\ idext s1 s2).
  { destruct (getp_good s1 (porigin p) I1 Ho1) as (_ & _ & _ & _ & _ & P6 & P7).
    apply inv_setp; try assumption; try reflexivity.
    intros Hx. change (c = 9%Z) in Hx.
    change (iperc (pstock (getp s1 (porigin p))) = true). rewrite Hst. apply D1. exact Hx. }
  destruct I2 as [I2 X2].
  assert (X : idext s s2) by (eapply idext_trans; [exact X0|eapply idext_trans; [exact X1|exact X2]]).
  assert (Hev : event_ok s2 ev).
  { destruct X as [XL X]. destruct (X (porigin p) O1) as (Y1 & Y2 & Y3).
    unfold event_ok, ev. cbn [ev_part ev_chan ev_note ev_aud]. rewrite Y1, Y2, O2, O3.
    repeat split; try assumption; try lia; try apply D1. }
  assert (E2 : events s2 = events s) by reflexivity.
  split; [|exact X].
  pose proof (inv_clash s I) as Hcl.
  destruct I2. constructor; cbn [heap vheap parts current aliases usage events set_events];
    try assumption.
  - apply Forall_app. split; [|constructor; [|constructor]].
    + eapply Forall_impl; [|exact inv_events0]. intros e He.
      eapply event_ok_ext; [|reflexivity|exact He]. split; [apply le_n|intros; repeat split].
    + eapply event_ok_ext; [|reflexivity|exact Hev]. split; [apply le_n|intros; repeat split].
  - assert (Hnew : forall e, In e (events s) -> no_clash e ev).
    { intros e He Hp Hch H9. cbn [ev ev_part ev_chan ev_off ev_aud] in *.
      apply D2; [congruence|exact He|exact Hch|exact Hp]. }
    intros e f He Hf. apply in_app_or in He. apply in_app_or in Hf.
    destruct He as [He|[<-|[]]], Hf as [Hf|[<-|[]]].
    + apply Hcl; assumption.
    + apply Hnew; exact He.
    + intros A B C. rewrite overlaps_sym. apply Hnew; [exact Hf|congruence|congruence|congruence].
    + intros A. congruence.
Qed.

(* ----------------------- voices ----------------------- *)

(** Frame: steps that do not touch events, usage and keep identities. *)
Lemma inv_events_frame : forall s s', inv s -> idext s s' -> usage s' = usage s -> events s' = events s ->
  List.length (usage s') = 16%nat /\ Forall (event_ok s') (events s') /\
  (forall e f, In e (events s') -> In f (events s') -> no_clash e f).
Proof.
  intros s s' I X Hu He. rewrite Hu, He. split; [apply (inv_usage s I)|]. split; [|apply (inv_clash s I)].
  eapply Forall_impl; [|apply (inv_events s I)]. intros e H. eapply event_ok_ext; eassumption.
Qed.

Lemma clone_inv : forall p s t s1, inv s -> (p < List.length (heap s))%nat -> clone p s = (t, s1) ->
  inv s1 /\ idext s s1 /\ t = List.length (heap s) /\ List.length (heap s1) = S t /\
  getp s1 t = set_povr None (getp s p) /\ vheap s1 = vheap s /\ current s1 = current s /\
  parts s1 = parts s /\ aliases s1 = aliases s /\
  (forall q, (q < List.length (heap s))%nat -> getp s1 q = getp s q).
Proof.
  intros p s t s1 I Hp H. unfold clone in H. inversion H; subst t s1; clear H.
  set (s1 := set_heap _ s).
  assert (HL : List.length (heap s1) = S (List.length (heap s))).
  { cbn. rewrite app_length. cbn. lia. }
  assert (Hg : forall q, (q < List.length (heap s))%nat -> getp s1 q = getp s q).
  { intros q Hq. unfold getp. cbn. apply nth_app_l; exact Hq. }
  assert (X : idext s s1).
  { split; [lia|]. intros q Hq. rewrite Hg by exact Hq. auto. }
  split; [|repeat split; try reflexivity; try assumption; try lia].
  2:{ apply X; assumption. } 2:{ apply X; assumption. } 2:{ apply X; assumption. }
  2:{ unfold getp. cbn. apply nth_app_last. }
  destruct (inv_events_frame s s1 I X eq_refl eq_refl) as (E1 & E2 & E3).
  destruct (getp_good s p I Hp) as (O1 & O2 & O3 & O4 & O5 & O6 & O7).
  pose proof (inv_heap s I) as GH. pose proof (inv_cur s I). pose proof (inv_parts s I).
  pose proof (inv_alias s I) as IA. pose proof (inv_cells s I) as IC.
  constructor; try assumption; try rewrite HL.
  - cbn. apply good_app; try assumption.
    + right. cbn. repeat split; assumption.
    + intros t Ht. apply O7 in Ht. lia.
  - cbn. eapply Forall_lt_mono; [|eassumption]. lia.
  - cbn. eapply Forall_lt_mono; [|eassumption]. lia.
  - cbn. intros a ps Hps. eapply Forall_lt_mono; [|eapply IA; exact Hps]. lia.
  - cbn. intros c n v Hv. apply IC in Hv. lia.
Qed.

Lemma new_voice_inv : forall p n s v s1, inv s -> (p < List.length (heap s))%nat ->
  new_voice p n s = ROk (v, s1) -> inv s1 /\ idext s s1 /\ (v < List.length (heap s1))%nat /\
  current s1 = current s.
Proof.
  intros p n s v s1 I Hp H. unfold new_voice in H.
  assert (G : forall s0, inv s0 -> (p < List.length (heap s0))%nat ->
     match ptmpl (getp s0 p) with
       | None => RPanic "nil pointer dereference"
       | Some t =>
           let (v, s2) := clone t s0 in
           let cell := pvoices (getp s2 p) in
           ROk (v, setv cell (getv s2 cell ++ [(n, v)]) s2)
       end = ROk (v, s1) -> inv s1 /\ idext s0 s1 /\ (v < List.length (heap s1))%nat /\ current s1 = current s0).
  { intros s0 I0 Hp0 H0. destruct (ptmpl (getp s0 p)) as [t|] eqn:Et; [|discriminate].
    destruct (getp_good s0 p I0 Hp0) as (_ & _ & _ & _ & _ & O6 & O7). specialize (O7 t Et).
    destruct (clone t s0) as [v' s2] eqn:Ec.
    apply clone_inv in Ec; [|exact I0|exact O7].
    destruct Ec as (I2 & X2 & Hv & HL & Hgv & Hvh & Hcu & Hpa & Hal & Hg).
    inversion H0; subst v' s1. clear H0.
    set (cell := pvoices (getp s2 p)). set (s3 := setv _ _ s2).
    assert (X3 : idext s2 s3) by (split; [apply le_n|intros; repeat split]).
    split; [|split; [eapply idext_trans; eassumption|split; [cbn; lia|exact Hcu]]].
    destruct (inv_events_frame s2 s3 I2 X3 eq_refl eq_refl) as (E1 & E2 & E3).
    destruct I2. constructor; try assumption; cbn.
    - rewrite upd_nth_length. exact inv_heap0.
    - intros c m w Hw.
      assert (Hcell : (cell < List.length (vheap s2))%nat).
      { unfold cell. rewrite Hg by exact Hp0. rewrite Hvh. exact O6. }
      rewrite nth_upd in Hw by exact Hcell. destruct (Nat.eqb c cell) eqn:E.
      + apply in_app_or in Hw. destruct Hw as [Hw|[Hw|[]]].
        * eapply inv_cells0. unfold getv in Hw. exact Hw.
        * inversion Hw; subst. lia.
      + eapply inv_cells0; exact Hw. }
  destruct (has_voices s p).
  - cbn [rbind] in H. exact (G s I Hp H).
  - destruct (ptmpl (getp s p)) eqn:Ep; [discriminate|].
    destruct (clone p s) as [t s2] eqn:Ec. cbn [rbind] in H.
    apply clone_inv in Ec; [|exact I|exact Hp].
    destruct Ec as (I2 & X2 & Hv & HL & Hgv & Hvh & Hcu & Hpa & Hal & Hg).
    assert (Ht : (t < List.length (heap s2))%nat) by lia.
    destruct (getp_good s2 t I2 Ht) as (_ & _ & _ & _ & A5 & A6 & _).
    destruct (inv_setp s2 t (set_ptmpl (Some t) (getp s2 t)) I2 Ht) as [I3 X3]; try reflexivity; try assumption.
    { cbn. intros x Hx. inversion Hx; subst. exact Ht. }
    change (setp t (set_ptmpl (Some t) (getp s2 t)) s2) with (modp t (set_ptmpl (Some t)) s2) in *.
    set (s3 := modp t (set_ptmpl (Some t)) s2) in *.
    assert (Hp3 : (p < List.length (heap s3))%nat) by (unfold s3; rewrite heap_modp; lia).
    destruct (getp_good s3 p I3 Hp3) as (_ & _ & _ & _ & B5 & B6 & _).
    destruct (inv_setp s3 p (set_ptmpl (Some t) (getp s3 p)) I3 Hp3) as [I4 X4]; try reflexivity; try assumption.
    { intros x Hx. change (Some t = Some x) in Hx. injection Hx as <-.
      unfold s3. rewrite heap_modp. exact Ht. }
    change (setp p (set_ptmpl (Some t) (getp s3 p)) s3) with (modp p (set_ptmpl (Some t)) s3) in *.
    destruct (G _ I4) as (R1 & R2 & R3 & R4); [rewrite heap_modp; exact Hp3|exact H|].
    split; [exact R1|]. split; [|split; [exact R3|rewrite R4; exact Hcu]].
    eapply idext_trans; [exact X2|]. eapply idext_trans; [exact X3|]. eapply idext_trans; [exact X4|]. exact R2.
Qed.

Lemma get_voice_inv : forall p n s v s1, inv s -> (p < List.length (heap s))%nat ->
  get_voice p n s = ROk (v, s1) -> inv s1 /\ idext s s1 /\ (v < List.length (heap s1))%nat /\
  current s1 = current s.
Proof.
  intros p n s v s1 I Hp H. unfold get_voice in H.
  destruct (aget Z.eqb n (getv s (pvoices (getp s p)))) as [w|] eqn:E.
  - inversion H; subst. split; [exact I|]. split; [apply idext_refl|]. split; [|reflexivity].
    apply aget_in in E; [|intros; apply Z.eqb_eq]. eapply (inv_cells s1 I). exact E.
  - eapply new_voice_inv; eassumption.
Qed.

Lemma redirect_in : forall s o v l q, In q (redirect s o v l) -> q = v \/ In q l.
Proof.
  intros s o v l q H. unfold redirect in H. apply in_map_iff in H. destruct H as [x [Hx Hin]].
  destruct (Nat.eqb _ _); subst; auto.
Qed.

Lemma voice_step_inv : forall s p n v s1, inv s -> In p (current s) ->
  get_voice p n s = ROk (v, s1) ->
  let s' := set_current (redirect s1 (porigin (getp s1 p)) v (current s1)) s1 in
  inv s' /\ idext s s'.
Proof.
  intros s p n v s1 I Hp H. pose proof (in_cur s p I Hp) as Hlt.
  apply get_voice_inv in H; [|exact I|exact Hlt]. destruct H as (I1 & X1 & Hv & Hcu).
  cbv zeta. split; [|exact X1].
  destruct I1. constructor; try assumption. cbn [set_current current heap].
  rewrite Forall_forall. intros q Hq. apply redirect_in in Hq. destruct Hq as [->|Hq]; [exact Hv|].
  rewrite Forall_forall in inv_cur0. auto.
Qed.

Lemma last_to_finish_in : forall s vs dflt, vs <> [] ->
  exists n, In (n, last_to_finish s vs dflt) vs.
Proof.
  intros s vs dflt Hne. unfold last_to_finish.
  assert (G : forall l b, (exists n, In (n, b) vs) -> (forall x, In x l -> In x vs) ->
    exists n, In (n, fold_left (fun best v => if nltb (pcur (getp s best)) (pcur (getp s (snd v)))
                                              then snd v else best) l b) vs).
  { induction l as [|x l IH]; intros b Hb Hl; cbn [fold_left]; [exact Hb|].
    apply IH; [|intros; apply Hl; right; assumption].
    destruct (nltb _ _); [|exact Hb]. exists (fst x). destruct x. apply Hl. left; reflexivity. }
  apply G.
  - exists (fst (last vs (0%Z, dflt))). rewrite <- surjective_pairing.
    destruct vs as [|x vs]; [congruence|].
    clear. revert x. induction vs as [|y vs IH]; intros x; [left; reflexivity|].
    right. apply (IH y).
  - intros x Hx. clear -Hx. induction vs as [|y vs IH]; [destruct Hx|].
    destruct vs as [|z vs]; [destruct Hx|]. destruct Hx as [<-|Hx]; [left; reflexivity|right; auto].
Qed.

Lemma vend_one_inv : forall i p s, inv s -> In p (current s) ->
  inv (voice_end_one i p s) /\ idext s (voice_end_one i p s).
Proof.
  intros i p s I Hp. pose proof (in_cur s p I Hp) as Hlt. unfold voice_end_one.
  destruct (getv s (pvoices (getp s p))) as [|x vs] eqn:E; [split; [exact I|apply idext_refl]|].
  set (lv := last_to_finish s (x :: vs) p).
  assert (Hlv : (lv < List.length (heap s))%nat).
  { destruct (last_to_finish_in s (x :: vs) p) as [n Hn]; [discriminate|]. fold lv in Hn.
    rewrite <- E in Hn. eapply (inv_cells s I). exact Hn. }
  set (cell := List.length (vheap s)). set (s1 := set_vheap (vheap s ++ [[]]) s).
  assert (I1 : inv s1 /\ idext s s1).
  { assert (X : idext s s1) by (split; [apply le_n|intros; repeat split]). split; [|exact X].
    destruct (inv_events_frame s s1 I X eq_refl eq_refl) as (E1 & E2 & E3).
    destruct I. constructor; try assumption; cbn.
    - rewrite app_length. eapply good_nv; [exact inv_heap0|lia].
    - intros c n v Hv. destruct (Nat.lt_ge_cases c (List.length (vheap s))) as [Hc|Hc].
      + rewrite app_nth1 in Hv by exact Hc. eapply inv_cells0; exact Hv.
      + rewrite app_nth2 in Hv by exact Hc. destruct (c - List.length (vheap s))%nat as [|[|k]]; destruct Hv. }
  destruct I1 as [I1 X1].
  set (s2 := modp lv (fun q => set_ptmpl None (set_pvoices cell q)) s1).
  assert (I2 : inv s2 /\ idext s1 s2).
  { destruct (getp_good s1 lv I1 Hlv) as (_ & _ & _ & _ & A5 & _ & _).
    apply inv_setp; try assumption; try reflexivity.
    - cbn. rewrite app_length. cbn. unfold cell. lia.
    - cbn. discriminate. }
  destruct I2 as [I2 X2].
  set (o := porigin (getp (set_current (upd_nth i lv (current s2)) s2) p)).
  match goal with |- inv ?x /\ _ => set (s5 := x) end.
  assert (X5 : idext s2 s5) by (split; [apply le_n|intros; repeat split]).
  split; [|eapply idext_trans; [exact X1|eapply idext_trans; [exact X2|exact X5]]].
  destruct (inv_events_frame s2 s5 I2 X5 eq_refl eq_refl) as (E1 & E2 & E3).
  assert (Hlv2 : (lv < List.length (heap s2))%nat) by (unfold s2; rewrite heap_modp; exact Hlv).
  destruct I2. rewrite Forall_forall in inv_cur0, inv_parts0.
  constructor; try assumption; unfold s5; cbn [set_current set_parts set_aliases current parts aliases heap vheap].
  - rewrite Forall_forall. intros q Hq. apply in_upd_nth in Hq. destruct Hq as [->|Hq]; auto.
  - rewrite Forall_forall. intros q Hq. apply redirect_in in Hq. destruct Hq as [->|Hq]; auto.
  - intros a ps Ha. apply in_map_iff in Ha. destruct Ha as [[a' ps'] [Ha Hin]]. inversion Ha; subst.
    rewrite Forall_forall. intros q Hq. apply redirect_in in Hq. destruct Hq as [->|Hq]; auto.
    specialize (inv_alias0 _ _ Hin). rewrite Forall_forall in inv_alias0. auto.
Qed.

Lemma vend_loop_inv : forall cnt i s, inv s ->
  inv (voice_end_loop i cnt s) /\ idext s (voice_end_loop i cnt s).
Proof.
  induction cnt as [|k IH]; intros i s I; cbn [voice_end_loop]; [split; [exact I|apply idext_refl]|].
  destruct (nth_error (current s) i) as [p|] eqn:E; [|split; [exact I|apply idext_refl]].
  apply nth_error_In in E. destruct (vend_one_inv i p s I E) as [I1 X1].
  destruct (IH (S i) _ I1) as [I2 X2]. split; [exact I2|eapply idext_trans; eassumption].
Qed.
Lemma vend_inv : forall s, inv s -> inv (run_voice_end s) /\ idext s (run_voice_end s).
Proof. intros. apply vend_loop_inv. assumption. Qed.

(* ----------------------- part declarations ----------------------- *)

Lemma new_part_inv : forall name s p s1, inv s -> new_part name s = ROk (p, s1) ->
  inv s1 /\ idext s s1 /\ (p < List.length (heap s1))%nat.
Proof.
  intros name s p s1 I H. unfold new_part in H.
  destruct (stock_instrument name) as [ins|]; [|discriminate]. inversion H; subst p s1; clear H.
  set (s1 := set_heap _ _).
  assert (HL : List.length (heap s1) = S (List.length (heap s))) by (cbn; rewrite app_length; cbn; lia).
  assert (X : idext s s1).
  { split; [lia|]. intros q Hq. unfold getp. cbn. rewrite nth_app_l by exact Hq. auto. }
  split; [|split; [exact X|lia]].
  destruct (inv_events_frame s s1 I X eq_refl eq_refl) as (E1 & E2 & E3).
  destruct I. constructor; try assumption; try rewrite HL; cbn.
  - rewrite app_length. cbn. apply good_app.
    + eapply good_nv; [exact inv_heap0|lia].
    + left. reflexivity.
    + cbn. discriminate.
    + cbn. lia.
    + cbn. discriminate.
  - eapply Forall_lt_mono; [|exact inv_cur0]. lia.
  - eapply Forall_lt_mono; [|exact inv_parts0]. lia.
  - intros a ps Ha. eapply Forall_lt_mono; [|eapply inv_alias0; exact Ha]. lia.
  - intros c n v Hv. destruct (Nat.lt_ge_cases c (List.length (vheap s))) as [Hc|Hc].
    + rewrite app_nth1 in Hv by exact Hc. apply inv_cells0 in Hv. lia.
    + rewrite app_nth2 in Hv by exact Hc. destruct (c - List.length (vheap s))%nat as [|[|k]]; destruct Hv.
Qed.

Definition ranged (s : score) (l : list pid) := Forall (fun p => (p < List.length (heap s))%nat) l.
Lemma ranged_ext : forall s s' l, idext s s' -> ranged s l -> ranged s' l.
Proof. intros s s' l [L _]. apply Forall_lt_mono. exact L. Qed.

Lemma named_ranged : forall s a, inv s -> ranged s (named_parts s a).
Proof.
  intros s a I. unfold named_parts. destruct (aget String.eqb a (aliases s)) eqn:E; [|constructor].
  apply aget_in in E; [|intros; apply String.eqb_eq]. eapply (inv_alias s I); exact E.
Qed.
Lemma unnamed_ranged : forall s a, inv s -> ranged s (unnamed_parts s a).
Proof.
  intros s a I. unfold unnamed_parts, ranged. rewrite Forall_forall. intros q Hq.
  apply filter_In in Hq. pose proof (inv_parts s I) as F. rewrite Forall_forall in F. apply F. apply Hq.
Qed.

Lemma group_parts_inv : forall names s np sp s1, inv s -> group_parts names s = ROk (np, sp, s1) ->
  inv s1 /\ idext s s1 /\ ranged s1 np /\ ranged s1 sp.
Proof.
  induction names as [|n t IH]; intros s np sp s1 I H; cbn [group_parts] in H.
  - inversion H; subst. split; [exact I|]. split; [apply idext_refl|]. split; constructor.
  - destruct (nonempty (named_parts s n)); [|destruct (nonempty (unnamed_parts s n))].
    + destruct (group_parts t s) as [[[a b] c]|m|m] eqn:E; try discriminate. cbn in H. inversion H; subst.
      destruct (IH _ _ _ _ I E) as (A & B & C & D). split; [exact A|]. split; [exact B|]. split; [|exact D].
      apply Forall_app; split; [|exact C]. eapply ranged_ext; [exact B|apply named_ranged; exact I].
    + destruct (group_parts t s) as [[[a b] c]|m|m] eqn:E; try discriminate. cbn in H. inversion H; subst.
      destruct (IH _ _ _ _ I E) as (A & B & C & D). split; [exact A|]. split; [exact B|]. split; [exact C|].
      apply Forall_app; split; [|exact D]. eapply ranged_ext; [exact B|apply unnamed_ranged; exact I].
    + destruct (new_part n s) as [[p s2]|m|m] eqn:E2; try discriminate. cbn [rbind] in H.
      destruct (new_part_inv _ _ _ _ I E2) as (I2 & X2 & Hp).
      destruct (group_parts t s2) as [[[a b] c]|m|m] eqn:E; try discriminate. cbn in H. inversion H; subst.
      destruct (IH _ _ _ _ I2 E) as (A & B & C & D).
      split; [exact A|]. split; [eapply idext_trans; eassumption|]. split; [exact C|].
      constructor; [|exact D]. destruct B as [B _]. lia.
Qed.

Lemma new_parts_inv : forall names s ps s1, inv s -> new_parts names s = ROk (ps, s1) ->
  inv s1 /\ idext s s1 /\ ranged s1 ps.
Proof.
  induction names as [|n t IH]; intros s ps s1 I H; cbn [new_parts] in H.
  - inversion H; subst. split; [exact I|]. split; [apply idext_refl|constructor].
  - destruct (new_part n s) as [[p s2]|m|m] eqn:E2; try discriminate. cbn [rbind] in H.
    destruct (new_part_inv _ _ _ _ I E2) as (I2 & X2 & Hp).
    destruct (new_parts t s2) as [[a b]|m|m] eqn:E; try discriminate. cbn in H. inversion H; subst.
    destruct (IH _ _ _ I2 E) as (A & B & C).
    split; [exact A|]. split; [eapply idext_trans; eassumption|].
    constructor; [|exact C]. destruct B as [B _]. lia.
Qed.

Lemma dedup_incl : forall l seen x, In x (dedup l seen) -> In x l.
Proof.
  induction l as [|y l IH]; intros seen x H; cbn [dedup] in H; [exact H|].
  destruct (existsb _ _); [right; eapply IH; exact H|].
  destruct H as [<-|H]; [left; reflexivity|right; eapply IH; exact H].
Qed.

Lemma determine_parts_inv : forall names alias s ps s1, inv s ->
  determine_parts names alias s = ROk (ps, s1) -> inv s1 /\ idext s s1 /\ ranged s1 ps.
Proof.
  intros names alias s ps s1 I H. unfold determine_parts in H.
  assert (Hnp : forall n, rmap (fun '(p, s1) => ([p], s1)) (new_part n s) = ROk (ps, s1) ->
                inv s1 /\ idext s s1 /\ ranged s1 ps).
  { intros n Hn. destruct (new_part n s) as [[p s2]|m|m] eqn:E; try discriminate. cbn in Hn. inversion Hn; subst.
    destruct (new_part_inv _ _ _ _ I E) as (A & B & C). split; [exact A|]. split; [exact B|].
    constructor; [exact C|constructor]. }
  assert (Hgr : forall (b : bool), (if b then RErr "name included multiple times in group"
      else rbind (group_parts names s) (fun '(np, sp, s1) =>
        if nonempty np && nonempty sp then RErr "invalid group"
        else if negb (is_empty_string alias) && nonempty sp then new_parts names s1
        else ROk (dedup (np ++ sp) [], s1))) = ROk (ps, s1) -> inv s1 /\ idext s s1 /\ ranged s1 ps).
  { intros b Hb. destruct b; [discriminate|].
    destruct (group_parts names s) as [[[np sp] s2]|m|m] eqn:E; try discriminate. cbn [rbind] in Hb.
    destruct (group_parts_inv _ _ _ _ _ I E) as (A & B & C & D).
    destruct (nonempty np && nonempty sp); [discriminate|].
    destruct (negb (is_empty_string alias) && nonempty sp).
    - destruct (new_parts_inv _ _ _ _ A Hb) as (A' & B' & C').
      split; [exact A'|]. split; [eapply idext_trans; eassumption|exact C'].
    - inversion Hb; subst. split; [exact A|]. split; [exact B|].
      unfold ranged in *. rewrite Forall_forall in *. intros x Hx. apply dedup_incl in Hx.
      apply in_app_or in Hx. destruct Hx; auto. }
  destruct names as [|n [|n2 r]]; [exact (Hgr (has_dup []) H)| |exact (Hgr (has_dup (n :: n2 :: r)) H)].
  repeat match type of H with
         | (if ?b then _ else _) = _ => destruct b
         | RErr _ = _ => discriminate
         end; try (apply (Hnp _ H)).
  - inversion H; subst. split; [exact I|]. split; [apply idext_refl|apply named_ranged; exact I].
  - inversion H; subst. split; [exact I|]. split; [apply idext_refl|apply unnamed_ranged; exact I].
Qed.

(** Declaring aliases and listing parts only changes these two tables. *)
Lemma add_new_parts_frame : forall ps s, exists pl, add_new_parts ps s = set_parts pl s /\
  (forall x, In x pl <-> In x (parts s) \/ In x ps).
Proof.
  induction ps as [|p ps IH]; intros s.
  - exists (parts s). split; [destruct s; reflexivity|intros; cbn; tauto].
  - unfold add_new_parts. cbn [fold_left]. fold (add_new_parts ps).
    destruct (existsb (Nat.eqb p) (parts s)) eqn:E.
    + destruct (IH s) as [pl [H1 H2]]. exists pl. split; [exact H1|].
      intros x. rewrite H2. apply existsb_In in E. cbn. split; [tauto|].
      intros [H|[<-|H]]; auto.
    + destruct (IH (set_parts (parts s ++ [p]) s)) as [pl [H1 H2]]. exists pl. split; [exact H1|].
      intros x. rewrite H2. cbn. rewrite in_app_iff. cbn. tauto.
Qed.

Lemma define_aliases_frame : forall alias ps s, exists al, define_aliases alias ps s = set_aliases al s /\
  (forall a qs, In (a, qs) al -> In (a, qs) (aliases s) \/ qs = ps \/ exists p, In p ps /\ qs = [p]).
Proof.
  intros alias ps s. unfold define_aliases.
  assert (G : forall (olds : list (pid * list string)) s0 al0,
    s0 = set_aliases al0 s ->
    (forall p l, In (p, l) olds -> In p ps) ->
    (forall a qs, In (a, qs) al0 -> In (a, qs) (aliases s) \/ qs = ps \/ exists p, In p ps /\ qs = [p]) ->
    exists al, fold_left (fun s '(p, old) =>
       fold_left (fun s a => set_alias (alias ++ "." ++ a) [p] s) old
                 (set_alias (alias ++ "." ++ pname (getp s p)) [p] s)) olds s0 = set_aliases al s /\
     (forall a qs, In (a, qs) al -> In (a, qs) (aliases s) \/ qs = ps \/ exists p, In p ps /\ qs = [p])).
  { induction olds as [|[p old] olds IH]; intros s0 al0 H0 Hin Hal; cbn [fold_left].
    - exists al0. split; [exact H0|exact Hal].
    - assert (G2 : forall (old : list string) s1 al1, s1 = set_aliases al1 s -> In p ps ->
        (forall a qs, In (a, qs) al1 -> In (a, qs) (aliases s) \/ qs = ps \/ exists p, In p ps /\ qs = [p]) ->
        exists al, fold_left (fun s a => set_alias (alias ++ "." ++ a) [p] s) old s1 = set_aliases al s /\
        (forall a qs, In (a, qs) al -> In (a, qs) (aliases s) \/ qs = ps \/ exists p, In p ps /\ qs = [p])).
      { clear. induction old as [|a old IH]; intros s1 al1 H1 Hp Hal; cbn [fold_left].
        - exists al1; auto.
        - eapply IH; [|exact Hp|].
          + rewrite H1. unfold set_alias. cbn. reflexivity.
          + intros a' qs Hq. apply in_aset in Hq. destruct Hq as [->|Hq]; [right; right; exists p; auto|auto]. }
      destruct (G2 old (set_alias (alias ++ "." ++ pname (getp s0 p)) [p] s0)
                   (aset String.eqb (alias ++ "." ++ pname (getp s0 p))%string [p] al0)) as [al1 [H1 Hal1]].
      { rewrite H0. reflexivity. }
      { eapply Hin. left; reflexivity. }
      { intros a' qs Hq. apply in_aset in Hq. destruct Hq as [->|Hq]; [|auto].
        right; right. exists p. split; [eapply Hin; left; reflexivity|reflexivity]. }
      eapply IH; [exact H1| |exact Hal1]. intros; eapply Hin; right; eassumption. }
  eapply G; [unfold set_alias; reflexivity| |].
  - intros p l Hp. apply in_map_iff in Hp. destruct Hp as [x [Hx Hin]]. inversion Hx; subst. exact Hin.
  - intros a qs Hq. apply in_aset in Hq. destruct Hq as [->|Hq]; auto.
Qed.

Lemma run_part_inv : forall names alias s s', inv s -> run_part names alias s = (s', Ok) ->
  inv s' /\ idext s s'.
Proof.
  intros names alias s s' I H. unfold run_part in H.
  destruct (vend_inv s I) as [I0 X0]. set (s0 := run_voice_end s) in *.
  destruct (determine_parts names alias s0) as [[ps s1]|m|m] eqn:E; try discriminate.
  destruct (determine_parts_inv _ _ _ _ _ I0 E) as (I1 & X1 & R1).
  set (s2 := match parts s1, ps with
             | [], p0 :: _ => modp p0 (set_pmaster true) s1
             | _, _ => s1
             end) in *.
  assert (H2 : (set_current ps (let s3 := add_new_parts ps s2 in
                 if is_empty_string alias then s3 else define_aliases alias ps s3), Ok) = (s', Ok)).
  { unfold s2 in *. destruct (parts s1); [destruct ps; [discriminate|]|]; exact H. }
  clear H.
  assert (I2 : inv s2 /\ idext s1 s2 /\ ranged s2 ps).
  { unfold s2. destruct (parts s1); [destruct ps as [|p0 ps]|].
    - split; [exact I1|]. split; [apply idext_refl|exact R1].
    - inversion R1 as [|? ? Hp0 _]; subst.
      destruct (getp_good s1 p0 I1 Hp0) as (_ & _ & _ & _ & A5 & A6 & A7).
      destruct (inv_setp s1 p0 (set_pmaster true (getp s1 p0)) I1 Hp0) as [I2 X2];
        try reflexivity; try assumption.
      split; [exact I2|]. split; [exact X2|]. eapply ranged_ext; [exact X2|exact R1].
    - split; [exact I1|]. split; [apply idext_refl|exact R1]. }
  destruct I2 as (I2 & X2 & R2). clearbody s2.
  assert (X : idext s s2) by (eapply idext_trans; [exact X0|eapply idext_trans; eassumption]).
  destruct (add_new_parts_frame ps s2) as [pl [Hpl1 Hpl2]].
  cbv zeta in H2. rewrite Hpl1 in H2.
  assert (Hal : exists al, (if is_empty_string alias then set_parts pl s2
                            else define_aliases alias ps (set_parts pl s2))
                           = set_aliases al (set_parts pl s2) /\
     (forall a qs, In (a, qs) al -> In (a, qs) (aliases s2) \/ qs = ps \/ exists p, In p ps /\ qs = [p])).
  { destruct (is_empty_string alias).
    - exists (aliases s2). split; [destruct s2; reflexivity|auto].
    - exact (define_aliases_frame alias ps (set_parts pl s2)). }
  destruct Hal as [al [Hal1 Hal2]]. rewrite Hal1 in H2. inversion H2; subst s'; clear H2.
  match goal with |- inv ?x /\ _ => set (s5 := x) end.
  assert (X5 : idext s2 s5) by (split; [apply le_n|intros; repeat split]).
  split; [|eapply idext_trans; eassumption].
  destruct (inv_events_frame s2 s5 I2 X5 eq_refl eq_refl) as (E1 & E2 & E3).
  destruct I2. constructor; try assumption; cbn.
  - rewrite Forall_forall in *. intros x Hx. apply Hpl2 in Hx. unfold ranged in R2.
    rewrite Forall_forall in R2. destruct Hx; auto.
  - intros a qs Hq. apply Hal2 in Hq. destruct Hq as [Hq|[->|[p [Hp ->]]]].
    + eapply inv_alias0; exact Hq.
    + exact R2.
    + constructor; [|constructor]. unfold ranged in R2. rewrite Forall_forall in R2. auto.
Qed.

(* ----------------------- all steps ----------------------- *)

Lemma step_inv : forall s s', inv s -> step s s' -> inv s' /\ idext s s'.
Proof.
  intros s s' I H. destruct H.
  - pose proof (in_cur s p I H) as Hp. destruct H0 as (A1 & A2 & A3 & A4 & A5 & A6 & A7 & A8).
    destruct (getp_good s p I Hp) as (_ & _ & _ & _ & B5 & B6 & B7).
    apply inv_setp; try assumption; try congruence.
    + rewrite A4, A2. exact B5.
    + rewrite A6. exact B7.
  - pose proof (in_cur s p I H) as Hp.
    destruct (getp_good s p I Hp) as (_ & _ & _ & _ & B5 & B6 & B7).
    apply inv_setp; try assumption; try reflexivity.
  - eapply emit_inv; eassumption.
  - split; [|apply (idext_refl s)]. destruct I; constructor; assumption.
  - split; [|apply (idext_refl s)]. destruct I; constructor; assumption.
  - split; [|apply (idext_refl s)]. destruct I; constructor; assumption.
  - split; [|apply (idext_refl s)]. destruct I; constructor; assumption.
  - eapply voice_step_inv; eassumption.
  - apply vend_inv; exact I.
  - eapply run_part_inv; eassumption.
Qed.

Lemma star_inv_idext : forall s s', star s s' -> inv s -> inv s' /\ idext s s'.
Proof.
  intros s s' H I. induction H as [|t u H IH Hs]; [split; [exact I|apply idext_refl]|].
  destruct IH as [I1 X1]. destruct (step_inv _ _ I1 Hs) as [I2 X2].
  split; [exact I2|eapply idext_trans; eassumption].
Qed.

Lemma reachable_inv : forall s, reachable s -> inv s.
Proof. intros s H. apply star_inv_idext in H; [apply H|apply inv_new]. Qed.
End Inv.
