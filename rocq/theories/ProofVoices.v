(** Second invariant of reachable scores: parts, current parts, aliases and
    voices fit together (C19-C23). *)
From Coq Require Import ZArith List String Bool Lia Arith.
From Verif Require Import Base Num ModelPitch ModelDuration ModelInstruments ModelTypes ModelLisp
  ModelScore ProofHeap ProofStep ProofInv.
Import ListNotations.

Section Voices.
Context {N : Num}.
Local Opaque stock_instrument.

Definition org (s : score) (p : pid) : pid := porigin (getp s p).
Definition cellof (s : score) (p : pid) : list (Z * pid) := getv s (pvoices (getp s p)).
(** What voice handling looks at in a part. *)
Definition vid (p : part) := (porigin p, pvoices p, ptmpl p, pmaster p).
Definition sib (s : score) (q v : pid) : Prop :=
  (v < List.length (heap s))%nat /\ vid (getp s v) = vid (getp s q).
Definition closed (s : score) (q : pid) : Prop := cellof s q = [] /\ ptmpl (getp s q) = None.
Definition opened (s : score) (q : pid) : Prop :=
  exists t, ptmpl (getp s q) = Some t /\ cellof s q <> [] /\ sib s q t /\
            NoDup (map fst (cellof s q)) /\
            forall n v, In (n, v) (cellof s q) -> sib s q v.
Definition link (s : score) (q p : pid) : Prop := p = q \/ exists n, In (n, p) (cellof s q).

Record vinv (s : score) : Prop := VInv {
  vi_parts : NoDup (map (org s) (parts s));
  vi_cells : forall q r, In q (parts s) -> In r (parts s) ->
    pvoices (getp s q) = pvoices (getp s r) -> q = r;
  vi_alias : forall a ps, In (a, ps) (aliases s) -> NoDup ps /\ incl ps (parts s);
  vi_cur : NoDup (map (org s) (current s));
  vi_link : forall p, In p (current s) -> exists q, In q (parts s) /\ link s q p;
  vi_state : forall q, In q (parts s) ->
    closed s q \/ (opened s q /\ exists p, In p (current s) /\ org s p = org s q);
  vi_master : parts s = [] \/ exists q, In q (parts s) /\ pmaster (getp s q) = true /\
    forall r, In r (parts s) -> pmaster (getp s r) = true -> r = q;
  vi_events : forall e, In e (events s) -> In (ev_part e) (map (org s) (parts s)) }.

Lemma vinv_new : vinv new_score.
Proof.
  constructor; cbn.
  - constructor.
  - intros q r [].
  - intros a ps [].
  - constructor.
  - intros p [].
  - intros q [].
  - left; reflexivity.
  - intros e [].
Qed.

Lemma vid_org : forall s s' p, vid (getp s' p) = vid (getp s p) -> org s' p = org s p.
Proof. intros s s' p H. unfold vid, org in *. congruence. Qed.

Lemma NoDup_map_inj : forall A B (f : A -> B) l x y,
  NoDup (map f l) -> In x l -> In y l -> f x = f y -> x = y.
Proof.
  intros A B f l. induction l as [|a l IH]; intros x y H Hx Hy E; [destruct Hx|].
  inversion H; subst. destruct Hx as [<-|Hx], Hy as [<-|Hy]; auto.
  - exfalso. apply H2. rewrite E. apply in_map; exact Hy.
  - exfalso. apply H2. rewrite <- E. apply in_map; exact Hx.
Qed.
Lemma NoDup_map_NoDup : forall A B (f : A -> B) l, NoDup (map f l) -> NoDup l.
Proof.
  intros A B f l. induction l as [|a l IH]; intros H; [constructor|].
  inversion H; subst. constructor; [|auto]. intros Hin. apply H2. apply in_map; exact Hin.
Qed.

(** Steps that change neither identities nor the tables. *)
Lemma sib_congr : forall s s', (List.length (heap s) <= List.length (heap s'))%nat ->
  (forall p, vid (getp s' p) = vid (getp s p)) ->
  forall q v, sib s q v -> sib s' q v.
Proof. intros s s' L H q v [A B]. split; [lia|]. rewrite !H. exact B. Qed.

Lemma vinv_congr : forall s s', (List.length (heap s) <= List.length (heap s'))%nat ->
  (forall p, vid (getp s' p) = vid (getp s p)) ->
  vheap s' = vheap s -> parts s' = parts s -> current s' = current s -> aliases s' = aliases s ->
  (forall e, In e (events s') -> In (ev_part e) (map (org s) (parts s))) ->
  vinv s -> vinv s'.
Proof.
  intros s s' L H Hv Hp Hc Ha He I.
  assert (Ho : forall p, org s' p = org s p) by (intros; apply vid_org; apply H).
  assert (Hm : forall l, map (org s') l = map (org s) l) by (intros; apply map_ext; exact Ho).
  assert (Hvo : forall p, pvoices (getp s' p) = pvoices (getp s p)).
  { intros p. specialize (H p). unfold vid in H. congruence. }
  assert (Htm : forall p, ptmpl (getp s' p) = ptmpl (getp s p)).
  { intros p. specialize (H p). unfold vid in H. congruence. }
  assert (Hma : forall p, pmaster (getp s' p) = pmaster (getp s p)).
  { intros p. specialize (H p). unfold vid in H. congruence. }
  assert (Hce : forall p, cellof s' p = cellof s p).
  { intros p. unfold cellof, getv. rewrite Hvo, Hv. reflexivity. }
  destruct I. constructor.
  - rewrite Hp, Hm. assumption.
  - intros q r. rewrite Hp, !Hvo. apply vi_cells0.
  - rewrite Ha, Hp. assumption.
  - rewrite Hc, Hm. assumption.
  - intros p. rewrite Hc, Hp. intros Hin. destruct (vi_link0 p Hin) as [q [A B]]. exists q.
    split; [exact A|]. destruct B as [B|B]; [left; exact B|right]. rewrite Hce. exact B.
  - intros q. rewrite Hp. intros Hq. destruct (vi_state0 q Hq) as [[A B]|[[t (A & B & C & D & E)] [p [F G]]]].
    + left. split; [rewrite Hce; exact A|rewrite Htm; exact B].
    + right. split.
      * exists t. rewrite Hce, Htm. split; [exact A|]. split; [exact B|].
        split; [eapply sib_congr; eassumption|]. split; [exact D|].
        intros n v Hn. eapply sib_congr; [exact L|exact H|]. eapply E; exact Hn.
      * exists p. rewrite Hc, !Ho. auto.
  - rewrite Hp. destruct vi_master0 as [A|[q (A & B & C)]]; [left; exact A|right].
    exists q. split; [exact A|]. rewrite Hma. split; [exact B|]. intros r. rewrite Hma. apply C.
  - intros e Hin. rewrite Hp, Hm. apply He. exact Hin.
Qed.

Lemma vinv_congr0 : forall s s', (List.length (heap s) <= List.length (heap s'))%nat ->
  (forall p, vid (getp s' p) = vid (getp s p)) ->
  vheap s' = vheap s -> parts s' = parts s -> current s' = current s -> aliases s' = aliases s ->
  events s' = events s -> vinv s -> vinv s'.
Proof.
  intros s s' L H Hv Hp Hc Ha He I. eapply vinv_congr; try eassumption.
  rewrite He. apply (vi_events s I).
Qed.

Lemma vid_setp : forall s p v, vid v = vid (getp s p) -> forall q, vid (getp (setp p v s) q) = vid (getp s q).
Proof.
  intros s p v H q. destruct (Nat.lt_ge_cases p (List.length (heap s))) as [Hp|Hp].
  - rewrite getp_setp by exact Hp. destruct (Nat.eqb q p) eqn:E; [|reflexivity].
    apply Nat.eqb_eq in E; subst. exact H.
  - unfold getp, setp. cbn. rewrite upd_nth_out by exact Hp. reflexivity.
Qed.

(** The part whose origin a current part has. *)
Lemma link_org : forall s q p, vinv s -> In q (parts s) -> link s q p -> org s p = org s q.
Proof.
  intros s q p I Hq [->|[n Hn]]; [reflexivity|].
  destruct (vi_state s I q Hq) as [[A _]|[[t (_ & _ & _ & _ & E)] _]].
  - rewrite A in Hn. destruct Hn.
  - destruct (E _ _ Hn) as [_ F]. unfold vid, org in *. congruence.
Qed.

Lemma link_vid : forall s q p, vinv s -> In q (parts s) -> link s q p -> vid (getp s p) = vid (getp s q).
Proof.
  intros s q p I Hq [->|[n Hn]]; [reflexivity|].
  destruct (vi_state s I q Hq) as [[A _]|[[t (_ & _ & _ & _ & E)] _]].
  - rewrite A in Hn. destruct Hn.
  - destruct (E _ _ Hn) as [_ F]. exact F.
Qed.

Lemma in_parts : forall s p, inv s -> In p (parts s) -> (p < List.length (heap s))%nat.
Proof. intros s p I H. pose proof (inv_parts s I) as F. rewrite Forall_forall in F. auto. Qed.

(* ----------------------------- voices ----------------------------- *)

(** Obtaining a voice never fails, and this is what it does. *)
Lemma get_voice_shape : forall s p n q, inv s -> vinv s -> In p (current s) ->
  In q (parts s) -> link s q p ->
  exists v s1, get_voice p n s = ROk (v, s1) /\
    parts s1 = parts s /\ current s1 = current s /\ aliases s1 = aliases s /\ events s1 = events s /\
    (List.length (heap s) <= List.length (heap s1))%nat /\
    List.length (vheap s1) = List.length (vheap s) /\
    (forall r, (r < List.length (heap s))%nat ->
       org s1 r = org s r /\ pvoices (getp s1 r) = pvoices (getp s r) /\
       pmaster (getp s1 r) = pmaster (getp s r) /\
       (org s r <> org s q -> vid (getp s1 r) = vid (getp s r))) /\
    (forall c, c <> pvoices (getp s q) -> getv s1 c = getv s c) /\
    opened s1 q /\ (exists m, In (m, v) (cellof s1 q)) /\ org s1 v = org s q.
Proof.
  intros s p n q I V Hp Hq Hl.
  pose proof (in_cur s p I Hp) as Hpl. pose proof (in_parts s q I Hq) as Hql.
  pose proof (link_vid s q p V Hq Hl) as Hvid.
  assert (Hpv : pvoices (getp s p) = pvoices (getp s q)) by (unfold vid in Hvid; congruence).
  assert (Hpt : ptmpl (getp s p) = ptmpl (getp s q)) by (unfold vid in Hvid; congruence).
  destruct (getp_good s q I Hql) as (_ & _ & _ & _ & _ & Hvr & Htr).
  (* the state once the voice group is open: adding one more voice *)
  assert (G : forall s0, inv s0 -> (List.length (heap s) <= List.length (heap s0))%nat ->
     parts s0 = parts s -> current s0 = current s -> aliases s0 = aliases s -> events s0 = events s ->
     vheap s0 = vheap s ->
     (forall r, (r < List.length (heap s))%nat ->
       org s0 r = org s r /\ pvoices (getp s0 r) = pvoices (getp s r) /\
       pmaster (getp s0 r) = pmaster (getp s r) /\
       (org s r <> org s q -> vid (getp s0 r) = vid (getp s r))) ->
     (exists t, ptmpl (getp s0 q) = Some t /\ ptmpl (getp s0 p) = Some t /\ sib s0 q t /\
        NoDup (map fst (cellof s0 q)) /\ ~ In n (map fst (cellof s0 q)) /\
        forall m v, In (m, v) (cellof s0 q) -> sib s0 q v) ->
     exists v s1, match ptmpl (getp s0 p) with
       | None => RPanic "nil pointer dereference"
       | Some t => let (v, s2) := clone t s0 in
           let cell := pvoices (getp s2 p) in
           ROk (v, setv cell (getv s2 cell ++ [(n, v)]) s2)
       end = ROk (v, s1) /\
    parts s1 = parts s /\ current s1 = current s /\ aliases s1 = aliases s /\ events s1 = events s /\
    (List.length (heap s) <= List.length (heap s1))%nat /\
    List.length (vheap s1) = List.length (vheap s) /\
    (forall r, (r < List.length (heap s))%nat ->
       org s1 r = org s r /\ pvoices (getp s1 r) = pvoices (getp s r) /\
       pmaster (getp s1 r) = pmaster (getp s r) /\
       (org s r <> org s q -> vid (getp s1 r) = vid (getp s r))) /\
    (forall c, c <> pvoices (getp s q) -> getv s1 c = getv s c) /\
    opened s1 q /\ (exists m, In (m, v) (cellof s1 q)) /\ org s1 v = org s q).
  { intros s0 I0 L0 Ep Ec Ea Ee Ev Hr [t (Tq & Tp & Ts & Td & Tn & Tv)].
    rewrite Tp. destruct Ts as [Ts1 Ts2].
    destruct (clone t s0) as [v s2] eqn:Ecl. pose proof Ecl as Ecl2.
    apply clone_inv in Ecl; [|exact I0|exact Ts1].
    destruct Ecl as (I2 & X2 & Hv & HL & Hgv & Hvh & Hcu & Hpa & Hal & Hg).
    assert (Eev : events s2 = events s0) by (unfold clone in Ecl2; inversion Ecl2; reflexivity).
    assert (Hcellp : pvoices (getp s2 p) = pvoices (getp s q)).
    { rewrite Hg by lia. destruct (Hr p Hpl) as (_ & A & _). rewrite A. exact Hpv. }
    cbv zeta. rewrite Hcellp. set (c := pvoices (getp s q)) in *.
    assert (Hcl : (c < List.length (vheap s2))%nat) by (rewrite Hvh, Ev; exact Hvr).
    assert (Hcellq : pvoices (getp s0 q) = c) by (destruct (Hr q Hql) as (_ & A & _); exact A).
    exists v. eexists. split; [reflexivity|].
    cbn [setv set_vheap parts current aliases events heap vheap].
    split; [congruence|]. split; [congruence|]. split; [congruence|]. split; [congruence|].
    split; [lia|]. split; [rewrite upd_nth_length; congruence|].
    set (s3 := setv c _ s2).
    assert (G3 : forall r, getp s3 r = getp s2 r) by reflexivity.
    split.
    { intros r Hrl. unfold org. rewrite G3, Hg by lia. apply Hr. exact Hrl. }
    split.
    { intros d Hd. unfold s3, getv, setv. cbn. rewrite nth_upd_other by congruence.
      rewrite Hvh, Ev. reflexivity. }
    assert (Hc3 : cellof s3 q = cellof s0 q ++ [(n, v)]).
    { unfold cellof, getv. rewrite G3, Hg by lia. rewrite Hcellq. unfold s3. cbn [setv set_vheap vheap].
      rewrite nth_upd_same by exact Hcl. unfold getv. rewrite Hvh. reflexivity. }
    assert (Hsib : forall w, sib s0 q w -> sib s3 q w).
    { intros w [W1 W2]. split; [change (heap s3) with (heap s2); lia|]. rewrite !G3, !Hg by lia. exact W2. }
    assert (Hsv : sib s3 q v).
    { split; [change (heap s3) with (heap s2); lia|]. rewrite !G3, Hgv, Hg by lia.
      rewrite <- Ts2. reflexivity. }
    split.
    { exists t. split; [rewrite G3, Hg by lia; exact Tq|]. rewrite Hc3.
      split; [destruct (cellof s0 q); discriminate|]. split; [apply Hsib; split; assumption|].
      split.
      - rewrite map_app. cbn [map fst].
        clear -Td Tn. induction (map fst (cellof s0 q)) as [|x l IH]; cbn.
        + constructor; [intros []|constructor].
        + inversion Td; subst. constructor.
          * intros Hin. apply in_app_or in Hin. destruct Hin as [Hin|[<-|[]]]; [auto|]. apply Tn. left; reflexivity.
          * apply IH; [assumption|]. intros Hin. apply Tn. right; exact Hin.
      - intros m w Hw. apply in_app_or in Hw. destruct Hw as [Hw|[Hw|[]]].
        + apply Hsib. eapply Tv; exact Hw.
        + inversion Hw; subst. exact Hsv. }
    split.
    { exists n. rewrite Hc3. apply in_or_app. right; left; reflexivity. }
    destruct Hsv as [_ Hsv]. destruct (Hr q Hql) as (A & _).
    transitivity (org s3 q); [unfold vid, org in *; congruence|].
    unfold org in *. rewrite G3, Hg by lia. exact A. }
  unfold get_voice. rewrite Hpv. fold (cellof s q).
  destruct (aget Z.eqb n (cellof s q)) as [w|] eqn:Ew.
  - apply aget_in in Ew; [|intros; apply Z.eqb_eq].
    exists w, s. split; [reflexivity|]. split; [reflexivity|]. split; [reflexivity|]. split; [reflexivity|].
    split; [reflexivity|]. split; [lia|]. split; [reflexivity|].
    split; [intros; repeat split|]. split; [reflexivity|].
    destruct (vi_state s V q Hq) as [[A _]|[A _]]; [rewrite A in Ew; destruct Ew|].
    split; [exact A|]. split; [exists n; exact Ew|].
    destruct A as [t (_ & _ & _ & _ & A)]. destruct (A _ _ Ew) as [_ B]. unfold vid, org in *. congruence.
  - assert (Hnk : ~ In n (map fst (cellof s q))).
    { clear -Ew. induction (cellof s q) as [|[k x] l IH]; cbn in *; [tauto|].
      destruct (k =? n)%Z eqn:E; [discriminate|]. apply Z.eqb_neq in E. intros [H|H]; [congruence|].
      apply IH; assumption. }
    unfold new_voice, has_voices. rewrite Hpv. fold (cellof s q).
    destruct (vi_state s V q Hq) as [[A B]|[[t (A1 & A2 & A3 & A4 & A5)] _]].
    + rewrite A.
      assert (Hpq : p = q) by (destruct Hl as [Hl|[m Hl]]; [exact Hl|rewrite A in Hl; destruct Hl]).
      subst p. rewrite B. destruct (clone q s) as [t s2] eqn:Ecl. pose proof Ecl as Ecl2.
      cbn [rbind]. apply clone_inv in Ecl; [|exact I|exact Hql].
      destruct Ecl as (I2 & X2 & Hv & HL & Hgv & Hvh & Hcu & Hpa & Hal & Hg).
      assert (Eev : events s2 = events s) by (unfold clone in Ecl2; inversion Ecl2; reflexivity).
      assert (Ht : (t < List.length (heap s2))%nat) by lia.
      destruct (getp_good s2 t I2 Ht) as (_ & _ & _ & _ & B5 & B6 & _).
      destruct (inv_setp s2 t (set_ptmpl (Some t) (getp s2 t)) I2 Ht) as [I3 X3]; try reflexivity; try assumption.
      { cbn. intros x Hx. inversion Hx; subst. exact Ht. }
      change (setp t (set_ptmpl (Some t) (getp s2 t)) s2) with (modp t (set_ptmpl (Some t)) s2) in *.
      set (s3 := modp t (set_ptmpl (Some t)) s2) in *.
      assert (Hp3 : (q < List.length (heap s3))%nat) by (unfold s3; rewrite heap_modp; lia).
      destruct (getp_good s3 q I3 Hp3) as (_ & _ & _ & _ & C5 & C6 & _).
      destruct (inv_setp s3 q (set_ptmpl (Some t) (getp s3 q)) I3 Hp3) as [I4 X4]; try reflexivity; try assumption.
      { intros x Hx. change (Some t = Some x) in Hx. injection Hx as <-.
        unfold s3. rewrite heap_modp. exact Ht. }
      change (setp q (set_ptmpl (Some t) (getp s3 q)) s3) with (modp q (set_ptmpl (Some t)) s3) in *.
      set (s4 := modp q (set_ptmpl (Some t)) s3) in *.
      assert (Hqt : q <> t) by lia.
      assert (Gq : getp s4 q = set_ptmpl (Some t) (getp s q)).
      { unfold s4. rewrite getp_modp_same by exact Hp3. unfold s3. rewrite getp_modp_other by congruence.
        rewrite Hg by lia. reflexivity. }
      assert (Gt : getp s4 t = set_ptmpl (Some t) (set_povr None (getp s q))).
      { unfold s4. rewrite getp_modp_other by exact Hqt. unfold s3. rewrite getp_modp_same by exact Ht.
        rewrite Hgv. reflexivity. }
      assert (Go : forall r, (r < List.length (heap s))%nat -> r <> q -> getp s4 r = getp s r).
      { intros r Hr Hrq. unfold s4. rewrite getp_modp_other by congruence. unfold s3.
        rewrite getp_modp_other by lia. apply Hg; exact Hr. }
      assert (H4 : List.length (heap s4) = List.length (heap s2)) by (unfold s4, s3; rewrite !heap_modp; reflexivity).
      assert (Hc4 : cellof s4 q = []).
      { rewrite <- A. unfold cellof, getv. rewrite Gq. unfold s4, s3, modp, setp. cbn. rewrite Hvh. reflexivity. }
      apply G; try assumption; try (unfold s4, s3, modp, setp; cbn; congruence).
      * rewrite H4. lia.
      * intros r Hr. unfold org. destruct (Nat.eq_dec r q) as [->|Hne].
        -- rewrite Gq. cbn. repeat split; try reflexivity. intros E; congruence.
        -- rewrite Go by assumption. repeat split.
      * exists t. rewrite Gq, Hc4. split; [reflexivity|]. split; [reflexivity|].
        split; [|split; [constructor|split; [intros []|intros m v []]]].
        split; [lia|]. rewrite Gt, Gq. reflexivity.
    + destruct (cellof s q) as [|x l] eqn:Ecell; [congruence|]. cbn [rbind]. rewrite <- Ecell in *.
      apply G; try assumption; try reflexivity.
      * intros r Hr. repeat split.
      * exists t. split; [exact A1|]. split; [rewrite Hpt; exact A1|].
        split; [exact A3|]. split; [exact A4|]. split; [exact Hnk|exact A5].
Qed.

Lemma redirect_one : forall s o v l, NoDup (map (org s) l) -> org s v = o ->
  map (org s) (redirect s o v l) = map (org s) l.
Proof.
  intros s o v l _ Hv. unfold redirect. rewrite map_map. apply map_ext. intros q.
  unfold org in *. destruct (Nat.eqb (porigin (getp s q)) o) eqn:E; [|reflexivity].
  apply Nat.eqb_eq in E. congruence.
Qed.

Lemma redirect_in2 : forall s o v l q, In q (redirect s o v l) ->
  (q = v /\ exists r, In r l /\ org s r = o) \/ (In q l /\ org s q <> o).
Proof.
  intros s o v l q H. unfold redirect in H. apply in_map_iff in H. destruct H as [x [Hx Hin]].
  destruct (Nat.eqb _ _) eqn:E; subst.
  - apply Nat.eqb_eq in E. left; split; [reflexivity|]. exists x. auto.
  - apply Nat.eqb_neq in E. right; auto.
Qed.

Lemma in_redirect : forall s o v l r, In r l -> org s r = o -> In v (redirect s o v l).
Proof.
  intros s o v l r H E. unfold redirect. apply in_map_iff. exists r. split; [|exact H].
  unfold org in E. rewrite E, Nat.eqb_refl. reflexivity.
Qed.
Lemma in_redirect_other : forall s o v l r, In r l -> org s r <> o -> In r (redirect s o v l).
Proof.
  intros s o v l r H E. unfold redirect. apply in_map_iff. exists r. split; [|exact H].
  unfold org in E. apply Nat.eqb_neq in E. rewrite E. reflexivity.
Qed.

Lemma map_org_eq : forall s s' l, (forall r, In r l -> org s' r = org s r) -> map (org s') l = map (org s) l.
Proof. intros. apply map_ext_in. assumption. Qed.

Lemma other_org : forall s q r, vinv s -> In q (parts s) -> In r (parts s) -> r <> q -> org s r <> org s q.
Proof.
  intros s q r V Hq Hr Hne E. apply Hne. eapply NoDup_map_inj; [apply (vi_parts s V)| | |]; eassumption.
Qed.

Lemma voice_step_vinv : forall s p n v s1, inv s -> vinv s -> In p (current s) ->
  get_voice p n s = ROk (v, s1) ->
  vinv (set_current (redirect s1 (porigin (getp s1 p)) v (current s1)) s1).
Proof.
  intros s p n v s1 I V Hp H.
  destruct (vi_link s V p Hp) as [q [Hq Hl]].
  destruct (get_voice_shape s p n q I V Hp Hq Hl)
    as (v' & s1' & H' & Ep & Ec & Ea & Ee & L & Lv & Hr & Hcell & Hop & [m Hm] & Hov).
  rewrite H' in H. inversion H; subst v' s1'. clear H'.
  pose proof (link_org s q p V Hq Hl) as Hpo.
  pose proof (in_cur s p I Hp) as Hpl. pose proof (in_parts s q I Hq) as Hql.
  set (o := porigin (getp s1 p)).
  assert (Ho : o = org s q).
  { unfold o. destruct (Hr p Hpl) as (A & _). unfold org in *. congruence. }
  set (s2 := set_current _ s1).
  assert (Hpar : forall r, In r (parts s) -> org s1 r = org s r).
  { intros r Hin. apply Hr. eapply in_parts; eassumption. }
  assert (Hcur : forall r, In r (current s) -> org s1 r = org s r).
  { intros r Hin. apply Hr. eapply in_cur; eassumption. }
  assert (Hcp : forall r, In r (parts s) -> r <> q -> cellof s1 r = cellof s r).
  { intros r Hin Hne. unfold cellof. destruct (Hr r) as (_ & A & _); [eapply in_parts; eassumption|].
    rewrite A. apply Hcell. intros E. apply Hne. eapply (vi_cells s V); eassumption. }
  assert (Hcov : NoDup (map (org s1) (current s1))).
  { rewrite Ec, (map_org_eq s s1) by exact Hcur. apply (vi_cur s V). }
  assert (Hv1 : org s1 v = o) by congruence.
  constructor; cbn [s2 set_current parts current aliases events].
  - change (org s2) with (org s1). rewrite Ep, (map_org_eq s s1) by exact Hpar. apply (vi_parts s V).
  - change (getp s2) with (getp s1). rewrite Ep. intros a b Ha Hb E.
    destruct (Hr a) as (_ & A & _); [eapply in_parts; eassumption|].
    destruct (Hr b) as (_ & B & _); [eapply in_parts; eassumption|].
    rewrite A, B in E. eapply (vi_cells s V); eassumption.
  - rewrite Ea, Ep. apply (vi_alias s V).
  - change (org s2) with (org s1). rewrite redirect_one; assumption.
  - intros r Hin. apply redirect_in2 in Hin. rewrite Ep. destruct Hin as [[-> _]|[Hin Hne]].
    + exists q. split; [exact Hq|]. right. exists m. exact Hm.
    + rewrite Ec in Hin. destruct (vi_link s V r Hin) as [q' [Hq' Hl']].
      exists q'. split; [exact Hq'|].
      assert (q' <> q).
      { intros ->. apply Hne. rewrite Hcur by exact Hin. rewrite (link_org s q r V Hq Hl'). congruence. }
      destruct Hl' as [->|[k Hk]]; [left; reflexivity|right; exists k].
      change (cellof s2 q') with (cellof s1 q'). rewrite Hcp by assumption. exact Hk.
  - rewrite Ep. intros r Hin. destruct (Nat.eq_dec r q) as [->|Hne].
    + right. split; [exact Hop|]. exists v. split; [|change (org s1 v = org s1 q); rewrite (Hpar q Hq); congruence].
      eapply in_redirect with (r := p); [rewrite Ec; exact Hp|]. unfold o, org; reflexivity.
    + pose proof (other_org s q r V Hq Hin Hne) as Hoo.
      pose proof (in_parts s r I Hin) as Hrl.
      destruct (Hr r Hrl) as (R1 & R2 & R3 & R4). specialize (R4 Hoo).
      destruct (vi_state s V r Hin) as [[A B]|[[t (A1 & A2 & [A3 A3'] & A4 & A5)] [p' [B1 B2]]]].
      * left. split; [change (cellof s2 r) with (cellof s1 r); rewrite Hcp by assumption; exact A|].
        change (getp s2) with (getp s1). unfold vid in R4. congruence.
      * right. split.
        -- assert (Hsb : forall w, sib s r w -> sib s2 r w).
           { intros w [W1 W2]. split; [change (heap s2) with (heap s1); lia|].
             change (getp s2) with (getp s1). rewrite R4. destruct (Hr w W1) as (_ & _ & _ & W).
             rewrite W; [exact W2|]. unfold org, vid in *. congruence. }
           exists t. change (cellof s2 r) with (cellof s1 r). change (getp s2) with (getp s1).
           rewrite Hcp by assumption.
           split; [unfold vid in R4; congruence|]. split; [exact A2|]. split; [apply Hsb; split; assumption|].
           split; [exact A4|]. intros k w Hw. apply Hsb. eapply A5; exact Hw.
        -- exists p'. change (org s2) with (org s1). rewrite Hcur by exact B1. rewrite R1.
           split; [|exact B2]. apply in_redirect_other; [rewrite Ec; exact B1|].
           rewrite Hcur by exact B1. congruence.
  - rewrite Ep. change (getp s2) with (getp s1).
    destruct (vi_master s V) as [A|[r (A & B & C)]]; [left; exact A|right]. exists r.
    assert (Hma : forall x, In x (parts s) -> pmaster (getp s1 x) = pmaster (getp s x)).
    { intros x Hx. apply Hr. eapply in_parts; eassumption. }
    split; [exact A|]. split; [rewrite Hma by exact A; exact B|].
    intros x Hx Hm'. rewrite Hma in Hm' by exact Hx. auto.
  - rewrite Ee, Ep. change (org s2) with (org s1). rewrite (map_org_eq s s1) by exact Hpar.
    apply (vi_events s V).
Qed.

(** Closing the voice group of one current part. *)
Lemma vend_one_vinv : forall i p s, inv s -> vinv s -> nth_error (current s) i = Some p ->
  let s' := voice_end_one i p s in
  vinv s' /\ List.length (current s') = List.length (current s) /\
  map (org s') (parts s') = map (org s) (parts s) /\
  map (org s') (current s') = map (org s) (current s) /\
  (forall j, j <> i -> nth_error (current s') j = nth_error (current s) j) /\
  (forall r, In r (current s) -> org s r <> org s p -> cellof s' r = cellof s r) /\
  (exists lv, nth_error (current s') i = Some lv /\ cellof s' lv = []).
Proof.
  intros i p s I V Hi. cbv zeta. assert (Hp : In p (current s)) by (eapply nth_error_In; exact Hi).
  pose proof (in_cur s p I Hp) as Hpl.
  unfold voice_end_one. destruct (getv s (pvoices (getp s p))) as [|x vs] eqn:E.
  { split; [exact V|]. split; [reflexivity|]. split; [reflexivity|]. split; [reflexivity|].
    split; [reflexivity|]. split; [reflexivity|]. exists p. auto. }
  destruct (vi_link s V p Hp) as [q [Hq Hl]].
  pose proof (link_vid s q p V Hq Hl) as Hvid. pose proof (link_org s q p V Hq Hl) as Hpo.
  pose proof (in_parts s q I Hq) as Hql.
  assert (Hcq : cellof s q = x :: vs).
  { unfold cellof. replace (pvoices (getp s q)) with (pvoices (getp s p)); [exact E|unfold vid in Hvid; congruence]. }
  destruct (vi_state s V q Hq) as [[A _]|[[t (A1 & A2 & A3 & A4 & A5)] _]]; [congruence|].
  set (lv := last_to_finish s (x :: vs) p).
  destruct (last_to_finish_in s (x :: vs) p) as [n Hn]; [discriminate|]. fold lv in Hn.
  rewrite <- Hcq in Hn. destruct (A5 _ _ Hn) as [Hlv Hlvid].
  assert (Hlo : org s lv = org s q) by (unfold vid, org in *; congruence).
  set (cell := List.length (vheap s)).
  set (s1 := set_vheap (vheap s ++ [[]]) s).
  set (s2 := modp lv (fun q => set_ptmpl None (set_pvoices cell q)) s1).
  assert (Glv : getp s2 lv = set_ptmpl None (set_pvoices cell (getp s lv))).
  { unfold s2. rewrite getp_modp_same by exact Hlv. reflexivity. }
  assert (Go : forall r, r <> lv -> getp s2 r = getp s r).
  { intros r Hr. unfold s2. rewrite getp_modp_other by congruence. reflexivity. }
  assert (Gor : forall r, org s2 r = org s r).
  { intros r. unfold org. destruct (Nat.eq_dec r lv) as [->|Hne]; [rewrite Glv; reflexivity|rewrite Go by exact Hne; reflexivity]. }
  assert (Gma : forall r, pmaster (getp s2 r) = pmaster (getp s r)).
  { intros r. destruct (Nat.eq_dec r lv) as [->|Hne]; [rewrite Glv; reflexivity|rewrite Go by exact Hne; reflexivity]. }
  assert (Hgv : forall c, getv s2 c = getv s c).
  { intros c. unfold getv, s2, s1, modp, setp. cbn.
    destruct (Nat.lt_ge_cases c (List.length (vheap s))) as [Hc|Hc].
    - apply app_nth1; exact Hc.
    - rewrite app_nth2 by exact Hc. rewrite (nth_overflow (vheap s)) by exact Hc.
      destruct (c - List.length (vheap s))%nat as [|[|k]]; reflexivity. }
  assert (Hcell0 : getv s2 cell = []) by (rewrite Hgv; unfold getv; apply nth_overflow; apply le_n).
  set (s3 := set_current (upd_nth i lv (current s2)) s2).
  assert (Ho : porigin (getp s3 p) = org s q).
  { change (getp s3 p) with (getp s2 p). change (org s2 p = org s q). rewrite Gor. exact Hpo. }
  rewrite Ho. set (o := org s q) in *.
  set (s4 := set_parts (redirect s3 o lv (parts s3)) s3).
  match goal with |- vinv ?x /\ _ => set (s5 := x) end.
  assert (G5 : forall r, getp s5 r = getp s2 r) by reflexivity.
  assert (O5 : forall r, org s5 r = org s r) by (intros; apply Gor).
  assert (P5 : parts s5 = redirect s2 o lv (parts s)) by reflexivity.
  assert (C5 : current s5 = upd_nth i lv (current s)) by reflexivity.
  assert (Hred : forall l, redirect s2 o lv l = map (fun r => if Nat.eqb (org s r) o then lv else r) l).
  { intros l. unfold redirect. apply map_ext. intros r. fold (org s2 r). rewrite Gor. reflexivity. }
  assert (MP : map (org s5) (parts s5) = map (org s) (parts s)).
  { rewrite P5, Hred, map_map. apply map_ext. intros r. rewrite O5.
    destruct (Nat.eqb (org s r) o) eqn:Eo; [apply Nat.eqb_eq in Eo; congruence|reflexivity]. }
  assert (Hil : (i < List.length (current s))%nat) by (apply nth_error_Some; congruence).
  assert (MC : map (org s5) (current s5) = map (org s) (current s)).
  { rewrite C5, (map_org_eq s s5) by (intros; apply O5).
    rewrite upd_nth_map. apply upd_nth_self. rewrite Hlo. apply map_nth_error with (f := org s) in Hi.
    rewrite Hi. f_equal. exact Hpo. }
  assert (Hnlv : forall r, In r (parts s) -> r <> q -> r <> lv).
  { intros r Hr Hne ->. apply (other_org s q lv V Hq Hr Hne). exact Hlo. }
  assert (Hcr : forall r, r <> lv -> cellof s5 r = cellof s r).
  { intros r Hr. unfold cellof. rewrite G5, Go by exact Hr. change (getv s5) with (getv s2). apply Hgv. }
  assert (Hclv : cellof s5 lv = []).
  { unfold cellof. rewrite G5, Glv. change (getv s5) with (getv s2). exact Hcell0. }
  assert (Hin5 : forall r, In r (parts s5) -> r = lv \/ (In r (parts s) /\ r <> q /\ org s r <> o)).
  { intros r Hr. rewrite P5 in Hr. apply redirect_in2 in Hr. destruct Hr as [[-> _]|[Hr Hne]]; [auto|].
    rewrite Gor in Hne. right. split; [exact Hr|]. split; [intros ->; apply Hne; reflexivity|exact Hne]. }
  assert (Hlvin : In lv (parts s5)).
  { rewrite P5. eapply in_redirect with (r := q); [exact Hq|]. rewrite Gor. reflexivity. }
  split.
  { constructor.
    - rewrite MP. apply (vi_parts s V).
    - intros a b Ha Hb Hab. rewrite !G5 in Hab. apply Hin5 in Ha. apply Hin5 in Hb.
      assert (Hfar : forall r, In r (parts s) -> r <> q -> pvoices (getp s2 r) <> cell).
      { intros r Hr Hne. rewrite Go by (apply Hnlv; assumption).
        pose proof (in_parts s r I Hr) as Hrl. destruct (getp_good s r I Hrl) as (_ & _ & _ & _ & _ & B & _).
        unfold cell. lia. }
      destruct Ha as [->|(Ha & Ha2 & Ha3)], Hb as [->|(Hb & Hb2 & Hb3)]; [reflexivity| | |].
      + exfalso. rewrite Glv in Hab. cbn [set_ptmpl set_pvoices pvoices] in Hab. apply (Hfar b Hb Hb2). congruence.
      + exfalso. rewrite Glv in Hab. cbn [set_ptmpl set_pvoices pvoices] in Hab. apply (Hfar a Ha Ha2). congruence.
      + rewrite !Go in Hab by (apply Hnlv; assumption). eapply (vi_cells s V); eassumption.
    - intros a ps Hin. unfold s5 in Hin. cbn [set_aliases aliases] in Hin.
      apply in_map_iff in Hin. destruct Hin as [[a' ps'] [Ha Hin]]. inversion Ha; subst a' ps. clear Ha.
      destruct (vi_alias s V a ps' Hin) as [D1 D2].
      change (redirect s4 o lv ps') with (redirect s2 o lv ps'). rewrite Hred. split.
      + assert (ND : NoDup (map (org s) ps')).
        { assert (Hinj : forall x y, In x ps' -> In y ps' -> org s x = org s y -> x = y).
          { intros x' y' Hx Hy Hxy. eapply NoDup_map_inj; [apply (vi_parts s V)|apply D2; exact Hx|apply D2; exact Hy|exact Hxy]. }
          clear -D1 Hinj. induction D1 as [|y l Hn Hd IH]; [constructor|]. cbn. constructor.
          - intros Hin. apply in_map_iff in Hin. destruct Hin as [z [Hz Hin]]. apply Hn.
            rewrite <- (Hinj z y); [exact Hin|right; exact Hin|left; reflexivity|exact Hz].
          - apply IH. intros; apply Hinj; try right; assumption. }
        eapply NoDup_map_NoDup with (f := org s). rewrite map_map.
        erewrite map_ext; [exact ND|]. intros r. cbn beta.
        destruct (Nat.eqb (org s r) o) eqn:Eo; [apply Nat.eqb_eq in Eo; congruence|reflexivity].
      + intros r Hr. rewrite P5, Hred. apply in_map_iff in Hr. destruct Hr as [z [Hz Hin2]].
        apply in_map_iff. exists z. split; [exact Hz|apply D2; exact Hin2].
    - rewrite MC. apply (vi_cur s V).
    - intros r Hr. rewrite C5 in Hr.
      assert (Hr' : r = lv \/ (In r (current s) /\ org s r <> o)).
      { apply In_nth_error in Hr. destruct Hr as [j Hj]. destruct (Nat.eq_dec j i) as [->|Hji].
        - rewrite nth_error_upd_same in Hj by exact Hil. left; congruence.
        - rewrite nth_error_upd_other in Hj by congruence. right. split; [eapply nth_error_In; exact Hj|].
          intros Hoo. apply Hji.
          pose proof (vi_cur s V) as ND. rewrite NoDup_nth_error in ND.
          apply ND; [rewrite map_length; apply nth_error_Some; congruence|].
          apply map_nth_error with (f := org s) in Hj. apply map_nth_error with (f := org s) in Hi.
          rewrite Hi, Hj. f_equal. congruence. }
      destruct Hr' as [->|[Hr' Hne]].
      + exists lv. split; [exact Hlvin|]. left; reflexivity.
      + destruct (vi_link s V r Hr') as [q' [Hq' Hl']].
        assert (Hq'q : q' <> q) by (intros ->; apply Hne; apply (link_org s q r V Hq Hl')).
        exists q'. split.
        * rewrite P5. apply in_redirect_other; [exact Hq'|]. rewrite Gor. apply (other_org s q q' V Hq Hq' Hq'q).
        * destruct Hl' as [->|[k Hk]]; [left; reflexivity|right; exists k].
          rewrite Hcr by (apply Hnlv; assumption). exact Hk.
    - intros r Hr. apply Hin5 in Hr. destruct Hr as [->|(Hr & Hne & Hoo)].
      + left. split; [exact Hclv|rewrite G5, Glv; reflexivity].
      + assert (Hrlv : r <> lv) by (apply Hnlv; assumption).
        destruct (vi_state s V r Hr) as [[B1 B2]|[[t' (B1 & B2 & B3 & B4 & B5)] [p' [B6 B7]]]].
        * left. split; [rewrite Hcr by exact Hrlv; exact B1|rewrite G5, Go by exact Hrlv; exact B2].
        * right. split.
          -- assert (Hsb : forall w, sib s r w -> sib s5 r w).
             { intros w [W1 W2]. split; [change (heap s5) with (heap s2); unfold s2; rewrite heap_modp; exact W1|].
               rewrite !G5, !Go; [exact W2|exact Hrlv|]. intros ->. apply Hoo. unfold vid, org in *. congruence. }
             exists t'. rewrite Hcr, G5, Go by exact Hrlv. split; [exact B1|]. split; [exact B2|].
             split; [apply Hsb; exact B3|]. split; [exact B4|].
             intros k w Hk. apply Hsb. eapply B5; exact Hk.
          -- exists p'. rewrite !O5. split; [|exact B7]. rewrite C5.
             apply In_nth_error in B6. destruct B6 as [j Hj]. apply nth_error_In with (n := j).
             rewrite nth_error_upd_other; [exact Hj|]. intros <-. apply Hoo. rewrite <- B7. congruence.
    - destruct (vi_master s V) as [B|[r (B1 & B2 & B3)]].
      + rewrite B in Hq. destruct Hq.
      + right. destruct (Nat.eq_dec r q) as [->|Hne].
        * exists lv. split; [exact Hlvin|]. split.
          -- rewrite G5, Gma. unfold vid in Hlvid. congruence.
          -- intros y Hy Hm. rewrite G5, Gma in Hm. apply Hin5 in Hy. destruct Hy as [->|(Hy & Hyq & _)]; [reflexivity|].
             exfalso. apply Hyq. apply B3; assumption.
        * exists r. split; [|split].
          -- rewrite P5. apply in_redirect_other; [exact B1|]. rewrite Gor. apply (other_org s q r V Hq B1 Hne).
          -- rewrite G5, Gma. exact B2.
          -- intros y Hy Hm. rewrite G5, Gma in Hm. apply Hin5 in Hy. destruct Hy as [->|(Hy & Hyq & _)]; [|auto].
             exfalso. apply Hne. symmetry. apply B3; [exact Hq|]. unfold vid in Hlvid. congruence.
    - intros e He. rewrite MP. apply (vi_events s V). exact He. }
  split; [rewrite C5; apply upd_nth_length|]. split; [exact MP|]. split; [exact MC|].
  split; [intros j Hj; rewrite C5; apply nth_error_upd_other; congruence|].
  split.
  - intros r Hr Hne. apply Hcr. intros ->. apply Hne. congruence.
  - exists lv. split; [rewrite C5; apply nth_error_upd_same; exact Hil|exact Hclv].
Qed.

(** The whole voice group end: every current part is closed afterwards. *)
Lemma vend_loop_vinv : forall cnt i s, inv s -> vinv s -> (List.length (current s) = i + cnt)%nat ->
  (forall j p, (j < i)%nat -> nth_error (current s) j = Some p -> cellof s p = []) ->
  let s' := voice_end_loop i cnt s in
  vinv s' /\ map (org s') (parts s') = map (org s) (parts s) /\
  map (org s') (current s') = map (org s) (current s) /\
  forall p, In p (current s') -> cellof s' p = [].
Proof.
  induction cnt as [|k IH]; intros i s I V Hlen Hdone; cbn [voice_end_loop].
  - split; [exact V|]. split; [reflexivity|]. split; [reflexivity|].
    intros p Hp. apply In_nth_error in Hp. destruct Hp as [j Hj]. eapply Hdone; [|exact Hj].
    assert (j < List.length (current s))%nat by (apply nth_error_Some; congruence). lia.
  - destruct (nth_error (current s) i) as [p|] eqn:E.
    2:{ apply nth_error_None in E. lia. }
    destruct (vend_one_vinv i p s I V E) as (V1 & L1 & M1 & M2 & N1 & C1 & [lv [Hlv1 Hlv2]]).
    assert (Hp : In p (current s)) by (eapply nth_error_In; exact E).
    destruct (vend_one_inv i p s I Hp) as [I1 X1].
    set (s1 := voice_end_one i p s) in *.
    destruct (IH (S i) s1 I1 V1) as (V2 & M3 & M4 & C2).
    + lia.
    + intros j r Hj Hr. destruct (Nat.eq_dec j i) as [->|Hji].
      * rewrite Hlv1 in Hr. inversion Hr; subst. exact Hlv2.
      * rewrite N1 in Hr by exact Hji. rewrite C1.
        -- eapply Hdone; [|exact Hr]. lia.
        -- eapply nth_error_In; exact Hr.
        -- intros Ho. apply Hji. pose proof (vi_cur s V) as ND. rewrite NoDup_nth_error in ND. apply ND.
           ++ rewrite map_length. apply nth_error_Some. congruence.
           ++ apply map_nth_error with (f := org s) in Hr. apply map_nth_error with (f := org s) in E. congruence.
    + split; [exact V2|]. split; [congruence|]. split; [congruence|exact C2].
Qed.

Lemma vend_vinv : forall s, inv s -> vinv s ->
  let s' := run_voice_end s in
  vinv s' /\ map (org s') (parts s') = map (org s) (parts s) /\
  map (org s') (current s') = map (org s) (current s) /\
  (forall q, In q (parts s') -> closed s' q) /\ incl (current s') (parts s').
Proof.
  intros s I V. cbv zeta. unfold run_voice_end.
  destruct (vend_loop_vinv (List.length (current s)) 0 s I V) as (V1 & M1 & M2 & C1); [reflexivity|intros; lia|].
  set (s1 := voice_end_loop _ _ _) in *.
  assert (Hcl : forall q, In q (parts s1) -> closed s1 q).
  { intros q Hq. destruct (vi_state s1 V1 q Hq) as [H|[[t (A1 & A2 & A3 & A4 & A5)] [p [B1 B2]]]]; [exact H|].
    exfalso. apply A2. destruct (vi_link s1 V1 p B1) as [q' [Hq' Hl]].
    assert (q' = q).
    { eapply NoDup_map_inj; [apply (vi_parts s1 V1)|exact Hq'|exact Hq|].
      rewrite <- (link_org s1 q' p V1 Hq' Hl). exact B2. }
    subst q'. specialize (C1 p B1). pose proof (link_vid s1 q p V1 Hq Hl) as Hv.
    unfold cellof in *. unfold vid in Hv. congruence. }
  split; [exact V1|]. split; [exact M1|]. split; [exact M2|]. split; [exact Hcl|].
  intros p Hp. destruct (vi_link s1 V1 p Hp) as [q [Hq [->|[n Hn]]]]; [exact Hq|].
  destruct (Hcl q Hq) as [A _]. rewrite A in Hn. destruct Hn.
Qed.

(* ------------------------ part declarations ------------------------ *)

(** Allocation of new parts: the two heaps grow in lock-step. *)
Definition fresh_list (s : score) (hs : list part) : Prop :=
  forall i, (i < List.length hs)%nat -> exists name ins, stock_instrument name = Some ins /\
    nth i hs dead_part = fresh_part name ins (List.length (heap s) + i) (List.length (vheap s) + i).
Definition grows (s s1 : score) : Prop :=
  exists hs, s1 = set_heap (heap s ++ hs) (set_vheap (vheap s ++ map (fun _ => []) hs) s) /\
             fresh_list s hs.

Lemma grows_refl : forall s, grows s s.
Proof.
  intros s. exists []. split.
  - rewrite !app_nil_r. destruct s; reflexivity.
  - intros i Hi. cbn in Hi. lia.
Qed.

Lemma grows_trans : forall a b c, grows a b -> grows b c -> grows a c.
Proof.
  intros a b c [h1 [-> F1]] [h2 [-> F2]]. exists (h1 ++ h2). split.
  - cbn. rewrite map_app, !app_assoc. reflexivity.
  - intros i Hi. rewrite app_length in Hi.
    destruct (Nat.lt_ge_cases i (List.length h1)) as [H|H].
    + rewrite app_nth1 by exact H. apply F1. exact H.
    + rewrite app_nth2 by exact H. destruct (F2 (i - List.length h1)%nat) as (nm & ins & A & B); [lia|].
      exists nm, ins. split; [exact A|]. rewrite B. cbn. rewrite !app_length, map_length.
      f_equal; lia.
Qed.

Lemma new_part_grows : forall name s p s1, new_part name s = ROk (p, s1) ->
  grows s s1 /\ p = List.length (heap s) /\ List.length (heap s1) = S p /\
  exists ins, stock_instrument name = Some ins /\
    getp s1 p = fresh_part name ins p (List.length (vheap s)).
Proof.
  intros name s p s1 H. unfold new_part in H. destruct (stock_instrument name) as [ins|] eqn:E; [|discriminate].
  inversion H; subst p s1; clear H. split; [|split; [reflexivity|split]].
  - exists [fresh_part name ins (List.length (heap s)) (List.length (vheap s))]. split; [reflexivity|].
    intros i Hi. cbn in Hi. assert (i = 0)%nat by lia. subst i. exists name, ins.
    split; [exact E|]. rewrite !Nat.add_0_r. reflexivity.
  - cbn. rewrite app_length. cbn. lia.
  - exists ins. split; [reflexivity|]. unfold getp. cbn. apply nth_app_last.
Qed.

Lemma grows_len : forall s s1, grows s s1 -> (List.length (heap s) <= List.length (heap s1))%nat.
Proof. intros s s1 [hs [-> _]]. cbn. rewrite app_length. lia. Qed.
Lemma grows_tables : forall s s1, grows s s1 -> parts s1 = parts s /\ current s1 = current s /\
  aliases s1 = aliases s /\ events s1 = events s /\ markers s1 = markers s /\ variables s1 = variables s /\
  globals s1 = globals s /\ chordmode s1 = chordmode s /\ usage s1 = usage s.
Proof. intros s s1 [hs [-> _]]. repeat split. Qed.
Lemma grows_old : forall s s1 p, grows s s1 -> (p < List.length (heap s))%nat -> getp s1 p = getp s p.
Proof. intros s s1 p [hs [-> _]] Hp. unfold getp. cbn. apply app_nth1. exact Hp. Qed.
Lemma grows_getv : forall s s1 c, grows s s1 -> getv s1 c = getv s c.
Proof.
  intros s s1 c [hs [-> _]]. unfold getv. cbn.
  destruct (Nat.lt_ge_cases c (List.length (vheap s))) as [H|H].
  - apply app_nth1. exact H.
  - rewrite app_nth2 by exact H. rewrite (nth_overflow (vheap s)) by exact H.
    generalize (c - List.length (vheap s))%nat. induction hs as [|h hs IH]; intros [|k]; cbn; auto.
Qed.
Lemma grows_fresh : forall s s1 p, grows s s1 ->
  (List.length (heap s) <= p < List.length (heap s1))%nat ->
  exists name ins, stock_instrument name = Some ins /\
    getp s1 p = fresh_part name ins p (List.length (vheap s) + (p - List.length (heap s))).
Proof.
  intros s s1 p [hs [-> F]] Hp. cbn in Hp. rewrite app_length in Hp.
  destruct (F (p - List.length (heap s))%nat) as (nm & ins & A & B); [lia|].
  exists nm, ins. split; [exact A|]. unfold getp. cbn. rewrite app_nth2 by lia. rewrite B.
  f_equal; lia.
Qed.

(** Parts returned by a declaration: existing ones or new ones. *)
Definition old_or_new (s s1 : score) (p : pid) : Prop :=
  In p (parts s) \/ (List.length (heap s) <= p < List.length (heap s1))%nat.

Lemma old_or_new_mono : forall s s1 s2 p, grows s1 s2 -> old_or_new s s1 p -> old_or_new s s2 p.
Proof. intros s s1 s2 p G [H|H]; [left; exact H|right]. apply grows_len in G. lia. Qed.
Lemma old_or_new_base : forall s s1 s2 p, grows s s1 -> old_or_new s1 s2 p -> old_or_new s s2 p.
Proof.
  intros s s1 s2 p G [H|H].
  - left. destruct (grows_tables _ _ G) as (A & _). rewrite <- A. exact H.
  - right. apply grows_len in G. lia.
Qed.

Lemma dedup_NoDup : forall l seen, NoDup (dedup l seen) /\ forall x, In x (dedup l seen) -> ~ In x seen.
Proof.
  induction l as [|x l IH]; intros seen; cbn [dedup]; [split; [constructor|intros x []]|].
  destruct (existsb (Nat.eqb x) seen) eqn:E; [apply IH|].
  destruct (IH (x :: seen)) as [A B]. apply existsb_nIn in E. split.
  - constructor; [|exact A]. intros H. apply B in H. apply H. left; reflexivity.
  - intros y [<-|H]; [exact E|]. apply B in H. intros Hin. apply H. right; exact Hin.
Qed.

Lemma dedup_in : forall l seen x, In x l -> ~ In x seen -> In x (dedup l seen).
Proof.
  induction l as [|y l IH]; intros seen x Hx Hn; [destruct Hx|]. cbn [dedup].
  destruct (existsb (Nat.eqb y) seen) eqn:E.
  - destruct Hx as [->|Hx]; [apply existsb_In in E; contradiction|apply IH; assumption].
  - destruct Hx as [->|Hx]; [left; reflexivity|].
    destruct (Nat.eq_dec y x) as [->|Hne]; [left; reflexivity|right].
    apply IH; [exact Hx|]. intros [H|H]; [congruence|contradiction].
Qed.

Lemma named_parts_in : forall s a, vinv s -> NoDup (named_parts s a) /\ incl (named_parts s a) (parts s).
Proof.
  intros s a V. unfold named_parts. destruct (aget String.eqb a (aliases s)) as [l|] eqn:E.
  - apply aget_in in E; [|intros; apply String.eqb_eq]. apply (vi_alias s V) in E. exact E.
  - split; [constructor|intros x []].
Qed.
Lemma unnamed_parts_in : forall s a, vinv s -> NoDup (unnamed_parts s a) /\ incl (unnamed_parts s a) (parts s).
Proof.
  intros s a V. unfold unnamed_parts. split.
  - apply NoDup_filter. eapply NoDup_map_NoDup. apply (vi_parts s V).
  - intros x Hx. apply filter_In in Hx. apply Hx.
Qed.

(** The group loop looks only at tables, which allocation does not change. *)
Lemma unnamed_grows : forall s s1 a, inv s -> grows s s1 -> unnamed_parts s1 a = unnamed_parts s a.
Proof.
  intros s s1 a I G. unfold unnamed_parts, is_named. destruct (grows_tables _ _ G) as (A & _ & B & _).
  rewrite A, B. apply filter_ext_in. intros p Hp. rewrite (grows_old s s1 p G); [reflexivity|].
  eapply in_parts; eassumption.
Qed.
Lemma named_grows : forall s s1 a, grows s s1 -> named_parts s1 a = named_parts s a.
Proof.
  intros s s1 a G. unfold named_parts. destruct (grows_tables _ _ G) as (_ & _ & B & _). rewrite B. reflexivity.
Qed.

Lemma group_parts_grows : forall names s0 s np sp s1, inv s0 -> vinv s0 -> grows s0 s ->
  group_parts names s = ROk (np, sp, s1) ->
  grows s0 s1 /\ grows s s1 /\ incl np (parts s0) /\ forall p, In p sp -> old_or_new s0 s1 p.
Proof.
  induction names as [|n t IH]; intros s0 s np sp s1 I V G0 H; cbn [group_parts] in H.
  - inversion H; subst. split; [exact G0|]. split; [apply grows_refl|]. split; [intros x []|intros p []].
  - rewrite (named_grows s0 s n G0), (unnamed_grows s0 s n I G0) in H.
    destruct (nonempty (named_parts s0 n)); [|destruct (nonempty (unnamed_parts s0 n))].
    + destruct (group_parts t s) as [[[a b] c]|m|m] eqn:E; [|discriminate H|discriminate H]. cbn [rmap rbind] in H. inversion H; subst.
      destruct (IH _ _ _ _ _ I V G0 E) as (A & B & C & D). split; [exact A|]. split; [exact B|].
      split; [|exact D]. apply incl_app; [apply named_parts_in; exact V|exact C].
    + destruct (group_parts t s) as [[[a b] c]|m|m] eqn:E; [|discriminate H|discriminate H]. cbn [rmap rbind] in H. inversion H; subst.
      destruct (IH _ _ _ _ _ I V G0 E) as (A & B & C & D). split; [exact A|]. split; [exact B|].
      split; [exact C|]. intros p Hp. apply in_app_or in Hp. destruct Hp as [Hp|Hp]; [|auto].
      left. apply (unnamed_parts_in s0 n V). exact Hp.
    + destruct (new_part n s) as [[p s2]|m|m] eqn:E2; [|discriminate H|discriminate H]. cbn [rbind] in H.
      destruct (new_part_grows _ _ _ _ E2) as (G2 & Hp & HL & _).
      destruct (group_parts t s2) as [[[a b] c]|m|m] eqn:E; [|discriminate H|discriminate H]. cbn [rmap rbind] in H. inversion H; subst np sp s1.
      destruct (IH s0 s2 _ _ _ I V (grows_trans _ _ _ G0 G2) E) as (A & B & C & D).
      split; [exact A|]. split; [eapply grows_trans; eassumption|]. split; [exact C|].
      intros x [<-|Hx]; [|auto]. right. apply grows_len in G0. apply grows_len in B. lia.
Qed.

Lemma new_parts_grows : forall names s ps s1, new_parts names s = ROk (ps, s1) ->
  grows s s1 /\ NoDup ps /\ forall p, In p ps -> (List.length (heap s) <= p < List.length (heap s1))%nat.
Proof.
  induction names as [|n t IH]; intros s ps s1 H; cbn [new_parts] in H.
  - inversion H; subst. split; [apply grows_refl|]. split; [constructor|intros p []].
  - destruct (new_part n s) as [[p s2]|m|m] eqn:E2; [|discriminate H|discriminate H]. cbn [rbind] in H.
    destruct (new_part_grows _ _ _ _ E2) as (G2 & Hp & HL & _).
    destruct (new_parts t s2) as [[a b]|m|m] eqn:E; [|discriminate H|discriminate H]. cbn [rmap rbind] in H. inversion H; subst ps s1.
    destruct (IH _ _ _ E) as (A & B & C). split; [eapply grows_trans; eassumption|]. split.
    + constructor; [|exact B]. intros Hin. apply C in Hin. lia.
    + intros x [<-|Hx]; [apply grows_len in A; lia|]. apply C in Hx. lia.
Qed.

Lemma determine_parts_grows : forall names alias s ps s1, inv s -> vinv s ->
  determine_parts names alias s = ROk (ps, s1) ->
  grows s s1 /\ NoDup ps /\ forall p, In p ps -> old_or_new s s1 p.
Proof.
  intros names alias s ps s1 I V H. unfold determine_parts in H.
  assert (Hnp : forall n, rmap (fun '(p, s1) => ([p], s1)) (new_part n s) = ROk (ps, s1) ->
                grows s s1 /\ NoDup ps /\ forall p, In p ps -> old_or_new s s1 p).
  { intros n Hn. destruct (new_part n s) as [[p s2]|m|m] eqn:E; [|discriminate Hn|discriminate Hn]. cbn [rmap rbind] in Hn. inversion Hn; subst.
    destruct (new_part_grows _ _ _ _ E) as (A & B & C & _). split; [exact A|].
    split; [constructor; [intros []|constructor]|]. intros x [<-|[]]. right. lia. }
  assert (Hgr : forall (b : bool), (if b then RErr "name included multiple times in group"
      else rbind (group_parts names s) (fun '(np, sp, s1) =>
        if nonempty np && nonempty sp then RErr "invalid group"
        else if negb (is_empty_string alias) && nonempty sp then new_parts names s1
        else ROk (dedup (np ++ sp) [], s1))) = ROk (ps, s1) ->
        grows s s1 /\ NoDup ps /\ forall p, In p ps -> old_or_new s s1 p).
  { intros b Hb. destruct b; [discriminate|].
    destruct (group_parts names s) as [[[np sp] s2]|m|m] eqn:E; try discriminate. cbn [rbind] in Hb.
    destruct (group_parts_grows _ _ _ _ _ _ I V (grows_refl s) E) as (A & _ & C & D).
    destruct (nonempty np && nonempty sp); [discriminate|].
    destruct (negb (is_empty_string alias) && nonempty sp).
    - destruct (new_parts_grows _ _ _ _ Hb) as (A' & B' & C').
      split; [eapply grows_trans; eassumption|]. split; [exact B'|]. intros p Hp. apply C' in Hp.
      right. apply grows_len in A. lia.
    - inversion Hb; subst. split; [exact A|]. split; [apply dedup_NoDup|].
      intros p Hp. apply dedup_incl in Hp. apply in_app_or in Hp. destruct Hp as [Hp|Hp]; [left; auto|auto]. }
  destruct names as [|n [|n2 r]]; [exact (Hgr (has_dup []) H)| |exact (Hgr (has_dup (n :: n2 :: r)) H)].
  repeat match type of H with
         | (if ?b then _ else _) = _ => destruct b
         | RErr _ = _ => discriminate
         end; try (apply (Hnp _ H)).
  - inversion H; subst. split; [apply grows_refl|]. destruct (named_parts_in s1 n V) as [A B].
    split; [exact A|]. intros p Hp. left; auto.
  - inversion H; subst. split; [apply grows_refl|]. destruct (unnamed_parts_in s1 n V) as [A B].
    split; [exact A|]. intros p Hp. left; auto.
Qed.

Lemma add_new_parts_app : forall ps s, NoDup ps -> exists new,
  add_new_parts ps s = set_parts (parts s ++ new) s /\ NoDup new /\
  (forall x, In x new <-> In x ps /\ ~ In x (parts s)).
Proof.
  induction ps as [|p ps IH]; intros s ND.
  - exists []. split; [rewrite app_nil_r; destruct s; reflexivity|]. split; [constructor|intros; cbn; tauto].
  - inversion ND; subst. unfold add_new_parts. cbn [fold_left]. fold (add_new_parts ps).
    destruct (existsb (Nat.eqb p) (parts s)) eqn:E.
    + destruct (IH s H2) as [new (A & B & C)]. exists new. split; [exact A|]. split; [exact B|].
      intros x. rewrite C. apply existsb_In in E. cbn. split; [tauto|].
      intros [[<-|Hx] Hn]; [contradiction|auto].
    + destruct (IH (set_parts (parts s ++ [p]) s) H2) as [new (A & B & C)].
      apply existsb_nIn in E. cbn [set_parts parts] in *.
      exists (p :: new). split; [|split].
      * etransitivity; [exact A|]. cbn. rewrite <- app_assoc. reflexivity.
      * constructor; [|exact B]. rewrite C. rewrite in_app_iff. cbn. tauto.
      * intros x. cbn. rewrite C, in_app_iff. cbn. split.
        -- intros [<-|[Hx Hn]]; [auto|]. split; [right; exact Hx|]. intros Hp. apply Hn. left; exact Hp.
        -- intros [[<-|Hx] Hn]; [left; reflexivity|]. right. split; [exact Hx|].
           intros [Hp|[Hp|[]]]; [contradiction|]. subst x. contradiction.
Qed.

(** What a successful declaration does. *)
Lemma run_part_shape : forall names alias s s', inv s -> vinv s -> run_part names alias s = (s', Ok) ->
  let s0 := run_voice_end s in
  exists ps s1 new al,
    determine_parts names alias s0 = ROk (ps, s1) /\
    let s2 := match parts s0, ps with [], p0 :: _ => modp p0 (set_pmaster true) s1 | _, _ => s1 end in
    s' = set_current ps (set_aliases al (set_parts (parts s0 ++ new) s2)) /\
    NoDup new /\ (forall x, In x new <-> In x ps /\ ~ In x (parts s0)) /\
    (forall a qs, In (a, qs) al -> In (a, qs) (aliases s0) \/ qs = ps \/ exists p, In p ps /\ qs = [p]) /\
    set_aliases al (set_parts (parts s0 ++ new) s2) =
      (if is_empty_string alias then set_parts (parts s0 ++ new) s2
       else define_aliases alias ps (set_parts (parts s0 ++ new) s2)).
Proof.
  intros names alias s s' I V H. cbv zeta. unfold run_part in H.
  destruct (vend_inv s I) as [I0 X0]. destruct (vend_vinv s I V) as (V0 & _ & _ & Hcl & _).
  set (s0 := run_voice_end s) in *.
  destruct (determine_parts names alias s0) as [[ps s1]|m|m] eqn:E; try discriminate.
  destruct (determine_parts_grows _ _ _ _ _ I0 V0 E) as (G & ND & Hon).
  destruct (grows_tables _ _ G) as (T1 & T2 & T3 & T4 & _).
  set (s2 := match parts s0, ps with [], p0 :: _ => modp p0 (set_pmaster true) s1 | _, _ => s1 end).
  assert (H2 : (set_current ps (let s3 := add_new_parts ps s2 in
                 if is_empty_string alias then s3 else define_aliases alias ps s3), Ok) = (s', Ok)).
  { unfold s2 in *. rewrite T1 in H. destruct (parts s0); [destruct ps; [discriminate|]|]; exact H. }
  clear H.
  assert (P2 : parts s2 = parts s0) by (unfold s2; destruct (parts s0); [destruct ps|]; exact T1).
  assert (A2 : aliases s2 = aliases s0) by (unfold s2; destruct (parts s0); [destruct ps|]; exact T3).
  destruct (add_new_parts_app ps s2 ND) as [new (B1 & B2 & B3)].
  cbv zeta in H2. rewrite B1 in H2. rewrite P2 in *.
  assert (Hal : exists al, (if is_empty_string alias then set_parts (parts s0 ++ new) s2
                            else define_aliases alias ps (set_parts (parts s0 ++ new) s2))
                           = set_aliases al (set_parts (parts s0 ++ new) s2) /\
     (forall a qs, In (a, qs) al -> In (a, qs) (aliases s2) \/ qs = ps \/ exists p, In p ps /\ qs = [p])).
  { destruct (is_empty_string alias).
    - exists (aliases s2). split; [destruct s2; reflexivity|auto].
    - exact (define_aliases_frame alias ps (set_parts (parts s0 ++ new) s2)). }
  destruct Hal as [al [Hal1 Hal2]].
  exists ps, s1, new, al. split; [reflexivity|]. fold s2. rewrite Hal1 in H2. inversion H2; subst s'; clear H2.
  split; [reflexivity|]. split; [exact B2|]. split; [exact B3|]. split; [|rewrite Hal1; reflexivity].
  rewrite <- A2. exact Hal2.
Qed.

Lemma run_part_vinv : forall names alias s s', inv s -> vinv s -> run_part names alias s = (s', Ok) ->
  vinv s' /\ (exists new, map (org s') (parts s') = map (org s) (parts s) ++ new) /\
  (forall q, In q (parts s') -> closed s' q) /\ incl (current s') (parts s').
Proof.
  intros names alias s s' I V H.
  destruct (run_part_shape _ _ _ _ I V H) as (ps & s1 & new & al & E & Hs' & ND & Hnew & Hal & _). clear H.
  destruct (vend_inv s I) as [I0 X0]. destruct (vend_vinv s I V) as (V0 & M0 & _ & Hcl & _).
  set (s0 := run_voice_end s) in *.
  destruct (determine_parts_grows _ _ _ _ _ I0 V0 E) as (G & NDp & Hon).
  destruct (grows_tables _ _ G) as (T1 & T2 & T3 & T4 & _).
  set (s2 := match parts s0, ps with [], p0 :: _ => modp p0 (set_pmaster true) s1 | _, _ => s1 end) in *.
  (* identities in s2 *)
  assert (Hs2 : forall r, org s2 r = org s1 r /\ pvoices (getp s2 r) = pvoices (getp s1 r) /\
                          ptmpl (getp s2 r) = ptmpl (getp s1 r)).
  { intros r. unfold s2, org. destruct (parts s0); [destruct ps as [|p0 ps]|]; auto.
    destruct (Nat.lt_ge_cases p0 (List.length (heap s1))) as [Hp|Hp].
    - rewrite getp_modp by exact Hp. destruct (Nat.eqb r p0) eqn:Er; auto.
    - unfold modp, getp, setp. cbn. rewrite upd_nth_out by exact Hp. auto. }
  assert (Hv2 : forall c, getv s2 c = getv s0 c).
  { intros c. rewrite <- (grows_getv s0 s1 c G). unfold s2. destruct (parts s0); [destruct ps|]; reflexivity. }
  assert (Hpo : forall r, In r (parts s0) -> (r < List.length (heap s0))%nat /\ org s2 r = org s0 r /\
                pvoices (getp s2 r) = pvoices (getp s0 r) /\ ptmpl (getp s2 r) = ptmpl (getp s0 r) /\
                pmaster (getp s2 r) = pmaster (getp s0 r) /\ (org s0 r < List.length (heap s0))%nat /\
                (pvoices (getp s0 r) < List.length (vheap s0))%nat).
  { intros r Hr. pose proof (in_parts s0 r I0 Hr) as Hrl. destruct (Hs2 r) as (A & B & C).
    destruct (getp_good s0 r I0 Hrl) as (D & _ & _ & _ & _ & F & _).
    rewrite A, B, C. unfold org in *. rewrite (grows_old s0 s1 r G Hrl).
    repeat split; try assumption. unfold s2. destruct (parts s0) eqn:Ep; [destruct Hr|].
    rewrite (grows_old s0 s1 r G Hrl). reflexivity. }
  assert (Hfr : forall r, In r new -> (List.length (heap s0) <= r < List.length (heap s1))%nat /\
                org s2 r = r /\ pvoices (getp s2 r) = (List.length (vheap s0) + (r - List.length (heap s0)))%nat /\
                ptmpl (getp s2 r) = None /\ pmaster (getp s1 r) = false).
  { intros r Hr. apply Hnew in Hr. destruct Hr as [Hr Hn]. destruct (Hon r Hr) as [Ho|Ho]; [contradiction|].
    destruct (grows_fresh s0 s1 r G Ho) as (nm & ins & _ & Hg). destruct (Hs2 r) as (A & B & C).
    rewrite A, B, C. unfold org. rewrite Hg. cbn. repeat split; try lia. }
  assert (Hps : forall r, In r ps -> In r (parts s0) \/ In r new).
  { intros r Hr. destruct (Hon r Hr) as [Ho|Ho]; [left; exact Ho|].
    destruct (in_dec Nat.eq_dec r (parts s0)) as [Hi|Hi]; [left; exact Hi|right; apply Hnew; auto]. }
  assert (P' : parts s' = parts s0 ++ new) by (rewrite Hs'; reflexivity).
  assert (C' : current s' = ps) by (rewrite Hs'; reflexivity).
  assert (G' : forall r, getp s' r = getp s2 r) by (intros; rewrite Hs'; reflexivity).
  assert (O' : forall r, org s' r = org s2 r) by (intros; unfold org; rewrite G'; reflexivity).
  assert (MP : map (org s') (parts s') = map (org s0) (parts s0) ++ new).
  { rewrite P', map_app. f_equal.
    - apply map_ext_in. intros r Hr. rewrite O'. apply Hpo. exact Hr.
    - transitivity (map (fun x : pid => x) new); [|apply map_id].
      apply map_ext_in. intros r Hr. rewrite O'. apply Hfr. exact Hr. }
  assert (NDP : NoDup (map (org s') (parts s'))).
  { rewrite MP. pose proof (vi_parts s0 V0) as ND0.
    assert (Hd : forall x, In x (map (org s0) (parts s0)) -> ~ In x new).
    { intros x Hx Hn. apply in_map_iff in Hx. destruct Hx as [r [<- Hr]].
      apply Hpo in Hr. apply Hfr in Hn. lia. }
    clear -ND0 ND Hd. induction (map (org s0) (parts s0)) as [|x l IH]; [exact ND|].
    inversion ND0; subst. cbn. constructor.
    - intros Hin. apply in_app_or in Hin. destruct Hin as [Hin|Hin]; [auto|].
      apply (Hd x); [left; reflexivity|exact Hin].
    - apply IH; [assumption|]. intros y Hy. apply Hd. right; exact Hy. }
  assert (Hclo : forall q, In q (parts s') -> closed s' q).
  { intros q Hq. rewrite P' in Hq. unfold closed, cellof. rewrite G'.
    assert (Hgv : forall c, getv s' c = getv s0 c) by (intros; rewrite <- Hv2; rewrite Hs'; reflexivity).
    rewrite Hgv. apply in_app_or in Hq. destruct Hq as [Hq|Hq].
    - destruct (Hpo q Hq) as (_ & _ & B & C & _). rewrite B, C. apply Hcl. exact Hq.
    - destruct (Hfr q Hq) as (A & _ & B & C & _). rewrite B, C. split; [|reflexivity].
      unfold getv. apply nth_overflow. lia. }
  assert (Hinc : incl ps (parts s')).
  { intros r Hr. rewrite P'. apply in_or_app. apply Hps. exact Hr. }
  split; [|split; [exists new; rewrite MP, M0; reflexivity|split; [exact Hclo|rewrite C'; exact Hinc]]].
  constructor.
  - exact NDP.
  - intros a b Ha Hb Hab. rewrite !G' in Hab. rewrite P' in Ha, Hb.
    apply in_app_or in Ha. apply in_app_or in Hb.
    destruct Ha as [Ha|Ha], Hb as [Hb|Hb].
    + destruct (Hpo a Ha) as (_ & _ & A & _). destruct (Hpo b Hb) as (_ & _ & B & _).
      rewrite A, B in Hab. eapply (vi_cells s0 V0); eassumption.
    + exfalso. destruct (Hpo a Ha) as (_ & _ & A & _ & _ & _ & A'). destruct (Hfr b Hb) as (_ & _ & B & _). lia.
    + exfalso. destruct (Hpo b Hb) as (_ & _ & A & _ & _ & _ & A'). destruct (Hfr a Ha) as (_ & _ & B & _). lia.
    + destruct (Hfr a Ha) as (A1 & _ & A2 & _). destruct (Hfr b Hb) as (B1 & _ & B2 & _). lia.
  - intros a qs Hin. rewrite Hs' in Hin. cbn [set_current set_aliases aliases] in Hin.
    apply Hal in Hin. destruct Hin as [Hin|[->|[p [Hp ->]]]].
    + destruct (vi_alias s0 V0 a qs Hin) as [A B]. split; [exact A|]. rewrite P'.
      intros x Hx. apply in_or_app. left; apply B; exact Hx.
    + split; [exact NDp|exact Hinc].
    + split; [constructor; [intros []|constructor]|]. intros x [<-|[]]. apply Hinc. exact Hp.
  - rewrite C'. assert (Hinj : forall x y, In x ps -> In y ps -> org s' x = org s' y -> x = y).
    { intros x y Hx Hy Hxy. eapply NoDup_map_inj; [exact NDP|apply Hinc; exact Hx|apply Hinc; exact Hy|exact Hxy]. }
    clear -NDp Hinj. induction NDp as [|y l Hn Hd IH]; [constructor|]. cbn. constructor.
    + intros Hin. apply in_map_iff in Hin. destruct Hin as [z [Hz Hin]]. apply Hn.
      rewrite <- (Hinj z y); [exact Hin|right; exact Hin|left; reflexivity|exact Hz].
    + apply IH. intros; apply Hinj; try right; assumption.
  - intros p Hp. rewrite C' in Hp. exists p. split; [apply Hinc; exact Hp|left; reflexivity].
  - intros q Hq. left. apply Hclo. exact Hq.
  - destruct (vi_master s0 V0) as [Hnil|[q (A & B & C)]].
    + destruct ps as [|p0 ps].
      * left. rewrite P', Hnil. destruct new as [|x new]; [reflexivity|].
        destruct (proj1 (Hnew x) (or_introl eq_refl)) as [[] _].
      * right. assert (Hp0 : In p0 new).
        { destruct (Hps p0 (or_introl eq_refl)) as [Hp|Hp]; [rewrite Hnil in Hp; destruct Hp|exact Hp]. }
        assert (Hp0l : (p0 < List.length (heap s1))%nat) by (apply Hfr in Hp0; lia).
        assert (S2 : s2 = modp p0 (set_pmaster true) s1) by (unfold s2; rewrite Hnil; reflexivity).
        exists p0. split; [rewrite P'; apply in_or_app; right; exact Hp0|]. split.
        -- rewrite G', S2, getp_modp_same by exact Hp0l. reflexivity.
        -- intros r Hr Hm. rewrite P', Hnil in Hr. cbn [app] in Hr. rewrite G', S2 in Hm.
           destruct (Nat.eq_dec r p0) as [->|Hne]; [reflexivity|].
           rewrite getp_modp_other in Hm by congruence. apply Hfr in Hr. destruct Hr as (_ & _ & _ & _ & Hr). congruence.
    + right. exists q. split; [rewrite P'; apply in_or_app; left; exact A|].
      assert (S2 : s2 = s1) by (unfold s2; destruct (parts s0); [destruct A|reflexivity]).
      split.
      * rewrite G'. destruct (Hpo q A) as (_ & _ & _ & _ & D & _). congruence.
      * intros r Hr Hm. rewrite G' in Hm. rewrite P' in Hr. apply in_app_or in Hr. destruct Hr as [Hr|Hr].
        -- destruct (Hpo r Hr) as (_ & _ & _ & _ & D & _). rewrite D in Hm. auto.
        -- rewrite S2 in Hm. apply Hfr in Hr. destruct Hr as (_ & _ & _ & _ & Hr). congruence.
  - intros e He. rewrite MP. apply in_or_app. left. apply (vi_events s0 V0).
    assert (E2 : events s2 = events s0) by (unfold s2; destruct (parts s0); [destruct ps|]; exact T4).
    rewrite <- E2. rewrite Hs' in He. exact He.
Qed.

(* ----------------------------- all steps ----------------------------- *)

Definition prefix {A} (a b : list A) : Prop := exists c, b = a ++ c.
Lemma prefix_refl : forall A (a : list A), prefix a a.
Proof. intros. exists []. rewrite app_nil_r. reflexivity. Qed.
Lemma prefix_trans : forall A (a b c : list A), prefix a b -> prefix b c -> prefix a c.
Proof. intros A a b c [x ->] [y ->]. exists (x ++ y). rewrite app_assoc. reflexivity. Qed.

(** Every step keeps the invariant, and the list of instruments (by origin)
    only grows at the end. *)
Lemma step_vinv : forall s s', inv s -> vinv s -> step s s' ->
  vinv s' /\ prefix (map (org s) (parts s)) (map (org s') (parts s')).
Proof.
  intros s s' I V H.
  assert (G : forall x, (forall p, vid (getp x p) = vid (getp s p)) -> parts x = parts s ->
             prefix (map (org s) (parts s)) (map (org x) (parts x))).
  { intros x Hx Hp. rewrite Hp. rewrite (map_ext (org x) (org s)); [apply prefix_refl|].
    intros p. apply vid_org. apply Hx. }
  assert (G0 : forall x, (forall p, getp x p = getp s p) -> List.length (heap x) = List.length (heap s) ->
     vheap x = vheap s -> parts x = parts s -> current x = current s -> aliases x = aliases s ->
     events x = events s -> vinv x /\ prefix (map (org s) (parts s)) (map (org x) (parts x))).
  { intros x Hx L Hv Hp Hc Ha He. split.
    - eapply vinv_congr0; try eassumption; [lia|intros; rewrite Hx; reflexivity].
    - apply G; [intros; rewrite Hx; reflexivity|exact Hp]. }
  destruct H.
  - destruct H0 as (A1 & A2 & A3 & A4 & A5 & A6 & A7 & A8).
    assert (Hv : forall q, vid (getp (setp p v s) q) = vid (getp s q)).
    { apply vid_setp. unfold vid. congruence. }
    split; [|apply G; [exact Hv|reflexivity]].
    apply (vinv_congr0 s); try reflexivity; [rewrite heap_setp; apply le_n|exact Hv|exact V].
  - match goal with |- vinv ?x /\ _ => assert (Hv : forall q, vid (getp x q) = vid (getp s q)) end.
    { apply vid_setp. reflexivity. }
    split; [|apply G; [exact Hv|reflexivity]].
    apply (vinv_congr0 s); try reflexivity; [rewrite heap_setp; apply le_n|exact Hv|exact V].
  - apply emit_shape in H0. cbv zeta in H0.
    destruct H0 as [[-> _]|(c & us & Haud & Hn & Hcr & Hdet & Hus & ->)]; [split; [exact V|apply prefix_refl]|].
    match goal with |- vinv ?x /\ _ => set (s1 := x) end.
    assert (Hv : forall q, vid (getp s1 q) = vid (getp s q)).
    { intros q. unfold s1, modp.
      change (getp (set_events ?e ?x) q) with (getp x q).
      match goal with |- vid (getp (setp ?a ?b ?c) q) = _ => rewrite (vid_setp c a b) end; [|reflexivity].
      rewrite vid_setp; reflexivity. }
    split; [|apply G; [exact Hv|reflexivity]].
    apply (vinv_congr s); try reflexivity.
    + unfold s1, modp. cbn. rewrite !upd_nth_length. apply le_n.
    + exact Hv.
    + intros e He. unfold s1 in He. cbn [set_events events] in He. apply in_app_or in He.
      destruct He as [He|[<-|[]]]; [apply (vi_events s V); exact He|].
      cbn [ev_part]. destruct (vi_link s V p H) as [q [Hq Hl]].
      apply in_map_iff. exists q. split; [|exact Hq]. symmetry. apply (link_org s q p V Hq Hl).
    + exact V.
  - apply G0; reflexivity.
  - apply G0; reflexivity.
  - apply G0; reflexivity.
  - apply G0; reflexivity.
  - split; [eapply voice_step_vinv; eassumption|].
    destruct (vi_link s V p H) as [q [Hq Hl]].
    destruct (get_voice_shape s p n q I V H Hq Hl)
      as (v' & s1' & H' & Ep & Ec & Ea & Ee & L & Lv & Hr & _).
    rewrite H' in H0. inversion H0; subst v' s1'. cbn [set_current parts]. rewrite Ep.
    change (org (set_current (redirect s1 (porigin (getp s1 p)) v (current s1)) s1)) with (org s1).
    rewrite (map_org_eq s s1); [apply prefix_refl|]. intros r Hin. apply Hr. eapply in_parts; eassumption.
  - destruct (vend_vinv s I V) as (A & B & _). split; [exact A|]. rewrite B. apply prefix_refl.
  - destruct (run_part_vinv _ _ _ _ I V H) as (A & B & _). split; [exact A|exact B].
Qed.

Lemma star_vinv : forall s s', star s s' -> inv s -> vinv s ->
  vinv s' /\ prefix (map (org s) (parts s)) (map (org s') (parts s')).
Proof.
  intros s s' H I V. induction H as [|t u H IH Hs]; [split; [exact V|apply prefix_refl]|].
  destruct IH as [V1 P1]. destruct (star_inv_idext s t H I) as [I1 _].
  destruct (step_vinv _ _ I1 V1 Hs) as [V2 P2]. split; [exact V2|eapply prefix_trans; eassumption].
Qed.

Lemma reachable_vinv : forall s, reachable s -> vinv s.
Proof. intros s H. apply star_vinv in H; [apply H|apply inv_new|apply vinv_new]. Qed.
End Voices.
