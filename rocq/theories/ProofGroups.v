(** Voice groups (C19, C20). *)
From Coq Require Import ZArith List String Bool Lia Arith.
From Verif Require Import Base Num ModelPitch ModelDuration ModelInstruments ModelTypes ModelLisp
  ModelScore SpecScore SpecVars SpecParts SpecSolo SpecVoices SpecGlobals ProofHeap ProofStep ProofInv ProofEvents ProofVoices ProofTracks ProofTiming.
Import ListNotations.

Section Groups.
Context {N : Num}.
Local Opaque stock_instrument.

Notation unch := unchanneled.
Notation len s := (List.length (heap s)).

(** Template and voices of an open group are separate objects. *)
Definition apart (s : score) : Prop := forall q, In q (parts s) ->
  NoDup (map snd (cellof s q)) /\ ~ In q (map snd (cellof s q)) /\
  forall t, ptmpl (getp s q) = Some t -> t <> q /\ ~ In t (map snd (cellof s q)).

Lemma closed_apart : forall s, (forall q, In q (parts s) -> closed s q) -> apart s.
Proof.
  intros s H q Hq. destruct (H q Hq) as [A B]. rewrite A, B. cbn. split; [constructor|].
  split; [intros []|discriminate].
Qed.

(** What obtaining a voice does, exactly. *)
Definition gained (n : Z) (s s' : score) (q : pid) : Prop :=
  (getp s' q = getp s q /\ cellof s' q = cellof s q) \/
  (closed s q /\ exists t v, t <> v /\ (len s <= t)%nat /\ (len s <= v)%nat /\ (t < len s')%nat /\ (v < len s')%nat /\
     getp s' q = set_ptmpl (Some t) (getp s q) /\ cellof s' q = [(n, v)] /\
     getp s' t = set_ptmpl (Some t) (set_povr None (getp s q)) /\ getp s' v = set_ptmpl (Some t) (set_povr None (getp s q))) \/
  (opened s q /\ ~ In n (map fst (cellof s q)) /\ exists t v, (len s <= v)%nat /\ (v < len s')%nat /\
     ptmpl (getp s q) = Some t /\ getp s' q = getp s q /\
     cellof s' q = cellof s q ++ [(n, v)] /\ getp s' v = set_povr None (getp s t)).

Lemma aget_none : forall n (l : list (Z * pid)), aget Z.eqb n l = None -> ~ In n (map fst l).
Proof.
  intros n l. induction l as [|[k x] l IH]; cbn; intros H; [tauto|].
  destruct (k =? n)%Z eqn:E; [discriminate|]. apply Z.eqb_neq in E. intros [H1|H1]; [congruence|].
  apply IH; assumption.
Qed.

Lemma get_voice_exact : forall s p n q v s1, inv s -> vinv s -> In p (current s) -> In q (parts s) -> link s q p ->
  get_voice p n s = ROk (v, s1) ->
  current s1 = current s /\ parts s1 = parts s /\ (len s <= len s1)%nat /\
  (forall r, (r < len s)%nat -> r <> q -> getp s1 r = getp s r) /\
  (forall c, c <> pvoices (getp s q) -> getv s1 c = getv s c) /\
  In (n, v) (cellof s1 q) /\ gained n s s1 q.
Proof.
  intros s p n q v s1 I V Hp Hq Hl H.
  pose proof (in_cur s p I Hp) as Hpl. pose proof (in_parts s q I Hq) as Hql.
  pose proof (link_vid s q p V Hq Hl) as Hvid.
  assert (Hpv : pvoices (getp s p) = pvoices (getp s q)) by (unfold vid in Hvid; congruence).
  assert (Hpt : ptmpl (getp s p) = ptmpl (getp s q)) by (unfold vid in Hvid; congruence).
  destruct (getp_good s q I Hql) as (_ & _ & _ & _ & _ & Hvr & _).
  unfold get_voice in H. rewrite Hpv in H. fold (cellof s q) in H.
  destruct (aget Z.eqb n (cellof s q)) as [w|] eqn:Ew.
  { apply aget_in in Ew; [|intros; apply Z.eqb_eq]. inversion H; subst w s1.
    do 3 (split; [try reflexivity; lia|]). split; [reflexivity|]. split; [reflexivity|]. split; [exact Ew|].
    left; split; reflexivity. }
  apply aget_none in Ew. unfold new_voice, has_voices in H. rewrite Hpv in H. fold (cellof s q) in H.
  destruct (vi_state s V q Hq) as [[A B]|[O _]].
  - rewrite A in H. assert (p = q) as -> by (destruct Hl as [Hl|[m Hl]]; [exact Hl|rewrite A in Hl; destruct Hl]).
    rewrite B in H. unfold clone at 1 in H. cbn [rbind] in H.
    set (t := List.length (heap s)) in *. set (s2 := set_heap (heap s ++ [set_povr None (getp s q)]) s) in *.
    assert (L2 : len s2 = S t) by (unfold s2; cbn [set_heap heap]; rewrite app_length; cbn; fold t; lia).
    set (s4 := modp q (set_ptmpl (Some t)) (modp t (set_ptmpl (Some t)) s2)) in *.
    assert (L4 : len s4 = S t) by (unfold s4; rewrite !heap_modp; exact L2).
    assert (G2 : forall r, (r < t)%nat -> getp s2 r = getp s r) by (intros r Hr; unfold getp, s2; cbn [set_heap heap]; apply app_nth1; exact Hr).
    assert (G2t : getp s2 t = set_povr None (getp s q)).
    { unfold getp at 1, s2. cbn [set_heap heap]. unfold t. rewrite app_nth2 by apply le_n. rewrite Nat.sub_diag. reflexivity. }
    assert (Gq : getp s4 q = set_ptmpl (Some t) (getp s q)).
    { unfold s4. rewrite getp_modp_same by (rewrite heap_modp; lia). rewrite getp_modp_other by (fold t in Hql; lia). rewrite G2 by exact Hql. reflexivity. }
    assert (Gt : getp s4 t = set_ptmpl (Some t) (set_povr None (getp s q))).
    { unfold s4. rewrite getp_modp_other by (fold t in Hql; lia). rewrite getp_modp_same by lia. rewrite G2t. reflexivity. }
    assert (Go : forall r, (r < t)%nat -> r <> q -> getp s4 r = getp s r).
    { intros r Hr Hne. unfold s4. rewrite !getp_modp_other by lia. apply G2. exact Hr. }
    change (modp q (set_ptmpl (Some t)) (modp t (set_ptmpl (Some t)) s2)) with s4 in H. rewrite Gq in H. cbn [set_ptmpl ptmpl] in H. unfold clone in H. cbv zeta in H. rewrite Gt, L4 in H.
    set (pv := set_povr None (set_ptmpl (Some t) (set_povr None (getp s q)))) in *.
    set (s5 := set_heap (heap s4 ++ [pv]) s4) in *.
    assert (L5 : len s5 = S (S t)) by (unfold s5; cbn [set_heap heap]; rewrite app_length; cbn [List.length]; rewrite L4; lia).
    assert (G5 : forall r, (r < S t)%nat -> getp s5 r = getp s4 r).
    { intros r Hr. unfold getp, s5. cbn [set_heap heap]. apply app_nth1. lia. }
    assert (G5v : getp s5 (S t) = pv).
    { unfold getp, s5. cbn [set_heap heap]. rewrite app_nth2 by lia. rewrite L4, Nat.sub_diag. reflexivity. }
    assert (Cq : pvoices (getp s5 q) = pvoices (getp s q)) by (rewrite G5 by (fold t in Hql; lia); rewrite Gq; reflexivity).
    assert (Hv5 : forall c, getv s5 c = getv s c) by reflexivity.
    rewrite Cq, Hv5 in H. fold (cellof s q) in H. rewrite A in H. cbn [app] in H.
    inversion H; subst v s1; clear H.
    match goal with |- context [setv ?c ?x ?y] => set (s6 := setv c x y) end.
    assert (G6 : forall r, getp s6 r = getp s5 r) by reflexivity.
    assert (C6 : cellof s6 q = [(n, S t)]).
    { unfold cellof. rewrite G6, Cq. unfold s6, getv, setv. cbn [set_vheap vheap]. apply nth_upd_same. exact Hvr. }
    change (len s6) with (len s5). rewrite L5. change (current s6) with (current s). change (parts s6) with (parts s).
    do 2 (split; [reflexivity|]). split; [fold t; lia|].
    split. { intros r Hr Hne. fold t in Hr. rewrite G6, G5 by lia. apply Go; assumption. }
    split. { intros c Hc. unfold s6, getv, setv. cbn [set_vheap vheap]. rewrite nth_upd_other by congruence. reflexivity. }
    split. { rewrite C6. left; reflexivity. }
    right; left. split; [split; assumption|]. exists t, (S t). fold t in Hql. split; [lia|]. change (len s6) with (len s5). rewrite L5. fold t.
    do 4 (split; [lia|]). rewrite !G6. rewrite G5, Gq by lia. split; [reflexivity|]. split; [exact C6|]. rewrite G5, Gt by lia. split; [reflexivity|].
    rewrite G5v. reflexivity.
  - pose proof O as O0. destruct O as [t (A1 & A2 & [A3 A3'] & A4 & A5)].
    destruct (cellof s q) as [|x l] eqn:Ecell; [congruence|]. cbn [rbind] in H. rewrite <- Ecell in *.
    rewrite Hpt, A1 in H. unfold clone in H. cbv zeta in H.
    set (t' := List.length (heap s)) in *.
    set (s5 := set_heap (heap s ++ [set_povr None (getp s t)]) s) in *.
    assert (L5 : len s5 = S t') by (unfold s5; cbn [set_heap heap]; rewrite app_length; cbn; fold t'; lia).
    assert (G5 : forall r, (r < t')%nat -> getp s5 r = getp s r) by (intros r Hr; unfold getp, s5; cbn [set_heap heap]; apply app_nth1; exact Hr).
    assert (G5v : getp s5 t' = set_povr None (getp s t)).
    { unfold getp at 1, s5. cbn [set_heap heap]. unfold t'. rewrite app_nth2 by apply le_n. rewrite Nat.sub_diag. reflexivity. }
    assert (Cq : pvoices (getp s5 p) = pvoices (getp s q)) by (rewrite G5 by exact Hpl; exact Hpv).
    assert (Hv5 : forall c, getv s5 c = getv s c) by reflexivity.
    rewrite Cq, Hv5 in H. fold (cellof s q) in H. inversion H; subst v s1; clear H.
    match goal with |- context [setv ?c ?x ?y] => set (s6 := setv c x y) end.
    assert (G6 : forall r, getp s6 r = getp s5 r) by reflexivity.
    assert (C6 : cellof s6 q = cellof s q ++ [(n, t')]).
    { unfold cellof at 1. rewrite G6, G5 by exact Hql. unfold s6, getv, setv. cbn [set_vheap vheap]. apply nth_upd_same. exact Hvr. }
    change (len s6) with (len s5). rewrite L5. change (current s6) with (current s). change (parts s6) with (parts s).
    do 2 (split; [reflexivity|]). split; [lia|].
    split. { intros r Hr Hne. rewrite G6, G5 by exact Hr. reflexivity. }
    split. { intros c Hc. unfold s6, getv, setv. cbn [set_vheap vheap]. rewrite nth_upd_other by congruence. reflexivity. }
    split. { rewrite C6. apply in_or_app. right; left; reflexivity. }
    right; right. split; [exact O0|]. split; [exact Ew|]. exists t, t'. change (len s6) with (len s5). rewrite L5. split; [lia|]. split; [lia|]. split; [exact A1|].
    rewrite !G6, G5v, G5 by exact Hql. split; [reflexivity|]. split; [exact C6|reflexivity].
Qed.

Lemma redirect_upd : forall s v l i p, NoDup (map (org s) l) -> nth_error l i = Some p ->
  redirect s (org s p) v l = upd_nth i v l.
Proof.
  intros s v l. induction l as [|x l IH]; intros [|i] p ND H; try discriminate.
  - inversion H; subst. inversion ND; subst. cbn [redirect map upd_nth]. fold (org s p). rewrite Nat.eqb_refl. f_equal.
    rewrite <- (map_id l) at 2. apply map_ext_in. intros r Hr. fold (org s r).
    destruct (Nat.eqb (org s r) (org s p)) eqn:E; [|reflexivity]. apply Nat.eqb_eq in E.
    exfalso. apply H2. rewrite <- E. apply in_map. exact Hr.
  - inversion ND; subst. cbn [redirect map upd_nth]. fold (org s x).
    destruct (Nat.eqb (org s x) (org s p)) eqn:E.
    + apply Nat.eqb_eq in E. exfalso. apply H2. rewrite E. apply in_map. eapply nth_error_In. exact H.
    + f_equal. apply IH; assumption.
Qed.

Lemma gained_apart : forall n s s', vinv s -> apart s -> inv s -> parts s' = parts s ->
  (forall q, In q (parts s) -> gained n s s' q) -> apart s'.
Proof.
  intros n s s' V A I Hp G q Hq. rewrite Hp in Hq. pose proof (in_parts s q I Hq) as Hql.
  destruct (A q Hq) as (A1 & A2 & A3). destruct (G q Hq) as [[E1 E2]|[[Hc [t [v (B0 & B1 & B2 & B3 & B4 & B5 & B6 & B7 & B8)]]]|[Ho [Hn [t [v (B1 & B2 & B3 & B4 & B5 & B6)]]]]]].
  - rewrite E1, E2. split; [exact A1|split; [exact A2|exact A3]].
  - rewrite B5, B6. cbn. split; [constructor; [intros []|constructor]|]. split; [intros [H|[]]; lia|].
    intros t' H. inversion H; subst. split; [lia|]. intros [H1|[]]; congruence.
  - rewrite B4, B5. destruct Ho as [t' (O1 & O2 & [O3 _] & O4 & O5)].
    assert (Hlt : forall w, In w (map snd (cellof s q)) -> (w < len s)%nat).
    { intros w Hw. apply in_map_iff in Hw. destruct Hw as [[k w'] [<- Hw]]. apply (O5 _ _ Hw). }
    rewrite map_app. cbn [map snd]. split; [|split].
    + clear -A1 Hlt B1. induction (map snd (cellof s q)) as [|x l IH]; cbn; [constructor; [intros []|constructor]|].
      inversion A1; subst. constructor; [|apply IH; [assumption|intros; apply Hlt; right; assumption]].
      intros H. apply in_app_or in H. destruct H as [H|[H|[]]]; [auto|]. specialize (Hlt x (or_introl eq_refl)). lia.
    + intros H. apply in_app_or in H. destruct H as [H|[H|[]]]; [auto|]. lia.
    + intros t2 H2. destruct (A3 t2 H2) as [C1 C2]. split; [exact C1|]. intros H. apply in_app_or in H.
      destruct H as [H|[H|[]]]; [auto|]. rewrite O1 in H2. inversion H2; subst. lia.
Qed.

(** Obtaining voices for some of the current parts. *)
Record vmoved (n : Z) (s s' : score) : Prop := VMoved {
  vm_inv : inv s'; vm_vinv : vinv s'; vm_apart : apart s';
  vm_parts : parts s' = parts s;
  vm_len : (len s <= len s')%nat;
  vm_rest : forall r, (r < len s)%nat -> ~ In r (parts s) -> getp s' r = getp s r;
  vm_org : forall r, (r < len s)%nat -> org s' r = org s r;
  vm_cur : map (org s') (current s') = map (org s) (current s);
  vm_gain : forall q, In q (parts s) -> gained n s s' q }.

Lemma gained_trans : forall n s a b q, inv s -> vinv s -> apart s -> In q (parts s) ->
  parts a = parts s -> (len s <= len a)%nat -> (len a <= len b)%nat ->
  (forall r, (r < len s)%nat -> ~ In r (parts s) -> getp a r = getp s r) ->
  (forall r, (r < len a)%nat -> ~ In r (parts s) -> getp b r = getp a r) ->
  gained n s a q -> gained n a b q -> gained n s b q.
Proof.
  intros n s a b q I V A Hq Hp L1 L2 R1 R2 G1 G2.
  assert (Hfresh : forall r, (len s <= r)%nat -> ~ In r (parts s)).
  { intros r Hr Hin. pose proof (in_parts s r I Hin). lia. }
  destruct G1 as [[E1 E2]|[[Hc [t [v (B0 & B1 & B2 & B3 & B4 & B5 & B6 & B7 & B8)]]]|[Ho [Hn [t [v (B1 & B2 & B3 & B4 & B5 & B6)]]]]]].
  - destruct G2 as [[F1 F2]|[[Hc' [t [v (C0 & C1 & C2 & C3 & C4 & C5 & C6 & C7 & C8)]]]|[Ho [Hn [t [v (C1 & C2 & C3 & C4 & C5 & C6)]]]]]].
    + left; split; congruence.
    + right; left. rewrite E1 in *. split; [split; [rewrite <- E2; apply Hc'|destruct Hc' as [_ Hc']; congruence]|].
      exists t, v. split; [exact C0|]. do 4 (split; [lia|]). auto.
    + right; right. assert (Ho' : opened s q).
      { destruct (vi_state s V q Hq) as [[D _]|[D _]]; [|exact D]. destruct Ho as [t' (_ & D' & _)]. congruence. }
      split; [exact Ho'|]. rewrite E2 in *. split; [exact Hn|]. exists t, v. rewrite E1 in *.
      split; [lia|]. split; [lia|]. split; [exact C3|]. split; [congruence|]. split; [exact C5|]. rewrite C6. f_equal.
      destruct Ho' as [t' (D1 & D2 & [D3 _] & _)]. assert (t' = t) as -> by congruence.
      apply R1; [exact D3|]. intros Hin. destruct (A q Hq) as (_ & _ & A3). destruct (A3 t C3) as [A4 _].
      destruct (vi_state s V q Hq) as [[_ D]|[[t2 (T1 & _ & [T2 T3] & _)] _]]; [congruence|].
      assert (t2 = t) as -> by congruence.
      apply A4. eapply NoDup_map_inj; [apply (vi_parts s V)|exact Hin|exact Hq|]. unfold vid, org in *. congruence.
  - destruct G2 as [[F1 F2]|[[[Hc' _] _]|[_ [Hn _]]]].
    + right; left. split; [exact Hc|]. exists t, v. split; [exact B0|]. do 4 (split; [lia|]).
      rewrite F1, F2. split; [exact B5|]. split; [exact B6|]. rewrite !R2 by (try apply Hfresh; assumption). auto.
    + congruence.
    + exfalso. apply Hn. rewrite B6. left; reflexivity.
  - destruct G2 as [[F1 F2]|[[[Hc' _] _]|[_ [Hn' _]]]].
    + right; right. split; [exact Ho|]. split; [exact Hn|]. exists t, v. split; [lia|]. split; [lia|]. rewrite F1, F2. split; [exact B3|].
      split; [exact B4|]. split; [exact B5|]. rewrite R2 by (try apply Hfresh; assumption). exact B6.
    + rewrite B5 in Hc'. destruct (cellof s q); discriminate.
    + exfalso. apply Hn'. rewrite B5, map_app. apply in_or_app. right; left; reflexivity.
Qed.

Lemma vmoved_refl : forall n s, inv s -> vinv s -> apart s -> vmoved n s s.
Proof.
  intros n s I V A. constructor; try assumption; try reflexivity. intros q Hq. left; split; reflexivity.
Qed.

Lemma vmoved_trans : forall n s a b, inv s -> vinv s -> apart s -> vmoved n s a -> vmoved n a b -> vmoved n s b.
Proof.
  intros n s a b I V A [A1 A2 A3 A4 A5 A6 A7 A8 A9] [B1 B2 B3 B4 B5 B6 B7 B8 B9]. constructor; try assumption.
  - congruence.
  - lia.
  - intros r Hr Hn. rewrite B6 by (try lia; congruence). apply A6; assumption.
  - intros r Hr. rewrite B7 by lia. apply A7; assumption.
  - congruence.
  - intros q Hq. rewrite A4 in B6. apply (gained_trans n s a b); try assumption; [apply A9; exact Hq|].
    apply B9. rewrite A4. exact Hq.
Qed.

Lemma voice_step : forall s n i p v s1, inv s -> vinv s -> apart s -> nth_error (current s) i = Some p ->
  get_voice p n s = ROk (v, s1) ->
  let s' := set_current (redirect s1 (porigin (getp s1 p)) v (current s1)) s1 in
  vmoved n s s' /\ current s' = upd_nth i v (current s) /\ exists q, In q (parts s) /\ In (n, v) (cellof s' q).
Proof.
  intros s n i p v s1 I V A Hi H. cbv zeta. assert (Hp : In p (current s)) by (eapply nth_error_In; exact Hi).
  destruct (vi_link s V p Hp) as [q [Hq Hl]].
  destruct (get_voice_exact s p n q v s1 I V Hp Hq Hl H) as (E1 & E2 & E3 & E4 & E5 & E6 & E7).
  assert (St : lstep (fun _ => True) s (set_current (redirect s1 (porigin (getp s1 p)) v (current s1)) s1)).
  { eapply St_voice; try eassumption. exact Logic.I. }
  destruct (step_inv _ _ I St) as [I' X]. pose proof (voice_step_vinv s p n v s1 I V Hp H) as V'.
  set (s' := set_current _ s1) in *.
  destruct (get_voice_shape s p n q I V Hp Hq Hl) as (v' & s1' & H' & _ & _ & _ & _ & _ & _ & Hr & _).
  rewrite H' in H. inversion H; subst v' s1'. clear H H'.
  assert (Horg : forall r, (r < len s)%nat -> org s1 r = org s r) by (intros; apply Hr; assumption).
  assert (Gn : forall r, In r (parts s) -> gained n s s' r).
  { intros r Hin. destruct (Nat.eq_dec r q) as [->|Hne]; [exact E7|].
    left. pose proof (in_parts s r I Hin) as Hrl. change (getp s' r) with (getp s1 r). rewrite E4 by assumption.
    split; [reflexivity|]. unfold cellof. change (getp s' r) with (getp s1 r). change (getv s') with (getv s1).
    rewrite E4 by assumption. apply E5. intros Hcc. apply Hne. eapply (vi_cells s V); eassumption. }
  assert (Hcu : NoDup (map (org s1) (current s1))).
  { rewrite E1, (map_org_eq s s1); [apply (vi_cur s V)|]. intros r Hin. apply Horg. eapply in_cur; eassumption. }
  split; [|split].
  - constructor; try assumption.
    + apply (gained_apart n s s'); assumption.
    + intros r Hrl Hn. apply E4; [exact Hrl|intros ->; exact (Hn Hq)].
    + unfold s'. cbn [set_current current]. change (org s') with (org s1).
      assert (O : org s1 v = org s1 p).
      { assert (V1 : opened s' q \/ closed s' q).
        { destruct (vi_state s' V' q) as [C|[O _]]; [unfold s'; cbn [set_current parts]; congruence|right; exact C|left; exact O]. }
        assert (org s' v = org s' q).
        { destruct V1 as [[t (_ & _ & _ & _ & O)]|[C _]].
          - destruct (O _ _ E6) as [_ O']. unfold vid, org in *. congruence.
          - change (cellof s' q) with (cellof s1 q) in C. rewrite C in E6. destruct E6. }
        change (org s1 v = org s1 q) in H. rewrite H. rewrite (Horg q (in_parts s q I Hq)), (Horg p (in_cur s p I Hp)).
        symmetry. apply link_org; assumption. }
      transitivity (map (org s1) (current s1)); [exact (redirect_one s1 (org s1 p) v (current s1) Hcu O)|]. rewrite E1. apply map_org_eq.
      intros r Hin. apply Horg. eapply in_cur; eassumption.
  - unfold s'. cbn [set_current current]. fold (org s1 p). rewrite (redirect_upd s1 v (current s1) i p); [congruence|exact Hcu|congruence].
  - exists q. split; [exact Hq|exact E6].
Qed.

Lemma gained_incl : forall n s s' q x, gained n s s' q -> In x (cellof s q) -> In x (cellof s' q).
Proof.
  intros n s s' q x [[_ E]|[[[E _] _]|(_ & _ & t & v & _ & _ & _ & _ & E & _)]] H; rewrite E in *; [exact H|destruct H|].
  apply in_or_app. left; exact H.
Qed.

Lemma voice_loop_moved : forall n cnt i s s' o, inv s -> vinv s -> apart s ->
  (List.length (current s) = i + cnt)%nat ->
  (forall j p, (j < i)%nat -> nth_error (current s) j = Some p -> exists q, In q (parts s) /\ In (n, p) (cellof s q)) ->
  voice_loop n i cnt s = (s', o) ->
  o = Ok /\ vmoved n s s' /\ forall p, In p (current s') -> exists q, In q (parts s') /\ In (n, p) (cellof s' q).
Proof.
  intros n. induction cnt as [|k IH]; intros i s s' o I V A Hlen Hd H; cbn [voice_loop] in H.
  - inversion H; subst. split; [reflexivity|]. split; [apply vmoved_refl; assumption|].
    intros p Hp. apply In_nth_error in Hp. destruct Hp as [j Hj]. apply (Hd j p); [|exact Hj].
    assert (j < List.length (current s'))%nat by (apply nth_error_Some; congruence). lia.
  - destruct (nth_error (current s) i) as [p|] eqn:E; [|apply nth_error_None in E; lia].
    assert (Hp : In p (current s)) by (eapply nth_error_In; exact E).
    destruct (vi_link s V p Hp) as [q0 [Hq0 Hl0]].
    destruct (get_voice_shape s p n q0 I V Hp Hq0 Hl0) as (v & s1 & Hg & _). rewrite Hg in H.
    destruct (voice_step s n i p v s1 I V A E Hg) as (M & C & q & Hq & Hin). cbv zeta in *.
    set (s2 := set_current _ s1) in *.
    destruct M as [A1 A2 A3 A4 A5 A6 A7 A8 A9] eqn:EM. clear EM.
    destruct (IH (S i) s2 s' o A1 A2 A3) as (-> & M' & F).
    + rewrite C, upd_nth_length. lia.
    + intros j r Hj Hr. rewrite C in Hr. destruct (Nat.eq_dec j i) as [->|Hne].
      * rewrite nth_error_upd_same in Hr by (apply nth_error_Some; congruence). inversion Hr; subst. exists q. rewrite A4. auto.
      * rewrite nth_error_upd_other in Hr by congruence. destruct (Hd j r) as [q' [Hq' Hin']]; [lia|exact Hr|].
        exists q'. rewrite A4. split; [exact Hq'|]. eapply gained_incl; [apply A9; exact Hq'|exact Hin'].
    + exact H.
    + split; [reflexivity|]. split; [|exact F]. eapply vmoved_trans; eassumption.
Qed.

Lemma run_voice_moved : forall n s s' o, inv s -> vinv s -> apart s -> run_voice n s = (s', o) ->
  o = Ok /\ vmoved n s s' /\ forall p, In p (current s') -> exists q, In q (parts s') /\ In (n, p) (cellof s' q).
Proof.
  intros n s s' o I V A H. eapply voice_loop_moved; try eassumption; [reflexivity|]. intros; lia.
Qed.

(* ---------------- steps inside a group ---------------- *)

Definition sound (s : score) : Prop := inv s /\ vinv s /\ apart s.

Lemma sound_step : forall s s', sound s -> step s s' -> sound s'.
Proof.
  intros s s' (I & V & A) H.
  pose proof (step_inv _ _ I H) as [I' _]. pose proof (step_vinv _ _ I V H) as [V' _].
  split; [exact I'|]. split; [exact V'|].
  assert (C : (forall r, vid (getp s' r) = vid (getp s r)) -> vheap s' = vheap s -> parts s' = parts s -> apart s').
  { intros H1 H2 H3 q Hq. rewrite H3 in Hq.
    assert (E : cellof s' q = cellof s q).
    { unfold cellof, getv. rewrite H2. specialize (H1 q). unfold vid in H1. congruence. }
    assert (E2 : ptmpl (getp s' q) = ptmpl (getp s q)) by (specialize (H1 q); unfold vid in H1; congruence).
    rewrite E, E2. exact (A q Hq). }
  destruct H; try (apply C; reflexivity).
  - apply C; try reflexivity. destruct H0 as (A1 & A2 & A3 & A4 & A5 & A6 & A7 & A8). apply vid_setp. unfold vid. congruence.
  - apply C; try reflexivity. apply vid_setp. reflexivity.
  - apply emit_shape in H0. cbv zeta in H0. destruct H0 as [[-> _]|(c & us & _ & _ & _ & _ & _ & ->)]; [exact A|].
    apply C; try reflexivity. intros q. unfold modp.
    change (getp (set_events ?e ?x) q) with (getp x q).
    match goal with |- vid (getp (setp ?a ?b ?c) q) = _ => rewrite (vid_setp c a b) end; [|reflexivity].
    rewrite vid_setp; reflexivity.
  - apply In_nth_error in H. destruct H as [i Hi]. destruct (voice_step s n i p v s1 I V A Hi H0) as (M & _). exact (vm_apart _ _ _ M).
  - apply closed_apart. apply (vend_vinv s I V).
  - apply closed_apart. destruct (run_part_vinv _ _ _ _ I V H) as (_ & _ & K & _). exact K.
Qed.

Lemma sound_star : forall s s', star s s' -> sound s -> sound s'.
Proof. intros s s' H A. induction H; [exact A|]. eapply sound_step; eassumption. Qed.
Lemma sound_new : sound new_score.
Proof. split; [apply inv_new|]. split; [apply vinv_new|]. intros q []. Qed.
Lemma session_sound : forall calls, sound (session calls).
Proof. intros. eapply sound_star; [apply session_reachable|apply sound_new]. Qed.

Record inside (L : label -> Prop) (s s' : score) : Prop := Inside {
  in_prt : parts s' = parts s;
  in_len : (len s <= len s')%nat;
  in_orgs : map (org s') (current s') = map (org s) (current s);
  in_rest : forall r, (r < len s)%nat -> ~ In r (current s) -> unch (getp s' r) = unch (getp s r);
  in_tmpl : forall q, In q (parts s) -> opened s q -> ptmpl (getp s' q) = ptmpl (getp s q);
  in_grow : forall q x, In q (parts s) -> In x (cellof s q) -> In x (cellof s' q);
  in_new : forall q x, In q (parts s) -> In x (cellof s' q) -> In x (cellof s q) \/ L (LVoice (fst x));
  in_mv : forall p, In p (current s') -> In p (current s) \/ exists q n, In q (parts s) /\ L (LVoice n) /\ In (n, p) (cellof s' q) }.

Lemma inside_step : forall (L : label -> Prop) s s', (forall l, L l -> in_group l) -> sound s -> lstep L s s' -> inside L s s'.
Proof.
  intros L s s' HL (I & V & A) H.
  assert (C : (forall r, vid (getp s' r) = vid (getp s r)) -> vheap s' = vheap s -> parts s' = parts s ->
              len s' = len s -> current s' = current s ->
              (forall r, (r < len s)%nat -> ~ In r (current s) -> unch (getp s' r) = unch (getp s r)) -> inside L s s').
  { intros H1 H2 H3 H4 H5 H6.
    assert (E : forall q, cellof s' q = cellof s q).
    { intros q. unfold cellof, getv. rewrite H2. specialize (H1 q). unfold vid in H1. congruence. }
    constructor; try assumption.
    - lia.
    - rewrite H5. apply map_ext. intros r. apply vid_org, H1.
    - intros q _ _. specialize (H1 q). unfold vid in H1. congruence.
    - intros q x _ Hx. rewrite E. exact Hx.
    - intros q x _ Hx. rewrite E in Hx. left; exact Hx.
    - intros p Hp. left. rewrite <- H5. exact Hp. }
  destruct H; try (apply C; reflexivity).
  - assert (p < len s)%nat by (eapply in_cur; eassumption).
    apply C; try reflexivity; [|apply heap_setp|].
    + destruct H0 as (A1 & A2 & A3 & A4 & A5 & A6 & A7 & A8). apply vid_setp. unfold vid. congruence.
    + intros r _ Hn. rewrite getp_setp_other; [reflexivity|]. intros ->; auto.
  - apply C; try reflexivity; [apply vid_setp; reflexivity|apply heap_setp|].
    intros r _ Hn. rewrite getp_setp_other; [reflexivity|]. intros ->; auto.
  - apply emit_shape in H0. cbv zeta in H0. destruct H0 as [[-> _]|(c & us & _ & _ & _ & _ & _ & ->)]; [apply C; reflexivity|].
    pose proof (in_cur s p I H) as Hpl. pose proof (getp_good s p I Hpl) as (Hol & _).
    apply C; try reflexivity.
    + intros q. unfold modp. change (getp (set_events ?e ?x) q) with (getp x q).
      match goal with |- vid (getp (setp ?a ?b ?c) q) = _ => rewrite (vid_setp c a b) end; [|reflexivity].
      rewrite vid_setp; reflexivity.
    + unfold modp. cbn. rewrite !upd_nth_length. reflexivity.
    + intros r Hr Hn. change (getp (set_events ?e ?x) r) with (getp x r). set (o := porigin (getp s p)) in *.
      destruct (Nat.eq_dec r o) as [->|Hne].
      * rewrite getp_modp_same by (rewrite heap_modp; exact Hol). rewrite getp_modp_other by (intros E; apply Hn; rewrite <- E; exact H). reflexivity.
      * rewrite getp_modp_other by congruence. rewrite getp_modp_other by (intros E; apply Hn; rewrite <- E; exact H). reflexivity.
  - apply In_nth_error in H. destruct H as [i Hi].
    destruct (voice_step s n i p v s1 I V A Hi H0) as (M & Cu & q & Hq & Hin). cbv zeta in *.
    set (s' := set_current _ s1) in *. destruct M as [A1 A2 A3 A4 A5 A6 A7 A8 A9].
    constructor; try assumption.
    + intros r Hr Hn. destruct (in_dec Nat.eq_dec r (parts s)) as [Hp|Hp]; [|rewrite A6 by assumption; reflexivity].
      destruct (A9 r Hp) as [[E _]|[[Hc [t [w (_ & _ & _ & _ & _ & E & E2 & _)]]]|(_ & _ & t & w & _ & _ & _ & E & _)]]; rewrite E; try reflexivity.
      exfalso. assert (Hp' : In r (parts s')) by (rewrite A4; exact Hp).
      destruct (vi_state s' A2 r Hp') as [[Hx _]|[_ [p' [Hp1 Hp2]]]]; [rewrite E2 in Hx; discriminate|].
      assert (Hin2 : In (org s r) (map (org s) (current s))).
      { rewrite <- A8. rewrite <- (A7 r Hr), <- Hp2. apply in_map. exact Hp1. }
      apply in_map_iff in Hin2. destruct Hin2 as [p2 [Ho2 Hp2']].
      destruct (vi_link s V p2 Hp2') as [q2 [Hq2 Hl2]].
      assert (q2 = r) as ->.
      { eapply NoDup_map_inj; [apply (vi_parts s V)|exact Hq2|exact Hp|]. rewrite <- (link_org s q2 p2 V Hq2 Hl2). exact Ho2. }
      destruct Hl2 as [->|[k Hk]]; [auto|]. destruct Hc as [Hc _]. rewrite Hc in Hk. destruct Hk.
    + intros r Hr Ho. destruct (A9 r Hr) as [[E _]|[[[Hc _] _]|(_ & _ & t & w & _ & _ & _ & E & _)]]; try (rewrite E; reflexivity).
      destruct Ho as [t (_ & O & _)]. congruence.
    + intros r x Hr Hx. eapply gained_incl; [apply A9; exact Hr|exact Hx].
    + intros r x Hr Hx. destruct (A9 r Hr) as [[_ E]|[[_ [t [w (_ & _ & _ & _ & _ & _ & E & _)]]]|(_ & _ & t & w & _ & _ & _ & _ & E & _)]]; rewrite E in Hx.
      * left; exact Hx.
      * destruct Hx as [<-|[]]. right; exact H1.
      * apply in_app_or in Hx. destruct Hx as [Hx|[<-|[]]]; [left; exact Hx|right; exact H1].
    + intros p' Hp'. rewrite Cu in Hp'. apply in_upd_nth in Hp'. destruct Hp' as [->|Hp']; [|left; exact Hp'].
      right. exists q, n. auto.
  - exfalso. apply HL in H0. destruct H as [->|(names & alias & ->)]; exact H0.
  - exfalso. exact (HL _ H0).
Qed.

(** The part of the score an object of an open group belongs to. *)
Lemma not_current : forall s q r, sound s -> In q (parts s) -> (r < len s)%nat -> org s r = org s q -> r <> q ->
  ~ In r (map snd (cellof s q)) -> ~ In r (current s).
Proof.
  intros s q r (I & V & A) Hq Hr Ho Hne Hn Hin. destruct (vi_link s V r Hin) as [q' [Hq' Hl]].
  assert (q' = q) as ->.
  { eapply NoDup_map_inj; [apply (vi_parts s V)|exact Hq'|exact Hq|]. rewrite <- (link_org s q' r V Hq' Hl). exact Ho. }
  destruct Hl as [->|[k Hk]]; [auto|]. apply Hn. apply in_map_iff. exists (k, r). auto.
Qed.

(** The template of an open group keeps its state. *)
Definition tmpl_is (P : list pid) (M : list pid) (m : Z) (q : pid) (X : part) (s : score) : Prop :=
  sound s /\ parts s = P /\ In q P /\ map (org s) (current s) = M /\ opened s q /\ ~ In m (map fst (cellof s q)) /\
  exists t, ptmpl (getp s q) = Some t /\ music (unch (getp s t)) = X.

Lemma open_if : forall s q x, sound s -> In q (parts s) -> In x (cellof s q) -> opened s q.
Proof.
  intros s q x (I & V & A) Hq Hx. destruct (vi_state s V q Hq) as [[C _]|[O _]]; [|exact O]. rewrite C in Hx. destruct Hx.
Qed.
Lemma opened_some : forall s q, opened s q -> exists x, In x (cellof s q).
Proof. intros s q [t (_ & O & _)]. destruct (cellof s q) as [|x l]; [congruence|]. exists x. left; reflexivity. Qed.

Lemma tmpl_step : forall m P M q X s s', tmpl_is P M m q X s -> lstep (without m) s s' -> tmpl_is P M m q X s'.
Proof.
  intros m P M q X s s' (S & HP & Hq & HM & O & Hm & t & Ht & HX) H.
  assert (S' : sound s') by (eapply sound_step; [exact S|eapply lstep_step; exact H]).
  destruct (inside_step (without m) s s' (fun l x => proj1 x) S H) as [A1 A2 A3 A4 A5 A6 A7 A8].
  rewrite <- HP in Hq. split; [exact S'|]. split; [congruence|]. split; [congruence|]. split; [congruence|].
  split. { destruct (opened_some s q O) as [x Hx]. eapply open_if; [exact S'|congruence|apply A6; [exact Hq|exact Hx]]. }
  split. { intros Hin. apply in_map_iff in Hin. destruct Hin as [x [Hx Hin]]. destruct (A7 q x Hq Hin) as [K|K].
    - apply Hm. apply in_map_iff. exists x. auto.
    - destruct K as [_ K]. congruence. }
  exists t. rewrite A5 by assumption. split; [exact Ht|].
  pose proof S as (I & V & A). destruct (A q Hq) as (_ & _ & A9). destruct (A9 t Ht) as [B1 B2].
  destruct O as [t' (O1 & _ & [O2 O3] & _)]. assert (t' = t) as -> by congruence.
  rewrite A4; [exact HX|exact O2|]. apply (not_current s q t S Hq O2); [unfold vid, org in *; congruence|exact B1|exact B2].
Qed.

(** A voice that was left keeps its state. *)
Definition voice_is (P : list pid) (M : list pid) (m : Z) (q v : pid) (X : part) (s : score) : Prop :=
  sound s /\ parts s = P /\ In q P /\ map (org s) (current s) = M /\ In (m, v) (cellof s q) /\ ~ In v (current s) /\
  unch (getp s v) = X.

Lemma same_voice : forall s q q' n m v, sound s -> In q (parts s) -> In q' (parts s) ->
  In (n, v) (cellof s q) -> In (m, v) (cellof s q') -> q = q' /\ n = m.
Proof.
  intros s q q' n m v S Hq Hq' H H'. pose proof S as (I & V & A).
  destruct (open_if s q _ S Hq H) as [t (_ & _ & _ & _ & O)]. destruct (open_if s q' _ S Hq' H') as [t' (_ & _ & _ & _ & O')].
  destruct (O _ _ H) as [_ E]. destruct (O' _ _ H') as [_ E'].
  assert (q = q') as <-.
  { eapply NoDup_map_inj; [apply (vi_parts s V)|exact Hq|exact Hq'|]. unfold vid, org in *. congruence. }
  split; [reflexivity|]. destruct (A q Hq) as (ND & _).
  assert (E2 : (n, v) = (m, v)) by (eapply NoDup_map_inj; [exact ND|exact H|exact H'|reflexivity]). congruence.
Qed.

Lemma voice_lt : forall s q n v, sound s -> In q (parts s) -> In (n, v) (cellof s q) -> (v < len s)%nat /\ ~ In v (parts s).
Proof.
  intros s q n v S Hq H. pose proof S as (I & V & A). destruct (open_if s q _ S Hq H) as [t (_ & _ & _ & _ & O)].
  destruct (O _ _ H) as [L E]. split; [exact L|]. intros Hv. destruct (A q Hq) as (_ & Hn & _). apply Hn.
  assert (v = q) as ->.
  { eapply NoDup_map_inj; [apply (vi_parts s V)|exact Hv|exact Hq|]. unfold vid, org in *. congruence. }
  apply in_map_iff. exists (n, q). auto.
Qed.

Lemma voice_step_is : forall m P M q v X s s', voice_is P M m q v X s -> lstep (without m) s s' -> voice_is P M m q v X s'.
Proof.
  intros m P M q v X s s' (S & HP & Hq & HM & Hv & Hc & HX) H.
  assert (S' : sound s') by (eapply sound_step; [exact S|eapply lstep_step; exact H]).
  destruct (inside_step (without m) s s' (fun l x => proj1 x) S H) as [A1 A2 A3 A4 A5 A6 A7 A8].
  rewrite <- HP in Hq. split; [exact S'|]. split; [congruence|]. split; [congruence|]. split; [congruence|].
  split; [apply A6; assumption|]. split.
  - intros Hin. destruct (A8 v Hin) as [K|(q' & n & Hq' & [_ Hn] & K)]; [auto|]. apply Hn.
    destruct (same_voice s' q' q n m v S') as [_ ->]; try congruence; [apply A6; assumption].
  - rewrite A4; [exact HX|eapply voice_lt; eassumption|exact Hc].
Qed.

(* ---------------- the state of an instance ---------------- *)

Lemma find_none : forall A (f : A -> pid) l i, ~ In i (map f l) -> find (fun p => Nat.eqb (f p) i) l = None.
Proof.
  intros A f l i. induction l as [|x l IH]; cbn; intros H; [reflexivity|].
  destruct (Nat.eqb (f x) i) eqn:E; [apply Nat.eqb_eq in E; exfalso; auto|]. apply IH. auto.
Qed.
Lemma find_some : forall A (f : A -> pid) l p, NoDup (map f l) -> In p l -> find (fun x => Nat.eqb (f x) (f p)) l = Some p.
Proof.
  intros A f l p ND H. induction l as [|x l IH]; [destruct H|]. cbn. inversion ND; subst. destruct H as [->|H].
  - rewrite Nat.eqb_refl. reflexivity.
  - destruct (Nat.eqb (f x) (f p)) eqn:E; [|apply IH; assumption]. apply Nat.eqb_eq in E. exfalso. apply H2. rewrite E. apply in_map. exact H.
Qed.
Lemma playing_none : forall s i, ~ In i (map (org s) (current s)) -> playing s i = None.
Proof. intros s i H. unfold playing, state_in, instance. fold (org s). rewrite (find_none pid (org s)) by exact H. reflexivity. Qed.
Lemma playing_some : forall s p, sound s -> In p (current s) -> playing s (org s p) = Some (unch (getp s p)).
Proof.
  intros s p (_ & V & _) H. unfold playing, state_in, instance. rewrite (find_some pid (org s)); [reflexivity|apply (vi_cur s V)|exact H].
Qed.

Lemma exec_split : forall us vs s s', exec (us ++ vs) s = (s', Ok) -> exists s1, exec us s = (s1, Ok) /\ exec vs s1 = (s', Ok).
Proof.
  unfold exec, run_all. induction us as [|u us IH]; intros vs s s' H; [exists s; split; [reflexivity|exact H]|].
  cbn [app each] in *. destruct (run 1 u s) as [s1 []]; cbn [seqo] in *; try discriminate. apply IH. exact H.
Qed.
Lemma exec_voice : forall n s s', exec [UVoice n] s = (s', Ok) -> run_voice n s = (s', Ok).
Proof.
  intros n s s' H. unfold exec, run_all in H. cbn [each] in H. unfold run in H. cbn [run_upd] in H.
  destruct (run_voice n s) as [s1 []]; cbn [seqo] in H; congruence.
Qed.

(** The current part of an instance after a voice marker. *)
Lemma voice_current : forall n s s', sound s -> run_voice n s = (s', Ok) -> sound s' /\ vmoved n s s' /\
  forall q, In q (parts s) -> In (org s q) (map (org s) (current s)) ->
  exists v, In v (current s') /\ org s' v = org s q /\ In (n, v) (cellof s' q).
Proof.
  intros n s s' (I & V & A) H. destruct (run_voice_moved n s s' Ok I V A H) as (_ & M & C).
  pose proof M as [A1 A2 A3 A4 A5 A6 A7 A8 A9]. assert (S' : sound s') by (split; [exact A1|split; [exact A2|exact A3]]).
  split; [exact S'|]. split; [exact M|].
  intros q Hq Hin. rewrite <- A8 in Hin. apply in_map_iff in Hin. destruct Hin as [v [Ho Hv]]. exists v.
  split; [exact Hv|]. split; [exact Ho|]. destruct (C v Hv) as [q' [Hq' Hin]].
  assert (q' = q) as ->; [|exact Hin].
  eapply NoDup_map_inj; [apply (vi_parts s V)|congruence|exact Hq|].
  destruct (open_if s' q' _ S' Hq' Hin) as [t (_ & _ & _ & _ & O)]. destruct (O _ _ Hin) as [_ E].
  rewrite <- Ho, <- (A7 q') by (eapply in_parts; [exact I|congruence]). unfold vid, org in *. congruence.
Qed.

Lemma c19_start_gen : forall s secs m s2, sound s -> no_open_voice s -> stored (without m) s ->
  Forall (upd_all (without m)) (sections secs) ->
  exec (sections secs ++ [UVoice m]) s = (s2, Ok) ->
  forall i, option_map music (playing s2 i) = option_map music (playing s i).
Proof.
  intros s secs m s2 S Hno Hst Hsec H i. pose proof S as (I & V & A).
  assert (Hpq : forall p, In p (current s) -> In p (parts s) /\ closed s p).
  { intros p Hp. destruct (vi_link s V p Hp) as [q [Hq Hl]]. pose proof (link_vid s q p V Hq Hl) as Hvid.
    assert (Hc : cellof s q = []).
    { specialize (Hno p Hp). unfold cellof. unfold voices_of in Hno. unfold vid in Hvid. congruence. }
    assert (p = q) as -> by (destruct Hl as [Hl|[k Hk]]; [exact Hl|rewrite Hc in Hk; destruct Hk]).
    split; [exact Hq|]. destruct (vi_state s V q Hq) as [C|[[t (_ & O & _)] _]]; [exact C|congruence]. }
  (* the first marker *)
  assert (First : forall n s1 q, In q (current s) -> run_voice n s = (s1, Ok) ->
    sound s1 /\ vmoved n s s1 /\ exists t v, In v (current s1) /\ org s1 v = org s q /\ cellof s1 q = [(n, v)] /\
      ptmpl (getp s1 q) = Some t /\
      getp s1 t = set_ptmpl (Some t) (set_povr None (getp s q)) /\ getp s1 v = set_ptmpl (Some t) (set_povr None (getp s q))).
  { intros n s1 q Hq Hr. destruct (voice_current n s s1 S Hr) as (S1 & M & C). split; [exact S1|]. split; [exact M|].
    destruct (Hpq q Hq) as [Hqp Hcl].
    destruct (C q Hqp (in_map (org s) _ _ Hq)) as (v & V1 & V2 & V3).
    destruct (vm_gain _ _ _ M q Hqp) as [[_ E]|[[_ [t [w (_ & _ & _ & _ & _ & E & E2 & E3 & E4)]]]|(O & _)]].
    - rewrite E in V3. destruct Hcl as [Hcl _]. rewrite Hcl in V3. destruct V3.
    - rewrite E2 in V3. destruct V3 as [V3|[]]. inversion V3; subst w. exists t, v.
      split; [exact V1|]. split; [exact V2|]. split; [exact E2|]. split; [rewrite E; reflexivity|]. auto.
    - destruct Hcl as [Hcl _]. destruct O as [t (_ & O & _)]. congruence. }
  apply exec_split in H. destruct H as (sb & Hb & Hm). apply exec_voice in Hm.
  destruct (in_dec Nat.eq_dec i (map (org s) (current s))) as [Hi|Hi].
  2:{ rewrite (playing_none s i Hi). rewrite playing_none; [reflexivity|]. intros Hin. apply Hi.
      assert (E : map (org s2) (current s2) = map (org s) (current s)); [|rewrite <- E; exact Hin].
      assert (Sb : sound sb /\ map (org sb) (current sb) = map (org s) (current s)).
      { assert (St : lstar (without m) s sb).
        { apply (run_all_lstar (without m) 1 (sections secs) s sb Ok); [exact Hsec|exact Hb|]. apply stored_store; [|exact Hst]. intros c. split; [exact Logic.I|discriminate]. }
        eapply (lstar_inv (without m) (fun x => sound x /\ map (org x) (current x) = map (org s) (current s))); [|exact St|split; [exact S|reflexivity]].
        intros a b [Sa Ea] Hab. split; [eapply sound_step; [exact Sa|eapply lstep_step; exact Hab]|].
        rewrite (in_orgs _ _ _ (inside_step (without m) a b (fun l x => proj1 x) Sa Hab)). exact Ea. }
      destruct Sb as [Sb Eb]. destruct (voice_current m sb s2 Sb Hm) as (_ & M & _). rewrite (vm_cur _ _ _ M). exact Eb. }
  apply in_map_iff in Hi. destruct Hi as [q [Hqi Hq]]. subst i. rewrite (playing_some s q S Hq).
  destruct (Hpq q Hq) as [Hqp Hcl].
  destruct secs as [|[n us] secs].
  - cbn in Hb. inversion Hb; subst sb. destruct (First m s2 q Hq Hm) as (S2 & M & t & v & V1 & V2 & V3 & V4 & V5 & V6).
    rewrite <- V2. rewrite (playing_some s2 v S2 V1). cbn [option_map]. rewrite V6. reflexivity.
  - cbn [sections flat_map] in Hb, Hsec. fold (sections secs) in Hb, Hsec. rewrite <- app_comm_cons in *.
    inversion Hsec as [|x l Hn Hrest]; subst.
    change (UVoice n :: us ++ sections secs) with ([UVoice n] ++ (us ++ sections secs)) in Hb.
    apply exec_split in Hb. destruct Hb as (sa & Ha & Hb).
    assert (Hsa : lstar (without m) s sa /\ store_all (without m) s).
    { assert (Hs0 : store_all (without m) s) by (apply stored_store; [intros c; split; [exact Logic.I|discriminate]|exact Hst]).
      split; [|exact Hs0]. apply (run_all_lstar (without m) 1 [UVoice n] s sa Ok); [|exact Ha|exact Hs0].
      constructor; [exact Hn|constructor]. }
    destruct Hsa as [Hsa Hs0]. apply exec_voice in Ha. cbn [upd_all] in Hn. destruct Hn as [_ Hnm].
    destruct (First n sa q Hq Ha) as (Sa & M & t & v & V1 & V2 & V3 & V4 & V5 & V6).
    assert (T : tmpl_is (parts s) (map (org s) (current s)) m q (music (unch (getp s q))) sa).
    { split; [exact Sa|]. split; [apply (vm_parts _ _ _ M)|]. split; [exact Hqp|]. split; [apply (vm_cur _ _ _ M)|].
      split; [eapply (open_if sa q (n, v) Sa); [rewrite (vm_parts _ _ _ M); exact Hqp|rewrite V3; left; reflexivity]|].
      split; [rewrite V3; cbn; intros [K|[]]; congruence|].
      exists t. split; [exact V4|]. rewrite V5. reflexivity. }
    assert (Tb : tmpl_is (parts s) (map (org s) (current s)) m q (music (unch (getp s q))) sb).
    { eapply (lstar_inv (without m)); [|eapply (run_all_lstar (without m) 1 (us ++ sections secs) sa sb Ok); [exact Hrest|exact Hb|]|exact T].
      - intros a b Ta Hab. eapply tmpl_step; eassumption.
      - eapply star_store; [exact Hsa|exact Hs0]. }
    destruct Tb as (Sb & HP & _ & HM & O & Hnm2 & t2 & Ht2 & HX).
    destruct (voice_current m sb s2 Sb Hm) as (S2 & M2 & C2).
    assert (Hqb : In q (parts sb)) by congruence.
    assert (Hoq : org sb q = org s q).
    {
      assert (Hx : idext s sb).
      { eapply star_inv_idext; [|exact I]. eapply lstar_star. eapply star_trans; [exact Hsa|].
        eapply (run_all_lstar (without m) 1 (us ++ sections secs) sa sb Ok); [exact Hrest|exact Hb|]. eapply star_store; [exact Hsa|exact Hs0]. }
      apply Hx. eapply in_parts; eassumption. }
    destruct (C2 q Hqb) as (w & W1 & W2 & W3); [rewrite HM, Hoq; apply in_map; exact Hq|].
    rewrite <- Hoq, <- W2. rewrite (playing_some s2 w S2 W1). cbn [option_map]. f_equal. rewrite <- HX.
    destruct (vm_gain _ _ _ M2 q Hqb) as [[_ E]|[[[C _] _]|(_ & _ & t3 & w3 & _ & _ & E1 & E2 & E3 & E4)]].
    + exfalso. rewrite E in W3. apply Hnm2. apply in_map_iff. exists (m, w). auto.
    + destruct O as [t4 (_ & O & _)]. congruence.
    + assert (t3 = t2) as -> by congruence. rewrite E3 in W3. apply in_app_or in W3. destruct W3 as [W3|[W3|[]]].
      * exfalso. apply Hnm2. apply in_map_iff. exists (m, w). auto.
      * inversion W3; subst w3. rewrite E4. reflexivity.
Qed.

Lemma back : forall m s s2 q v, sound s -> In q (parts s) -> In (m, v) (cellof s q) ->
  In (org s q) (map (org s) (current s)) -> run_voice m s = (s2, Ok) ->
  playing s2 (org s q) = Some (unch (getp s v)).
Proof.
  intros m s s2 q v S Hq Hv Hin H. destruct (voice_current m s s2 S H) as (S2 & M & C).
  destruct (C q Hq Hin) as (w & W1 & W2 & W3). rewrite <- W2, (playing_some s2 w S2 W1). do 2 f_equal.
  assert (Hv2 : In (m, v) (cellof s2 q)) by (eapply gained_incl; [apply (vm_gain _ _ _ M); exact Hq|exact Hv]).
  assert (Hq2 : In q (parts s2)) by (rewrite (vm_parts _ _ _ M); exact Hq).
  destruct (open_if s2 q _ S2 Hq2 Hv2) as [t (_ & _ & _ & ND & _)].
  assert (E : (m, w) = (m, v)) by (eapply NoDup_map_inj; [exact ND|exact W3|exact Hv2|reflexivity]).
  inversion E; subst w. destruct (voice_lt s q m v S Hq Hv) as [L Hn]. apply (vm_rest _ _ _ M); assumption.
Qed.

Lemma lchan_without : forall m c, without m (LChan c).
Proof. intros m c. split; [exact Logic.I|discriminate]. Qed.

Lemma c19_return_gen : forall s1 secs m s3 q v, sound s1 -> stored (without m) s1 ->
  In q (parts s1) -> In (m, v) (cellof s1 q) -> In v (current s1) ->
  Forall (upd_all (without m)) (sections secs) ->
  exec (sections secs ++ [UVoice m]) s1 = (s3, Ok) ->
  playing s3 (org s1 v) = Some (unch (getp s1 v)).
Proof.
  intros s secs m s3 q v S Hst Hq Hv Hc Hsec H. pose proof S as (I & V & A).
  assert (Hoq : org s v = org s q).
  { destruct (open_if s q _ S Hq Hv) as [t (_ & _ & _ & _ & O)]. destruct (O _ _ Hv) as [_ E]. unfold vid, org in *. congruence. }
  apply exec_split in H. destruct H as (sb & Hb & Hm). apply exec_voice in Hm.
  assert (Hin : In (org s q) (map (org s) (current s))) by (rewrite <- Hoq; apply in_map; exact Hc).
  rewrite Hoq. destruct secs as [|[n us] secs].
  - cbn in Hb. inversion Hb; subst sb. eapply back; eassumption.
  - cbn [sections flat_map] in Hb, Hsec. fold (sections secs) in Hb, Hsec. rewrite <- app_comm_cons in *.
    inversion Hsec as [|x l Hn Hrest]; subst.
    change (UVoice n :: us ++ sections secs) with ([UVoice n] ++ (us ++ sections secs)) in Hb.
    apply exec_split in Hb. destruct Hb as (sa & Ha & Hb).
    assert (Hs0 : store_all (without m) s) by (apply stored_store; [apply lchan_without|exact Hst]).
    assert (Hsa : lstar (without m) s sa).
    { apply (run_all_lstar (without m) 1 [UVoice n] s sa Ok); [|exact Ha|exact Hs0]. constructor; [exact Hn|constructor]. }
    assert (Hsb : lstar (without m) sa sb).
    { apply (run_all_lstar (without m) 1 (us ++ sections secs) sa sb Ok); [exact Hrest|exact Hb|]. eapply star_store; [exact Hsa|exact Hs0]. }
    apply exec_voice in Ha. cbn [upd_all] in Hn. destruct Hn as [_ Hnm].
    destruct (run_voice_moved n s sa Ok I V A Ha) as (_ & M & C). destruct (voice_current n s sa S Ha) as (Sa & _ & _).
    assert (Hva : In (m, v) (cellof sa q)) by (eapply gained_incl; [apply (vm_gain _ _ _ M); exact Hq|exact Hv]).
    assert (Hqa : In q (parts sa)) by (rewrite (vm_parts _ _ _ M); exact Hq).
    assert (T : voice_is (parts s) (map (org s) (current s)) m q v (unch (getp s v)) sa).
    { split; [exact Sa|]. split; [apply (vm_parts _ _ _ M)|]. split; [exact Hq|]. split; [apply (vm_cur _ _ _ M)|].
      split; [exact Hva|]. split.
      - intros K. destruct (C v K) as (q' & Hq' & K'). destruct (same_voice sa q' q n m v Sa Hq' Hqa K' Hva) as [_ E]. congruence.
      - destruct (voice_lt s q m v S Hq Hv) as [L Hn]. rewrite (vm_rest _ _ _ M) by assumption. reflexivity. }
    assert (Tb : voice_is (parts s) (map (org s) (current s)) m q v (unch (getp s v)) sb).
    { eapply (lstar_inv (without m)); [|exact Hsb|exact T]. intros a b Ta Hab. eapply voice_step_is; eassumption. }
    destruct Tb as (Sb & HP & _ & HM & Hvb & _ & HX).
    assert (E : org sb q = org s q).
    { assert (Hx : idext s sb) by (eapply star_inv_idext; [eapply lstar_star; eapply star_trans; eassumption|exact I]).
      apply Hx. eapply in_parts; eassumption. }
    rewrite <- HX, <- E. eapply back; try eassumption; [congruence|]. rewrite HM, E. exact Hin.
Qed.

Lemma voice_loop_vars : forall n cnt i s s' o, voice_loop n i cnt s = (s', o) -> variables s' = variables s.
Proof.
  intros n. induction cnt as [|k IH]; intros i s s' o H; cbn [voice_loop] in H; [inversion H; reflexivity|].
  destruct (nth_error (current s) i) as [p|]; [|inversion H; reflexivity].
  destruct (get_voice p n s) as [[v s1]|e|e] eqn:E; try (inversion H; reflexivity).
  apply IH in H. rewrite H. cbn [set_current variables]. unfold get_voice, new_voice, clone, rbind in E.
  destruct (aget Z.eqb n _); [inversion E; reflexivity|].
  destruct (has_voices s p); [|destruct (ptmpl (getp s p)); [discriminate|]];
    (match type of E with match ?x with _ => _ end = _ => destruct x end; [|discriminate]); inversion E; reflexivity.
Qed.

Lemma c19_return : forall calls m body s1 secs s3, let s := session calls in stored local_label s ->
  Forall (upd_all local_label) body -> Forall (upd_all (without m)) (sections secs) ->
  exec (UVoice m :: body) s = (s1, Ok) -> exec (sections secs ++ [UVoice m]) s1 = (s3, Ok) ->
  forall i, playing s3 i = playing s1 i.
Proof.
  intros calls m body s1 secs s3 s Hst Hb Hsec H1 H3 i. pose proof (session_sound calls) as S. fold s in S.
  change (UVoice m :: body) with ([UVoice m] ++ body) in H1. apply exec_split in H1. destruct H1 as (sm & Hm & H1).
  apply exec_voice in Hm. pose proof S as (I & V & A).
  destruct (run_voice_moved m s sm Ok I V A Hm) as (_ & M & C). destruct (voice_current m s sm S Hm) as (Sm & _ & _).
  assert (Hs1 : store_all local_label sm).
  { apply stored_store; [intros c; exact Logic.I|]. unfold stored. unfold run_voice in Hm. apply voice_loop_vars in Hm. rewrite Hm. exact Hst. }
  assert (St : lstar local_label sm s1) by (apply (run_all_lstar local_label 1 body sm s1 Ok); assumption).
  assert (HL : forall l, local_label l -> in_group l) by (intros []; cbn; tauto).
  assert (K : sound s1 /\ forall p, In p (current s1) -> exists q, In q (parts s1) /\ In (m, p) (cellof s1 q)).
  { eapply (lstar_inv local_label (fun x => sound x /\ forall p, In p (current x) -> exists q, In q (parts x) /\ In (m, p) (cellof x q)));
      [|exact St|split; [exact Sm|exact C]].
    intros a b [Sa Ca] Hab. split; [eapply sound_step; [exact Sa|eapply lstep_step; exact Hab]|].
    destruct (inside_step local_label a b HL Sa Hab) as [A1 A2 A3 A4 A5 A6 A7 A8].
    intros p Hp. destruct (A8 p Hp) as [K|(q & n & _ & K & _)]; [|destruct K].
    destruct (Ca p K) as (q & Hq & Hin). exists q. rewrite A1. split; [exact Hq|apply A6; assumption]. }
  destruct K as [S1 C1].
  assert (Hst1 : stored (without m) s1).
  { intros k es Hin. pose proof (star_store _ _ _ St Hs1) as [Hv _]. specialize (Hv k es Hin). eapply Forall_impl; [|exact Hv].
    intros u. apply upd_all_mono. intros l Hl. split; [apply HL; exact Hl|]. intros ->. destruct Hl. }
  destruct (in_dec Nat.eq_dec i (map (org s1) (current s1))) as [Hi|Hi].
  - apply in_map_iff in Hi. destruct Hi as [v [<- Hv]]. destruct (C1 v Hv) as (q & Hq & Hin).
    rewrite (playing_some s1 v S1 Hv). eapply c19_return_gen; eassumption.
  - rewrite (playing_none s1 i Hi). apply playing_none. intros Hin. apply Hi.
    apply exec_split in H3. destruct H3 as (sb & Hbb & Hmm). apply exec_voice in Hmm.
    assert (Sb : sound sb /\ map (org sb) (current sb) = map (org s1) (current s1)).
    { assert (St2 : lstar (without m) s1 sb).
      { apply (run_all_lstar (without m) 1 (sections secs) s1 sb Ok); [exact Hsec|exact Hbb|]. apply stored_store; [apply lchan_without|exact Hst1]. }
      eapply (lstar_inv (without m) (fun x => sound x /\ map (org x) (current x) = map (org s1) (current s1))); [|exact St2|split; [exact S1|reflexivity]].
      intros a b [Sa Ea] Hab. split; [eapply sound_step; [exact Sa|eapply lstep_step; exact Hab]|].
      rewrite (in_orgs _ _ _ (inside_step (without m) a b (fun l x => proj1 x) Sa Hab)). exact Ea. }
    destruct Sb as [Sb Eb]. destruct (voice_current m sb s3 Sb Hmm) as (_ & M3 & _). rewrite <- Eb, <- (vm_cur _ _ _ M3). exact Hin.
Qed.

Lemma c19_start : forall calls secs m s2, let s := session calls in no_open_voice s -> stored (without m) s ->
  Forall (upd_all (without m)) (sections secs) ->
  exec (sections secs ++ [UVoice m]) s = (s2, Ok) ->
  forall i, option_map music (playing s2 i) = option_map music (playing s i).
Proof. intros calls secs m s2 s. apply c19_start_gen. apply session_sound. Qed.

(* ---------------- C20 ---------------- *)

(** The fold of last_to_finish picks the first of the furthest. *)
Lemma fold_first : forall (Hlo : SpecGlobals.linear_order) (off : Z * pid -> num) (l : list (Z * pid)) (b : Z * pid),
  nisnan (off b) = false -> (forall x, In x l -> nisnan (off x) = false) ->
  let r := fold_left (fun best v => if nltb (off best) (off v) then v else best) l b in
  (r = b /\ forall x, In x l -> nltb (off b) (off x) = false) \/
  (exists before after, l = before ++ r :: after /\ nltb (off b) (off r) = true /\
     (forall x, In x before -> nltb (off x) (off r) = true) /\ (forall x, In x after -> nltb (off r) (off x) = false)).
Proof.
  intros [L1 L2 L3 L4 L5] off.
  assert (LT : forall a b c, nleb a b = true -> nisnan a = false -> nltb b c = true -> nltb a c = true).
  { intros a b c H Hn H'. destruct (nltb a c) eqn:E; [reflexivity|]. destruct (L1 b c H') as [K1 K2].
    destruct (L2 b c K1) as (_ & Hc & _). specialize (L3 a c Hn Hc E). specialize (L4 c a b L3 H). congruence. }
  induction l as [|x l IH]; intros b Hb Hl; cbn [fold_left].
  { left; split; [reflexivity|]. intros x []. }
  assert (Hx : nisnan (off x) = false) by (apply Hl; left; reflexivity).
  assert (Hl' : forall y, In y l -> nisnan (off y) = false) by (intros; apply Hl; right; assumption).
  cbv zeta in *. destruct (nltb (off b) (off x)) eqn:E.
  - right. specialize (IH x Hx Hl'). set (r := fold_left _ l x) in *. destruct IH as [[Er Hr]|(bf & af & El & H1 & H2 & H3)].
    + exists [], l. rewrite Er. split; [reflexivity|]. split; [exact E|]. split; [intros y []|]. exact Hr.
    + exists (x :: bf), af. split; [cbn; congruence|]. split; [eapply LT; [apply L1; exact E|exact Hb|exact H1]|].
      split; [|exact H3]. intros y [<-|Hy]; [exact H1|apply H2; exact Hy].
  - specialize (IH b Hb Hl'). set (r := fold_left _ l b) in *. destruct IH as [[Er Hr]|(bf & af & El & H1 & H2 & H3)].
    + left. split; [exact Er|]. intros y [<-|Hy]; [exact E|apply Hr; exact Hy].
    + right. exists (x :: bf), af. split; [cbn; congruence|]. split; [exact H1|]. split; [|exact H3].
      intros y [<-|Hy]; [|apply H2; exact Hy]. eapply LT; [apply L3; [exact Hb|exact Hx|exact E]|exact Hx|exact H1].
Qed.

Lemma last_furthest : SpecGlobals.linear_order -> forall s vs d, vs <> [] ->
  (forall x, In x vs -> nisnan (pcur (getp s (snd x))) = false) -> furthest s vs (last_to_finish s vs d).
Proof.
  intros Hlo s vs d Hne Hnan. unfold last_to_finish, furthest. cbv zeta.
  pose proof (app_removelast_last (0%Z, d) Hne) as Evs. set (l := removelast vs) in *. set (b := last vs (0%Z, d)) in *.
  assert (Hin : forall x, In x l -> In x vs) by (intros x Hx; rewrite Evs; apply in_or_app; left; exact Hx).
  assert (Hb : In b vs) by (rewrite Evs; apply in_or_app; right; left; reflexivity).
  set (off := fun x : Z * pid => pcur (getp s (snd x))).
  assert (E : fold_left (fun best v => if nltb (pcur (getp s best)) (pcur (getp s (snd v))) then snd v else best) l (snd b) =
              snd (fold_left (fun best v => if nltb (off best) (off v) then v else best) l b)).
  { generalize b. clear. induction l as [|x l IH]; intros b; cbn [fold_left]; [reflexivity|]. unfold off at 2 3.
    destruct (nltb _ _); apply IH. }
  rewrite E. destruct (fold_first Hlo off l b) as [[-> H]|(bf & af & El & H1 & H2 & H3)].
  - apply Hnan, Hb.
  - intros x Hx. apply Hnan, Hin, Hx.
  - exists (fst b). rewrite <- surjective_pairing. left. exists l. split; [exact Evs|exact H].
  - set (r := fold_left _ l b) in *. exists (fst r). rewrite <- surjective_pairing. right. exists bf, (af ++ [b]).
    split; [rewrite Evs, El, <- app_assoc; reflexivity|]. split; [destruct af; discriminate|]. split; [exact H2|].
    split.
    + intros x Hx. apply in_app_or in Hx. destruct Hx as [Hx|[<-|[]]]; [apply H3; exact Hx|].
      destruct Hlo as [L1 L2 L3 L4 L5]. destruct (L1 _ _ H1) as [K _]. apply L2 in K. apply K.
    + rewrite last_last. exact H1.
Qed.

Definition bare (p : part) : part := set_ptmpl None (set_pvoices 0 p).
Definition pick (s : score) (p : pid) : pid :=
  match cellof s p with [] => p | vs => last_to_finish s vs p end.

Lemma vend_one_exact : forall i p s, inv s -> vinv s -> nth_error (current s) i = Some p ->
  let s' := voice_end_one i p s in
  nth_error (current s') i = Some (pick s p) /\ (forall r, bare (getp s' r) = bare (getp s r)) /\
  (forall r, In r (parts s) -> org s r <> org s p -> In r (parts s') /\ getp s' r = getp s r) /\
  (forall a, map (org s') (named_parts s' a) = map (org s) (named_parts s a)) /\ events s' = events s.
Proof.
  intros i p s I V Hi. cbv zeta. assert (Hp : In p (current s)) by (eapply nth_error_In; exact Hi).
  pose proof (in_cur s p I Hp) as Hpl.
  unfold voice_end_one, pick. fold (cellof s p). destruct (cellof s p) as [|x vs] eqn:E.
  { split; [exact Hi|]. split; [reflexivity|]. split; [auto|]. split; reflexivity. }
  destruct (vi_link s V p Hp) as [q [Hq Hl]].
  pose proof (link_vid s q p V Hq Hl) as Hvid. pose proof (link_org s q p V Hq Hl) as Hpo.
  assert (Hcq : cellof s q = x :: vs) by (rewrite <- E; unfold cellof; unfold vid in Hvid; congruence).
  destruct (vi_state s V q Hq) as [[A _]|[[t (A1 & A2 & A3 & A4 & A5)] _]]; [congruence|].
  set (lv := last_to_finish s (x :: vs) p).
  destruct (last_to_finish_in s (x :: vs) p) as [n Hn]; [discriminate|]. fold lv in Hn.
  rewrite <- Hcq in Hn. destruct (A5 _ _ Hn) as [Hlv Hlvid].
  assert (Hlo : org s lv = org s p) by (unfold vid, org in *; congruence).
  set (cell := List.length (vheap s)).
  set (s2 := modp lv (fun q => set_ptmpl None (set_pvoices cell q)) (set_vheap (vheap s ++ [[]]) s)).
  assert (Glv : getp s2 lv = set_ptmpl None (set_pvoices cell (getp s lv))).
  { unfold s2. rewrite getp_modp_same by exact Hlv. reflexivity. }
  assert (Go : forall r, r <> lv -> getp s2 r = getp s r).
  { intros r Hr. unfold s2. rewrite getp_modp_other by congruence. reflexivity. }
  assert (Gor : forall r, org s2 r = org s r).
  { intros r. unfold org. destruct (Nat.eq_dec r lv) as [->|Hne]; [rewrite Glv; reflexivity|rewrite Go by exact Hne; reflexivity]. }
  match goal with |- nth_error (current ?x) i = _ /\ _ => set (s5 := x) end.
  assert (G5 : forall r, getp s5 r = getp s2 r) by reflexivity.
  assert (C5 : current s5 = upd_nth i lv (current s)) by reflexivity.
  assert (Ho : porigin (getp s2 p) = org s p) by apply Gor.
  assert (Hred : forall l, redirect s2 (porigin (getp s2 p)) lv l = map (fun r => if Nat.eqb (org s r) (org s p) then lv else r) l).
  { intros l. rewrite Ho. unfold redirect. apply map_ext. intros r. fold (org s2 r). rewrite Gor. reflexivity. }
  split; [rewrite C5; apply nth_error_upd_same; apply nth_error_Some; congruence|].
  split. { intros r. rewrite G5. destruct (Nat.eq_dec r lv) as [->|Hne]; [rewrite Glv; reflexivity|rewrite Go by exact Hne; reflexivity]. }
  split.
  { intros r Hr Hne. assert (r <> lv) by congruence. rewrite G5, Go by assumption. split; [|reflexivity].
    change (parts s5) with (redirect s2 (porigin (getp s2 p)) lv (parts s)). rewrite Hred. apply in_map_iff. exists r.
    apply Nat.eqb_neq in Hne. rewrite Hne. auto. }
  split; [|reflexivity].
  intros a. rewrite (map_ext (org s5) (org s)) by (intros; apply Gor). unfold named_parts.
  change (aliases s5) with (map (fun '(a, ps) => (a, redirect s2 (porigin (getp s2 p)) lv ps)) (aliases s)).
  induction (aliases s) as [|[b ps] l IH]; [reflexivity|]. cbn [map aget].
  destruct (String.eqb b a); [|exact IH]. rewrite Hred, map_map. apply map_ext. intros r.
  destruct (Nat.eqb (org s r) (org s p)) eqn:Eo; [apply Nat.eqb_eq in Eo; congruence|reflexivity].
Qed.

Lemma bare_pick : forall s s' p, (forall r, bare (getp s' r) = bare (getp s r)) -> cellof s' p = cellof s p -> pick s' p = pick s p.
Proof.
  intros s s' p B E. unfold pick. rewrite E. destruct (cellof s p) as [|x vs]; [reflexivity|]. unfold last_to_finish.
  assert (P : forall r, pcur (getp s' r) = pcur (getp s r)) by (intros r; exact (f_equal pcur (B r))).
  generalize (removelast (x :: vs)) (snd (last (x :: vs) (0%Z, p))). induction l as [|y l IH]; intros b; cbn [fold_left]; [reflexivity|].
  rewrite !P. apply IH.
Qed.

Lemma vend_loop_exact : forall cnt i s, inv s -> vinv s -> (List.length (current s) = i + cnt)%nat ->
  let s' := voice_end_loop i cnt s in
  (forall j p, (j < i)%nat -> nth_error (current s) j = Some p -> nth_error (current s') j = Some p) /\
  (forall j p, (i <= j)%nat -> nth_error (current s) j = Some p -> nth_error (current s') j = Some (pick s p)) /\
  (forall r, bare (getp s' r) = bare (getp s r)) /\
  (forall r, In r (parts s) -> (forall p, In p (current s) -> org s r <> org s p) -> In r (parts s') /\ getp s' r = getp s r) /\
  (forall a, map (org s') (named_parts s' a) = map (org s) (named_parts s a)) /\ events s' = events s.
Proof.
  induction cnt as [|k IH]; intros i s I V Hlen; cbn [voice_end_loop].
  - split; [auto|]. split; [|split; [reflexivity|split; [auto|split; reflexivity]]].
    intros j p Hj Hp. assert (j < List.length (current s))%nat by (apply nth_error_Some; congruence). lia.
  - destruct (nth_error (current s) i) as [p|] eqn:E; [|apply nth_error_None in E; lia].
    assert (Hp : In p (current s)) by (eapply nth_error_In; exact E).
    destruct (vend_one_vinv i p s I V E) as (V1 & L1 & M1 & M2 & N1 & C1 & _).
    destruct (vend_one_inv i p s I Hp) as [I1 X1].
    destruct (vend_one_exact i p s I V E) as (B1 & B2 & B3 & B4 & B5).
    set (s1 := voice_end_one i p s) in *. cbv zeta in *.
    assert (Ob : forall r, org s1 r = org s r) by (intros r; exact (f_equal porigin (B2 r))).
    destruct (IH (S i) s1 I1 V1) as (D1 & D2 & D3 & D4 & D5 & D6); [lia|].
    split; [|split; [|split; [|split; [|split]]]].
    + intros j r Hj Hr. apply D1; [lia|]. rewrite N1 by lia. exact Hr.
    + intros j r Hj Hr. destruct (Nat.eq_dec j i) as [->|Hne].
      * assert (r = p) as -> by congruence. apply D1; [lia|exact B1].
      * rewrite (D2 j r); [|lia|rewrite N1 by exact Hne; exact Hr]. f_equal. apply bare_pick; [exact B2|].
        apply C1; [eapply nth_error_In; exact Hr|]. intros Ho. apply Hne.
        pose proof (vi_cur s V) as ND. rewrite NoDup_nth_error in ND. apply ND.
        -- rewrite map_length. apply nth_error_Some. congruence.
        -- apply map_nth_error with (f := org s) in Hr. apply map_nth_error with (f := org s) in E. congruence.
    + intros r. rewrite D3. apply B2.
    + intros r Hr Hn. destruct (B3 r Hr (Hn p Hp)) as [E1 E2]. destruct (D4 r E1) as [E3 E4].
      * intros p' Hp'. rewrite !Ob. assert (K : In (org s p') (map (org s) (current s))).
        { rewrite <- M2, <- Ob. apply in_map. exact Hp'. }
        apply in_map_iff in K. destruct K as [p2 [K1 K2]]. rewrite <- K1. apply Hn. exact K2.
      * split; [exact E3|congruence].
    + intros a. rewrite D5. apply B4.
    + congruence.
Qed.

Lemma music_bare : forall p q, bare p = bare q -> music (unch p) = music (unch q).
Proof.
  intros p q H. change (set_povr None (unch (bare p)) = set_povr None (unch (bare q))). rewrite H. reflexivity.
Qed.

Lemma resumed_some : forall s p, vinv s -> In p (parts s) -> resumed s (org s p) = Some (unch (getp s p)).
Proof.
  intros s p V H. unfold resumed, state_in, instance. rewrite (find_some pid (org s)); [reflexivity|apply (vi_parts s V)|exact H].
Qed.

Lemma exec_end : forall s s' o, exec [UVoiceEnd] s = (s', o) -> o = Ok /\ s' = run_voice_end s.
Proof.
  intros s s' o H. unfold exec, run_all in H. cbn [each] in H. unfold run in H. cbn [run_upd seqo] in H. inversion H. auto.
Qed.

Lemma c20 : linear_order -> forall calls s' o, let s := session calls in exec [UVoiceEnd] s = (s', o) ->
  o = Ok /\ events s' = events s /\
  map (instance s') (current s') = map (instance s) (current s) /\
  (forall p, In p (current s) -> voices_of s p = [] ->
     option_map music (playing s' (instance s p)) = option_map music (playing s (instance s p))) /\
  (forall p, In p (current s) -> voices_of s p <> [] ->
     (forall x, In x (voices_of s p) -> nisnan (pcur (getp s (snd x))) = false) ->
     exists v, furthest s (voices_of s p) v /\
       option_map music (playing s' (instance s p)) = Some (music (unchanneled (getp s v)))).
Proof.
  intros Hlo calls s' o s H. apply exec_end in H. destruct H as [-> ->].
  pose proof (session_sound calls) as S. fold s in S. pose proof S as (I & V & A).
  destruct (vend_vinv s I V) as (V1 & M1 & M2 & _). destruct (vend_inv s I) as [I1 _].
  destruct (vend_loop_exact (List.length (current s)) 0 s I V eq_refl) as (_ & D2 & D3 & D4 & D5 & D6).
  unfold run_voice_end in *. set (s' := voice_end_loop _ _ _) in *. cbv zeta in *.
  assert (S' : sound s').
  { eapply (sound_step s); [exact S|]. apply (St_vend (fun _ => True) s LEnd); [left; reflexivity|exact Logic.I]. }
  assert (Pl : forall p, In p (current s) -> playing s' (org s p) = Some (unch (getp s' (pick s p)))).
  { intros p Hp. apply In_nth_error in Hp. destruct Hp as [j Hj]. pose proof (D2 j p (Nat.le_0_l j) Hj) as Hj'.
    assert (E : org s' (pick s p) = org s p).
    { apply map_nth_error with (f := org s) in Hj. rewrite <- M2 in Hj. apply map_nth_error with (f := org s') in Hj'. congruence. }
    rewrite <- E. apply playing_some; [exact S'|]. eapply nth_error_In. exact Hj'. }
  split; [reflexivity|]. split; [exact D6|]. split; [exact M2|]. split.
  - intros p Hp Hv. change (instance s p) with (org s p). rewrite (Pl p Hp), (playing_some s p S Hp). cbn [option_map]. f_equal.
    unfold pick, cellof. unfold voices_of in Hv. rewrite Hv. apply music_bare, D3.
  - intros p Hp Hv Hnan. change (instance s p) with (org s p). exists (pick s p). rewrite (Pl p Hp). split.
    + unfold pick. change (cellof s p) with (voices_of s p). destruct (voices_of s p) as [|x vs]; [congruence|].
      apply last_furthest; [exact Hlo|discriminate|exact Hnan].
    + cbn [option_map]. f_equal. apply music_bare, D3.
Qed.

Lemma c20_rest : forall calls s' o, let s := session calls in exec [UVoiceEnd] s = (s', o) ->
  (forall p, In p (parts s') \/ In p (current s') -> voices_of s' p = []) /\
  map (instance s') (parts s') = map (instance s) (parts s) /\
  (forall i, In i (map (instance s) (current s)) -> resumed s' i = playing s' i) /\
  (forall i, ~ In i (map (instance s) (current s)) -> resumed s' i = resumed s i) /\
  (forall a, map (instance s') (named_parts s' a) = map (instance s) (named_parts s a) /\ incl (named_parts s' a) (parts s')).
Proof.
  intros calls s' o s H. apply exec_end in H. destruct H as [_ ->].
  pose proof (session_sound calls) as S. fold s in S. pose proof S as (I & V & A).
  destruct (vend_vinv s I V) as (V1 & M1 & M2 & Cl & Inc).
  destruct (vend_loop_exact (List.length (current s)) 0 s I V eq_refl) as (_ & D2 & D3 & D4 & D5 & D6).
  unfold run_voice_end in *. set (s' := voice_end_loop _ _ _) in *. cbv zeta in *.
  assert (S' : sound s').
  { eapply (sound_step s); [exact S|]. apply (St_vend (fun _ => True) s LEnd); [left; reflexivity|exact Logic.I]. }
  assert (Ob : forall r, org s' r = org s r) by (intros r; exact (f_equal porigin (D3 r))).
  split; [|split; [exact M1|split; [|split]]].
  - intros p [Hp|Hp]; apply Cl; [exact Hp|apply Inc; exact Hp].
  - intros i Hi. change (map (instance s) (current s)) with (map (org s) (current s)) in Hi. rewrite <- M2 in Hi.
    apply in_map_iff in Hi. destruct Hi as [p [<- Hp]].
    rewrite (playing_some s' p S' Hp). apply resumed_some; [exact V1|apply Inc; exact Hp].
  - intros i Hi. destruct (in_dec Nat.eq_dec i (map (org s) (parts s))) as [K|K].
    + apply in_map_iff in K. destruct K as [q [<- Hq]]. destruct (D4 q Hq) as [E1 E2].
      * intros p Hp E. apply Hi. apply in_map_iff. exists p. split; [symmetry; exact E|exact Hp].
      * rewrite (resumed_some s q V Hq). rewrite <- (Ob q). rewrite (resumed_some s' q V1 E1). rewrite E2. reflexivity.
    + unfold resumed, state_in, instance. rewrite (find_none pid (org s)) by exact K.
      rewrite (find_none pid (org s')) by (rewrite M1; exact K). reflexivity.
  - intros a. split; [apply D5|]. unfold named_parts. destruct (aget String.eqb a (aliases s')) as [ps|] eqn:E; [|intros x []].
    apply aget_in in E; [|intros; apply String.eqb_eq]. apply (vi_alias s' V1 a ps E).
Qed.

Lemma vend_again : forall s, inv s -> vinv s -> run_voice_end (run_voice_end s) = run_voice_end s.
Proof.
  intros s I V. destruct (vend_vinv s I V) as (_ & _ & _ & Cl & Inc). set (s' := run_voice_end s) in *.
  assert (H : forall p, In p (current s') -> getv s' (pvoices (getp s' p)) = []) by (intros p Hp; apply Cl, Inc, Hp).
  unfold run_voice_end. generalize (List.length (current s')) 0%nat.
  induction n as [|k IH]; intros i; cbn [voice_end_loop]; [reflexivity|].
  destruct (nth_error (current s') i) as [p|] eqn:E; [|reflexivity].
  unfold voice_end_one. rewrite H by (eapply nth_error_In; exact E). apply IH.
Qed.

Lemma c20_part : forall calls names alias, let s := session calls in
  exec [UPart names alias] s = exec [UVoiceEnd; UPart names alias] s.
Proof.
  intros calls names alias s. destruct (session_sound calls) as (I & V & _). fold s in I, V.
  unfold exec, run_all. cbn [each]. unfold run. cbn [run_upd seqo]. unfold run_part. rewrite (vend_again s I V). reflexivity.
Qed.
End Groups.
