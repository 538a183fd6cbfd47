(** Playing imported voices and parts (C57). *)
From Coq Require Import ZArith QArith Qcanon String List Bool Lia Arith.
From Verif Require Import Base Num ModelPitch ModelDuration ModelInstruments ModelTypes ModelLisp ModelScore
  ModelImporter ModelMusicXml SpecScore SpecImporter SpecMusicXml ProofHeap ProofStep ProofInv ProofImporter SpecXmlScore
  ProofXmlDur ProofXmlPlay ProofXmlChan ProofXmlExec.
From Verif Require ProofImporter7.
Import ListNotations.
Local Open Scope string_scope.
Local Open Scope list_scope.
Local Open Scope Z_scope.

Lemma exec_app_ok : forall us vs (s s1 : @score XQ), exec us s = (s1, Ok) -> exec (us ++ vs) s = exec vs s1.
Proof.
  induction us as [|u us IH]; intros vs s s1 H.
  - injection H as <-. reflexivity.
  - unfold exec, run_all in *. cbn [app each] in *. destruct (run 1 u s) as [s2 oc] eqn:E; destruct oc; cbn [seqo] in *; try discriminate.
    now apply IH.
Qed.
Lemma exec_cons_ok : forall u vs (s s1 : @score XQ), run 1 u s = (s1, Ok) -> exec (u :: vs) s = exec vs s1.
Proof. intros u vs s s1 H. unfold exec, run_all. cbn [each]. now rewrite H. Qed.

Section Parts.
Variable M : Z.
Hypothesis HM : 1 <= M <= 24.

(** All parts play one of these instruments. *)
Definition allnames (s : @score XQ) (l : list string) : Prop :=
  forall p, (p < List.length (heap s))%nat -> In (iname (pstock (getp s p))) l.
Lemma allnames_fr : forall v q s s' l, fr v q s s' -> allnames s l -> allnames s' l.
Proof.
  intros v q s s' l F H p Hp. rewrite (fr_len _ _ _ _ F) in Hp. destruct (fr_id _ _ _ _ F p) as (_ & <- & _). now apply H.
Qed.
Lemma allnames_app : forall (s : @score XQ) P l, In (iname (pstock P)) l -> allnames s l -> allnames (set_heap (heap s ++ [P]) s) l.
Proof.
  intros s P l H1 H2 p Hp. unfold getp. cbn in *. rewrite app_length in Hp. cbn in Hp.
  destruct (Nat.eq_dec p (List.length (heap s))) as [-> | Hn].
  - now rewrite nth_middle.
  - rewrite app_nth1 by lia. apply H2. lia.
Qed.
Lemma allnames_modp : forall (s : @score XQ) v f l, (v < List.length (heap s))%nat -> (forall p, pstock (f p) = pstock p) -> allnames s l -> allnames (modp v f s) l.
Proof.
  intros s v f l Hv Hf H p Hp. rewrite heap_modp in Hp. rewrite getp_modp by exact Hv. destruct (Nat.eqb_spec p v) as [-> |].
  - rewrite Hf. now apply H.
  - now apply H.
Qed.

(* ---------------- voices ---------------- *)
Section Voices.
Variable K : keysig.
Variable T : Z.
Notation at_ := (at_ M K T).
Notation pst := (pst M K T).

(** Voice [v] of instrument [q] is current; [t] is the template; [ns] are the
    numbers of the voices so far. *)
Record voicing (t q v : pid) (ns : list Z) (s : @score XQ) : Prop := Voicing {
  vo_t : (t < List.length (heap s))%nat; vo_tv : t <> v; vo_tq : t <> q;
  vo_v : ptmpl (getp s v) = Some t; vo_tt : ptmpl (getp s t) = Some t;
  vo_cell : pvoices (getp s v) = pvoices (getp s t); vo_cl : (pvoices (getp s t) < List.length (vheap s))%nat;
  vo_ns : map fst (getv s (pvoices (getp s t))) = ns; vo_some : ns <> []; vo_p : pst q 4 0 (getp s t) }.

Lemma voicing_fr : forall t q v ns s s', voicing t q v ns s -> fr v q s s' -> voicing t q v ns s'.
Proof.
  intros t q v ns s s' [] [].
  assert (E : getp s' t = getp s t) by (apply fr_other; assumption).
  destruct (fr_id v) as (_ & _ & I1 & _ & I2).
  constructor; rewrite ?E; unfold getv in *; rewrite ?fr_len, ?fr_vheap; try assumption; congruence.
Qed.

Lemma getp_last : forall h (s : @score XQ) p, getp (set_heap (h ++ [p]) s) (List.length h) = p.
Proof. intros. unfold getp. cbn. now rewrite nth_middle. Qed.
Lemma getp_old : forall (s : @score XQ) p x, (x < List.length (heap s))%nat -> getp (set_heap (heap s ++ [p]) s) x = getp s x.
Proof. intros. unfold getp. cbn. now rewrite app_nth1. Qed.

Lemma aget_none_nin : forall (l : list (Z * pid)) n, ~ In n (map fst l) -> aget Z.eqb n l = None.
Proof.
  induction l as [|[m x] l IH]; intros n H; [reflexivity|]. cbn [aget].
  destruct (Z.eqb_spec m n) as [-> | H1]; [exfalso; apply H; now left|]. apply IH. intros H2. apply H. now right.
Qed.

(** A further voice. *)
Lemma next_voice : forall n t q v ns o p s, at_ v q o p s -> voicing t q v ns s -> ~ In n ns ->
  exists v' s', run 1 (UVoice n) s = (s', Ok) /\ at_ v' q 4 0 s' /\ voicing t q v' (ns ++ [n]) s' /\
    chordmode s' = chordmode s /\ events s' = events s /\ usage s' = usage s /\ aliases s' = aliases s /\ (forall l, allnames s l -> allnames s' l).
Proof.
  intros n t q v ns o p s [Ac Av Aq Ap Ag Ao] [] Hn.
  unfold run. cbn [run_upd]. unfold run_voice. rewrite Ac. cbn [List.length voice_loop]. rewrite Ac. cbn [nth_error].
  unfold get_voice. rewrite vo_cell0, (aget_none_nin _ n) by (now rewrite vo_ns0).
  unfold ModelScore.new_voice, has_voices. rewrite vo_cell0.
  assert (Hv : exists x l, getv s (pvoices (getp s t)) = x :: l).
  { destruct (getv s (pvoices (getp s t))) as [|x l] eqn:E; [|now exists x, l]. cbn in vo_ns0. congruence. }
  destruct Hv as (x & l & Ev). rewrite Ev. cbn [rbind]. rewrite vo_v0. unfold clone.
  set (v' := List.length (heap s)).
  set (s1 := set_heap (heap s ++ [set_povr None (getp s t)]) s).
  assert (Ln : List.length (heap s1) = S v') by (unfold s1; cbn; rewrite app_length; cbn; lia).
  assert (Gv : getp s1 v = getp s v) by (apply getp_old; exact Av).
  assert (Gt : getp s1 t = getp s t) by (apply getp_old; exact vo_t0).
  assert (Gv' : getp s1 v' = set_povr None (getp s t)) by apply getp_last.
  rewrite Gv, vo_cell0. set (cell := pvoices (getp s t)) in *.
  change (getv s1 cell) with (getv s cell). rewrite Ev.
  set (s2 := setv cell ((x :: l) ++ [(n, v')]) s1).
  assert (P : pst q 4 0 (set_povr None (getp s t))) by exact vo_p0.
  match goal with |- context [redirect ?a ?b ?c ?d] => change (redirect a b c d) with (redirect s1 (porigin (getp s1 v)) v' (current s)) end.
  rewrite Ac. unfold redirect. cbn [map]. rewrite Nat.eqb_refl.
  exists v', (set_current [v'] s2). split; [reflexivity|].
  split; [|split; [|repeat split]].
  3: { intros ln Hl. change (allnames s1 ln). apply allnames_app; [apply (Hl t vo_t0)|exact Hl]. }
  - constructor; try assumption; try reflexivity.
    + cbn. rewrite app_length. cbn. unfold v'. lia.
    + cbn. rewrite app_length. cbn. lia.
    + change (pst q 4 0 (getp s1 v')). now rewrite Gv'.
  - constructor; try assumption.
    + cbn. rewrite app_length. cbn. lia.
    + unfold v'. lia.
    + change (ptmpl (getp s1 v') = Some t). rewrite Gv'. exact vo_tt0.
    + change (ptmpl (getp s1 t) = Some t). now rewrite Gt.
    + change (pvoices (getp s1 v') = pvoices (getp s1 t)). now rewrite Gv', Gt.
    + change (pvoices (getp s1 t) < List.length (upd_nth cell ((x :: l) ++ [(n, v')]) (vheap s)))%nat. rewrite Gt.
      now rewrite upd_nth_length.
    + change (map fst (nth (pvoices (getp s1 t)) (upd_nth cell ((x :: l) ++ [(n, v')]) (vheap s)) []) = ns ++ [n]).
      rewrite Gt. fold cell. rewrite nth_upd_same by assumption. rewrite map_app. cbn [map fst]. f_equal. rewrite <- vo_ns0, Ev. reflexivity.
    + destruct ns; discriminate.
    + change (pst q 4 0 (getp s1 t)). now rewrite Gt.
Qed.

(** The first voice. *)
Lemma first_voice : forall n q s, at_ q q 4 0 s -> ptmpl (getp s q) = None -> (pvoices (getp s q) < List.length (vheap s))%nat ->
  getv s (pvoices (getp s q)) = [] ->
  exists t v s', run 1 (UVoice n) s = (s', Ok) /\ at_ v q 4 0 s' /\ voicing t q v [n] s' /\
    chordmode s' = chordmode s /\ events s' = events s /\ usage s' = usage s /\ aliases s' = aliases s /\ (forall l, allnames s l -> allnames s' l).
Proof.
  intros n q s [Ac Av _ Ap Ag Ao] Ht Hc He.
  unfold run. cbn [run_upd]. unfold run_voice. rewrite Ac. cbn [List.length voice_loop]. rewrite Ac. cbn [nth_error].
  unfold get_voice. rewrite He. cbn [aget]. unfold ModelScore.new_voice, has_voices. rewrite He, Ht. unfold clone at 1. cbn [rbind].
  set (t := List.length (heap s)).
  set (s1 := set_heap (heap s ++ [set_povr None (getp s q)]) s).
  assert (L1 : List.length (heap s1) = S t) by (unfold s1; cbn; rewrite app_length; cbn; lia).
  set (s2 := modp q (set_ptmpl (Some t)) (modp t (set_ptmpl (Some t)) s1)).
  assert (L2 : List.length (heap s2) = S t) by (unfold s2; now rewrite !heap_modp).
  assert (Gq : getp s2 q = set_ptmpl (Some t) (getp s q)).
  { unfold s2. rewrite getp_modp_same by (rewrite heap_modp, L1; lia). rewrite getp_modp_other by lia.
    f_equal. apply getp_old. exact Av. }
  assert (Gt : getp s2 t = set_ptmpl (Some t) (set_povr None (getp s q))).
  { unfold s2. rewrite getp_modp_other by lia. rewrite getp_modp_same by lia. f_equal. apply getp_last. }
  match goal with |- context [ptmpl (getp ?a q)] => change a with s2 end.
  rewrite Gq. cbn [ptmpl set_ptmpl]. unfold clone. rewrite L2.
  set (v := S t).
  set (s3 := set_heap (heap s2 ++ [set_povr None (getp s2 t)]) s2).
  assert (Hv : v = List.length (heap s2)) by (rewrite L2; reflexivity).
  assert (G3q : getp s3 q = getp s2 q) by (apply getp_old; lia).
  assert (G3t : getp s3 t = getp s2 t) by (apply getp_old; lia).
  assert (G3v : getp s3 v = set_povr None (getp s2 t)) by (rewrite Hv; apply getp_last).
  rewrite G3q, Gq. cbn [pvoices set_ptmpl]. set (cell := pvoices (getp s q)) in *.
  change (getv s3 cell) with (getv s cell). rewrite He. cbn [app].
  set (s4 := setv cell [(n, v)] s3).
  match goal with |- context [redirect ?a ?b ?c ?d] => change (redirect a b c d) with (redirect s3 (porigin (getp s3 q)) v (current s)) end.
  rewrite Ac. unfold redirect. cbn [map]. rewrite Nat.eqb_refl.
  assert (P : pst q 4 0 (set_ptmpl (Some t) (set_povr None (getp s q)))) by exact Ap.
  assert (P' : pst q 4 0 (set_povr None (set_ptmpl (Some t) (set_povr None (getp s q))))) by exact Ap.
  assert (L4 : List.length (heap s4) = S (S t)) by (change (heap s4) with (heap s2 ++ [set_povr None (getp s2 t)]); rewrite app_length, L2; cbn; lia).
  exists t, v, (set_current [v] s4). split; [reflexivity|].
  split; [|split; [|repeat split]].
  3: { intros ln Hl. change (allnames s3 ln).
       assert (H2 : allnames s2 ln).
       { apply allnames_modp; [rewrite heap_modp, L1; lia|reflexivity|]. apply allnames_modp; [lia|reflexivity|].
         apply allnames_app; [apply (Hl q Av)|exact Hl]. }
       apply allnames_app; [apply (H2 t); lia|exact H2]. }
  - constructor; try assumption; try reflexivity.
    + change (v < List.length (heap s4))%nat. unfold v. lia.
    + change (q < List.length (heap s4))%nat. lia.
    + change (pst q 4 0 (getp s3 v)). now rewrite G3v, Gt.
  - constructor.
    + change (t < List.length (heap s4))%nat. lia.
    + unfold v. lia.
    + lia.
    + change (ptmpl (getp s3 v) = Some t). now rewrite G3v, Gt.
    + change (ptmpl (getp s3 t) = Some t). now rewrite G3t, Gt.
    + change (pvoices (getp s3 v) = pvoices (getp s3 t)). now rewrite G3v, G3t, Gt.
    + change (pvoices (getp s3 t) < List.length (upd_nth cell [(n, v)] (vheap s)))%nat. rewrite G3t, Gt.
      now rewrite upd_nth_length.
    + change (map fst (nth (pvoices (getp s3 t)) (upd_nth cell [(n, v)] (vheap s)) []) = [n]). rewrite G3t, Gt. cbn [pvoices set_ptmpl set_povr].
      fold cell. now rewrite nth_upd_same.
    + discriminate.
    + change (pst q 4 0 (getp s3 t)). now rewrite G3t, Gt.
Qed.

(** The voices of a flush. *)
Inductive voices_play : list (Z * list (@update XQ)) -> list sound -> Prop :=
| VP_nil : voices_play [] []
| VP_cons : forall n us vs o p e es, play M K T us 4 0 o p e -> voices_play vs es -> voices_play ((n, us) :: vs) (e ++ es).

Lemma play_empty : forall us o p o' p' e, play M K T us o p o' p' e -> effectively_empty us = match us with [] => true | _ => false end.
Proof.
  intros us o p o' p' e H. destruct H as [o p|x us o p o1 p1 o' p' e es H1 H2]; [reflexivity|]. now destruct H1.
Qed.

Lemma voices_go : forall vs es, voices_play vs es -> forall t q v ns o p s, at_ v q o p s -> voicing t q v ns s ->
  chordmode s = false -> NoDup (ns ++ map fst vs) ->
  exists v' s' o' p', exec (snd (flush_voices plain new_opt vs)) s = (s', Ok) /\ at_ v' q o' p' s' /\ chordmode s' = false /\
    gained M q s s' es /\ aliases s' = aliases s /\ (forall l, allnames s l -> allnames s' l) /\
    (forall os, usage s = layout os -> room q os -> exists os', usage s' = layout os' /\ joined q os os').
Proof.
  intros vs es H. induction H as [|n us vs oe pe e es Hp H IH]; intros t q v ns o p s A V C Nd; cbn [flush_voices].
  - exists v, s, o, p. split; [reflexivity|]. split; [exact A|]. split; [exact C|]. split; [now apply gained_nil|]. split; [reflexivity|]. split; [auto|].
    intros os E _. exists os. split; [exact E|now left].
  - cbn [map fst] in Nd. pose proof Nd as Nd1. apply NoDup_remove_2 in Nd1.
    rewrite (play_empty _ _ _ _ _ _ Hp). destruct us as [|u us'].
    + inversion Hp; subst. cbn [app]. eapply IH; try eassumption. now apply NoDup_remove_1 in Nd.
    + unfold plain at 1. rewrite (play_finished _ _ _ _ _ _ _ _ _ Hp).
      destruct (flush_voices plain new_opt vs) as [o2 r] eqn:Ef. cbn [snd] in *.
      destruct (next_voice n t q v ns o p s A V) as (v1 & s1 & E1 & A1 & V1 & C1 & Ev1 & U1 & Al1 & N1).
      { intros Hi. apply Nd1, in_or_app. now left. }
      rewrite (exec_cons_ok _ _ _ _ E1).
      destruct (play_ok M HM K T _ _ _ _ _ _ Hp v1 q s1 A1) as (s2 & E2 & A2 & C2 & F2 & G2); [congruence|].
      rewrite (exec_app_ok _ _ _ _ E2).
      destruct (IH t q v1 (ns ++ [n]) _ _ s2 A2 (voicing_fr _ _ _ _ _ _ V1 F2) C2) as (v3 & s3 & o3 & p3 & E3 & A3 & C3 & G3 & Al3 & N3 & U3).
      { rewrite <- app_assoc. exact Nd. }
      exists v3, s3, o3, p3. split; [exact E3|]. split; [exact A3|]. split; [exact C3|]. split; [|split; [|split; [intros ln Hln; apply N3; eapply allnames_fr; [exact F2|]; now apply N1|]]].
      * eapply (gained_app M q s s1 s3 []); [now apply gained_nil|]. eapply gained_app; eassumption.
      * rewrite Al3, (fr_alias _ _ _ _ F2). exact Al1.
      * intros os Eo Ro. rewrite <- U1 in Eo. destruct (fr_use _ _ _ _ F2 os Eo Ro) as (os2 & Eo2 & J2).
        destruct (U3 os2 Eo2 (joined_room _ _ _ Ro J2)) as (os3 & Eo3 & J3). exists os3. split; [exact Eo3|]. eapply joined_trans; eassumption.
Qed.

(** All the voices of a part that has just been declared. *)
Lemma flush_ok : forall vs es e_ q s, voices_play vs es -> at_ q q 4 0 s -> ptmpl (getp s q) = None ->
  (pvoices (getp s q) < List.length (vheap s))%nat -> getv s (pvoices (getp s q)) = [] -> chordmode s = false ->
  NoDup (map fst vs) -> e_ = false ->
  exists v' s' o' p', exec (snd (do_step plain new_opt (SFlush vs e_))) s = (s', Ok) /\ at_ v' q o' p' s' /\ chordmode s' = false /\
    gained M q s s' es /\ aliases s' = aliases s /\ (forall l, allnames s l -> allnames s' l) /\
    (forall os, usage s = layout os -> room q os -> exists os', usage s' = layout os' /\ joined q os os').
Proof.
  intros vs es e_ q s H A Ht Hl Hc C Nd ->.
  assert (Sq : forall us o p e, play M K T us 4 0 o p e -> exists v' s' o' p', exec us s = (s', Ok) /\ at_ v' q o' p' s' /\ chordmode s' = false /\
    gained M q s s' e /\ aliases s' = aliases s /\ (forall l, allnames s l -> allnames s' l) /\
    (forall os, usage s = layout os -> room q os -> exists os', usage s' = layout os' /\ joined q os os')).
  { intros us o p e Hp. destruct (play_ok M HM K T _ _ _ _ _ _ Hp q q s A C) as (s2 & E2 & A2 & C2 & F2 & G2).
    exists q, s2, o, p. split; [exact E2|]. split; [exact A2|]. split; [exact C2|]. split; [exact G2|].
    split; [apply (fr_alias _ _ _ _ F2)|]. split; [intros ln Hln; eapply allnames_fr; eassumption|apply (fr_use _ _ _ _ F2)]. }
  assert (Mu : match vs with [_] => True | _ => exists v' s' o' p', exec (snd (flush_voices plain new_opt vs)) s = (s', Ok) /\ at_ v' q o' p' s' /\ chordmode s' = false /\
    gained M q s s' es /\ aliases s' = aliases s /\ (forall l, allnames s l -> allnames s' l) /\
    (forall os, usage s = layout os -> room q os -> exists os', usage s' = layout os' /\ joined q os os') end).
  { destruct vs as [|x [|y vs]]; [|exact I|].
    - inversion H; subst. apply (Sq [] 4 0 []). constructor.
    - revert H Nd. generalize (x :: y :: vs). clear x y vs. intros vs H. induction H as [|n us vs oe pe e es Hp H IH]; intros Nd.
      + apply (Sq [] 4 0 []). constructor.
      + cbn [flush_voices]. rewrite (play_empty _ _ _ _ _ _ Hp). cbn [map fst] in Nd. destruct us as [|u us'].
        * inversion Hp; subst. cbn [app]. apply IH. now inversion Nd.
        * unfold plain at 1. rewrite (play_finished _ _ _ _ _ _ _ _ _ Hp).
          destruct (flush_voices plain new_opt vs) as [o2 r] eqn:Ef. cbn [snd] in *.
          destruct (first_voice n q s A Ht Hl Hc) as (t & v1 & s1 & E1 & A1 & V1 & C1 & Ev1 & U1 & Al1 & N1).
          rewrite (exec_cons_ok _ _ _ _ E1).
          destruct (play_ok M HM K T _ _ _ _ _ _ Hp v1 q s1 A1) as (s2 & E2 & A2 & C2 & F2 & G2); [congruence|].
          rewrite (exec_app_ok _ _ _ _ E2).
          destruct (voices_go vs es H t q v1 [n] _ _ s2 A2 (voicing_fr _ _ _ _ _ _ V1 F2) C2 Nd) as (v3 & s3 & o3 & p3 & E3 & A3 & C3 & G3 & Al3 & N3 & U3).
          rewrite Ef in E3. cbn [snd] in E3.
          exists v3, s3, o3, p3. split; [exact E3|]. split; [exact A3|]. split; [exact C3|]. split; [|split; [|split; [intros ln Hln; apply N3; eapply allnames_fr; [exact F2|]; now apply N1|]]].
          -- eapply (gained_app M q s s1 s3 []); [now apply gained_nil|]. eapply gained_app; eassumption.
          -- rewrite Al3, (fr_alias _ _ _ _ F2). exact Al1.
          -- intros os Eo Ro. rewrite <- U1 in Eo. destruct (fr_use _ _ _ _ F2 os Eo Ro) as (os2 & Eo2 & J2).
             destruct (U3 os2 Eo2 (joined_room _ _ _ Ro J2)) as (os3 & Eo3 & J3). exists os3. split; [exact Eo3|]. eapply joined_trans; eassumption. }
  destruct vs as [|x [|y vs]].
  - cbn [do_step andb]. destruct (flush_voices plain new_opt []) as [o2 r]. exact Mu.
  - destruct x as [n us]. inversion H as [|n' us' vs' o p e es' Hp Hn]; subst. inversion Hn; subst. rewrite app_nil_r. cbn [do_step].
    rewrite (play_empty _ _ _ _ _ _ Hp). destruct us as [|u us].
    + inversion Hp; subst. apply (Sq [] 4 0 []). constructor.
    + unfold plain. rewrite (play_finished _ _ _ _ _ _ _ _ _ Hp). eapply Sq, Hp.
  - cbn [do_step andb]. destruct x. destruct (flush_voices plain new_opt _) as [o2 r]. exact Mu.
Qed.
End Voices.

(* ---------------- attributes of a part ---------------- *)
Inductive attrs_to : keysig -> Z -> list (@part_update XQ) -> keysig -> Z -> Prop :=
| AT_nil : forall K T, attrs_to K T [] K T
| AT_key : forall K T k l K' T', attrs_to k T l K' T' -> attrs_to K T (PKey k :: l) K' T'
| AT_transp : forall K T t l K' T', attrs_to K t l K' T' -> attrs_to K T (PTransp t :: l) K' T'.

Lemma attr_one : forall u f K T K' T' q o p s, at_ M K T q q o p s -> update_part u false (getp s q) = ROk (f (getp s q)) ->
  same_id (getp s q) (f (getp s q)) -> pst M K' T' q o p (f (getp s q)) ->
  exists s', run 1 (UPrim (Attr u)) s = (s', Ok) /\ at_ M K' T' q q o p s' /\ chordmode s' = chordmode s /\ fr q q s s' /\ events s' = events s.
Proof.
  intros u f K T K' T' q o p s A E I P. pose proof A as [Ac Av Aq Ap Ag Ao].
  exists (modp q (set_povr (Some u)) (modp q f s)).
  assert (L1 : (q < List.length (heap (modp q f s)))%nat) by now rewrite heap_modp.
  assert (A1 : at_ M K' T' q q o p (modp q f s)).
  { constructor; try assumption. now rewrite getp_modp_same. }
  assert (F1 : fr q q s (modp q f s)) by (apply fr_modp; assumption).
  split; [|split; [|split; [reflexivity|split; [|reflexivity]]]].
  - unfold run. cbn [run_upd run_prim]. unfold run_attr. rewrite Ac. cbn [each]. unfold do_update_part at 1. rewrite E. reflexivity.
  - eapply at_modp; [exact A1|]. destruct A1 as [_ _ _ P1 _ _]. exact P1.
  - eapply (fr_trans M HM); [exact F1|]. apply fr_modp; [exact L1|]. repeat split.
Qed.

Lemma attrs_ok : forall K T l K' T', attrs_to K T l K' T' -> forall q o p s, at_ M K T q q o p s ->
  exists s', exec (map (fun u => UPrim (Attr u)) l) s = (s', Ok) /\ at_ M K' T' q q o p s' /\ chordmode s' = chordmode s /\
    fr q q s s' /\ events s' = events s.
Proof.
  intros K T l K' T' H. induction H as [K T|K T k l K' T' H IH|K T t l K' T' H IH]; intros q o p s A.
  - exists s. split; [reflexivity|]. split; [exact A|]. split; [reflexivity|]. split; [apply fr_refl|reflexivity].
  - destruct (attr_one (PKey k) (set_pkey k) K T k T q o p s A eq_refl) as (s1 & E1 & A1 & C1 & F1 & V1).
    { repeat split. }
    { destruct A as [_ _ _ (P1 & P2 & P3 & P4 & P5 & P6 & P7 & P8 & P9 & P10 & P11) _ _]. repeat split; assumption. }
    destruct (IH q o p s1 A1) as (s2 & E2 & A2 & C2 & F2 & V2). exists s2. cbn [map]. rewrite (exec_cons_ok _ _ _ _ E1).
    split; [exact E2|]. split; [exact A2|]. split; [congruence|]. split; [eapply (fr_trans M HM); eassumption|congruence].
  - destruct (attr_one (PTransp t) (set_ptransp t) K T K t q o p s A eq_refl) as (s1 & E1 & A1 & C1 & F1 & V1).
    { repeat split. }
    { destruct A as [_ _ _ (P1 & P2 & P3 & P4 & P5 & P6 & P7 & P8 & P9 & P10 & P11) _ _]. repeat split; assumption. }
    destruct (IH q o p s1 A1) as (s2 & E2 & A2 & C2 & F2 & V2). exists s2. cbn [map]. rewrite (exec_cons_ok _ _ _ _ E1).
    split; [exact E2|]. split; [exact A2|]. split; [congruence|]. split; [eapply (fr_trans M HM); eassumption|congruence].
Qed.

(* ---------------- declaring a part ---------------- *)
Lemma vend_frame : forall cnt i (s : @score XQ),
  let s' := voice_end_loop i cnt s in
  events s' = events s /\ usage s' = usage s /\ globals s' = globals s /\ chordmode s' = chordmode s /\
  List.length (heap s') = List.length (heap s) /\ (aliases s = [] -> aliases s' = []).
Proof.
  induction cnt as [|k IH]; intros i s; cbn [voice_end_loop]; [repeat split; auto|].
  destruct (nth_error (current s) i) as [p|]; [|repeat split; auto].
  destruct (IH (S i) (voice_end_one i p s)) as (H1 & H2 & H3 & H4 & H5 & H6).
  assert (G : let s' := voice_end_one i p s in events s' = events s /\ usage s' = usage s /\ globals s' = globals s /\ chordmode s' = chordmode s /\
    List.length (heap s') = List.length (heap s) /\ (aliases s = [] -> aliases s' = [])).
  { unfold voice_end_one. destruct (getv s (pvoices (getp s p))) as [|x l]; [repeat split; auto|].
    cbv zeta. repeat split.
    - cbn. apply upd_nth_length.
    - intros E. cbn. now rewrite E. }
  destruct G as (G1 & G2 & G3 & G4 & G5 & G6).
  cbv zeta. rewrite H1, H2, H3, H4, H5. repeat split; auto.
Qed.

(** Between parts: [n] parts have been played, with these instruments. *)
Record ready (n : nat) (used : list string) (s : @score XQ) : Prop := Ready {
  re_inv : inv s; re_chord : chordmode s = false; re_glob : ga_offs (globals s) = []; re_alias : aliases s = [];
  re_use : exists os, usage s = layout os /\ (List.length os <= n)%nat;
  re_names : forall p, (p < List.length (heap s))%nat -> In (iname (pstock (getp s p))) used }.

Lemma ready_new : ready 0 [] new_score.
Proof.
  constructor; try reflexivity.
  - apply inv_new.
  - exists []. split; reflexivity.
  - intros p H. cbn in H. lia.
Qed.

Lemma declare_ok : forall n used name i s, ready n used s -> stock_instrument name = Some i -> ~ In (iname i) used -> iperc i = false ->
  (n < 15)%nat ->
  let q := List.length (heap s) in
  exists s', run 1 (UPart [name] "") s = (s', Ok) /\ at_ M ks_empty 0 q q 4 0 s' /\ pstock (getp s' q) = i /\ ptmpl (getp s' q) = None /\
    (pvoices (getp s' q) < List.length (vheap s'))%nat /\ getv s' (pvoices (getp s' q)) = [] /\ chordmode s' = false /\
    events s' = events s /\ usage s' = usage s /\ aliases s' = [] /\ List.length (heap s') = S q /\ allnames s' (iname i :: used).
Proof.
  intros n used name i s [] Hs Hu Hp Hn q.
  unfold run. cbn [run_upd]. unfold run_part.
  destruct (vend_frame (List.length (current s)) 0 s) as (F1 & F2 & F3 & F4 & F5 & F6). fold (run_voice_end s) in *.
  destruct (vend_inv s re_inv0) as (I0 & X0).
  set (s0 := run_voice_end s) in *. clearbody s0.
  assert (Al : aliases s0 = []) by auto.
  assert (Nm : unnamed_parts s0 name = []).
  { unfold unnamed_parts. assert (G : forall l, (forall p, In p l -> (p < List.length (heap s0))%nat) ->
      filter (fun p => negb (is_named s0 p) && String.eqb (iname (pstock (getp s0 p))) (stock_of name)) l = []).
    { induction l as [|p l IH]; intros Hl; [reflexivity|]. cbn [filter].
      assert (String.eqb (iname (pstock (getp s0 p))) (stock_of name) = false) as ->.
      { unfold stock_of, stock_instrument_name. rewrite Hs. cbn [option_map]. apply String.eqb_neq. intros E.
        assert (Lp : (p < List.length (heap s))%nat) by (rewrite <- F5; apply Hl; now left).
        destruct X0 as [_ X0]. destruct (X0 p Lp) as (_ & X1 & _). rewrite X1 in E. apply Hu. rewrite <- E. now apply re_names0. }
      rewrite andb_false_r. apply IH. intros; apply Hl; now right. }
    apply G. apply Forall_forall, (inv_parts _ I0). }
  unfold determine_parts. cbn [is_empty_string String.eqb negb andb].
  assert (named_parts s0 name = []) as -> by (unfold named_parts; now rewrite Al).
  assert (aliased_stock s0 name = []) as -> by (unfold aliased_stock; now rewrite Al).
  rewrite Nm. cbn [nonempty andb orb]. unfold ModelScore.new_part. rewrite Hs. cbn [rmap rbind]. rewrite F5. fold q.
  set (cell := List.length (vheap s0)).
  set (P := fresh_part name i q cell).
  set (s1 := set_heap (heap s0 ++ [P]) (ModelTypes.set_vheap (vheap s0 ++ [[]]) s0)).
  assert (L1 : List.length (heap s1) = S q) by (unfold s1; cbn; rewrite app_length, F5; cbn; lia).
  assert (Gq : getp s1 q = P) by (unfold q; rewrite <- F5; apply getp_last).
  assert (Np : existsb (Nat.eqb q) (parts s1) = false).
  { destruct (existsb (Nat.eqb q) (parts s1)) eqn:E; [|reflexivity]. apply existsb_exists in E. destruct E as (x & E1 & E2).
    apply Nat.eqb_eq in E2. subst x. pose proof (inv_parts _ I0) as Ip. rewrite Forall_forall in Ip. specialize (Ip q E1). lia. }
  assert (G : exists s2, (match parts s1 with [] => modp q (set_pmaster true) s1 | _ => s1 end) = s2 /\
    (getp s2 q = P \/ getp s2 q = set_pmaster true P) /\ List.length (heap s2) = S q /\ parts s2 = parts s1 /\ vheap s2 = vheap s1 /\
    chordmode s2 = chordmode s1 /\ events s2 = events s1 /\ usage s2 = usage s1 /\ aliases s2 = aliases s1 /\ globals s2 = globals s1).
  { eexists. split; [reflexivity|]. destruct (parts s1) eqn:Ep.
    - split; [right; rewrite getp_modp_same by lia; now rewrite Gq|]. split; [now rewrite heap_modp|]. repeat split. exact Ep.
    - split; [now left|]. repeat split; assumption. }
  destruct G as (s2 & E2 & G2 & H2 & H3 & H4 & H5 & H6 & H7 & H8 & H9).
  change (parts (set_heap (heap s0 ++ [P]) (ModelTypes.set_vheap (vheap s0 ++ [[]]) s0))) with (parts s1).
  assert (E3 : add_new_parts [q] s2 = set_parts (parts s2 ++ [q]) s2).
  { unfold add_new_parts. cbn [fold_left]. now rewrite H3, Np. }
  set (s' := set_current [q] (set_parts (parts s2 ++ [q]) s2)).
  exists s'. split.
  { unfold s'. rewrite <- E3, <- E2. unfold s1, P. match goal with |- context [match parts ?a with _ => _ end] => destruct (parts a) end; reflexivity. }
  assert (Pq : pst M ks_empty 0 q 4 0 (getp s2 q) /\ pstock (getp s2 q) = i /\ ptmpl (getp s2 q) = None /\ pvoices (getp s2 q) = cell).
  { assert (Z0 : @n0 XQ = tms M 0) by apply tms_0.
    destruct G2 as [-> | ->]; (split; [|repeat split]); unfold pst, chan_good; repeat split; try assumption; try exact Z0; try (left; reflexivity). }
  destruct Pq as (Pq & Q1 & Q2 & Q3).
  split; [|split; [exact Q1|split; [exact Q2|split; [|split; [|repeat split]]]]].
  - constructor; try reflexivity.
    + change (q < List.length (heap s2))%nat. lia.
    + change (q < List.length (heap s2))%nat. lia.
    + exact Pq.
    + change (ga_offs (globals s2) = []). rewrite H9. change (ga_offs (globals s0) = []). rewrite F3. exact re_glob0.
    + destruct re_use0 as (os & U1 & U2). exists os. split.
      * change (usage s2 = layout os). rewrite H7. change (usage s0 = layout os). congruence.
      * split; [lia|]. right. lia.
  - change (pvoices (getp s2 q) < List.length (vheap s2))%nat. rewrite Q3, H4. unfold s1. cbn. rewrite app_length. cbn. unfold cell. lia.
  - change (nth (pvoices (getp s2 q)) (vheap s2) [] = []). rewrite Q3, H4. unfold s1, cell. cbn. now rewrite nth_middle.
  - change (chordmode s2 = false). rewrite H5. change (chordmode s0 = false). congruence.
  - change (events s2 = events s). rewrite H6. exact F1.
  - change (usage s2 = usage s). rewrite H7. exact F2.
  - change (aliases s2 = []). rewrite H8. exact Al.
  - exact H2.
  - change (allnames s2 (iname i :: used)).
    assert (N1 : allnames s1 (iname i :: used)).
    { change (allnames (set_heap (heap s0 ++ [P]) s0) (iname i :: used)). apply allnames_app; [now left|]. intros p Hp0. rewrite F5 in Hp0. right.
      destruct X0 as [_ X0]. destruct (X0 p Hp0) as (_ & X1 & _). rewrite X1. now apply re_names0. }
    rewrite <- E2. destruct (parts s1); [|exact N1]. apply allnames_modp; [lia|reflexivity|exact N1].
Qed.

(* ---------------- parts ---------------- *)

(** A part for the given instrument that plays the given sounds. *)
Definition flush_plays (K : keysig) (T : Z) (fl : list (@ModelImporter.step XQ)) (l : list sound) : Prop :=
  fl = [] /\ l = [] \/ exists vs, fl = [SFlush vs false] /\ voices_play K T vs l /\ NoDup (map fst vs).
Definition part_plays (p : @xml_part XQ) (inst : string) (l : list sound) : Prop :=
  exists name i attrs K T fl, x_names p = [name] /\ x_alias p = "" /\ stock_instrument name = Some i /\ iname i = inst /\ iperc i = false /\
    x_steps p = map SAttr attrs ++ fl /\ attrs_to ks_empty 0 attrs K T /\ flush_plays K T fl l.

Lemma do_attrs : forall (l : list (@part_update XQ)) o fl,
  do_steps plain o (map SAttr l ++ fl) = map (fun u => UPrim (Attr u)) l ++ do_steps plain o fl.
Proof. induction l as [|u l IH]; intros o fl; [reflexivity|]. cbn [map app do_steps do_step plain finished]. now rewrite IH. Qed.

Notation in_ms := (in_ms M).
Lemma part_ok : forall p inst l n used s, part_plays p inst l -> ready n used s -> ~ In inst used -> (n < 15)%nat ->
  exists s' es, exec (part_updates plain p) s = (s', Ok) /\ ready (S n) (inst :: used) s' /\ idext s s' /\
    events s' = events s ++ es /\ map (as_heard s') es = map in_ms (map (pair inst) l).
Proof.
  intros p inst l n used s (name & i & attrs & K & T & fl & Hn & Ha & Hs & Hi & Hp & Hst & Hat & Hfl) R Hu Hlt.
  unfold part_updates. rewrite Hn, Ha, Hst, do_attrs. subst inst.
  destruct (declare_ok n used name i s R Hs Hu Hp Hlt) as (s1 & E1 & A1 & St1 & Tm1 & Vl1 & Vc1 & C1 & Ev1 & U1 & Al1 & L1 & N1).
  set (q := List.length (heap s)) in *.
  destruct (attrs_ok _ _ _ _ _ Hat q 4 0 s1 A1) as (s2 & E2 & A2 & C2 & F2 & Ev2).
  assert (G : exists v' s' o' p', exec (do_steps plain new_opt fl) s2 = (s', Ok) /\ at_ M K T v' q o' p' s' /\ chordmode s' = false /\
    gained M q s2 s' l /\ aliases s' = aliases s2 /\ (forall l, allnames s2 l -> allnames s' l) /\
    (forall os, usage s2 = layout os -> room q os -> exists os', usage s' = layout os' /\ joined q os os')).
  { destruct Hfl as [[-> ->]|(vs & -> & Hvs & Nd)].
    - exists q, s2, 4, 0. split; [reflexivity|]. split; [exact A2|]. split; [congruence|]. split; [now apply gained_nil|]. split; [reflexivity|]. split; [auto|].
      intros os Eo _. exists os. split; [exact Eo|now left].
    - destruct (fr_id _ _ _ _ F2 q) as (_ & _ & I1 & _ & I2).
      destruct (flush_ok K T vs l false q s2 Hvs A2) as (v' & s' & o' & p' & E3 & G3); try congruence.
      + rewrite <- I2, (fr_vheap _ _ _ _ F2). exact Vl1.
      + unfold getv. rewrite <- I2, (fr_vheap _ _ _ _ F2). exact Vc1.
      + exists v', s', o', p'. split; [|exact G3]. cbn [do_steps]. destruct (do_step plain new_opt (SFlush vs false)) as [o2 r].
        rewrite app_nil_r. exact E3. }
  destruct G as (v' & s' & o' & p' & E3 & A3 & C3 & (es & G3 & G4) & Al3 & N3 & U3).
  assert (EE : exec (UPart [name] "" :: map (fun u => UPrim (Attr u)) attrs ++ do_steps plain new_opt fl) s = (s', Ok)).
  { rewrite (exec_cons_ok _ _ _ _ E1), (exec_app_ok _ _ _ _ E2). exact E3. }
  assert (St : star s s') by (eapply run_all_star; exact EE).
  destruct (star_inv_idext _ _ St (re_inv _ _ _ R)) as (I' & X').
  assert (St1' : star s1 s').
  { eapply run_all_star. unfold exec in E2, E3. instantiate (1 := Ok).
    instantiate (1 := map (fun u => UPrim (Attr u)) attrs ++ do_steps plain new_opt fl). instantiate (1 := 1%nat).
    change (exec (map (fun u => UPrim (Attr u)) attrs ++ do_steps plain new_opt fl) s1 = (s', Ok)).
    rewrite (exec_app_ok _ _ _ _ E2). exact E3. }
  assert (I1 : inv s1).
  { assert (Sx : star s s1) by (eapply run_star; exact E1). apply (star_inv_idext _ _ Sx (re_inv _ _ _ R)). }
  destruct (star_inv_idext _ _ St1' I1) as (_ & X1).
  assert (Sq : pstock (getp s' q) = i).
  { destruct X1 as [_ X1]. destruct (X1 q) as (_ & X2 & _); [lia|]. congruence. }
  exists s', es. split; [exact EE|]. split; [|split; [exact X'|split]].
  - constructor; try assumption.
    + apply (at_glob _ _ _ _ _ _ _ _ A3).
    + rewrite Al3, (fr_alias _ _ _ _ F2). exact Al1.
    + destruct (re_use _ _ _ R) as (os & O1 & O2). rewrite <- U1 in O1.
      assert (Ro : room q os) by (split; [lia|right; lia]).
      destruct (fr_use _ _ _ _ F2 os O1 Ro) as (os2 & O3 & J2). destruct (U3 os2 O3 (joined_room _ _ _ Ro J2)) as (os3 & O4 & J3).
      exists os3. split; [exact O4|]. assert (J : joined q os os3) by (eapply joined_trans; eassumption). destruct J as [-> |[_ ->]]; [lia|]. rewrite app_length. cbn. lia.
    + apply N3. eapply allnames_fr; eassumption.
  - rewrite G3, Ev2, Ev1. reflexivity.
  - rewrite map_map.
    assert (G5 : forall es l, map (fun e => (ev_part e, ev_note e, ev_off e, ev_dur e)) es = map (fun x => (q, s_key x, tms M (s_on x), tms M (s_len x))) l ->
      map (as_heard s') es = map (fun x => in_ms (iname i, x)) l).
    { induction es0 as [|e0 es0 IH]; intros [|x0 l0] H; try discriminate; [reflexivity|].
      injection H as H1 H2 H3 H4 H5. cbn [map]. rewrite (IH l0 H5). f_equal. unfold as_heard, SpecXmlScore.in_ms. rewrite H1, H2, H3, H4, Sq. reflexivity. }
    apply G5, G4.
Qed.

Lemma voices_events : forall K T vs l, voices_play K T vs l -> forallb (fun v => forallb (voice_event false) (snd v)) vs = true.
Proof.
  intros K T vs l H. induction H as [|n us vs o p e es Hp H IH]; [reflexivity|]. cbn [forallb snd]. rewrite IH, andb_true_r.
  eapply play_events, Hp.
Qed.

Lemma parts_ok : forall ps ils, Forall2 (fun p il => part_plays p (fst il) (snd il)) ps ils -> forall n used s,
  ready n used s -> NoDup (map fst ils) -> (forall x, In x (map fst ils) -> ~ In x used) -> (List.length ps + n <= 15)%nat ->
  importable ps s /\ exists s' es, exec (import_updates plain ps) s = (s', Ok) /\ inv s' /\ idext s s' /\
    events s' = events s ++ es /\ map (as_heard s') es = map in_ms (flat_map (fun il => map (pair (fst il)) (snd il)) ils).
Proof.
  intros ps ils H. induction H as [|p [inst l] ps ils Hp H IH]; intros n used s R Nd Hu Hl.
  - split; [exact I|]. exists s, []. split; [reflexivity|]. split; [apply R|]. split; [apply idext_refl|]. rewrite app_nil_r. now split.
  - cbn [fst snd map List.length] in *. inversion Nd as [|? ? Nd1 Nd2]; subst.
    assert (Hni : ~ In inst used) by (apply Hu; now left).
    destruct (part_ok p inst l n used s Hp R Hni) as (s1 & es1 & E1 & R1 & X1 & Ev1 & H1); [lia|].
    destruct (IH (S n) (inst :: used) s1 R1 Nd2) as (Im & s2 & es2 & E2 & I2 & X2 & Ev2 & H2).
    { intros x Hx [<- | Hx2]; [contradiction|]. exact (Hu x (or_intror Hx) Hx2). }
    { lia. }
    split.
    + cbn [importable]. intros _.
      destruct Hp as (name & i & attrs & K & T & fl & Hn & Ha & Hs & Hi & Hp & Hst & Hat & Hfl).
      assert (Hd : ~ In (iname i) used) by (now rewrite Hi).
      destruct (declare_ok n used name i s R Hs Hd Hp) as (s0 & D1 & A1 & St1 & _); [lia|].
      rewrite Hn, Ha. change (exec [UPart [name] ""] s) with (each (run 1) [UPart [name] ""] s). cbn [each]. rewrite D1. cbn [seqo fst].
      rewrite St1, Hp. split; [apply (at_cur _ _ _ _ _ _ _ _ A1)|]. rewrite Hst.
      assert (Ga : forall fl, forallb (part_step false) fl = true -> forallb (part_step false) (map SAttr attrs ++ fl) = true).
      { clear - Hat. intros fl Hf. induction Hat as [K T|K T k l K' T' H IH|K T t l K' T' H IH]; [exact Hf| |]; cbn [map app forallb part_step negb orb andb]; exact IH. }
      assert (Gv : forall l fl, voices_ended (map (@SAttr XQ) l ++ fl) = voices_ended fl).
      { clear. induction l as [|u l IH]; intros fl; [reflexivity|]. apply IH. }
      split; [|split; [|rewrite E1; exact Im]].
      * apply Ga. destruct Hfl as [[-> _]|(vs & -> & Hvs & _)]; [reflexivity|]. cbn [forallb part_step].
        now rewrite (voices_events _ _ _ _ Hvs).
      * rewrite Gv. destruct Hfl as [[-> _]|(vs & -> & Hvs & _)]; reflexivity.
    + exists s2, (es1 ++ es2). unfold import_updates in *. cbn [flat_map fst snd]. rewrite (exec_app_ok _ _ _ _ E1). split; [exact E2|].
      split; [exact I2|]. split; [eapply idext_trans; eassumption|]. split; [now rewrite Ev2, Ev1, app_assoc|].
      rewrite !map_app, <- H2, <- H1. f_equal. apply map_ext_in. intros e He.
      assert (Er : (ev_part e < List.length (heap s1))%nat).
      { pose proof (inv_events _ (re_inv _ _ _ R1)) as Hev. rewrite Forall_forall in Hev. apply Hev. rewrite Ev1. apply in_or_app. now right. }
      unfold as_heard. destruct X2 as [_ X2]. destruct (X2 _ Er) as (_ & -> & _). reflexivity.
Qed.

Lemma heap_stock : forall s t : @score XQ, same_so_far s t -> forall p, pstock (getp s p) = pstock (getp t p).
Proof.
  intros s t H p. assert (E : map audible_part (heap s) = map audible_part (heap t)).
  { unfold same_so_far in H. apply (f_equal heap) in H. exact H. }
  unfold getp. assert (G : forall h, pstock (nth p h dead_part) = nth p (map (fun x => pstock x) (map audible_part h)) (pstock (@dead_part XQ))).
  { intros h. rewrite map_map. revert p. induction h as [|x h IH]; intros [|p]; try reflexivity. apply IH. }
  rewrite !G. now rewrite E.
Qed.

Lemma played : forall (feq : @num XQ -> @num XQ -> bool) ps ils, (forall x y, feq x y = true -> x = y) ->
  Forall2 (fun p il => part_plays p (fst il) (snd il)) ps ils -> NoDup (map fst ils) -> (List.length ps <= 15)%nat ->
  let r := exec (text_of (import_updates (optimize_list feq) ps)) new_score in
  snd r = Ok /\ map (as_heard (fst r)) (events (fst r)) = map in_ms (flat_map (fun il => map (pair (fst il)) (snd il)) ils).
Proof.
  intros feq ps ils Hf H Nd Hl r.
  destruct (parts_ok ps ils H 0%nat [] new_score ready_new Nd) as (Im & s' & es & E & _ & _ & Ev & Hh); [auto|lia|].
  destruct (ProofImporter7.c48_import feq [] ps new_score Im) as (C1 & C2 & C3).
  { intros x y _ _. apply Hf. }
  { reflexivity. }
  { reflexivity. }
  cbn [session fold_left] in *. rewrite E in *. cbn [fst snd] in *. fold r in C1, C2, C3.
  split; [congruence|]. rewrite <- C1, Ev. cbn [events new_score app]. rewrite <- Hh. apply map_ext. intros e.
  unfold as_heard. now rewrite (heap_stock _ _ C3).
Qed.
End Parts.
