(** The importer's walk over a part of a MusicXML document (C57). *)
From Coq Require Import ZArith QArith Qcanon Ascii String List Bool Lia Arith Permutation.
From Verif Require Import Base Num ModelPitch ModelDuration ModelInstruments ModelTypes ModelLisp ModelScore
  ModelImporter ModelMusicXml SpecImporter SpecMusicXml ProofHeap ProofPitch SpecXmlScore ProofXmlDur ProofXmlPlay ProofXmlExec ProofXmlParts
  ProofXmlRead ProofXmlVoice ProofXmlPart.
Import ListNotations.
Local Open Scope string_scope.
Local Open Scope list_scope.
Local Open Scope Z_scope.

(** Induction over elements. *)
Section ElemInd.
Variable P : elem -> Prop.
Hypothesis H : forall t a x cs, Forall P cs -> P (Elem t a x cs).
Fixpoint elem_ind' (e : elem) : P e :=
  match e with
  | Elem t a x cs => H t a x cs ((fix go (l : list elem) : Forall P l := match l with [] => Forall_nil P | c :: r => Forall_cons c (elem_ind' c) (go r) end) cs)
  end.
End ElemInd.

Section Walk.
Variable M : Z.
Hypothesis HM : 1 <= M <= 24.
Variable other : string -> @num XQ.
Variable part_order : nat -> list string -> list string.
Variable voice_order : nat -> list Z -> list Z.
Variable names : list string.
Notation tq := (tq M).
Notation len := (len M).
Notation xpart := (@xpart XQ).
Notation voice := (@voice XQ).
Notation update := (@update XQ).
Notation importer := (@importer XQ).
Notation KS r := (ks_from_circle (r_fifths r)).
Notation play r := (play M (KS r) (r_transp r)).
Notation PI := (PI M names).
Notation handle := (@handle XQ GXQ other part_order voice_order).

(* ---------------- the importer around a part ---------------- *)
Definition here (i : nat) (im : importer) : Prop := i_cur im = Some i /\ (i < List.length (i_heap im))%nat.
Lemma pget_pset : forall i p im, here i im -> pget i (pset i p im) = p.
Proof. intros i p im [_ H]. unfold pget, pset. cbn. now apply nth_upd_same. Qed.
Lemma pset_pset : forall i p q (im : importer), pset i p (pset i q im) = pset i p im.
Proof. intros. unfold pset. cbn. now rewrite upd_twice. Qed.
Lemma on_part_ok : forall f i p im, here i im -> on_part f (pset i p im) = rmap (fun p' => pset i p' im) (f p).
Proof.
  intros f i p im H. unfold on_part. change (i_cur (pset i p im)) with (i_cur im). rewrite (proj1 H), (pget_pset i p im H).
  destruct (f p); cbn [rmap rbind]; try reflexivity. now rewrite pset_pset.
Qed.
Lemma switch_imp : forall c i p im, here i im -> switch_voice c (pset i p im) = rmap (fun p' => pset i p' im) (switch_part c p).
Proof.
  intros c i p im H. unfold switch_voice, switch_part. destruct (find_child "voice" c); [|reflexivity].
  rewrite (on_part_ok _ _ _ _ H). reflexivity.
Qed.

(* ---------------- other elements ---------------- *)
Lemma read_facts_app : forall a b r, read_facts M (a ++ b) r = obind (read_facts M a r) (read_facts M b).
Proof.
  intros a b r. unfold read_facts. rewrite fold_left_app.
  destruct (fold_left _ a (Some r)) as [x|]; [reflexivity|]. cbn [obind]. induction b as [|f b IH]; [reflexivity|exact IH].
Qed.

Fixpoint handles (l : list elem) (im : importer) : res importer :=
  match l with [] => ROk im | c :: r => rbind (handle c im) (handles r) end.
Fixpoint facts_of (l : list elem) : list fact := match l with [] => [] | c :: r => facts c ++ facts_of r end.

Definition special (t : string) : bool :=
  existsb (String.eqb t) ["score-part"; "part"; "measure"; "barline"; "key"; "dynamics"; "divisions"; "transpose"; "note"; "forward"; "backup"].
Lemma handle_rest : forall t a x cs im, special t = false -> handle (Elem t a x cs) im = handles cs im.
Proof.
  intros t a x cs im H. unfold special in H. cbn [existsb] in H. repeat (apply orb_false_elim in H; destruct H as [?H H]).
  cbn [ModelMusicXml.handle]. repeat match goal with E : String.eqb t _ = false |- _ => rewrite E; clear E end.
  revert im. induction cs as [|c cs IH]; intros im; [reflexivity|]. cbn [handles].
  destruct (handle c im); cbn [rbind]; try reflexivity; apply IH.
Qed.
Lemma facts_rest : forall t a x cs, special t = false -> facts (Elem t a x cs) = facts_of cs.
Proof.
  intros t a x cs H. unfold special in H. cbn [existsb] in H. repeat (apply orb_false_elim in H; destruct H as [?H H]).
  cbn [facts existsb]. repeat match goal with E : String.eqb t _ = false |- _ => rewrite E; clear E end. cbn [orb].
  induction cs as [|c cs IH]; [reflexivity|]. cbn [facts_of]. now rewrite IH.
Qed.

Lemma one_fact : forall f r, read_facts M [f] r = read_fact M r f.
Proof. reflexivity. Qed.

Lemma facts_ok : forall e r r' acc p ns i im, here i im -> PI r acc p ns -> read_facts M (facts e) r = Some r' ->
  exists p', handle e (pset i p im) = ROk (pset i p' im) /\ PI r' acc p' ns.
Proof.
  induction e as [t a x cs IH] using elem_ind'. intros r r' acc p ns i im Hi H Hr.
  destruct (special t) eqn:Es.
  - unfold special in Es. cbn [existsb] in Es.
    assert (On : forall f p', handle (Elem t a x cs) (pset i p im) = on_part f (pset i p im) -> f p = ROk p' -> handle (Elem t a x cs) (pset i p im) = ROk (pset i p' im)).
    { intros f p' E1 E2. rewrite E1, (on_part_ok _ _ _ _ Hi), E2. reflexivity. }
    apply orb_prop in Es. destruct Es as [E|Es]; [apply String.eqb_eq in E; subst t; discriminate|].
    apply orb_prop in Es. destruct Es as [E|Es]; [apply String.eqb_eq in E; subst t; discriminate|].
    apply orb_prop in Es. destruct Es as [E|Es]; [apply String.eqb_eq in E; subst t; discriminate|].
    apply orb_prop in Es. destruct Es as [E|Es].
    { apply String.eqb_eq in E. subst t. cbn [facts String.eqb] in Hr. change (facts (Elem "barline" a x cs)) with
        (if has_child "ending" (Elem "barline" a x cs) || has_child "repeat" (Elem "barline" a x cs) then [FOther] else [FBarline]) in Hr.
      destruct (has_child "ending" _) eqn:E1; [discriminate|]. destruct (has_child "repeat" _) eqn:E2; [discriminate|]. cbn in Hr. injection Hr as <-.
      exists p. split; [|exact H]. eapply On; [reflexivity|]. eapply plain_barline; eassumption. }
    apply orb_prop in Es. destruct Es as [E|Es].
    { apply String.eqb_eq in E. subst t. set (e := Elem "key" a x cs) in *.
      change (facts e) with [if has_child "key-step" e || has_child "key-alter" e || has_child "key-accidental" e then FOther else FKey (child_number (-7) 7 "fifths" e)] in Hr.
      destruct (has_child "key-step" e || has_child "key-alter" e || has_child "key-accidental" e) eqn:E1; [discriminate|].
      rewrite one_fact in Hr. unfold read_fact in Hr. ob Hr k Ek. on Hr Hb. apply negb_true_iff in Hb.
      destruct (child_parse 8 (-7) 7 "fifths" e k) as (s & S1 & S2 & S3); [lia|lia|lia|exact Ek|].
      destruct (attr_to M names r acc p ns (PKey (ks_from_circle k)) r' H Hb) as (p' & E & H').
      - assert (r_fifths r' = k) as -> by (injection Hr as <-; reflexivity). assert (r_transp r' = r_transp r) as -> by (injection Hr as <-; reflexivity). constructor. constructor.
      - assert (r_fifths r' = k) as -> by (injection Hr as <-; reflexivity). exact S3.
      - injection Hr as <-. reflexivity.
      - exists p'. split; [|exact H']. eapply On; [reflexivity|]. unfold key_handler. fold e. rewrite E1, S1. cbn [rbind]. now rewrite S2. }
    apply orb_prop in Es. destruct Es as [E|Es].
    { apply String.eqb_eq in E. subst t. set (e := Elem "dynamics" a x cs) in *. change (facts e) with [FDynamics] in Hr. rewrite one_fact in Hr. unfold read_fact in Hr.
      on Hr Hm. apply negb_true_iff in Hm. assert (r' = calm r) as -> by (unfold calm; congruence).
      destruct (dynamics_ok M HM other names r acc p ns e H Hm) as (p' & E & H'). exists p'. split; [|exact H']. eapply On; [reflexivity|exact E]. }
    apply orb_prop in Es. destruct Es as [E|Es].
    { apply String.eqb_eq in E. subst t. set (e := Elem "divisions" a x cs) in *. change (facts e) with [FDivisions (number_in 1 24 x)] in Hr. rewrite one_fact in Hr. unfold read_fact in Hr.
      ob Hr d Ed. on Hr Hm. apply Z.eqb_eq in Hm. destruct (number_range _ _ _ _ Ed) as [Rd _].
      exists (set_div d p). split.
      - eapply On; [reflexivity|]. unfold divisions_handler. cbn [e text]. now rewrite (parse_number 8 1 24 x d ltac:(lia) ltac:(lia) ltac:(lia) Ed).
      - injection Hr as <-. apply divisions_to; [exact H|exact Rd|]. apply Z.mod_divide; [lia|exact Hm]. }
    apply orb_prop in Es. destruct Es as [E|Es].
    { apply String.eqb_eq in E. subst t. set (e := Elem "transpose" a x cs) in *.
      change (facts e) with [if has_child "octave-change" e then FOther else FTranspose (child_number (-127) 127 "chromatic" e)] in Hr.
      destruct (has_child "octave-change" e) eqn:E1; [discriminate|].
      rewrite one_fact in Hr. unfold read_fact in Hr. ob Hr k Ek. on Hr Hb. apply negb_true_iff in Hb.
      destruct (child_parse 8 (-127) 127 "chromatic" e k) as (s & S1 & S2 & S3); [lia|lia|lia|exact Ek|].
      destruct (attr_to M names r acc p ns (PTransp k) r' H Hb) as (p' & E & H').
      - assert (r_transp r' = k) as -> by (injection Hr as <-; reflexivity). assert (r_fifths r' = r_fifths r) as -> by (injection Hr as <-; reflexivity). constructor. constructor.
      - assert (r_fifths r' = r_fifths r) as -> by (injection Hr as <-; reflexivity). apply H.
      - injection Hr as <-. reflexivity.
      - exists p'. split; [|exact H']. eapply On; [reflexivity|]. unfold transpose_handler. fold e. rewrite S1. cbn [rbind]. now rewrite S2. }
    apply orb_prop in Es. destruct Es as [E|Es]; [apply String.eqb_eq in E; subst t; discriminate|].
    apply orb_prop in Es. destruct Es as [E|Es]; [apply String.eqb_eq in E; subst t; discriminate|].
    apply orb_prop in Es. destruct Es as [E|Es]; [apply String.eqb_eq in E; subst t; discriminate|discriminate].
  - rewrite (handle_rest t a x cs _ Es). rewrite (facts_rest t a x cs Es) in Hr. clear Es.
    revert r p H Hr. induction IH as [|c cs Hc _ IHl]; intros r p H Hr.
    + injection Hr as <-. exists p. now split.
    + cbn [facts_of] in Hr. rewrite read_facts_app in Hr. ob Hr r1 Hr1.
      destruct (Hc r r1 acc p ns i im Hi H Hr1) as (p1 & E1 & H1). cbn [handles]. rewrite E1. cbn [rbind]. eapply IHl; eassumption.
Qed.

(* ---------------- voices ---------------- *)
Definition known (ns : list Z) (e : elem) : Prop := Forall (fun v => match v with Some n => In n ns | None => False end) (voices_in e).
Lemma voices_eq : forall t a x cs, voices_in (Elem t a x cs) = (if String.eqb t "voice" then [number_in 1 127 x] else []) ++ flat_map voices_in cs.
Proof. reflexivity. Qed.
Lemma known_child : forall ns e c, known ns e -> In c (children e) -> known ns c.
Proof.
  intros ns [t a x cs] c H Hc. unfold known in *. rewrite voices_eq in H. apply Forall_app in H. destruct H as [_ H]. cbn in Hc.
  rewrite Forall_forall in *. intros v Hv. apply H. apply in_flat_map. eauto.
Qed.
Lemma known_voice : forall ns e v, known ns e -> voice_of e = Some v -> In v ns.
Proof.
  intros ns e v H Hv. unfold voice_of, child_number in Hv. ob Hv c Ec. unfold find_child in Ec. apply find_some in Ec. destruct Ec as [Hc Et].
  pose proof (known_child ns e c H Hc) as Hk. destruct c as [t a x cs]. cbn in Et, Hv. unfold known in Hk. rewrite voices_eq, Et, Hv in Hk.
  cbn [app] in Hk. inversion_clear Hk. assumption.
Qed.

(* ---------------- the elements of a measure ---------------- *)
Lemma item_ok : forall e r r' acc new p ns i im, here i im -> PI r acc p ns -> known ns e -> read_item M e r = Some (r', new) ->
  exists p', rbind (switch_voice e (pset i p im)) (handle e) = ROk (pset i p' im) /\ PI r' (acc ++ new) p' ns.
Proof.
  intros e r r' acc new p ns i im Hi H Hk Hr. unfold read_item in Hr. rewrite (switch_imp e i p im Hi).
  assert (Lift : forall f p', (forall q, handle e (pset i q im) = on_part f (pset i q im)) -> rbind (switch_part e p) f = ROk p' ->
    rbind (rmap (fun p' => pset i p' im) (switch_part e p)) (handle e) = ROk (pset i p' im)).
  { intros f p' E1 E2. destruct (switch_part e p) as [q| |]; try discriminate. cbn [rmap rbind] in *. rewrite E1, (on_part_ok _ _ _ _ Hi), E2. reflexivity. }
  destruct (String.eqb (tag e) "note") eqn:E1.
  { assert (exists v, voice_of e = Some v) as [v Ev].
    { unfold read_note in Hr. on Hr Hp. destruct (voice_of e) as [v|]; [now exists v|discriminate]. }
    destruct (note_ok M HM other names r acc p ns e r' new v H Hr Ev (known_voice _ _ _ Hk Ev)) as (p' & E & H').
    exists p'. split; [|exact H']. eapply Lift; [|exact E]. intros q. destruct e as [t a x cs]. cbn in E1. apply String.eqb_eq in E1. subst t. reflexivity. }
  destruct (String.eqb (tag e) "backup") eqn:E2.
  { ob Hr r1 Hr1. assert (r' = r1 /\ new = []) as [-> ->] by (split; congruence). rewrite app_nil_r.
    destruct (move_ok M HM other names (-1) r acc p ns e r1) as (p' & E & H'); [now right|exact H|exact Hr1|].
    exists p'. split; [|exact H']. eapply Lift; [|exact E]. intros q. destruct e as [t a x cs]. cbn in E2. apply String.eqb_eq in E2. subst t. reflexivity. }
  destruct (String.eqb (tag e) "forward") eqn:E3.
  { ob Hr r1 Hr1. assert (r' = r1 /\ new = []) as [-> ->] by (split; congruence). rewrite app_nil_r.
    destruct (move_ok M HM other names 1 r acc p ns e r1) as (p' & E & H'); [now left|exact H|exact Hr1|].
    exists p'. split; [|exact H']. eapply Lift; [|exact E]. intros q. destruct e as [t a x cs]. cbn in E3. apply String.eqb_eq in E3. subst t. reflexivity. }
  ob Hr r1 Hr1. assert (r' = r1 /\ new = []) as [-> ->] by (split; congruence). rewrite app_nil_r. clear Hr.
  unfold read_other in Hr1. ob Hr1 r0 Hr0.
  assert (exists p0, switch_part e p = ROk p0 /\ PI r0 acc p0 ns) as (p0 & S0 & H0).
  { destruct (find_child "voice" e) as [x|] eqn:Ev.
    - ob Hr0 v Hv. on Hr0 C. apply andb_prop in C. destruct C as [C1 C2]. apply Z.leb_le in C1.
      pose proof (known_voice _ _ _ Hk Hv) as Hin. rewrite <- (pi_ns _ _ _ _ _ _ H) in Hin. destruct (key_zaget _ _ _ Hin) as [c Hc].
      destruct (switch_ok M HM names r acc p ns v c H Hc C1) as (us & vb & E & H' & _).
      { intros w Ew. rewrite Ew in C2. now apply Z.eqb_eq in C2. }
      eexists. rewrite (voice_switch e v p Hv), Hc. split; [exact E|]. assert (r0 = switched r v) as -> by (unfold switched; congruence). exact H'.
    - exists p. assert (r0 = r) as -> by congruence. split; [|exact H]. unfold switch_part. now rewrite Ev. }
  rewrite S0. cbn [rmap rbind]. eapply facts_ok; eassumption.
Qed.

Fixpoint walk_items (l : list elem) (im : importer) : res importer :=
  match l with [] => ROk im | c :: r => rbind (switch_voice c im) (fun im1 => rbind (handle c im1) (walk_items r)) end.
Lemma handle_measure : forall a x cs im, handle (Elem "measure" a x cs) im = walk_items cs im.
Proof. reflexivity. Qed.
Lemma items_ok : forall l r r' acc new p ns i im, here i im -> PI r acc p ns -> Forall (known ns) l -> read_list (read_item M) l r = Some (r', new) ->
  exists p', walk_items l (pset i p im) = ROk (pset i p' im) /\ PI r' (acc ++ new) p' ns.
Proof.
  induction l as [|e l IH]; intros r r' acc new p ns i im Hi H Hk Hr; cbn [read_list walk_items] in *.
  - assert (r' = r /\ new = []) as [-> ->] by (split; congruence). rewrite app_nil_r. exists p. now split.
  - ob Hr x Hx. destruct x as [r1 a]. ob Hr y Hy. destruct y as [r2 b]. assert (r' = r2 /\ new = a ++ b) as [-> ->] by (split; congruence).
    inversion_clear Hk as [|? ? K1 K2]. destruct (item_ok e r r1 acc a p ns i im Hi H K1 Hx) as (p1 & E1 & H1).
    destruct (IH r1 r2 (acc ++ a) b p1 ns i im Hi H1 K2 Hy) as (p2 & E2 & H2). exists p2. rewrite app_assoc. split; [|exact H2].
    destruct (switch_voice e (pset i p im)) as [im1| |]; try discriminate. cbn [rbind] in *. rewrite E1. cbn [rbind]. exact E2.
Qed.
End Walk.
