(** Whole parts in the MusicXML importer: from the document to what is handed
    to the optimizer (C57). *)
From Coq Require Import ZArith QArith Qcanon Ascii String List Bool Lia Arith Permutation.
From Verif Require Import Base Num ModelPitch ModelDuration ModelInstruments ModelTypes ModelLisp ModelScore
  ModelImporter ModelMusicXml SpecImporter SpecMusicXml ProofHeap ProofPitch SpecXmlScore ProofXmlDur ProofXmlPlay ProofXmlExec ProofXmlParts
  ProofXmlRead ProofXmlVoice ProofXmlPart ProofXmlWalk ProofXmlMeasure.
Import ListNotations.
Local Open Scope string_scope.
Local Open Scope list_scope.
Local Open Scope Z_scope.

(* ---------------- sorting ---------------- *)
Lemma insert_perm : forall A (f : A -> A -> bool) x l, Permutation (x :: l) (insert_by f x l).
Proof.
  intros A f x l. induction l as [|y l IH]; cbn [insert_by]; [apply Permutation_refl|]. destruct (f x y); [apply Permutation_refl|].
  eapply Permutation_trans; [apply perm_swap|]. now constructor.
Qed.
Lemma sort_perm : forall A (f : A -> A -> bool) l, Permutation l (sort_by f l).
Proof.
  intros A f l. induction l as [|x l IH]; [constructor|]. cbn [sort_by fold_right].
  eapply Permutation_trans; [apply perm_skip; exact IH|]. apply insert_perm.
Qed.

(* ---------------- sounds by voice ---------------- *)
Lemma flat_skip : forall ns n (s : sound) acc, ~ In n ns -> flat_map (fun m => sounds_of m ((n, s) :: acc)) ns = flat_map (fun m => sounds_of m acc) ns.
Proof.
  induction ns as [|m ns IH]; intros n s acc H; [reflexivity|]. cbn [flat_map]. rewrite IH by (intros X; apply H; now right). f_equal.
  unfold sounds_of. cbn [filter fst]. destruct (Z.eqb_spec n m) as [-> |]; [exfalso; apply H; now left|reflexivity].
Qed.
Lemma by_voice : forall ns acc, NoDup ns -> Forall (fun x : Z * sound => In (fst x) ns) acc ->
  Permutation (flat_map (fun n => sounds_of n acc) ns) (map snd acc).
Proof.
  intros ns acc Hn H. induction H as [|[n s] acc Hx H IH].
  - cbn [map]. clear. induction ns as [|n ns IH]; [constructor|exact IH].
  - cbn [map snd fst] in *. eapply Permutation_trans; [|apply perm_skip; exact IH]. clear IH H. induction Hn as [|m ns N1 N2 IH]; [contradiction|].
    cbn [flat_map]. destruct Hx as [-> |Hx].
    + rewrite flat_skip by exact N1. unfold sounds_of at 1. cbn [filter fst]. rewrite Z.eqb_refl. apply Permutation_refl.
    + assert (n <> m) by (intros ->; contradiction). unfold sounds_of at 1. cbn [filter fst]. destruct (Z.eqb_spec n m); [contradiction|].
      fold (sounds_of m acc). eapply Permutation_trans; [apply Permutation_app_head; apply IH; exact Hx|]. apply Permutation_sym, Permutation_middle.
Qed.

Lemma aset_in : forall B k (x : B) l n i, In (n, i) (aset Z.eqb k x l) -> (n = k /\ i = x) \/ In (n, i) l.
Proof.
  intros B k x l n i. induction l as [|[a y] l IH]; cbn [aset].
  - intros [H|[]]. left. split; congruence.
  - destruct (Z.eqb_spec a k) as [-> |]; cbn [In]; intros [H|H]; [left; split; congruence|tauto|tauto|]. destruct (IH H); tauto.
Qed.
Lemma aset_snd : forall k (x : nat) l, ~ In x (map snd l) -> NoDup (map snd l) -> NoDup (map snd (aset Z.eqb k x l)).
Proof.
  intros k x l Hx H. induction l as [|[a y] l IH]; cbn [aset map snd] in *.
  - constructor; [easy|constructor].
  - inversion_clear H as [|? ? N1 N2]. destruct (Z.eqb_spec a k) as [-> |Hn]; cbn [map snd].
    + constructor; [intros X; apply Hx; now right|exact N2].
    + constructor; [|apply IH; [intros X; apply Hx; now right|exact N2]]. intros Hi. apply in_map_iff in Hi. destruct Hi as ([m j] & Ej & Hj). cbn in Ej. subst j.
      apply aset_in in Hj. destruct Hj as [[_ ->]|Hj]; [apply Hx; now left|]. apply N1. change y with (snd (m, y)). now apply in_map.
Qed.
Lemma aset_has : forall B k (x : B) l, In k (map fst (aset Z.eqb k x l)).
Proof. intros B k x l. induction l as [|[a y] l IH]; cbn [aset]; [now left|]. destruct (Z.eqb_spec a k) as [-> |]; [now left|right; exact IH]. Qed.
Lemma aset_incl : forall B k (x : B) l, incl (map fst l) (map fst (aset Z.eqb k x l)).
Proof.
  intros B k x l. induction l as [|[a y] l IH]; cbn [aset]; intros m Hm; [contradiction|].
  destruct (Z.eqb_spec a k) as [-> |]; [exact Hm|]. destruct Hm as [Hm|Hm]; [now left|right; now apply IH].
Qed.
Section Whole.
Variable M : Z.
Hypothesis HM : 1 <= M <= 24.
Variable other : string -> @num XQ.
Variable part_order : nat -> list string -> list string.
Variable voice_order : nat -> list Z -> list Z.
Hypothesis voice_perm : forall k l, Permutation l (voice_order k l).
Variable names : list string.
Notation tq := (tq M).
Notation xpart := (@xpart XQ).
Notation voice := (@voice XQ).
Notation importer := (@importer XQ).
Notation KS r := (ks_from_circle (r_fifths r)).
Notation play r := (play M (KS r) (r_transp r)).
Notation PI := (PI M names).
Notation PF := (PF M names).
Notation handle := (@handle XQ GXQ other part_order voice_order).

(* ---------------- measures ---------------- *)
Fixpoint walk_measures (l : list elem) (im : importer) : res importer :=
  match l with
  | [] => ROk im
  | c :: r => rbind (handle c im) (fun im1 => rbind (after_measure voice_order (match r with [] => false | _ => true end) im1) (walk_measures r))
  end.
Lemma handle_part : forall a x cs im, handle (Elem "part" a x cs) im = rbind (part_start (Elem "part" a x cs) im) (walk_measures cs).
Proof. reflexivity. Qed.

Definition later (im im' : importer) : Prop := i_parts im' = i_parts im /\ i_heap im' = i_heap im /\ i_cur im' = i_cur im.
Lemma here_tick : forall i im, here i im -> here i (tick im).
Proof. intros i im H. exact H. Qed.

Lemma measures_ok : forall l r r' acc new p ns i im, here i im -> PI r acc p ns -> Forall (known ns) l ->
  read_list (read_measure M) l r = Some (r', new) ->
  exists p' im' rf, walk_measures l (pset i p im) = ROk (pset i p' im') /\ later im im' /\ PF rf (acc ++ new) p' ns.
Proof.
  induction l as [|e l IH]; intros r r' acc new p ns i im Hi H Hk Hr; cbn [read_list walk_measures] in *.
  - assert (new = []) as -> by congruence. rewrite app_nil_r. exists p, im, r. split; [reflexivity|]. split; [repeat split|]. now apply PI_PF.
  - ob Hr x Hx. destruct x as [r1 a]. ob Hr y Hy. destruct y as [r2 b]. assert (new = a ++ b) as -> by congruence. clear Hr.
    inversion_clear Hk as [|? ? K1 K2]. unfold read_measure in Hx. on Hx Ht. ob Hx z Hz. destruct z as [r0 a0]. ob Hx r01 Hend.
    assert (r01 = r1 /\ a0 = a) as [-> ->] by (split; congruence). clear Hx.
    destruct e as [t at_ x cs]. cbn [tag children] in *. apply String.eqb_eq in Ht. subst t.
    assert (Kc : Forall (known ns) cs) by (rewrite Forall_forall; intros c Hc; eapply known_child; [exact K1|exact Hc]).
    destruct (items_ok M HM other part_order voice_order names cs r r0 acc a p ns i im Hi H Kc Hz) as (p1 & E1 & H1).
    rewrite handle_measure, E1. cbn [rbind]. rewrite (after_eq voice_order _ i p1 im Hi). destruct l as [|e2 l].
    + destruct (last_ok M HM part_order voice_order voice_perm names r0 (acc ++ a) p1 ns (i_clock im) H1) as (p2 & E2 & H2). rewrite E2. cbn [rmap rbind walk_measures read_list] in *.
      assert (b = []) as -> by congruence. rewrite app_nil_r. exists p2, (tick im), r0. split; [reflexivity|]. split; [repeat split|exact H2].
    + destruct (end_ok M HM part_order voice_order voice_perm names r0 (acc ++ a) p1 ns r1 (i_clock im) H1 Hend) as (p2 & E2 & H2). rewrite E2. cbn [rmap rbind].
      destruct (IH r1 r2 (acc ++ a) b p2 ns i (tick im) (here_tick _ _ Hi) H2 K2 Hy) as (p3 & im3 & rf & E3 & L3 & H3).
      exists p3, im3, rf. rewrite app_assoc. split; [exact E3|]. split; [exact L3|exact H3].
Qed.

(* ---------------- the beginning of a part ---------------- *)
Definition numbers (l : list (option Z)) : list Z := flat_map (fun v => match v with Some n => [n] | None => [] end) l.
Lemma numbers_eq : forall e, forallb (fun v => match v with Some _ => true | None => false end) (voices_in e) = true -> voice_numbers e = numbers (voices_in e).
Proof.
  induction e as [t a x cs IH] using elem_ind'. rewrite voices_eq. rewrite forallb_app. intros H. apply andb_prop in H. destruct H as [H1 H2].
  assert (E : voice_numbers (Elem t a x cs) = (if String.eqb t "voice" then [parse_int 32 x] else []) ++ flat_map voice_numbers cs) by reflexivity.
  rewrite E. unfold numbers. rewrite flat_map_app. f_equal.
  - destruct (String.eqb t "voice"); [|reflexivity]. cbn in H1. destruct (number_in 1 127 x) as [n|] eqn:En; [|discriminate].
    cbn. f_equal. eapply (parse_number 32 1 127); [lia|lia|lia|exact En].
  - clear E H1. induction IH as [|c cs Hc _ IHl]; [reflexivity|]. cbn [flat_map] in *. rewrite forallb_app in H2. apply andb_prop in H2. destruct H2 as [A B].
    rewrite flat_map_app. f_equal; [now apply Hc|now apply IHl].
Qed.

Record fresh (q p : xpart) : Prop := {
  fr_div : p_div p = p_div q; fr_beats : p_beats p = p_beats q; fr_steps : p_steps p = p_steps q;
  fr_names : p_names p = p_names q; fr_alias : p_alias p = p_alias q;
  fr_keys : NoDup (map fst (p_voices p)); fr_idx : NoDup (map snd (p_voices p));
  fr_heap : forall n i, In (n, i) (p_voices p) -> (i < List.length (p_heap p))%nat /\ vget i p = Voice [] n0 4 0 4 4 }.
Lemma put_voice_ok : forall q p n, fresh q p -> fresh q (put_voice n 4 p).
Proof.
  intros q p n [F1 F2 F3 F4 F5 F6 F7 F8]. constructor; try assumption.
  - cbn. now apply aset_nodup.
  - cbn. apply aset_snd; [|exact F7]. intros Hi. apply in_map_iff in Hi. destruct Hi as ([m j] & Ej & Hj). cbn in Ej. destruct (F8 _ _ Hj). lia.
  - intros m i Hi. cbn in Hi. apply aset_in in Hi. unfold vget. cbn. rewrite app_length. cbn. destruct Hi as [[-> ->]|Hi].
    + split; [lia|]. now rewrite app_nth2, Nat.sub_diag by lia.
    + destruct (F8 _ _ Hi) as [L V]. split; [lia|]. rewrite app_nth1 by exact L. exact V.
Qed.
Lemma put_voices_ok : forall l q p, fresh q p -> let p' := fold_left (fun q n => put_voice n 4 q) l p in
  fresh q p' /\ incl (map fst (p_voices p)) (map fst (p_voices p')) /\ incl l (map fst (p_voices p')).
Proof.
  induction l as [|n l IH]; intros q p H; cbn [fold_left]; cbv zeta.
  - split; [exact H|]. split; [apply incl_refl|intros x []].
  - destruct (IH q (put_voice n 4 p) (put_voice_ok _ _ n H)) as (A & B & C). split; [exact A|]. split.
    + eapply incl_tran; [|exact B]. apply aset_incl.
    + intros m [-> |Hm]; [apply B; apply aset_has|now apply C].
Qed.

Lemma part_whole : forall e i im l, here i (Imp (i_parts im) (i_heap im) (Some i) (i_clock im)) -> tag e = "part" ->
  (exists id, aget String.eqb "id" (attrs e) = Some id /\ aget String.eqb id (i_parts im) = Some i) ->
  pget i im = set_names names new_part -> read_part M e = Some l ->
  exists p' im' rf acc ns, handle e im = ROk (pset i p' im') /\ i_parts im' = i_parts im /\ i_heap im' = i_heap im /\ PF rf acc p' ns /\ map snd acc = l.
Proof.
  intros e i im l Hi Ht (id & Ea & Eid) Hp Hr. unfold read_part in Hr. on Hr C. apply andb_prop in C. destruct C as [C1 C2]. ob Hr x Hx. destruct x as [r' acc].
  assert (l = map snd acc) as -> by (cbn in Hr; congruence). clear Hr.
  pose proof (numbers_eq e C1) as En.
  set (q := set_names names (@new_part XQ)) in *.
  assert (Fq : fresh q q).
  { constructor; try reflexivity; [constructor|constructor|intros n j []]. }
  destruct (put_voices_ok (voice_numbers e) q q Fq) as (F & _ & Inc). set (p1 := fold_left (fun q n => put_voice n 4 q) (voice_numbers e) q) in *.
  assert (H1 : In 1 (voice_numbers e)).
  { rewrite En. apply existsb_exists in C2. destruct C2 as (v & Hv & E1). unfold numbers. apply in_flat_map. exists v. split; [exact Hv|].
    destruct v as [n|]; [|discriminate]. apply Z.eqb_eq in E1. subst n. now left. }
  destruct (key_zaget _ _ _ (Inc _ H1)) as [c Hc].
  set (p2 := set_cur (Some c) p1). set (ns := map fst (p_voices p1)).
  destruct F as [F1 F2 F3 F4 F5 F6 F7 F8].
  assert (V : forall n j, aget Z.eqb n (p_voices p1) = Some j -> (j < List.length (p_heap p1))%nat /\ vget j p2 = Voice [] n0 4 0 4 4).
  { intros n j Hj. apply zaget_in in Hj. exact (F8 n j Hj). }
  assert (P : PI start_reading [] p2 ns).
  { constructor; cbn [start_reading r_div r_fifths r_transp r_begun r_from r_now r_free r_last r_moved r_for p2 set_cur p_div p_beats p_steps p_heap p_voices p_cur p_names p_alias];
      try assumption; try reflexivity; try lia.
    - split; [lia|]. apply Z.divide_1_l.
    - rewrite F2. apply tq_0.
    - discriminate.
    - intros n j Hj. apply (V n j Hj).
    - exists 1, c. split; [reflexivity|]. split; [exact Hc|]. destruct (V _ _ Hc) as [_ Ev]. rewrite Ev. split; [discriminate|]. split; [|discriminate]. intros _. constructor.
    - intros n j Hj. destruct (V _ _ Hj) as [_ Ev]. rewrite Ev. split; [cbn; lia|]. exists 0. split; [constructor|]. right. split; [discriminate|]. split; [apply tq_0|].
      cbn. lia.
    - intros _. split; [reflexivity|]. intros n j Hj. destruct (V _ _ Hj) as [_ Ev]. now rewrite Ev.
    - exists []. split; [rewrite F3; reflexivity|]. constructor.
    - constructor.
    - intros _. now split.
    - split; [constructor|intros x []]. }
  assert (Kn : known ns e).
  { unfold known. rewrite Forall_forall. intros v Hv. rewrite forallb_forall in C1. pose proof (C1 v Hv) as X. destruct v as [n|]; [|discriminate].
    apply Inc. rewrite En. apply in_flat_map. exists (Some n). split; [exact Hv|now left]. }
  destruct e as [t a x cs]. cbn [tag children attrs] in *. subst t.
  assert (Kc : Forall (known ns) cs) by (rewrite Forall_forall; intros d Hd; eapply known_child; [exact Kn|exact Hd]).
  rewrite handle_part. unfold part_start. cbn [attrs]. rewrite Ea, Eid. set (im0 := Imp (i_parts im) (i_heap im) (Some i) (i_clock im)) in *.
  assert (Eo : on_part (fun p => ROk (set_cur (aget Z.eqb 1 (p_voices (fold_left (fun q n => put_voice n 4 q) (voice_numbers (Elem "part" a x cs)) p)))
       (fold_left (fun q n => put_voice n 4 q) (voice_numbers (Elem "part" a x cs)) p))) im0 = ROk (pset i p2 im0)).
  { unfold on_part. cbn [im0 i_cur]. change (pget i im0) with (pget i im). rewrite Hp. fold p1. rewrite Hc. reflexivity. }
  cbv zeta. rewrite Eo. cbn [rbind].
  destruct (measures_ok cs start_reading r' [] acc p2 ns i im0 Hi P Kc Hx) as (p3 & im3 & rf & E3 & (L1 & L2 & L3) & H3).
  exists p3, im3, rf, acc, ns. repeat apply conj; try assumption; reflexivity.
Qed.

(* ---------------- the end of a part ---------------- *)
Lemma put_frame : forall l (p : xpart), let p' := fold_left (fun q (v : Z * list (@update XQ)) => if effectively_empty (snd v) then q else put_voice (fst v) (-1) q) l p in
  p_steps p' = p_steps p /\ p_names p' = p_names p /\ p_alias p' = p_alias p.
Proof.
  induction l as [|v l IH]; intros p; cbn [fold_left]; cbv zeta; [repeat split|].
  destruct (effectively_empty (snd v)); [apply IH|]. exact (IH (put_voice (fst v) (-1) p)).
Qed.

Lemma collapse_ok : forall r acc p ns name i inst, PF r acc p ns -> names = [name] -> stock_instrument name = Some i -> iname i = inst -> iperc i = false ->
  exists p' l, collapse false p = ROk p' /\ part_plays M (XPart (p_names p') (p_alias p') (p_steps p')) inst l /\ Permutation l (map snd acc).
Proof.
  intros r acc p ns name i inst [D1 D2 (n & c & Hc & Hn) D4 (at_ & A1 & A2) D6 D7 D8] En Es Ei Ep.
  set (sorted := sort_by voice_before (p_voices p)).
  set (vs := map (fun '(n, i) => (n, v_ups (vget i p))) sorted).
  assert (Ps : Permutation (p_voices p) sorted) by apply sort_perm.
  assert (Hin : forall m j, In (m, j) sorted -> aget Z.eqb m (p_voices p) = Some j).
  { intros m j Hm. apply in_zaget; [now rewrite D1|]. eapply Permutation_in; [apply Permutation_sym; exact Ps|exact Hm]. }
  set (l := flat_map (fun n => sounds_of n acc) (map fst sorted)).
  assert (Pl : Permutation l (map snd acc)).
  { unfold l. assert (Pf : Permutation ns (map fst sorted)) by (rewrite <- D1; now apply Permutation_map). apply by_voice.
    - eapply Permutation_NoDup; eassumption.
    - eapply Forall_impl; [|exact D6]. intros x Hx. eapply Permutation_in; eassumption. }
  assert (Vp : voices_play M (KS r) (r_transp r) vs l).
  { assert (G : forall s, (forall m j, In (m, j) s -> aget Z.eqb m (p_voices p) = Some j) ->
      voices_play M (KS r) (r_transp r) (map (fun '(n, i) => (n, v_ups (vget i p))) s) (flat_map (fun n => sounds_of n acc) (map fst s))).
    { induction s as [|[m j] s IH]; intros Hs; [constructor|]. cbn [map flat_map fst].
      destruct (D4 m j (Hs m j (or_introl eq_refl))) as (o & t & P). econstructor; [exact P|]. apply IH. intros m' j' Hm. apply Hs. now right. }
    apply G. exact Hin. }
  assert (Nv : NoDup (map fst vs)).
  { unfold vs. rewrite map_map. replace (map _ sorted) with (map fst sorted) by (apply map_ext; now intros []).
    eapply Permutation_NoDup; [apply Permutation_map; exact Ps|]. now rewrite D1. }
  assert (Empty : forallb (fun v => effectively_empty (snd v)) vs = true -> l = []).
  { clear Pl Nv. intros Ef. induction Vp as [|m us w o t e es P Vw IH]; [reflexivity|]. cbn [forallb snd] in Ef. apply andb_prop in Ef. destruct Ef as [Ef1 Ef2].
    rewrite (play_empty M (KS r) (r_transp r) _ _ _ _ _ _ P) in Ef1. destruct us; [|discriminate]. inversion P; subst. cbn [app]. now apply IH. }
  assert (Plays : forall fl, (fl = [] /\ l = [] \/ fl = [SFlush vs false]) -> part_plays M (XPart names "" (map SAttr at_ ++ fl)) inst l).
  { intros fl Hfl. exists name, i, at_, (KS r), (r_transp r), fl. cbn [x_names x_alias x_steps]. repeat apply conj; try assumption; try reflexivity.
    destruct Hfl as [Hfl| ->]; [now left|]. right. exists vs. repeat apply conj; try assumption. reflexivity. }
  unfold collapse. destruct (p_voices p) as [|[m j] [|y rest]] eqn:Ev.
  - discriminate.
  - (* one voice *)
    assert (j = c) by (cbn in Hn; destruct (m =? n); congruence). subst j.
    assert (Evs : vs = [(m, v_ups (vget c p))]) by reflexivity.
    unfold cur_voice. rewrite Hc. cbn [rbind]. rewrite Evs in *. cbn [forallb snd] in Empty. rewrite andb_true_r in Empty.
    destruct (effectively_empty (v_ups (vget c p))) eqn:Ee.
    + exists p, l. split; [reflexivity|]. split; [|exact Pl]. rewrite D7, D8, A1. rewrite <- (app_nil_r (map SAttr at_)). apply Plays. left. split; [reflexivity|]. now apply Empty.
    + eexists _, l. split; [reflexivity|]. split; [|exact Pl]. cbn [set_beats put_voice set_voices set_vheap set_steps p_names p_alias p_steps]. rewrite D7, D8, A1. apply Plays. now right.
  - (* several voices *)
    fold sorted. fold vs. cbv zeta. destruct (forallb (fun v => effectively_empty (snd v)) vs) eqn:Ee.
    + exists p, l. split; [reflexivity|]. split; [|exact Pl]. rewrite D7, D8, A1. rewrite <- (app_nil_r (map SAttr at_)). apply Plays. left. split; [reflexivity|]. now apply Empty.
    + eexists _, l. split; [reflexivity|]. split; [|exact Pl]. destruct (put_frame vs p) as (Q1 & Q2 & Q3).
      cbn [set_beats set_cur set_steps p_names p_alias p_steps]. rewrite Q1, Q2, Q3, D7, D8, A1. apply Plays. now right.
Qed.
End Whole.
