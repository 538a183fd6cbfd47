(** Whole documents in the MusicXML importer (C57). *)
From Coq Require Import ZArith QArith Qcanon Ascii String List Bool Lia Arith Permutation.
From Verif Require Import Base Num ModelPitch ModelDuration ModelInstruments ModelTypes ModelLisp ModelScore
  ModelImporter ModelMusicXml SpecImporter SpecMusicXml ProofHeap ProofPitch SpecXmlScore ProofXmlDur ProofXmlPlay ProofXmlExec ProofXmlParts
  ProofXmlRead ProofXmlVoice ProofXmlPart ProofXmlWalk ProofXmlMeasure ProofXmlWhole.
Import ListNotations.
Local Open Scope string_scope.
Local Open Scope list_scope.
Local Open Scope Z_scope.

(* ---------------- instruments ---------------- *)
Definition stock_ok (name inst : string) : Prop := exists i, stock_instrument name = Some i /\ iname i = inst /\ iperc i = false.
Definition stock_test (name : string) : bool :=
  match stock_instrument name with Some i => String.eqb (iname i) name && negb (iperc i) | None => false end.
Lemma stock_all : forallb stock_test (firstn 127 instruments_list) = true.
Proof. vm_compute. reflexivity. Qed.
Lemma stock_in : forall k name, (k < 127)%nat -> nth_error instruments_list k = Some name -> stock_ok name name.
Proof.
  intros k name Hk H.
  assert (Hin : In name (firstn 127 instruments_list)).
  { apply nth_error_In with (n := k). rewrite <- H. revert Hk. generalize 127%nat as m. generalize instruments_list as l. clear. revert k.
    intros k l m. revert k l. induction m as [|m IH]; intros k l Hk; [lia|]. destruct l as [|x l]; [now destruct k|]. destruct k as [|k]; [reflexivity|]. cbn. apply IH. lia. }
  pose proof stock_all as A. rewrite forallb_forall in A. specialize (A _ Hin). unfold stock_test in A. destruct (stock_instrument name) as [i|] eqn:Ei; [|discriminate].
  apply andb_prop in A. destruct A as [A1 A2]. apply String.eqb_eq in A1. apply negb_true_iff in A2. exists i. now split.
Qed.
Lemma stock_piano : stock_ok "piano" "midi-acoustic-grand-piano".
Proof.
  assert (H : match stock_instrument "piano" with Some i => String.eqb (iname i) "midi-acoustic-grand-piano" && negb (iperc i) | None => false end = true) by (vm_compute; reflexivity).
  unfold stock_ok. destruct (stock_instrument "piano") as [i|]; [|discriminate]. apply andb_prop in H. destruct H as [A1 A2]. apply String.eqb_eq in A1. apply negb_true_iff in A2.
  exists i. now split.
Qed.
Lemma stock_fun : forall name a b, stock_ok name a -> stock_ok name b -> a = b.
Proof. intros name a b (i & A1 & A2 & _) (j & B1 & B2 & _). rewrite A1 in B1. injection B1 as ->. congruence. Qed.

(** The importer finds the same instrument as the specification. *)
Lemma score_part_names : forall e inst, read_instrument e = Some inst ->
  exists name, @ModelMusicXml.read_score_part XQ e = ROk (set_names [name] new_part) /\ stock_ok name inst.
Proof.
  intros e inst H. unfold read_instrument in H. unfold ModelMusicXml.read_score_part. cbv zeta. destruct (find_children "midi-instrument" e) as [|i [|j l]]; [| |discriminate].
  - exists "piano". split; [reflexivity|]. assert (inst = "midi-acoustic-grand-piano") as -> by congruence. exact stock_piano.
  - on H Hu. apply negb_true_iff in Hu. cbn [existsb]. rewrite Hu. cbn [orb]. ob H n Hn.
    destruct (child_parse 8 1 127 "midi-program" i n) as (s & S1 & S2 & S3); [lia|lia|lia|exact Hn|].
    exists inst. split.
    + cbn [rmapl]. rewrite S1. cbn [rbind]. rewrite S2. destruct (Z.ltb_spec (n - 1) 0); [lia|]. rewrite H. reflexivity.
    + eapply stock_in; [|exact H]. lia.
Qed.

Section Doc.
Variable M : Z.
Hypothesis HM : 1 <= M <= 24.
Variable other : string -> @num XQ.
Variable part_order : nat -> list string -> list string.
Variable voice_order : nat -> list Z -> list Z.
Hypothesis voice_perm : forall k l, Permutation l (voice_order k l).
Notation xpart := (@xpart XQ).
Notation importer := (@importer XQ).
Notation handle := (@handle XQ GXQ other part_order voice_order).
Notation handles := (@handles other part_order voice_order).

(** Elements without facts do nothing. *)
Lemma no_facts : forall e im, facts e = [] -> handle e im = ROk im.
Proof.
  induction e as [t a x cs IH] using elem_ind'. intros im H. destruct (special t) eqn:Es.
  - exfalso. revert H. unfold special in Es. cbn [existsb] in Es. cbn [facts existsb].
    repeat match goal with |- context [String.eqb t ?k] => destruct (String.eqb_spec t k) as [-> |]; [try discriminate|] end; try discriminate.
    destruct (has_child "ending" _ || has_child "repeat" _); discriminate.
  - rewrite (handle_rest other part_order voice_order t a x cs im Es). rewrite (facts_rest t a x cs Es) in H. clear Es.
    induction IH as [|c cs Hc _ IHl]; [reflexivity|]. cbn [facts_of ProofXmlWalk.handles] in *. apply app_eq_nil in H. destruct H as [H1 H2].
    rewrite (Hc im H1). cbn [rbind]. now apply IHl.
Qed.

(* ---------------- the parts ---------------- *)
(** A part: ID, instrument, sounds, and the importer's state. *)
Record entry := Entry { e_id : string; e_inst : string; e_sounds : list sound; e_part : xpart }.
Definition good (done : list string) (x : entry) : Prop :=
  exists name, stock_ok name (e_inst x) /\
  (e_part x = set_names [name] new_part /\ e_sounds x = [] \/
   In (e_id x) done /\ exists rf acc ns, PF M [name] rf acc (e_part x) ns /\ map snd acc = e_sounds x).
Record BI (b : book) (im : importer) (pl : list entry) : Prop := {
  bi_parts : b_parts b = map (fun x => (e_id x, e_inst x)) pl;
  bi_heap : i_heap im = map e_part pl;
  bi_ids : i_parts im = combine (map e_id pl) (seq 0 (List.length pl));
  bi_nodup : NoDup (map e_id pl);
  bi_insts : NoDup (map e_inst pl);
  bi_good : Forall (good (b_done b)) pl;
  bi_sounds : Permutation (b_sounds b) (flat_map (fun x => map (pair (e_inst x)) (e_sounds x)) pl) }.

Lemma good_names : forall done x, good done x -> exists name, p_names (e_part x) = [name] /\ p_alias (e_part x) = "" /\ stock_ok name (e_inst x).
Proof.
  intros done x (name & Hs & [[-> _]|(_ & rf & acc & ns & [D1 D2 D3 D4 D5 D6 D7 D8] & _)]); exists name; repeat apply conj; try assumption; reflexivity.
Qed.

Lemma combine_get : forall (ids : list string) s id j, NoDup ids -> nth_error ids j = Some id -> aget String.eqb id (combine ids (seq s (List.length ids))) = Some (s + j)%nat.
Proof.
  induction ids as [|x ids IH]; intros s id j Hn H; [now destruct j|]. inversion_clear Hn as [|? ? N1 N2]. cbn [List.length seq combine aget].
  destruct j as [|j]; cbn in H.
  - injection H as ->. rewrite String.eqb_refl. now rewrite Nat.add_0_r.
  - destruct (String.eqb_spec x id) as [-> |Hx]; [exfalso; apply N1; eapply nth_error_In; eassumption|]. rewrite (IH (S s) id j N2 H). f_equal. lia.
Qed.
Lemma combine_none : forall (ids : list string) l id, ~ In id ids -> aget String.eqb id (combine ids l : list (string * nat)) = None.
Proof.
  induction ids as [|x ids IH]; intros l id H; [reflexivity|]. destruct l as [|y l]; [reflexivity|]. cbn [combine aget].
  destruct (String.eqb_spec x id) as [-> |Hx]; [exfalso; apply H; now left|]. apply IH. intros X. apply H. now right.
Qed.
Lemma combine_some : forall (ids : list string) s id j, NoDup ids -> aget String.eqb id (combine ids (seq s (List.length ids))) = Some j ->
  exists k, j = (s + k)%nat /\ nth_error ids k = Some id.
Proof.
  induction ids as [|x ids IH]; intros s id j Hn H; [discriminate|]. inversion_clear Hn as [|? ? N1 N2]. cbn [List.length seq combine aget] in H.
  destruct (String.eqb_spec x id) as [-> |Hx].
  - injection H as <-. exists 0%nat. split; [lia|reflexivity].
  - destruct (IH (S s) id j N2 H) as (k & -> & Hk). exists (S k). split; [lia|exact Hk].
Qed.
Lemma combine_snoc' : forall (ids : list string) id s, combine (ids ++ [id]) (seq s (S (List.length ids))) = combine ids (seq s (List.length ids)) ++ [(id, (s + List.length ids)%nat)].
Proof.
  induction ids as [|x ids IH]; intros id s; [cbn; now rewrite Nat.add_0_r|]. cbn [List.length]. change (seq s (S (S (List.length ids)))) with (s :: seq (S s) (S (List.length ids))).
  change (seq s (S (List.length ids))) with (s :: seq (S s) (List.length ids)). cbn [app combine]. rewrite IH. do 4 f_equal. lia.
Qed.
Lemma combine_snoc : forall (ids : list string) id n, List.length ids = n -> combine (ids ++ [id]) (seq 0 (S n)) = combine ids (seq 0 n) ++ [(id, n)].
Proof. intros ids id n <-. apply combine_snoc'. Qed.
Lemma aset_snoc : forall (l : list (string * nat)) id n, aget String.eqb id l = None -> aset String.eqb id n l = l ++ [(id, n)].
Proof.
  induction l as [|[k x] l IH]; intros id n H; [reflexivity|]. cbn [aget aset] in *. destruct (String.eqb k id); [discriminate|]. cbn [app]. now rewrite IH.
Qed.
Lemma pget_entry : forall b im pl j x, BI b im pl -> nth_error pl j = Some x -> pget j im = e_part x.
Proof. intros b im pl j x H Hj. unfold pget. rewrite (bi_heap _ _ _ H). apply nth_error_nth. now apply map_nth_error. Qed.

Lemma existsb_str : forall s l, existsb (String.eqb s) l = false -> ~ In s l.
Proof. intros s l H Hin. rewrite <- not_true_iff_false in H. apply H. apply existsb_exists. exists s. split; [exact Hin|apply String.eqb_refl]. Qed.

Lemma score_part_ok : forall b im pl e b', BI b im pl -> SpecXmlScore.read_score_part e b = Some b' ->
  exists im' pl', handle e im = ROk im' /\ BI b' im' pl'.
Proof.
  intros b im pl e b' H Hr. unfold SpecXmlScore.read_score_part in Hr. destruct (String.eqb (tag e) "score-part") eqn:Et.
  - ob Hr sid Eid. ob Hr ins Ei. on Hr C. apply andb_prop in C. destruct C as [C1 C2]. apply negb_true_iff in C1, C2. apply existsb_str in C1, C2.
    assert (b' = Book (b_parts b ++ [(sid, ins)]) (b_done b) (b_sounds b)) as -> by congruence. clear Hr.
    destruct H as [B1 B2 B3 B4 B5 B6 B7]. rewrite B1, map_map in C1, C2. cbn [fst snd] in C1, C2.
    destruct (score_part_names e ins Ei) as (name & En & Hs).
    destruct e as [t a x cs]. cbn [tag attrs] in *. apply String.eqb_eq in Et. subst t.
    change (handle (Elem "score-part" a x cs) im) with (score_part_handler part_order (Elem "score-part" a x cs) im).
    unfold score_part_handler. cbn [attrs]. rewrite Eid, En. cbn [rmap rbind].
    set (pl' := pl ++ [Entry sid ins [] (set_names [name] new_part)]).
    assert (Ln : List.length (i_heap im) = List.length pl) by now rewrite B2, map_length.
    set (im1 := Imp (aset String.eqb sid (List.length (i_heap im)) (i_parts im)) (i_heap im ++ [set_names [name] new_part]) (i_cur im) (i_clock im)).
    assert (G : BI (Book (b_parts b ++ [(sid, ins)]) (b_done b) (b_sounds b)) im1 pl').
    { constructor; cbn [b_parts b_done b_sounds im1 i_heap i_parts].
      - unfold pl'. now rewrite map_app, B1.
      - unfold pl'. now rewrite map_app, B2.
      - unfold pl'. rewrite map_app, app_length, Ln, B3, Nat.add_1_r. cbn [List.length map e_id].
        rewrite aset_snoc by (apply combine_none; exact C1). symmetry. apply combine_snoc. apply map_length.
      - unfold pl'. rewrite map_app. cbn [map e_id]. apply NoDup_Add with (a := sid) (l := map e_id pl); [|now split].
        rewrite <- (app_nil_r (map e_id pl)) at 1. apply Add_app.
      - unfold pl'. rewrite map_app. cbn [map e_inst]. apply NoDup_Add with (a := ins) (l := map e_inst pl); [|now split].
        rewrite <- (app_nil_r (map e_inst pl)) at 1. apply Add_app.
      - unfold pl'. apply Forall_app. split; [exact B6|]. apply Forall_cons; [|constructor]. exists name. split; [exact Hs|]. now left.
      - unfold pl'. rewrite flat_map_app. cbn [flat_map map e_sounds]. rewrite !app_nil_r. exact B7. }
    assert (Nothing : forall ks, fold_left (rename_one sid (List.length (i_heap im))) ks im1 = im1).
    { induction ks as [|k ks IH]; [reflexivity|]. cbn [fold_left]. replace (rename_one sid (List.length (i_heap im)) im1 k) with im1; [exact IH|].
      unfold rename_one. destruct (aget String.eqb k (i_parts im1)) as [j|] eqn:Ej; [|reflexivity].
      destruct (String.eqb_spec k sid) as [-> |Hk]; [reflexivity|]. cbn [negb andb].
      rewrite (bi_ids _ _ _ G) in Ej. rewrite <- (map_length e_id pl') in Ej. apply combine_some in Ej; [|apply (bi_nodup _ _ _ G)]. destruct Ej as (j' & -> & Hj). cbn [plus].
      apply nth_error_map in Hj || idtac. rewrite nth_error_map in Hj. destruct (nth_error pl' j') as [y|] eqn:Ey; [|discriminate]. cbn in Hj. injection Hj as Hj.
      assert (Ez : nth_error pl' (List.length (i_heap im)) = Some (Entry sid ins [] (set_names [name] new_part))).
      { rewrite Ln. unfold pl'. rewrite nth_error_app2, Nat.sub_diag by lia. reflexivity. }
      assert (Sn : same_name (pget j' im1) (pget (List.length (i_heap im)) im1) = false).
      { rewrite (pget_entry _ _ _ _ _ G Ey), (pget_entry _ _ _ _ _ G Ez). cbn [e_part]. unfold same_name. destruct (list_eq_dec string_dec _ _) as [Eq|]; [exfalso|reflexivity].
        pose proof (bi_good _ _ _ G) as Hg. rewrite Forall_forall in Hg. destruct (good_names _ _ (Hg y (nth_error_In _ _ Ey))) as (ny & Y1 & Y2 & Y3).
        rewrite Y1 in Eq. cbn in Eq. injection Eq as ->. pose proof (stock_fun _ _ _ Y3 Hs) as Ei2.
        assert (j' = List.length (i_heap im)).
        { eapply NoDup_nth_error; [apply (bi_insts _ _ _ G)| |].
          - rewrite map_length. apply nth_error_Some. congruence.
          - rewrite !nth_error_map, Ey, Ez. cbn. congruence. }
        subst j'. rewrite Ez in Ey. injection Ey as <-. now apply Hk. }
      now rewrite Sn. }
    rewrite Nothing. exists (tick im1), pl'. split; [reflexivity|]. destruct G as [G1 G2 G3 G4 G5 G6 G7]. constructor; assumption.
  - on Hr C. assert (b' = b) as -> by congruence. exists im, pl. split; [|exact H]. apply no_facts. now destruct (facts e).
Qed.

Lemma part_top : forall b im pl e b', BI b im pl -> tag e = "part" ->
  (do id <- aget String.eqb "id" (attrs e);
    do i <- aget String.eqb id (b_parts b);
    do _ <- only (negb (existsb (String.eqb id) (b_done b)));
    do l <- read_part M e;
    Some (Book (b_parts b) (id :: b_done b) (b_sounds b ++ map (pair i) l))) = Some b' ->
  exists im' pl', handle e im = ROk im' /\ BI b' im' pl'.
Proof.
  intros b im pl e b' H Ht Hr. ob Hr sid Eid. ob Hr ins Ei. on Hr C. apply negb_true_iff, existsb_str in C. ob Hr l El.
  assert (b' = Book (b_parts b) (sid :: b_done b) (b_sounds b ++ map (pair ins) l)) as -> by congruence. clear Hr.
  pose proof H as [B1 B2 B3 B4 B5 B6 B7].
  assert (exists j x, nth_error pl j = Some x /\ e_id x = sid /\ e_inst x = ins) as (j & x & Hj & Hx1 & Hx2).
  { rewrite B1 in Ei. clear -Ei. induction pl as [|y pl IH]; [discriminate|]. cbn [map aget fst snd] in Ei. destruct (String.eqb_spec (e_id y) sid) as [E|E].
    - exists 0%nat, y. repeat split; [exact E|congruence].
    - destruct (IH Ei) as (j & x & A & B). exists (S j), x. now split. }
  assert (Lj : (j < List.length pl)%nat) by (apply nth_error_Some; congruence).
  rewrite Forall_forall in B6. destruct (B6 x (nth_error_In _ _ Hj)) as (name & Hs & [[Hp Hl]|[Hd _]]); [|exfalso; apply C; now rewrite <- Hx1].
  assert (Egt : aget String.eqb sid (i_parts im) = Some j).
  { rewrite B3, <- (map_length e_id pl). rewrite (combine_get (map e_id pl) 0 sid j B4); [reflexivity|]. rewrite nth_error_map, Hj. cbn. congruence. }
  destruct (part_whole M HM other part_order voice_order voice_perm [name] e j im l) as (p' & im' & rf & acc & ns & E & I1 & I2 & HPF & Es).
  { split; [reflexivity|]. cbn [i_heap]. now rewrite B2, map_length. }
  { exact Ht. }
  { exists sid. now split. }
  { now rewrite (pget_entry _ _ _ _ _ H Hj). }
  { exact El. }
  set (pl' := upd_nth j (Entry sid ins l p') pl).
  exists (pset j p' im'), pl'. split; [exact E|].
  assert (Mid : map e_id pl' = map e_id pl).
  { unfold pl'. rewrite upd_nth_map. apply upd_nth_self. rewrite nth_error_map, Hj. cbn. congruence. }
  assert (Min : map e_inst pl' = map e_inst pl).
  { unfold pl'. rewrite upd_nth_map. apply upd_nth_self. rewrite nth_error_map, Hj. cbn. congruence. }
  constructor; cbn [b_parts b_done b_sounds pset i_heap i_parts].
  - rewrite B1. unfold pl'. rewrite upd_nth_map. cbn [e_id e_inst]. symmetry. apply upd_nth_self. rewrite nth_error_map, Hj. cbn. congruence.
  - rewrite I2, B2. unfold pl'. now rewrite upd_nth_map.
  - rewrite I1, B3, Mid. unfold pl'. now rewrite upd_nth_length.
  - now rewrite Mid.
  - now rewrite Min.
  - rewrite Forall_forall. intros y Hy. apply in_upd_nth in Hy. destruct Hy as [-> |Hy].
    + exists name. cbn [e_inst e_id e_sounds e_part]. split; [now rewrite <- Hx2|]. right. split; [now left|]. exists rf, acc, ns. now split.
    + destruct (B6 y Hy) as (ny & Y1 & Y2). exists ny. split; [exact Y1|]. destruct Y2 as [Y2|[Y2 Y3]]; [now left|]. right. split; [now right|exact Y3].
  - eapply Permutation_trans; [apply Permutation_app_tail; exact B7|]. unfold pl'. clear -Hj Hl Hx2 Lj. revert j Hj Lj. induction pl as [|y pl IH]; intros j Hj Lj; [now destruct j|].
    destruct j as [|j]; cbn in Hj.
    + injection Hj as ->. cbn [upd_nth flat_map e_inst e_sounds]. rewrite Hl. cbn [map app]. apply Permutation_app_comm.
    + cbn [upd_nth flat_map]. rewrite <- app_assoc. apply Permutation_app_head. apply IH; [exact Hj|]. cbn in Lj. lia.
Qed.

Lemma none_fold : forall A B (f : A -> B -> option B) l, fold_left (fun o c => do x <- o; f c x) l None = None.
Proof. induction l as [|c l IH]; [reflexivity|exact IH]. Qed.

Lemma part_list_ok : forall cs b im pl b', BI b im pl ->
  fold_left (fun o c => do x <- o; SpecXmlScore.read_score_part c x) cs (Some b) = Some b' ->
  exists im' pl', handles cs im = ROk im' /\ BI b' im' pl'.
Proof.
  induction cs as [|c cs IH]; intros b im pl b' H Hr; cbn [fold_left obind ProofXmlWalk.handles] in *.
  - injection Hr as <-. eauto.
  - destruct (SpecXmlScore.read_score_part c b) as [b1|] eqn:E1; [|rewrite none_fold in Hr; discriminate].
    destruct (score_part_ok b im pl c b1 H E1) as (im1 & pl1 & E & H1). rewrite E. cbn [rbind]. eapply IH; eassumption.
Qed.
Lemma top_ok : forall e b im pl b', BI b im pl -> read_top M e b = Some b' -> exists im' pl', handle e im = ROk im' /\ BI b' im' pl'.
Proof.
  intros e b im pl b' H Hr. unfold read_top in Hr. destruct (String.eqb (tag e) "part-list") eqn:E1.
  - destruct e as [t a x cs]. cbn [tag children] in *. apply String.eqb_eq in E1. subst t. rewrite handle_rest by reflexivity. eapply part_list_ok; eassumption.
  - destruct (String.eqb (tag e) "part") eqn:E2.
    + apply String.eqb_eq in E2. eapply part_top; eassumption.
    + on Hr C. assert (b' = b) as -> by congruence. exists im, pl. split; [|exact H]. apply no_facts. now destruct (facts e).
Qed.
Lemma tops_ok : forall cs b im pl b', BI b im pl -> fold_left (fun o c => do x <- o; read_top M c x) cs (Some b) = Some b' ->
  exists im' pl', handles cs im = ROk im' /\ BI b' im' pl'.
Proof.
  induction cs as [|c cs IH]; intros b im pl b' H Hr; cbn [fold_left obind ProofXmlWalk.handles] in *.
  - injection Hr as <-. eauto.
  - destruct (read_top M c b) as [b1|] eqn:E1; [|rewrite none_fold in Hr; discriminate].
    destruct (top_ok c b im pl b1 H E1) as (im1 & pl1 & E & H1). rewrite E. cbn [rbind]. eapply IH; eassumption.
Qed.

(* ---------------- the end ---------------- *)
Lemma finish_one : forall done x, good done x ->
  exists p' l, collapse false (e_part x) = ROk p' /\ part_plays M (XPart (p_names p') (p_alias p') (p_steps p')) (e_inst x) l /\ Permutation l (e_sounds x).
Proof.
  intros done x (name & (i & S1 & S2 & S3) & [[-> ->]|(_ & rf & acc & ns & HPF & Es)]).
  - exists (set_names [name] new_part), []. split; [reflexivity|]. split; [|constructor].
    exists name, i, [], ks_empty, 0, []. cbn [x_names x_alias x_steps set_names p_names p_alias p_steps new_part]. repeat apply conj; try assumption; try reflexivity; [constructor|].
    left. now split.
  - destruct (collapse_ok M [name] rf acc (e_part x) ns name i (e_inst x) HPF eq_refl S1 S2 S3) as (p' & l & C1 & C2 & C3). exists p', l. split; [exact C1|]. split; [exact C2|]. now rewrite <- Es.
Qed.

Lemma finish_all : forall b im pl, BI b im pl ->
  exists ps ils, finished_parts im = ROk ps /\ Forall2 (fun p il => part_plays M p (fst il) (snd il)) ps ils /\ NoDup (map fst ils) /\ List.length ps = List.length pl /\
    Permutation (flat_map (fun il => map (pair (fst il)) (snd il)) ils) (b_sounds b).
Proof.
  intros b im pl H. pose proof H as [B1 B2 B3 B4 B5 B6 B7]. unfold finished_parts.
  set (srt := sort_by id_before (i_parts im)).
  assert (Ps : Permutation (i_parts im) srt) by apply sort_perm.
  set (d := Entry "" "" [] (@new_part XQ)).
  assert (G : forall s : list (string * nat), (forall x, In x s -> exists y, nth_error pl (snd x) = Some y) ->
    exists ps ils, rmapl (fun '(_, i) => rmap (fun p => XPart (p_names p) (p_alias p) (p_steps p)) (collapse false (pget i im))) s = ROk ps /\
      Forall2 (fun p il => part_plays M p (fst il) (snd il)) ps ils /\ map fst ils = map (fun x : string * nat => e_inst (nth (snd x) pl d)) s /\ List.length ps = List.length s /\
      Permutation (flat_map (fun il => map (pair (fst il)) (snd il)) ils) (flat_map (fun x => map (pair (e_inst x)) (e_sounds x)) (map (fun x : string * nat => nth (snd x) pl d) s))).
  { induction s as [|[id j] s IH]; intros Hs.
    - exists [], []. repeat apply conj; try reflexivity; constructor.
    - destruct IH as (ps & ils & E & F & N & L & P); [intros x Hx; apply Hs; now right|].
      destruct (Hs (id, j) (or_introl eq_refl)) as (y & Hy). cbn [snd] in Hy.
      assert (Hn : nth j pl d = y) by now apply nth_error_nth.
      rewrite Forall_forall in B6. destruct (finish_one _ _ (B6 y (nth_error_In _ _ Hy))) as (p' & l & C1 & C2 & C3).
      exists (XPart (p_names p') (p_alias p') (p_steps p') :: ps), ((e_inst y, l) :: ils). cbn [rmapl]. rewrite (pget_entry _ _ _ _ _ H Hy), C1. cbn [rmap rbind]. rewrite E. cbn [rbind].
      split; [reflexivity|]. split; [now constructor|]. cbn [map fst snd List.length flat_map]. rewrite Hn, N, L. split; [reflexivity|]. split; [reflexivity|].
      apply Permutation_app; [now apply Permutation_map|exact P]. }
  assert (Em : map (fun x : string * nat => nth (snd x) pl d) (i_parts im) = pl).
  { rewrite B3. rewrite <- (map_map (@snd string nat) (fun j => nth j pl d)).
    replace (map snd (combine (map e_id pl) (seq 0 (List.length pl)))) with (seq 0 (List.length pl)).
    - clear. apply nth_ext with (d := d) (d' := d); [now rewrite map_length, seq_length|]. intros n Hn. rewrite map_length, seq_length in Hn.
      rewrite nth_indep with (d' := nth 0%nat pl d) by now rewrite map_length, seq_length. rewrite (map_nth (fun j => nth j pl d)). now rewrite seq_nth.
    - clear. rewrite <- (map_length e_id pl). generalize (map e_id pl) as ids, 0%nat as s. induction ids as [|x ids IH]; intros s; [reflexivity|]. cbn [List.length seq combine map snd]. f_equal. apply IH. }
  destruct (G srt) as (ps & ils & E & F & N & L & P).
  { intros [id j] Hx. cbn [snd]. apply (Permutation_in _ (Permutation_sym Ps)) in Hx. rewrite B3 in Hx. apply in_combine_r, in_seq in Hx.
    destruct (nth_error pl j) as [y|] eqn:Ey; [now exists y|]. apply nth_error_None in Ey. lia. }
  exists ps, ils. split; [exact E|]. split; [exact F|].
  assert (Pp : Permutation (map (fun x : string * nat => nth (snd x) pl d) srt) pl) by (pose proof (Permutation_map (fun x : string * nat => nth (snd x) pl d) (Permutation_sym Ps)) as Q; rewrite Em in Q; exact Q).
  split; [|split].
  - rewrite N, <- (map_map (fun x : string * nat => nth (snd x) pl d) e_inst). eapply Permutation_NoDup; [apply Permutation_map, Permutation_sym; exact Pp|exact B5].
  - rewrite L, <- (Permutation_length Ps), B3, combine_length, map_length, seq_length. apply Nat.min_id.
  - eapply Permutation_trans; [exact P|]. eapply Permutation_trans; [|apply Permutation_sym; exact B7]. now apply Permutation_flat_map.
Qed.

Theorem import_sounds : forall feq doc l, (forall x y, feq x y = true -> x = y) -> read_score M doc = Some l ->
  exists us, import_music_xml other part_order voice_order feq doc = ROk us /\
    let r := exec (text_of us) new_score in
    snd r = Ok /\ Permutation (map (as_heard (fst r)) (events (fst r))) (map (in_ms M) l).
Proof.
  intros feq doc l Hf Hr. unfold read_score in Hr. ob Hr e Ee. ob Hr b Eb. on Hr C. assert (l = b_sounds b) as -> by congruence. clear Hr.
  apply Nat.leb_le in C. unfold import_music_xml, import_parts. rewrite Ee. apply find_some in Ee. destruct Ee as [_ Et].
  destruct e as [t a x cs]. cbn [tag children] in *. apply String.eqb_eq in Et. subst t. rewrite handle_rest by reflexivity.
  destruct (tops_ok cs (Book [] [] []) new_importer [] b) as (im & pl & E & H); [|exact Eb|].
  { constructor; try reflexivity; constructor. }
  rewrite E. cbn [rbind]. destruct (finish_all b im pl H) as (ps & ils & E2 & F & N & L & P). rewrite E2. cbn [rmap rbind].
  eexists. split; [reflexivity|]. destruct H as [B1 B2 B3 B4 B5 B6 B7]. rewrite B1, map_length in C.
  destruct (played M HM feq ps ils Hf F N) as [R1 R2]; [lia|]. split; [exact R1|]. rewrite R2. now apply Permutation_map.
Qed.
End Doc.
