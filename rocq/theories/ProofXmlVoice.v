(** The importer's work on the current voice of a part (C57). *)
From Coq Require Import ZArith QArith Qcanon Ascii String List Bool Lia Arith.
From Verif Require Import Base Num ModelPitch ModelDuration ModelInstruments ModelTypes ModelLisp ModelScore
  ModelImporter ModelMusicXml SpecImporter SpecMusicXml ProofHeap ProofPitch SpecXmlScore ProofXmlDur ProofXmlPlay ProofXmlRead.
Import ListNotations.
Local Open Scope string_scope.
Local Open Scope list_scope.
Local Open Scope Z_scope.

Section Voice.
Variable M : Z.
Hypothesis HM : 1 <= M <= 24.
Variable K : keysig.
Variable T : Z.
Notation tq := (tq M).
Notation len := (len M).
Notation play1 := (play1 M K T).
Notation play := (play M K T).
Notation members := (members M K T).
Notation xpart := (@xpart XQ).
Notation voice := (@voice XQ).
Notation update := (@update XQ).

(** Voice [c] and the beats of the part replaced. *)
Definition put (c : nat) (v : voice) (b : @num XQ) (p : xpart) : xpart :=
  XP (p_names p) (p_div p) b (p_steps p) (upd_nth c v (p_heap p)) (p_voices p) (p_cur p) (p_unpitched p) (p_alias p).
Lemma upd_twice : forall A (l : list A) i x y, upd_nth i y (upd_nth i x l) = upd_nth i y l.
Proof. induction l as [|a l IH]; intros [|i] x y; try reflexivity. cbn. now rewrite IH. Qed.
Lemma put_put : forall c v b v' b' p, put c v b (put c v' b' p) = put c v b p.
Proof. intros. unfold put. cbn. now rewrite upd_twice. Qed.
Lemma put_same : forall c p, put c (vget c p) (p_beats p) p = p.
Proof. intros c []. unfold put, vget. cbn. now rewrite upd_nth_nth. Qed.
Lemma vget_put : forall c v b p, (c < List.length (p_heap p))%nat -> vget c (put c v b p) = v.
Proof. intros. unfold vget. cbn. now apply nth_upd_same. Qed.
Lemma vget_put_other : forall c d v b p, c <> d -> vget d (put c v b p) = vget d p.
Proof. intros. unfold vget. cbn. now apply nth_upd_other. Qed.

(** Music of a voice up to [t]. *)
Definition ups (us : list update) (b : @num XQ) (v : voice) : voice := Voice us b (v_oct v) (v_slurs v) (v_sec v) (v_end v).

Lemma play_total : forall us o t e, play us 4 0 o t e -> round_close (nadd n0 (get_beats (USeq us))) = tq t.
Proof.
  intros us o t e H. rewrite (play_beats M HM K T _ _ _ _ _ _ H), (tq_0 M), (tq_add M HM), tq_round by exact HM. f_equal. lia.
Qed.

Lemma recount_ok : forall p c o t e, p_cur p = Some c -> play (v_ups (vget c p)) 4 0 o t e ->
  recount p = ROk (put c (ups (v_ups (vget c p)) (tq t) (vget c p)) (tq t) p).
Proof.
  intros p c o t e Hc H. unfold recount, cur_voice. rewrite Hc. cbn [rbind]. rewrite (play_total _ _ _ _ H).
  unfold set_voice. cbn [p_cur set_beats]. rewrite Hc. reflexivity.
Qed.

Lemma modify_ok : forall f ni p c es o t e, p_cur p = Some c -> (c < List.length (p_heap p))%nat ->
  modify_path f ni (USeq (v_ups (vget c p))) = USeq es -> play es 4 0 o t e ->
  modify_at f ni p = ROk (put c (ups es (tq t) (vget c p)) (tq t) p).
Proof.
  intros f ni p c es o t e Hc Lc Hm H. unfold modify_at, cur_voice. rewrite Hc. cbn [rbind]. rewrite Hm.
  unfold set_voice. rewrite Hc. set (p1 := vset c _ p).
  assert (E : vget c p1 = Voice es (v_beats (vget c p)) (v_oct (vget c p)) (v_slurs (vget c p)) (v_sec (vget c p)) (v_end (vget c p))).
  { unfold p1, vget, vset. cbn. now apply nth_upd_same. }
  rewrite (recount_ok p1 c o t e); [|exact Hc|now rewrite E].
  rewrite E. unfold p1, put, vset, ups. cbn. now rewrite upd_twice.
Qed.

Lemma import_ok : forall (v : voice) o p e, play (v_ups v) 4 0 o p e -> import_into v = ROk (USeq (v_ups v), []).
Proof.
  intros v o p e H. unfold import_into.
  assert (G : import_here (USeq (v_ups v)) = true).
  { unfold import_here. cbn [nested]. destruct (rev (v_ups v)) as [|x r] eqn:E; [reflexivity|].
    assert (Ev : v_ups v = rev r ++ [x]) by (rewrite <- (rev_involutive (v_ups v)), E; reflexivity).
    rewrite Ev in H. apply play_app_inv in H. destruct H as (o1 & p1 & e1 & e2 & _ & _ & H). apply play_one_inv, play1_flat in H. now rewrite H. }
  cbn [find_in]. now rewrite G.
Qed.

Lemma append_ok : forall us p c o0 t0 e0 o t e, p_cur p = Some c -> (c < List.length (p_heap p))%nat ->
  play (v_ups (vget c p)) 4 0 o0 t0 e0 -> play (v_ups (vget c p) ++ us) 4 0 o t e ->
  append_all us p = ROk (put c (ups (v_ups (vget c p) ++ us) (tq t) (vget c p)) (tq t) p).
Proof.
  intros us p c o0 t0 e0 o t e Hc Lc H0 H. unfold append_all, cur_voice. rewrite Hc. cbn [rbind]. rewrite (import_ok _ _ _ _ H0). cbn [rbind snd].
  eapply modify_ok; try eassumption. reflexivity.
Qed.
Lemma set_all_ok : forall us p c o0 t0 e0 o t e, p_cur p = Some c -> (c < List.length (p_heap p))%nat ->
  play (v_ups (vget c p)) 4 0 o0 t0 e0 -> play us 4 0 o t e ->
  set_all us p = ROk (put c (ups us (tq t) (vget c p)) (tq t) p).
Proof.
  intros us p c o0 t0 e0 o t e Hc Lc H0 H. unfold set_all, cur_voice. rewrite Hc. cbn [rbind]. rewrite (import_ok _ _ _ _ H0). cbn [rbind snd].
  eapply modify_ok; try eassumption. reflexivity.
Qed.
Lemma import_list_ok : forall p c o t e, p_cur p = Some c -> play (v_ups (vget c p)) 4 0 o t e -> import_list p = ROk (v_ups (vget c p)).
Proof.
  intros p c o t e Hc H. unfold import_list, cur_voice. rewrite Hc. cbn [rbind]. rewrite (import_ok _ _ _ _ H). reflexivity.
Qed.

(* ---------------- rests ---------------- *)
Lemma pad_ok : forall p c t vb b e, p_cur p = Some c -> (c < List.length (p_heap p))%nat ->
  play (v_ups (vget c p)) 4 0 (v_oct (vget c p)) t e -> v_beats (vget c p) = tq vb -> p_beats p = tq b ->
  (vb = t \/ t = b /\ b <= vb) -> b <= 40000 * M ->
  exists us vb', pad_to_present p = ROk (put c (ups us (tq vb') (vget c p)) (tq b) p) /\
    play us 4 0 (v_oct (vget c p)) (Z.max t b) e /\ (vb' = Z.max t b \/ Z.max t b = b /\ b <= vb') /\
    (t < b -> us <> []) /\ (b <= t -> us = v_ups (vget c p)).
Proof.
  intros p c t vb b e Hc Lc Hp Hv Hb Hvb Rb. unfold pad_to_present, cur_voice. rewrite Hc. cbn [rbind]. rewrite Hv, Hb, (tq_sub M HM).
  rewrite (tq_0 M), !(tq_lt M HM).
  pose proof (play_pos M K T _ _ _ _ _ _ Hp) as P0.
  assert (Keep : b <= vb -> b <= t -> exists us vb', ROk p = ROk (put c (ups us (tq vb') (vget c p)) (tq b) p) /\
    play us 4 0 (v_oct (vget c p)) (Z.max t b) e /\ (vb' = Z.max t b \/ Z.max t b = b /\ b <= vb') /\
    (t < b -> us <> []) /\ (b <= t -> us = v_ups (vget c p))).
  { intros H1 H2. exists (v_ups (vget c p)), vb. split; [|split; [|split; [|split]]].
    - f_equal. rewrite <- Hv, <- Hb. replace (ups (v_ups (vget c p)) (v_beats (vget c p)) (vget c p)) with (vget c p); [now rewrite put_same|].
      now destruct (vget c p).
    - rewrite Z.max_l by lia. exact Hp.
    - lia.
    - lia.
    - reflexivity. }
  destruct (Z.ltb_spec (b - vb) 0) as [L|L].
  { apply Keep; lia. }
  destruct (Z.ltb_spec 0 (b - vb)) as [L1|L1]; [|apply Keep; lia].
  assert (vb = t) by lia. subst vb.
  destruct (pad_len M HM (b - t)) as (du & Hi & Hl); [lia|]. rewrite Hi. cbn [rbind].
  assert (Hp' : play (v_ups (vget c p) ++ [UPrim (Rest du)]) 4 0 (v_oct (vget c p)) b e).
  { rewrite <- (app_nil_r e). replace b with (t + (b - t)) by lia. eapply play_app; [exact Hp|]. apply play_one. constructor. exact Hl. }
  rewrite (append_ok _ _ _ _ _ _ _ _ _ Hc Lc Hp Hp'). cbn [rbind]. unfold cur_voice. cbn [p_cur put]. rewrite Hc. cbn [rbind].
  set (v1 := ups _ _ _). change (XP _ _ _ _ _ _ _ _ _) with (put c v1 (tq b) p). rewrite (vget_put c v1) by exact Lc.
  exists (v_ups (vget c p) ++ [UPrim (Rest du)]), (b + (b - t)). split; [|split; [|split; [|split]]].
  - f_equal. rewrite <- (tq_add M HM b (b - t)). unfold set_voice. cbn [p_cur put]. rewrite Hc. unfold v1, put, vset, ups. cbn. now rewrite upd_twice.
  - now rewrite Z.max_r by lia.
  - lia.
  - intros _. now destruct (v_ups (vget c p)).
  - lia.
Qed.

(* ---------------- barlines ---------------- *)
Fixpoint try_last (l : list update) : option (list update) :=
  match l with
  | [] => None
  | [x] => option_map (fun y => [y]) (try_barline x)
  | x :: t => option_map (cons x) (try_last t)
  end.
Lemma try_chord : forall es : list update, try_barline (UChord es) = option_map UChord (try_last es).
Proof. reflexivity. Qed.
Lemma members_bar : forall t es o o' ks es', members t es o o' ks -> try_last es = Some es' -> members t es' o o' ks.
Proof.
  intros t es o o' ks es' H. revert es'. induction H as [o|l a d sl es o o' k ks Hd Hk H IH|u es o o1 o' ks Hu H IH]; intros es' E.
  - discriminate.
  - destruct es as [|y es].
    + cbn in E. destruct sl; [discriminate|]. injection E as <-. inversion H; subst. constructor; [now apply len_bar|exact Hk|constructor].
    + change (option_map (cons (UPrim (Note (PLetter l a) d sl))) (try_last (y :: es)) = Some es') in E.
      destruct (try_last (y :: es)) as [r|] eqn:Er; [|discriminate]. injection E as <-. constructor; auto.
  - destruct es as [|y es]; [discriminate|].
    change (option_map (cons (UPrim (Attr u))) (try_last (y :: es)) = Some es') in E.
    destruct (try_last (y :: es)) as [r|] eqn:Er; [|discriminate]. injection E as <-. econstructor; [exact Hu|]. now apply IH.
Qed.
Lemma play1_bar : forall x o p o' p' e y, play1 x o p o' p' e -> try_barline x = Some y -> play1 y o p o' p' e.
Proof.
  intros x o p o' p' e y H E. destruct H as [l a d sl t o p k Hd Hk|d t o p Hd|u o p o' Hu|o p|l a d sl es t o p o' ks Ht Hm].
  - cbn in E. destruct sl; [discriminate|]. injection E as <-. constructor; [now apply len_bar|exact Hk].
  - cbn in E. injection E as <-. constructor. now apply len_bar.
  - discriminate.
  - discriminate.
  - rewrite try_chord in E. destruct (try_last (UPrim (Note (PLetter l a) d sl) :: es)) as [r|] eqn:Er; [|discriminate]. injection E as <-.
    pose proof (members_bar _ _ _ _ _ _ Hm Er) as Hr. destruct es as [|z es].
    + cbn in Er. destruct sl; [discriminate|]. injection Er as <-. constructor; [exact Ht|exact Hr].
    + change (option_map (cons (UPrim (Note (PLetter l a) d sl))) (try_last (z :: es)) = Some r) in Er.
      destruct (try_last (z :: es)) as [r'|]; [|discriminate]. injection Er as <-. constructor; [exact Ht|exact Hr].
Qed.
Lemma barline_ok : forall p c t e, p_cur p = Some c -> (c < List.length (p_heap p))%nat ->
  play (v_ups (vget c p)) 4 0 (v_oct (vget c p)) t e ->
  exists us, add_barline p = ROk (put c (ups us (tq t) (vget c p)) (tq t) p) /\ play us 4 0 (v_oct (vget c p)) t e /\ us <> [].
Proof.
  intros p c t e Hc Lc Hp. unfold add_barline. rewrite (import_list_ok _ _ _ _ _ Hc Hp). cbn [rbind].
  assert (Ha : play (v_ups (vget c p) ++ [UBarline]) 4 0 (v_oct (vget c p)) t e).
  { rewrite <- (app_nil_r e). eapply play_app; [exact Hp|]. apply play_one. constructor. }
  assert (Na : v_ups (vget c p) ++ [UBarline] <> []) by now destruct (v_ups (vget c p)).
  destruct (rev (v_ups (vget c p))) as [|x r] eqn:E.
  - eexists. split; [eapply append_ok; eassumption|]. now split.
  - assert (Ev : v_ups (vget c p) = rev r ++ [x]) by (rewrite <- (rev_involutive (v_ups (vget c p))), E; reflexivity).
    destruct (try_barline x) as [y|] eqn:Ey.
    + assert (Hs : play (rev r ++ [y]) 4 0 (v_oct (vget c p)) t e).
      { rewrite Ev in Hp. apply play_app_inv in Hp. destruct Hp as (o1 & p1 & e1 & e2 & -> & H1 & H2).
        eapply play_app; [exact H1|]. apply play_one. eapply play1_bar; [|exact Ey]. now apply play_one_inv. }
      eexists. split; [eapply set_all_ok; eassumption|]. split; [exact Hs|]. now destruct (rev r).
    + eexists. split; [eapply append_ok; eassumption|]. now split.
Qed.

(** The time a voice reaches is determined by its music. *)
Lemma play_time : forall us o t e o' t' e', play us 4 0 o t e -> play us 4 0 o' t' e' -> t = t'.
Proof.
  intros us o t e o' t' e' H1 H2. pose proof (play_beats M HM K T _ _ _ _ _ _ H1) as E1. rewrite (play_beats M HM K T _ _ _ _ _ _ H2) in E1.
  apply (tq_inj M HM) in E1. lia.
Qed.

(* ---------------- octaves ---------------- *)
Lemma play_ups : forall k o p, 0 <= o -> o + Z.of_nat k <= 100 -> play (repeat (UPrim (Attr POctUp)) k) o p (o + Z.of_nat k) p [].
Proof.
  induction k as [|k IH]; intros o p H1 H2; cbn [repeat].
  - rewrite Z.add_0_r. constructor.
  - change (@nil sound) with (@nil sound ++ []). econstructor; [constructor; constructor|].
    rewrite ProofPitch.wrap32_id by (unfold in_int32, min_int32, max_int32; lia). replace (o + Z.of_nat (S k)) with (o + 1 + Z.of_nat k) by lia. apply IH; lia.
Qed.
Lemma play_downs : forall k o p, Z.of_nat k <= o -> o <= 100 -> play (repeat (UPrim (Attr POctDown)) k) o p (o - Z.of_nat k) p [].
Proof.
  induction k as [|k IH]; intros o p H1 H2; cbn [repeat].
  - rewrite Z.sub_0_r. constructor.
  - change (@nil sound) with (@nil sound ++ []). econstructor; [constructor; constructor|].
    rewrite ProofPitch.wrap32_id by (unfold in_int32, min_int32, max_int32; lia). replace (o - Z.of_nat (S k)) with (o - 1 - Z.of_nat k) by lia. apply IH; lia.
Qed.
Lemma play_octave : forall v oct p, 0 <= v_oct v <= 9 -> 0 <= oct <= 9 -> play (octave_updates v oct) (v_oct v) p oct p [].
Proof.
  intros v oct p H1 H2. unfold octave_updates. destruct (Z.eqb_spec oct (v_oct v)) as [-> |Hn]; [constructor|].
  destruct (v_ups v); [apply play_one; constructor; constructor|]. unfold octave_moves. destruct (Z.ltb_spec oct (v_oct v)).
  - replace oct with (v_oct v - Z.of_nat (Z.to_nat (v_oct v - oct))) at 2 by lia. apply play_downs; lia.
  - replace oct with (v_oct v + Z.of_nat (Z.to_nat (oct - v_oct v))) at 2 by lia. apply play_ups; lia.
Qed.
(** The same among the members of a chord. *)
Lemma attrs_members : forall us o p o' p' t, play us o p o' p' [] -> forallb (fun u => match u with UPrim (Attr _) => true | _ => false end) us = true ->
  members t us o o' [].
Proof.
  intros us o p o' p' t H. remember [] as e eqn:He. induction H as [o p|x us o p o1 p1 o' p' e es H1 H2 IH]; intros Hf; [constructor|].
  cbn [forallb] in Hf. apply andb_prop in Hf. destruct Hf as [Hx Hf]. apply app_eq_nil in He. destruct He as [-> ->].
  destruct x as [[]| | | | | | | | | | | | | | |]; try discriminate. inversion H1; subst. econstructor; [eassumption|]. now apply IH.
Qed.
Lemma octave_attrs : forall (v : voice) oct, forallb (fun u : update => match u with UPrim (Attr _) => true | _ => false end) (octave_updates v oct) = true.
Proof.
  intros v oct. unfold octave_updates. destruct (oct =? v_oct v); [reflexivity|]. destruct (v_ups v); [reflexivity|].
  unfold octave_moves. destruct (oct <? v_oct v).
  - induction (Z.to_nat (v_oct v - oct)); [reflexivity|assumption].
  - induction (Z.to_nat (oct - v_oct v)); [reflexivity|assumption].
Qed.

(* ---------------- chords ---------------- *)
Lemma find_end : forall f (us : list update) x, f (USeq (us ++ [x])) = false -> f x = true ->
  find_in f (USeq (us ++ [x])) = Some (x, [List.length us]).
Proof.
  intros f us x H0 Hx.
  assert (E : find_in f (USeq (us ++ [x])) = find_last f (us ++ [x]) 0) by (cbn [find_in]; rewrite H0; generalize 0%nat; generalize (us ++ [x]) as L; induction L as [|y L IH]; intros i; [reflexivity|]; cbn [find_last]; rewrite IH; reflexivity).
  rewrite E. clear E H0.
  assert (G : forall i, find_last f (us ++ [x]) i = Some (x, [(i + List.length us)%nat])).
  { induction us as [|y us IH]; intros i; cbn [app find_last].
    - replace (find_in f x) with (Some (x, @nil nat)); [now rewrite Nat.add_0_r|].
      destruct x; cbn [find_in]; rewrite Hx; reflexivity.
    - rewrite IH. cbn [List.length]. do 3 f_equal. lia. }
  apply G.
Qed.
Lemma upd_end : forall A (us : list A) x y, upd_nth (List.length us) y (us ++ [x]) = us ++ [y].
Proof. induction us as [|z us IH]; intros x y; [reflexivity|]. cbn. now rewrite IH. Qed.
Lemma nth_end : forall A (us : list A) x, nth_error (us ++ [x]) (List.length us) = Some x.
Proof. induction us as [|z us IH]; intros x; [reflexivity|]. cbn. apply IH. Qed.

(** The last thing in a voice, if it is a note or chord. *)
Definition ends_with (on t : Z) (v : voice) (e : list sound) : Prop :=
  exists us x o1 e1 e2, v_ups v = us ++ [x] /\ play us 4 0 o1 on e1 /\ play1 x o1 on (v_oct v) (on + t) e2 /\ e = e1 ++ e2 /\ 1 <= t <= 40000 * M /\
    (match x return Prop with UPrim (Note _ d _) => len d t | UChord _ => True | _ => False end).

Lemma commit_ok : forall oct change p c, p_cur p = Some c ->
  commit_note oct change p = ROk (put c (Voice (v_ups (vget c p)) (v_beats (vget c p)) oct (v_slurs (vget c p) + change) (v_sec (vget c p)) (v_end (vget c p))) (p_beats p) p).
Proof. intros. unfold commit_note, cur_voice. rewrite H. cbn [rbind]. unfold set_voice. rewrite H. reflexivity. Qed.

Lemma chord_ok : forall p c on t e us oct k change l a d sl, p_cur p = Some c -> (c < List.length (p_heap p))%nat ->
  ends_with on t (vget c p) e -> 0 <= v_oct (vget c p) <= 9 -> 0 <= oct <= 9 ->
  us = octave_updates (vget c p) oct ++ [UPrim (Note (PLetter l a) d sl)] -> len d t -> sounds_at K T (PLetter l a) oct k ->
  exists v', chord_note us oct change p = ROk (put c v' (tq (on + t)) p) /\ v_oct v' = oct /\ v_beats v' = tq (on + t) /\ ends_with on t v' (e ++ [Sound k on t]).
Proof.
  intros p c on t e us oct k change l a d sl Hc Lc (us0 & x & o1 & e1 & e2 & Ev & H1 & H2 & -> & Ht & Hx) Ho Ho' -> Hd Hk.
  set (v := vget c p) in *. set (us := octave_updates v oct ++ [UPrim (Note (PLetter l a) d sl)]).
  assert (Hus : members t us (v_oct v) oct [k]).
  { change [k] with ([] ++ [k]). eapply members_app.
    - eapply attrs_members with (p := 0) (p' := 0); [now apply play_octave|apply octave_attrs].
    - constructor; [exact Hd|exact Hk|constructor]. }
  assert (Hv : play (v_ups v) 4 0 (v_oct v) (on + t) (e1 ++ e2)).
  { rewrite Ev. eapply play_app; [exact H1|]. now apply play_one. }
  unfold chord_note, cur_voice. rewrite Hc. cbn [rbind]. fold v.
  assert (Hf : find_in with_duration (USeq (v_ups v)) = Some (x, [List.length us0])).
  { rewrite Ev. apply find_end; [reflexivity|]. destruct x as [[]| | | | | | | | | | | | | | |]; try contradiction; reflexivity. }
  rewrite Hf.
  set (v1 := Voice (v_ups v) (tq (on + t)) oct (v_slurs v + change) (v_sec v) (v_end v)).
  set (v0 := ups (v_ups v) (tq (on + t)) v).
  assert (Er : recount p = ROk (put c v0 (tq (on + t)) p)) by (eapply recount_ok; [exact Hc|exact Hv]).
  assert (L0 : (c < List.length (p_heap (put c v0 (tq (on + t)) p)))%nat) by (cbn; now rewrite upd_nth_length).
  assert (Ec : commit_note oct change (put c v0 (tq (on + t)) p) = ROk (put c v1 (tq (on + t)) p)).
  { rewrite (commit_ok _ _ _ c) by exact Hc. rewrite (vget_put c v0) by exact Lc. rewrite put_put. reflexivity. }
  assert (L1 : (c < List.length (p_heap (put c v1 (tq (on + t)) p)))%nat) by (cbn; now rewrite upd_nth_length).
  assert (V1 : vget c (put c v1 (tq (on + t)) p) = v1) by now apply vget_put.
  assert (Done : forall y es, play1 (UChord (y :: es)) o1 on oct (on + t) (e2 ++ [Sound k on t]) ->
    forall v', v' = ups (us0 ++ [UChord (y :: es)]) (tq (on + t)) v1 ->
      v_oct v' = oct /\ v_beats v' = tq (on + t) /\ ends_with on t v' ((e1 ++ e2) ++ [Sound k on t])).
  { intros y es Hp v' ->. split; [reflexivity|]. split; [reflexivity|].
    exists us0, (UChord (y :: es)), o1, e1, (e2 ++ [Sound k on t]). repeat apply conj; try assumption; try reflexivity; try lia. now rewrite app_assoc. }
  destruct x as [[pi d0 sl0| | |]| | | |es| | | | | | | | | | |]; try contradiction.
  - (* a single note *)
    rewrite Er. cbn [rbind]. rewrite (import_list_ok _ c (v_oct v) (on + t) (e1 ++ e2)); [|exact Hc|rewrite (vget_put c v0) by exact Lc; exact Hv].
    cbn [rbind]. rewrite (vget_put c v0) by exact Lc. unfold v0 at 1. cbn [ups v_ups]. rewrite Ev.
    cbn [last]. rewrite app_length. cbn [List.length]. replace (List.length us0 + 1 <? List.length us0)%nat with false by (symmetry; apply Nat.ltb_ge; lia).
    rewrite Ec. cbn [rbind]. unfold v0. cbn [ups v_ups]. rewrite Ev.
    replace (firstn (List.length us0) (us0 ++ [UPrim (Note pi d0 sl0)])) with us0
      by (rewrite firstn_app, Nat.sub_diag, firstn_all, firstn_O, app_nil_r; reflexivity).
    replace (skipn (List.length us0) (us0 ++ [UPrim (Note pi d0 sl0)])) with [UPrim (@Note XQ pi d0 sl0)]
      by (rewrite skipn_app, Nat.sub_diag, skipn_all; reflexivity).
    inversion H2 as [l0 a0 d0' sl0' t0 o0 p0 k0 Hd0 Hk0 E1 E2 E3 E4 E5| | | |]; subst.
    assert (t0 = t) by lia. subst t0.
    assert (Hch : play1 (UChord ([UPrim (Note (PLetter l0 a0) d0 sl0)] ++ us)) (v_oct v) on oct (on + t) ([Sound k0 on t] ++ [Sound k on t])).
    { change ([Sound k0 on t] ++ [Sound k on t]) with (map (fun k => Sound k on t) [k0; k]). cbn [app]. constructor; [exact Ht|]. constructor; assumption. }
    eexists. split.
    + rewrite (set_all_ok _ (put c v1 (tq (on + t)) p) c (v_oct v) (on + t) (e1 ++ [Sound k0 on t]) oct (on + t) (e1 ++ [Sound k0 on t] ++ [Sound k on t]) Hc L1); [rewrite V1, put_put; reflexivity| |].
      * rewrite V1. exact Hv.
      * eapply play_app; [exact H1|]. apply play_one. exact Hch.
    + eapply Done; [exact Hch|reflexivity].
  - (* a chord *)
    rewrite Er. cbn [rbind]. rewrite Ec. cbn [rbind].
    inversion H2 as [| | | |l0 a0 d0 sl0 es0 t0 o0 p0 o0' ks0 Ht0 Hm0 E1 E2 E3 E4]; subst. assert (t0 = t) by lia. subst t0.
    assert (Hch : play1 (UChord ((UPrim (Note (PLetter l0 a0) d0 sl0) :: es0) ++ us)) o1 on oct (on + t) (map (fun k => Sound k on t) ks0 ++ [Sound k on t])).
    { change [Sound k on t] with (map (fun k => Sound k on t) [k]). rewrite <- map_app. cbn [app]. constructor; [exact Ht|].
      change (UPrim (Note (PLetter l0 a0) d0 sl0) :: es0 ++ us) with ((UPrim (Note (PLetter l0 a0) d0 sl0) :: es0) ++ us).
      eapply members_app; [exact Hm0|exact Hus]. }
    eexists. split.
    + rewrite (modify_ok _ _ (put c v1 (tq (on + t)) p) c (us0 ++ [UChord ((UPrim (Note (PLetter l0 a0) d0 sl0) :: es0) ++ us)]) oct (on + t)
        (e1 ++ map (fun k => Sound k on t) ks0 ++ [Sound k on t]) Hc L1); [rewrite V1, put_put; reflexivity| |].
      * rewrite V1. cbn [v1 v_ups modify_path modify_nested]. unfold v1. cbn [v_ups]. rewrite Ev, nth_end, upd_end. reflexivity.
      * eapply play_app; [exact H1|]. apply play_one. exact Hch.
    + eapply Done; [exact Hch|reflexivity].
Qed.
End Voice.
