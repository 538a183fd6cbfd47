(** Tracks (C23) and markers (C24). *)
From Coq Require Import ZArith QArith Qcanon List String Bool Lia Arith SpecFloat.
From Verif Require Import Base Num ModelPitch ModelDuration ModelInstruments ModelTypes ModelLisp
  ModelScore SpecScore SpecVars SpecParts ProofNum ProofHeap ProofStep ProofInv ProofEvents ProofVoices
  ProofVars ProofSafe.
Import ListNotations.

Section Tracks.
Context {N : Num}.

Lemma session_inv : forall calls, inv (session calls).
Proof. intros. apply reachable_inv, session_reachable. Qed.
Lemma session_vinv : forall calls, vinv (session calls).
Proof. intros. apply reachable_vinv, session_reachable. Qed.

(* ---------------- C23 ---------------- *)

Lemma c23_master : forall calls, let s := session calls in parts s <> [] ->
  exists q, In q (parts s) /\ pmaster (getp s q) = true /\
    forall r, In r (parts s) -> pmaster (getp s r) = true -> r = q.
Proof.
  intros calls s H. destruct (vi_master s (session_vinv calls)) as [A|A]; [contradiction|exact A].
Qed.

Lemma c23_distinct : forall calls, let s := session calls in NoDup (map (instance s) (parts s)).
Proof. intros calls. apply (vi_parts _ (session_vinv calls)). Qed.

Definition tfold (s : score) (l : list (nat * pid)) (m : list (pid * Z)) :=
  fold_left (fun m '(i, p) => aset Nat.eqb (porigin (getp s p)) (wrap32 (Z.of_nat i + 1)) m) l m.

Lemma tfold_cons : forall s i p l m, tfold s ((i, p) :: l) m
  = tfold s l (aset Nat.eqb (instance s p) (wrap32 (Z.of_nat i + 1)) m).
Proof. reflexivity. Qed.
Lemma tfold_other : forall s l k m o, ~ In o (map (instance s) l) ->
  aget Nat.eqb o (tfold s (combine (seq k (List.length l)) l) m) = aget Nat.eqb o m.
Proof.
  intros s l. induction l as [|x l IH]; intros k m o H; [reflexivity|].
  cbn [List.length seq combine]. rewrite tfold_cons.
  rewrite IH; [|intros K; apply H; right; exact K].
  apply aget_aset_other; [intros; apply Nat.eqb_eq|]. intros E. apply H. left; exact E.
Qed.
Lemma tfold_in : forall s l i k m p, NoDup (map (instance s) l) -> nth_error l i = Some p ->
  aget Nat.eqb (instance s p) (tfold s (combine (seq k (List.length l)) l) m)
  = Some (wrap32 (Z.of_nat (k + i) + 1)).
Proof.
  intros s l. induction l as [|x l IH]; intros i k m p Hn Hi; [destruct i; discriminate|].
  inversion Hn as [|? ? Hp Hl]; subst. cbn [List.length seq combine]. rewrite tfold_cons.
  destruct i as [|i]; cbn [nth_error] in Hi.
  - inversion Hi; subst. rewrite tfold_other by exact Hp. rewrite Nat.add_0_r.
    apply aget_aset_same. intros; apply Nat.eqb_refl.
  - rewrite (IH i) by assumption. do 2 f_equal. lia.
Qed.

Lemma track_at : forall s i p, NoDup (map (instance s) (parts s)) -> nth_error (parts s) i = Some p ->
  track_of s (instance s p) = Some (wrap32 (Z.of_nat i + 1)).
Proof. intros s i p Hn Hi. apply (tfold_in s (parts s) i 0 [] p Hn Hi). Qed.
Lemma track_none : forall s o, ~ In o (map (instance s) (parts s)) -> track_of s o = None.
Proof. intros s o H. apply (tfold_other s (parts s) 0 [] o H). Qed.

Lemma c23_tracks : forall calls, let s := session calls in
  (Z.of_nat (List.length (parts s)) <= max_int32)%Z ->
  (forall i p, nth_error (parts s) i = Some p -> track_of s (instance s p) = Some (Z.of_nat i + 1)%Z) /\
  (forall o k, track_of s o = Some k -> exists p, In p (parts s) /\ instance s p = o) /\
  (forall e, In e (events s) -> exists k, track_of s (ev_part e) = Some k /\
      (1 <= k <= Z.of_nat (List.length (parts s)))%Z).
Proof.
  intros calls s Hmax. pose proof (session_vinv calls : vinv s) as V.
  assert (T : forall i p, nth_error (parts s) i = Some p -> track_of s (instance s p) = Some (Z.of_nat i + 1)%Z).
  { intros i p H. rewrite (track_at s i p (vi_parts s V) H). f_equal.
    assert (i < List.length (parts s))%nat by (apply nth_error_Some; congruence).
    unfold wrap32, max_int32 in *. rewrite Z.mod_small; lia. }
  split; [exact T|]. split.
  - intros o k H. destruct (in_dec Nat.eq_dec o (map (instance s) (parts s))) as [Hin|Hn].
    + apply in_map_iff in Hin. destruct Hin as [p [A B]]. exists p. auto.
    + rewrite track_none in H by exact Hn. discriminate.
  - intros e He. apply (vi_events s V) in He. apply in_map_iff in He. destruct He as [p [E Hp]].
    apply In_nth_error in Hp. destruct Hp as [i Hi]. rewrite <- E.
    change (org s p) with (instance s p). rewrite (T i p Hi). eexists; split; [reflexivity|].
    assert (i < List.length (parts s))%nat by (apply nth_error_Some; congruence). lia.
Qed.

Lemma c23_stable : forall calls later o k, track_of (session calls) o = Some k ->
  track_of (session (calls ++ later)) o = Some k.
Proof.
  intros calls later o k H. unfold session. rewrite fold_left_app.
  fold (session calls). fold (continue (session calls) later).
  pose proof (session_vinv calls) as V. set (s := session calls) in *.
  destruct (star_vinv _ _ (continue_star later s) (session_inv calls) V) as [V2 P].
  set (s2 := continue s later) in *.
  destruct (in_dec Nat.eq_dec o (map (instance s) (parts s))) as [Hin|Hn];
    [|rewrite track_none in H by exact Hn; discriminate].
  apply in_map_iff in Hin. destruct Hin as [p [A B]]. subst o. apply In_nth_error in B. destruct B as [i Hi].
  rewrite (track_at s i p (vi_parts s V) Hi) in H.
  destruct P as [c P].
  assert (Hi2 : nth_error (map (org s2) (parts s2)) i = Some (instance s p)).
  { rewrite P. rewrite nth_error_app1.
    - rewrite nth_error_map, Hi. reflexivity.
    - rewrite map_length. apply nth_error_Some. congruence. }
  rewrite nth_error_map in Hi2. destruct (nth_error (parts s2) i) as [p2|] eqn:E2; [|discriminate].
  cbn in Hi2. inversion Hi2 as [K]. change (org s2 p2) with (instance s2 p2).
  rewrite (track_at s2 i p2 (vi_parts s2 V2) E2). exact H.
Qed.

(* ---------------- C24 ---------------- *)

Lemma each_modp_cur : forall (f : part -> part) l s, 
  each (fun p s => (modp p f s, Ok)) l s = (fold_left (fun s p => modp p f s) l s, Ok).
Proof. intros f l. induction l as [|p l IH]; intros s; [reflexivity|]. cbn [each seqo fold_left]. apply IH. Qed.

Lemma fold_modp_in : forall (f : part -> part) l s p, NoDup l -> Forall (fun q => (q < List.length (heap s))%nat) l ->
  In p l -> getp (fold_left (fun s p => modp p f s) l s) p = f (getp s p).
Proof.
  intros f l. induction l as [|x l IH]; intros s p Hn Hl Hp; [destruct Hp|].
  inversion Hn; subst. inversion Hl; subst. cbn [fold_left].
  assert (Hl2 : Forall (fun q => (q < List.length (heap (modp x f s)))%nat) l) by (rewrite heap_modp; assumption).
  destruct Hp as [->|Hp].
  - assert (G : forall l s, ~ In p l -> getp (fold_left (fun s p => modp p f s) l s) p = getp s p).
    { clear. induction l as [|y l IH]; intros s H; [reflexivity|]. cbn [fold_left].
      rewrite IH; [|intros K; apply H; right; exact K]. apply getp_modp_other. intros ->. apply H; left; reflexivity. }
    rewrite G by assumption. apply getp_modp_same; assumption.
  - rewrite IH by assumption. rewrite getp_modp_other; [reflexivity|]. intros ->. contradiction.
Qed.
Lemma fold_modp_tables : forall (f : part -> part) l s, let s' := fold_left (fun s p => modp p f s) l s in
  current s' = current s /\ markers s' = markers s /\ events s' = events s /\ List.length (heap s') = List.length (heap s).
Proof.
  intros f l. induction l as [|x l IH]; intros s; cbn zeta in *; [repeat split|]. cbn [fold_left].
  destruct (IH (modp x f s)) as (A & B & C & D). rewrite A, B, C, D, heap_modp. repeat split.
Qed.

(** Applying global attributes does not move parts. *)
Lemma update_part_pcur : forall u g p v, update_part u g p = ROk v -> pcur v = pcur p /\ plast v = plast p.
Proof.
  intros u g p v H. destruct u; cbn [update_part] in H; try (inversion H; subst; auto; fail);
    try (destruct g; inversion H; subst; auto; fail).
  destruct (_ && _); inversion H; subst; auto.
Qed.
Lemma getp_setp_pcur : forall p v s q, pcur v = pcur (getp s p) -> pcur (getp (setp p v s) q) = pcur (getp s q).
Proof.
  intros p v s q H. destruct (Nat.lt_ge_cases p (List.length (heap s))) as [Hp|Hp].
  - rewrite getp_setp by exact Hp. destruct (Nat.eqb q p) eqn:E; [|reflexivity].
    apply Nat.eqb_eq in E; subst. exact H.
  - unfold getp, setp. cbn. rewrite upd_nth_out by exact Hp. reflexivity.
Qed.
Definition still (s s' : score) : Prop :=
  (forall q, pcur (getp s' q) = pcur (getp s q)) /\ current s' = current s /\ markers s' = markers s /\
  events s' = events s /\ List.length (heap s') = List.length (heap s).
Lemma still_refl : forall s, still s s.
Proof. intros; repeat split. Qed.
Lemma still_trans : forall a b c, still a b -> still b c -> still a c.
Proof.
  intros a b c (A1 & A2 & A3 & A4 & A5) (B1 & B2 & B3 & B4 & B5). split; [intros; congruence|]. repeat split; congruence.
Qed.
Lemma each_still : forall A (f : A -> score -> score * outcome), (forall x s, still s (fst (f x s))) ->
  forall l s, still s (fst (each f l s)).
Proof.
  intros A f H l. induction l as [|x l IH]; intros s; [apply still_refl|]. cbn [each]. specialize (H x s).
  destruct (f x s) as [s1 []]; cbn [seqo fst] in *; try exact H. eapply still_trans; [exact H|apply IH].
Qed.
Lemma do_update_still : forall u g p s, still s (fst (do_update_part u g p s)).
Proof.
  intros u g p s. unfold do_update_part. destruct (update_part u g (getp s p)) as [v|m|m] eqn:E; try apply still_refl.
  apply update_part_pcur in E. destruct E as [E _]. cbn [fst].
  split; [intros; apply getp_setp_pcur; exact E|]. repeat split. apply heap_setp.
Qed.
Lemma modp_still : forall p f s, (forall q, pcur (f q) = pcur q) -> still s (modp p f s).
Proof.
  intros p f s H. split; [intros; apply getp_setp_pcur; apply H|]. repeat split. apply heap_setp.
Qed.
Lemma apply_globals_still : forall s, still s (fst (apply_globals s)).
Proof.
  intros s. apply each_still. intros p s1. unfold apply_globals_to.
  assert (H : still s1 (fst (each (fun u s => if overrides (povr (getp s p)) u then (s, Ok)
                         else do_update_part u true p s)
             (in_window (globals s1) (plast (getp s1 p)) (pcur (getp s1 p))) s1))).
  { apply each_still. intros u s2. destruct (overrides _ _); [apply still_refl|apply do_update_still]. }
  destruct (each _ _ s1) as [s2 []]; cbn [seqo fst] in *; try exact H.
  eapply still_trans; [exact H|]. apply modp_still. reflexivity.
Qed.

Lemma c24_jump : forall calls name off s', let s := session calls in marker s name = Some off ->
  exec [UAtMarker name] s = (s', Ok) ->
  current s' = current s /\ events s' = events s /\
  forall p, In p (current s) -> pcur (getp s' p) = off /\ plast (getp s' p) = pcur (getp s p).
Proof.
  intros calls name off s' s Hm H. unfold exec, run_all in H. cbn [each] in H. unfold run in H. cbn [run_upd] in H.
  unfold run_at_marker in H. pose proof (apply_globals_still s) as St.
  pose proof (session_inv calls : inv s) as I. pose proof (session_vinv calls : vinv s) as V.
  destruct (apply_globals s) as [s1 []] eqn:E; cbn [seqo] in H; try discriminate. cbn [fst] in St.
  destruct St as (A1 & A2 & A3 & A4 & A5). unfold marker in Hm. rewrite A3, Hm, each_modp_cur in H. cbn [seqo] in H.
  inversion H; subst s'. clear H.
  match goal with |- context [fold_left ?f ?l s1] =>
    pose proof (fold_modp_tables (fun q => set_pcur off (set_plast (pcur q) q)) l s1) as (B1 & B2 & B3 & B4) end.
  split; [congruence|]. split; [congruence|]. intros p Hp.
  rewrite fold_modp_in; [cbn; rewrite A1; auto| | |rewrite A2; exact Hp].
  - rewrite A2. eapply NoDup_map_NoDup. apply (vi_cur s V).
  - rewrite A2. eapply Forall_impl; [|apply (inv_cur s I)]. cbn. intros q Hq. unfold good in Hq. lia.
Qed.

Lemma c24_undefined : forall name s, marker s name = None ->
  exists m, snd (exec [UAtMarker name] s) = Err m /\
    let s' := fst (exec [UAtMarker name] s) in
    events s' = events s /\ forall p, pcur (getp s' p) = pcur (getp s p).
Proof.
  intros name s Hm. unfold exec, run_all. cbn [each]. unfold run. cbn [run_upd]. unfold run_at_marker.
  pose proof (apply_globals_still s) as St. pose proof (apply_globals_fine true s) as F.
  destruct (apply_globals s) as [s1 []]; cbn [seqo fst snd] in *.
  - destruct St as (A1 & A2 & A3 & A4 & A5). unfold marker in Hm. rewrite A3, Hm. cbn. eexists; repeat split; assumption.
  - destruct St as (A1 & A2 & A3 & A4 & A5). exists msg. split; [reflexivity|]. split; assumption.
  - discriminate F.
  - discriminate F.
  - destruct F.
Qed.

(** Jumping to an existing marker can only fail on a global midi-channel. *)
Lemma c24_define : forall name s s', exec [UMarker name] s = (s', Ok) ->
  exists p rest, current s = p :: rest /\
    (forall q, In q rest -> neqb (pcur (getp s q)) (pcur (getp s p)) = true) /\
    marker s' name = Some (pcur (getp s p)) /\ forall n, n <> name -> marker s' n = marker s n.
Proof.
  intros name s s' H. unfold exec, run_all in H. cbn [each] in H. unfold run in H. cbn [run_upd] in H.
  unfold run_marker in H. destruct (current s) as [|p rest] eqn:Ec; [discriminate|]. exists p, rest.
  split; [reflexivity|]. destruct (same_offset s _ rest) eqn:Es; [|discriminate]. cbn [seqo] in H. inversion H; subst.
  split; [intros q Hq; unfold same_offset in Es; rewrite forallb_forall in Es; apply Es; exact Hq|].
  unfold marker. cbn [set_markers markers]. split.
  - apply aget_aset_same. intros; apply String.eqb_refl.
  - intros n Hn. apply aget_aset_other; [intros; apply String.eqb_eq|congruence].
Qed.
Lemma c24_unclear : (forall a b c : num, neqb a c = true -> neqb b c = true -> neqb a b = true) ->
  forall name s,
  (current s = [] \/ exists p q, In p (current s) /\ In q (current s) /\ p <> q /\
     neqb (pcur (getp s p)) (pcur (getp s q)) = false /\ neqb (pcur (getp s q)) (pcur (getp s p)) = false) ->
  exists m, exec [UMarker name] s = (s, Err m).
Proof.
  intros Heu name s H. unfold exec, run_all. cbn [each]. unfold run. cbn [run_upd]. unfold run_marker.
  destruct (current s) as [|r rest] eqn:Ec; [eexists; reflexivity|].
  destruct H as [H|(p & q & Hp & Hq & Hne & Hd & Hd2)]; [discriminate|].
  destruct (same_offset s _ rest) eqn:Es; [|eexists; reflexivity]. exfalso.
  unfold same_offset in Es. rewrite forallb_forall in Es.
  destruct Hp as [->|Hp], Hq as [->|Hq]; [contradiction| | |].
  - rewrite (Es q Hq) in Hd2. discriminate.
  - rewrite (Es p Hp) in Hd. discriminate.
  - rewrite (Heu _ _ _ (Es p Hp) (Es q Hq)) in Hd. discriminate.
Qed.

Lemma vend_markers : forall cnt i s, markers (voice_end_loop i cnt s) = markers s.
Proof.
  induction cnt as [|k IH]; intros i s; cbn [voice_end_loop]; [reflexivity|].
  destruct (nth_error (current s) i); [|reflexivity]. rewrite IH.
  unfold voice_end_one. destruct (getv _ _); reflexivity.
Qed.
Lemma step_marker : forall x s s', inv s -> vinv s -> lstep (fun l => l <> LMark x) s s' -> marker s' x = marker s x.
Proof.
  intros x s s' I V H. unfold marker.
  assert (K : markers s' = markers s -> aget String.eqb x (markers s') = aget String.eqb x (markers s)) by congruence.
  destruct H; try (apply K; reflexivity).
  - apply K. apply emit_shape in H0. cbv zeta in H0.
    destruct H0 as [[-> _]|(c & us & Haud & Hn & Hcr & Hdet & Hus & ->)]; reflexivity.
  - cbn [set_markers markers]. apply aget_aset_other; [intros; apply String.eqb_eq|]. congruence.
  - apply K. unfold get_voice in H0. destruct (aget _ _ _); [inversion H0; reflexivity|].
    unfold new_voice, rbind in H0. destruct (has_voices s p).
    + destruct (ptmpl _); inversion H0; reflexivity.
    + destruct (ptmpl (getp s p)); [discriminate|]. cbn [clone] in H0.
      match type of H0 with match ?x with _ => _ end = _ => destruct x end; inversion H0; reflexivity.
  - apply K. apply vend_markers.
  - apply K. destruct (run_part_shape _ _ _ _ I V H) as (ps & s1 & new & al & E & Hs' & _).
    rewrite Hs'. cbn [set_current set_aliases set_parts markers].
    destruct (vend_inv s I) as [I0 X0]. destruct (vend_vinv s I V) as (V0 & _).
    destruct (determine_parts_grows _ _ _ _ _ I0 V0 E) as (G & _).
    destruct (grows_tables _ _ G) as (_ & _ & _ & _ & T & _).
    transitivity (markers s1); [destruct (parts (run_voice_end s)); [destruct ps|]; reflexivity|].
    rewrite T. apply vend_markers.
Qed.

(** Nothing but a definition of the marker changes it. *)
Lemma star_marker : forall x s s', lstar (fun l => l <> LMark x) s s' -> inv s -> vinv s ->
  marker s' x = marker s x.
Proof.
  intros x s s' H. induction H as [|s1 s2 H1 IH H2]; intros I V; [reflexivity|].
  pose proof (lstar_star _ _ _ H1) as K. rewrite <- (IH I V).
  destruct (star_inv_idext _ _ K I) as [I2 _]. destruct (star_vinv _ _ K I V) as [V2 _].
  apply step_marker; assumption.
Qed.
Lemma continue_lstar : forall L calls s, Forall (Forall (upd_all L)) calls -> store_all L s -> lstar L s (continue s calls).
Proof.
  intros L calls. induction calls as [|us calls IH]; intros s H Hs; [constructor|].
  inversion H; subst. cbn [continue fold_left]. fold (continue (fst (exec us s)) calls).
  assert (K : lstar L s (fst (exec us s))) by (apply (run_all_lstar L 1 us s (fst (exec us s)) (snd (exec us s))); [assumption|apply surjective_pairing|assumption]).
  eapply star_trans; [exact K|]. apply IH; [assumption|]. eapply star_store; eassumption.
Qed.
Lemma c24_persists : forall calls later x, let s := session calls in
  Forall (Forall (not_marking x)) later ->
  (forall n es, In (n, es) (variables s) -> Forall (not_marking x) es) ->
  marker (continue s later) x = marker s x.
Proof.
  intros calls later x s H Hv. apply star_marker; [|apply session_inv|apply session_vinv].
  apply continue_lstar; [exact H|]. split; [exact Hv|].
  intros off us _. apply Forall_forall. intros u _. destruct u; cbn; try exact I. discriminate.
Qed.
End Tracks.

Lemma euclid_XQ : forall a b c : @num XQ, neqb a c = true -> neqb b c = true -> neqb a b = true.
Proof.
  intros a b c H1 H2. change (xq_eqb a c = true) in H1. change (xq_eqb b c = true) in H2. change (xq_eqb a b = true).
  destruct a, b, c; cbn in *; try discriminate; try reflexivity.
  apply qc_eqb_eq in H1. apply qc_eqb_eq in H2. subst. apply qc_eqb_refl.
Qed.
Lemma euclid_B64 : forall a b c : @num B64, neqb a c = true -> neqb b c = true -> neqb a b = true.
Proof.
  intros a b c H1 H2. change (SFeqb a c = true) in H1. change (SFeqb b c = true) in H2. change (SFeqb a b = true).
  unfold SFeqb in *.
  destruct a as [s1|s1| |s1 m1 e1], b as [s2|s2| |s2 m2 e2], c as [s3|s3| |s3 m3 e3];
    try discriminate; try destruct s1; try destruct s2; try destruct s3; cbn in *; try discriminate; try reflexivity;
  destruct (Z.compare_spec e1 e3); try discriminate; destruct (Z.compare_spec e2 e3); try discriminate; subst;
  rewrite Z.compare_refl;
  change (Pcompare m1 m3 Eq) with (m1 ?= m3)%positive in *;
    change (Pcompare m2 m3 Eq) with (m2 ?= m3)%positive in *;
    change (Pcompare m1 m2 Eq) with (m1 ?= m2)%positive in *;
  destruct (Pos.compare_spec m1 m3); try discriminate; destruct (Pos.compare_spec m2 m3); try discriminate; subst;
  rewrite Pos.compare_refl; reflexivity.
Qed.
