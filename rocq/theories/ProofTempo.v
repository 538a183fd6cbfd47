(** Tempo messages and the tempo map (C33, C35). *)
From Coq Require Import ZArith List String Bool Permutation Sorted Lia Arith.
From Verif Require Import Base Num ModelPitch ModelDuration ModelInstruments ModelTypes ModelLisp
  ModelScore ModelOsc SpecScore SpecVars SpecParts SpecSolo SpecTiming SpecGlobals SpecOsc ProofHeap ProofStep ProofInv
  ProofEvents ProofVoices ProofTracks ProofTiming ProofGlobals ProofOsc.
Import ListNotations.
Local Open Scope Z_scope.
Local Opaque stock_instrument.

Section Tempo.
Context {N : Num}.
Hypothesis LO : linear_order.

Lemma self_eq : forall a, nisnan a = false -> neqb a a = true.
Proof. intros a H. apply (lo_eq LO). split; apply (le_refl LO); exact H. Qed.
Lemma eq_nan : forall a b, neqb a b = true -> nisnan a = false /\ nisnan b = false.
Proof. intros a b H. apply (lo_eq LO) in H. destruct H as [H _]. apply (lo_le LO) in H. tauto. Qed.

(* ---------------- maps keyed by offsets ---------------- *)

Definition apart (a b : num * num) : Prop := neqb (fst a) (fst b) = false.

Lemma aset_get : forall k o v (l : list (num * num)), aget neqb k (aset neqb o v l) = if neqb o k then Some v else aget neqb k l.
Proof.
  intros k o v l. induction l as [|[k1 v1] l IH]; [reflexivity|]. cbn [aset aget]. destruct (neqb k1 o) eqn:E; cbn [aget].
  - rewrite (eqb_comm LO k1 k), (eqb_cong LO k1 o k E), (eqb_comm LO k o). destruct (neqb o k); reflexivity.
  - rewrite IH. destruct (neqb k1 k) eqn:E2; [|reflexivity]. destruct (neqb o k) eqn:E3; [|reflexivity].
    rewrite (eq_trans_n LO k1 k o E2 (eq_sym_n LO _ _ E3)) in E. discriminate.
Qed.

Lemma aset_apart : forall o v l, ForallOrdPairs apart l -> ForallOrdPairs apart (aset neqb o v l).
Proof.
  intros o v l H. induction H as [|[k1 v1] l F H IH]; cbn [aset]; [constructor; constructor|].
  destruct (neqb k1 o) eqn:E.
  - constructor; [|exact H]. exact F.
  - constructor; [|exact IH]. clear IH H. induction F as [|[k2 v2] l F1 F IH]; cbn [aset].
    + constructor; [|constructor]. exact E.
    + destruct (neqb k2 o); constructor; try exact F1; [exact F|exact IH].
Qed.
Lemma apart_get : forall l k v, ForallOrdPairs apart l -> In (k, v) l -> nisnan k = false -> aget neqb k l = Some v.
Proof.
  intros l k v H. induction H as [|[k1 v1] l F H IH]; intros Hi Hn; [destruct Hi|]. cbn [aget]. destruct Hi as [Hi|Hi].
  - inversion Hi; subst. rewrite self_eq by exact Hn. reflexivity.
  - rewrite Forall_forall in F. specialize (F _ Hi). unfold apart in F. cbn [fst] in F. rewrite F. apply IH; assumption.
Qed.
Lemma itinerary_apart : forall s, ForallOrdPairs apart (tempo_itinerary s).
Proof.
  intros s. unfold tempo_itinerary. set (it0 := [(n0, nofZ 120)]).
  assert (A0 : ForallOrdPairs apart it0) by (constructor; constructor).
  assert (A1 : forall l it, ForallOrdPairs apart it -> ForallOrdPairs apart (fold_left (fun it '(o, t) => aset neqb o t it) l it)).
  { induction l as [|[o t] l IH]; intros it H; cbn [fold_left]; [exact H|]. apply IH, aset_apart, H. }
  assert (A2 : forall l it, ForallOrdPairs apart it -> ForallOrdPairs apart (fold_left (fun it p => if pmaster (getp s p) then fold_left (fun it '(o, t) => aset neqb o t it) (ptvals (getp s p)) it else it) l it)).
  { induction l as [|p l IH]; intros it H; cbn [fold_left]; [exact H|]. apply IH. destruct (pmaster (getp s p)); [apply A1|]; exact H. }
  specialize (A2 (parts s) it0 A0). set (it1 := fold_left _ (parts s) it0) in *. clearbody it1.
  assert (A3 : forall off us acc, ForallOrdPairs apart (snd acc) -> ForallOrdPairs apart (snd (fold_left (ti_update off) us acc))).
  { intros off us. induction us as [|u us IH]; intros [g it] H; cbn [fold_left]; [exact H|]. apply IH.
    destruct u; cbn [ti_update snd]; try exact H; apply aset_apart, H. }
  assert (A4 : forall offs acc, ForallOrdPairs apart (snd acc) -> ForallOrdPairs apart (snd (fold_left (fun acc off => fold_left (ti_update off) (ga_at (globals s) off) acc) offs acc))).
  { intros offs. induction offs as [|o offs IH]; intros acc H; cbn [fold_left]; [exact H|]. apply IH, A3, H. }
  apply A4. exact A2.
Qed.

(* ---------------- what the tempo map holds ---------------- *)

Definition own_map (s : score) : list (num * num) :=
  fold_left (fun it p => if pmaster (getp s p) then fold_left (fun it '(o, t) => aset neqb o t it) (ptvals (getp s p)) it else it)
            (parts s) [(n0, nofZ 120)].
Definition ti_pair (acc : num * list (num * num)) (x : num * part_update) := ti_update (fst x) acc (snd x).
Lemma itinerary_timeline : forall s, tempo_itinerary s = snd (fold_left ti_pair (timeline s) (nofZ 120, own_map s)).
Proof.
  intros s. unfold tempo_itinerary. fold (own_map s). unfold timeline. f_equal.
  generalize (nofZ 120, own_map s). generalize (ga_offs (globals s)). intros offs. induction offs as [|o offs IH]; intros acc; [reflexivity|].
  cbn [fold_left flat_map]. rewrite fold_left_app, IH. f_equal.
  generalize (ga_at (globals s) o). intros us. revert acc. induction us as [|u us IHu]; intros acc; [reflexivity|]. cbn [map fold_left]. apply IHu.
Qed.
Lemma ti_silent : forall o tl acc, silent_at o tl -> aget neqb o (snd (fold_left ti_pair tl acc)) = aget neqb o (snd acc).
Proof.
  intros o tl. induction tl as [|[o' u] tl IH]; intros acc H; [reflexivity|]. cbn [fold_left]. rewrite IH by (intros x v Hx; apply H; right; exact Hx).
  destruct acc as [g it]. unfold ti_pair. cbn [fst snd]. destruct u; cbn [ti_update snd]; try reflexivity;
    rewrite aset_get, (H o' _ (or_introl eq_refl) eq_refl); reflexivity.
Qed.
Lemma ti_last : forall tl g it, fst (fold_left ti_pair tl (g, it)) = fold_left (fun acc (x : num * part_update) => match snd x with PTempo t => t | _ => acc end) tl g.
Proof.
  induction tl as [|[o u] tl IH]; intros g it; [reflexivity|]. cbn [fold_left snd]. unfold ti_pair at 2. cbn [fst snd].
  destruct u; cbn [ti_update]; apply IH.
Qed.

Lemma c35_global : forall s o t l1 l2, timeline s = l1 ++ (o, PTempo t) :: l2 -> silent_at o l2 -> nisnan o = false -> at_tempo s o = Some t.
Proof.
  intros s o t l1 l2 E S H. unfold at_tempo. rewrite itinerary_timeline, E, fold_left_app. cbn [fold_left].
  rewrite ti_silent by exact S. destruct (fold_left ti_pair l1 _) as [g it]. unfold ti_pair. cbn [ti_update fst snd].
  rewrite aset_get, self_eq by exact H. reflexivity.
Qed.
Lemma c35_modulation : forall s o r l1 l2, timeline s = l1 ++ (o, PMetric r) :: l2 -> silent_at o l2 -> nisnan o = false ->
  at_tempo s o = Some (nmul (last_set l1) r).
Proof.
  intros s o r l1 l2 E S H. unfold at_tempo. rewrite itinerary_timeline, E, fold_left_app. cbn [fold_left].
  rewrite ti_silent by exact S. pose proof (ti_last l1 (nofZ 120) (own_map s)) as K.
  destruct (fold_left ti_pair l1 _) as [g it]. cbn [fst] in K. unfold ti_pair. cbn [ti_update fst snd].
  rewrite aset_get, self_eq by exact H. unfold last_set. rewrite <- K. reflexivity.
Qed.

Lemma fill_get : forall (l it : list (num * num)) o, ForallOrdPairs apart l -> aget neqb o (fold_left (fun it '(k, t) => aset neqb k t it) l it)
  = match aget neqb o l with Some t => Some t | None => aget neqb o it end.
Proof.
  intros l it o H. revert it. induction H as [|[k v] l F H IH]; intros it; [reflexivity|]. cbn [fold_left aget]. rewrite IH, aset_get.
  destruct (neqb k o) eqn:E; [|reflexivity].
  replace (aget neqb o l) with (@None num); [reflexivity|]. symmetry. clear IH H.
  induction F as [|[k2 v2] l F1 F IH]; [reflexivity|]. cbn [aget]. unfold apart in F1. cbn [fst] in F1.
  destruct (neqb k2 o) eqn:E2; [|exact IH]. rewrite (eq_trans_n LO k o k2 E (eq_sym_n LO _ _ E2)) in F1. discriminate.
Qed.

(** The recorded values of a part have distinct offsets. *)
Definition tvals_ok (s : score) : Prop := forall p, ForallOrdPairs apart (ptvals (getp s p)).

Lemma ok_setp : forall s p v, tvals_ok s -> ForallOrdPairs apart (ptvals v) -> tvals_ok (setp p v s).
Proof.
  intros s p v H Hv r. destruct (Nat.lt_ge_cases p (List.length (heap s))) as [Hp|Hp].
  - rewrite getp_setp by exact Hp. destruct (Nat.eqb r p); [exact Hv|apply H].
  - unfold getp, setp. cbn. rewrite upd_nth_out by exact Hp. apply H.
Qed.
Lemma ok_heap : forall s s', heap s' = heap s -> tvals_ok s -> tvals_ok s'.
Proof. intros s s' E H r. unfold getp. rewrite E. apply H. Qed.
Lemma ok_app : forall s s' l, heap s' = heap s ++ l -> Forall (fun v => ForallOrdPairs apart (ptvals v)) l -> tvals_ok s -> tvals_ok s'.
Proof.
  intros s s' l E F H r. unfold getp. rewrite E. destruct (Nat.lt_ge_cases r (List.length (heap s))) as [Hr|Hr].
  - rewrite app_nth1 by exact Hr. apply (H r).
  - rewrite app_nth2 by exact Hr. destruct (nth_in_or_default (r - List.length (heap s)) l dead_part) as [K|K].
    + rewrite Forall_forall in F. apply F. exact K.
    + rewrite K. cbn. constructor.
Qed.
Lemma clone_ok : forall p s, tvals_ok s -> tvals_ok (snd (clone p s)).
Proof. intros p s H. eapply ok_app; [reflexivity| |exact H]. constructor; [apply (H p)|constructor]. Qed.
Lemma get_voice_ok : forall p n s v s1, get_voice p n s = ROk (v, s1) -> tvals_ok s -> tvals_ok s1.
Proof.
  intros p n s v s1 H K. unfold get_voice in H. destruct (aget _ _ _); [inversion H; subst; exact K|].
  unfold new_voice, rbind in H.
  assert (A : forall s2, (match ptmpl (getp s2 p) with
       | None => RPanic "nil pointer dereference"
       | Some t => let (v, s2) := clone t s2 in let cell := pvoices (getp s2 p) in ROk (v, setv cell (getv s2 cell ++ [(n, v)]) s2) end) = ROk (v, s1) ->
       tvals_ok s2 -> tvals_ok s1).
  { intros s2 E K2. destruct (ptmpl (getp s2 p)) as [t|]; [|discriminate]. pose proof (clone_ok t s2 K2) as C. destruct (clone t s2) as [v' s3].
    cbn [snd] in C. inversion E; subst. eapply ok_heap; [|exact C]. reflexivity. }
  destruct (has_voices s p); [exact (A s H K)|]. destruct (ptmpl (getp s p)); [discriminate|].
  pose proof (clone_ok p s K) as C. destruct (clone p s) as [t s2]. cbn [snd] in C. refine (A _ H _).
  assert (K3 : tvals_ok (modp t (set_ptmpl (Some t)) s2)) by (apply ok_setp; [exact C|apply (C t)]).
  apply ok_setp; [exact K3|apply (K3 p)].
Qed.
Lemma vend_ok : forall s, tvals_ok s -> tvals_ok (run_voice_end s).
Proof.
  intros s. unfold run_voice_end. generalize (List.length (current s)) 0%nat. intros n. revert s.
  induction n as [|k IH]; intros s i K; cbn [voice_end_loop]; [exact K|]. destruct (nth_error _ _) as [p|]; [|exact K]. apply IH.
  unfold voice_end_one. destruct (getv s _) as [|x vs]; [exact K|]. cbv zeta.
  set (lv := last_to_finish s (x :: vs) p).
  eapply (ok_heap (modp lv (fun q => set_ptmpl None (set_pvoices (List.length (vheap s)) q)) (set_vheap (vheap s ++ [[]]) s))); [reflexivity|].
  apply ok_setp; [exact K|]. apply (K lv).
Qed.
Lemma step_ok : forall L s s', inv s -> vinv s -> lstep L s s' -> tvals_ok s -> tvals_ok s'.
Proof.
  intros L s s' I V H K. destruct H.
  - apply ok_setp; [exact K|]. destruct H1 as [-> | [_ E]]; [apply K|]. rewrite E. cbn. apply aset_apart, K.
  - apply ok_setp; [exact K|]. apply (K p).
  - apply emit_shape in H0. cbv zeta in H0. destruct H0 as [[-> _]|(c & us & _ & _ & _ & _ & _ & ->)]; [exact K|].
    assert (K3 : tvals_ok (modp p (set_pchan c) (set_usage us s))) by (apply ok_setp; [exact K|apply (K p)]).
    eapply (ok_heap (modp (porigin (getp s p)) (set_pchan c) (modp p (set_pchan c) (set_usage us s)))); [reflexivity|].
    apply ok_setp; [exact K3|apply (K3 (porigin (getp s p)))].
  - exact K.
  - exact K.
  - exact K.
  - exact K.
  - apply (ok_heap s1); [reflexivity|]. apply (get_voice_ok p n s v s1); assumption.
  - apply vend_ok, K.
  - destruct (run_part_shape _ _ _ _ I V H) as (ps & s1 & new & al & E & Hs' & _).
    destruct (vend_inv s I) as [I0 _]. destruct (vend_vinv s I V) as (V0 & _).
    destruct (determine_parts_grows _ _ _ _ _ I0 V0 E) as (G & _). pose proof (vend_ok s K) as K0.
    set (s0 := run_voice_end s) in *. 
    assert (K1 : tvals_ok s1).
    { destruct G as (hs & -> & F). eapply ok_app; [reflexivity| |exact K0].
      apply Forall_forall. intros v Hv. apply (In_nth _ _ dead_part) in Hv. destruct Hv as (i & Hl & <-).
      destruct (F i Hl) as (nm & ins & _ & ->). constructor. }
    rewrite Hs'. eapply (ok_heap (match parts s0, ps with [], p0 :: _ => modp p0 (set_pmaster true) s1 | _, _ => s1 end)); [reflexivity|].
    destruct (parts s0); [destruct ps as [|p0 ps]|]; try exact K1. apply ok_setp; [exact K1|apply (K1 p0)].
Qed.
Lemma session_ok : forall calls, tvals_ok (session calls).
Proof.
  intros calls. pose proof (session_reachable calls) as H. unfold reachable in H.
  assert (G : inv (session calls) /\ vinv (session calls) /\ tvals_ok (session calls)); [|apply G].
  eapply (lstar_inv _ (fun s => inv s /\ vinv s /\ tvals_ok s)); [|exact H|].
  - intros a b (A & B & C) S. split; [|split].
    + eapply step_inv; [exact A|eapply lstep_step; exact S].
    + eapply step_vinv; [exact A|exact B|eapply lstep_step; exact S].
    + eapply step_ok; eassumption.
  - split; [apply inv_new|]. split; [apply vinv_new|]. intros p. unfold getp. cbn. destruct p; constructor.
Qed.

(* ---------------- the leading part ---------------- *)

Lemma own_map_get : forall s q o, vinv s -> tvals_ok s -> leads s q ->
  aget neqb o (own_map s) = match own_tempo s q o with Some t => Some t | None => if neqb n0 o then Some (nofZ 120) else None end.
Proof.
  intros s q o V K [Hq Hm]. destruct (vi_master s V) as [E|(q' & Hq' & Hm' & U)]; [rewrite E in Hq; destruct Hq|].
  assert (q' = q) by (symmetry; apply U; assumption). subst q'. clear Hm' Hq'.
  pose proof (NoDup_map_inv _ _ (vi_parts s V)) as ND. unfold own_map, own_tempo.
  assert (A : forall l it, (forall r, In r l -> pmaster (getp s r) = false) -> fold_left (fun it p => if pmaster (getp s p) then fold_left (fun it '(o, t) => aset neqb o t it) (ptvals (getp s p)) it else it) l it = it).
  { induction l as [|r l IH]; intros it H; [reflexivity|]. cbn [fold_left]. rewrite (H r (or_introl eq_refl)). apply IH. intros; apply H; right; assumption. }
  apply in_split in Hq. destruct Hq as (l1 & l2 & E). rewrite E in ND, U |- *. rewrite fold_left_app. cbn [fold_left].
  assert (NM : forall r, In r l1 \/ In r l2 -> pmaster (getp s r) = false).
  { intros r Hr. destruct (pmaster (getp s r)) eqn:Er; [|reflexivity]. exfalso.
    assert (r = q) by (apply U; [apply in_or_app; cbn; tauto|exact Er]). subst r.
    apply NoDup_remove_2 in ND. apply ND. apply in_or_app. exact Hr. }
  rewrite (A l1) by (intros; apply NM; tauto). rewrite Hm. rewrite (A l2) by (intros; apply NM; tauto).
  rewrite fill_get by (apply K). reflexivity.
Qed.

Lemma c35_own : forall calls q o, let s := session calls in leads s q -> silent_at o (timeline s) ->
  at_tempo s o = match own_tempo s q o with Some t => Some t | None => if neqb n0 o then Some (nofZ 120) else None end.
Proof.
  intros calls q o s Hq S. unfold at_tempo. rewrite itinerary_timeline, ti_silent by exact S. cbn [snd].
  apply own_map_get; [apply session_vinv|apply session_ok|exact Hq].
Qed.

(** Executing a tempo change. *)
Lemma tempo_exec : forall u s s' o, inv s -> vinv s -> exec [UPrim (Attr u)] s = (s', o) -> exec [UPrim (Attr u)] s = run_attr u s.
Proof.
  intros u s s' o I V H. unfold exec, run_all. cbn [each]. unfold run. cbn [run_upd run_prim].
  destruct (run_attr u s) as [a []]; reflexivity.
Qed.
Lemma tempo_each : forall t l s s', NoDup l -> (forall p, In p l -> (p < List.length (heap s))%nat) ->
  each (fun p s => seqo (do_update_part (PTempo t) false p s) (fun s => (modp p (set_povr (Some (PTempo t))) s, Ok))) l s = (s', Ok) ->
  List.length (heap s') = List.length (heap s) /\ globals s' = globals s /\ parts s' = parts s /\
  forall r, getp s' r = if existsb (Nat.eqb r) l then set_povr (Some (PTempo t)) (record_tempo (set_ptempo t (getp s r))) else getp s r.
Proof.
  intros t l. induction l as [|p l IH]; intros s s' ND B H; cbn [each] in H; [inversion H; subst; auto|].
  inversion ND as [|? ? Hp ND']; subst.
  unfold seqo at 1 in H. unfold do_update_part at 1 in H. cbn [update_part seqo] in H.
  pose proof (B p (or_introl eq_refl)) as Bp.
  set (s1 := modp p (set_povr (Some (PTempo t))) (setp p (record_tempo (set_ptempo t (getp s p))) s)) in *.
  assert (L1 : List.length (heap s1) = List.length (heap s)) by (unfold s1, modp, setp; cbn; rewrite !upd_nth_length; reflexivity).
  destruct (IH s1 s' ND') as (A1 & A2 & A3 & A4).
  - intros r Hr. rewrite L1. apply B. right; exact Hr.
  - exact H.
  - split; [congruence|]. split; [rewrite A2; reflexivity|]. split; [rewrite A3; reflexivity|].
    intros r. rewrite A4. cbn [existsb].
    assert (G1 : getp s1 r = if Nat.eqb r p then set_povr (Some (PTempo t)) (record_tempo (set_ptempo t (getp s r))) else getp s r).
    { unfold s1. rewrite getp_modp by (unfold setp; cbn; rewrite upd_nth_length; exact Bp). rewrite getp_setp by exact Bp.
      destruct (Nat.eqb r p) eqn:E; [|reflexivity]. apply Nat.eqb_eq in E. subst r. reflexivity. }
    rewrite G1. destruct (Nat.eqb r p) eqn:E; cbn [orb]; [|reflexivity].
    apply Nat.eqb_eq in E. subst r. destruct (existsb (Nat.eqb p) l) eqn:E2; [|reflexivity].
    apply existsb_exists in E2. destruct E2 as (x & Hx & Ex). apply Nat.eqb_eq in Ex. subst x. contradiction.
Qed.

Lemma c35_recorded : forall calls t q s', let s := session calls in leads s q -> In q (current s) -> nisnan (pcur (getp s q)) = false ->
  exec [UPrim (Attr (PTempo t))] s = (s', Ok) ->
  leads s' q /\ timeline s' = timeline s /\
  forall o, own_tempo s' q o = if neqb (pcur (getp s q)) o then Some t else own_tempo s q o.
Proof.
  intros calls t q s' s [Hq Hm] Hc Hn H. pose proof (session_inv calls) as I. pose proof (session_vinv calls) as V. fold s in I, V.
  rewrite (tempo_exec _ s s' Ok I V H) in H. unfold run_attr in H.
  assert (ND : NoDup (current s)) by (apply (NoDup_map_inv (org s)); apply (vi_cur s V)).
  destruct (tempo_each t (current s) s s' ND) as (A1 & A2 & A3 & A4); [intros p Hp; apply (in_cur s p I Hp)|exact H|].
  assert (E : existsb (Nat.eqb q) (current s) = true) by (apply existsb_exists; exists q; split; [exact Hc|apply Nat.eqb_refl]).
  specialize (A4 q). rewrite E in A4. split; [|split].
  - split; [rewrite A3; exact Hq|]. rewrite A4. exact Hm.
  - unfold timeline. rewrite A2. reflexivity.
  - intros o. unfold own_tempo. rewrite A4. cbn [ptvals set_povr record_tempo set_ptvals set_ptempo pcur ptempo]. apply aset_get.
Qed.

(** Tempo-free music leaves the tempo map alone. *)
Record calm (q : pid) (tv : list (num * num)) (g : global_attrs) (s : score) : Prop := Calm {
  ca_inv : inv s; ca_vinv : vinv s; ca_ok : tvals_ok s;
  ca_closed : forall p, In p (parts s) -> closed s p;
  ca_leads : leads s q; ca_tv : ptvals (getp s q) = tv; ca_glob : globals s = g }.

Lemma vend_same : forall s, vinv s -> (forall p, In p (parts s) -> closed s p) -> run_voice_end s = s.
Proof.
  intros s V Cl.
  assert (H : forall p, In p (current s) -> getv s (pvoices (getp s p)) = []).
  { intros p Hp. destruct (vi_link s V p Hp) as (q & Hq & L). destruct (Cl q Hq) as [C _]. destruct L as [->|[n Hn]]; [exact C|].
    rewrite C in Hn. destruct Hn. }
  unfold run_voice_end. generalize (List.length (current s)) 0%nat.
  induction n as [|k IH]; intros i; cbn [voice_end_loop]; [reflexivity|].
  destruct (nth_error (current s) i) as [p|] eqn:E; [|reflexivity].
  unfold voice_end_one. rewrite H by (eapply nth_error_In; exact E). apply IH.
Qed.

Lemma calm_step : forall q tv g s s', calm q tv g s -> lstep tempo_free s s' -> calm q tv g s'.
Proof.
  intros q tv g s s' [I V K C [Hq Hm] T G] H.
  pose proof (step_inv s s' I (lstep_step _ _ _ H)) as [I' _]. pose proof (step_vinv s s' I V (lstep_step _ _ _ H)) as [V' _].
  pose proof (step_ok _ s s' I V H K) as K'.
  assert (Gen : parts s' = parts s -> vheap s' = vheap s -> globals s' = globals s ->
    (forall r, pmaster (getp s' r) = pmaster (getp s r) /\ ptvals (getp s' r) = ptvals (getp s r) /\ pvoices (getp s' r) = pvoices (getp s r) /\ ptmpl (getp s' r) = ptmpl (getp s r)) ->
    calm q tv g s').
  { intros P1 P2 P3 P4. constructor; try assumption.
    - intros p Hp. rewrite P1 in Hp. destruct (C p Hp) as [C1 C2]. destruct (P4 p) as (_ & _ & E1 & E2). split.
      + unfold cellof, getv in *. rewrite E1, P2. exact C1.
      + rewrite E2. exact C2.
    - split; [rewrite P1; exact Hq|]. destruct (P4 q) as (-> & _). exact Hm.
    - destruct (P4 q) as (_ & -> & _). exact T.
    - rewrite P3. exact G. }
  assert (Set1 : forall p v, (p < List.length (heap s))%nat -> pmaster v = pmaster (getp s p) -> ptvals v = ptvals (getp s p) -> pvoices v = pvoices (getp s p) -> ptmpl v = ptmpl (getp s p) ->
    s' = setp p v s -> calm q tv g s').
  { intros p v Hp E1 E2 E3 E4 ->. apply Gen; try reflexivity. intros r. rewrite getp_setp by exact Hp.
    destruct (Nat.eqb r p) eqn:E; [apply Nat.eqb_eq in E; subst r|]; repeat split; assumption. }
  destruct H.
  - destruct H1 as [E|[[] _]]. destruct H0 as (A1 & A2 & A3 & A4 & A5 & A6 & A7 & A8).
    apply (Set1 p v); [apply (in_cur s p I H)|assumption|assumption|assumption|assumption|reflexivity].
  - apply (Set1 p (set_pexplicit true (set_pchan c (getp s p)))); [apply (in_cur s p I H)| | | | |]; reflexivity.
  - pose proof (in_cur s p I H) as Hp. apply emit_shape in H0. cbv zeta in H0.
    destruct H0 as [[-> _]|(c & us & _ & _ & _ & _ & _ & E)]; [constructor; try assumption; split; assumption|].
    assert (Ho : (porigin (getp s p) < List.length (heap s))%nat) by (destruct (getp_good s p I Hp) as (D & _); exact D).
    apply Gen; try (rewrite E; reflexivity). intros r. rewrite E.
    assert (E2 : getp (set_events (events s ++ [NoteEvent (porigin (getp s p)) c (calc_midi_note pi (poctave (getp s p)) (pkey (getp s p)) (ptransp (getp s p))) (pcur (getp s p)) dms (if sl then dms else nmul dms (pquant (getp s p))) (pvol (getp s p)) (ptvol (getp s p)) (ppan (getp s p))])
       (modp (porigin (getp s p)) (set_pchan c) (modp p (set_pchan c) (set_usage us s)))) r = getp (modp (porigin (getp s p)) (set_pchan c) (modp p (set_pchan c) (set_usage us s))) r) by reflexivity.
    rewrite E2. rewrite getp_modp by (unfold modp, setp; cbn; rewrite upd_nth_length; exact Ho).
    rewrite getp_modp by exact Hp. change (getp (set_usage us s) r) with (getp s r).
    destruct (Nat.eqb r (porigin (getp s p))), (Nat.eqb r p); repeat split.
  - destruct H0.
  - apply Gen; try reflexivity. intros r; repeat split.
  - apply Gen; try reflexivity. intros r; repeat split.
  - apply Gen; try reflexivity. intros r; repeat split.
  - destruct H1.
  - rewrite (vend_same s V C). constructor; try assumption. split; assumption.
  - destruct (run_part_shape _ _ _ _ I V H) as (ps & s1 & new & al & E & Hs' & _).
    destruct (run_part_vinv _ _ _ _ I V H) as (_ & _ & C' & _). rewrite (vend_same s V C) in E, Hs'. cbv zeta in *.
    destruct (determine_parts_grows _ _ _ _ _ I V E) as (Gr & _).
    destruct (grows_tables _ _ Gr) as (_ & _ & _ & _ & _ & _ & Gg & _).
    assert (Hne : exists x l, parts s = x :: l) by (destruct (parts s); [destruct Hq|eauto]). destruct Hne as (x & l & Ep).
    rewrite Ep in Hs'. rewrite <- Ep in Hs'.
    assert (Eq : getp s' q = getp s q).
    { rewrite Hs'. change (getp s1 q = getp s q). apply (grows_old _ _ _ Gr). apply (in_parts s q I Hq). }
    constructor; try assumption.
    + split; [rewrite Hs'; cbn; apply in_or_app; left; exact Hq|]. rewrite Eq. exact Hm.
    + rewrite Eq. exact T.
    + rewrite Hs'. cbn. rewrite Gg. exact G.
Qed.

Lemma c35_kept : forall calls later q o, let s := session calls in leads s q -> no_voices s ->
  stored tempo_free s -> Forall (Forall (upd_all tempo_free)) later ->
  leads (continue s later) q /\ at_tempo (continue s later) o = at_tempo s o /\
  own_tempo (continue s later) q o = own_tempo s q o /\ timeline (continue s later) = timeline s.
Proof.
  intros calls later q o s Hq Hv Hst Hl.
  assert (St : lstar tempo_free s (continue s later)).
  { apply continue_lstar; [exact Hl|]. apply stored_store; [intros c; exact Logic.I|exact Hst]. }
  pose proof (session_vinv calls) as V. fold s in V.
  assert (C0 : calm q (ptvals (getp s q)) (globals s) s).
  { constructor; try reflexivity; try assumption; [apply session_inv|apply session_ok|].
    intros p Hp. destruct (vi_state s V p Hp) as [C|[(t & _ & Ne & _) _]]; [exact C|]. exfalso. apply Ne, Hv, Hp. }
  assert (C1 : calm q (ptvals (getp s q)) (globals s) (continue s later)).
  { eapply (lstar_inv tempo_free (calm q (ptvals (getp s q)) (globals s))); [|exact St|exact C0]. intros a b; apply calm_step. }
  destruct C1 as [I' V' K' _ L' T' G'].
  assert (TL : timeline (continue s later) = timeline s) by (unfold timeline; rewrite G'; reflexivity).
  split; [exact L'|]. split; [|split; [unfold own_tempo; rewrite T'; reflexivity|exact TL]].
  unfold at_tempo. rewrite !itinerary_timeline, TL.
  assert (E : forall k, aget neqb k (own_map (continue s later)) = aget neqb k (own_map s)).
  { intros k. rewrite (own_map_get _ q k V' K' L'), (own_map_get _ q k V (session_ok calls) Hq). unfold own_tempo. rewrite T'. reflexivity. }
  assert (F : forall tl a b g, (forall k, aget neqb k a = aget neqb k b) ->
    forall k, aget neqb k (snd (fold_left ti_pair tl (g, a))) = aget neqb k (snd (fold_left ti_pair tl (g, b)))).
  { induction tl as [|[o' u] tl IH]; intros a b g0 Hab k; [apply Hab|]. cbn [fold_left]. unfold ti_pair at 2 4. cbn [fst snd].
    destruct u; cbn [ti_update]; apply IH; try exact Hab; intros k'; rewrite !aset_get, Hab; reflexivity. }
  apply F. exact E.
Qed.

Lemma c35_announced : exact_equality -> forall calls t p rest s', let s := session calls in
  current s = p :: rest -> nisnan (pcur (getp s p)) = false -> exec [UPrim (GAttr (PTempo t))] s = (s', Ok) ->
  at_tempo s' (pcur (getp s p)) = Some t.
Proof.
  intros EX calls t p rest s' s Hc Hn H. destruct (c17_record LO EX calls (PTempo t) s' p rest Hc Hn H) as [E _].
  unfold placed_at in E. eapply c35_global; [exact E| |exact Hn].
  intros o' u Hi _. apply filter_In in Hi. destruct Hi as [_ Hi]. destruct (neqb o' (pcur (getp s p))) eqn:Q; [|reflexivity].
  apply (lo_eq LO) in Q. destruct Q as [Q _]. fold s in Hi. rewrite Q in Hi. discriminate.
Qed.

(* ---------------- tempo messages ---------------- *)

Definition ascending : list num -> Prop := StronglySorted (fun a b => nltb b a = false).

Lemma insert_num_perm : forall x l, Permutation (x :: l) (insert_num x l).
Proof.
  intros x l. induction l as [|y l IH]; cbn [insert_num]; [apply Permutation_refl|]. destruct (nltb x y); [apply Permutation_refl|].
  eapply perm_trans; [apply perm_swap|]. constructor. exact IH.
Qed.
Lemma sort_perm : forall l, Permutation l (sort_nums l).
Proof. induction l as [|x l IH]; [constructor|]. cbn. eapply perm_trans; [constructor; exact IH|apply insert_num_perm]. Qed.
Lemma insert_num_sorted : forall x l, nisnan x = false -> (forall y, In y l -> nisnan y = false) -> ascending l -> ascending (insert_num x l).
Proof.
  intros x l Hx Hl S. induction S as [|y l S IH F]; cbn [insert_num]; [constructor; constructor|].
  destruct (nltb x y) eqn:E.
  - constructor; [constructor; assumption|]. constructor; [apply (lt_not LO), (lo_lt LO _ _ E)|].
    rewrite Forall_forall in *. intros z Hz. apply (lt_not LO). eapply (lo_trans LO); [apply (lo_lt LO _ _ E)|].
    apply (lo_total LO); [apply Hl; right; exact Hz|apply Hl; left; reflexivity|apply F, Hz].
  - constructor; [apply IH; intros; apply Hl; right; assumption|]. rewrite Forall_forall in *. intros z Hz.
    apply (Permutation_in z (Permutation_sym (insert_num_perm x l))) in Hz. destruct Hz as [<-|Hz]; [exact E|apply F, Hz].
Qed.
Lemma sort_sorted : forall l, (forall y, In y l -> nisnan y = false) -> ascending (sort_nums l).
Proof.
  induction l as [|x l IH]; intros H; [constructor|]. cbn. apply insert_num_sorted; [apply H; left; reflexivity| |apply IH; intros; apply H; right; assumption].
  intros y Hy. apply H. right. eapply Permutation_in; [apply Permutation_sym, sort_perm|exact Hy].
Qed.

Lemma first_spec : forall start l acc, nisnan start = false -> (forall y, In y l -> nisnan y = false) -> ascending l ->
  nleb acc start = true -> (forall y, In y l -> nleb acc y = true) ->
  let f := first_tempo start l acc in
  (f = acc \/ In f l) /\ nleb f start = true /\ nleb acc f = true /\ forall y, In y l -> nleb y start = true -> nleb y f = true.
Proof.
  intros start l. induction l as [|x l IH]; intros acc Hs Hl S Ha Hx; cbn [first_tempo].
  - split; [left; reflexivity|]. split; [exact Ha|]. split; [apply (le_refl LO); apply (lo_le LO) in Ha; tauto|intros y []].
  - inversion S as [|? ? S' F]; subst. pose proof (Hl x (or_introl eq_refl)) as Nx. rewrite Forall_forall in F.
    assert (Xy : forall y, In y l -> nleb x y = true) by (intros y Hy; apply (lo_total LO); [apply Hl; right; exact Hy|exact Nx|apply F, Hy]).
    destruct (nltb start x) eqn:E.
    + split; [left; reflexivity|]. split; [exact Ha|]. split; [apply (le_refl LO); apply (lo_le LO) in Ha; tauto|].
      assert (Bad : forall y, In y (x :: l) -> nleb y start = true -> False).
      { intros y Hy Hys. assert (nleb x y = true) by (destruct Hy as [<-|Hy]; [apply (le_refl LO), Nx|apply Xy, Hy]).
        destruct (lo_lt LO _ _ E) as [_ E']. rewrite (lo_trans LO _ _ _ H Hys) in E'. discriminate. }
      intros y Hy Hys. destruct (Bad y Hy Hys).
    + assert (Hxs : nleb x start = true) by (apply (lo_total LO); assumption).
      destruct (IH x Hs (fun y Hy => Hl y (or_intror Hy)) S' Hxs Xy) as (A & B & C & D).
      split; [destruct A as [-> |A]; right; [left; reflexivity|right; exact A]|]. split; [exact B|].
      split; [eapply (lo_trans LO); [apply Hx; left; reflexivity|exact C]|].
      intros y [<-|Hy] Hys; [exact C|apply D; assumption].
Qed.

Lemma loop_filter : forall it first start stop l, nisnan first = false -> nisnan stop = false -> (forall y, In y l -> nisnan y = false) -> ascending l ->
  tempo_loop it first start stop l =
  map (fun o => tempo_message start (o, match aget neqb o it with Some x => x | None => n0 end)) (filter (fun o => nltb o stop && nleb first o) l).
Proof.
  intros it first start stop l Hf Hs Hl S. induction S as [|x l S IH F]; [reflexivity|]. cbn [tempo_loop filter].
  pose proof (Hl x (or_introl eq_refl)) as Nx. rewrite (lt_iff LO x first Nx Hf), (lt_iff LO x stop Nx Hs).
  destruct (nleb first x) eqn:E1; cbn [negb]; [|rewrite andb_false_r; apply IH; intros; apply Hl; right; assumption].
  rewrite andb_true_r. destruct (nleb stop x) eqn:E2; cbn [negb].
  - replace (filter _ l) with (@nil num); [reflexivity|]. symmetry. apply filter_nil. intros y Hy. rewrite Forall_forall in F.
    rewrite (lt_iff LO y stop (Hl y (or_intror Hy)) Hs).
    rewrite (lo_trans LO stop x y E2); [reflexivity|]. apply (lo_total LO); [apply Hl; right; exact Hy|exact Nx|apply F, Hy].
  - cbn [map]. unfold tempo_message at 1. cbn [fst snd]. f_equal. apply IH. intros; apply Hl; right; assumption.
Qed.

Lemma tempos : forall s start stop, let it := tempo_itinerary s in
  nisnan start = false -> nisnan stop = false -> (forall x, In x it -> nleb n0 (fst x) = true) -> nleb n0 start = true ->
  exists l, Permutation it l /\ StronglySorted (fun a b => nltb (fst b) (fst a) = false) l /\
    tempo_messages s start stop = map (tempo_message start) (filter (fun x => concerns it start stop (fst x)) l).
Proof.
  intros s start stop it Hs Ht Hp Hz.
  assert (Hn : forall x, In x it -> nisnan (fst x) = false) by (intros x Hx; apply Hp in Hx; apply (lo_le LO) in Hx; tauto).
  set (offs := sort_nums (map fst it)). set (val := fun o => (o, match aget neqb o it with Some x => x | None => n0 end)).
  assert (Po : Permutation (map fst it) offs) by apply sort_perm.
  assert (Hno : forall y, In y (map fst it) -> nisnan y = false).
  { intros y Hy. apply in_map_iff in Hy. destruct Hy as (x & <- & Hx). apply Hn, Hx. }
  assert (Hno' : forall y, In y offs -> nisnan y = false) by (intros y Hy; apply Hno; eapply Permutation_in; [apply Permutation_sym; exact Po|exact Hy]).
  assert (So : ascending offs) by (apply sort_sorted; exact Hno).
  exists (map val offs).
  assert (Pv : Permutation it (map val offs)).
  { replace it with (map val (map fst it)) at 1; [apply Permutation_map; exact Po|]. rewrite map_map.
    transitivity (map (fun x => x) it); [|apply map_id]. apply map_ext_in. intros [k v] Hx. unfold val. cbn [fst].
    rewrite (apart_get it k v); [reflexivity|apply itinerary_apart|exact Hx|apply (Hn (k, v) Hx)]. }
  split; [exact Pv|]. split.
  - clear - So. induction So as [|x l S IH F]; cbn [map]; [constructor|]. constructor; [exact IH|].
    apply Forall_forall. intros y Hy. apply in_map_iff in Hy. destruct Hy as (z & <- & Hz). cbn. rewrite Forall_forall in F. apply F, Hz.
  - unfold tempo_messages. fold it. fold offs.
    destruct (first_spec start offs n0 Hs Hno' So Hz) as (A & B & C & D).
    { intros y Hy. apply (Permutation_in y (Permutation_sym Po)) in Hy. apply in_map_iff in Hy. destruct Hy as (x & <- & Hx). apply Hp, Hx. }
    set (f := first_tempo start offs n0) in *. assert (Nf : nisnan f = false) by (apply (lo_le LO) in B; tauto).
    assert (A' : exists y, In y offs /\ neqb y f = true).
    { destruct A as [A|A]; [|exists f; split; [exact A|apply self_eq, Nf]].
      assert (Hk : aget neqb n0 it <> None).
      { unfold it. rewrite itinerary_timeline.
        assert (Z0 : nisnan n0 = false) by (apply (lo_le LO) in Hz; tauto).
        assert (G0 : aget neqb n0 (own_map s) <> None).
        { unfold own_map.
          assert (H0 : aget neqb n0 [(n0, nofZ 120)] <> None) by (cbn; rewrite self_eq by exact Z0; discriminate).
          revert H0. generalize ([(n0, nofZ 120)] : list (num * num)). induction (parts s) as [|p l IH]; intros m Hm; [exact Hm|]. cbn [fold_left]. apply IH.
          destruct (pmaster (getp s p)); [|exact Hm]. revert m Hm. induction (ptvals (getp s p)) as [|[o t] tv IHt]; intros m Hm; [exact Hm|]. cbn [fold_left]. apply IHt.
          rewrite aset_get. destruct (neqb o n0); [discriminate|exact Hm]. }
        revert G0. generalize (nofZ 120). generalize (own_map s). induction (timeline s) as [|[o u] tl IH]; intros m g Hm; [exact Hm|]. cbn [fold_left].
        unfold ti_pair at 2. cbn [fst snd]. destruct u; cbn [ti_update]; apply IH; try exact Hm; rewrite aset_get; destruct (neqb o n0); try discriminate; exact Hm. }
      destruct (aget neqb n0 it) as [v|] eqn:Ev; [|congruence]. clear Hk.
      assert (Ex : exists k, In k (map fst it) /\ neqb k n0 = true).
      { clear - Ev. induction it as [|[k w] it IH]; [discriminate|]. cbn [aget] in Ev. destruct (neqb k n0) eqn:E.
        - exists k. split; [left; reflexivity|exact E].
        - destruct (IH Ev) as (k' & A & B). exists k'. split; [right; exact A|exact B]. }
      destruct Ex as (k & Hk & Ek). exists k. split; [eapply Permutation_in; [exact Po|exact Hk]|]. rewrite A. exact Ek. }
    rewrite (loop_filter it f start stop offs Nf Ht Hno' So).
    assert (M : forall g l, map (fun o => tempo_message start (o, match aget neqb o it with Some x => x | None => n0 end)) (filter g l) = map (tempo_message start) (filter (fun x => g (fst x)) (map val l))).
    { intros g l. induction l as [|x l IH]; [reflexivity|]. cbn [map filter]. cbn [fst val]. unfold val at 1. cbn [fst]. destruct (g x); cbn [map]; rewrite IH; reflexivity. }
    rewrite M. f_equal. apply filter_ext_in. intros x Hx. unfold concerns.
    assert (Hxo : In (fst x) offs) by (apply in_map_iff in Hx; destruct Hx as (y & <- & Hy); exact Hy).
    assert (Nx : nisnan (fst x) = false) by (apply Hno', Hxo).
    f_equal. apply Bool.eq_iff_eq_true. rewrite orb_true_iff, andb_true_iff, forallb_forall. split.
    + intros Hf. destruct (nltb start (fst x)) eqn:E; [left; reflexivity|right]. split; [apply (lo_total LO); assumption|].
      intros y Hy. apply negb_true_iff. apply andb_false_iff.
      destruct (nleb (fst y) start) eqn:E2; [left|right; reflexivity].
      apply (lt_not LO). eapply (lo_trans LO); [apply D; [|exact E2]|exact Hf].
      eapply Permutation_in; [exact Po|]. apply in_map, Hy.
    + intros [E|[E1 E2]].
      * eapply (lo_trans LO); [exact B|]. apply (lo_lt LO _ _ E).
      * destruct A' as (y & Hy & Ey). apply (Permutation_in y (Permutation_sym Po)) in Hy. apply in_map_iff in Hy. destruct Hy as (z & <- & Hz').
        specialize (E2 z Hz'). apply (lo_eq LO) in Ey. destruct Ey as [Ey1 Ey2].
        assert (Zs : nleb (fst z) start = true) by (eapply (lo_trans LO); [exact Ey1|exact B]). rewrite Zs, andb_true_r in E2. apply negb_true_iff in E2.
        eapply (lo_trans LO); [exact Ey2|]. apply (lo_total LO); [exact Nx|apply Hn, Hz'|exact E2].
Qed.

Lemma c33 : forall t s s' b start stop notes, transmits t s s' (ROk b) -> asked t s start stop notes ->
  (t_sync t <> [] -> filter is_tempo b = []) /\
  (t_sync t = [] -> nleb n0 start = true -> (forall x, In x (tempo_itinerary s) -> nleb n0 (fst x) = true) ->
   exists l, Permutation (tempo_itinerary s) l /\ StronglySorted (fun a b => nltb (fst b) (fst a) = false) l /\
     filter is_tempo b = map (tempo_message start) (filter (fun x => concerns (tempo_itinerary s) start stop (fst x)) l)).
Proof.
  intros t s s' b start stop notes H A. destruct (bundle LO _ _ _ _ _ _ _ H A) as (es & P & S & ->).
  assert (E : forall T, filter is_tempo (T ++ sends s start (t_sync t) [] es ++ ending t start es) = filter is_tempo T).
  { intros T. rewrite !filter_app.
    rewrite (filter_nil _ _ (ending _ _ _)) by (intros m Hm; apply (ending_kind _ _ _ _ Hm)).
    rewrite (filter_nil _ _ (sends _ _ _ _ _)) by (intros m Hm; apply sends_kind in Hm; destruct m; try discriminate; reflexivity).
    rewrite !app_nil_r. reflexivity. }
  rewrite E. split.
  - intros Hsy. destruct (t_sync t) as [|x l]; [congruence|]. reflexivity.
  - intros Hsy Hz Hp. rewrite Hsy. cbn [nonempty]. destruct A as [_ _ (R1 & R2 & _)].
    destruct (tempos s start stop R1 R2 Hp Hz) as (l & L1 & L2 & L3). exists l. split; [exact L1|]. split; [exact L2|].
    rewrite filter_all; [exact L3|]. intros m Hm. apply tempo_kind in Hm. exact Hm.
Qed.
End Tempo.

(* ---------------- counterexamples ---------------- *)
Local Open Scope string_scope.
Local Open Scope list_scope.

Definition cq (l : letter) : update (N := B64) := UPrim (Note (PLetter l None) (Some [CLen (nofZ 4) 0]) false).

Lemma split_nth {A} : forall n (b : list A) x, nth_error b n = Some x -> b = firstn n b ++ x :: skipn (S n) b.
Proof.
  induction n; intros [|y b] x E; try discriminate.
  - inversion E; reflexivity.
  - cbn [firstn skipn app]. f_equal. apply IHn. exact E.
Qed.

Definition louder : score (N := B64) :=
  session [[UPart ["piano"] ""; UPrim (Attr (PTrackVol (nlit 500 1000))); cq LC; UPrim (Attr (PTrackVol (nlit 501 1000))); cq LD]].
Definition all_of_it : transmission (N := B64) := Transmission "" "" 0 2 [] false false.
Definition louder_bundle : list (msg (N := B64)) := bundle_of all_of_it louder n0 nmaxval (slice 0 2 (events louder)).

Lemma louder_sent : exists s', transmits all_of_it louder s' (ROk louder_bundle).
Proof. apply transmit_now; vm_compute; reflexivity. Qed.
Definition volume_at (n : nat) (b : list (msg (N := B64))) : Z * Z * Z * Z :=
  match nth_error b n with Some (MVolume a c d e) => (a, c, d, e) | _ => (-1, -1, -1, -1) end.
Lemma volume_at_nth : forall n b a c d e, 0 <= a -> volume_at n b = (a, c, d, e) -> nth_error b n = Some (MVolume a c d e).
Proof.
  intros n b a c d e Ha. unfold volume_at. destruct (nth_error b n) as [[]|]; intros E; inversion E; subst; try discriminate; try reflexivity; exfalso; apply Ha; reflexivity.
Qed.
Lemma louder_again : volume_at 5 louder_bundle = (1, 0, 500, 64).
Proof. vm_compute. reflexivity. Qed.
Lemma louder_before : latest (volume_on 0) (firstn 5 louder_bundle) = Some 64.
Proof. vm_compute. reflexivity. Qed.

Lemma c31_volume_refuted : exists (t : transmission (N := B64)) s s' b p tr ch off v q,
  transmits t s s' (ROk b) /\ b = p ++ MVolume tr ch off v :: q /\ latest (volume_on ch) p = Some v.
Proof.
  destruct louder_sent as [s' Tr].
  exists all_of_it, louder, s', louder_bundle, (firstn 5 louder_bundle), 1, 0, 500, 64, (skipn 6 louder_bundle).
  split; [exact Tr|]. split; [|exact louder_before].
  apply (split_nth 5 louder_bundle (MVolume 1 0 500 64)). apply volume_at_nth; [discriminate|exact louder_again].
Qed.

Lemma leads_first : forall {N : Num} s p, parts s = [p] -> pmaster (getp s p) = true -> leads s p.
Proof. intros N s p E M. split; [rewrite E; left; reflexivity|exact M]. Qed.

Lemma c35_both_refuted : exists calls, let s := session (N := B64) calls in
  leads s 0%nat /\ own_tempo s 0%nat n0 = Some (nofZ 200) /\ ptempo (getp s 0%nat) = nofZ 200 /\
  map (fun e => ev_dur e) (events s) = [nofZ 300] /\ at_tempo s n0 = Some (nofZ 60).
Proof.
  exists [[UPart ["piano"] ""; UPrim (GAttr (PTempo (nofZ 60))); UPrim (Attr (PTempo (nofZ 200))); cq LC]].
  cbv zeta. split; [apply leads_first; vm_compute; reflexivity|]. split; [vm_compute; reflexivity|]. split; [vm_compute; reflexivity|].
  split; vm_compute; reflexivity.
Qed.

Lemma c35_voice_refuted : exists calls, let s := session (N := B64) calls in
  map (fun e => (ev_off e, ev_dur e)) (events s) = [(n0, nofZ 500); (nofZ 500, nofZ 250); (n0, nofZ 500); (nofZ 500, nofZ 500)] /\
  parts s = [3%nat] /\ map (fun x => (fst x, snd x)) (tempo_itinerary s) = [(n0, nofZ 120)].
Proof.
  exists [[UPart ["piano"] ""; UVoice 1; cq LC; UPrim (Attr (PTempo (nofZ 240))); cq LD; UVoice 2; cq LE; cq LF; UVoiceEnd]].
  cbv zeta. split; [vm_compute; reflexivity|]. split; vm_compute; reflexivity.
Qed.

Lemma c35_modulation_refuted : exists calls, let s := session (N := B64) calls in
  leads s 0%nat /\ ptempo (getp s 0%nat) = nofZ 480 /\ at_tempo s (nofZ 500) = Some (nofZ 240) /\ at_tempo s (nofZ 750) = Some (nofZ 240).
Proof.
  exists [[UPart ["piano"] ""; cq LC; UPrim (GAttr (PMetric (nofZ 2))); cq LC; UPrim (GAttr (PMetric (nofZ 2))); cq LC]].
  cbv zeta. split; [apply leads_first; vm_compute; reflexivity|]. split; [vm_compute; reflexivity|]. split; vm_compute; reflexivity.
Qed.
