(** Proof of C48, fourth part: unpitched percussion notes. *)
From Coq Require Import ZArith List String Bool Lia Arith.
From Verif Require Import Base Num ModelPitch ModelDuration ModelInstruments ModelTypes ModelLisp
  ModelScore ModelImporter SpecScore SpecVars SpecParts SpecSolo SpecTiming SpecImporter ProofHeap ProofStep ProofInv ProofEvents
  ProofVoices ProofVars ProofSafe ProofTracks ProofSolo ProofTiming ProofImporter ProofImporter2 ProofImporter3.
Import ListNotations.
Local Open Scope list_scope.

(* ------------------------- note numbers ------------------------- *)

Definition laa_ok (n : Z) : bool :=
  let '(l, a, oct) := laa n in
  ((fold_left apply_accidental (match a with Some x => x | None => [] end)
     (wrap32 (wrap32 (wrap32 (oct + 1) * 12) + letter_interval l)) =? n) && (0 <=? oct))%Z.
Lemma laa_all : forallb laa_ok (map (fun i => Z.of_nat i + 24)%Z (seq 0 104)) = true.
Proof. vm_compute. reflexivity. Qed.
Lemma laa_right : forall n, (24 <= n <= 127)%Z -> laa_ok n = true.
Proof.
  intros n H. pose proof laa_all as X. rewrite forallb_forall in X. apply X. apply in_map_iff. exists (Z.to_nat (n - 24)).
  split; [lia|]. apply in_seq. lia.
Qed.

Section Mid.
Context {N : Num} {FG : Forget}.
Hypothesis zero_law : forall t l,
  nadd (fold_left (fun acc c => nadd acc (comp_ms t c)) l n0) n0
  = fold_left (fun acc c => nadd acc (comp_ms t c)) l n0.
Hypothesis min_law : forall a b, nmin (nmin a b) b = nmin a b.
Variable D : num -> Prop.
Variable deref : string -> score -> score * outcome.
Variable dd : list (string * list update) -> string -> part -> dres.
Notation run1 := (run_upd deref dd).
Notation runs := (runs deref dd).
Notation cgo := (cgo deref dd).
Notation srun := (srun deref dd).
Notation sruns := (sruns deref dd).
Variable b : bool.
Variable k : keysig.
Hypothesis perc_forget : b = true -> forget = true.
Hypothesis perc_key : b = true -> forall l, ks_get k l = None.
Notation F1 := (F1 D b).

(** After an octave change all current parts are in that octave. *)
Definition meets (n : Z) (t : score) : Prop := forall p, In p (current t) -> poctave (getp t p) = n.
Lemma oct_each : forall n l t, b = true -> (forall p, In p l -> (p < List.length (heap t))%nat /\ iperc (pstock (getp t p)) = true) ->
  exists t1, each (fun p s => seqo (do_update_part (POctave n) false p s) (fun s => (modp p (set_povr (Some (POctave n))) s, Ok))) l t = (t1, Ok) /\
    R t t1 /\ forall p, (In p l \/ poctave (getp t p) = n) -> poctave (getp t1 p) = n.
Proof.
  intros n l. induction l as [|p l IH]; intros t B H.
  { exists t. split; [reflexivity|]. split; [apply R_refl|]. intros p [[]|X]; exact X. }
  cbn [each do_update_part update_part seqo].
  set (t0 := modp p (set_povr (Some (POctave n))) (setp p (set_poctave n (getp t p)) t)).
  assert (L : List.length (heap t0) = List.length (heap t)) by (unfold t0; rewrite heap_modp, heap_setp; reflexivity).
  destruct (H p (or_introl eq_refl)) as [Hp Ip].
  assert (K : keeps pstock t t0).
  { unfold t0. eapply keeps_trans; [apply (keeps_setp _ _ p (set_poctave n (getp t p)) t); reflexivity|apply keeps_modp; reflexivity]. }
  assert (G : forall q, (q = p \/ poctave (getp t q) = n) -> poctave (getp t0 q) = n).
  { intros q Hq. unfold t0. rewrite (getp_modp_field _ poctave) by reflexivity. destruct (Nat.eq_dec p q) as [->|Hn].
    - rewrite getp_setp_same by exact Hp. reflexivity.
    - rewrite getp_setp_other by exact Hn. destruct Hq as [->|Hq]; [contradiction Hn; reflexivity|exact Hq]. }
  assert (RT : R t t0).
  { unfold t0. apply R_sym. eapply R_trans; [apply R_same; apply e1_intro; reflexivity|]. apply R_same. apply e1_intro; try reflexivity.
    unfold hid. cbn. rewrite Ip, (perc_forget B). discriminate. }
  destruct (IH t0 B) as [t1 [E [R1 M]]].
  { intros q Hq. rewrite L, (K q). apply H. right; exact Hq. }
  exists t1. split; [exact E|]. split; [eapply R_trans; eassumption|]. intros q Hq. apply M.
  destruct Hq as [[Hq|Hq]|Hq]; [right; apply G; left; auto|left; exact Hq|right; apply G; right; exact Hq].
Qed.
Lemma oct_set : forall n t, b = true -> playing b k t -> exists t1, run1 (UPrim (Attr (POctave n))) t = (t1, Ok) /\ R t t1 /\ kept t t1 /\ keeps pdur t t1 /\ meets n t1.
Proof.
  intros n t B [_ P]. destruct (oct_each n (current t) t B) as [t1 [E [R1 M]]].
  { intros p Hp. destruct (P p Hp) as [A [_ C]]. rewrite B in C. auto. }
  exists t1. assert (E' : run_attr (POctave n) t = (t1, Ok)) by exact E.
  destruct (mild_kept (POctave n) t eq_refl) as [K [K1 _]]. rewrite E' in K, K1. cbn [fst] in K, K1.
  split; [exact E|]. split; [exact R1|]. split; [exact K|]. split; [exact K1|]. intros p Hp. apply M. left. rewrite (kept_cur _ _ K) in Hp. exact Hp.
Qed.

Definition G3 (u : update) : Prop := (is_nr u = true -> has_length (nr_dur u) = true) /\ dnums D (nr_dur u).
Definition oct_known (o : opt_state) (t : score) : Prop := b = true -> o_oct o = (-1)%Z \/ meets (o_oct o) t.
Lemma F1_G3 : forall u, F1 u -> G3 u.
Proof. intros u H. split; [|apply H]. intros X. eapply F1_length; eassumption. Qed.
Lemma mid_attr : forall o u, plain_attr u = true -> snd (mid_upd o u) = [u] /\ (fst (mid_upd o u) = o \/ fst (mid_upd o u) = reset_oct o).
Proof. intros o u H. destruct u as [[| |[]|]| | | | | | | | | | | | | | |]; try discriminate H; cbn; auto. Qed.
Lemma mid_nr : forall o u, is_nr u = true -> F1 u ->
  exists hoist v Zp, snd (mid_upd o u) = hoist ++ [v] /\ forallb is_oct hoist = true /\ is_nr v = true /\ nr_dur v = nr_dur u /\
   (forall t, playing b k t -> oct_known o t -> exists t1, runs hoist t = (t1, Ok) /\ R t t1 /\ kept t t1 /\ Zp t1 /\
      forall m, covered t m -> fst (cgo hoist m t) = m /\ covered t1 m) /\
   (forall t t', current t' = current t -> keeps poctave t t' -> Zp t -> Zp t') /\
   (forall s t, playing b k s -> R s t -> Zp t -> like u v s t) /\
   (forall t, Zp t -> oct_known (fst (mid_upd o u)) t).
Proof.
  intros o u H Fu.
  assert (Plain : snd (mid_upd o u) = [u] -> (fst (mid_upd o u) = o \/ fst (mid_upd o u) = reset_oct o) ->
    exists hoist v Zp, snd (mid_upd o u) = hoist ++ [v] /\ forallb is_oct hoist = true /\ is_nr v = true /\ nr_dur v = nr_dur u /\
   (forall t, playing b k t -> oct_known o t -> exists t1, runs hoist t = (t1, Ok) /\ R t t1 /\ kept t t1 /\ Zp t1 /\
      forall m, covered t m -> fst (cgo hoist m t) = m /\ covered t1 m) /\
   (forall t t', current t' = current t -> keeps poctave t t' -> Zp t -> Zp t') /\
   (forall s t, playing b k s -> R s t -> Zp t -> like u v s t) /\
   (forall t, Zp t -> oct_known (fst (mid_upd o u)) t)).
  { intros E1 E2. exists [], u, (oct_known o). rewrite E1. split; [reflexivity|]. split; [reflexivity|]. split; [exact H|]. split; [reflexivity|].
    split; [|split; [|split]].
    - intros t P W. exists t. split; [reflexivity|]. split; [apply R_refl|]. split; [apply kept_refl|]. split; [exact W|]. intros m V. split; [reflexivity|exact V].
    - intros t t' A B W Hb. destruct (W Hb) as [X|X]; [left; exact X|right]. intros p Hp. rewrite A in Hp. rewrite (B p). apply X, Hp.
    - intros s t P Q _. eapply like_self; eassumption.
    - intros t W. destruct E2 as [->| ->]; [exact W|]. intros _. left. reflexivity. }
  destruct u as [[p d sl|d| | ]| | | | | | | | | | | | | | |]; try discriminate H.
  - destruct p as [l a|n].
    + apply Plain; [reflexivity|]. cbn [mid_upd fst]. destruct (has_bar _); auto.
    + destruct Fu as [Fu Fd]. cbn [flat_event pitch_written] in Fu. apply andb_prop in Fu. destruct Fu as [Fu Fl]. apply andb_prop in Fu. destruct Fu as [Fu Fn].
      apply andb_prop in Fu. destruct Fu as [Fb Fm]. clear Plain.
      assert (Hn : (24 <= n <= 127)%Z) by lia. pose proof (laa_right n Hn) as L. unfold laa_ok in L.
      cbn [mid_upd]. destruct (laa n) as [[l a] oct] eqn:E. apply andb_prop in L. destruct L as [L1 L2]. apply Z.eqb_eq in L1.
      set (v := UPrim (Note (PLetter l a) d sl)).
      assert (Like : forall s t, playing b k s -> R s t -> meets oct t -> like (UPrim (Note (PMidi n) d sl)) v s t).
      { intros s t P Q M. split; [reflexivity|]. split; [reflexivity|]. split; [reflexivity|]. intros pd Hp. cbn [nr_of v nr_like]. split; [reflexivity|].
        pose proof (R_getp _ _ pd Q) as X. rewrite <- (e1_transp _ _ X), <- (e1_key _ _ X). destruct P as [_ P]. destruct (P pd Hp) as [_ [-> _]].
        rewrite (R_current _ _ Q) in Hp. rewrite (M pd Hp). unfold calc_midi_note. unfold ks_index. rewrite (perc_key Fb l).
        destruct a as [a|]; rewrite L1; reflexivity. }
      assert (After : forall t, meets oct t -> oct_known (if has_bar v then reset_oct o else set_ooct oct o) t).
      { intros t M _. destruct (has_bar v); [left; reflexivity|right; exact M]. }
      assert (Closed : forall t t', current t' = current t -> keeps poctave t t' -> meets oct t -> meets oct t').
      { intros t t' A B M p Hp. rewrite A in Hp. rewrite (B p). apply M, Hp. }
      destruct (oct =? o_oct o)%Z eqn:Eo; cbn [fst snd].
      * apply Z.eqb_eq in Eo. exists [], v, (meets oct). split; [reflexivity|]. split; [reflexivity|]. split; [reflexivity|]. split; [reflexivity|].
        split; [|split; [exact Closed|split; [exact Like|exact After]]].
        intros t P W. exists t. split; [reflexivity|]. split; [apply R_refl|]. split; [apply kept_refl|].
        split; [|intros m V; split; [reflexivity|exact V]].
        destruct (W Fb) as [X|X]; [lia|]. rewrite Eo. exact X.
      * exists [UPrim (Attr (POctave oct))], v, (meets oct). split; [reflexivity|]. split; [reflexivity|]. split; [reflexivity|]. split; [reflexivity|].
        split; [|split; [exact Closed|split; [exact Like|exact After]]].
        intros t P W. destruct (oct_set oct t Fb P) as [t1 [X1 [X2 [X3 [X4 X5]]]]]. exists t1. rewrite runs_one. split; [exact X1|]. split; [exact X2|]. split; [exact X3|]. split; [exact X5|].
        intros m V. rewrite cgo_one by (rewrite X1; reflexivity). cbn [fst written_dur]. rewrite (lower_covered min_law _ _ V). split; [reflexivity|].
        eapply (mild_covers (POctave oct)); [reflexivity|exact X1|exact V].
  - apply Plain; [reflexivity|]. cbn [mid_upd fst]. destruct (has_bar _); auto.
Qed.
Notation T3 := mid_upd.
Notation CC3 := (CC G3).
Lemma oct_flat : forall a, forallb is_oct a = true -> Forall (fun u => flat u = true /\ G3 u) a.
Proof.
  induction a as [|x a IH]; intros H; [constructor|]. cbn [forallb] in H. apply andb_prop in H. destruct H as [H1 H2].
  apply Forall_cons; [|apply IH, H2]. destruct x as [[| |[]|]| | | | | | | | | | | | | | |]; try discriminate H1. split; [reflexivity|]. split; [discriminate|constructor].
Qed.
Lemma mid_outs : forall o u, flat u = true -> F1 u -> Forall (fun u => flat u = true /\ G3 u) (snd (T3 o u)).
Proof.
  intros o u H Fu. destruct (flat_split u H) as [A|A].
  - destruct (mid_nr o u A Fu) as [a [v [Zp [-> [B [C [E _]]]]]]]. apply Forall_app. split; [apply oct_flat, B|]. apply Forall_cons; [|constructor].
    split; [apply flat_nr, C|]. split; [intros _|]; rewrite E; [apply (F1_length D b); assumption|apply Fu].
  - destruct (mid_attr o u A) as [-> _]. apply Forall_cons; [|constructor]. split; [exact H|apply F1_G3, Fu].
Qed.
Lemma mid_out : forall u o, flat u = true -> F1 u -> True -> Forall (fun v => flat v = true) (snd (T3 o u)).
Proof. intros u o H Fu _. eapply Forall_impl; [|apply mid_outs; eassumption]. intros x X. apply X. Qed.
Lemma evts_of : forall (C : list update -> Prop) l, Forall (fun u => flat u = true /\ G3 u) l -> evts G3 C l.
Proof.
  intros C. induction 1 as [|x l [Hx Gx] Hl IH]; [exact I|]. cbn [evts]. split; [|exact IH].
  destruct x as [[]| | | | | | | | | | | | | | |]; try discriminate Hx; split; assumption.
Qed.
Lemma mid_good : forall u, flat u = true -> F1 u -> good opt_state T3 G3 CC3 (fun _ => True) u.
Proof. intros u H Fu o _. split; [exact I|]. apply evts_of, mid_outs; assumption. Qed.
(** A note or rest, without and with the lengths of a chord. *)
Lemma mid_sim_u : forall u, flat u = true -> F1 u -> sim deref dd b k opt_state T3 (fun _ => True) oct_known u.
Proof.
  intros u H Fu o s t _ P Q W. rewrite srun_flat by exact H. rewrite sruns_flat by (apply mid_out; auto). destruct (flat_split u H) as [A|A].
  - destruct (mid_nr o u A Fu) as [a [v [Zp [E [B [C [Ed [X1 [X2 [X3 X4]]]]]]]]]]. rewrite E, runs_app.
    destruct (X1 t (R_playing _ _ _ _ Q P) W) as [t1 [-> [R1 [K1 [Z1 _]]]]]. cbn [seqo]. rewrite runs_one.
    destruct (length_some _ (F1_length D b u A Fu)) as [l Hl]. rewrite <- Ed in Hl. pose proof (R_trans _ _ _ Q R1) as Q1.
    destruct (note_step zero_law deref dd b k u v s t1 l P Q1 (X3 s t1 P Q1 Z1) Hl) as [Y1 [Y2 [Y3 [Y4 _]]]]. split; [exact Y1|]. intros O. split; [exact Y2|].
    apply X4. eapply X2; [apply (kept_cur _ _ Y3)|exact Y4|exact Z1].
  - destruct (mid_attr o u A) as [-> E]. rewrite runs_one. destruct (attr_step deref dd b k u s t A P Q) as [X [Y [K _]]]. split; [exact X|]. intros O. split; [exact Y|].
    destruct E as [->| ->]; [|intros _; left; reflexivity]. intros Hb. destruct (W Hb) as [Z|Z]; [left; exact Z|right].
    intros p Hp. rewrite (kept_cur _ _ K) in Hp. rewrite <- (Z p Hp).
    destruct u as [[| |[]|]| | | | | | | | | | | | | | |]; try discriminate A; try (destruct Fu as [Fu _]; cbn in Fu; rewrite Hb in Fu; discriminate Fu); [|reflexivity].
    cbn [run_upd run_prim]. apply run_attr_keeps; [|reflexivity]. intros q w Hw. inversion Hw. reflexivity.
Qed.
Lemma mid_m : forall u o s t m, flat u = true -> F1 u -> True -> playing b k s -> R s t -> oct_known o t -> covered t m ->
  snd (run1 u s) = Ok ->
  fst (cgo (snd (T3 o u)) m t) = lower_shortest (written_dur u) s m /\
  covered (fst (snd (cgo (snd (T3 o u)) m t))) (fst (cgo (snd (T3 o u)) m t)).
Proof.
  intros u o s t m H Fu _ P Q W V O. destruct (flat_split u H) as [A|A].
  - destruct (mid_nr o u A Fu) as [a [v [Zp [E [B [C [Ed [X1 [X2 [X3 X4]]]]]]]]]]. rewrite E.
    destruct (X1 t (R_playing _ _ _ _ Q P) W) as [t1 [E1 [R1 [K1 [Z1 M]]]]]. destruct (M m V) as [M1 M2].
    rewrite cgo_app by (rewrite cgo_runs, E1; reflexivity). rewrite cgo_runs, E1, M1. cbn [fst].
    destruct (length_some _ (F1_length D b u A Fu)) as [l Hl]. rewrite <- Ed in Hl. pose proof (R_trans _ _ _ Q R1) as Q1.
    destruct (note_step zero_law deref dd b k u v s t1 l P Q1 (X3 s t1 P Q1 Z1) Hl) as [Y1 [_ [_ [_ Y]]]]. destruct (Y O) as [_ [_ Y5]].
    rewrite cgo_one by (destruct Y1 as [_ <-]; exact O). cbn [fst snd]. apply Y5.
  - destruct (mid_attr o u A) as [-> _]. apply (attr_m zero_law min_law); auto. destruct (attr_step deref dd b k u s t A P Q) as [[_ X] _]. rewrite <- X. exact O.
Qed.
Lemma mid_TL : forall l o, TL opt_state T3 o l = mid_list o l.
Proof.
  induction l as [|x l IH]; intros o; [reflexivity|]. cbn [TL mid_list]. rewrite IH. destruct (mid_upd o x) as [o1 x']. cbn [fst snd]. destruct (mid_list o1 l). reflexivity.
Qed.
Lemma mid_rep : forall o es n, T3 o (URepeat (USeq es) n) = (reset_oct (fst (TL opt_state T3 (reset_oct o) es)), [URepeat (USeq (snd (TL opt_state T3 (reset_oct o) es))) n]).
Proof. intros o es n. rewrite mid_TL. change (T3 o (URepeat (USeq es) n)) with (let (o', es') := mid_list (reset_oct o) es in (reset_oct o', [URepeat (USeq es') n])). destruct (mid_list _ es); reflexivity. Qed.
Lemma mid_on : forall o es n, T3 o (UOnReps n (USeq es)) = (reset_oct (fst (TL opt_state T3 (reset_oct o) es)), [UOnReps n (USeq (snd (TL opt_state T3 (reset_oct o) es)))]).
Proof. intros o es n. rewrite mid_TL. change (T3 o (UOnReps n (USeq es))) with (let (o', es') := mid_list (reset_oct o) es in (reset_oct o', [UOnReps n (USeq es')])). destruct (mid_list _ es); reflexivity. Qed.
Lemma mid_seq : forall o es, T3 o (USeq es) = (reset_oct (fst (TL opt_state T3 (reset_oct o) es)), [USeq (snd (TL opt_state T3 (reset_oct o) es))]).
Proof. intros o es. rewrite mid_TL. change (T3 o (USeq es)) with (let (o', es') := mid_list (reset_oct o) es in (reset_oct o', [USeq es'])). destruct (mid_list _ es); reflexivity. Qed.
Lemma mid_chord : forall o es, T3 o (UChord es) = (reset_oct (fst (TL opt_state T3 (reset_oct o) es)), [UChord (snd (TL opt_state T3 (reset_oct o) es))]).
Proof. intros o es. rewrite mid_TL. change (T3 o (UChord es)) with (let (o', es') := mid_list (reset_oct o) es in (reset_oct o', [UChord es'])). destruct (mid_list _ es); reflexivity. Qed.
Notation C1 := (C1 D b).
Lemma mid_outsl : forall l o, Forall (fun u => flat u = true /\ F1 u) l -> Forall (fun u => flat u = true /\ G3 u) (snd (TL opt_state T3 o l)).
Proof.
  induction l as [|u l IH]; intros o H; cbn [TL snd]; [constructor|]. inversion H as [|x y [Hu Fu] Hl]; subst.
  apply Forall_app. split; [apply mid_outs; assumption|apply IH, Hl].
Qed.
Lemma mid_goodc : forall es, C1 es -> good opt_state T3 G3 CC3 (fun _ => True) (UChord es).
Proof.
  intros es [H Hf] o _. split; [exact I|]. rewrite mid_chord. cbn [snd evts evt]. split; [|exact I].
  destruct es as [|e l]; [contradiction|]. cbn [TL snd]. inversion Hf as [|x y [He Fe] Hl]; subst.
  destruct (mid_nr (reset_oct o) e H Fe) as [a [v [Zp [E [B [C _]]]]]].
  exists a, v, (snd (TL opt_state T3 (fst (T3 (reset_oct o) e)) l)). split; [rewrite E, <- app_assoc; reflexivity|]. split; [exact B|]. split; [exact C|].
  apply Forall_app. split; [apply mid_outs; assumption|]. apply mid_outsl, Hl.
Qed.
Lemma mid_simc : forall es, C1 es -> sim deref dd b k opt_state T3 (fun _ => True) oct_known (UChord es).
Proof.
  intros es [H Hf] o s t _ P Q W. destruct es as [|e l]; [contradiction|]. inversion Hf as [|x y [He Fe] Hl]; subst.
  rewrite mid_chord. cbn [fst snd]. rewrite sruns_one, !srun_chord. rewrite split_nr by exact H. cbn [fst snd].
  unfold ProofImporter.runs at 1. unfold ProofImporter.runs at 2. cbn [each seqo TL snd fst].
  destruct (mid_nr (reset_oct o) e H Fe) as [a [v [Zp [E [B [C [Ed [X1 [X2 [X3 X4]]]]]]]]]]. rewrite E, <- app_assoc. cbn [app].
  rewrite split_app by assumption. cbn [fst snd].
  assert (W0 : oct_known (reset_oct o) t) by (intros _; left; reflexivity).
  destruct (X1 t (R_playing _ _ _ _ Q P) W0) as [t1 [E1 [R1 [K1 [Z1 _]]]]]. rewrite E1. cbn [seqo].
  pose proof (R_trans _ _ _ Q R1) as Q1.
  assert (Y := chord_sim deref dd b k opt_state T3 F1 G3 CC3 (fun _ => True) oct_known mid_good mid_sim_u mid_m mid_out e [v] (fst (T3 (reset_oct o) e)) l s t1 P Q1 I Hl).
  cbn [app] in Y. destruct Y as [Y1 Y2].
  - intros s2 t2 m P2 Q2 K2 L1 L2. rewrite runs_one.
    assert (Z2 : Zp t2) by (eapply X2; [apply (kept_cur _ _ K2)|exact L1|exact Z1]).
    destruct (length_some _ (F1_length D b e H Fe)) as [q Hq]. rewrite <- Ed in Hq.
    destruct (note_step zero_law deref dd b k e v s2 t2 q P2 Q2 (X3 s2 t2 P2 Q2 Z2) Hq) as [U1 [U2 [U3 [U4 U5]]]]. split; [exact U1|]. intros O. destruct (U5 O) as [_ [_ U6]].
    rewrite cgo_one by (destruct U1 as [_ <-]; exact O). cbn [fst]. split; [exact U2|]. split; [|apply U6]. apply X4. eapply X2; [apply (kept_cur _ _ U3)|exact U4|exact Z2].
  - split; [exact Y1|]. intros O. split; [apply Y2, O|]. intros _. left. reflexivity.
Qed.
Theorem mid_sim : forall l, evts F1 C1 l -> forall o, o_oct o = (-1)%Z -> evts G3 CC3 (snd (mid_list o l)) /\ simf b k (sruns l) (sruns (snd (mid_list o l))).
Proof.
  intros l H o O. rewrite <- mid_TL.
  destruct (pass_good opt_state T3 reset_oct reset_oct F1 G3 C1 CC3 (fun _ => True) mid_rep mid_on mid_seq (fun _ x => x) (fun _ x => x) mid_good mid_goodc l H o I) as [_ A].
  split; [exact A|]. intros s t P Q.
  destruct (pass_sim deref dd b k opt_state T3 reset_oct reset_oct F1 G3 C1 CC3 (fun _ => True) oct_known mid_rep mid_on mid_seq (fun _ x => x) (fun _ x => x)
     (fun _ _ _ _ => or_introl eq_refl) (fun _ _ _ _ => or_introl eq_refl) mid_good mid_goodc mid_sim_u mid_simc l H o s t I P Q) as [X Y].
  { intros _. left. exact O. }
  split; [exact X|]. intros Z. apply Y, Z.
Qed.
End Mid.
