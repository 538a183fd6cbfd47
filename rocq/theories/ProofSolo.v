(** The engine acts on every current part separately: a semantics of updates for
    one part alone, which the engine with any number of current parts follows
    for each of them. *)
From Coq Require Import ZArith List String Bool Lia Arith.
From Verif Require Import Base Num ModelPitch ModelDuration ModelInstruments ModelTypes ModelLisp
  ModelScore SpecScore SpecVars SpecParts SpecSolo ProofHeap ProofStep ProofInv ProofEvents ProofVoices
  ProofVars ProofSafe ProofTracks.
Import ListNotations.

Section Solo.
Context {N : Num}.
Local Notation nc := unchanneled.

Record solo := Solo {
  so_part : part; so_glob : global_attrs; so_mark : list (string * num);
  so_vars : list (string * list update); so_chord : bool; so_notes : list heard }.
Definition on_part (f : part -> part) (x : solo) : solo :=
  Solo (f (so_part x)) (so_glob x) (so_mark x) (so_vars x) (so_chord x) (so_notes x).
Definition view (p : pid) (s : score) : solo :=
  Solo (nc (getp s p)) (globals s) (markers s) (variables s) (chordmode s) (notes_of s (porigin (getp s p))).

Definition obind {A B} (o : option A) (k : A -> option B) : option B :=
  match o with Some a => k a | None => None end.

Lemma rok_inj {A} {a b : A} : ROk a = ROk b -> a = b.
Proof. congruence. Qed.
Lemma some_inj {A} {a b : A} : Some a = Some b -> a = b.
Proof. congruence. Qed.

Definition s_update (u : part_update) (g : bool) (p : part) : option part :=
  match update_part u g p with ROk v => Some (nc v) | _ => None end.
Definition s_attr (u : part_update) (x : solo) : option solo :=
  obind (s_update u false (so_part x)) (fun v => Some (on_part (fun _ => set_povr (Some u) v) x)).
Fixpoint s_globs (us : list part_update) (p : part) : option part :=
  match us with
  | [] => Some p
  | u :: t => obind (if overrides (povr p) u then Some p else s_update u true p) (s_globs t)
  end.
Definition s_globals (x : solo) : option solo :=
  let p := so_part x in
  obind (s_globs (in_window (so_glob x) (plast p) (pcur p)) p)
        (fun v => Some (on_part (fun _ => set_povr None v) x)).
Definition s_gattr (u : part_update) (x : solo) : option solo :=
  Some (Solo (so_part x) (ga_record (pcur (so_part x)) u (so_glob x)) (so_mark x) (so_vars x) (so_chord x) (so_notes x)).
Definition s_emit (pi : pitch) (slurred : bool) (dms : num) (x : solo) : option solo :=
  let p := so_part x in
  let aud := if slurred then dms else nmul dms (pquant p) in
  if nltb n0 aud then
    let n := calc_midi_note pi (poctave p) (pkey p) (ptransp p) in
    if ((n <? 0) || (n >? 127))%Z%bool then None
    else Some (Solo p (so_glob x) (so_mark x) (so_vars x) (so_chord x)
                 (so_notes x ++ [Heard n (pcur p) dms aud (pvol p) (ptvol p) (ppan p)]))
  else Some x.
Definition s_note_one (nr : note_or_rest) (d : duration) (x : solo) : option solo :=
  let p := so_part x in
  let ed := effective_dur d p in
  let dms := nmul (dur_ms_of (ptempo p) ed) (pscale p) in
  obind (match nr with Some (pi, sl) => s_emit pi sl dms x | None => Some x end)
        (fun y => Some (on_part (advance_part (so_chord y) dms ed) y)).
Definition s_note (nr : note_or_rest) (d : duration) (x : solo) : option solo :=
  obind (if so_chord x then Some x else s_globals x)
        (fun y => if dur_valid d then s_note_one nr d y else None).
Definition s_prim (q : prim) (x : solo) : option solo :=
  match q with
  | Note pi d sl => s_note (Some (pi, sl)) d x
  | Rest d => s_note None d x
  | Attr u => s_attr u x
  | GAttr u => s_gattr u x
  end.
Definition s_marker (name : string) (x : solo) : option solo :=
  Some (Solo (so_part x) (so_glob x) (aset String.eqb name (pcur (so_part x)) (so_mark x)) (so_vars x)
          (so_chord x) (so_notes x)).
Definition s_at_marker (name : string) (x : solo) : option solo :=
  obind (s_globals x) (fun y =>
  match aget String.eqb name (so_mark y) with
  | None => None
  | Some off => Some (on_part (fun q => set_pcur off (set_plast (pcur q) q)) y)
  end).
Definition s_var_def (name : string) (es : list update) (x : solo) : option solo :=
  match rmapl (var_value (so_vars x)) es with
  | ROk vs => Some (Solo (so_part x) (so_glob x) (so_mark x) (aset String.eqb name vs (so_vars x))
                      (so_chord x) (so_notes x))
  | _ => None
  end.
Definition with_chord (b : bool) (x : solo) : solo :=
  Solo (so_part x) (so_glob x) (so_mark x) (so_vars x) b (so_notes x).

Definition oeach {A} (f : A -> solo -> option solo) : list A -> solo -> option solo :=
  fix go (l : list A) (x : solo) : option solo :=
    match l with [] => Some x | e :: t => obind (f e x) (go t) end.
Definition written_ms (e : update) (p : part) : num :=
  nmul (dur_ms_of (ptempo p) (effective_dur (written_dur e) p)) (pscale p).
Definition ochord (f : update -> solo -> option solo) : list update -> num -> solo -> option solo :=
  fix go (l : list update) (m : num) (x : solo) : option solo :=
    match l with
    | [] => Some (on_part (fun p => set_pcur (nadd (pcur p) m) (set_plast (pcur p) p)) (with_chord false x))
    | e :: t => let m' := nmin m (written_ms e (so_part x)) in obind (f e x) (go t m')
    end.
Fixpoint s_times (f : solo -> option solo) (r : Z) (k : nat) (x : solo) : option solo :=
  match k with
  | O => Some x
  | S k' => obind (f (on_part (set_prep r) x)) (s_times f (r + 1) k')
  end.

Fixpoint s_upd (deref : string -> solo -> option solo)
               (dd : list (string * list update) -> string -> part -> dres)
               (u : update) {struct u} : solo -> option solo :=
  match u with
  | UPrim p => s_prim p
  | UNil | UBarline => fun x => Some x
  | ULisp els => fun x =>
      match eval_update els with ROk (Some q) => s_prim q x | ROk None => Some x | _ => None end
  | UChord es => fun x =>
      obind (s_globals x) (fun x => ochord (s_upd deref dd) es nmaxval (with_chord true x))
  | UCram es d => fun x =>
      match time_scale (dd (so_vars x)) es d (so_part x) with
      | (ts, Ok) =>
          let d0 := pdur (so_part x) in let sc0 := pscale (so_part x) in
          obind (oeach (s_upd deref dd) es (on_part (set_pscale ts) x)) (fun y =>
          Some (on_part (fun p => set_pscale sc0 (set_pdur (match d with Some _ => d | None => d0 end) p)) y))
      | _ => None
      end
  | URepeat e times => fun x =>
      if (times =? max_int32)%Z then None else s_times (s_upd deref dd e) 1 (Z.to_nat times) x
  | UOnReps rs e => fun x => if applies_to rs (prep (so_part x)) then s_upd deref dd e x else Some x
  | USeq es => oeach (s_upd deref dd) es
  | UMarker n => s_marker n
  | UAtMarker n => s_at_marker n
  | UVarDef n es => s_var_def n es
  | UVarRef n => deref n
  | UVoice _ | UVoiceEnd | UPart _ _ => fun _ => None
  end.
Fixpoint s_deref (fuel : nat) (name : string) (x : solo) : option solo :=
  match aget String.eqb name (so_vars x) with
  | None => None
  | Some es => match fuel with O => None | S f => oeach (s_upd (s_deref f) (dur_deref f)) es x end
  end.
Definition s_exec (us : list update) (x : solo) : option solo :=
  oeach (s_upd (s_deref 1) (dur_deref 1)) us x.

(* ---------------- frames ---------------- *)

Record keep (s s' : score) : Prop := Keep {
  k_len : List.length (heap s') = List.length (heap s);
  k_cur : current s' = current s;
  k_org : forall p, porigin (getp s' p) = porigin (getp s p) }.
Lemma keep_refl : forall s, keep s s.
Proof. intros; split; reflexivity. Qed.
Lemma keep_trans : forall a b c, keep a b -> keep b c -> keep a c.
Proof. intros a b c [A1 A2 A3] [B1 B2 B3]. split; [congruence|congruence|]. intros; rewrite B3; apply A3. Qed.

Definition wf (s : score) : Prop :=
  Forall (fun p => (p < List.length (heap s))%nat) (current s) /\ NoDup (map (org s) (current s)).
Lemma keep_wf : forall s s', keep s s' -> wf s -> wf s'.
Proof.
  intros s s' [A B C] [H1 H2]. split; rewrite B.
  - rewrite A. exact H1.
  - rewrite (map_ext (org s') (org s)); [exact H2|]. exact C.
Qed.

(** [s'] differs from [s] only in what belongs to [q]. *)
Record only (q : pid) (s s' : score) : Prop := Only {
  o_keep : keep s s';
  o_glob : globals s' = globals s; o_mark : markers s' = markers s;
  o_vars : variables s' = variables s; o_chord : chordmode s' = chordmode s;
  o_part : forall p, p <> q -> nc (getp s' p) = nc (getp s p);
  o_notes : forall o, o <> porigin (getp s q) -> notes_of s' o = notes_of s o }.
Lemma only_view : forall q s s' p, only q s s' -> org s p <> org s q -> view p s' = view p s.
Proof.
  intros q s s' p [K A B C D E F] H. unfold view.
  rewrite A, B, C, D, E, (k_org _ _ K), F; [reflexivity|exact H|]. intros ->. apply H; reflexivity.
Qed.
Lemma only_refl : forall q s, only q s s.
Proof. intros. split; intros; try reflexivity. apply keep_refl. Qed.
Lemma only_trans : forall q a b c, only q a b -> only q b c -> only q a c.
Proof.
  intros q a b c [K1 A1 B1 C1 D1 E1 F1] [K2 A2 B2 C2 D2 E2 F2].
  split; try congruence; [eapply keep_trans; eassumption| |].
  - intros p H. rewrite E2, E1; auto.
  - intros o H. rewrite F2, F1; auto. rewrite (k_org _ _ K1). exact H.
Qed.
Lemma only_setp : forall q s v, porigin v = porigin (getp s q) -> only q s (setp q v s).
Proof.
  intros q s v H. destruct (Nat.lt_ge_cases q (List.length (heap s))) as [Hq|Hq].
  - split; try reflexivity.
    + split; [apply heap_setp|reflexivity|]. intros p. rewrite getp_setp by exact Hq.
      destruct (Nat.eqb p q) eqn:E; [apply Nat.eqb_eq in E; subst; exact H|reflexivity].
    + intros p Hp. rewrite getp_setp_other by congruence. reflexivity.
  - assert (E : setp q v s = s).
    { unfold setp. rewrite upd_nth_out by exact Hq. destruct s; reflexivity. }
    rewrite E. apply only_refl.
Qed.

Lemma each_only : forall (f : pid -> score -> score * outcome) (F : pid -> solo -> option solo) l s s',
  Forall (fun p => (p < List.length (heap s))%nat) l -> NoDup (map (org s) l) ->
  (forall q s1 s2, In q l -> (q < List.length (heap s1))%nat -> f q s1 = (s2, Ok) ->
     only q s1 s2 /\ F q (view q s1) = Some (view q s2)) ->
  each f l s = (s', Ok) ->
  keep s s' /\ (forall p, In p l -> F p (view p s) = Some (view p s')) /\
  (globals s' = globals s /\ markers s' = markers s /\ variables s' = variables s /\ chordmode s' = chordmode s) /\
  (forall p, ~ In (org s p) (map (org s) l) -> view p s' = view p s).
Proof.
  intros f F l. induction l as [|q l IH]; intros s s' Hl Hn Hf H.
  - cbn in H. inversion H; subst. split; [apply keep_refl|]. split; [intros p []|].
    split; [repeat split|reflexivity].
  - cbn [each seqo] in H. destruct (f q s) as [s1 []] eqn:E; try discriminate. cbn [seqo] in H.
    inversion Hl as [|? ? Hq Hl']; subst. inversion Hn as [|? ? Hnq Hn']; subst.
    destruct (Hf q s s1 (or_introl eq_refl) Hq E) as [O V]. pose proof (o_keep _ _ _ O) as K.
    assert (Eorg : map (org s1) l = map (org s) l) by (apply map_ext; apply (k_org _ _ K)).
    destruct (IH s1 s') as (K2 & V2 & T2 & R2); [rewrite (k_len _ _ K); exact Hl'|rewrite Eorg; exact Hn'| |exact H|].
    { intros. apply Hf; [right; assumption|assumption|assumption]. }
    split; [eapply keep_trans; eassumption|]. split; [|split].
    + intros p [->|Hp].
      * rewrite V. f_equal. symmetry. apply R2. rewrite Eorg. rewrite (k_org _ _ K p : org s1 p = org s p). exact Hnq.
      * rewrite <- V2 by exact Hp. f_equal. symmetry. eapply only_view; [exact O|].
        intros E2. apply Hnq. rewrite <- E2. apply in_map; exact Hp.
    + destruct O as [_ A B C D _ _], T2 as (A2 & B2 & C2 & D2). repeat split; congruence.
    + intros p Hp. rewrite R2.
      * eapply only_view; [exact O|]. intros E2. apply Hp. left. congruence.
      * rewrite Eorg. rewrite (k_org _ _ K p : org s1 p = org s p). intros F2. apply Hp. right. exact F2.
Qed.

(* ---------------- one part ---------------- *)

Lemma nc_nc : forall p, nc (nc p) = nc p.
Proof. reflexivity. Qed.
Lemma update_part_nc : forall u g p v, update_part u g p = ROk v ->
  s_update u g (nc p) = Some (nc v) /\ porigin v = porigin p /\ povr v = povr p.
Proof.
  intros u g p v H. unfold s_update. destruct u; cbn in H |- *; try (inversion H; subst; auto; fail);
    try (destruct g; inversion H; subst; auto; fail).
  destruct (_ && _)%bool; inversion H; subst; auto.
Qed.
Lemma view_setp : forall q v s, (q < List.length (heap s))%nat -> porigin v = porigin (getp s q) ->
  view q (setp q v s) = on_part (fun _ => nc v) (view q s).
Proof.
  intros q v s Hq Ho. unfold view. rewrite getp_setp_same by exact Hq. rewrite Ho. reflexivity.
Qed.
Lemma view_modp : forall q f s, (q < List.length (heap s))%nat -> (forall p, porigin (f p) = porigin p) ->
  (forall p, nc (f p) = nc (f (nc p))) ->
  view q (modp q f s) = on_part (fun p => nc (f p)) (view q s).
Proof.
  intros q f s Hq Ho Hc. unfold modp. rewrite view_setp by auto. unfold on_part, view. cbn. rewrite Hc. reflexivity.
Qed.

Lemma do_update_solo : forall u g q s s', (q < List.length (heap s))%nat -> do_update_part u g q s = (s', Ok) ->
  only q s s' /\ obind (s_update u g (so_part (view q s))) (fun v => Some (on_part (fun _ => v) (view q s))) = Some (view q s').
Proof.
  intros u g q s s' Hq H. unfold do_update_part in H.
  destruct (update_part u g (getp s q)) as [v|m|m] eqn:E; inversion H; subst.
  destruct (update_part_nc _ _ _ _ E) as (A & B & C). split; [apply only_setp; exact B|].
  cbn [view so_part]. rewrite A. cbn [obind]. rewrite view_setp by assumption. reflexivity.
Qed.
Lemma modp_only : forall q f s, (forall p, porigin (f p) = porigin p) -> only q s (modp q f s).
Proof. intros. apply only_setp. apply H. Qed.

Lemma run_attr_solo : forall u s s', wf s -> run_attr u s = (s', Ok) ->
  keep s s' /\ forall p, In p (current s) -> s_attr u (view p s) = Some (view p s').
Proof.
  intros u s s' [W1 W2] H. unfold run_attr in H.
  edestruct (fun A => each_only _ (fun _ => s_attr u) _ _ _ W1 W2 A H) as (K & V & _); [|split; [exact K|exact V]].
  intros q s1 s2 _ Hq E. destruct (do_update_part u false q s1) as [s3 []] eqn:E3; try discriminate.
  cbn [seqo] in E. inversion E; subst s2. destruct (do_update_solo _ _ _ _ _ Hq E3) as [O V].
  split.
  - eapply only_trans; [exact O|]. apply modp_only. reflexivity.
  - unfold s_attr. destruct (s_update u false (so_part (view q s1))) as [v|]; [|discriminate].
    cbn [obind] in *. pose proof (some_inj V) as V'. clear V. rewrite view_modp; [|rewrite (k_len _ _ (o_keep _ _ _ O)); exact Hq|reflexivity|reflexivity].
    rewrite <- V'. f_equal. unfold on_part. cbn. f_equal. symmetry. 
    apply (f_equal so_part) in V'. cbn in V'. rewrite V'. reflexivity.
Qed.

Lemma globs_solo : forall q us s s', (q < List.length (heap s))%nat ->
  each (fun u s => if overrides (povr (getp s q)) u then (s, Ok) else do_update_part u true q s) us s = (s', Ok) ->
  only q s s' /\ obind (s_globs us (so_part (view q s))) (fun v => Some (on_part (fun _ => v) (view q s))) = Some (view q s').
Proof.
  intros q us. induction us as [|u us IH]; intros s s' Hq H; cbn [each seqo] in H.
  - inversion H; subst. split; [apply only_refl|]. reflexivity.
  - cbn [s_globs]. cbn [view so_part] in *. change (povr (nc (getp s q))) with (povr (getp s q)).
    destruct (overrides (povr (getp s q)) u) eqn:Eo.
    + cbn [seqo] in H. cbn [obind]. apply IH; assumption.
    + destruct (do_update_part u true q s) as [s1 []] eqn:E; try discriminate. cbn [seqo] in H.
      destruct (do_update_solo _ _ _ _ _ Hq E) as [O V]. cbn [view so_part] in V.
      destruct (IH s1 s') as [O2 V2]; [rewrite (k_len _ _ (o_keep _ _ _ O)); exact Hq|exact H|].
      split; [eapply only_trans; eassumption|].
      destruct (s_update u true (nc (getp s q))) as [v|]; [|discriminate]. cbn [obind] in *.
      pose proof (some_inj V) as V'. clear V.
      assert (Ep : v = nc (getp s1 q)) by (apply (f_equal so_part) in V'; exact V'). subst v. rewrite <- V2.
      destruct (s_globs us (nc (getp s1 q))); [|reflexivity]. cbn [obind]. f_equal.
      unfold on_part. cbn. apply (f_equal (on_part (fun _ => p))) in V'. exact V'.
Qed.

Lemma apply_globals_solo : forall s s', wf s -> apply_globals s = (s', Ok) ->
  keep s s' /\ (forall p, In p (current s) -> s_globals (view p s) = Some (view p s')) /\
  globals s' = globals s /\ markers s' = markers s /\ variables s' = variables s /\ chordmode s' = chordmode s.
Proof.
  intros s s' [W1 W2] H. unfold apply_globals in H.
  edestruct (fun A => each_only _ (fun _ => s_globals) _ _ _ W1 W2 A H) as (K & V & T & _); [|split; [exact K|split; [exact V|exact T]]].
  intros q s1 s2 _ Hq E. unfold apply_globals_to in E.
  match type of E with seqo ?r _ = _ => destruct r as [s3 []] eqn:E3; try discriminate end.
  cbn [seqo] in E. inversion E; subst s2. destruct (globs_solo _ _ _ _ Hq E3) as [O V].
  split.
  - eapply only_trans; [exact O|]. apply modp_only. reflexivity.
  - unfold s_globals. cbn [view so_part so_glob] in *.
    change (plast (nc (getp s1 q))) with (plast (getp s1 q)). change (pcur (nc (getp s1 q))) with (pcur (getp s1 q)).
    destruct (s_globs _ (nc (getp s1 q))) as [v|]; [|discriminate].
    cbn [obind] in *. pose proof (some_inj V) as V'. clear V.
    rewrite view_modp; [|rewrite (k_len _ _ (o_keep _ _ _ O)); exact Hq|reflexivity|reflexivity].
    rewrite <- V'. f_equal. unfold on_part. cbn. f_equal.
    apply (f_equal so_part) in V'. cbn in V'. rewrite V'. reflexivity.
Qed.

(** Emitting. *)
Lemma notes_of_app : forall s s' e o, events s' = events s ++ [e] ->
  notes_of s' o = notes_of s o ++ (if Nat.eqb (ev_part e) o then [hear e] else []).
Proof.
  intros s s' e o H. unfold notes_of. rewrite H, filter_app, map_app. cbn [filter].
  destruct (Nat.eqb (ev_part e) o); reflexivity.
Qed.
Lemma emit_solo : forall pi sl dms q s s', (q < List.length (heap s))%nat -> emit_note pi sl dms q s = (s', Ok) ->
  only q s s' /\ s_emit pi sl dms (view q s) = Some (view q s').
Proof.
  intros pi sl dms q s s' Hq H. unfold emit_note in H. unfold s_emit. cbn [view so_part].
  change (pquant (nc (getp s q))) with (pquant (getp s q)).
  destruct (nltb n0 (if sl then dms else nmul dms (pquant (getp s q)))); [|inversion H; subst; split; [apply only_refl|reflexivity]].
  change (calc_midi_note pi (poctave (nc (getp s q))) (pkey (nc (getp s q))) (ptransp (nc (getp s q))))
    with (calc_midi_note pi (poctave (getp s q)) (pkey (getp s q)) (ptransp (getp s q))).
  destruct (_ || _)%bool; [discriminate|].
  destruct (assign_channel _ _ _) as [[c s1]|m|m] eqn:E; [|discriminate|discriminate].
  apply (f_equal fst) in H. cbn [fst] in H.
  assert (S1 : exists us, s1 = set_usage us s).
  { unfold assign_channel, rbind in E. destruct (determine_channel _ _ _) as [a|m|m]; try discriminate.
    destruct (negb (chan_ok a)); try discriminate.
    destruct (existsb _ _); apply rok_inj in E; apply pair_equal_spec in E; destruct E as [_ <-]; [exists (usage s); destruct s; reflexivity|eexists; reflexivity]. }
  destruct S1 as [us ->]. clear E.
  set (e := NoteEvent _ _ _ _ _ _ _ _ _) in *.
  set (s2 := modp (porigin (getp s q)) (set_pchan c) (modp q (set_pchan c) (set_usage us s))) in *.
  subst s'.
  assert (G : forall p, nc (getp s2 p) = nc (getp s p) /\ porigin (getp s2 p) = porigin (getp s p)).
  { intros p. unfold s2.
    assert (G1 : forall r x t, nc (getp (modp r (set_pchan x) t) p) = nc (getp t p) /\ porigin (getp (modp r (set_pchan x) t) p) = porigin (getp t p)).
    { intros r x t. destruct (Nat.lt_ge_cases r (List.length (heap t))) as [Hr|Hr].
      - rewrite getp_modp by exact Hr. destruct (Nat.eqb p r); split; reflexivity.
      - unfold modp, setp, getp. cbn. rewrite upd_nth_out by exact Hr. split; reflexivity. }
    destruct (G1 (porigin (getp s q)) c (modp q (set_pchan c) (set_usage us s))) as [A B].
    destruct (G1 q c (set_usage us s)) as [A2 B2]. split; [rewrite A, A2|rewrite B, B2]; reflexivity. }
  assert (L : List.length (heap s2) = List.length (heap s)) by (unfold s2; rewrite !heap_modp; reflexivity).
  assert (Ev : events (set_events (events s2 ++ [e]) s2) = events s ++ [e]) by reflexivity.
  split.
  - split; try reflexivity.
    + split; [exact L|reflexivity|]. intros p. apply (G p).
    + intros p _. apply (G p).
    + intros o Ho. rewrite (notes_of_app s _ e o Ev). cbn [e ev_part].
      destruct (Nat.eqb_spec (porigin (getp s q)) o); [congruence|]. apply app_nil_r.
  - f_equal. unfold view.
    change (getp (set_events (events s2 ++ [e]) s2) q) with (getp s2 q).
    destruct (G q) as [A B]. rewrite A, B.
    rewrite (notes_of_app s _ e _ Ev). cbn [e ev_part]. rewrite Nat.eqb_refl. reflexivity.
Qed.

Lemma note_one_solo : forall nr d q s s', (q < List.length (heap s))%nat -> note_one nr d q s = (s', Ok) ->
  only q s s' /\ s_note_one nr d (view q s) = Some (view q s').
Proof.
  intros nr d q s s' Hq H. unfold note_one in H. unfold s_note_one.
  change (effective_dur d (so_part (view q s))) with (effective_dur d (getp s q)).
  change (ptempo (so_part (view q s))) with (ptempo (getp s q)).
  change (pscale (so_part (view q s))) with (pscale (getp s q)).
  set (ed := effective_dur d (getp s q)) in *. set (dms := nmul (dur_ms_of (ptempo (getp s q)) ed) (pscale (getp s q))) in *.
  match type of H with seqo ?r _ = _ => destruct r as [s1 []] eqn:E; try discriminate end.
  cbn [seqo] in H. inversion H; subst s'; clear H.
  assert (K : only q s s1 /\ (match nr with Some (pi, sl) => s_emit pi sl dms (view q s) | None => Some (view q s) end) = Some (view q s1)).
  { destruct nr as [[pi sl]|]; [apply emit_solo; assumption|]. inversion E; subst. split; [apply only_refl|reflexivity]. }
  destruct K as [O V]. rewrite V. cbn [obind].
  assert (Ho : forall p, porigin (advance_part (chordmode s1) dms ed p) = porigin p).
  { intros p. unfold advance_part, update_default_dur. destruct (chordmode s1), ed; reflexivity. }
  split; [eapply only_trans; [exact O|apply modp_only; exact Ho]|].
  rewrite view_modp; [|rewrite (k_len _ _ (o_keep _ _ _ O)); exact Hq|exact Ho|].
  - f_equal. unfold on_part. cbn [so_part so_glob so_mark so_vars so_chord so_notes view]. f_equal.
    unfold advance_part, update_default_dur. destruct (chordmode s1), ed; reflexivity.
  - intros p. unfold advance_part, update_default_dur. destruct (chordmode s1), ed; reflexivity.
Qed.

Lemma add_note_solo : forall nr d s s', wf s -> add_note_or_rest nr d s = (s', Ok) ->
  keep s s' /\ forall p, In p (current s) -> s_note nr d (view p s) = Some (view p s').
Proof.
  intros nr d s s' W H. unfold add_note_or_rest in H.
  match type of H with seqo ?r _ = _ => destruct r as [s1 []] eqn:E; try discriminate end. cbn [seqo] in H.
  assert (K : keep s s1 /\ forall p, In p (current s) -> (if chordmode s then Some (view p s) else s_globals (view p s)) = Some (view p s1)).
  { destruct (chordmode s) eqn:Ec; [inversion E; subst; split; [apply keep_refl|reflexivity]|].
    apply apply_globals_solo in E; [|exact W]. split; apply E. }
  destruct K as [K V]. pose proof (keep_wf _ _ K W) as W1. destruct (dur_valid d) eqn:Ed; [|discriminate].
  destruct W1 as [W1 W2].
  edestruct (fun A => each_only _ (fun _ => s_note_one nr d) _ _ _ W1 W2 A H) as (K2 & V2 & _).
  { intros q s2 s3 _ Hq E3. eapply note_one_solo; eassumption. }
  split; [eapply keep_trans; eassumption|].
  intros p Hp. unfold s_note. cbn [view so_chord]. fold (view p s). rewrite V by exact Hp. cbn [obind]. rewrite Ed.
  apply V2. rewrite (k_cur _ _ K). exact Hp.
Qed.

(* ---------------- durations ignore the channel ---------------- *)

Definition dnc (r : dres) : dres := match r with (p, d, o) => (nc p, d, o) end.
Definition com (f : part -> dres) : Prop := forall p, f (nc p) = dnc (f p).
Lemma dseq_com : forall r k k', (forall p d, k (nc p) d = dnc (k' p d)) -> dseq (dnc r) k = dnc (dseq r k').
Proof. intros [[p d] []] k k' H; cbn; auto. Qed.
Lemma note_dur_com : forall d, com (note_dur d).
Proof. intros [d|] p; reflexivity. Qed.
Lemma prim_dur_com : forall q, com (prim_dur q).
Proof. intros [pi d sl|d|u|u] p; try reflexivity; apply note_dur_com. Qed.
Lemma dur_repeat_com : forall f k r acc p, com f -> dur_repeat f r k (nc p) acc = dnc (dur_repeat f r k p acc).
Proof.
  intros f k. induction k as [|k IH]; intros r acc p H; [reflexivity|]. cbn [dur_repeat].
  change (set_prep r (nc p)) with (nc (set_prep r p)). rewrite H. apply dseq_com. intros. apply IH, H.
Qed.
Lemma dur_sum_com : forall f l, Forall (fun u => com (f u)) l ->
  forall acc p, dur_sum f l (nc p) acc = dnc (dur_sum f l p acc).
Proof.
  intros f l H. induction H as [|u l Hu Hl IH]; intros acc p; [reflexivity|]. cbn [dur_sum]. rewrite Hu.
  apply dseq_com. intros. apply IH.
Qed.
Lemma dur_upd_com : forall dr u, (forall n, com (dr n)) -> com (dur_upd dr u).
Proof.
  intros dr u Hd. induction u using update_ind'; intros q0; cbn [dur_upd]; try reflexivity.
  - apply prim_dur_com.
  - destruct (eval_update els) as [[q|]|m|m]; try reflexivity. apply prim_dur_com.
  - generalize (@nmaxval N). revert q0. induction H as [|u l Hu Hl IH]; intros q0 acc; [reflexivity|].
    rewrite Hu. apply dseq_com. intros. apply IH.
  - rewrite dur_repeat_com by assumption. apply dseq_com. intros. destruct (_ =? _)%Z; reflexivity.
  - change (prep (nc q0)) with (prep q0). destruct (applies_to _ _); [apply IHu|reflexivity].
  - generalize (@n0 N). revert q0. induction H as [|u l Hu Hl IH]; intros q0 acc; [reflexivity|].
    rewrite Hu. apply dseq_com. intros. apply IH.
  - apply Hd.
Qed.
Lemma dur_deref_com : forall fuel vars n, com (dur_deref fuel vars n).
Proof.
  induction fuel as [|f IH]; intros vars n q0; cbn [dur_deref]; destruct (aget _ _ _); try reflexivity.
  apply dur_sum_com. apply Forall_forall. intros u _. apply dur_upd_com. intros; apply IH.
Qed.
Lemma time_scale_nc : forall dr es d p, (forall n, com (dr n)) -> time_scale dr es d (nc p) = time_scale dr es d p.
Proof.
  intros dr es d p H. unfold time_scale, inner_dur.
  change (set_povr None (nc p)) with (nc (set_povr None p)). rewrite dur_sum_com.
  - destruct (dur_sum _ _ _ _) as [[q x] []]; reflexivity.
  - apply Forall_forall. intros u _. apply dur_upd_com, H.
Qed.

(* ---------------- the engine follows the semantics for one part ---------------- *)

Lemma f_equal5_solo : forall a b c d e f a' b' c' d' e' f',
  a = a' -> b = b' -> c = c' -> d = d' -> e = e' -> f = f' -> Solo a b c d e f = Solo a' b' c' d' e' f'.
Proof. intros; subst; reflexivity. Qed.
Section Follow.
Variable L : label -> Prop.
Variable full : Prop.

(** One current part, or nothing that depends on the number of parts. *)
Definition fit (s : score) : Prop :=
  full -> (exists p, current s = [p]) \/
  ((forall rs, ~ L (LOnReps rs)) /\ (exact_equality \/ (~ L LGlobal /\ forall n, ~ L (LMark n)))).
Lemma keep_fit : forall s s', keep s s' -> fit s -> fit s'.
Proof. intros s s' K F Hf. destruct (F Hf) as [[p H]|H]; [left; exists p; rewrite (k_cur _ _ K); exact H|right; exact H]. Qed.

Record okay (s : score) : Prop := Okay { ok_wf : wf s; ok_store : store_all L s; ok_fit : fit s }.
Lemma keep_okay : forall s s', keep s s' -> store_all L s' -> okay s -> okay s'.
Proof. intros s s' K St [A B C]. split; [eapply keep_wf; eassumption|exact St|eapply keep_fit; eassumption]. Qed.

Definition moved (F : solo -> option solo) (s s' : score) : Prop :=
  keep s s' /\ forall p, In p (current s) -> F (view p s) = Some (view p s').
Definition acts (f : score -> score * outcome) (F : solo -> option solo) : Prop :=
  forall s s', okay s -> f s = (s', Ok) -> store_all L s' /\ moved F s s'.

Lemma acts_refl : forall F, (forall x, F x = Some x) -> acts (fun s => (s, Ok)) F.
Proof.
  intros F HF s s' O H. inversion H; subst. split; [apply O|]. split; [apply keep_refl|]. intros; apply HF.
Qed.
Lemma moved_trans : forall F G s1 s2 s3, moved F s1 s2 -> moved G s2 s3 -> moved (fun x => obind (F x) G) s1 s3.
Proof.
  intros F G s1 s2 s3 [K1 V1] [K2 V2]. split; [eapply keep_trans; eassumption|].
  intros p Hp. rewrite V1 by exact Hp. cbn [obind]. apply V2. rewrite (k_cur _ _ K1). exact Hp.
Qed.
Lemma acts_seq : forall f g F G, acts f F -> acts g G -> acts (fun s => seqo (f s) g) (fun x => obind (F x) G).
Proof.
  intros f g F G Hf Hg s s' O H. destruct (f s) as [s1 []] eqn:E; try discriminate. cbn [seqo] in H.
  destruct (Hf _ _ O E) as [S1 M1]. destruct (Hg s1 s') as [S2 M2]; [eapply keep_okay; [apply M1|exact S1|exact O]|exact H|].
  split; [exact S2|]. eapply moved_trans; eassumption.
Qed.
Lemma acts_ext : forall f g F G, (forall s, g s = f s) -> (forall x, F x = G x) -> acts f F -> acts g G.
Proof.
  intros f g F G Hf HF A s s' O H. rewrite Hf in H. destruct (A _ _ O H) as [S [K V]]. split; [exact S|].
  split; [exact K|]. intros; rewrite <- HF; auto.
Qed.
Lemma acts_list : forall (f : update -> score -> score * outcome) F l, Forall (fun u => acts (f u) (F u)) l ->
  acts (each f l) (oeach F l).
Proof.
  intros f F l H. induction H as [|u l Hu Hl IH].
  - apply acts_refl. reflexivity.
  - apply (acts_seq _ _ _ _ Hu IH).
Qed.

Lemma prim_acts : forall q, prim_all L q -> (full \/ match q with GAttr _ => False | _ => True end) -> acts (run_prim q) (s_prim q).
Proof.
  intros q Hq Hf s s' O H. split.
  { eapply star_store; [eapply (run_lstar L 0 (UPrim q)); [exact Hq|exact H|apply O]|apply O]. }
  destruct q as [pi d sl|d|u|u]; cbn [run_prim s_prim] in *.
  - apply add_note_solo in H; [exact H|apply O].
  - apply add_note_solo in H; [exact H|apply O].
  - apply run_attr_solo in H; [exact H|apply O].
  - unfold run_gattr in H. destruct (current s) as [|p rest] eqn:Ec.
    { inversion H; subst. split; [split; reflexivity|]. rewrite Ec. intros ? []. }
    destruct (same_offset s (pcur (getp s p)) rest) eqn:E; [|discriminate]. inversion H; subst.
    split; [split; reflexivity|]. rewrite Ec. intros r Hr.
    assert (Eo : pcur (getp s r) = pcur (getp s p)).
    { destruct Hr as [->|Hr]; [reflexivity|]. unfold same_offset in E. rewrite forallb_forall in E.
      destruct Hf as [Hf|[]]. destruct (ok_fit _ O Hf) as [[p0 F]|[_ [F|[F _]]]].
      - rewrite Ec in F. inversion F; subst. destruct Hr.
      - apply F, E, Hr.
      - destruct Hq as [Hq _]. contradiction. }
    apply (f_equal Some). unfold view. apply f_equal5_solo; try reflexivity.
    cbn [so_part so_glob]. change (pcur (nc (getp s r))) with (pcur (getp s r)). rewrite Eo. reflexivity.
Qed.

Lemma marker_acts : forall n, full -> L (LMark n) -> acts (run_marker n) (s_marker n).
Proof.
  intros n Hf Hn s s' O H. split.
  { eapply star_store; [eapply (run_lstar L 0 (UMarker n)); [exact Hn|exact H|apply O]|apply O]. }
  unfold run_marker in H. destruct (current s) as [|p rest] eqn:Ec; [discriminate|].
  destruct (same_offset s (pcur (getp s p)) rest) eqn:E; [|discriminate]. inversion H; subst.
  split; [split; reflexivity|]. rewrite Ec. intros r Hr.
  assert (Eo : pcur (getp s r) = pcur (getp s p)).
  { destruct Hr as [->|Hr]; [reflexivity|]. unfold same_offset in E. rewrite forallb_forall in E.
    destruct (ok_fit _ O Hf) as [[p0 F]|[_ [F|[_ F]]]].
    - rewrite Ec in F. inversion F; subst. destruct Hr.
    - apply F, E, Hr.
    - exfalso. eapply F; exact Hn. }
  apply (f_equal Some). unfold view. apply f_equal5_solo; try reflexivity.
  cbn [so_part so_mark]. change (pcur (nc (getp s r))) with (pcur (getp s r)). rewrite Eo. reflexivity.
Qed.

Lemma each_modp_moved : forall (f : pid -> part -> part) s s',
  wf s -> (forall q p, porigin (f q p) = porigin p) -> (forall q p, nc (f q p) = nc (f q (nc p))) ->
  each (fun q s => (modp q (f q) s, Ok)) (current s) s = (s', Ok) ->
  (keep s s' /\ (globals s' = globals s /\ markers s' = markers s /\ variables s' = variables s /\ chordmode s' = chordmode s)) /\
  forall p, In p (current s) -> view p s' = on_part (fun x => nc (f p x)) (view p s).
Proof.
  intros f s s' [W1 W2] Ho Hc H.
  edestruct (fun A => each_only _ (fun q x => Some (on_part (fun x => nc (f q x)) x)) _ _ _ W1 W2 A H) as (K & V & T & _).
  { intros q s1 s2 _ Hq E. cbv beta in E. inversion E; subst s2. split; [apply modp_only, Ho|].
    rewrite view_modp by auto. reflexivity. }
  split; [split; [exact K|exact T]|]. intros p Hp. symmetry. apply some_inj. apply V, Hp.
Qed.

Lemma at_marker_acts : forall n, L (LJump n) -> acts (run_at_marker n) (s_at_marker n).
Proof.
  intros n Hn s s' O H. split.
  { eapply star_store; [eapply (run_lstar L 0 (UAtMarker n)); [exact Hn|exact H|apply O]|apply O]. }
  unfold run_at_marker in H. destruct (apply_globals s) as [s1 []] eqn:E; try discriminate. cbn [seqo] in H.
  apply apply_globals_solo in E; [|apply O]. destruct E as (K & V & _).
  destruct (aget String.eqb n (markers s1)) as [off|] eqn:Em; [|discriminate].
  apply (each_modp_moved (fun _ => _)) in H; [|eapply keep_wf; [exact K|apply O]|reflexivity|reflexivity].
  destruct H as [[K2 _] V2]. split; [eapply keep_trans; eassumption|].
  intros p Hp. unfold s_at_marker. rewrite V by exact Hp. cbn [obind]. cbn [view so_mark]. fold (view p s1). rewrite Em.
  rewrite V2 by (rewrite (k_cur _ _ K); exact Hp). reflexivity.
Qed.

Lemma var_def_acts : forall n es, L (LDef n) -> Forall (upd_all L) es -> acts (run_var_def n es) (s_var_def n es).
Proof.
  intros n es Hn Hes s s' O H. split.
  { eapply star_store; [eapply (run_lstar L 0 (UVarDef n es)); [|exact H|apply O]|apply O].
    cbn [upd_all]. rewrite upd_all_list. split; assumption. }
  unfold run_var_def in H. destruct (rmapl (var_value (variables s)) es) as [vs|m|m] eqn:E; inversion H; subst.
  split; [split; reflexivity|]. intros p Hp. unfold s_var_def. cbn [view so_vars]. rewrite E. reflexivity.
Qed.

Lemma set_prep_acts : forall r, acts (fun s => each (fun p s => (modp p (set_prep r) s, Ok)) (current s) s)
                                     (fun x => Some (on_part (set_prep r) x)).
Proof.
  intros r s s' O H. pose proof H as H0. apply (each_modp_moved (fun _ => set_prep r)) in H; [|apply O|reflexivity|reflexivity].
  destruct H as [[K (B & _ & A & _)] V]. split.
  { destruct (ok_store _ O) as [C D]. split; [rewrite A; exact C|rewrite B; exact D]. }
  split; [exact K|]. intros p Hp. rewrite V by exact Hp. reflexivity.
Qed.
Lemma times_acts : forall f F k r, acts f F -> acts (run_times f r k) (s_times F r k).
Proof.
  intros f F k. induction k as [|k IH]; intros r H.
  - apply acts_refl. reflexivity.
  - cbn [run_times s_times]. eapply acts_ext; [| |apply (acts_seq _ _ _ _ (set_prep_acts r) (acts_seq _ _ _ _ H (IH (r + 1)%Z H)))].
    + intros s. reflexivity.
    + intros x. reflexivity.
Qed.

Lemma pget_aset : forall A (dflt : A) p q x m, pget dflt p (aset Nat.eqb q x m) = if Nat.eqb p q then x else pget dflt p m.
Proof.
  intros. unfold pget. destruct (Nat.eqb_spec p q) as [->|Hn].
  - rewrite aget_aset_same; [reflexivity|apply Nat.eqb_refl].
  - rewrite aget_aset_other; [reflexivity|apply Nat.eqb_eq|congruence].
Qed.
Lemma lower_get : forall d s p l m, NoDup l ->
  pget n0 p (fold_left (fun m pd => let q := getp s pd in
     let dms := nmul (dur_ms_of (ptempo q) (effective_dur d q)) (pscale q) in
     aset Nat.eqb pd (nmin (pget n0 pd m) dms) m) l m)
  = if existsb (Nat.eqb p) l then
      nmin (pget n0 p m) (nmul (dur_ms_of (ptempo (getp s p)) (effective_dur d (getp s p))) (pscale (getp s p)))
    else pget n0 p m.
Proof.
  intros d s p l. induction l as [|q l IH]; intros m Hn; [reflexivity|].
  inversion Hn as [|? ? Hq Hn']; subst. cbn [fold_left existsb]. rewrite IH by exact Hn'. cbv zeta. rewrite pget_aset.
  destruct (Nat.eqb_spec p q) as [->|Hpq]; cbn [orb]; [|reflexivity].
  destruct (existsb (Nat.eqb q) l) eqn:E; [|reflexivity].
  apply existsb_exists in E. destruct E as [r [Hr E]]. apply Nat.eqb_eq in E; subst. contradiction.
Qed.
Lemma pget_map : forall A (dflt : A) f p l, In p l -> pget dflt p (map (fun q => (q, f q)) l) = f p.
Proof.
  intros A dflt f p l H. unfold pget. induction l as [|q l IH]; [destruct H|]. cbn [map aget].
  destruct (Nat.eqb_spec q p) as [->|Hn]; [reflexivity|]. destruct H as [->|H]; [congruence|auto].
Qed.
Lemma okay_nodup : forall s, okay s -> NoDup (current s).
Proof. intros s O. eapply NoDup_map_NoDup. apply (ok_wf _ O). Qed.
Lemma in_existsb : forall p (l : list pid), In p l -> existsb (Nat.eqb p) l = true.
Proof. intros. apply existsb_exists. exists p. split; [assumption|apply Nat.eqb_refl]. Qed.

Lemma globals_acts : acts apply_globals s_globals.
Proof.
  intros s s' O H. apply apply_globals_solo in H; [|apply O]. destruct H as (K & V & A & _ & B & _).
  split; [|split; assumption]. destruct (ok_store _ O) as [C D]. split; [rewrite B; exact C|rewrite A; exact D].
Qed.

Section Upd.
Variables (deref : string -> score -> score * outcome) (dd : list (string * list update) -> string -> part -> dres)
  (sderef : string -> solo -> option solo).
Hypothesis HL : forall l, L l -> local_label l.
Hypothesis Hfull : full.
Hypothesis Hdd : forall vs n, com (dd vs n).
Hypothesis Hderef : forall n, acts (deref n) (sderef n).
Hypothesis Hstar : forall n s s' o, deref n s = (s', o) -> gstar L s s'.

Lemma same_store : forall s s', variables s' = variables s -> globals s' = globals s -> store_all L s -> store_all L s'.
Proof. intros s s' A B [C D]. split; [rewrite A; exact C|rewrite B; exact D]. Qed.


Lemma chord_loop_acts : forall es, Forall (fun u => acts (run_upd deref dd u) (s_upd sderef dd u)) es ->
  forall (mm : pid -> num) m s s', okay s -> (forall p, In p (current s) -> pget n0 p m = mm p) ->
  (fix go (l : list update) (m : list (pid * num)) (s : score) : score * outcome :=
         match l with
         | [] => chord_finish m (set_chordmode false s)
         | e :: t =>
             let m' := lower_shortest (written_dur e) s m in
             seqo (run_upd deref dd e s) (go t m')
         end) es m s = (s', Ok) ->
  store_all L s' /\ keep s s' /\
  forall p, In p (current s) -> ochord (s_upd sderef dd) es (mm p) (view p s) = Some (view p s').
Proof.
  intros es Hes. induction Hes as [|e t He Ht IH]; intros mm m s s' O Hm H.
  - cbn [ochord]. unfold chord_finish in H.
    apply (each_modp_moved (fun pd p => set_pcur (nadd (pcur p) (pget n0 pd m)) (set_plast (pcur p) p))) in H;
      [|apply O|reflexivity|reflexivity].
    destruct H as [[K (A & _ & B & _)] V].
    split; [eapply same_store; [exact B|exact A|apply O]|].
    split; [eapply keep_trans; [|exact K]; split; reflexivity|].
    intros p Hp. rewrite V by exact Hp. rewrite Hm by exact Hp. reflexivity.
  - cbv zeta in H. destruct (run_upd deref dd e s) as [s1 []] eqn:E; try discriminate. cbn [seqo] in H.
    destruct (He _ _ O E) as [S1 [K1 V1]].
    pose proof (keep_okay _ _ K1 S1 O) as O1.
    apply (IH (fun p => nmin (mm p) (written_ms e (nc (getp s p))))) in H; [|exact O1|].
    + destruct H as (S2 & K2 & V2). split; [exact S2|]. split; [eapply keep_trans; eassumption|].
      intros p Hp. cbn [ochord]. rewrite V1 by exact Hp. cbn [obind].
      apply V2. rewrite (k_cur _ _ K1). exact Hp.
    + intros p Hp. rewrite (k_cur _ _ K1) in Hp. unfold lower_shortest. rewrite lower_get by (apply okay_nodup, O).
      rewrite in_existsb by exact Hp. rewrite Hm by exact Hp. reflexivity.
Qed.
Lemma chord_acts : forall es, Forall (fun u => acts (run_upd deref dd u) (s_upd sderef dd u)) es ->
  acts (run_upd deref dd (UChord es)) (s_upd sderef dd (UChord es)).
Proof.
  intros es Hes s s' O H. cbn [run_upd s_upd] in *.
  destruct (apply_globals s) as [s1 []] eqn:E; try discriminate. cbn [seqo] in H.
  destruct (globals_acts _ _ O E) as [S1 [K1 V1]].
  assert (O1 : okay (set_chordmode true s1)).
  { eapply keep_okay; [eapply keep_trans; [exact K1|split; reflexivity]|exact S1|exact O]. }
  cbv zeta in H. apply (chord_loop_acts _ Hes (fun _ => nmaxval)) in H; [|exact O1|].
  - destruct H as (S2 & K2 & V2). split; [exact S2|].
    split; [eapply keep_trans; [exact K1|apply (keep_trans s1 (set_chordmode true s1) s'); [split; reflexivity|exact K2]]|].
    intros p Hp. rewrite V1 by exact Hp. cbn [obind]. apply V2. cbn. rewrite (k_cur _ _ K1). exact Hp.
  - intros p Hp. apply (pget_map _ _ (fun _ => nmaxval)). exact Hp.
Qed.

Lemma cram_acts : forall es d, Forall (fun u => acts (run_upd deref dd u) (s_upd sderef dd u)) es ->
  acts (run_upd deref dd (UCram es d)) (s_upd sderef dd (UCram es d)).
Proof.
  intros es d Hes s s' O H. cbn [run_upd] in H. cbv zeta in H.
  destruct (cram_scale (dd (variables s)) es d s) as [s1 []] eqn:E; try discriminate. cbn [seqo] in H.
  unfold cram_scale in E. destruct (ok_wf _ O) as [W1 W2].
  edestruct (fun A => each_only _ (fun _ x => match time_scale (dd (variables s)) es d (so_part x) with
      | (ts, Ok) => Some (on_part (set_pscale ts) x) | _ => None end) _ _ _ W1 W2 A E) as (K1 & V1 & (A1 & _ & B1 & _) & _).
  { intros q s2 s3 _ Hq E2. cbn [view so_part]. rewrite time_scale_nc by (intros; apply Hdd).
    destruct (time_scale _ _ _ _) as [ts []]; try discriminate. inversion E2; subst s3.
    split; [apply modp_only; reflexivity|]. rewrite view_modp by auto. reflexivity. }
  assert (S1 : store_all L s1) by (eapply same_store; [exact B1|exact A1|apply O]).
  pose proof (keep_okay _ _ K1 S1 O) as O1.
  match type of H with seqo ?r _ = _ => destruct r as [s2 []] eqn:E2; try discriminate end. cbn [seqo] in H.
  assert (E3 : each (run_upd deref dd) es s1 = (s2, Ok)).
  { rewrite <- E2. clear. revert s1. induction es as [|e t IH]; intros s1; [reflexivity|]. cbn [each].
    destruct (run_upd deref dd e s1) as [s3 []]; cbn [seqo]; auto. }
  destruct (acts_list _ _ _ Hes _ _ O1 E3) as [S2 [K2 V2]].
  pose proof (keep_okay _ _ K2 S2 O1) as O2. unfold cram_finish in H.
  apply (each_modp_moved (fun pd p => set_pscale (pget n0 pd (map (fun p => (p, pscale (getp s p))) (current s)))
                       (set_pdur (match d with Some _ => d | None => pget None pd (map (fun p => (p, pdur (getp s p))) (current s)) end) p))) in H;
    [|apply O2|reflexivity|reflexivity].
  destruct H as [[K3 (A3 & _ & B3 & _)] V3].
  split; [eapply same_store; [exact B3|exact A3|exact S2]|].
  split; [eapply keep_trans; [exact K1|eapply keep_trans; eassumption]|].
  intros p Hp. cbn [s_upd]. specialize (V1 p Hp). cbv beta in V1. change (so_vars (view p s)) with (variables s).
  destruct (time_scale (dd (variables s)) es d (so_part (view p s))) as [ts []]; try discriminate.
  apply some_inj in V1. rewrite V1.
  rewrite V2 by (rewrite (k_cur _ _ K1); exact Hp). cbn [obind].
  rewrite V3 by (rewrite (k_cur _ _ K2), (k_cur _ _ K1); exact Hp).
  rewrite (pget_map _ _ (fun p => pscale (getp s p))) by exact Hp.
  rewrite (pget_map _ _ (fun p => pdur (getp s p))) by exact Hp. reflexivity.
Qed.

Lemma upd_acts : forall u, upd_all L u -> acts (run_upd deref dd u) (s_upd sderef dd u).
Proof.
  intros u. induction u using update_ind'; intros Hu; cbn [upd_all] in Hu; try rewrite upd_all_list in Hu;
    try (assert (HA : Forall (fun u => acts (run_upd deref dd u) (s_upd sderef dd u)) es)
         by (rewrite Forall_forall in *; intros; apply H; auto)).
  - apply prim_acts; [exact Hu|left; exact Hfull].
  - apply acts_refl; reflexivity.
  - intros s s' O Hr. cbn [run_upd s_upd] in *.
    destruct (eval_update els) as [[q|]|m|m]; try discriminate.
    + apply (prim_acts q Hu (or_introl Hfull) s s' O Hr).
    + eapply acts_refl; [|exact O|exact Hr]. reflexivity.
  - apply acts_refl; reflexivity.
  - apply chord_acts, HA.
  - apply cram_acts, HA.
  - intros s s' O Hr. cbn [run_upd s_upd] in *.
    destruct (run_times _ _ _ _) as [s1 []] eqn:E; try discriminate. cbn [seqo] in Hr.
    destruct (n =? max_int32)%Z; [discriminate|]. inversion Hr; subst.
    exact (times_acts _ _ _ _ (IHu (proj2 Hu)) _ _ O E).
  - intros s s' O Hr. cbn [run_upd] in Hr.
    destruct (ok_fit _ O Hfull) as [[p0 F]|[F _]]; [|exfalso; eapply F; exact (proj1 Hu)].
    rewrite F in Hr. cbn [List.length onreps_loop] in Hr. rewrite F in Hr. cbn [nth_error] in Hr.
    destruct (applies_to rs (prep (getp s p0))) eqn:Ea.
    + destruct (run_upd deref dd u s) as [s1 []] eqn:E; try discriminate. inversion Hr; subst.
      destruct (IHu (proj2 Hu) _ _ O E) as [S1 [K1 V1]]. split; [exact S1|]. split; [exact K1|].
      intros r Hp. rewrite F in Hp. destruct Hp as [<-|[]]. cbn [s_upd view so_part].
      change (prep (nc (getp s p0))) with (prep (getp s p0)). rewrite Ea. apply V1. rewrite F; left; reflexivity.
    + inversion Hr; subst. split; [apply O|]. split; [apply keep_refl|].
      intros r Hp. rewrite F in Hp. destruct Hp as [<-|[]]. cbn [s_upd view so_part].
      change (prep (nc (getp s' p0))) with (prep (getp s' p0)). rewrite Ea. reflexivity.
  - eapply acts_ext; [| |apply (acts_list _ _ _ HA)].
    + cbn [run_upd]. clear. induction es as [|e t IH]; intros s; [reflexivity|]. cbn [each].
      destruct (run_upd deref dd e s) as [s3 []]; cbn [seqo]; auto.
    + reflexivity.
  - apply marker_acts; [exact Hfull|exact Hu].
  - apply at_marker_acts, Hu.
  - apply var_def_acts; apply Hu.
  - apply Hderef.
  - exfalso. exact (HL _ Hu).
  - exfalso. exact (HL _ Hu).
  - exfalso. exact (HL _ Hu).
Qed.
End Upd.

Section Full.
Hypothesis HL : forall l, L l -> local_label l.
Hypothesis Hfull : full.

Lemma deref_acts : forall fuel n, acts (run_deref fuel n) (s_deref fuel n).
Proof.
  induction fuel as [|f IH]; intros n s s' O H; cbn [run_deref s_deref] in *; change (so_vars (view _ s)) with (variables s);
    destruct (aget String.eqb n (variables s)) as [es|] eqn:E; try discriminate.
  assert (HA : Forall (fun u => acts (run_upd (run_deref f) (dur_deref f) u) (s_upd (s_deref f) (dur_deref f) u)) es).
  { apply Forall_forall. intros u Hu. apply upd_acts; [exact HL|exact Hfull|intros; apply dur_deref_com|exact IH|].
    destruct (ok_store _ O) as [S _]. specialize (S n es). rewrite Forall_forall in S. apply S; [|exact Hu]. eapply aget_in; [apply String.eqb_eq|exact E]. }
  destruct (acts_list _ _ _ HA _ _ O H) as [S [K V]]. split; [exact S|]. split; [exact K|].
  intros p Hp. cbn [s_deref]. change (so_vars (view p s)) with (variables s). rewrite E. apply V, Hp.
Qed.

Lemma exec_acts : forall us, Forall (upd_all L) us -> acts (exec us) (s_exec us).
Proof.
  intros us Hus. unfold exec, run_all, s_exec. apply acts_list.
  rewrite Forall_forall in *. intros u Hu. apply upd_acts; [exact HL|exact Hfull|intros; apply dur_deref_com|apply deref_acts|apply Hus, Hu].
Qed.
End Full.
End Follow.
End Solo.
