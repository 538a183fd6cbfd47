(** Proof of C48, first part: scores that differ only in what the importer's
    rewriting may change. *)
From Coq Require Import ZArith List String Bool Lia Arith.
From Verif Require Import Base Num ModelPitch ModelDuration ModelInstruments ModelTypes ModelLisp
  ModelScore ModelImporter SpecScore SpecVars SpecParts SpecSolo SpecTiming SpecImporter ProofHeap ProofStep ProofInv ProofEvents
  ProofVoices ProofVars ProofSafe ProofTracks ProofSolo ProofTiming.
Import ListNotations.
Local Open Scope list_scope.

(** Whether the octave of percussion parts is to be forgotten too. *)
Class Forget := forget : bool.

Section Sim.
Context {N : Num} {FG : Forget}.
(** Adding zero to a sum of lengths changes nothing. *)
Hypothesis zero_law : forall t l,
  nadd (fold_left (fun acc c => nadd acc (comp_ms t c)) l n0) n0
  = fold_left (fun acc c => nadd acc (comp_ms t c)) l n0.
Hypothesis min_law : forall a b, nmin (nmin a b) b = nmin a b.

Definition nobar (d : duration) : duration :=
  match d with None => None | Some l => Some (filter (fun c => negb (is_cbar c)) l) end.

Definition hid (p : part) : bool := (forget && iperc (pstock p))%bool.
(** Forget the octave of percussion parts (if asked to), barlines in the default duration and
    the local override. *)
Definition e1 (p : part) : part :=
  set_povr None (set_pdur (nobar (pdur p))
    (set_poctave (if hid p then 0%Z else poctave p) p)).
Definition er (s : score) : score := set_heap (map e1 (heap s)) s.
Definition R (s t : score) : Prop := er s = er t.
Definition RR (a b : score * outcome) : Prop := R (fst a) (fst b) /\ snd a = snd b.

Lemma R_refl : forall s, R s s. Proof. reflexivity. Qed.
Lemma R_sym : forall s t, R s t -> R t s. Proof. unfold R. congruence. Qed.
Lemma R_trans : forall a b c, R a b -> R b c -> R a c. Proof. unfold R. congruence. Qed.
Lemma RR_refl : forall a, RR a a. Proof. split; reflexivity. Qed.
Lemma RR_trans : forall a b c, RR a b -> RR b c -> RR a c.
Proof. intros a b c [A B] [C D]. split; [eapply R_trans; eauto|congruence]. Qed.

Lemma e1_dead : dead_part = e1 (@dead_part N).
Proof. unfold e1, hid. cbn. rewrite andb_false_r. reflexivity. Qed.
Lemma getp_er : forall s p, getp (er s) p = e1 (getp s p).
Proof. intros s p. unfold getp, er. cbn. rewrite e1_dead at 1. apply map_nth. Qed.
Lemma R_getp : forall s t p, R s t -> e1 (getp s p) = e1 (getp t p).
Proof. intros s t p H. rewrite <- !getp_er. unfold R in H. rewrite H. reflexivity. Qed.

Ltac fld H f := let X := fresh in pose proof (f_equal f H) as X; cbn in X.

Lemma R_current : forall s t, R s t -> current s = current t. Proof. intros s t H. fld H current. assumption. Qed.
Lemma R_events : forall s t, R s t -> events s = events t. Proof. intros s t H. fld H events. assumption. Qed.
Lemma R_usage : forall s t, R s t -> usage s = usage t. Proof. intros s t H. fld H usage. assumption. Qed.
Lemma R_globals : forall s t, R s t -> globals s = globals t. Proof. intros s t H. fld H globals. assumption. Qed.
Lemma R_chordmode : forall s t, R s t -> chordmode s = chordmode t. Proof. intros s t H. fld H chordmode. assumption. Qed.
Lemma R_vheap : forall s t, R s t -> vheap s = vheap t. Proof. intros s t H. fld H vheap. assumption. Qed.
Lemma R_parts : forall s t, R s t -> parts s = parts t. Proof. intros s t H. fld H parts. assumption. Qed.
Lemma R_aliases : forall s t, R s t -> aliases s = aliases t. Proof. intros s t H. fld H aliases. assumption. Qed.
Lemma R_markers : forall s t, R s t -> markers s = markers t. Proof. intros s t H. fld H markers. assumption. Qed.
Lemma R_variables : forall s t, R s t -> variables s = variables t. Proof. intros s t H. fld H variables. assumption. Qed.
Lemma R_heap : forall s t, R s t -> map e1 (heap s) = map e1 (heap t). Proof. intros s t H. fld H heap. assumption. Qed.
Lemma R_len : forall s t, R s t -> List.length (heap s) = List.length (heap t).
Proof. intros s t H. apply R_heap in H. apply (f_equal (@List.length part)) in H. rewrite !map_length in H. exact H. Qed.
Lemma R_intro : forall s t, map e1 (heap s) = map e1 (heap t) -> vheap s = vheap t -> parts s = parts t ->
  current s = current t -> aliases s = aliases t -> events s = events t -> globals s = globals t ->
  markers s = markers t -> variables s = variables t -> usage s = usage t -> chordmode s = chordmode t -> R s t.
Proof. intros s t. unfold R, er, set_heap. intros. congruence. Qed.

(** Fields of related parts. *)
Lemma e1_tempo : forall p q, e1 p = e1 q -> ptempo p = ptempo q. Proof. intros p q H. fld H (@ptempo N). assumption. Qed.
Lemma e1_scale : forall p q, e1 p = e1 q -> pscale p = pscale q. Proof. intros p q H. fld H (@pscale N). assumption. Qed.
Lemma e1_quant : forall p q, e1 p = e1 q -> pquant p = pquant q. Proof. intros p q H. fld H (@pquant N). assumption. Qed.
Lemma e1_key : forall p q, e1 p = e1 q -> pkey p = pkey q. Proof. intros p q H. fld H (@pkey N). assumption. Qed.
Lemma e1_transp : forall p q, e1 p = e1 q -> ptransp p = ptransp q. Proof. intros p q H. fld H (@ptransp N). assumption. Qed.
Lemma e1_cur : forall p q, e1 p = e1 q -> pcur p = pcur q. Proof. intros p q H. fld H (@pcur N). assumption. Qed.
Lemma e1_last : forall p q, e1 p = e1 q -> plast p = plast q. Proof. intros p q H. fld H (@plast N). assumption. Qed.
Lemma e1_origin : forall p q, e1 p = e1 q -> porigin p = porigin q. Proof. intros p q H. fld H (@porigin N). assumption. Qed.
Lemma e1_stock : forall p q, e1 p = e1 q -> pstock p = pstock q. Proof. intros p q H. fld H (@pstock N). assumption. Qed.
Lemma e1_vol : forall p q, e1 p = e1 q -> pvol p = pvol q. Proof. intros p q H. fld H (@pvol N). assumption. Qed.
Lemma e1_tvol : forall p q, e1 p = e1 q -> ptvol p = ptvol q. Proof. intros p q H. fld H (@ptvol N). assumption. Qed.
Lemma e1_pan : forall p q, e1 p = e1 q -> ppan p = ppan q. Proof. intros p q H. fld H (@ppan N). assumption. Qed.
Lemma e1_chan : forall p q, e1 p = e1 q -> pchan p = pchan q. Proof. intros p q H. fld H (@pchan N). assumption. Qed.
Lemma e1_explicit : forall p q, e1 p = e1 q -> pexplicit p = pexplicit q. Proof. intros p q H. fld H (@pexplicit N). assumption. Qed.
Lemma e1_rep : forall p q, e1 p = e1 q -> prep p = prep q. Proof. intros p q H. fld H (@prep N). assumption. Qed.
Lemma e1_tmpl : forall p q, e1 p = e1 q -> ptmpl p = ptmpl q. Proof. intros p q H. fld H (@ptmpl N). assumption. Qed.
Lemma e1_voices : forall p q, e1 p = e1 q -> pvoices p = pvoices q. Proof. intros p q H. fld H (@pvoices N). assumption. Qed.
Lemma e1_name : forall p q, e1 p = e1 q -> pname p = pname q. Proof. intros p q H. fld H (@pname N). assumption. Qed.
Lemma e1_master : forall p q, e1 p = e1 q -> pmaster p = pmaster q. Proof. intros p q H. fld H (@pmaster N). assumption. Qed.
Lemma e1_ref : forall p q, e1 p = e1 q -> prefpitch p = prefpitch q. Proof. intros p q H. fld H (@prefpitch N). assumption. Qed.
Lemma e1_tvals : forall p q, e1 p = e1 q -> ptvals p = ptvals q. Proof. intros p q H. fld H (@ptvals N). assumption. Qed.
Lemma e1_dur : forall p q, e1 p = e1 q -> nobar (pdur p) = nobar (pdur q). Proof. intros p q H. fld H (@pdur N). assumption. Qed.
Lemma e1_octave : forall p q, e1 p = e1 q -> hid p = false -> poctave p = poctave q.
Proof. intros p q H P. pose proof (e1_stock _ _ H) as S. unfold hid in *. fld H (@poctave N). unfold hid in *. rewrite <- S, P in *. assumption. Qed.
Lemma e1_intro : forall p q, pname p = pname q -> pstock p = pstock q -> pmaster p = pmaster q -> ptempo p = ptempo q ->
  pkey p = pkey q -> ptransp p = ptransp q -> prefpitch p = prefpitch q -> pcur p = pcur q -> plast p = plast q ->
  (hid p = false -> poctave p = poctave q) -> pvol p = pvol q -> ptvol p = ptvol q -> ppan p = ppan q ->
  pchan p = pchan q -> pexplicit p = pexplicit q -> pquant p = pquant q -> nobar (pdur p) = nobar (pdur q) ->
  pscale p = pscale q -> ptvals p = ptvals q -> prep p = prep q -> ptmpl p = ptmpl q -> porigin p = porigin q ->
  pvoices p = pvoices q -> e1 p = e1 q.
Proof.
  intros p q H1 H2 H3 H4 H5 H6 H7 H8 H9 HO H11 H12 H13 H14 H15 H16 H17 H18 H19 H20 H21 H22 H23.
  unfold e1, set_povr, set_pdur, set_poctave. cbn.
  assert (O : (if hid p then 0%Z else poctave p) = (if hid q then 0%Z else poctave q)).
  { unfold hid in *. rewrite <- H2. destruct (_ && _)%bool; auto. }
  rewrite O, H1, H2, H3, H4, H5, H6, H7, H8, H9, H11, H12, H13, H14, H15, H16, H17, H18, H19, H20, H21, H22, H23. reflexivity.
Qed.
Ltac e1_fields H :=
  apply e1_intro; cbn;
  first [apply (e1_name _ _ H)|apply (e1_stock _ _ H)|apply (e1_master _ _ H)|apply (e1_tempo _ _ H)
        |apply (e1_key _ _ H)|apply (e1_transp _ _ H)|apply (e1_ref _ _ H)|apply (e1_cur _ _ H)|apply (e1_last _ _ H)
        |apply (e1_octave _ _ H)|apply (e1_vol _ _ H)|apply (e1_tvol _ _ H)|apply (e1_pan _ _ H)|apply (e1_chan _ _ H)
        |apply (e1_explicit _ _ H)|apply (e1_quant _ _ H)|apply (e1_dur _ _ H)|apply (e1_scale _ _ H)|apply (e1_tvals _ _ H)
        |apply (e1_rep _ _ H)|apply (e1_tmpl _ _ H)|apply (e1_origin _ _ H)|apply (e1_voices _ _ H)|idtac].

Lemma R_setp : forall s t p v w, R s t -> e1 v = e1 w -> R (setp p v s) (setp p w t).
Proof.
  intros s t p v w H E. unfold R, er, setp in *. cbn. rewrite !upd_nth_map, E, (R_heap _ _ H).
  unfold set_heap in *. cbn. pose proof (R_current _ _ H). congruence.
Qed.
Lemma R_modp : forall s t p f g, R s t -> e1 (f (getp s p)) = e1 (g (getp t p)) -> R (modp p f s) (modp p g t).
Proof. intros. apply R_setp; assumption. Qed.
Lemma R_same : forall s p v, e1 v = e1 (getp s p) -> R (setp p v s) s.
Proof.
  intros s p v E. unfold R, er, setp. cbn. rewrite upd_nth_map, E.
  replace (e1 (getp s p)) with (nth p (map e1 (heap s)) (e1 dead_part)) by apply map_nth.
  rewrite upd_nth_nth. reflexivity.
Qed.

Lemma RR_seq : forall a b k l, RR a b -> (forall s t, a = (s, Ok) -> b = (t, Ok) -> R s t -> RR (k s) (l t)) -> RR (seqo a k) (seqo b l).
Proof.
  intros [s o] [t o'] k l [A B] H. cbn in A, B. subst o'. destruct o; cbn [seqo]; try (split; [exact A|reflexivity]).
  apply H; [reflexivity|reflexivity|exact A].
Qed.

(* ------------------------- what notes keep ------------------------- *)

(** Current parts, heap size, global attributes, key signatures and
    instruments are untouched. *)
(** Where a part finds its voices. *)
Definition links (p : part) := (ptmpl p, pvoices p, porigin p).
Record kept (s s' : score) : Prop := Kept {
  kept_cur : current s' = current s;
  kept_len : List.length (heap s') = List.length (heap s);
  kept_globals : globals s' = globals s;
  kept_key : forall q, pkey (getp s' q) = pkey (getp s q);
  kept_stock : forall q, pstock (getp s' q) = pstock (getp s q);
  kept_vheap : vheap s' = vheap s;
  kept_links : forall q, links (getp s' q) = links (getp s q) }.
Lemma kept_refl : forall s, kept s s. Proof. intros; constructor; auto. Qed.
Lemma kept_trans : forall a b c, kept a b -> kept b c -> kept a c.
Proof. intros a b c [] []. constructor; intros; congruence. Qed.
Lemma getp_modp_field : forall A (f : part -> A) g p s q, (forall v, f (g v) = f v) -> f (getp (modp p g s) q) = f (getp s q).
Proof.
  intros A f g p s q H. destruct (Nat.eq_dec p q) as [->|Hn]; [|rewrite getp_modp_other by exact Hn; reflexivity].
  destruct (Nat.lt_ge_cases q (List.length (heap s))) as [L|L].
  - rewrite getp_modp_same by exact L. apply H.
  - unfold modp, setp, getp at 1. cbn. rewrite upd_nth_out by exact L. reflexivity.
Qed.
Lemma kept_modp : forall p f s, (forall v, pkey (f v) = pkey v) -> (forall v, pstock (f v) = pstock v) ->
  (forall v, links (f v) = links v) -> kept s (modp p f s).
Proof.
  intros p f s A B C. constructor; try reflexivity.
  - apply heap_modp.
  - intros q. apply getp_modp_field, A.
  - intros q. apply getp_modp_field, B.
  - intros q. apply getp_modp_field, C.
Qed.
Lemma kept_seq : forall s r k, kept s (fst r) -> (forall s1, kept s s1 -> kept s (fst (k s1))) -> kept s (fst (seqo r k)).
Proof. intros s [s1 o] k A B. destruct o; cbn [seqo fst] in *; auto. Qed.
Lemma kept_each : forall A (f : A -> score -> score * outcome) l s, (forall a s, kept s (fst (f a s))) -> kept s (fst (each f l s)).
Proof.
  intros A f l s H. revert s. induction l as [|a l IH]; intros s; [apply kept_refl|]. cbn [each].
  apply kept_seq; [apply H|]. intros s1 K. eapply kept_trans; [exact K|apply IH].
Qed.

Lemma kept_playing : forall b k s s', kept s s' -> playing b k s -> playing b k s'.
Proof.
  intros b k s s' [A B C D F _ _] [G H]. split; [congruence|]. intros p Hp. rewrite A in Hp. rewrite B, D, F. apply H, Hp.
Qed.
Lemma R_playing : forall b k s t, R s t -> playing b k s -> playing b k t.
Proof.
  intros b k s t H [G P]. split; [rewrite <- (R_globals _ _ H); exact G|]. intros p Hp. rewrite <- (R_current _ _ H) in Hp.
  pose proof (R_getp _ _ p H) as E. rewrite <- (R_len _ _ H), <- (e1_key _ _ E), <- (e1_stock _ _ E). apply P, Hp.
Qed.

(** Some field of every part is untouched. *)
Definition keeps {A} (f : part -> A) (s s' : score) : Prop := forall q, f (getp s' q) = f (getp s q).
Lemma keeps_refl : forall A (f : part -> A) s, keeps f s s. Proof. intros A f s q. reflexivity. Qed.
Lemma keeps_trans : forall A (f : part -> A) a b c, keeps f a b -> keeps f b c -> keeps f a c.
Proof. intros A f a b c H1 H2 q. rewrite H2. apply H1. Qed.
Lemma keeps_modp : forall A (f : part -> A) p g s, (forall v, f (g v) = f v) -> keeps f s (modp p g s).
Proof. intros A f p g s H q. apply getp_modp_field, H. Qed.
Lemma keeps_seq : forall A (f : part -> A) s r k, keeps f s (fst r) -> (forall s1, keeps f s s1 -> keeps f s (fst (k s1))) -> keeps f s (fst (seqo r k)).
Proof. intros A f s [s1 o] k H B. destruct o; cbn [seqo fst] in *; auto. Qed.
Lemma keeps_each : forall A B (f : part -> A) (g : B -> score -> score * outcome) l s, (forall a s, keeps f s (fst (g a s))) -> keeps f s (fst (each g l s)).
Proof.
  intros A B f g l s H. revert s. induction l as [|a l IH]; intros s; [apply keeps_refl|]. cbn [each].
  apply keeps_seq; [apply H|]. intros s1 K. eapply keeps_trans; [exact K|apply IH].
Qed.

(** A list of updates, one after the other. *)
Variable deref : string -> score -> score * outcome.
Variable dd : list (string * list update) -> string -> part -> dres.
Notation run1 := (run_upd deref dd).
Definition runs : list update -> score -> score * outcome := each run1.

Fixpoint chord_go (l : list update) (m : list (pid * num)) (s : score) : score * outcome :=
  match l with
  | [] => chord_finish m (set_chordmode false s)
  | e :: t => seqo (run1 e s) (chord_go t (lower_shortest (written_dur e) s m))
  end.
Lemma run_chord : forall es s, run1 (UChord es) s =
  seqo (apply_globals s) (fun s => chord_go es (map (fun p => (p, nmaxval)) (current s)) (set_chordmode true s)).
Proof. reflexivity. Qed.
Lemma run_seq : forall es s, run1 (USeq es) s = runs es s.
Proof.
  induction es as [|e es IH]; intros s; [reflexivity|]. unfold runs. cbn [each].
  change (run1 (USeq (e :: es)) s) with (seqo (run1 e s) (run1 (USeq es))).
  destruct (run1 e s) as [s1 o]. destruct o; try reflexivity. cbn [seqo]. apply IH.
Qed.
Lemma runs_app : forall a b s, runs (a ++ b) s = seqo (runs a s) (runs b).
Proof.
  induction a as [|x a IH]; intros b s; cbn [app]; [reflexivity|]. unfold runs in *. cbn [each].
  destruct (run1 x s) as [s1 o1]. destruct o1; cbn [seqo]; try reflexivity. apply IH.
Qed.
Lemma runs_one : forall u s, runs [u] s = run1 u s.
Proof. intros u s. unfold runs. cbn [each]. destruct (run1 u s) as [s1 []]; reflexivity. Qed.

(* ------------------------- global attributes ------------------------- *)

Lemma in_window_none : forall g a b, ga_offs g = [] -> in_window g a b = [].
Proof. intros g a b H. unfold in_window. rewrite H. reflexivity. Qed.
Lemma apply_to_none : forall p s, ga_offs (globals s) = [] -> apply_globals_to p s = (modp p (set_povr None) s, Ok).
Proof. intros p s H. unfold apply_globals_to. rewrite in_window_none by exact H. reflexivity. Qed.
Lemma apply_each_none : forall l s, ga_offs (globals s) = [] -> exists s', each apply_globals_to l s = (s', Ok) /\ R s' s /\ kept s s' /\
  forall A (f : part -> A), (forall v, f (set_povr None v) = f v) -> keeps f s s'.
Proof.
  induction l as [|p l IH]; intros s H; cbn [each].
  - exists s. split; [reflexivity|]. split; [reflexivity|]. split; [apply kept_refl|]. intros; apply keeps_refl.
  - rewrite apply_to_none by exact H. cbn [seqo].
    assert (K : kept s (modp p (set_povr None) s)) by (apply kept_modp; reflexivity).
    destruct (IH (modp p (set_povr None) s)) as [s' [E [HR [HK KF]]]]; [rewrite (kept_globals _ _ K); exact H|].
    exists s'. split; [exact E|]. split; [|split; [eapply kept_trans; eassumption|]].
    + eapply R_trans; [exact HR|]. apply R_same. apply e1_intro; reflexivity.
    + intros A f Hf. eapply keeps_trans; [apply (keeps_modp _ f p (set_povr None) s); exact Hf|apply KF, Hf].
Qed.
Lemma apply_none : forall s, ga_offs (globals s) = [] -> exists s', apply_globals s = (s', Ok) /\ R s' s /\ kept s s' /\
  forall A (f : part -> A), (forall v, f (set_povr None v) = f v) -> keeps f s s'.
Proof. intros s H. apply apply_each_none, H. Qed.

(* ------------------------- durations ------------------------- *)

Lemma fold_nobar : forall t l, fold_left (fun acc c => nadd acc (comp_ms t c)) l n0
  = fold_left (fun acc c => nadd acc (comp_ms t c)) (filter (fun c => negb (is_cbar c)) l) n0.
Proof.
  intros t l. induction l as [|c l IH] using rev_ind; [reflexivity|].
  rewrite fold_left_app, filter_app, fold_left_app, IH. cbn [fold_left filter].
  destruct c; try reflexivity. cbn [is_cbar negb comp_ms fold_left]. apply zero_law.
Qed.
Lemma ms_nobar : forall t d, dur_ms_of t d = dur_ms_of t (nobar d).
Proof. intros t [l|]; [|reflexivity]. unfold dur_ms_of. cbn [dcomps nobar]. apply fold_nobar. Qed.
Lemma ms_same : forall t a b, nobar a = nobar b -> dur_ms_of t a = dur_ms_of t b.
Proof. intros t a b H. rewrite (ms_nobar t a), (ms_nobar t b), H. reflexivity. Qed.

(** The two durations are both absent, or both present and equal but for
    barlines. *)
Definition dur_like (a b : duration) : Prop := nobar a = nobar b.
Lemma eff_like : forall a b p q, dur_like a b -> e1 p = e1 q -> dur_like (effective_dur a p) (effective_dur b q).
Proof.
  intros [a|] [b|] p q H E; unfold dur_like in *; cbn in *; try discriminate; auto. apply (e1_dur _ _ E).
Qed.
Lemma update_default_like : forall a b p q, dur_like a b -> e1 p = e1 q -> e1 (update_default_dur a p) = e1 (update_default_dur b q).
Proof.
  intros [a|] [b|] p q H E; unfold dur_like in *; cbn [nobar] in *; try discriminate; cbn [update_default_dur]; [|exact E].
  e1_fields E. exact H.
Qed.

(* ------------------------- notes and rests ------------------------- *)

Lemma assign_like : forall s t p q d, R s t -> e1 p = e1 q ->
  match assign_channel s p d, assign_channel t q d with
  | ROk (c, s1), ROk (c', t1) => c = c' /\ R s1 t1
  | RErr m, RErr m' => m = m'
  | RPanic m, RPanic m' => m = m'
  | _, _ => False
  end.
Proof.
  intros s t p q d H E.
  assert (U : forall c, usage_at s c = usage_at t c) by (intros c; unfold usage_at; rewrite (R_usage _ _ H); reflexivity).
  assert (D : determine_channel s p d = determine_channel t q d).
  { unfold determine_channel, available_channel, simple_check, complex_check, unavailable, exclusive, channel_unused, usage_at.
    rewrite (R_usage _ _ H), (R_events _ _ H), (e1_stock _ _ E), (e1_explicit _ _ E), (e1_chan _ _ E), (e1_origin _ _ E), (e1_cur _ _ E).
    reflexivity. }
  unfold assign_channel. rewrite D. destruct (determine_channel t q d) as [c|m|m]; cbn [rbind]; try reflexivity.
  destruct (negb (chan_ok c)); [reflexivity|]. rewrite U, (e1_origin _ _ E), (R_usage _ _ H).
  destruct (existsb _ _); (split; [reflexivity|]); [exact H|].
  apply R_intro; cbn; try apply H; try (apply R_heap, H); try (apply R_vheap, H); try (apply R_parts, H); try (apply R_current, H);
    try (apply R_aliases, H); try (apply R_events, H); try (apply R_globals, H); try (apply R_markers, H); try (apply R_variables, H);
    try (apply R_chordmode, H). reflexivity.
Qed.
Lemma R_set_events : forall s t e, R s t -> R (set_events e s) (set_events e t).
Proof. intros s t e H. unfold R, er in *. unfold set_events, set_heap in *. cbn in *. congruence. Qed.
Lemma R_set_chordmode : forall s t e, R s t -> R (set_chordmode e s) (set_chordmode e t).
Proof. intros s t e H. unfold R, er in *. unfold set_chordmode, set_heap in *. cbn in *. congruence. Qed.

Lemma emit_like : forall pi pi' sl dms pd s t, R s t ->
  calc_midi_note pi (poctave (getp s pd)) (pkey (getp s pd)) (ptransp (getp s pd))
  = calc_midi_note pi' (poctave (getp t pd)) (pkey (getp t pd)) (ptransp (getp t pd)) ->
  RR (emit_note pi sl dms pd s) (emit_note pi' sl dms pd t).
Proof.
  intros pi pi' sl dms pd s t H C. pose proof (R_getp _ _ pd H) as E. unfold emit_note. cbv zeta.
  rewrite (e1_quant _ _ E). destruct (nltb n0 _); [|split; [exact H|reflexivity]].
  rewrite C. destruct (_ || _)%bool; [split; [exact H|reflexivity]|].
  pose proof (assign_like s t (getp s pd) (getp t pd) (if sl then dms else nmul dms (pquant (getp t pd))) H E) as A.
  destruct (assign_channel s _ _) as [[c s1]|m|m], (assign_channel t _ _) as [[c' t1]|m'|m']; try contradiction;
    try (subst m'; split; [exact H|reflexivity]).
  destruct A as [-> A]. split; [|reflexivity]. cbn [fst].
  assert (B : R (modp (porigin (getp s pd)) (set_pchan c') (modp pd (set_pchan c') s1))
                (modp (porigin (getp t pd)) (set_pchan c') (modp pd (set_pchan c') t1))).
  { rewrite (e1_origin _ _ E). assert (B1 : R (modp pd (set_pchan c') s1) (modp pd (set_pchan c') t1)).
    { apply R_modp; [exact A|]. pose proof (R_getp _ _ pd A) as F. e1_fields F. reflexivity. }
    apply R_modp; [exact B1|]. pose proof (R_getp _ _ (porigin (getp t pd)) B1) as F. e1_fields F. reflexivity. }
  rewrite (R_events _ _ B), (e1_origin _ _ E), (e1_cur _ _ E), (e1_vol _ _ E), (e1_tvol _ _ E), (e1_pan _ _ E).
  rewrite (e1_origin _ _ E) in B. apply R_set_events, B.
Qed.

Definition nr_like (nr nr' : note_or_rest) (s t : score) (pd : pid) : Prop :=
  match nr, nr' with
  | None, None => True
  | Some (pi, sl), Some (pi', sl') => sl = sl' /\
      calc_midi_note pi (poctave (getp s pd)) (pkey (getp s pd)) (ptransp (getp s pd))
      = calc_midi_note pi' (poctave (getp t pd)) (pkey (getp t pd)) (ptransp (getp t pd))
  | _, _ => False
  end.

Lemma note_one_like : forall nr nr' d d' pd s t, R s t -> nr_like nr nr' s t pd -> dur_like d d' ->
  RR (note_one nr d pd s) (note_one nr' d' pd t).
Proof.
  intros nr nr' d d' pd s t H P D. pose proof (R_getp _ _ pd H) as E. unfold note_one. cbv zeta.
  pose proof (eff_like _ _ _ _ D E) as L.
  rewrite (ms_same _ _ _ L), (e1_tempo _ _ E), (e1_scale _ _ E). set (dms := nmul _ _).
  apply RR_seq.
  - destruct nr as [[pi sl]|], nr' as [[pi' sl']|]; try contradiction; [|split; [exact H|reflexivity]].
    destruct P as [-> P]. apply emit_like; assumption.
  - intros s1 t1 _ _ H1. split; [|reflexivity]. cbn [fst]. apply R_modp; [exact H1|]. rewrite (R_chordmode _ _ H1).
    pose proof (R_getp _ _ pd H1) as E1. unfold advance_part. apply update_default_like; [exact L|].
    destruct (chordmode t1); [exact E1|]. e1_fields E1. rewrite (e1_cur _ _ E1). reflexivity.
Qed.

Lemma emit_kept : forall pi sl dms pd s, kept s (fst (emit_note pi sl dms pd s)) /\
  forall A (f : part -> A), (forall c v, f (set_pchan c v) = f v) -> keeps f s (fst (emit_note pi sl dms pd s)).
Proof.
  intros pi sl dms pd s. unfold emit_note. cbv zeta. destruct (nltb n0 _); [|split; [apply kept_refl|intros; apply keeps_refl]].
  destruct (_ || _)%bool; [split; [apply kept_refl|intros; apply keeps_refl]|].
  destruct (assign_channel s _ _) as [[c s1]|m|m] eqn:A; [|split; [apply kept_refl|intros; apply keeps_refl]|split; [apply kept_refl|intros; apply keeps_refl]].
  assert (K : kept s s1 /\ forall A (f : part -> A), keeps f s s1).
  { unfold assign_channel in A. destruct (determine_channel _ _ _) as [c1|m|m]; cbn [rbind] in A; try discriminate.
    destruct (negb (chan_ok c1)); [discriminate|]. destruct (existsb _ _); inversion A; subst; (split; [constructor; reflexivity|intros; intro; reflexivity]). }
  destruct K as [K KF]. cbn [fst]. split.
  - eapply kept_trans; [exact K|]. eapply kept_trans; [apply (kept_modp pd (set_pchan c) s1); reflexivity|].
    eapply kept_trans; [apply (kept_modp (porigin (getp s pd)) (set_pchan c)); reflexivity|]. constructor; reflexivity.
  - intros B f Hf. eapply keeps_trans; [apply KF|]. eapply keeps_trans; [apply (keeps_modp _ f pd (set_pchan c) s1); apply Hf|].
    eapply keeps_trans; [apply (keeps_modp _ f (porigin (getp s pd)) (set_pchan c)); apply Hf|]. intro; reflexivity.
Qed.
Lemma note_one_kept : forall nr d pd s, kept s (fst (note_one nr d pd s)) /\
  keeps poctave s (fst (note_one nr d pd s)) /\ keeps ptransp s (fst (note_one nr d pd s)) /\
  keeps ptempo s (fst (note_one nr d pd s)) /\ keeps pscale s (fst (note_one nr d pd s)).
Proof.
  intros nr d pd s. unfold note_one. cbv zeta.
  assert (X : forall s1 dm e, kept s1 (modp pd (advance_part (chordmode s1) dm e) s1) /\
    keeps poctave s1 (modp pd (advance_part (chordmode s1) dm e) s1) /\ keeps ptransp s1 (modp pd (advance_part (chordmode s1) dm e) s1) /\
    keeps ptempo s1 (modp pd (advance_part (chordmode s1) dm e) s1) /\ keeps pscale s1 (modp pd (advance_part (chordmode s1) dm e) s1)).
  { intros s1 dm e. repeat split; try (apply heap_modp); try reflexivity;
    try (intros q; apply getp_modp_field; intros v; unfold advance_part, update_default_dur; destruct e, (chordmode s1); reflexivity). }
  destruct nr as [[pi sl]|].
  - match goal with |- context[emit_note ?a ?b ?c ?e ?f] => destruct (emit_kept a b c e f) as [K KF] end.
    split; [apply kept_seq; [exact K|intros s1 K1; eapply kept_trans; [exact K1|apply X]]|].
    split; [|split; [|split]]; (apply keeps_seq; [apply KF; reflexivity|intros s1 K1; eapply keeps_trans; [exact K1|apply X]]).
  - cbn [seqo fst]. apply X.
Qed.

(** A note or rest on related scores. *)
Lemma each_note_like : forall nr nr' d d' l s t, R s t -> (forall pd, In pd l -> nr_like nr nr' s t pd) -> dur_like d d' ->
  RR (each (note_one nr d) l s) (each (note_one nr' d') l t).
Proof.
  intros nr nr' d d' l. induction l as [|pd l IH]; intros s t H P D; [split; [exact H|reflexivity]|]. cbn [each].
  apply RR_seq; [apply note_one_like; auto; apply P; left; reflexivity|]. intros s1 t1 A B H1. apply IH; [exact H1| |exact D].
  intros q Hq. specialize (P q (or_intror Hq)). unfold nr_like in *. destruct nr as [[pi sl]|], nr' as [[pi' sl']|]; auto.
  destruct P as [Ps P]. split; [exact Ps|].
  destruct (note_one_kept (Some (pi, sl)) d pd s) as [K [K1 [K2 _]]]. rewrite A in K, K1, K2. cbn [fst] in *.
  destruct (note_one_kept (Some (pi', sl')) d' pd t) as [L [L1 [L2 _]]]. rewrite B in L, L1, L2. cbn [fst] in *.
  rewrite (K1 q), (K2 q), (L1 q), (L2 q), (kept_key _ _ K), (kept_key _ _ L). exact P.
Qed.
Lemma valid_go : forall l : list component, (fix go (l : list component) : bool := match l with [] => true | x :: t => comp_valid x && go t end) l
  = forallb comp_valid l.
Proof. induction l as [|c l IH]; [reflexivity|]. cbn. rewrite IH. reflexivity. Qed.
Lemma valid_some : forall l, dur_valid (Some l) = forallb comp_valid l.
Proof. intros l. unfold dur_valid. cbn [comp_valid]. apply valid_go. Qed.
Lemma valid_nobar : forall d, dur_valid d = dur_valid (nobar d).
Proof.
  intros [l|]; [|reflexivity]. cbn [nobar]. rewrite !valid_some. induction l as [|c l IH]; [reflexivity|].
  cbn [forallb filter]. destruct c; cbn [is_cbar negb forallb]; rewrite IH; reflexivity.
Qed.
Lemma valid_like : forall a b, dur_like a b -> dur_valid a = dur_valid b.
Proof. intros a b H. rewrite (valid_nobar a), (valid_nobar b), H. reflexivity. Qed.

Lemma add_note_like : forall nr nr' d d' s t, R s t -> ga_offs (globals s) = [] ->
  (forall pd, In pd (current s) -> nr_like nr nr' s t pd) -> dur_like d d' ->
  RR (add_note_or_rest nr d s) (add_note_or_rest nr' d' t).
Proof.
  intros nr nr' d d' s t H G P D. unfold add_note_or_rest. rewrite (R_chordmode _ _ H), (valid_like _ _ D).
  assert (X : forall s1 t1, R s1 t1 -> kept s s1 -> kept t t1 -> keeps poctave s s1 -> keeps poctave t t1 -> keeps ptransp s s1 -> keeps ptransp t t1 ->
     RR (if dur_valid d' then each (note_one nr d) (current s1) s1 else (s1, Err "invalid duration"))
        (if dur_valid d' then each (note_one nr' d') (current t1) t1 else (t1, Err "invalid duration"))).
  { intros s1 t1 H1 K L K1 L1 K2 L2. destruct (dur_valid d'); [|split; [exact H1|reflexivity]]. rewrite <- (R_current _ _ H1).
    apply each_note_like; [exact H1| |exact D]. intros q Hq. rewrite (kept_cur _ _ K) in Hq. specialize (P q Hq).
    unfold nr_like in *. destruct nr as [[pi sl]|], nr' as [[pi' sl']|]; auto. destruct P as [Ps P]. split; [exact Ps|].
    rewrite (K1 q), (K2 q), (L1 q), (L2 q), (kept_key _ _ K), (kept_key _ _ L). exact P. }
  destruct (chordmode t); [apply X; auto using kept_refl, keeps_refl|].
  destruct (apply_none s G) as [s1 [-> [R1 [K KF]]]]. assert (G' : ga_offs (globals t) = []) by (rewrite <- (R_globals _ _ H); exact G).
  destruct (apply_none t G') as [t1 [E [R2 [L LF]]]]. rewrite E. cbn [seqo].
  apply X; auto. eapply R_trans; [exact R1|]. eapply R_trans; [exact H|]. apply R_sym, R2.
Qed.
(** What a note or rest leaves alone, and the default duration it sets. *)
Lemma add_note_kept : forall nr d s, ga_offs (globals s) = [] -> kept s (fst (add_note_or_rest nr d s)) /\
  keeps poctave s (fst (add_note_or_rest nr d s)) /\ keeps ptempo s (fst (add_note_or_rest nr d s)) /\ keeps pscale s (fst (add_note_or_rest nr d s)).
Proof.
  intros nr d s G. unfold add_note_or_rest.
  assert (X : forall s1, kept s1 (fst (if dur_valid d then each (note_one nr d) (current s1) s1 else (s1, Err "invalid duration"))) /\
    keeps poctave s1 (fst (if dur_valid d then each (note_one nr d) (current s1) s1 else (s1, Err "invalid duration"))) /\
    keeps ptempo s1 (fst (if dur_valid d then each (note_one nr d) (current s1) s1 else (s1, Err "invalid duration"))) /\
    keeps pscale s1 (fst (if dur_valid d then each (note_one nr d) (current s1) s1 else (s1, Err "invalid duration")))).
  { intros s1. destruct (dur_valid d); cbn [fst]; [|split; [apply kept_refl|split; [|split]; apply keeps_refl]].
    split; [apply kept_each; intros; apply note_one_kept|]. split; [|split]; apply keeps_each; intros; apply note_one_kept. }
  destruct (chordmode s); cbn [seqo]; [apply X|]. destruct (apply_none s G) as [s1 [-> [_ [K KF]]]]. cbn [seqo].
  destruct (X s1) as [X1 [X2 [X3 X4]]]. split; [eapply kept_trans; eassumption|].
  split; [|split]; (eapply keeps_trans; [apply KF; reflexivity|assumption]).
Qed.
Definition sound (s : score) : Prop :=
  ga_offs (globals s) = [] /\ forall p, In p (current s) -> (p < List.length (heap s))%nat.
Lemma sound_forall : forall s, sound s -> Forall (fun p => (p < List.length (heap s))%nat) (current s).
Proof. intros s [_ H]. apply Forall_forall, H. Qed.
Lemma playing_sound : forall b k s, playing b k s -> sound s.
Proof. intros b k s [A B]. split; [exact A|]. intros p Hp. apply B, Hp. Qed.
Lemma kept_sound : forall s s', kept s s' -> sound s -> sound s'.
Proof. intros s s' [A B C D F _ _] [G H]. split; [congruence|]. intros p Hp. rewrite A in Hp. rewrite B. apply H, Hp. Qed.
Lemma R_sound : forall s t, R s t -> sound s -> sound t.
Proof.
  intros s t H [G P]. split; [rewrite <- (R_globals _ _ H); exact G|]. intros p Hp. rewrite <- (R_current _ _ H) in Hp.
  rewrite <- (R_len _ _ H). apply P, Hp.
Qed.
Lemma add_note_sets : forall nr d s s', sound s -> add_note_or_rest nr (Some d) s = (s', Ok) ->
  dur_valid (Some d) = true /\ forall p, In p (current s) -> pdur (getp s' p) = Some d.
Proof.
  intros nr d s s' G H. unfold add_note_or_rest in H.
  assert (X : forall s1, sound s1 -> (if dur_valid (Some d) then each (note_one nr (Some d)) (current s1) s1 else (s1, Err "invalid duration")) = (s', Ok) ->
     dur_valid (Some d) = true /\ forall p, In p (current s1) -> pdur (getp s' p) = Some d).
  { intros s1 G1 H1. destruct (dur_valid (Some d)); [|discriminate]. split; [reflexivity|]. intros p Hp.
    apply each_sets in H1; [|apply sound_forall, G1]. apply H1. left; exact Hp. }
  destruct (chordmode s); cbn [seqo] in H; [apply X; assumption|]. destruct (apply_none s (proj1 G)) as [s1 [E [_ [K _]]]].
  rewrite E in H. cbn [seqo] in H. apply X in H; [|eapply kept_sound; eassumption]. rewrite (kept_cur _ _ K) in H. exact H.
Qed.
Lemma add_note_default : forall nr d s, sound s -> dur_valid (Some d) = true -> (forall p, In p (current s) -> pdur (getp s p) = Some d) ->
  add_note_or_rest nr None s = add_note_or_rest nr (Some d) s.
Proof.
  intros nr d s G V P. unfold add_note_or_rest. rewrite V. change (dur_valid None) with true. cbv iota.
  assert (X : forall s1, sound s1 -> (forall p, In p (current s1) -> pdur (getp s1 p) = Some d) ->
    each (note_one nr None) (current s1) s1 = each (note_one nr (Some d)) (current s1) s1).
  { intros s1 G1 P1. apply each_default; [apply sound_forall, G1|exact P1]. }
  destruct (chordmode s); cbn [seqo]; [apply X; assumption|]. destruct (apply_none s (proj1 G)) as [s1 [E [_ [K KF]]]].
  rewrite E. cbn [seqo]. apply X; [eapply kept_sound; eassumption|]. intros p Hp. rewrite (kept_cur _ _ K) in Hp.
  rewrite (KF _ pdur (fun v => eq_refl)). apply P, Hp.
Qed.

(* ------------------------- attributes ------------------------- *)

Lemma update_part_like : forall u g p q, e1 p = e1 q ->
  match update_part u g p, update_part u g q with
  | ROk v, ROk w => e1 v = e1 w
  | RErr m, RErr m' => m = m'
  | RPanic m, RPanic m' => m = m'
  | _, _ => False
  end.
Proof.
  intros u g p q E. destruct u; cbn [update_part];
    try (e1_fields E; try reflexivity; fail).
  - destruct g; e1_fields E; try reflexivity. cbn. rewrite (e1_tvals _ _ E), (e1_cur _ _ E). reflexivity.
  - destruct g; e1_fields E; try reflexivity; cbn; rewrite ?(e1_tvals _ _ E), ?(e1_cur _ _ E), (e1_tempo _ _ E); reflexivity.
  - e1_fields E. intros P. rewrite (e1_octave _ _ E P). reflexivity.
  - e1_fields E. intros P. rewrite (e1_octave _ _ E P). reflexivity.
  - rewrite (e1_stock _ _ E). destruct (_ && _)%bool; [reflexivity|]. e1_fields E; reflexivity.
Qed.
Lemma run_attr_like : forall u s t, R s t -> RR (run_attr u s) (run_attr u t).
Proof.
  intros u s t H. unfold run_attr. rewrite (R_current _ _ H). generalize (current t). intros l. revert s t H.
  induction l as [|p l IH]; intros s t H; [split; [exact H|reflexivity]|]. cbn [each].
  apply RR_seq; [|intros s1 t1 _ _ H1; apply IH, H1].
  apply RR_seq.
  - unfold do_update_part. pose proof (update_part_like u false _ _ (R_getp _ _ p H)) as U.
    destruct (update_part u false (getp s p)) as [v|m|m], (update_part u false (getp t p)) as [w|m'|m']; try contradiction;
      try (subst m'; split; [exact H|reflexivity]). split; [apply R_setp; assumption|reflexivity].
  - intros s1 t1 _ _ H1. split; [|reflexivity]. apply R_modp; [exact H1|]. pose proof (R_getp _ _ p H1) as F.
    e1_fields F.
Qed.

Lemma keeps_setp : forall A (f : part -> A) p v s, f v = f (getp s p) -> keeps f s (setp p v s).
Proof.
  intros A f p v s H q. destruct (Nat.eq_dec p q) as [->|Hn]; [|rewrite getp_setp_other by exact Hn; reflexivity].
  destruct (Nat.lt_ge_cases q (List.length (heap s))) as [L|L].
  - rewrite getp_setp_same by exact L. exact H.
  - unfold setp, getp at 1. cbn. rewrite upd_nth_out by exact L. reflexivity.
Qed.
Lemma run_attr_keeps : forall u A (f : part -> A), (forall p v, update_part u false p = ROk v -> f v = f p) ->
  (forall o p, f (set_povr o p) = f p) -> forall s, keeps f s (fst (run_attr u s)).
Proof.
  intros u A f Hu Ho s. unfold run_attr. apply keeps_each. intros p s1. apply keeps_seq.
  - unfold do_update_part. destruct (update_part u false (getp s1 p)) as [v|m|m] eqn:E; try apply keeps_refl.
    cbn [fst]. apply keeps_setp. eapply Hu, E.
  - intros s2 K. cbn [fst]. eapply keeps_trans; [exact K|]. apply keeps_modp. apply Ho.
Qed.
Lemma run_attr_same : forall u s, current (fst (run_attr u s)) = current s /\ List.length (heap (fst (run_attr u s))) = List.length (heap s) /\
  globals (fst (run_attr u s)) = globals s /\ chordmode (fst (run_attr u s)) = chordmode s /\ vheap (fst (run_attr u s)) = vheap s.
Proof.
  intros u s0. unfold run_attr.
  enough (X : forall l s, let s' := fst (each (fun p s => seqo (do_update_part u false p s) (fun s => (modp p (set_povr (Some u)) s, Ok))) l s) in
    current s' = current s /\ List.length (heap s') = List.length (heap s) /\ globals s' = globals s /\ chordmode s' = chordmode s /\ vheap s' = vheap s) by apply X.
  induction l as [|p l IH]; intros s; cbv zeta in *; [auto|]. cbn [each].
  unfold do_update_part at 1 3 5 7 9. destruct (update_part u false (getp s p)) as [v|m|m]; cbn [seqo fst]; auto.
  match goal with |- context[each ?f l ?s1] => destruct (IH s1) as [A [B [C [D E]]]] end. rewrite A, B, C, D, E.
  rewrite heap_modp, heap_setp. auto.
Qed.
(** The attributes that a voice may contain. *)
Definition mild (u : part_update) : bool :=
  match u with PDynamic _ | POctave _ | POctUp | POctDown => true | _ => false end.
Lemma mild_kept : forall u s, mild u = true -> kept s (fst (run_attr u s)) /\ keeps pdur s (fst (run_attr u s)) /\
  keeps ptempo s (fst (run_attr u s)) /\ keeps pscale s (fst (run_attr u s)).
Proof.
  intros u s M. destruct (run_attr_same u s) as [A [B [C [D E]]]].
  assert (X : forall A (f : part -> A), (forall n p, f (set_poctave n p) = f p) -> (forall n p, f (set_pvol n p) = f p) ->
     (forall o p, f (set_povr o p) = f p) -> keeps f s (fst (run_attr u s))).
  { intros B0 f F1 F2 F3. apply run_attr_keeps; [|exact F3]. intros p v Hv. destruct u; try discriminate M; inversion Hv; auto. }
  split; [constructor; auto; apply X; reflexivity|]. split; [|split]; apply X; reflexivity.
Qed.

(* ------------------------- chords ------------------------- *)

Definition default_ms (p : part) : num := nmul (dur_ms_of (ptempo p) (pdur p)) (pscale p).
Definition covered (s : score) (m : list (pid * num)) : Prop :=
  forall p, In p (current s) -> exists a, aget Nat.eqb p m = Some (nmin a (default_ms (getp s p))).

Lemma aset_same : forall (m : list (pid * num)) p x, aget Nat.eqb p m = Some x -> aset Nat.eqb p x m = m.
Proof.
  induction m as [|[q v] m IH]; intros p x H; [discriminate|]. cbn in *. destruct (Nat.eqb q p) eqn:E.
  - apply Nat.eqb_eq in E. inversion H. subst. reflexivity.
  - rewrite IH by exact H. reflexivity.
Qed.
Lemma lower_covered : forall s m, covered s m -> lower_shortest None s m = m.
Proof.
  intros s m H. unfold lower_shortest. cbn [effective_dur].
  assert (X : forall l, (forall p, In p l -> In p (current s)) ->
     fold_left (fun m pd => aset Nat.eqb pd (nmin (pget n0 pd m) (nmul (dur_ms_of (ptempo (getp s pd)) (pdur (getp s pd))) (pscale (getp s pd)))) m) l m = m).
  { induction l as [|p l IH]; intros I; [reflexivity|]. cbn [fold_left].
    destruct (H p (I p (or_introl eq_refl))) as [a A]. unfold pget. rewrite A. fold (default_ms (getp s p)). rewrite min_law, aset_same by exact A.
    apply IH. intros; apply I; right; assumption. }
  apply X; auto.
Qed.
Lemma aget_aset_pid : forall (m : list (pid * num)) p q v, aget Nat.eqb q (aset Nat.eqb p v m) = if Nat.eqb p q then Some v else aget Nat.eqb q m.
Proof.
  induction m as [|[r w] m IH]; intros p q v; cbn.
  - reflexivity.
  - destruct (Nat.eqb r p) eqn:E.
    + apply Nat.eqb_eq in E. subst r. cbn. destruct (Nat.eqb p q); reflexivity.
    + cbn. rewrite IH. destruct (Nat.eqb r q) eqn:F; [|reflexivity]. apply Nat.eqb_eq in F. subst r.
      rewrite Nat.eqb_sym, E. reflexivity.
Qed.
Lemma lower_covers : forall d s m p, In p (current s) ->
  exists a, aget Nat.eqb p (lower_shortest d s m) = Some (nmin a (nmul (dur_ms_of (ptempo (getp s p)) (effective_dur d (getp s p))) (pscale (getp s p)))).
Proof.
  intros d s m p. unfold lower_shortest. generalize (current s). intros l Hp. 
  set (v := fun pd => nmul (dur_ms_of (ptempo (getp s pd)) (effective_dur d (getp s pd))) (pscale (getp s pd))).
  change (exists a, aget Nat.eqb p (fold_left (fun m pd => aset Nat.eqb pd (nmin (pget n0 pd m) (v pd)) m) l m) = Some (nmin a (v p))).
  assert (X : forall l m, (In p l \/ exists a, aget Nat.eqb p m = Some (nmin a (v p))) ->
     exists a, aget Nat.eqb p (fold_left (fun m pd => aset Nat.eqb pd (nmin (pget n0 pd m) (v pd)) m) l m) = Some (nmin a (v p))).
  { clear l m Hp. induction l as [|q l IH]; intros m H; [destruct H as [[]|H]; exact H|]. cbn [fold_left]. apply IH.
    destruct (Nat.eqb q p) eqn:E.
    - apply Nat.eqb_eq in E. subst q. right. rewrite aget_aset_pid, Nat.eqb_refl. eexists; reflexivity.
    - rewrite aget_aset_pid, E. destruct H as [[->|H]|H]; [rewrite Nat.eqb_refl in E; discriminate|left; exact H|right; exact H]. }
  apply X. left; exact Hp.
Qed.
Lemma note_covers : forall nr d s s' m, sound s -> add_note_or_rest nr (Some d) s = (s', Ok) -> covered s' (lower_shortest (Some d) s m).
Proof.
  intros nr d s s' m G H p Hp. destruct (add_note_sets _ _ _ _ G H) as [_ P].
  destruct (add_note_kept nr (Some d) s (proj1 G)) as [K [_ [K2 K3]]]. rewrite H in K, K2, K3. cbn [fst] in *.
  rewrite (kept_cur _ _ K) in Hp. unfold default_ms. rewrite (P p Hp), (K2 p), (K3 p). apply (lower_covers (Some d)). exact Hp.
Qed.
Lemma mild_covers : forall u s s' m, mild u = true -> run_attr u s = (s', Ok) -> covered s m -> covered s' m.
Proof.
  intros u s s' m M H C p Hp. destruct (mild_kept u s M) as [K [K1 [K2 K3]]]. rewrite H in K, K1, K2, K3. cbn [fst] in *.
  rewrite (kept_cur _ _ K) in Hp. unfold default_ms. rewrite (K1 p), (K2 p), (K3 p). apply C, Hp.
Qed.
Lemma lower_like : forall d d' s t m, R s t -> dur_like d d' -> lower_shortest d s m = lower_shortest d' t m.
Proof.
  intros d d' s t m H D. unfold lower_shortest. rewrite (R_current _ _ H). generalize (current t). intros l. revert m.
  induction l as [|p l IH]; intros m; [reflexivity|]. cbn [fold_left]. pose proof (R_getp _ _ p H) as E.
  rewrite (ms_same _ _ _ (eff_like _ _ _ _ D E)), (e1_tempo _ _ E), (e1_scale _ _ E). apply IH.
Qed.
Lemma lower_none : forall s t m, R s t -> lower_shortest None s m = lower_shortest None t m.
Proof. intros s t m H. apply lower_like; [exact H|reflexivity]. Qed.
Lemma R_covered : forall s t m, R s t -> covered s m -> covered t m.
Proof.
  intros s t m H C p Hp. rewrite <- (R_current _ _ H) in Hp. destruct (C p Hp) as [a A]. exists a. rewrite A. f_equal. f_equal.
  pose proof (R_getp _ _ p H) as E. unfold default_ms. rewrite (ms_same _ _ _ (e1_dur _ _ E)), (e1_tempo _ _ E), (e1_scale _ _ E). reflexivity.
Qed.
Lemma finish_like : forall m s t, R s t -> RR (chord_finish m s) (chord_finish m t).
Proof.
  intros m s t H. unfold chord_finish. rewrite (R_current _ _ H). generalize (current t). intros l. revert s t H.
  induction l as [|p l IH]; intros s t H; [split; [exact H|reflexivity]|]. cbn [each seqo]. apply IH.
  apply R_modp; [exact H|]. pose proof (R_getp _ _ p H) as E. e1_fields E. cbn. rewrite (e1_cur _ _ E). reflexivity.
Qed.
Lemma finish_kept : forall m s, kept s (fst (chord_finish m s)).
Proof. intros m s. unfold chord_finish. apply kept_each. intros p s1. cbn [fst]. apply kept_modp; reflexivity. Qed.
End Sim.
