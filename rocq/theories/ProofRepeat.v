(** Proofs of C12 and C13: the repetition counter matters only to endings. *)
From Coq Require Import ZArith List String Bool Lia Arith.
From Verif Require Import Base Num ModelPitch ModelDuration ModelInstruments ModelTypes ModelLisp
  ModelScore SpecScore SpecVars SpecParts SpecSolo SpecTiming SpecRepeat ProofHeap ProofStep ProofInv ProofEvents
  ProofVoices ProofVars ProofSafe ProofTracks ProofSolo ProofTiming.
Import ListNotations.

Section Repeat.
Context {N : Num}.
Local Opaque stock_instrument stock_instrument_name.

Notation e0 := (set_prep 0).
Notation er := counterless.
Definition E (r : score * outcome) : score * outcome := (er (fst r), snd r).
Definition ERes {A} (r : res (A * score)) : res (A * score) :=
  match r with ROk (a, s) => ROk (a, er s) | RErr m => RErr m | RPanic m => RPanic m end.

Lemma er_er : forall s, er (er s) = er s.
Proof. intros s. unfold counterless. cbn. rewrite map_map. reflexivity. Qed.
Lemma getp_er : forall s p, getp (er s) p = e0 (getp s p).
Proof. intros s p. unfold getp, counterless. cbn. change dead_part with (e0 (@dead_part N)) at 1. apply map_nth. Qed.
Lemma map_upd_nth : forall A B (f : A -> B) i x l, map f (upd_nth i x l) = upd_nth i (f x) (map f l).
Proof. intros A B f i x l. revert i. induction l as [|a l IH]; intros [|i]; cbn; try reflexivity. rewrite IH. reflexivity. Qed.
Lemma setp_er : forall p v s, setp p (e0 v) (er s) = er (setp p v s).
Proof. intros p v s. unfold setp, counterless. cbn. rewrite map_upd_nth. reflexivity. Qed.
Lemma modp_er : forall p f s, (forall v, f (e0 v) = e0 (f v)) -> modp p f (er s) = er (modp p f s).
Proof. intros p f s H. unfold modp. rewrite getp_er, H. apply setp_er. Qed.

(** [f] does not depend on the counters: it maps erased scores to the erased result. *)
Definition blind (f : score -> score * outcome) : Prop := forall s, f (er s) = E (f s).
(** Functions that do write counters. *)
Definition weak (f : score -> score * outcome) : Prop := forall s, E (f (er s)) = E (f s).
Lemma E_E : forall r, E (E r) = E r.
Proof. intros [s o]. unfold E. cbn. rewrite er_er. reflexivity. Qed.
Lemma blind_weak : forall f, blind f -> weak f.
Proof. intros f H s. rewrite H. apply E_E. Qed.
Lemma weak_sim : forall f, weak f -> forall s t, er s = er t -> E (f s) = E (f t).
Proof. intros f H s t Hst. rewrite <- (H s), <- (H t), Hst. reflexivity. Qed.
Lemma weak_seq : forall f g, weak f -> weak g -> weak (fun s => seqo (f s) g).
Proof.
  intros f g Hf Hg s. pose proof (Hf s) as A. destruct (f (er s)) as [s1 o1], (f s) as [s2 o2].
  unfold E in A. cbn [fst snd] in A. assert (A1 := f_equal fst A). assert (A2 := f_equal snd A). cbn [fst snd] in A1, A2. subst o1. destruct o2; cbn [seqo]; try (unfold E; cbn; congruence).
  apply (weak_sim _ Hg); exact A1.
Qed.
Lemma weak_each : forall A (f : A -> score -> score * outcome) l, (forall a, In a l -> weak (f a)) -> weak (each f l).
Proof.
  intros A f l H. induction l as [|a l IH]; [intros s; unfold E; cbn; rewrite er_er; reflexivity|].
  apply (weak_seq (f a) (each f l)); [apply H; left; reflexivity|]. apply IH. intros; apply H; right; assumption.
Qed.
Lemma weak_ret : forall o, weak (fun s => (s, o)).
Proof. intros o s. unfold E; cbn. rewrite er_er. reflexivity. Qed.
(** [f] may choose what to do by something the counters do not affect. *)
Lemma weak_by : forall B (pick : score -> B) (f : B -> score -> score * outcome),
  (forall s, pick (er s) = pick s) -> (forall b, weak (f b)) -> weak (fun s => f (pick s) s).
Proof. intros B pick f Hp Hf s. cbv beta. rewrite Hp. apply Hf. Qed.
Lemma weak_modp : forall p f, (forall v, e0 (f (e0 v)) = e0 (f v)) -> weak (fun s => (modp p f s, Ok)).
Proof.
  intros p f H s. unfold E. cbn [fst snd]. f_equal. unfold modp. rewrite (getp_er s p). unfold setp, counterless.
  cbn [heap set_heap]. rewrite !map_upd_nth, H, map_map. reflexivity.
Qed.

Lemma update_part_e0 : forall u g p, update_part u g (e0 p) = rmap e0 (update_part u g p).
Proof.
  intros u g p. destruct u; try reflexivity; try (destruct g; reflexivity). cbn.
  destruct (_ && _)%bool; reflexivity.
Qed.
Lemma do_update_weak : forall u g p, weak (do_update_part u g p).
Proof.
  intros u g p. apply blind_weak. intros s. unfold do_update_part. rewrite getp_er, update_part_e0.
  destruct (update_part u g (getp s p)) as [v|m|m]; cbn [rmap rbind]; unfold E; cbn [fst snd]; [|reflexivity|reflexivity].
  rewrite setp_er. reflexivity.
Qed.
Lemma run_attr_weak : forall u, weak (run_attr u).
Proof.
  intros u. unfold run_attr. apply (weak_by _ current); [reflexivity|]. intros l. apply weak_each. intros p _.
  apply (weak_seq (do_update_part u false p)); [apply do_update_weak|]. apply weak_modp. reflexivity.
Qed.
Lemma apply_to_weak : forall p, weak (apply_globals_to p).
Proof.
  intros p. unfold apply_globals_to.
  apply (weak_by _ (fun s => in_window (globals s) (plast (getp s p)) (pcur (getp s p)))
    (fun l s => seqo (each (fun u s => if overrides (povr (getp s p)) u then (s, Ok) else do_update_part u true p s) l s)
                     (fun s => (modp p (set_povr None) s, Ok)))).
  { intros s. rewrite getp_er. reflexivity. }
  intros l. apply (weak_seq (each _ l)); [|apply weak_modp; reflexivity]. apply weak_each. intros u _.
  apply (weak_by _ (fun s => overrides (povr (getp s p)) u) (fun b s => if b then (s, Ok) else do_update_part u true p s)).
  { intros s. rewrite getp_er. reflexivity. }
  intros []; [apply weak_ret|apply do_update_weak].
Qed.
Lemma apply_globals_weak : weak apply_globals.
Proof. unfold apply_globals. apply (weak_by _ current); [reflexivity|]. intros l. apply weak_each. intros; apply apply_to_weak. Qed.
Lemma same_offset_er : forall s off l, same_offset (er s) off l = same_offset s off l.
Proof.
  intros s off l. unfold same_offset. induction l as [|p l IH]; [reflexivity|]. cbn [forallb]. rewrite IH, getp_er. reflexivity.
Qed.
Lemma run_gattr_weak : forall u, weak (run_gattr u).
Proof.
  intros u. apply blind_weak. intros s. unfold run_gattr. cbn [counterless set_heap current]. fold (er s).
  destruct (current s) as [|p rest]; [reflexivity|]. rewrite same_offset_er, getp_er. change (pcur (e0 (getp s p))) with (pcur (getp s p)).
  destruct (same_offset _ _ _); reflexivity.
Qed.
Lemma run_marker_weak : forall n, weak (run_marker n).
Proof.
  intros u. apply blind_weak. intros s. unfold run_marker. cbn [counterless set_heap current]. fold (er s).
  destruct (current s) as [|p rest]; [reflexivity|]. rewrite same_offset_er, getp_er. change (pcur (e0 (getp s p))) with (pcur (getp s p)).
  destruct (same_offset _ _ _); reflexivity.
Qed.
Lemma at_marker_weak : forall n, weak (run_at_marker n).
Proof.
  intros n. unfold run_at_marker. apply (weak_seq apply_globals); [apply apply_globals_weak|].
  apply (weak_by _ (fun s => (aget String.eqb n (markers s), current s))
    (fun b s => match fst b with None => (s, Err "marker undefined") | Some off =>
       each (fun p s => (modp p (fun q => set_pcur off (set_plast (pcur q) q)) s, Ok)) (snd b) s end)).
  { reflexivity. }
  intros [[off|] l]; cbn [fst snd]; [|apply weak_ret]. apply weak_each. intros p _. apply weak_modp. reflexivity.
Qed.
Lemma var_def_weak : forall n es, weak (run_var_def n es).
Proof.
  intros n es. apply blind_weak. intros s. unfold run_var_def. cbn [counterless set_heap variables].
  destruct (rmapl _ _); reflexivity.
Qed.

(* notes *)
Lemma determine_er : forall s p d, determine_channel (er s) (e0 p) d = determine_channel s p d.
Proof. reflexivity. Qed.
Lemma assign_er : forall s p d, assign_channel (er s) (e0 p) d = ERes (assign_channel s p d).
Proof.
  intros s p d. unfold assign_channel. rewrite determine_er. destruct (determine_channel s p d) as [c|m|m]; cbn [rbind]; try reflexivity.
  destruct (negb (chan_ok c)); [reflexivity|]. change (usage_at (er s) c) with (usage_at s c).
  change (porigin (e0 p)) with (porigin p). destruct (existsb _ _); reflexivity.
Qed.
Lemma emit_blind : forall pi sl dms pd, blind (emit_note pi sl dms pd).
Proof.
  intros pi sl dms pd s. unfold emit_note. rewrite getp_er, assign_er. cbv zeta.
  change (pquant (e0 (getp s pd))) with (pquant (getp s pd)).
  destruct (nltb _ _); [|reflexivity].
  change (calc_midi_note pi (poctave (e0 (getp s pd))) (pkey (e0 (getp s pd))) (ptransp (e0 (getp s pd))))
    with (calc_midi_note pi (poctave (getp s pd)) (pkey (getp s pd)) (ptransp (getp s pd))).
  destruct (_ || _)%bool; [reflexivity|].
  destruct (assign_channel s (getp s pd) _) as [[c s1]|m|m]; cbn [ERes]; try reflexivity.
  unfold E. cbn [fst snd]. f_equal. rewrite !modp_er by reflexivity. reflexivity.
Qed.
Lemma note_one_weak : forall nr d p, weak (note_one nr d p).
Proof.
  intros nr d p. unfold note_one.
  apply (weak_by _ (fun s => let q := getp s p in (nmul (dur_ms_of (ptempo q) (effective_dur d q)) (pscale q), effective_dur d q))
    (fun b s => seqo (match nr with Some (pi, sl) => emit_note pi sl (fst b) p s | None => (s, Ok) end)
                     (fun s => (modp p (advance_part (chordmode s) (fst b) (snd b)) s, Ok)))).
  { intros s. cbv zeta. rewrite getp_er. reflexivity. }
  intros [dms ed]. cbn [fst snd].
  apply (weak_seq (fun s => match nr with Some (pi, sl) => emit_note pi sl dms p s | None => (s, Ok) end)).
  - destruct nr as [[pi sl]|]; [apply blind_weak, emit_blind|apply weak_ret].
  - apply (weak_by _ chordmode (fun b s => (modp p (advance_part b dms ed) s, Ok))); [reflexivity|].
    intros b. apply weak_modp. intros v. unfold advance_part, update_default_dur. destruct b, ed; reflexivity.
Qed.
Lemma add_note_weak : forall nr d, weak (add_note_or_rest nr d).
Proof.
  intros nr d. unfold add_note_or_rest.
  apply (weak_seq (fun s => if chordmode s then (s, Ok) else apply_globals s)).
  - apply (weak_by _ chordmode (fun b s => if b then (s, Ok) else apply_globals s)); [reflexivity|].
    intros []; [apply weak_ret|apply apply_globals_weak].
  - destruct (dur_valid d); [|apply weak_ret].
    apply (weak_by _ current (fun l s => each (note_one nr d) l s)); [reflexivity|]. intros l.
    apply weak_each. intros; apply note_one_weak.
Qed.
Lemma prim_weak : forall q, weak (run_prim q).
Proof. intros [pi d sl|d|u|u]; [apply add_note_weak|apply add_note_weak|apply run_attr_weak|apply run_gattr_weak]. Qed.

(* voices *)
Lemma clone_er : forall p s, clone p (er s) = (fst (clone p s), er (snd (clone p s))).
Proof.
  intros p s. unfold clone. rewrite getp_er. cbn. rewrite map_length. unfold counterless. cbn. rewrite map_app. reflexivity.
Qed.
Lemma new_voice_er : forall p n s, new_voice p n (er s) = ERes (new_voice p n s).
Proof.
  intros p n s. unfold new_voice. unfold has_voices. rewrite getp_er. change (pvoices (e0 (getp s p))) with (pvoices (getp s p)).
  change (getv (er s) (pvoices (getp s p))) with (getv s (pvoices (getp s p))).
  change (ptmpl (e0 (getp s p))) with (ptmpl (getp s p)).
  assert (K : forall s1,
    match ptmpl (getp (er s1) p) with
    | None => RPanic "nil pointer dereference"
    | Some t => let (v, s2) := clone t (er s1) in
       let cell := pvoices (getp s2 p) in ROk (v, setv cell (getv s2 cell ++ [(n, v)]) s2) end =
    ERes (match ptmpl (getp s1 p) with
    | None => RPanic "nil pointer dereference"
    | Some t => let (v, s2) := clone t s1 in
       let cell := pvoices (getp s2 p) in ROk (v, setv cell (getv s2 cell ++ [(n, v)]) s2) end)).
  { intros s1. rewrite getp_er. change (ptmpl (e0 (getp s1 p))) with (ptmpl (getp s1 p)).
    destruct (ptmpl (getp s1 p)) as [t|]; [|reflexivity]. rewrite clone_er. destruct (clone t s1) as [v s2]. cbn [fst snd].
    rewrite getp_er. reflexivity. }
  destruct (getv s (pvoices (getp s p))); [|apply K].
  destruct (ptmpl (getp s p)); [reflexivity|]. rewrite clone_er. destruct (clone p s) as [t s1]. cbn [fst snd rbind].
  rewrite !modp_er by reflexivity. apply K.
Qed.
Lemma get_voice_er : forall p n s, get_voice p n (er s) = ERes (get_voice p n s).
Proof.
  intros p n s. unfold get_voice. rewrite getp_er. change (pvoices (e0 (getp s p))) with (pvoices (getp s p)).
  change (getv (er s) (pvoices (getp s p))) with (getv s (pvoices (getp s p))).
  destruct (aget Z.eqb n _); [reflexivity|apply new_voice_er].
Qed.
Lemma redirect_er : forall s o v l, redirect (er s) o v l = redirect s o v l.
Proof. intros. unfold redirect. apply map_ext. intros q. rewrite getp_er. reflexivity. Qed.
Lemma voice_loop_blind : forall n cnt i, blind (voice_loop n i cnt).
Proof.
  intros n cnt. induction cnt as [|k IH]; intros i s; [reflexivity|]. cbn [voice_loop].
  change (current (er s)) with (current s). destruct (nth_error (current s) i) as [p|]; [|reflexivity].
  rewrite get_voice_er. destruct (get_voice p n s) as [[v s1]|m|m]; cbn [ERes]; try reflexivity.
  rewrite getp_er, redirect_er. change (porigin (e0 (getp s1 p))) with (porigin (getp s1 p)). change (current (er s1)) with (current s1).
  rewrite <- IH. reflexivity.
Qed.
Lemma last_to_finish_er : forall s vs d, last_to_finish (er s) vs d = last_to_finish s vs d.
Proof.
  intros s vs d. unfold last_to_finish. generalize (snd (last vs (0%Z, d))). generalize (removelast vs).
  intros l. induction l as [|v l IH]; intros b; [reflexivity|]. cbn [fold_left]. rewrite !getp_er.
  change (pcur (e0 (getp s b))) with (pcur (getp s b)). change (pcur (e0 (getp s (snd v)))) with (pcur (getp s (snd v))). apply IH.
Qed.
Lemma voice_end_one_er : forall i p s, voice_end_one i p (er s) = er (voice_end_one i p s).
Proof.
  intros i p s. unfold voice_end_one. rewrite getp_er. change (pvoices (e0 (getp s p))) with (pvoices (getp s p)).
  change (getv (er s) (pvoices (getp s p))) with (getv s (pvoices (getp s p))).
  destruct (getv s (pvoices (getp s p))) as [|v vs]; [reflexivity|]. rewrite last_to_finish_er.
  set (lv := last_to_finish s (v :: vs) p). cbv zeta.
  change (set_vheap (vheap (er s) ++ [[]]) (er s)) with (er (set_vheap (vheap s ++ [[]]) s)).
  rewrite modp_er by reflexivity. change (List.length (vheap (er s))) with (List.length (vheap s)).
  set (s2 := modp lv (fun q => set_ptmpl None (set_pvoices (List.length (vheap s)) q)) (set_vheap (vheap s ++ [[]]) s)).
  change (set_current (upd_nth i lv (current (er s2))) (er s2)) with (er (set_current (upd_nth i lv (current s2)) s2)).
  set (s3 := set_current (upd_nth i lv (current s2)) s2). rewrite getp_er.
  change (porigin (e0 (getp s3 p))) with (porigin (getp s3 p)). rewrite redirect_er.
  change (set_parts (redirect s3 (porigin (getp s3 p)) lv (parts (er s3))) (er s3))
    with (er (set_parts (redirect s3 (porigin (getp s3 p)) lv (parts s3)) s3)).
  set (s4 := set_parts _ s3).
  change (aliases (er s4)) with (aliases s4).
  rewrite (map_ext (fun '(a, ps) => (a, redirect (er s4) (porigin (getp s3 p)) lv ps))
                   (fun '(a, ps) => (a, redirect s4 (porigin (getp s3 p)) lv ps))); [reflexivity|].
  intros [a ps]. rewrite redirect_er. reflexivity.
Qed.
Lemma voice_end_er : forall s, run_voice_end (er s) = er (run_voice_end s).
Proof.
  intros s. unfold run_voice_end. change (current (er s)) with (current s). generalize (List.length (current s)). intros cnt. generalize 0%nat.
  revert s. induction cnt as [|k IH]; intros s i; [reflexivity|]. cbn [voice_end_loop]. change (current (er s)) with (current s).
  destruct (nth_error (current s) i); [|reflexivity]. rewrite voice_end_one_er. apply IH.
Qed.

(* parts *)
Lemma new_part_er : forall n s, new_part n (er s) = ERes (new_part n s).
Proof.
  intros n s. unfold new_part. destruct (stock_instrument n) as [i|]; [|reflexivity]. cbn [ERes].
  unfold counterless. cbn [heap vheap set_heap set_vheap]. rewrite map_length, map_app. reflexivity.
Qed.
Lemma unnamed_er : forall s n, unnamed_parts (er s) n = unnamed_parts s n.
Proof.
  intros s n. unfold unnamed_parts. apply filter_ext. intros p. rewrite getp_er. reflexivity.
Qed.
Lemma aliased_stock_er : forall s n, aliased_stock (er s) n = aliased_stock s n.
Proof.
  intros s n. unfold aliased_stock. apply flat_map_ext. intros [a [|p [|]]]; try reflexivity. rewrite getp_er. reflexivity.
Qed.
Lemma new_parts_er : forall names s, new_parts names (er s) = ERes (new_parts names s).
Proof.
  induction names as [|n t IH]; intros s; [reflexivity|]. cbn [new_parts]. rewrite new_part_er.
  destruct (new_part n s) as [[p s1]|m|m]; cbn [ERes rbind]; try reflexivity. rewrite IH.
  destruct (new_parts t s1) as [[ps s2]|m|m]; reflexivity.
Qed.
Definition E3 (r : res (list pid * list pid * score)) : res (list pid * list pid * score) :=
  match r with ROk (a, b, s) => ROk (a, b, er s) | RErr m => RErr m | RPanic m => RPanic m end.
Lemma group_parts_er : forall names s, group_parts names (er s) = E3 (group_parts names s).
Proof.
  induction names as [|n t IH]; intros s; [reflexivity|]. cbn [group_parts]. rewrite unnamed_er.
  change (named_parts (er s) n) with (named_parts s n).
  destruct (nonempty (named_parts s n)).
  - rewrite IH. destruct (group_parts t s) as [[[np sp] s2]|m|m]; reflexivity.
  - destruct (nonempty (unnamed_parts s n)).
    + rewrite IH. destruct (group_parts t s) as [[[np sp] s2]|m|m]; reflexivity.
    + rewrite new_part_er. destruct (new_part n s) as [[p s1]|m|m]; cbn [ERes rbind E3]; try reflexivity.
      rewrite IH. destruct (group_parts t s1) as [[[np sp] s2]|m|m]; reflexivity.
Qed.
Lemma determine_parts_er : forall names alias s, determine_parts names alias (er s) = ERes (determine_parts names alias s).
Proof.
  intros names alias s. unfold determine_parts.
  assert (G : forall ns, (if has_dup ns then RErr "name included multiple times in group"
      else rbind (group_parts ns (er s)) (fun '(np, sp, s1) =>
        if nonempty np && nonempty sp then RErr "invalid group"
        else if negb (is_empty_string alias) && nonempty sp then new_parts ns s1 else ROk (dedup (np ++ sp) [], s1)))
    = ERes (if has_dup ns then RErr "name included multiple times in group"
      else rbind (group_parts ns s) (fun '(np, sp, s1) =>
        if nonempty np && nonempty sp then RErr "invalid group"
        else if negb (is_empty_string alias) && nonempty sp then new_parts ns s1 else ROk (dedup (np ++ sp) [], s1)))).
  { intros ns. destruct (has_dup ns); [reflexivity|]. rewrite group_parts_er.
    destruct (group_parts ns s) as [[[np sp] s1]|m|m]; cbn [E3 rbind]; try reflexivity.
    destruct (nonempty np && nonempty sp)%bool; [reflexivity|].
    destruct (negb (is_empty_string alias) && nonempty sp)%bool; [apply new_parts_er|reflexivity]. }
  destruct names as [|name [|n2 rest]]; [apply G| |apply G]. clear G.
  rewrite unnamed_er, aliased_stock_er, new_part_er.
  change (named_parts (er s) name) with (named_parts s name). change (named_parts (er s) alias) with (named_parts s alias).
  destruct (negb (is_empty_string alias) && nonempty (named_parts s name))%bool; [reflexivity|].
  destruct (negb (is_empty_string alias) && nonempty (named_parts s alias))%bool; [reflexivity|].
  match goal with |- (if ?b then _ else _) = _ => destruct b end; [reflexivity|].
  destruct (negb (is_empty_string alias)).
  - destruct (new_part name s) as [[p s1]|m|m]; reflexivity.
  - destruct (nonempty (named_parts s name)); [reflexivity|]. destruct (nonempty (unnamed_parts s name)); [reflexivity|].
    destruct (new_part name s) as [[p s1]|m|m]; reflexivity.
Qed.
Lemma define_aliases_er : forall a ps s, define_aliases a ps (er s) = er (define_aliases a ps s).
Proof.
  intros a ps s. unfold define_aliases. 
  change (map (fun p => (p, aliases_for (er s) p)) ps) with (map (fun p => (p, aliases_for s p)) ps).
  change (set_alias a ps (er s)) with (er (set_alias a ps s)).
  generalize (map (fun p => (p, aliases_for s p)) ps) (set_alias a ps s). clear. intros l. induction l as [|[p old] l IH]; intros s; [reflexivity|].
  cbn [fold_left]. rewrite getp_er.
  change (pname (e0 (getp s p))) with (pname (getp s p)).
  change (set_alias (a ++ "." ++ pname (getp s p)) [p] (er s)) with (er (set_alias (a ++ "." ++ pname (getp s p)) [p] s)).
  assert (K : forall old s, fold_left (fun s a0 => set_alias (a ++ "." ++ a0) [p] s) old (er s)
     = er (fold_left (fun s a0 => set_alias (a ++ "." ++ a0) [p] s) old s)).
  { clear. induction old as [|b old IH]; intros s; [reflexivity|]. cbn [fold_left]. 
    change (set_alias (a ++ "." ++ b) [p] (er s)) with (er (set_alias (a ++ "." ++ b) [p] s)). apply IH. }
  rewrite K. apply IH.
Qed.
Lemma add_new_parts_er : forall ps s, add_new_parts ps (er s) = er (add_new_parts ps s).
Proof.
  unfold add_new_parts. induction ps as [|p ps IH]; intros s; [reflexivity|]. cbn [fold_left]. change (parts (er s)) with (parts s).
  destruct (existsb _ _); [apply IH|]. change (set_parts (parts s ++ [p]) (er s)) with (er (set_parts (parts s ++ [p]) s)). apply IH.
Qed.
Lemma run_part_blind : forall names alias, blind (run_part names alias).
Proof.
  intros names alias s. unfold run_part. rewrite voice_end_er. set (s0 := run_voice_end s). rewrite determine_parts_er.
  destruct (determine_parts names alias s0) as [[ps s1]|m|m]; cbn [ERes]; try reflexivity.
  change (parts (er s1)) with (parts s1).
  assert (F : forall s2, (set_current ps (if is_empty_string alias then add_new_parts ps (er s2) else define_aliases alias ps (add_new_parts ps (er s2))), Ok)
    = E (set_current ps (if is_empty_string alias then add_new_parts ps s2 else define_aliases alias ps (add_new_parts ps s2)), Ok)).
  { intros s2. rewrite add_new_parts_er, define_aliases_er. destruct (is_empty_string alias); reflexivity. }
  destruct (parts s1) as [|q l]; [|apply F].
  destruct ps as [|p0 ps0]; [reflexivity|]. rewrite modp_er by reflexivity. apply F.
Qed.
Local Opaque run_part.

(* ---------------- durations do not look at the counter ---------------- *)

Definition EP (r : dres) : dres := match r with (p, d, o) => (e0 p, d, o) end.
Definition dweak (f : part -> dres) : Prop := forall p, EP (f (e0 p)) = EP (f p).
Lemma dweak_sim : forall f, dweak f -> forall p q, e0 p = e0 q -> EP (f p) = EP (f q).
Proof. intros f H p q Hpq. rewrite <- (H p), <- (H q), Hpq. reflexivity. Qed.
Lemma dseq_sim : forall r r' k k', EP r = EP r' -> (forall p q d, e0 p = e0 q -> EP (k p d) = EP (k' q d)) ->
  EP (dseq r k) = EP (dseq r' k').
Proof.
  intros [[p d] o] [[q d'] o'] k k' H Hk. cbn in H.
  assert (H1 : e0 p = e0 q) by congruence. assert (d = d') by congruence. assert (o = o') by congruence. subst d' o'.
  destruct o; cbn; try congruence. apply Hk, H1.
Qed.
Lemma note_dur_weak : forall d, dweak (note_dur d).
Proof. intros [d|] p; reflexivity. Qed.
Lemma prim_dur_weak : forall q, dweak (prim_dur q).
Proof. intros [pi d sl|d|u|u] p; try reflexivity; apply note_dur_weak. Qed.
Lemma dur_repeat_weak : forall f k r acc p q, dweak f -> e0 p = e0 q -> EP (dur_repeat f r k p acc) = EP (dur_repeat f r k q acc).
Proof.
  intros f k. induction k as [|k IH]; intros r acc p q H Hpq; cbn [dur_repeat EP]; [congruence|].
  apply dseq_sim; [apply dweak_sim; [exact H|]|intros; apply IH; assumption].
  change (e0 (set_prep r p)) with (e0 p). change (e0 (set_prep r q)) with (e0 q). exact Hpq.
Qed.
Lemma dur_sum_weak : forall f l, Forall (fun u => dweak (f u)) l ->
  forall acc p q, e0 p = e0 q -> EP (dur_sum f l p acc) = EP (dur_sum f l q acc).
Proof.
  intros f l H. induction H as [|u l Hu Hl IH]; intros acc p q Hpq; cbn [dur_sum]; [cbn; congruence|].
  apply dseq_sim; [apply dweak_sim; assumption|]. intros. apply IH. assumption.
Qed.
Lemma e0_e0 : forall p, e0 (e0 p) = e0 p.
Proof. reflexivity. Qed.
Lemma dur_upd_weak : forall dr u, upd_all no_endings u -> (forall n, dweak (dr n)) -> dweak (dur_upd dr u).
Proof.
  intros dr u Hu Hd. revert Hu. induction u using update_ind'; intros Hu q0; cbn [upd_all] in Hu; cbn [dur_upd]; try reflexivity;
    try rewrite upd_all_list in Hu;
    try (assert (HA : Forall (fun u => dweak (dur_upd dr u)) es) by (rewrite Forall_forall in *; intros; apply H; auto)).
  - apply prim_dur_weak.
  - destruct (eval_update els) as [[q|]|m|m]; try reflexivity. apply prim_dur_weak.
  - generalize (@nmaxval N). assert (Hq : e0 (e0 q0) = e0 q0) by reflexivity. revert Hq. generalize (e0 q0) at 1 3. generalize q0. clear H Hu.
    induction HA as [|u l Hu Hl IH]; intros q1 q2 Hq acc; [cbn; congruence|].
    apply dseq_sim; [apply dweak_sim; assumption|]. intros. apply IH. assumption.
  - destruct Hu as [_ Hu].
    apply dseq_sim; [apply dur_repeat_weak; [apply IHu, Hu|reflexivity]|]. intros p1 p2 d Hp. destruct (_ =? _)%Z; cbn; congruence.
  - destruct Hu as [[] _].
  - assert (Hq : e0 (e0 q0) = e0 q0) by reflexivity. revert Hq. generalize (@n0 N). generalize (e0 q0) at 1 3. generalize q0. clear H Hu.
    induction HA as [|u l Hu Hl IH]; intros q1 q2 acc Hq; [cbn; congruence|].
    apply dseq_sim; [apply dweak_sim; assumption|]. intros. apply IH. assumption.
  - apply Hd.
Qed.
Lemma dur_deref_weak : forall fuel vars, (forall n es, In (n, es) vars -> Forall (upd_all no_endings) es) ->
  forall n, dweak (dur_deref fuel vars n).
Proof.
  induction fuel as [|f IH]; intros vars Hv n p; cbn [dur_deref]; destruct (aget String.eqb n vars) as [es|] eqn:Ea; try reflexivity.
  apply dur_sum_weak; [|reflexivity]. apply aget_in in Ea; [|apply String.eqb_eq].
  specialize (Hv _ _ Ea) as He. eapply Forall_impl; [|exact He].
  intros u Hu. apply dur_upd_weak; [exact Hu|]. intros m. apply IH. exact Hv.
Qed.
Lemma time_scale_weak : forall dr es d p, Forall (upd_all no_endings) es -> (forall n, dweak (dr n)) ->
  time_scale dr es d (e0 p) = time_scale dr es d p.
Proof.
  intros dr es d p Hes Hd. unfold time_scale, inner_dur.
  assert (K : EP (dur_sum (dur_upd dr) es (set_povr None (e0 p)) n0) = EP (dur_sum (dur_upd dr) es (set_povr None p) n0)).
  { apply dur_sum_weak; [|reflexivity]. eapply Forall_impl; [|exact Hes]. intros; apply dur_upd_weak; assumption. }
  destruct (dur_sum _ _ (set_povr None (e0 p)) _) as [[p1 d1] o1], (dur_sum _ _ (set_povr None p) _) as [[p2 d2] o2].
  cbn [EP] in K. assert (d1 = d2) by congruence. assert (o1 = o2) by congruence. subst.
  change (pscale (e0 p)) with (pscale p). change (ptempo (e0 p)) with (ptempo p).
  change (effective_dur d (e0 p)) with (effective_dur d p). reflexivity.
Qed.

(* ---------------- whole updates ---------------- *)

Definition wk (f : score -> score * outcome) : Prop :=
  forall s, store_all no_endings s -> E (f (er s)) = E (f s) /\ store_all no_endings (fst (f s)).
Lemma er_store : forall L s t, er s = er t -> store_all L s -> store_all L t.
Proof.
  intros L s t H [A B]. split.
  - change (variables t) with (variables (er t)). rewrite <- H. exact A.
  - change (globals t) with (globals (er t)). rewrite <- H. exact B.
Qed.
Lemma wk_sim : forall f, wk f -> forall s t, er s = er t -> store_all no_endings s -> E (f s) = E (f t).
Proof.
  intros f H s t Hst Ss. rewrite <- (proj1 (H s Ss)), <- (proj1 (H t (er_store _ _ _ Hst Ss))), Hst. reflexivity.
Qed.
Lemma E_inj : forall r r', E r = E r' -> er (fst r) = er (fst r') /\ snd r = snd r'.
Proof. intros [a b] [c d] H. split; [exact (f_equal fst H)|exact (f_equal snd H)]. Qed.
Lemma wk_seq : forall f g, wk f -> wk g -> wk (fun s => seqo (f s) g).
Proof.
  intros f g Hf Hg s Ss. destruct (Hf s Ss) as [A B]. apply E_inj in A. destruct A as [A1 A2].
  destruct (f (er s)) as [s1 o1], (f s) as [s2 o2]. cbn [fst snd] in *. subst o1.
  destruct o2; cbn [seqo]; try (split; [unfold E; cbn; congruence|exact B]).
  split; [|apply Hg, B]. symmetry. apply (wk_sim _ Hg); [congruence|exact B].
Qed.
Lemma wk_weak : forall f, weak f -> (forall s s' o, f s = (s', o) -> gstar no_endings s s') -> wk f.
Proof.
  intros f Hw Hg s Ss. split; [apply Hw|]. destruct (f s) as [s' o] eqn:Ef. cbn. eapply star_store; [|exact Ss]. eapply Hg; eassumption.
Qed.
Lemma wk_same : forall f, weak f -> (forall s, variables (fst (f s)) = variables s /\ globals (fst (f s)) = globals s) -> wk f.
Proof.
  intros f Hw Hg s Ss. split; [apply Hw|]. destruct (Hg s) as [A B]. destruct Ss as [C D]. split; [rewrite A|rewrite B]; assumption.
Qed.
Lemma wk_by : forall B (pick : score -> B) (f : B -> score -> score * outcome),
  (forall s, pick (er s) = pick s) -> (forall s, store_all no_endings s -> wk (f (pick s))) -> wk (fun s => f (pick s) s).
Proof. intros B pick f Hp Hf s Ss. cbv beta. rewrite Hp. apply Hf; assumption. Qed.
Lemma wk_ret : forall o, wk (fun s => (s, o)).
Proof. intros o. apply wk_same; [apply weak_ret|]. intros; split; reflexivity. Qed.
Lemma wk_each : forall A (f : A -> score -> score * outcome) l, (forall a, In a l -> wk (f a)) -> wk (each f l).
Proof.
  intros A f l H. induction l as [|a l IH]; [apply wk_ret|].
  apply (wk_seq (f a) (each f l)); [apply H; left; reflexivity|]. apply IH. intros; apply H; right; assumption.
Qed.
Lemma wk_modp : forall p f, (forall v, e0 (f (e0 v)) = e0 (f v)) -> wk (fun s => (modp p f s, Ok)).
Proof. intros. apply wk_same; [apply weak_modp; assumption|]. intros; split; reflexivity. Qed.
Lemma wk_ext : forall f g, (forall s, f s = g s) -> wk f -> wk g.
Proof. intros f g H Hf s Ss. rewrite <- !H. apply Hf, Ss. Qed.

Lemma wk_prim : forall q, wk (run_prim q).
Proof.
  intros q. apply wk_weak; [apply prim_weak|]. intros s s' o H. eapply (run_lstar no_endings 0 (UPrim q)); [|exact H].
  destruct q as [| |u|u]; cbn; try exact I; try (destruct u; exact I). split; [exact I|]. destruct u; exact I.
Qed.
Lemma wk_globals : wk apply_globals.
Proof. apply wk_weak; [apply apply_globals_weak|]. intros s s' o H. eapply apply_globals_starc. exact H. Qed.

Lemma go_each : forall (f : update -> score -> score * outcome) l s,
  (fix go (l : list update) (s : score) : score * outcome :=
     match l with [] => (s, Ok) | e :: t => seqo (f e s) (go t) end) l s = each f l s.
Proof. intros f. induction l as [|e t IH]; intros s; [reflexivity|]. cbn [each]. destruct (f e s) as [s1 []]; cbn [seqo]; auto. Qed.
Lemma run_times_wk : forall f k r, wk f -> wk (run_times f r k).
Proof.
  intros f k. induction k as [|k IH]; intros r Hf; [apply wk_ret|]. cbn [run_times].
  apply (wk_seq (fun s => each (fun p s => (modp p (set_prep r) s, Ok)) (current s) s) (fun s => seqo (f s) (run_times f (r + 1) k))).
  - apply (wk_by _ current (fun l s => each (fun p s => (modp p (set_prep r) s, Ok)) l s)); [reflexivity|].
    intros s _. apply wk_each. intros p _. apply wk_modp. reflexivity.
  - apply (wk_seq f); [exact Hf|apply IH, Hf].
Qed.
Lemma lower_er : forall d s m, lower_shortest d (er s) m = lower_shortest d s m.
Proof.
  intros d s m. unfold lower_shortest. change (current (er s)) with (current s). revert m.
  induction (current s) as [|p l IH]; intros m; [reflexivity|]. cbn [fold_left]. rewrite getp_er. apply IH.
Qed.
Lemma upd_wk : forall deref dd, (forall n, wk (deref n)) -> (forall s n, store_all no_endings s -> dweak (dd (variables s) n)) ->
  forall u, upd_all no_endings u -> wk (run_upd deref dd u).
Proof.
  intros deref dd Hder Hdd u. induction u using update_ind'; intros Hu; cbn [upd_all] in Hu; try rewrite upd_all_list in Hu;
    try (assert (HA : Forall (fun u => wk (run_upd deref dd u)) es) by (rewrite Forall_forall in *; intros; apply H; auto)).
  - apply wk_prim.
  - apply wk_ret.
  - cbn [run_upd]. destruct (eval_update els) as [[q|]|m|m]; try apply wk_ret. apply wk_prim.
  - apply wk_ret.
  - cbn [run_upd].
    apply (wk_seq apply_globals (fun s => (fix go (l : list update) (m : list (pid * num)) (s : score) : score * outcome :=
         match l with
         | [] => chord_finish m (set_chordmode false s)
         | e :: t => let m' := lower_shortest (written_dur e) s m in seqo (run_upd deref dd e s) (go t m')
         end) es (map (fun p => (p, nmaxval)) (current s)) (set_chordmode true s))); [apply wk_globals|].
    apply (wk_by _ current (fun l s => (fix go (l : list update) (m : list (pid * num)) (s : score) : score * outcome :=
         match l with
         | [] => chord_finish m (set_chordmode false s)
         | e :: t => let m' := lower_shortest (written_dur e) s m in seqo (run_upd deref dd e s) (go t m')
         end) es (map (fun p => (p, nmaxval)) l) (set_chordmode true s))); [reflexivity|].
    intros s0 _. generalize (map (fun p => (p, nmaxval)) (current s0)). intros m0.
    apply (wk_seq (fun s => (set_chordmode true s, Ok)) (fun s => (fix go (l : list update) (m : list (pid * num)) (s : score) : score * outcome :=
         match l with
         | [] => chord_finish m (set_chordmode false s)
         | e :: t => let m' := lower_shortest (written_dur e) s m in seqo (run_upd deref dd e s) (go t m')
         end) es m0 s)).
    { apply wk_same; [|intros; split; reflexivity]. apply blind_weak. intros s. reflexivity. }
    clear H Hu. revert m0. induction HA as [|e l He Hl IH]; intros m0.
    + unfold chord_finish.
      apply (wk_seq (fun s => (set_chordmode false s, Ok)) (fun s => each (fun pd s => (modp pd (fun p => set_pcur (nadd (pcur p) (pget n0 pd m0))
                                                (set_plast (pcur p) p)) s, Ok)) (current s) s)).
      { apply wk_same; [|intros; split; reflexivity]. apply blind_weak. intros s. reflexivity. }
      apply (wk_by _ current (fun l s => each (fun pd s => (modp pd (fun p => set_pcur (nadd (pcur p) (pget n0 pd m0))
                                                (set_plast (pcur p) p)) s, Ok)) l s)); [reflexivity|].
      intros s _. apply wk_each. intros p _. apply wk_modp. reflexivity.
    + apply (wk_by _ (fun s => lower_shortest (written_dur e) s m0) (fun m' s => seqo (run_upd deref dd e s)
         ((fix go (l : list update) (m : list (pid * num)) (s : score) : score * outcome :=
         match l with
         | [] => chord_finish m (set_chordmode false s)
         | e :: t => let m' := lower_shortest (written_dur e) s m in seqo (run_upd deref dd e s) (go t m')
         end) l m'))).
      { intros s. apply lower_er. }
      intros s _. apply (wk_seq (run_upd deref dd e)); [exact He|]. apply IH.
  - cbn [run_upd].
    apply (wk_by _ (fun s => (map (fun p => (p, pdur (getp s p))) (current s), map (fun p => (p, pscale (getp s p))) (current s)))
       (fun b s => seqo (cram_scale (dd (variables s)) es d s) (fun s =>
         seqo ((fix go (l : list update) (s : score) : score * outcome :=
                     match l with [] => (s, Ok) | e :: t => seqo (run_upd deref dd e s) (go t) end) es s)
              (cram_finish d (fst b) (snd b))))).
    { intros s. change (current (er s)) with (current s). f_equal; apply map_ext; intros p; rewrite getp_er; reflexivity. }
    intros s0 _. generalize (map (fun p => (p, pdur (getp s0 p))) (current s0), map (fun p => (p, pscale (getp s0 p))) (current s0)). intros [b1 b2]. cbn [fst snd].
    apply (wk_seq (fun s => cram_scale (dd (variables s)) es d s)).
    + unfold cram_scale.
      apply (wk_by _ (fun s => (variables s, current s)) (fun b s => each (fun pd s =>
          match time_scale (dd (fst b)) es d (getp s pd) with
          | (ts, Ok) => (modp pd (set_pscale ts) s, Ok)
          | (_, o) => (s, o)
          end) (snd b) s)); [reflexivity|].
      intros s Ss. cbn [fst snd]. apply wk_each. intros p _.
      apply (wk_by _ (fun s1 => time_scale (dd (variables s)) es d (getp s1 p)) (fun b s => match b with
          | (ts, Ok) => (modp p (set_pscale ts) s, Ok) | (_, o) => (s, o) end)).
      { intros s1. rewrite getp_er. apply time_scale_weak; [exact Hu|]. intros; apply Hdd, Ss. }
      intros s1 _. destruct (time_scale _ _ _ _) as [ts []]; try apply wk_ret. apply wk_modp. reflexivity.
    + apply (wk_ext (fun s => seqo (each (run_upd deref dd) es s) (cram_finish d b1 b2))).
      { intros s. rewrite <- go_each. reflexivity. }
      apply (wk_seq (each (run_upd deref dd) es) (cram_finish d b1 b2)); [apply wk_each; rewrite Forall_forall in HA; exact HA|].
      unfold cram_finish. apply (wk_by _ current (fun l s => each (fun pd s =>
          (modp pd (fun p => set_pscale (pget n0 pd b2)
                       (set_pdur (match d with Some _ => d | None => pget None pd b1 end) p)) s, Ok)) l s)); [reflexivity|].
      intros s _. apply wk_each. intros p _. apply wk_modp. reflexivity.
  - cbn [run_upd]. destruct Hu as [_ Hu]. apply (wk_seq (run_times (run_upd deref dd u) 1 (Z.to_nat n))).
    + apply run_times_wk, IHu, Hu.
    + destruct (_ =? _)%Z; apply wk_ret.
  - destruct Hu as [[] _].
  - cbn [run_upd]. apply (wk_ext (each (run_upd deref dd) es)); [intros s; symmetry; apply go_each|].
    apply wk_each. rewrite Forall_forall in HA. exact HA.
  - apply wk_weak; [apply run_marker_weak|]. intros s s' o Hr. eapply (run_lstar no_endings 0 (UMarker n)); [exact I|exact Hr].
  - apply wk_weak; [apply at_marker_weak|]. intros s s' o Hr. eapply (run_lstar no_endings 0 (UAtMarker n)); [exact I|exact Hr].
  - apply wk_weak; [apply var_def_weak|]. intros s s' o Hr. eapply (run_lstar no_endings 0 (UVarDef n es)); [|exact Hr].
    cbn [upd_all]. split; [exact I|]. apply upd_all_list. exact (proj2 Hu).
  - apply Hder.
  - cbn [run_upd]. unfold run_voice. apply wk_weak.
    + apply (weak_by _ current (fun l s => voice_loop n 0 (List.length l) s)); [reflexivity|]. intros l. apply blind_weak, voice_loop_blind.
    + intros s s' o Hr. eapply (run_lstar no_endings 0 (UVoice n)); [exact I|exact Hr].
  - cbn [run_upd]. apply wk_weak.
    + apply blind_weak. intros s. unfold E. cbn [fst snd]. rewrite voice_end_er. reflexivity.
    + intros s s' o Hr. eapply (run_lstar no_endings 0 UVoiceEnd); [exact I|exact Hr].
  - apply wk_weak; [apply blind_weak, run_part_blind|].
    intros s s' o Hr. eapply (run_lstar no_endings 0 (UPart ns a)); [exact I|exact Hr].
Qed.
Lemma deref_wk : forall fuel n, wk (run_deref fuel n).
Proof.
  induction fuel as [|f IH]; intros n; cbn [run_deref].
  - apply (wk_by _ (fun s => aget String.eqb n (variables s)) (fun b s => match b with None => (s, Err "undefined variable") | Some es => (s, OutOfFuel) end)); [reflexivity|].
    intros s _. destruct (aget _ _ _); apply wk_ret.
  - apply (wk_by _ (fun s => aget String.eqb n (variables s)) (fun b s => match b with None => (s, Err "undefined variable")
        | Some es => each (run_upd (run_deref f) (dur_deref f)) es s end)); [reflexivity|].
    intros s Ss. destruct (aget _ _ _) as [es|] eqn:Ea; [|apply wk_ret]. apply aget_in in Ea; [|apply String.eqb_eq].
    apply wk_each. intros u Hu. apply upd_wk; [exact IH| |].
    + intros t m St. apply dur_deref_weak. apply St.
    + destruct Ss as [Ss _]. specialize (Ss _ _ Ea). rewrite Forall_forall in Ss. apply Ss, Hu.
Qed.
Lemma run_wk : forall fuel u, upd_all no_endings u -> wk (run fuel u).
Proof.
  intros fuel u Hu. unfold run. apply upd_wk; [apply deref_wk| |exact Hu]. intros t m St. apply dur_deref_weak, St.
Qed.
Lemma run_all_wk : forall fuel us, Forall (upd_all no_endings) us -> wk (run_all fuel us).
Proof. intros fuel us H. unfold run_all. apply wk_each. rewrite Forall_forall in H. intros; apply run_wk; auto. Qed.

(** Setting counters is invisible. *)
Lemma upd_nth_same : forall A (d : A) i l, upd_nth i (nth i l d) l = l.
Proof. intros A d i l. revert i. induction l as [|a l IH]; intros [|i]; cbn; try reflexivity. rewrite IH. reflexivity. Qed.
Lemma set_reps_er : forall r l s, exists s', each (fun p s => (modp p (set_prep r) s, Ok)) l s = (s', Ok) /\ er s' = er s.
Proof.
  intros r. induction l as [|p l IH]; intros s; cbn [each]; [exists s; auto|]. cbn [seqo].
  destruct (IH (modp p (set_prep r) s)) as [s' [A B]]. exists s'. split; [exact A|]. rewrite B.
  assert (M : map e0 (upd_nth p (set_prep r (getp s p)) (heap s)) = map e0 (heap s)).
  { rewrite map_upd_nth. change (e0 (set_prep r (getp s p))) with (e0 (getp s p)). rewrite <- map_upd_nth. f_equal.
    unfold getp. apply upd_nth_same. }
  unfold modp, setp, counterless. cbn [heap set_heap]. rewrite M. reflexivity.
Qed.
Lemma stored_endings : forall s, stored no_endings s -> store_all no_endings s.
Proof. intros s H. apply stored_store; [intros; exact I|exact H]. Qed.

Lemma run_times_repeat : forall fuel e, upd_all no_endings e -> forall k r s t, store_all no_endings s -> er s = er t ->
  E (run_times (run fuel e) r k s) = E (run_all fuel (repeat e k) t).
Proof.
  intros fuel e He k. induction k as [|k IH]; intros r s t Ss Hst; cbn [run_times repeat].
  - unfold run_all, E. cbn. congruence.
  - destruct (set_reps_er r (current s) s) as [s1 [A B]]. rewrite A. cbn [seqo].
    change (run_all fuel (e :: repeat e k) t) with (seqo (run fuel e t) (run_all fuel (repeat e k))).
    assert (S1 : store_all no_endings s1) by (eapply er_store; [symmetry; exact B|exact Ss]).
    assert (C : E (run fuel e s1) = E (run fuel e t)) by (apply (wk_sim _ (run_wk fuel e He)); [congruence|exact S1]).
    apply E_inj in C. destruct C as [C1 C2]. pose proof (proj2 (run_wk fuel e He s1 S1)) as S2.
    destruct (run fuel e s1) as [s2 o2], (run fuel e t) as [t2 o2']. cbn [fst snd] in *. subst o2'.
    destruct o2; cbn [seqo]; try (unfold E; cbn; congruence). apply IH; assumption.
Qed.
Lemma c12 : forall calls e n, let s := session calls in
  upd_all no_endings e -> stored no_endings s -> (n < max_int32)%Z ->
  same_but_counters (exec [URepeat e n] s) (exec (repeat e (Z.to_nat n)) s).
Proof.
  intros calls e n s He Hs Hn. apply stored_endings in Hs.
  pose proof (run_times_repeat 1 e He (Z.to_nat n) 1 s s Hs eq_refl) as A. apply E_inj in A.
  unfold exec, run_all, run, run_upd, each. fold (run_upd (run_deref 1) (dur_deref 1)).
  assert (Hm : (n =? max_int32)%Z = false) by (apply Z.eqb_neq; lia). rewrite Hm.
  change (run_upd (run_deref 1) (dur_deref 1) e) with (run 1 e).
  unfold same_but_counters.
  destruct (run_times (run 1 e) 1 (Z.to_nat n) s) as [s1 o1]. fold (@each N). 
  change ((fix go l s := match l with [] => (s, Ok) | e :: t => seqo (run_upd (run_deref 1) (dur_deref 1) e s) (go t) end) (repeat e (Z.to_nat n)) s) with (run_all 1 (repeat e (Z.to_nat n)) s).
  destruct A as [A1 A2]. cbn [fst snd] in *. destruct o1; cbn [seqo fst snd]; split; assumption.
Qed.

(* ---------------- endings ---------------- *)

(** No repeats, voices or part declarations. *)
Definition L13 (l : label) : Prop := match l with LTimes _ | LVoice _ | LEnd | LPart _ _ => False | _ => True end.
Lemma L13_local : forall l, L13 l -> local_label l.
Proof. intros []; exact (fun H => H) || exact (fun _ => I). Qed.
Lemma body_L13 : forall l, body_label l -> L13 l.
Proof. intros []; exact (fun H => H) || exact (fun _ => I). Qed.
Lemma var_L13 : forall l, var_label l -> L13 l.
Proof. intros []; exact (fun H => H) || exact (fun _ => I). Qed.
Lemma var_noend : forall l, var_label l -> no_endings l.
Proof. intros []; exact (fun H => H) || exact (fun _ => I). Qed.
Lemma noend_all : forall u, upd_all L13 u -> True.
Proof. trivial. Qed.

Notation VL x := (forall n es, In (n, es) (so_vars x) -> Forall (upd_all L13) es).
Definition calm (f : solo -> option solo) : Prop :=
  forall x y, VL x -> f x = Some y -> prep (so_part y) = prep (so_part x) /\ VL y.
Lemma obind_calm : forall f g, calm f -> calm g -> calm (fun x => obind (f x) g).
Proof.
  intros f g Hf Hg x y V H. destruct (f x) as [z|] eqn:Ef; [|discriminate]. cbn [obind] in H.
  destruct (Hf _ _ V Ef) as [A B]. destruct (Hg _ _ B H) as [C D]. split; [congruence|exact D].
Qed.
Lemma calm_part : forall f, (forall p, prep (f p) = prep p) -> calm (fun x => Some (on_part f x)).
Proof. intros f Hf x y V H. apply some_inj in H. subst y. split; [apply Hf|exact V]. Qed.
Lemma s_update_prep : forall u g p v, s_update u g p = Some v -> prep v = prep p.
Proof.
  intros u g p v H. unfold s_update in H. destruct (update_part u g p) as [w|m|m] eqn:Eu; try discriminate.
  apply some_inj in H. subst v. change (prep (unchanneled w)) with (prep w).
  destruct u; cbn [update_part] in Eu; try (apply rok_inj in Eu; subst w; reflexivity).
  - destruct g; apply rok_inj in Eu; subst w; reflexivity.
  - destruct g; apply rok_inj in Eu; subst w; reflexivity.
  - destruct (_ && _)%bool; [discriminate|]. apply rok_inj in Eu; subst w; reflexivity.
Qed.
Lemma s_globs_prep : forall us p v, s_globs us p = Some v -> prep v = prep p.
Proof.
  induction us as [|u us IH]; intros p v H; cbn [s_globs] in H; [apply some_inj in H; congruence|].
  destruct (overrides (povr p) u); cbn [obind] in H; [apply IH, H|].
  destruct (s_update u true p) as [w|] eqn:E1; [|discriminate]. cbn [obind] in H. apply s_update_prep in E1. apply IH in H. congruence.
Qed.
Lemma s_globals_calm : calm s_globals.
Proof.
  intros x y V H. unfold s_globals in H. destruct (s_globs _ _) as [v|] eqn:E1; [|discriminate]. cbn [obind] in H.
  apply some_inj in H. subst y. split; [|exact V]. cbn. apply s_globs_prep in E1. exact E1.
Qed.
Lemma s_note_one_calm : forall nr d, calm (s_note_one nr d).
Proof.
  intros nr d. unfold s_note_one. intros x y V H.
  assert (K : forall z, match nr with Some (pi, sl) => s_emit pi sl (nmul (dur_ms_of (ptempo (so_part x)) (effective_dur d (so_part x))) (pscale (so_part x))) x | None => Some x end = Some z ->
    so_part z = so_part x /\ so_vars z = so_vars x).
  { intros z Hz. destruct nr as [[pi sl]|]; [|apply some_inj in Hz; subst; auto]. unfold s_emit in Hz.
    destruct (nltb _ _); [|apply some_inj in Hz; subst; auto]. destruct (_ || _)%bool; [discriminate|].
    apply some_inj in Hz. subst. auto. }
  match type of H with obind ?o _ = _ => destruct o as [z|] eqn:Ez; [|discriminate] end. cbn [obind] in H.
  destruct (K _ eq_refl) as [A B]. apply some_inj in H. subst y. cbn [on_part so_part so_vars]. rewrite B. split; [|exact V].
  rewrite A. unfold advance_part, update_default_dur. destruct (so_chord z), (effective_dur d (so_part x)); reflexivity.
Qed.
Lemma s_note_calm : forall nr d, calm (s_note nr d).
Proof.
  intros nr d x y V H. unfold s_note in H.
  assert (K : calm (fun x => if so_chord x then Some x else s_globals x)).
  { intros a b Va Ha. cbv beta in Ha. destruct (so_chord a); [apply some_inj in Ha; subst; auto|]. apply (s_globals_calm _ _ Va Ha). }
  refine (obind_calm _ (fun y => if dur_valid d then s_note_one nr d y else None) K _ x y V H).
  intros a b Va Ha. destruct (dur_valid d); [|discriminate]. apply (s_note_one_calm _ _ _ _ Va Ha).
Qed.
Lemma s_prim_calm : forall q, calm (s_prim q).
Proof.
  intros [pi d sl|d|u|u]; [apply s_note_calm|apply s_note_calm| |].
  - intros x y V H. cbn [s_prim] in H. unfold s_attr in H. destruct (s_update u false (so_part x)) as [v|] eqn:E1; [|discriminate].
    cbn [obind] in H. apply some_inj in H. subst y. apply s_update_prep in E1. split; [exact E1|exact V].
  - intros x y V H. apply some_inj in H. subst y. split; [reflexivity|exact V].
Qed.
Lemma oeach_calm : forall A (f : A -> solo -> option solo) l, Forall (fun a => calm (f a)) l -> calm (oeach f l).
Proof.
  intros A f l H. induction H as [|a l Ha Hl IH]; [intros x y V H; apply some_inj in H; subst; auto|].
  apply (obind_calm _ _ Ha IH).
Qed.
Lemma upd_calm : forall deref dd, (forall n, calm (deref n)) -> forall u, upd_all L13 u -> calm (s_upd deref dd u).
Proof.
  intros deref dd Hd u. induction u using update_ind'; intros Hu; cbn [upd_all] in Hu; try rewrite upd_all_list in Hu;
    try (assert (HA : Forall (fun u => calm (s_upd deref dd u)) es) by (rewrite Forall_forall in *; intros; apply H; auto));
    cbn [s_upd]; try (intros x y V Hr; apply some_inj in Hr; subst; auto; fail).
  - apply s_prim_calm.
  - destruct (eval_update els) as [[q|]|m|m]; try (intros x y V Hr; discriminate); [apply s_prim_calm|].
    intros x y V Hr; apply some_inj in Hr; subst; auto.
  - apply (obind_calm s_globals); [apply s_globals_calm|].
    assert (K : forall m, calm (ochord (s_upd deref dd) es m)).
    { clear H Hu. induction HA as [|e l He Hl IH]; intros m.
      - intros x y V Hr. apply some_inj in Hr. subst. split; [reflexivity|exact V].
      - cbn [ochord]. intros x y V Hr. exact (obind_calm _ _ He (IH _) _ _ V Hr). }
    intros x y V Hr. exact (K nmaxval (with_chord true x) y V Hr).
  - intros x y V Hr. destruct (time_scale _ _ _ _) as [ts []]; try discriminate. cbv zeta in Hr.
    destruct (oeach (s_upd deref dd) es (on_part (set_pscale ts) x)) as [z|] eqn:Ez; [|discriminate]. cbn [obind] in Hr.
    apply some_inj in Hr. subst y. destruct (oeach_calm _ _ _ HA (on_part (set_pscale ts) x) z V Ez) as [A B].
    split; [exact A|exact B].
  - destruct (proj1 Hu).
  - intros x y V Hr. destruct (applies_to _ _); [|apply some_inj in Hr; subst; auto]. apply (IHu (proj2 Hu) _ _ V Hr).
  - apply oeach_calm, HA.
  - apply (obind_calm s_globals); [apply s_globals_calm|]. intros x y V Hr. destruct (aget _ _ _); [|discriminate].
    apply some_inj in Hr. subst. split; [reflexivity|exact V].
  - intros x y V Hr. unfold s_var_def in Hr. destruct (rmapl _ _) as [vs|m|m] eqn:Er; try discriminate. apply some_inj in Hr. subst y.
    split; [reflexivity|]. cbn [so_vars]. intros m es' Hin.
    apply in_aset in Hin. destruct Hin as [-> | Hin]; [|eapply V; exact Hin].
    eapply rmapl_all; [exact V|exact (proj2 Hu)|exact Er].
  - apply Hd.
  - destruct Hu.
  - destruct Hu.
  - destruct Hu.
Qed.
Lemma deref_calm : forall fuel n, calm (s_deref fuel n).
Proof.
  induction fuel as [|f IH]; intros n x y V H; cbn [s_deref] in H; destruct (aget String.eqb n (so_vars x)) as [es|] eqn:Ea; try discriminate.
  apply aget_in in Ea; [|apply String.eqb_eq]. specialize (V _ _ Ea) as He.
  refine (oeach_calm _ _ es _ x y V H). rewrite Forall_forall in *. intros u Hu. apply upd_calm; [exact IH|auto].
Qed.

Section Written.
Variable k : Z.
Notation wo := (written_out k).

Lemma on_applies : forall rs, applies_to rs k = on_repetition k rs.
Proof. intros rs. unfold applies_to, on_repetition. induction rs as [|[a b] rs IH]; cbn; [reflexivity|]. rewrite IH. reflexivity. Qed.

(** [f] keeps the counter of the part copy. *)
Definition dkeep (f : part -> dres) : Prop := forall p q d o, f p = (q, d, o) -> prep q = prep p.
Lemma dseq_keep : forall r K p, (forall q d o, r = (q, d, o) -> prep q = prep p) ->
  (forall q d q' d' o, prep q = prep p -> K q d = (q', d', o) -> prep q' = prep p) ->
  forall q d o, dseq r K = (q, d, o) -> prep q = prep p.
Proof.
  intros [[q1 d1] o1] K p H1 H2 q d o H. specialize (H1 _ _ _ eq_refl).
  destruct o1; cbn [dseq] in H; try (injection H; intros; subst; exact H1). eapply H2; eassumption.
Qed.
Lemma prim_dur_keep : forall q, dkeep (prim_dur q).
Proof.
  intros [pi d sl|d|u|u] p q e o H; cbn [prim_dur] in H; try (injection H; intros; subst; reflexivity);
    unfold note_dur in H; injection H; intros; subst; unfold update_default_dur; destruct d; reflexivity.
Qed.
Lemma dur_sum_keep : forall f l, Forall (fun u => dkeep (f u)) l -> forall acc, dkeep (fun p => dur_sum f l p acc).
Proof.
  intros f l H. induction H as [|u l Hu Hl IH]; intros acc p q d o Hr; cbn [dur_sum] in Hr.
  - injection Hr; intros; subst; reflexivity.
  - eapply dseq_keep; [| |exact Hr]; [exact (Hu p)|]. intros q1 d1 q2 d2 o2 Hq H2. rewrite <- Hq. eapply IH. exact H2.
Qed.
Lemma dur_upd_keep : forall dr u, upd_all L13 u -> (forall n, dkeep (dr n)) -> dkeep (dur_upd dr u).
Proof.
  intros dr u Hu Hd. revert Hu. induction u using update_ind'; intros Hu q0 q d' o Hr; cbn [upd_all] in Hu; cbn [dur_upd] in Hr;
    try (injection Hr; intros; subst; reflexivity); try rewrite upd_all_list in Hu;
    try (assert (HA : Forall (fun u => dkeep (dur_upd dr u)) es) by (rewrite Forall_forall in *; intros; apply H; auto)).
  - eapply prim_dur_keep; exact Hr.
  - destruct (eval_update els) as [[w|]|m|m]; try (injection Hr; intros; subst; reflexivity). eapply prim_dur_keep; exact Hr.
  - revert Hr. generalize (@nmaxval N). clear H Hu. revert q0 q d' o. induction HA as [|u l Hu Hl IH]; intros q0 q d' o acc Hr.
    + injection Hr; intros; subst; reflexivity.
    + eapply dseq_keep; [| |exact Hr]; [exact (Hu q0)|]. intros q1 d1 q2 d2 o2 Hq H2. cbv beta in H2. rewrite <- Hq.
      eapply IH. exact H2.
  - destruct (proj1 Hu).
  - destruct (applies_to rs (prep q0)); [|injection Hr; intros; subst; reflexivity]. eapply IHu; [exact (proj2 Hu)|exact Hr].
  - revert Hr. generalize (@n0 N). clear H Hu. revert q0 q d' o. induction HA as [|u l Hu Hl IH]; intros q0 q d' o acc Hr.
    + injection Hr; intros; subst; reflexivity.
    + eapply dseq_keep; [| |exact Hr]; [exact (Hu q0)|]. intros q1 d1 q2 d2 o2 Hq H2. cbv beta in H2. rewrite <- Hq.
      eapply IH. exact H2.
  - eapply Hd; exact Hr.
Qed.
Lemma dur_deref_keep : forall fuel vars, (forall n es, In (n, es) vars -> Forall (upd_all L13) es) ->
  forall n, dkeep (dur_deref fuel vars n).
Proof.
  induction fuel as [|f IH]; intros vars Hv n p q d o H; cbn [dur_deref] in H; destruct (aget String.eqb n vars) as [es|] eqn:Ea;
    try (injection H; intros; subst; reflexivity).
  apply aget_in in Ea; [|apply String.eqb_eq]. specialize (Hv _ _ Ea) as He.
  eapply dur_sum_keep; [|exact H]. eapply Forall_impl; [|exact He].
  intros u Hu. apply dur_upd_keep; [exact Hu|]. intros m. apply IH. exact Hv.
Qed.

Definition dsame (f g : part -> dres) : Prop := forall p, prep p = k -> f p = g p.
Lemma dseq_same : forall r K K', (forall q d o, r = (q, d, o) -> prep q = k) -> (forall q d, prep q = k -> K q d = K' q d) ->
  dseq r K = dseq r K'.
Proof. intros [[q d] o] K K' H1 H2. specialize (H1 _ _ _ eq_refl). destruct o; cbn [dseq]; auto. Qed.
Lemma dur_upd_same : forall dr u, upd_all L13 u -> (forall n, dkeep (dr n)) -> dsame (dur_upd dr u) (dur_upd dr (wo u)).
Proof.
  intros dr u Hu Hd. revert Hu. induction u using update_ind'; intros Hu q0 Hq; cbn [upd_all] in Hu; cbn [written_out dur_upd];
    try reflexivity; try rewrite upd_all_list in Hu;
    try (assert (HA : Forall (fun u => dkeep (dur_upd dr u) /\ dsame (dur_upd dr u) (dur_upd dr (wo u))) es)
         by (rewrite Forall_forall in *; intros; split; [apply dur_upd_keep; auto|apply H; auto])).
  - destruct (proj1 Hu).
  - rewrite Hq, on_applies. destruct (on_repetition k rs); [|reflexivity]. apply (IHu (proj2 Hu)), Hq.
  - generalize (@n0 N). clear H Hu. revert q0 Hq. induction HA as [|u l [Hu Hu'] Hl IH]; intros q0 Hq acc; [reflexivity|].
    cbn [map]. rewrite <- Hu' by exact Hq. apply dseq_same; [intros; rewrite <- Hq; eapply Hu; eassumption|]. intros; apply IH; assumption.
Qed.
Lemma dur_sum_same : forall dr es, Forall (upd_all L13) es -> (forall n, dkeep (dr n)) ->
  forall acc, dsame (fun p => dur_sum (dur_upd dr) es p acc) (fun p => dur_sum (dur_upd dr) (map wo es) p acc).
Proof.
  intros dr es H Hd. induction H as [|u l Hu Hl IH]; intros acc p Hp; [reflexivity|]. cbn [dur_sum map].
  rewrite <- dur_upd_same by assumption. apply dseq_same; [intros; rewrite <- Hp; eapply dur_upd_keep; eassumption|].
  intros; apply IH; assumption.
Qed.
Lemma time_scale_same : forall dr es d p, Forall (upd_all L13) es -> (forall n, dkeep (dr n)) -> prep p = k ->
  time_scale dr es d p = time_scale dr (map wo es) d p.
Proof.
  intros dr es d p H Hd Hp. unfold time_scale, inner_dur.
  pose proof (dur_sum_same dr es H Hd n0 (set_povr None p) Hp) as A. cbv beta in A. rewrite A. reflexivity.
Qed.

(** The score with one current part, playing repetition [k]. *)
Definition at_rep (s : score) : Prop :=
  okay L13 True s /\ exists p, current s = [p] /\ prep (getp s p) = k.
Variable fuel : nat.
Notation run' := (run_upd (run_deref fuel) (dur_deref fuel)).
Lemma acts13 : forall u, upd_all L13 u -> acts L13 True (run' u) (s_upd (s_deref fuel) (dur_deref fuel) u).
Proof.
  intros u Hu. apply upd_acts; [exact L13_local|exact I|intros; apply dur_deref_com|apply deref_acts; [exact L13_local|exact I]|exact Hu].
Qed.
Lemma rep_keep : forall f F, acts L13 True f F -> calm F -> forall s s', at_rep s -> f s = (s', Ok) -> at_rep s'.
Proof.
  intros f F A C s s' [O [p [Hc Hp]]] H. destruct (A _ _ O H) as [S [K V]].
  split; [eapply keep_okay; [exact K|exact S|exact O]|]. exists p. rewrite (k_cur _ _ K). split; [exact Hc|].
  specialize (V p). rewrite Hc in V. specialize (V (or_introl eq_refl)).
  destruct (C (view p s) (view p s') (proj1 (ok_store _ _ _ O)) V) as [D _]. cbn [view so_part] in D.
  change (prep (unchanneled (getp s' p))) with (prep (getp s' p)) in D.
  change (prep (unchanneled (getp s p))) with (prep (getp s p)) in D. congruence.
Qed.
Lemma upd_rep : forall u s s', upd_all L13 u -> at_rep s -> run' u s = (s', Ok) -> at_rep s'.
Proof. intros u s s' Hu. eapply rep_keep; [apply acts13, Hu|apply upd_calm; [apply deref_calm|exact Hu]]. Qed.
Lemma cram_scale_same : forall es d s, Forall (upd_all L13) es -> at_rep s ->
  cram_scale (dur_deref fuel (variables s)) es d s = cram_scale (dur_deref fuel (variables s)) (map wo es) d s.
Proof.
  intros es d s Hes [O [p [Hc Hp]]]. unfold cram_scale. rewrite Hc. cbn [each].
  rewrite (time_scale_same _ es d (getp s p)); [reflexivity|exact Hes| |exact Hp].
  intros n. apply dur_deref_keep. apply (ok_store _ _ _ O).
Qed.
Lemma cram_scale_rep : forall dr es d s s', at_rep s -> cram_scale dr es d s = (s', Ok) -> at_rep s'.
Proof.
  intros dr es d s s' [O [p [Hc Hp]]] H. unfold cram_scale in H. rewrite Hc in H. cbn [each] in H.
  destruct (time_scale dr es d (getp s p)) as [ts []]; try discriminate. cbn [seqo] in H. inversion H; subst s'.
  destruct O as [[W1 W2] S F]. split; [split; [split| |]|].
  - cbn. rewrite upd_nth_length. exact W1.
  - change (current (modp p (set_pscale ts) s)) with (current s). rewrite Hc. constructor; [intros []|constructor].
  - exact S.
  - intros _. left. exists p. exact Hc.
  - exists p. split; [exact Hc|]. rewrite Hc in W1. inversion W1 as [|? ? Wp _]; subst.
    rewrite getp_modp by exact Wp. rewrite Nat.eqb_refl. first [exact Hp|reflexivity].
Qed.
Lemma upd_same : forall u, upd_all L13 u -> no_endings_in_chords u -> forall s, at_rep s -> run' u s = run' (wo u) s.
Proof.
  intros u. induction u using update_ind'; intros Hu Hn s Hs; cbn [upd_all no_endings_in_chords] in *; cbn [written_out]; try reflexivity;
    try rewrite upd_all_list in Hu.
  - cbn [run_upd].
    assert (K : forall s1, at_rep s1 -> each run' es s1 = each run' (map wo es) s1).
    { clear Hs. revert Hu Hn. induction H as [|e l He Hl IH]; intros Hu Hn s1 H1; [reflexivity|]. inversion Hu; subst. destruct Hn as [N1 N2].
      cbn [each map]. rewrite <- He by assumption. destruct (run' e s1) as [s2 []] eqn:E1; cbn [seqo]; try reflexivity.
      apply IH; try assumption. eapply upd_rep; [|exact H1|exact E1]. assumption. }
    rewrite <- cram_scale_same by assumption.
    destruct (cram_scale (dur_deref fuel (variables s)) es d s) as [s1 []] eqn:E1; cbn [seqo]; try reflexivity.
    rewrite !go_each. rewrite K; [reflexivity|]. eapply cram_scale_rep; [exact Hs|exact E1].
  - destruct (proj1 Hu).
  - cbn [run_upd]. destruct Hs as [O [p [Hc Hp]]]. rewrite Hc. cbn [List.length onreps_loop]. rewrite Hc. cbn [nth_error].
    rewrite Hp, on_applies. destruct (on_repetition k rs).
    + rewrite <- IHu; [|exact (proj2 Hu)|exact Hn|split; [exact O|exists p; auto]].
      destruct (run' u s) as [s1 []]; cbn [seqo]; reflexivity.
    + reflexivity.
  - cbn [run_upd]. rewrite !go_each.
    revert s Hs Hu Hn. induction H as [|e l He Hl IH]; intros s Hs Hu Hn; [reflexivity|]. inversion Hu; subst. destruct Hn as [N1 N2].
    cbn [each map]. rewrite <- He by assumption. destruct (run' e s) as [s2 []] eqn:E1; cbn [seqo]; try reflexivity.
    apply IH; try assumption. eapply upd_rep; [|exact Hs|exact E1]. assumption.
Qed.
Lemma upd_all_and : forall (L L' : label -> Prop) u, upd_all L u -> upd_all L' u -> upd_all (fun l => L l /\ L' l) u.
Proof.
  intros L L' u.
  assert (P : forall q, prim_all L q -> prim_all L' q -> prim_all (fun l => L l /\ L' l) q).
  { intros [| |w|w]; cbn; try trivial; try (destruct w; cbn; tauto). }
  assert (F : forall es, Forall (fun u => upd_all L u -> upd_all L' u -> upd_all (fun l => L l /\ L' l) u) es ->
    Forall (upd_all L) es -> Forall (upd_all L') es -> Forall (upd_all (fun l => L l /\ L' l)) es).
  { intros es H A B. rewrite Forall_forall in *. intros x Hx. apply H; auto. }
  induction u using update_ind'; cbn [upd_all]; try rewrite !upd_all_list; intros A B; try tauto; auto.
  - destruct (eval_update els) as [[q|]|m|m]; auto.
  - split; [tauto|]. apply F; tauto.
Qed.
Lemma body_var : forall l, body_label l /\ no_endings l -> var_label l.
Proof. intros []; cbn; tauto. Qed.
Lemma wo_var : forall u, upd_all body_label u -> no_endings_in_chords u -> upd_all var_label (wo u).
Proof.
  assert (P : forall q, prim_all body_label q -> prim_all var_label q) by (intros [| |w|w]; cbn; trivial; try (destruct w; cbn; tauto)).
  intros u. induction u using update_ind'; intros Hu Hn; cbn [upd_all no_endings_in_chords] in *; cbn [written_out upd_all]; try exact I;
    try rewrite upd_all_list in Hu; try (exfalso; exact (proj1 Hu)); try exact Hu.
  - apply upd_all_list. rewrite Forall_forall in *. intros x Hx.
    eapply upd_all_mono; [exact body_var|]. apply upd_all_and; auto.
  - apply upd_all_list. clear - H Hu Hn. revert Hu Hn. induction H as [|e l He Hl IH]; intros Hu Hn; [constructor|].
    inversion Hu; subst. destruct Hn. constructor; auto.
  - destruct (on_repetition k rs); [|exact I]. apply IHu; [exact (proj2 Hu)|exact Hn].
  - apply upd_all_list. clear - H Hu Hn. revert Hu Hn. induction H as [|e l He Hl IH]; intros Hu Hn; [constructor|].
    inversion Hu; subst. destruct Hn. constructor; auto.
Qed.
End Written.

Lemma run_times_written : forall fuel e p, upd_all body_label e -> no_endings_in_chords e ->
  forall n r s t, store_all var_label s -> wf s -> current s = [p] -> er s = er t ->
  E (run_times (run fuel e) (Z.of_nat r) n s) = E (run_all fuel (map (fun k => written_out (Z.of_nat k) e) (seq r n)) t).
Proof.
  intros fuel e p He Hn n. induction n as [|n IH]; intros r s t Ss W Hc Hst; cbn [run_times seq map].
  - unfold run_all, E. cbn. congruence.
  - rewrite Hc. cbn [each seqo].
    set (s1 := modp p (set_prep (Z.of_nat r)) s).
    assert (E1 : er s1 = er s).
    { destruct (set_reps_er (Z.of_nat r) [p] s) as [s' [A B]]. cbn [each seqo] in A. inversion A; subst. exact B. }
    assert (Wp : (p < List.length (heap s))%nat).
    { destruct W as [W1 _]. rewrite Hc in W1. inversion W1; assumption. }
    assert (R : at_rep (Z.of_nat r) s1).
    { split; [split; [split| |]|].
      - cbn. rewrite upd_nth_length. apply W.
      - change (current s1) with (current s). rewrite Hc. constructor; [intros []|constructor].
      - eapply er_store; [symmetry; exact E1|]. destruct Ss as [A B]. split.
        + intros m es Hin. eapply Forall_impl; [|eapply A; exact Hin]. apply upd_all_mono, var_L13.
        + intros off us Hin. apply Forall_forall. intros u _. destruct u; exact I.
      - intros _. left. exists p. exact Hc.
      - exists p. split; [exact Hc|]. unfold s1. rewrite getp_modp by exact Wp. rewrite Nat.eqb_refl. reflexivity. }
    assert (He13 : upd_all L13 e) by (revert He; apply upd_all_mono, body_L13).
    unfold run at 1. rewrite (upd_same (Z.of_nat r) fuel e He13 Hn s1 R).
    change (run_upd (run_deref fuel) (dur_deref fuel) (written_out (Z.of_nat r) e) s1) with (run fuel (written_out (Z.of_nat r) e) s1).
    assert (Hv := wo_var (Z.of_nat r) e He Hn). assert (Hw : upd_all no_endings (written_out (Z.of_nat r) e)) by (revert Hv; apply upd_all_mono, var_noend).
    assert (N1 : store_all no_endings s1).
    { eapply er_store; [symmetry; exact E1|]. destruct Ss as [A B]. split.
      + intros m es Hin. eapply Forall_impl; [|eapply A; exact Hin]. apply upd_all_mono, var_noend.
      + intros off us Hin. apply Forall_forall. intros u _. destruct u; exact I. }
    change (run_all fuel (written_out (Z.of_nat r) e :: map (fun k => written_out (Z.of_nat k) e) (seq (S r) n)) t)
      with (seqo (run fuel (written_out (Z.of_nat r) e) t) (run_all fuel (map (fun k => written_out (Z.of_nat k) e) (seq (S r) n)))).
    assert (C : E (run fuel (written_out (Z.of_nat r) e) s1) = E (run fuel (written_out (Z.of_nat r) e) t)).
    { apply (wk_sim _ (run_wk fuel _ Hw)); [congruence|exact N1]. }
    assert (Ru : run fuel e s1 = run fuel (written_out (Z.of_nat r) e) s1) by (apply (upd_same (Z.of_nat r) fuel e He13 Hn s1 R)).
    apply E_inj in C. destruct C as [C1 C2].
    destruct (run fuel (written_out (Z.of_nat r) e) s1) as [s2 o2] eqn:E2, (run fuel (written_out (Z.of_nat r) e) t) as [t2 o2']. cbn [fst snd] in *. subst o2'.
    destruct o2; cbn [seqo]; try (unfold E; cbn; congruence).
    replace (Z.of_nat r + 1)%Z with (Z.of_nat (S r)) by lia.
    assert (R2 := upd_rep (Z.of_nat r) fuel e s1 s2 He13 R Ru).
    destruct (acts13 fuel e He13 s1 s2 (proj1 R) Ru) as [_ [K _]].
    apply IH; [|apply (ok_wf _ _ _ (proj1 R2))| |exact C1].
    + assert (S1 : store_all var_label s1) by (eapply er_store; [symmetry; exact E1|exact Ss]).
      eapply star_store; [eapply (run_lstar var_label fuel _ _ _ _ Hv E2); exact S1|exact S1].
    + rewrite (k_cur _ _ K). exact Hc.
Qed.

Lemma c13 : forall calls e n p, let s := session calls in
  current s = [p] -> upd_all body_label e -> no_endings_in_chords e -> stored var_label s -> (Z.of_nat n < max_int32)%Z ->
  same_but_counters (exec [URepeat e (Z.of_nat n)] s) (exec (all_written_out n e) s).
Proof.
  intros calls e n p s Hc He Hn Hs Hm.
  assert (W : wf s) by (apply session_wf).
  assert (Ss : store_all var_label s) by (apply stored_store; [intros; exact I|exact Hs]).
  pose proof (run_times_written 1 e p He Hn n 1 s s Ss W Hc eq_refl) as A. apply E_inj in A.
  unfold exec at 1, run_all, run, run_upd, each. fold (run_upd (run_deref 1) (dur_deref 1)).
  assert (Hm' : (Z.of_nat n =? max_int32)%Z = false) by (apply Z.eqb_neq; lia). rewrite Hm', Nat2Z.id.
  change (run_upd (run_deref 1) (dur_deref 1) e) with (run 1 e). change 1%Z with (Z.of_nat 1).
  unfold same_but_counters. unfold all_written_out, exec.
  destruct (run_times (run 1 e) (Z.of_nat 1) n s) as [s1 o1].
  destruct A as [A1 A2]. cbn [fst snd] in *. destruct o1; cbn [seqo fst snd]; split; assumption.
Qed.
End Repeat.
