(** The order of the events of a score does not matter to later updates. *)
From Coq Require Import ZArith List String Bool Permutation.
From Verif Require Import Base Num ModelPitch ModelDuration ModelInstruments ModelTypes ModelLisp
  ModelScore SpecScore ProofHeap ProofStep ProofInv ProofEvents ProofRepeat.
Import ListNotations.
Local Open Scope list_scope.

Section Order.
Context {N : Num}.
Local Opaque stock_instrument.

(** The same score but for the order of its events. *)
Definition reordered (s t : score) : Prop := t = set_events (events t) s /\ Permutation (events s) (events t).

Lemma reordered_refl : forall s, reordered s s.
Proof. intros []. split; [reflexivity|apply Permutation_refl]. Qed.
Lemma reordered_sym : forall s t, reordered s t -> reordered t s.
Proof. intros s t [A B]. split; [rewrite A; destruct s; reflexivity|apply Permutation_sym, B]. Qed.
Lemma reordered_trans : forall s t u, reordered s t -> reordered t u -> reordered s u.
Proof. intros s t u [A B] [C D]. split; [rewrite C, A; reflexivity|exact (perm_trans B D)]. Qed.
Lemma reordered_set : forall s l, Permutation (events s) l -> reordered s (set_events l s).
Proof. intros s l H. split; [reflexivity|exact H]. Qed.

Definition com (f : score -> score * outcome) : Prop := forall s t, reordered s t ->
  reordered (fst (f s)) (fst (f t)) /\ snd (f s) = snd (f t).
Definition keeps (f : score -> score * outcome) : Prop := forall s l, 
  f (set_events l s) = (set_events l (fst (f s)), snd (f s)) /\ events (fst (f s)) = events s.

Lemma keeps_com : forall f, keeps f -> com f.
Proof.
  intros f H s t [A B]. rewrite A. destruct (H s (events t)) as [C D]. rewrite C. cbn [fst snd].
  split; [apply reordered_set; rewrite D; exact B|reflexivity].
Qed.
Lemma com_ret : forall o, com (fun s => (s, o)).
Proof. intros o s t H. split; [exact H|reflexivity]. Qed.
Lemma com_seq : forall f g, com f -> com g -> com (fun s => seqo (f s) g).
Proof.
  intros f g Hf Hg s t H. destruct (Hf s t H) as [A B]. destruct (f s) as [s1 o1], (f t) as [t1 o2]. cbn [fst snd] in *. subst o2.
  destruct o1; cbn [seqo]; try (split; [exact A|reflexivity]). apply Hg, A.
Qed.
Lemma com_by : forall B (pick : score -> B) (f : B -> score -> score * outcome),
  (forall s l, pick (set_events l s) = pick s) -> (forall b, com (f b)) -> com (fun s => f (pick s) s).
Proof. intros B pick f Hp Hf s t H. assert (E : pick t = pick s) by (rewrite (proj1 H); apply Hp). rewrite E. apply Hf, H. Qed.
Lemma com_each : forall A (f : A -> score -> score * outcome) l, (forall a, In a l -> com (f a)) -> com (each f l).
Proof.
  intros A f l H. induction l as [|a l IH]; [apply com_ret|].
  apply (com_seq (f a) (each f l)); [apply H; left; reflexivity|]. apply IH. intros; apply H; right; assumption.
Qed.
Lemma com_modp : forall p f, com (fun s => (modp p f s, Ok)).
Proof. intros. apply keeps_com. intros s l. split; reflexivity. Qed.
Lemma com_ext : forall f g, (forall s, f s = g s) -> com f -> com g.
Proof. intros f g H Hf s t R. rewrite <- !H. apply Hf, R. Qed.

Lemma update_com : forall u g p, com (do_update_part u g p).
Proof.
  intros u g p. apply keeps_com. intros s l. unfold do_update_part. change (getp (set_events l s) p) with (getp s p).
  destruct (update_part u g (getp s p)); split; reflexivity.
Qed.
Lemma attr_com : forall u, com (run_attr u).
Proof.
  intros u. unfold run_attr. apply (com_by _ current (fun l s => each (fun p s => seqo (do_update_part u false p s)
                        (fun s => (modp p (set_povr (Some u)) s, Ok))) l s)); [reflexivity|].
  intros l. apply com_each. intros p _. apply (com_seq (do_update_part u false p)); [apply update_com|apply com_modp].
Qed.
Lemma gattr_com : forall u, com (run_gattr u).
Proof.
  intros u. apply keeps_com. intros s l. unfold run_gattr. change (current (set_events l s)) with (current s).
  destruct (current s) as [|p r]; [split; reflexivity|]. change (getp (set_events l s) p) with (getp s p).
  change (same_offset (set_events l s)) with (same_offset s). destruct (same_offset _ _ _); split; reflexivity.
Qed.
Lemma globals_to_com : forall p, com (apply_globals_to p).
Proof.
  intros p. unfold apply_globals_to.
  apply (com_seq (fun s => each (fun u s => if overrides (povr (getp s p)) u then (s, Ok) else do_update_part u true p s)
             (in_window (globals s) (plast (getp s p)) (pcur (getp s p))) s)); [|apply com_modp].
  apply (com_by _ (fun s => in_window (globals s) (plast (getp s p)) (pcur (getp s p)))
     (fun l s => each (fun u s => if overrides (povr (getp s p)) u then (s, Ok) else do_update_part u true p s) l s)); [reflexivity|].
  intros l. apply com_each. intros u _. apply (com_by _ (fun s => overrides (povr (getp s p)) u)
     (fun (b : bool) s => if b then (s, Ok) else do_update_part u true p s)); [reflexivity|].
  intros []; [apply com_ret|apply update_com].
Qed.
Lemma globals_com : com apply_globals.
Proof.
  unfold apply_globals. apply (com_by _ current (fun l s => each apply_globals_to l s)); [reflexivity|].
  intros l. apply com_each. intros p _. apply globals_to_com.
Qed.

Lemma existsb_perm : forall A (f : A -> bool) l l', Permutation l l' -> existsb f l = existsb f l'.
Proof.
  intros A f l l' H. induction H; cbn; try congruence. destruct (f x), (f y); reflexivity.
Qed.
Lemma unavailable_perm : forall s l o off dur c, Permutation (events s) l ->
  unavailable (set_events l s) o off dur c = unavailable s o off dur c.
Proof. intros. unfold unavailable. cbn [events set_events]. apply existsb_perm, Permutation_sym. assumption. Qed.
Lemma find_ext : forall A (f g : A -> bool) l, (forall x, f x = g x) -> find f l = find g l.
Proof. intros A f g l H. induction l as [|a l IH]; cbn; [reflexivity|]. rewrite H, IH. reflexivity. Qed.
Lemma complex_perm : forall s l p dur, Permutation (events s) l -> complex_check (set_events l s) p dur = complex_check s p dur.
Proof.
  intros s l p dur H. unfold complex_check. rewrite unavailable_perm by exact H.
  rewrite (find_ext _ _ (fun c => negb (c =? 9)%Z && negb (unavailable s (porigin p) (pcur p) dur c))); [reflexivity|].
  intros c. rewrite unavailable_perm by exact H. reflexivity.
Qed.
Lemma available_perm : forall s l p dur, Permutation (events s) l -> available_channel (set_events l s) p dur = available_channel s p dur.
Proof. intros. unfold available_channel. rewrite complex_perm by assumption. reflexivity. Qed.
Lemma determine_perm : forall s l p dur, Permutation (events s) l -> determine_channel (set_events l s) p dur = determine_channel s p dur.
Proof.
  intros. unfold determine_channel. rewrite complex_perm, available_perm by assumption. reflexivity.
Qed.
Lemma assign_perm : forall s l p dur, Permutation (events s) l ->
  assign_channel (set_events l s) p dur = match assign_channel s p dur with
    | ROk (c, s1) => ROk (c, set_events l s1) | RErr m => RErr m | RPanic m => RPanic m end.
Proof.
  intros s l p dur H. unfold assign_channel. rewrite determine_perm by exact H.
  destruct (determine_channel s p dur) as [c|m|m]; try reflexivity. cbn [rbind].
  destruct (negb (chan_ok c)); [reflexivity|]. change (usage_at (set_events l s)) with (usage_at s).
  cbv zeta. destruct (existsb _ _); reflexivity.
Qed.
Lemma assign_events : forall s p dur c s1, assign_channel s p dur = ROk (c, s1) -> events s1 = events s.
Proof.
  intros s p dur c s1 H. unfold assign_channel in H. destruct (determine_channel s p dur) as [k|m|m]; try discriminate. cbn [rbind] in H.
  destruct (negb (chan_ok k)); [discriminate|]. cbv zeta in H. destruct (existsb _ _); inversion H; subst; reflexivity.
Qed.
Lemma emit_com : forall pi sl dms pd, com (emit_note pi sl dms pd).
Proof.
  intros pi sl dms pd s t [A B]. rewrite A. unfold emit_note. change (getp (set_events (events t) s) pd) with (getp s pd).
  cbv zeta. set (p := getp s pd). set (aud := if sl then dms else nmul dms (pquant p)).
  pose proof (reordered_set s (events t) B) as R.
  destruct (nltb n0 aud); [|split; [exact R|reflexivity]].
  destruct (_ || _)%bool; [split; [exact R|reflexivity]|]. rewrite assign_perm by exact B.
  destruct (assign_channel s p aud) as [[c s1]|m|m] eqn:E; try (split; [exact R|reflexivity]).
  apply assign_events in E. cbn [fst snd]. split; [|reflexivity].
  set (s2 := modp (porigin p) (set_pchan c) (modp pd (set_pchan c) s1)).
  change (modp (porigin p) (set_pchan c) (modp pd (set_pchan c) (set_events (events t) s1))) with (set_events (events t) s2).
  set (ev := NoteEvent _ _ _ _ _ _ _ _ _).
  change (set_events (events (set_events (events t) s2) ++ [ev]) (set_events (events t) s2)) with
    (set_events (events t ++ [ev]) (set_events (events s2 ++ [ev]) s2)).
  apply reordered_set. cbn [events set_events]. apply Permutation_app_tail. change (events s2) with (events s1). rewrite E. exact B.
Qed.
Lemma note_one_com : forall nr d pd, com (note_one nr d pd).
Proof.
  intros nr d pd. unfold note_one.
  apply (com_by _ (fun s => getp s pd) (fun p s => let ed := effective_dur d p in
     let dms := nmul (dur_ms_of (ptempo p) ed) (pscale p) in
     seqo (match nr with Some (pi, slurred) => emit_note pi slurred dms pd s | None => (s, Ok) end)
       (fun s => (modp pd (advance_part (chordmode s) dms ed) s, Ok)))); [reflexivity|].
  intros p. cbv zeta. set (ed := effective_dur d p). set (dms := nmul _ _).
  apply (com_seq (fun s => match nr with Some (pi, slurred) => emit_note pi slurred dms pd s | None => (s, Ok) end)).
  - destruct nr as [[pi sl]|]; [apply emit_com|apply com_ret].
  - apply (com_by _ chordmode (fun b s => (modp pd (advance_part b dms ed) s, Ok))); [reflexivity|]. intros b. apply com_modp.
Qed.
Lemma note_com : forall nr d, com (add_note_or_rest nr d).
Proof.
  intros nr d. unfold add_note_or_rest. apply (com_seq (fun s => if chordmode s then (s, Ok) else apply_globals s)).
  - apply (com_by _ chordmode (fun (b : bool) s => if b then (s, Ok) else apply_globals s)); [reflexivity|]. intros []; [apply com_ret|apply globals_com].
  - destruct (dur_valid d); [|apply com_ret]. apply (com_by _ current (fun l s => each (note_one nr d) l s)); [reflexivity|].
    intros l. apply com_each. intros p _. apply note_one_com.
Qed.
Lemma prim_com : forall q, com (run_prim q).
Proof. intros []; cbn [run_prim]; [apply note_com|apply note_com|apply attr_com|apply gattr_com]. Qed.

Definition R2 {A} (l : list note_event) (r : res (A * score)) : res (A * score) :=
  match r with ROk (a, s) => ROk (a, set_events l s) | RErr m => RErr m | RPanic m => RPanic m end.
Lemma get_voice_keep : forall p n s l, get_voice p n (set_events l s) = R2 l (get_voice p n s).
Proof.
  intros p n s l. unfold get_voice. change (getp (set_events l s) p) with (getp s p). change (getv (set_events l s)) with (getv s).
  destruct (aget Z.eqb n _); [reflexivity|]. unfold new_voice. change (has_voices (set_events l s) p) with (has_voices s p).
  destruct (has_voices s p).
  - cbn [rbind]. change (getp (set_events l s) p) with (getp s p). destruct (ptmpl (getp s p)); reflexivity.
  - change (getp (set_events l s) p) with (getp s p). destruct (ptmpl (getp s p)); [reflexivity|]. unfold clone. cbn [rbind].
    change (List.length (heap (set_events l s))) with (List.length (heap s)).
    set (s1 := modp p _ (modp (List.length (heap s)) _ (set_heap (heap s ++ [set_povr None (getp s p)]) s))).
    change (modp p _ (modp (List.length (heap s)) _ (set_heap (heap (set_events l s) ++ [set_povr None (getp (set_events l s) p)]) (set_events l s))))
      with (set_events l s1).
    change (getp (set_events l s1) p) with (getp s1 p). destruct (ptmpl (getp s1 p)); reflexivity.
Qed.
Lemma voice_keep : forall n cnt i, keeps (voice_loop n i cnt).
Proof.
  intros n cnt. induction cnt as [|k IH]; intros i s l; [split; reflexivity|]. cbn [voice_loop].
  change (current (set_events l s)) with (current s). destruct (nth_error (current s) i) as [p|]; [|split; reflexivity].
  rewrite get_voice_keep. destruct (get_voice p n s) as [[v s1]|m|m] eqn:G; cbn [R2]; try (split; reflexivity).
  apply get_voice_events in G.
  change (set_current _ (set_events l s1)) with (set_events l (set_current (redirect s1 (porigin (getp s1 p)) v (current s1)) s1)).
  destruct (IH (S i) (set_current (redirect s1 (porigin (getp s1 p)) v (current s1)) s1) l) as [A B]. split; [exact A|]. rewrite B. exact G.
Qed.
Lemma vend_keep : forall s l, run_voice_end (set_events l s) = set_events l (run_voice_end s).
Proof.
  intros s l. unfold run_voice_end. change (current (set_events l s)) with (current s). generalize (List.length (current s)).
  intros cnt. generalize 0%nat. revert s. induction cnt as [|k IH]; intros s i; [reflexivity|]. cbn [voice_end_loop].
  change (current (set_events l s)) with (current s). destruct (nth_error (current s) i) as [p|]; [|reflexivity].
  rewrite <- IH. f_equal. unfold voice_end_one. change (getp (set_events l s) p) with (getp s p). change (getv (set_events l s)) with (getv s).
  destruct (getv s _); reflexivity.
Qed.
Lemma new_part_keep : forall n s l, new_part n (set_events l s) = R2 l (new_part n s).
Proof. intros n s l. unfold new_part. destruct (stock_instrument n); reflexivity. Qed.
Lemma new_parts_keep : forall l names s, new_parts names (set_events l s) = R2 l (new_parts names s).
Proof.
  intros l. induction names as [|n t IH]; intros s; [reflexivity|]. cbn [new_parts]. rewrite new_part_keep.
  destruct (new_part n s) as [[p s1]|m|m]; cbn [R2 rbind]; try reflexivity. rewrite IH.
  destruct (new_parts t s1) as [[ps s2]|m|m]; reflexivity.
Qed.
Lemma group_parts_keep : forall l names s, group_parts names (set_events l s) = R2 l (group_parts names s).
Proof.
  intros l. induction names as [|n t IH]; intros s; [reflexivity|]. cbn [group_parts].
  change (named_parts (set_events l s) n) with (named_parts s n). change (unnamed_parts (set_events l s) n) with (unnamed_parts s n).
  destruct (nonempty (named_parts s n)).
  - rewrite IH. destruct (group_parts t s) as [[[np sp] s2]|m|m]; reflexivity.
  - destruct (nonempty (unnamed_parts s n)).
    + rewrite IH. destruct (group_parts t s) as [[[np sp] s2]|m|m]; reflexivity.
    + rewrite new_part_keep. destruct (new_part n s) as [[p s1]|m|m]; cbn [R2 rbind]; try reflexivity.
      rewrite IH. destruct (group_parts t s1) as [[[np sp] s2]|m|m]; reflexivity.
Qed.
Lemma determine_parts_keep : forall names alias s l, determine_parts names alias (set_events l s) = R2 l (determine_parts names alias s).
Proof.
  intros names alias s l. unfold determine_parts.
  assert (G : forall ns, (if has_dup ns then RErr "name included multiple times in group"
      else rbind (group_parts ns (set_events l s)) (fun '(np, sp, s1) =>
        if nonempty np && nonempty sp then RErr "invalid group"
        else if negb (is_empty_string alias) && nonempty sp then new_parts ns s1 else ROk (dedup (np ++ sp) [], s1)))
    = R2 l (if has_dup ns then RErr "name included multiple times in group"
      else rbind (group_parts ns s) (fun '(np, sp, s1) =>
        if nonempty np && nonempty sp then RErr "invalid group"
        else if negb (is_empty_string alias) && nonempty sp then new_parts ns s1 else ROk (dedup (np ++ sp) [], s1)))).
  { intros ns. destruct (has_dup ns); [reflexivity|]. rewrite group_parts_keep.
    destruct (group_parts ns s) as [[[np sp] s1]|m|m]; cbn [R2 rbind]; try reflexivity.
    destruct (nonempty np && nonempty sp)%bool; [reflexivity|].
    destruct (negb (is_empty_string alias) && nonempty sp)%bool; [apply new_parts_keep|reflexivity]. }
  destruct names as [|name [|n2 rest]]; [apply G| |apply G]. clear G.
  rewrite new_part_keep.
  change (named_parts (set_events l s)) with (named_parts s). change (unnamed_parts (set_events l s)) with (unnamed_parts s).
  change (aliased_stock (set_events l s)) with (aliased_stock s).
  destruct (negb (is_empty_string alias) && nonempty (named_parts s name))%bool; [reflexivity|].
  destruct (negb (is_empty_string alias) && nonempty (named_parts s alias))%bool; [reflexivity|].
  match goal with |- (if ?b then _ else _) = _ => destruct b end; [reflexivity|].
  destruct (negb (is_empty_string alias)).
  - destruct (new_part name s) as [[p s1]|m|m]; reflexivity.
  - destruct (nonempty (named_parts s name)); [reflexivity|]. destruct (nonempty (unnamed_parts s name)); [reflexivity|].
    destruct (new_part name s) as [[p s1]|m|m]; reflexivity.
Qed.
Lemma define_aliases_keep : forall a ps s l, define_aliases a ps (set_events l s) = set_events l (define_aliases a ps s).
Proof.
  intros a ps s l. unfold define_aliases.
  change (map (fun p => (p, aliases_for (set_events l s) p)) ps) with (map (fun p => (p, aliases_for s p)) ps).
  change (set_alias a ps (set_events l s)) with (set_events l (set_alias a ps s)).
  generalize (map (fun p => (p, aliases_for s p)) ps) (set_alias a ps s). clear. intros k. induction k as [|[p old] k IH]; intros s; [reflexivity|].
  cbn [fold_left]. change (pname (getp (set_events l s) p)) with (pname (getp s p)).
  change (set_alias (a ++ "." ++ pname (getp s p)) [p] (set_events l s)) with (set_events l (set_alias (a ++ "." ++ pname (getp s p)) [p] s)).
  assert (K : forall old s, fold_left (fun s a0 => set_alias (a ++ "." ++ a0) [p] s) old (set_events l s)
     = set_events l (fold_left (fun s a0 => set_alias (a ++ "." ++ a0) [p] s) old s)).
  { clear. induction old as [|b old IH]; intros s; [reflexivity|]. cbn [fold_left].
    change (set_alias (a ++ "." ++ b) [p] (set_events l s)) with (set_events l (set_alias (a ++ "." ++ b) [p] s)). apply IH. }
  rewrite K. apply IH.
Qed.
Lemma add_new_parts_keep : forall l ps s, add_new_parts ps (set_events l s) = set_events l (add_new_parts ps s).
Proof.
  intros l. unfold add_new_parts. induction ps as [|p ps IH]; intros s; [reflexivity|]. cbn [fold_left]. change (parts (set_events l s)) with (parts s).
  destruct (existsb _ _); [apply IH|]. change (set_parts (parts s ++ [p]) (set_events l s)) with (set_events l (set_parts (parts s ++ [p]) s)). apply IH.
Qed.
Lemma run_part_keep : forall names alias, keeps (run_part names alias).
Proof.
  intros names alias s l. split; [|destruct (run_part names alias s) as [s' o] eqn:E; cbn [fst]; eapply run_part_events; exact E].
  unfold run_part. rewrite vend_keep. set (s0 := run_voice_end s). rewrite determine_parts_keep.
  destruct (determine_parts names alias s0) as [[ps s1]|m|m]; cbn [R2]; try reflexivity.
  change (parts (set_events l s1)) with (parts s1).
  assert (F : forall s2, (set_current ps (if is_empty_string alias then add_new_parts ps (set_events l s2) else define_aliases alias ps (add_new_parts ps (set_events l s2))), Ok)
    = (set_events l (set_current ps (if is_empty_string alias then add_new_parts ps s2 else define_aliases alias ps (add_new_parts ps s2))), Ok)).
  { intros s2. rewrite add_new_parts_keep, define_aliases_keep. destruct (is_empty_string alias); reflexivity. }
  destruct (parts s1) as [|q k]; [|apply F].
  destruct ps as [|p0 ps0]; [reflexivity|]. apply (F (modp p0 (set_pmaster true) s1)).
Qed.
Local Opaque run_part.

Lemma run_times_com : forall f k r, com f -> com (run_times f r k).
Proof.
  intros f k. induction k as [|k IH]; intros r Hf; [apply com_ret|]. cbn [run_times].
  apply (com_seq (fun s => each (fun p s => (modp p (set_prep r) s, Ok)) (current s) s) (fun s => seqo (f s) (run_times f (r + 1)%Z k))).
  - apply (com_by _ current (fun l s => each (fun p s => (modp p (set_prep r) s, Ok)) l s)); [reflexivity|].
    intros l. apply com_each. intros p _. apply com_modp.
  - apply (com_seq f); [exact Hf|apply IH, Hf].
Qed.
Lemma onreps_com : forall rs f cnt i, com f -> com (onreps_loop rs f i cnt).
Proof.
  intros rs f cnt. induction cnt as [|k IH]; intros i Hf; [apply com_ret|]. cbn [onreps_loop].
  apply (com_ext (fun s => (fun b s => match b with None => (s, Ok) | Some b => seqo (if b : bool then f s else (s, Ok)) (onreps_loop rs f (S i) k) end)
     (match nth_error (current s) i with None => None | Some p => Some (applies_to rs (prep (getp s p))) end) s)).
  { intros s. destruct (nth_error (current s) i); reflexivity. }
  apply (com_by _ (fun s => match nth_error (current s) i with None => None | Some p => Some (applies_to rs (prep (getp s p))) end)
    (fun b s => match b with None => (s, Ok) | Some b => seqo (if b : bool then f s else (s, Ok)) (onreps_loop rs f (S i) k) end)); [reflexivity|].
  intros [b|]; [|apply com_ret]. apply (com_seq (fun s => if b then f s else (s, Ok))); [destruct b; [exact Hf|apply com_ret]|apply IH, Hf].
Qed.

Lemma upd_com : forall deref dd, (forall n, com (deref n)) -> forall u, com (run_upd deref dd u).
Proof.
  intros deref dd Hder u. induction u using update_ind';
    try (assert (HA : Forall (fun u => com (run_upd deref dd u)) es) by (rewrite Forall_forall in *; intros; apply H; auto)).
  - apply prim_com.
  - apply com_ret.
  - cbn [run_upd]. destruct (eval_update els) as [[q|]|m|m]; try apply com_ret. apply prim_com.
  - apply com_ret.
  - cbn [run_upd].
    apply (com_seq apply_globals (fun s => (fix go (l : list update) (m : list (pid * num)) (s : score) : score * outcome :=
         match l with
         | [] => chord_finish m (set_chordmode false s)
         | e :: t => let m' := lower_shortest (written_dur e) s m in seqo (run_upd deref dd e s) (go t m')
         end) es (map (fun p => (p, nmaxval)) (current s)) (set_chordmode true s))); [apply globals_com|].
    apply (com_by _ current (fun l s => (fix go (l : list update) (m : list (pid * num)) (s : score) : score * outcome :=
         match l with
         | [] => chord_finish m (set_chordmode false s)
         | e :: t => let m' := lower_shortest (written_dur e) s m in seqo (run_upd deref dd e s) (go t m')
         end) es (map (fun p => (p, nmaxval)) l) (set_chordmode true s))); [reflexivity|].
    intros l0. generalize (map (fun p : pid => (p, nmaxval)) l0). intros m0.
    apply (com_seq (fun s => (set_chordmode true s, Ok)) (fun s => (fix go (l : list update) (m : list (pid * num)) (s : score) : score * outcome :=
         match l with
         | [] => chord_finish m (set_chordmode false s)
         | e :: t => let m' := lower_shortest (written_dur e) s m in seqo (run_upd deref dd e s) (go t m')
         end) es m0 s)).
    { apply keeps_com. intros s l. split; reflexivity. }
    clear H. revert m0. induction HA as [|e l He Hl IH]; intros m0.
    + unfold chord_finish.
      apply (com_seq (fun s => (set_chordmode false s, Ok)) (fun s => each (fun pd s => (modp pd (fun p => set_pcur (nadd (pcur p) (pget n0 pd m0))
                                                (set_plast (pcur p) p)) s, Ok)) (current s) s)).
      { apply keeps_com. intros s l. split; reflexivity. }
      apply (com_by _ current (fun l s => each (fun pd s => (modp pd (fun p => set_pcur (nadd (pcur p) (pget n0 pd m0))
                                                (set_plast (pcur p) p)) s, Ok)) l s)); [reflexivity|].
      intros l. apply com_each. intros p _. apply com_modp.
    + apply (com_by _ (fun s => lower_shortest (written_dur e) s m0) (fun m' s => seqo (run_upd deref dd e s)
         ((fix go (l : list update) (m : list (pid * num)) (s : score) : score * outcome :=
         match l with
         | [] => chord_finish m (set_chordmode false s)
         | e :: t => let m' := lower_shortest (written_dur e) s m in seqo (run_upd deref dd e s) (go t m')
         end) l m'))).
      { intros s k. reflexivity. }
      intros m'. apply (com_seq (run_upd deref dd e)); [exact He|]. apply IH.
  - cbn [run_upd].
    apply (com_by _ (fun s => (map (fun p => (p, pdur (getp s p))) (current s), map (fun p => (p, pscale (getp s p))) (current s)))
       (fun b s => seqo (cram_scale (dd (variables s)) es d s) (fun s =>
         seqo ((fix go (l : list update) (s : score) : score * outcome :=
                     match l with [] => (s, Ok) | e :: t => seqo (run_upd deref dd e s) (go t) end) es s)
              (cram_finish d (fst b) (snd b))))).
    { intros s l. reflexivity. }
    intros [b1 b2]. cbn [fst snd].
    apply (com_seq (fun s => cram_scale (dd (variables s)) es d s)).
    + unfold cram_scale.
      apply (com_by _ (fun s => (variables s, current s)) (fun b s => each (fun pd s =>
          match time_scale (dd (fst b)) es d (getp s pd) with
          | (ts, Ok) => (modp pd (set_pscale ts) s, Ok)
          | (_, o) => (s, o)
          end) (snd b) s)); [reflexivity|].
      intros [vs l]. cbn [fst snd]. apply com_each. intros p _.
      apply (com_by _ (fun s1 => time_scale (dd vs) es d (getp s1 p)) (fun b s => match b with
          | (ts, Ok) => (modp p (set_pscale ts) s, Ok) | (_, o) => (s, o) end)); [reflexivity|].
      intros [ts []]; try apply com_ret. apply com_modp.
    + apply (com_ext (fun s => seqo (each (run_upd deref dd) es s) (cram_finish d b1 b2))).
      { intros s. rewrite <- go_each. reflexivity. }
      apply (com_seq (each (run_upd deref dd) es) (cram_finish d b1 b2)); [apply com_each; rewrite Forall_forall in HA; exact HA|].
      unfold cram_finish. apply (com_by _ current (fun l s => each (fun pd s =>
          (modp pd (fun p => set_pscale (pget n0 pd b2)
                       (set_pdur (match d with Some _ => d | None => pget None pd b1 end) p)) s, Ok)) l s)); [reflexivity|].
      intros l. apply com_each. intros p _. apply com_modp.
  - cbn [run_upd]. apply (com_seq (run_times (run_upd deref dd u) 1 (Z.to_nat n))).
    + apply run_times_com, IHu.
    + destruct (_ =? _)%Z; apply com_ret.
  - cbn [run_upd]. apply (com_by _ current (fun l s => onreps_loop rs (run_upd deref dd u) 0 (List.length l) s)); [reflexivity|].
    intros l. apply onreps_com, IHu.
  - cbn [run_upd]. apply (com_ext (each (run_upd deref dd) es)); [intros s; symmetry; apply go_each|].
    apply com_each. rewrite Forall_forall in HA. exact HA.
  - apply keeps_com. intros s l. cbn [run_upd]. unfold run_marker. change (current (set_events l s)) with (current s).
    destruct (current s) as [|p r]; [split; reflexivity|]. change (getp (set_events l s) p) with (getp s p).
    change (same_offset (set_events l s)) with (same_offset s). destruct (same_offset _ _ _); split; reflexivity.
  - cbn [run_upd]. unfold run_at_marker. apply (com_seq apply_globals); [apply globals_com|].
    apply (com_by _ (fun s => (aget String.eqb n (markers s), current s)) (fun b s => match fst b with None => (s, Err "marker undefined") | Some off =>
      each (fun p s => (modp p (fun q => set_pcur off (set_plast (pcur q) q)) s, Ok)) (snd b) s end)); [reflexivity|].
    intros [[off|] l]; cbn [fst snd]; [|apply com_ret]. apply com_each. intros p _. apply com_modp.
  - apply keeps_com. intros s l. cbn [run_upd]. unfold run_var_def. change (variables (set_events l s)) with (variables s).
    destruct (rmapl _ _); split; reflexivity.
  - apply Hder.
  - cbn [run_upd]. unfold run_voice. apply (com_by _ current (fun l s => voice_loop n 0 (List.length l) s)); [reflexivity|].
    intros l. apply keeps_com, voice_keep.
  - apply keeps_com. intros s l. cbn [run_upd fst snd]. rewrite vend_keep. split; [reflexivity|apply vend_events].
  - apply keeps_com, run_part_keep.
Qed.
Lemma deref_com : forall fuel n, com (run_deref fuel n).
Proof.
  induction fuel as [|f IH]; intros n; cbn [run_deref].
  - apply (com_by _ (fun s => aget String.eqb n (variables s)) (fun b s => match b with None => (s, Err "undefined variable") | Some es => (s, OutOfFuel) end)); [reflexivity|].
    intros []; apply com_ret.
  - apply (com_by _ (fun s => aget String.eqb n (variables s)) (fun b s => match b with None => (s, Err "undefined variable")
      | Some es => each (run_upd (run_deref f) (dur_deref f)) es s end)); [reflexivity|].
    intros [es|]; [|apply com_ret]. apply com_each. intros u _. apply upd_com, IH.
Qed.
Lemma exec_com : forall us, com (exec us).
Proof. intros us. apply com_each. intros u _. apply upd_com, deref_com. Qed.
End Order.
