(** Proof of C48, sixth part: voices and part declarations around the events. *)
From Coq Require Import ZArith List String Bool Lia Arith QArith Qcanon.
From Verif Require Import Base Num ModelPitch ModelDuration ModelInstruments ModelTypes ModelLisp
  ModelScore ModelImporter SpecScore SpecVars SpecParts SpecSolo SpecTiming SpecImporter ProofHeap ProofStep ProofInv ProofEvents
  ProofVoices ProofVars ProofSafe ProofTracks ProofSolo ProofTiming ProofImporter ProofImporter2 ProofImporter3 ProofImporter4 ProofImporter5.
Import ListNotations.
Local Open Scope list_scope.

Section Like.
Context {N : Num} {FG : Forget}.

Ltac R_fields H := apply R_intro; cbn; try reflexivity;
  try (apply R_heap, H); try (apply R_vheap, H); try (apply R_parts, H); try (apply R_current, H);
    try (apply R_aliases, H); try (apply R_events, H); try (apply R_globals, H); try (apply R_markers, H); try (apply R_variables, H);
    try (apply R_chordmode, H); try (apply R_usage, H).

(** Both computations succeed with related scores and the same value, or fail alike. *)
Definition like_res {A} (a b : res (A * score)) : Prop :=
  match a, b with
  | ROk (x, s), ROk (y, t) => x = y /\ R s t
  | RErr m, RErr m' => m = m'
  | RPanic m, RPanic m' => m = m'
  | _, _ => False
  end.

Lemma clone_like : forall p s t, R s t -> fst (clone p s) = fst (clone p t) /\ R (snd (clone p s)) (snd (clone p t)).
Proof.
  intros p s t H. unfold clone. cbn [fst snd]. split; [apply R_len, H|]. R_fields H.
  rewrite !map_app. cbn [map]. rewrite (R_heap _ _ H). f_equal. f_equal. pose proof (R_getp _ _ p H) as E. e1_fields E.
Qed.
Lemma getv_like : forall s t c, R s t -> getv s c = getv t c.
Proof. intros s t c H. unfold getv. rewrite (R_vheap _ _ H). reflexivity. Qed.
Lemma setv_like : forall s t c x, R s t -> R (setv c x s) (setv c x t).
Proof. intros s t c x H. unfold setv. R_fields H. rewrite (R_vheap _ _ H). reflexivity. Qed.
Lemma set_current_like : forall s t l, R s t -> R (set_current l s) (set_current l t).
Proof. intros s t l H. R_fields H. Qed.
Lemma set_parts_like : forall s t l, R s t -> R (set_parts l s) (set_parts l t).
Proof. intros s t l H. R_fields H. Qed.
Lemma set_aliases_like : forall s t l, R s t -> R (set_aliases l s) (set_aliases l t).
Proof. intros s t l H. R_fields H. Qed.
Lemma redirect_like : forall s t o v l, R s t -> redirect s o v l = redirect t o v l.
Proof. intros s t o v l H. unfold redirect. apply map_ext. intros q. rewrite (e1_origin _ _ (R_getp _ _ q H)). reflexivity. Qed.

Lemma new_voice_like : forall p n s t, R s t -> like_res (new_voice p n s) (new_voice p n t).
Proof.
  intros p n s t H. unfold new_voice, has_voices. pose proof (R_getp _ _ p H) as E.
  rewrite (e1_voices _ _ E), (getv_like _ _ _ H), (e1_tmpl _ _ E).
  assert (K : forall s1 t1, R s1 t1 -> like_res
     (match ptmpl (getp s1 p) with None => RPanic "nil pointer dereference" | Some t0 => let (v, s2) := clone t0 s1 in
        let cell := pvoices (getp s2 p) in ROk (v, setv cell (getv s2 cell ++ [(n, v)]) s2) end)
     (match ptmpl (getp t1 p) with None => RPanic "nil pointer dereference" | Some t0 => let (v, s2) := clone t0 t1 in
        let cell := pvoices (getp s2 p) in ROk (v, setv cell (getv s2 cell ++ [(n, v)]) s2) end)).
  { intros s1 t1 H1. rewrite (e1_tmpl _ _ (R_getp _ _ p H1)). destruct (ptmpl (getp t1 p)) as [t0|]; [|reflexivity].
    destruct (clone_like t0 s1 t1 H1) as [A B]. destruct (clone t0 s1) as [v s2], (clone t0 t1) as [v' t2]. cbn [fst snd] in A, B. subst v'.
    cbv zeta. split; [reflexivity|]. rewrite (e1_voices _ _ (R_getp _ _ p B)), (getv_like _ _ _ B). apply setv_like, B. }
  destruct (getv t (pvoices (getp t p))); [|apply K, H]. destruct (ptmpl (getp t p)); [reflexivity|].
  destruct (clone_like p s t H) as [A B]. destruct (clone p s) as [v s2], (clone p t) as [v' t2]. cbn [fst snd] in A, B. subst v'. cbn [rbind].
  assert (B1 : R (modp v (set_ptmpl (Some v)) s2) (modp v (set_ptmpl (Some v)) t2)).
  { apply R_modp; [exact B|]. pose proof (R_getp _ _ v B) as E1. e1_fields E1. reflexivity. }
  apply K. apply R_modp; [exact B1|]. pose proof (R_getp _ _ p B1) as E1. e1_fields E1. reflexivity.
Qed.
Lemma get_voice_like : forall p n s t, R s t -> like_res (get_voice p n s) (get_voice p n t).
Proof.
  intros p n s t H. unfold get_voice. rewrite (e1_voices _ _ (R_getp _ _ p H)), (getv_like _ _ _ H).
  destruct (aget Z.eqb n _); [split; [reflexivity|exact H]|apply new_voice_like, H].
Qed.
Lemma run_voice_like : forall n s t, R s t -> RR (run_voice n s) (run_voice n t).
Proof.
  intros n s t H. unfold run_voice. rewrite (R_current _ _ H). generalize (List.length (current t)) as c, 0%nat as i. intros c. revert s t H.
  induction c as [|c IH]; intros s t H i; [split; [exact H|reflexivity]|]. cbn [voice_loop]. rewrite (R_current _ _ H).
  destruct (nth_error (current t) i) as [p|]; [|split; [exact H|reflexivity]]. pose proof (get_voice_like p n s t H) as G.
  destruct (get_voice p n s) as [[v s1]|m|m], (get_voice p n t) as [[v' t1]|m'|m']; try contradiction; try (cbn in G; subst; split; [exact H|reflexivity]).
  destruct G as [<- G]. apply IH. rewrite (e1_origin _ _ (R_getp _ _ p G)), (R_current _ _ G), (redirect_like _ _ _ _ _ G). apply set_current_like, G.
Qed.
Lemma last_like : forall s t vs d, R s t -> last_to_finish s vs d = last_to_finish t vs d.
Proof.
  intros s t vs d H. unfold last_to_finish. generalize (snd (last vs (0%Z, d))). induction (removelast vs) as [|x l IH]; intros y; [reflexivity|].
  cbn [fold_left]. rewrite (e1_cur _ _ (R_getp _ _ y H)), (e1_cur _ _ (R_getp _ _ (snd x) H)). apply IH.
Qed.
Lemma voice_end_one_like : forall i p s t, R s t -> R (voice_end_one i p s) (voice_end_one i p t).
Proof.
  intros i p s t H. unfold voice_end_one. rewrite (e1_voices _ _ (R_getp _ _ p H)), (getv_like _ _ _ H).
  destruct (getv t (pvoices (getp t p))) as [|x l] eqn:E; [exact H|]. rewrite (last_like s t _ _ H), (R_vheap _ _ H).
  set (lv := last_to_finish t (x :: l) p). set (cell := List.length (vheap t)).
  assert (H1 : R (set_vheap (vheap t ++ [[]]) s) (set_vheap (vheap t ++ [[]]) t)) by (R_fields H).
  assert (H2 : R (modp lv (fun q => set_ptmpl None (set_pvoices cell q)) (set_vheap (vheap t ++ [[]]) s)) (modp lv (fun q => set_ptmpl None (set_pvoices cell q)) (set_vheap (vheap t ++ [[]]) t))).
  { apply R_modp; [exact H1|]. pose proof (R_getp _ _ lv H1) as E1. e1_fields E1; reflexivity. }
  revert H2. generalize (modp lv (fun q => set_ptmpl None (set_pvoices cell q)) (set_vheap (vheap t ++ [[]]) s)) as s2.
  generalize (modp lv (fun q => set_ptmpl None (set_pvoices cell q)) (set_vheap (vheap t ++ [[]]) t)) as t2. intros t2 s2 H2. cbv zeta.
  rewrite (R_current _ _ H2).
  assert (H3 : R (set_current (upd_nth i lv (current t2)) s2) (set_current (upd_nth i lv (current t2)) t2)) by apply set_current_like, H2.
  revert H3. generalize (set_current (upd_nth i lv (current t2)) s2) as s3, (set_current (upd_nth i lv (current t2)) t2) as t3. intros s3 t3 H3.
  rewrite (e1_origin _ _ (R_getp _ _ p H3)), (R_parts _ _ H3), (redirect_like _ _ _ _ _ H3).
  assert (H4 : R (set_parts (redirect t3 (porigin (getp t3 p)) lv (parts t3)) s3) (set_parts (redirect t3 (porigin (getp t3 p)) lv (parts t3)) t3)) by apply set_parts_like, H3.
  revert H4. generalize (set_parts (redirect t3 (porigin (getp t3 p)) lv (parts t3)) s3) as s4, (set_parts (redirect t3 (porigin (getp t3 p)) lv (parts t3)) t3) as t4.
  intros s4 t4 H4. rewrite (R_aliases _ _ H4).
  rewrite (map_ext _ (fun '(a, ps) => (a, redirect t4 (porigin (getp t3 p)) lv ps))); [apply set_aliases_like, H4|].
  intros [a ps]. rewrite (redirect_like _ _ _ _ _ H4). reflexivity.
Qed.
Lemma run_voice_end_like : forall s t, R s t -> R (run_voice_end s) (run_voice_end t).
Proof.
  intros s t H. unfold run_voice_end. rewrite (R_current _ _ H). generalize (List.length (current t)) as c, 0%nat as i. intros c. revert s t H.
  induction c as [|c IH]; intros s t H i; [exact H|]. cbn [voice_end_loop]. rewrite (R_current _ _ H).
  destruct (nth_error (current t) i) as [p|]; [|exact H]. apply IH, voice_end_one_like, H.
Qed.

Lemma new_part_like : forall name s t, R s t -> like_res (new_part name s) (new_part name t).
Proof.
  intros name s t H. unfold new_part. destruct (stock_instrument name) as [i|]; [|reflexivity]. rewrite (R_vheap _ _ H), (R_len _ _ H).
  split; [reflexivity|]. R_fields H. rewrite !map_app, (R_heap _ _ H). reflexivity.
Qed.
Lemma named_like : forall s t a, R s t -> named_parts s a = named_parts t a.
Proof. intros s t a H. unfold named_parts. rewrite (R_aliases _ _ H). reflexivity. Qed.
Lemma unnamed_like : forall s t a, R s t -> unnamed_parts s a = unnamed_parts t a.
Proof.
  intros s t a H. unfold unnamed_parts, is_named. rewrite (R_parts _ _ H), (R_aliases _ _ H). apply filter_ext. intros p.
  rewrite (e1_stock _ _ (R_getp _ _ p H)). reflexivity.
Qed.
Lemma aliased_like : forall s t a, R s t -> aliased_stock s a = aliased_stock t a.
Proof.
  intros s t a H. unfold aliased_stock. rewrite (R_aliases _ _ H). apply flat_map_ext. intros [b [|p [|q l]]]; try reflexivity.
  rewrite (e1_stock _ _ (R_getp _ _ p H)). reflexivity.
Qed.
Lemma like_rmap : forall A B (f : A * score -> B * score) a b, like_res a b ->
  (forall x s t, R s t -> fst (f (x, s)) = fst (f (x, t)) /\ R (snd (f (x, s))) (snd (f (x, t)))) -> like_res (rmap f a) (rmap f b).
Proof.
  intros A B f [[x s]|m|m] [[y t]|m'|m'] H F; try contradiction; try exact H. destruct H as [<- H]. specialize (F x s t H).
  unfold like_res, rmap. cbn. destruct (f (x, s)), (f (x, t)). exact F.
Qed.
Lemma like_rbind : forall A B (f : A * score -> res (B * score)) a b, like_res a b ->
  (forall x s t, R s t -> like_res (f (x, s)) (f (x, t))) -> like_res (rbind a f) (rbind b f).
Proof. intros A B f [[x s]|m|m] [[y t]|m'|m'] H F; try contradiction; try exact H. cbn [rbind]. destruct H as [<- H]. apply F, H. Qed.
Lemma new_parts_like : forall names s t, R s t -> like_res (new_parts names s) (new_parts names t).
Proof.
  induction names as [|n names IH]; intros s t H; cbn [new_parts]; [split; [reflexivity|exact H]|].
  apply like_rbind; [apply new_part_like, H|]. intros p s1 t1 H1. apply like_rmap; [apply IH, H1|]. intros ps s2 t2 H2. split; [reflexivity|exact H2].
Qed.
Lemma group_parts_like : forall names s t, R s t -> like_res (group_parts names s) (group_parts names t).
Proof.
  induction names as [|n names IH]; intros s t H; cbn [group_parts]; [split; [reflexivity|exact H]|].
  rewrite (named_like _ _ _ H), (unnamed_like _ _ _ H). destruct (nonempty _); [|destruct (nonempty _)].
  - apply like_rmap; [apply IH, H|]. intros [np sp] s2 t2 H2. split; [reflexivity|exact H2].
  - apply like_rmap; [apply IH, H|]. intros [np sp] s2 t2 H2. split; [reflexivity|exact H2].
  - apply like_rbind; [apply new_part_like, H|]. intros p s1 t1 H1. apply like_rmap; [apply IH, H1|]. intros [np sp] s2 t2 H2. split; [reflexivity|exact H2].
Qed.
Lemma determine_like : forall names alias s t, R s t -> like_res (determine_parts names alias s) (determine_parts names alias t).
Proof.
  intros names alias s t H. unfold determine_parts.
  assert (G : like_res
    (if has_dup names then RErr "name included multiple times in group"
      else rbind (group_parts names s) (fun '(np, sp, s1) => if nonempty np && nonempty sp then RErr "invalid group"
        else if negb (is_empty_string alias) && nonempty sp then new_parts names s1 else ROk (dedup (np ++ sp) [], s1)))
    (if has_dup names then RErr "name included multiple times in group"
      else rbind (group_parts names t) (fun '(np, sp, s1) => if nonempty np && nonempty sp then RErr "invalid group"
        else if negb (is_empty_string alias) && nonempty sp then new_parts names s1 else ROk (dedup (np ++ sp) [], s1)))).
  { destruct (has_dup names); [reflexivity|]. apply like_rbind; [apply group_parts_like, H|]. intros [np sp] s1 t1 H1.
    destruct (_ && _)%bool; [reflexivity|]. destruct (_ && _)%bool; [apply new_parts_like, H1|]. split; [reflexivity|exact H1]. }
  destruct names as [|name [|n2 names]]; [exact G| |exact G]. clear G.
  rewrite (named_like _ _ _ H), (unnamed_like _ _ _ H), (named_like _ _ alias H), (aliased_like _ _ _ H).
  assert (K : like_res (rmap (fun '(p, s1) => ([p], s1)) (new_part name s)) (rmap (fun '(p, s1) => ([p], s1)) (new_part name t))).
  { apply like_rmap; [apply new_part_like, H|]. intros p s2 t2 H2. split; [reflexivity|exact H2]. }
  repeat match goal with |- context[if ?c then _ else _] => destruct c end; try reflexivity; try exact K; split; try reflexivity; exact H.
Qed.
Lemma add_new_like : forall ps s t, R s t -> R (add_new_parts ps s) (add_new_parts ps t).
Proof.
  unfold add_new_parts. induction ps as [|p ps IH]; intros s t H; [exact H|]. cbn [fold_left]. apply IH. rewrite (R_parts _ _ H).
  destruct (existsb _ _); [exact H|]. apply set_parts_like, H.
Qed.
Lemma set_alias_like : forall a ps s t, R s t -> R (set_alias a ps s) (set_alias a ps t).
Proof. intros a ps s t H. unfold set_alias. rewrite (R_aliases _ _ H). apply set_aliases_like, H. Qed.
Lemma define_like : forall a ps s t, R s t -> R (define_aliases a ps s) (define_aliases a ps t).
Proof.
  intros a ps s t H. unfold define_aliases. replace (map (fun p => (p, aliases_for s p)) ps) with (map (fun p => (p, aliases_for t p)) ps).
  2:{ apply map_ext. intros p. unfold aliases_for. rewrite (R_aliases _ _ H). reflexivity. }
  assert (H1 : R (set_alias a ps s) (set_alias a ps t)) by apply set_alias_like, H. revert H1.
  generalize (set_alias a ps s) as s1, (set_alias a ps t) as t1. induction (map (fun p => (p, aliases_for t p)) ps) as [|[p old] l IH]; intros s1 t1 H1; [exact H1|].
  cbn [fold_left]. apply IH. rewrite (e1_name _ _ (R_getp _ _ p H1)).
  assert (H2 : R (set_alias (a ++ "." ++ pname (getp t1 p))%string [p] s1) (set_alias (a ++ "." ++ pname (getp t1 p))%string [p] t1)) by apply set_alias_like, H1.
  revert H2. generalize (set_alias (a ++ "." ++ pname (getp t1 p))%string [p] s1) as s2, (set_alias (a ++ "." ++ pname (getp t1 p))%string [p] t1) as t2.
  clear. induction old as [|x old IH]; intros s2 t2 H2; [exact H2|]. cbn [fold_left]. apply IH, set_alias_like, H2.
Qed.
Lemma run_part_like : forall names alias s t, R s t -> RR (run_part names alias s) (run_part names alias t).
Proof.
  intros names alias s t H. unfold run_part. pose proof (run_voice_end_like s t H) as H0. pose proof (determine_like names alias _ _ H0) as G.
  cbv zeta. destruct (determine_parts names alias (run_voice_end s)) as [[ps s1]|m|m], (determine_parts names alias (run_voice_end t)) as [[ps' t1]|m'|m'];
    try contradiction; try (cbn in G; subst; split; [exact H0|reflexivity]). destruct G as [<- G].
  assert (K : forall s2 t2, R s2 t2 -> RR (set_current ps (if is_empty_string alias then add_new_parts ps s2 else define_aliases alias ps (add_new_parts ps s2)), Ok)
     (set_current ps (if is_empty_string alias then add_new_parts ps t2 else define_aliases alias ps (add_new_parts ps t2)), Ok)).
  { intros s2 t2 H2. split; [|reflexivity]. cbn [fst]. apply set_current_like. destruct (is_empty_string alias); [apply add_new_like, H2|apply define_like, add_new_like, H2]. }
  rewrite (R_parts _ _ G). destruct (parts t1) as [|p0 pl]; [|apply K, G]. destruct ps as [|p ps]; [split; [exact G|reflexivity]|].
  apply K. apply R_modp; [exact G|]. pose proof (R_getp _ _ p G) as E1. e1_fields E1. reflexivity.
Qed.
End Like.

(* ------------------------- voices keep the score ready ------------------------- *)

Section Ready.
Context {N : Num}.

(** A part that exists, with the given key signature and kind. *)
Definition good (b : bool) (k : keysig) (s : score) (q : pid) : Prop :=
  (q < List.length (heap s))%nat /\ pkey (getp s q) = k /\ iperc (pstock (getp s q)) = b.
Definition vok (b : bool) (k : keysig) (s : score) (p : pid) : Prop :=
  good b k s p /\ (pvoices (getp s p) < List.length (vheap s))%nat /\
  (getv s (pvoices (getp s p)) <> [] -> forall t, ptmpl (getp s p) = Some t -> good b k s t /\ links (getp s t) = links (getp s p)) /\
  (forall n v, In (n, v) (getv s (pvoices (getp s p))) -> good b k s v /\ links (getp s v) = links (getp s p)).
Definition ready (b : bool) (k : keysig) (s : score) : Prop :=
  ga_offs (globals s) = [] /\ (forall p, In p (current s) -> vok b k s p) /\
  NoDup (map (fun p => porigin (getp s p)) (current s)) /\ NoDup (map (fun p => pvoices (getp s p)) (current s)).
Definition closed (b : bool) (k : keysig) (s : score) : Prop :=
  ready b k s /\ forall p, In p (current s) -> getv s (pvoices (getp s p)) = [].

Lemma ready_playing : forall b k s, ready b k s -> playing b k s.
Proof. intros b k s [A [B _]]. split; [exact A|]. intros p Hp. apply B, Hp. Qed.
Lemma links_voices : forall p q, links p = links q -> pvoices p = pvoices q. Proof. intros p q H. injection H. auto. Qed.
Lemma links_tmpl : forall p q, links p = links q -> ptmpl p = ptmpl q. Proof. intros p q H. injection H. auto. Qed.
Lemma links_origin : forall p q, links p = links q -> porigin p = porigin q. Proof. intros p q H. injection H. auto. Qed.
Lemma kept_good : forall b k s s' q, kept s s' -> good b k s q -> good b k s' q.
Proof. intros b k s s' q K [A [B C]]. repeat split; rewrite ?(kept_len _ _ K), ?(kept_key _ _ K), ?(kept_stock _ _ K); assumption. Qed.
Lemma kept_getv : forall s s' c, kept s s' -> getv s' c = getv s c.
Proof. intros s s' c K. unfold getv. rewrite (kept_vheap _ _ K). reflexivity. Qed.
Lemma kept_ready : forall b k s s', kept s s' -> ready b k s -> ready b k s'.
Proof.
  intros b k s s' K [A [B [C D]]]. split; [rewrite (kept_globals _ _ K); exact A|]. rewrite (kept_cur _ _ K).
  pose proof (kept_links _ _ K) as L.
  split; [|split].
  - intros p Hp. destruct (B p Hp) as [V1 [V2 [V3 V4]]]. unfold vok. rewrite (kept_getv _ _ _ K), (kept_vheap _ _ K), (links_voices _ _ (L p)), (links_tmpl _ _ (L p)).
    split; [eapply kept_good; eassumption|]. split; [exact V2|]. split.
    + intros Hn t Ht. destruct (V3 Hn t Ht) as [X Y]. split; [eapply kept_good; eassumption|]. rewrite !L. exact Y.
    + intros n v Hv. destruct (V4 n v Hv) as [X Y]. split; [eapply kept_good; eassumption|]. rewrite !L. exact Y.
  - rewrite (map_ext _ (fun p => porigin (getp s p))); [exact C|]. intros p. apply links_origin, L.
  - rewrite (map_ext _ (fun p => pvoices (getp s p))); [exact D|]. intros p. apply links_voices, L.
Qed.
Lemma kept_closed : forall b k s s', kept s s' -> closed b k s -> closed b k s'.
Proof.
  intros b k s s' K [A B]. split; [eapply kept_ready; eassumption|]. intros p Hp. rewrite (kept_cur _ _ K) in Hp.
  rewrite (links_voices _ _ (kept_links _ _ K p)), (kept_getv _ _ _ K). apply B, Hp.
Qed.

(** A part whose voices are out of reach of a change. *)
Lemma good_same : forall b k s s1 q, good b k s q -> getp s1 q = getp s q -> (List.length (heap s) <= List.length (heap s1))%nat -> good b k s1 q.
Proof. intros b k s s1 q [A [B C]] E L. repeat split; rewrite ?E; try assumption. lia. Qed.
Lemma vok_frame : forall b k s s1 q, vok b k s q ->
  (forall r, (r < List.length (heap s))%nat -> pvoices (getp s r) = pvoices (getp s q) -> getp s1 r = getp s r) ->
  (List.length (heap s) <= List.length (heap s1))%nat -> (List.length (vheap s) <= List.length (vheap s1))%nat ->
  getv s1 (pvoices (getp s q)) = getv s (pvoices (getp s q)) -> vok b k s1 q.
Proof.
  intros b k s s1 q [V1 [V2 [V3 V4]]] F L1 L2 G. assert (E : getp s1 q = getp s q) by (apply F; [apply V1|reflexivity]).
  unfold vok. rewrite E, G. split; [eapply good_same; eassumption|]. split; [lia|]. split.
  - intros Hn t Ht. destruct (V3 Hn t Ht) as [X Y]. assert (Et : getp s1 t = getp s t) by (apply F; [apply X|apply links_voices, Y]).
    split; [eapply good_same; eassumption|]. rewrite Et. exact Y.
  - intros n t Ht. destruct (V4 n t Ht) as [X Y]. assert (Et : getp s1 t = getp s t) by (apply F; [apply X|apply links_voices, Y]).
    split; [eapply good_same; eassumption|]. rewrite Et. exact Y.
Qed.

(** What fetching a voice of [p] does. *)
Record fetched (b : bool) (k : keysig) (p : pid) (s : score) (v : pid) (s1 : score) : Prop := Fetched {
  f_cur : current s1 = current s;
  f_glob : globals s1 = globals s;
  f_other : forall q, (q < List.length (heap s))%nat -> q <> p -> getp s1 q = getp s q;
  f_pv : pvoices (getp s1 p) = pvoices (getp s p);
  f_po : porigin (getp s1 p) = porigin (getp s p);
  f_len : (List.length (heap s) <= List.length (heap s1))%nat;
  f_vlen : List.length (vheap s1) = List.length (vheap s);
  f_getv : forall c, c <> pvoices (getp s p) -> getv s1 c = getv s c;
  f_vok : vok b k s1 v;
  f_vv : pvoices (getp s1 v) = pvoices (getp s p);
  f_vo : porigin (getp s1 v) = porigin (getp s p) }.

Lemma getp_old : forall s x q, (q < List.length (heap s))%nat -> getp (set_heap (heap s ++ [x]) s) q = getp s q.
Proof. intros s x q H. unfold getp. cbn. apply app_nth1, H. Qed.
Lemma getp_new : forall s x, getp (set_heap (heap s ++ [x]) s) (List.length (heap s)) = x.
Proof. intros s x. unfold getp. cbn. rewrite app_nth2, Nat.sub_diag by lia. reflexivity. Qed.
Lemma getv_setv_same : forall c x s, (c < List.length (vheap s))%nat -> getv (setv c x s) c = x.
Proof. intros c x s H. unfold getv, setv. cbn. apply nth_upd_same, H. Qed.
Lemma getv_setv_other : forall c d x s, c <> d -> getv (setv c x s) d = getv s d.
Proof. intros c d x s H. unfold getv, setv. cbn. apply nth_upd_other, H. Qed.

Lemma vok_same : forall b k s p v, vok b k s p -> good b k s v -> links (getp s v) = links (getp s p) -> vok b k s v.
Proof.
  intros b k s p v [V1 [V2 [V3 V4]]] G L. unfold vok. rewrite (links_voices _ _ L), (links_tmpl _ _ L), L. auto.
Qed.
Lemma aget_some_in : forall (n : Z) (l : list (Z * pid)) v, aget Z.eqb n l = Some v -> In (n, v) l.
Proof.
  induction l as [|[m w] l IH]; intros v H; [discriminate|]. cbn in H. destruct (Z.eqb m n) eqn:E.
  - apply Z.eqb_eq in E. inversion H. subst. left. reflexivity.
  - right. apply IH, H.
Qed.

(** Adding a voice to a group whose template is known. *)
Lemma grow_fetched : forall b k p n t s, vok b k s p -> ptmpl (getp s p) = Some t -> good b k s t -> links (getp s t) = links (getp s p) ->
  let v := List.length (heap s) in let s2 := snd (clone t s) in let cell := pvoices (getp s2 p) in
  fetched b k p s v (setv cell (getv s2 cell ++ [(n, v)]) s2).
Proof.
  intros b k p n t s V Ht Gt Lt. cbv zeta. unfold clone. cbn [snd]. destruct V as [V1 [V2 [V3 V4]]].
  set (x := set_povr None (getp s t)). set (s2 := set_heap (heap s ++ [x]) s).
  assert (Hp : getp s2 p = getp s p) by (apply getp_old, V1). rewrite Hp. set (cell := pvoices (getp s p)) in *.
  assert (Ev : getv s2 cell = getv s cell) by reflexivity. rewrite Ev. set (s3 := setv cell (getv s cell ++ [(n, List.length (heap s))]) s2).
  assert (Old : forall q, (q < List.length (heap s))%nat -> getp s3 q = getp s q) by (intros q H; apply (getp_old s x q H)).
  assert (New : getp s3 (List.length (heap s)) = x) by (apply (getp_new s x)).
  assert (L3 : List.length (heap s3) = S (List.length (heap s))) by (unfold s3, s2, setv; cbn; rewrite app_length; cbn; lia).
  assert (LV : List.length (vheap s3) = List.length (vheap s)) by (unfold s3, s2, setv; cbn; apply upd_nth_length).
  assert (Lx : links x = links (getp s p)) by (rewrite <- Lt; reflexivity).
  assert (Gx : good b k s3 (List.length (heap s))).
  { split; [rewrite L3; lia|]. rewrite New. destruct Gt as [_ Gt]. exact Gt. }
  assert (Cell : getv s3 cell = getv s cell ++ [(n, List.length (heap s))]) by (apply getv_setv_same; exact V2).
  assert (GO : forall q, good b k s q -> good b k s3 q) by (intros q G; eapply good_same; [exact G|apply Old, G|lia]).
  constructor; try reflexivity.
  - intros q Hq _. apply Old, Hq.
  - rewrite Old by apply V1. reflexivity.
  - rewrite Old by apply V1. reflexivity.
  - lia.
  - exact LV.
  - intros c Hc. apply (getv_setv_other cell c _ s2). intros X. apply Hc. symmetry. exact X.
  - unfold vok. rewrite New, (links_voices _ _ Lx), (links_tmpl _ _ Lx), Lx. fold cell. split; [exact Gx|]. split; [rewrite LV; exact V2|].
    rewrite Cell. split.
    + intros _ t' Ht'. rewrite Ht in Ht'. inversion Ht'. subst t'. split; [apply GO, Gt|]. rewrite Old by apply Gt. exact Lt.
    + intros m w Hw. apply in_app_or in Hw. destruct Hw as [Hw|[Hw|[]]].
      * destruct (V4 m w Hw) as [X Y]. split; [apply GO, X|]. rewrite Old by apply X. exact Y.
      * inversion Hw. subst. split; [exact Gx|]. rewrite New. exact Lx.
  - rewrite New. apply links_voices, Lx.
  - rewrite New. apply links_origin, Lx.
Qed.

Lemma get_voice_fetched : forall b k p n s v s1, vok b k s p -> get_voice p n s = ROk (v, s1) -> fetched b k p s v s1.
Proof.
  intros b k p n s v s1 V H. unfold get_voice in H. destruct (aget Z.eqb n (getv s (pvoices (getp s p)))) as [v0|] eqn:E.
  { inversion H. subst v0 s1. apply aget_some_in in E. destruct V as [V1 [V2 [V3 V4]]]. destruct (V4 n v E) as [G L].
    constructor; try reflexivity; try lia.
    - apply (vok_same b k s p v); [split; [exact V1|split; [exact V2|split; assumption]]|exact G|exact L].
    - apply links_voices, L.
    - apply links_origin, L. }
  clear E. unfold new_voice, has_voices in H. destruct (getv s (pvoices (getp s p))) as [|w l] eqn:C.
  - (* a new group *)
    destruct (ptmpl (getp s p)) as [t|] eqn:T; [discriminate H|]. unfold clone in H at 1. cbv beta iota zeta in H.
    set (t := List.length (heap s)) in *. set (x := set_povr None (getp s p)) in *. set (s2 := set_heap (heap s ++ [x]) s) in *.
    set (s3 := modp t (set_ptmpl (Some t)) s2) in *. set (s4 := modp p (set_ptmpl (Some t)) s3) in *. cbn [rbind] in H.
    destruct V as [V1 [V2 [V3 V4]]]. assert (Pt : (p < t)%nat) by apply V1.
    assert (L2 : List.length (heap s2) = S t) by (unfold s2, t; cbn; rewrite app_length; cbn; lia).
    assert (L3 : List.length (heap s3) = S t) by (unfold s3; rewrite heap_modp; exact L2).
    assert (L4 : List.length (heap s4) = S t) by (unfold s4; rewrite heap_modp; exact L3).
    assert (Gp : getp s4 p = set_ptmpl (Some t) (getp s p)).
    { unfold s4. rewrite getp_modp_same by lia. unfold s3. rewrite getp_modp_other by lia. f_equal. apply getp_old, Pt. }
    assert (Gt : getp s4 t = set_ptmpl (Some t) x).
    { unfold s4. rewrite getp_modp_other by lia. unfold s3. rewrite getp_modp_same by lia. f_equal. apply getp_new. }
    assert (Go : forall q, (q < t)%nat -> q <> p -> getp s4 q = getp s q).
    { intros q Hq Hn. unfold s4. rewrite getp_modp_other by congruence. unfold s3. rewrite getp_modp_other by lia. apply getp_old, Hq. }
    assert (Vh : vheap s4 = vheap s) by reflexivity.
    assert (Good4 : good b k s4 p).
    { split; [lia|]. rewrite Gp. apply V1. }
    assert (GoodT : good b k s4 t).
    { split; [lia|]. rewrite Gt. apply V1. }
    assert (LT : links (getp s4 t) = links (getp s4 p)) by (rewrite Gp, Gt; reflexivity).
    assert (PV : pvoices (getp s4 p) = pvoices (getp s p)) by (rewrite Gp; reflexivity).
    assert (GV : forall c, getv s4 c = getv s c) by (intros c; unfold getv; rewrite Vh; reflexivity).
    assert (PT : ptmpl (getp s4 p) = Some t) by (rewrite Gp; reflexivity).
    assert (V' : vok b k s4 p).
    { unfold vok. rewrite PV, GV, C, Vh, PT. split; [exact Good4|]. split; [exact V2|]. split; [congruence|]. intros m w []. }
    change (modp p (set_ptmpl (Some t)) (modp t (set_ptmpl (Some t)) s2)) with s4 in H.
    assert (CS : current s4 = current s) by reflexivity. assert (GS : globals s4 = globals s) by reflexivity. clearbody s4. rewrite PT in H. pose proof (grow_fetched b k p n t s4 V' PT GoodT LT) as G. cbv zeta in G.
    unfold clone in H, G. cbv beta iota in H. cbn [snd] in G. injection H as Ev Es.
    assert (G' : fetched b k p s4 v s1) by (subst v s1; exact G). clear G Es Ev. rename G' into G.
    destruct G as [g1 g2 g3 g4 g5 g6 g7 g8 g9 g10 g11].
    constructor; try assumption.
    + rewrite g1. exact CS.
    + rewrite g2. exact GS.
    + intros q Hq Hn. rewrite g3; [apply Go; assumption| rewrite L4; fold t in Hq; lia|exact Hn].
    + rewrite g4. exact PV.
    + rewrite g5, Gp. reflexivity.
    + fold t. lia.
    + rewrite g7, Vh. reflexivity.
    + intros c Hc. rewrite g8 by (rewrite PV; exact Hc). apply GV.
    + rewrite g10. exact PV.
    + rewrite g11, Gp. reflexivity.
  - (* one more voice *)
    cbn [rbind] in H. destruct (ptmpl (getp s p)) as [t|] eqn:T; [|discriminate H].
    pose proof V as V0. destruct V as [V1 [V2 [V3 V4]]]. destruct (V3 ltac:(rewrite C; discriminate) t T) as [Gt Lt].
    pose proof (grow_fetched b k p n t s V0 T Gt Lt) as G. cbv zeta in G.
    change (clone t s) with (List.length (heap s), snd (clone t s)) in H. cbv beta iota in H. inversion H. subst v. exact G.
Qed.

Lemma nodup_inj : forall A B (f : A -> B) l x y, NoDup (map f l) -> In x l -> In y l -> f x = f y -> x = y.
Proof.
  induction l as [|a l IH]; intros x y H Hx Hy E; [destruct Hx|]. cbn in H. inversion H as [|? ? H1 H2]. subst.
  destruct Hx as [->|Hx], Hy as [->|Hy]; auto.
  - exfalso. apply H1. rewrite E. apply in_map, Hy.
  - exfalso. apply H1. rewrite <- E. apply in_map, Hx.
Qed.

Lemma fetched_ready : forall b k p s v s1, ready b k s -> In p (current s) -> fetched b k p s v s1 ->
  ready b k (set_current (redirect s1 (porigin (getp s1 p)) v (current s1)) s1).
Proof.
  intros b k p s v s1 [G [V [D1 D2]]] Hp F. destruct F as [f1 f2 f3 f4 f5 f6 f7 f8 f9 f10 f11].
  assert (Same : forall q, In q (current s) -> porigin (getp s1 q) = porigin (getp s q) /\ pvoices (getp s1 q) = pvoices (getp s q)).
  { intros q Hq. destruct (Nat.eq_dec q p) as [->|Hn]; [split; assumption|]. rewrite f3; [auto|apply V, Hq|exact Hn]. }
  assert (Inj : forall q, In q (current s) -> porigin (getp s q) = porigin (getp s p) -> q = p).
  { intros q Hq E. apply (nodup_inj _ _ _ _ _ _ D1 Hq Hp E). }
  unfold redirect. split; [cbn; rewrite f2; exact G|]. rewrite f1, f5.
  split; [|split].
  - cbn [current set_current]. intros q Hq. apply in_map_iff in Hq. destruct Hq as [r [Hr Ir]].
    change (vok b k s1 q). destruct (Nat.eqb (porigin (getp s1 r)) (porigin (getp s p))) eqn:E; [subst q; exact f9|]. subst q.
    apply Nat.eqb_neq in E. destruct (Same r Ir) as [E1 E2]. rewrite E1 in E. assert (Hn : r <> p) by (intros ->; apply E; reflexivity).
    assert (Hv : pvoices (getp s r) <> pvoices (getp s p)) by (intros X; apply Hn; apply (nodup_inj _ _ _ _ _ _ D2 Ir Hp X)).
    apply (vok_frame b k s s1 r (V r Ir)); [|exact f6|lia|apply f8, Hv].
    intros w Hw Ew. apply f3; [exact Hw|]. intros ->. apply Hv. symmetry. exact Ew.
  - cbn [current set_current]. rewrite map_map. rewrite (map_ext_in _ (fun q => porigin (getp s q))); [exact D1|].
    intros q Hq. change (getp (set_current ?x s1)) with (getp s1). destruct (Same q Hq) as [E1 E2].
    destruct (Nat.eqb (porigin (getp s1 q)) (porigin (getp s p))) eqn:E; [|exact E1]. apply Nat.eqb_eq in E. transitivity (porigin (getp s1 v)); [reflexivity|]. congruence.
  - cbn [current set_current]. rewrite map_map. rewrite (map_ext_in _ (fun q => pvoices (getp s q))); [exact D2|].
    intros q Hq. destruct (Same q Hq) as [E1 E2].
    destruct (Nat.eqb (porigin (getp s1 q)) (porigin (getp s p))) eqn:E; [|exact E2]. apply Nat.eqb_eq in E. transitivity (pvoices (getp s1 v)); [reflexivity|].
    rewrite f10. rewrite E1 in E. rewrite (Inj q Hq E). reflexivity.
Qed.

Lemma run_voice_ready : forall b k n s s', ready b k s -> run_voice n s = (s', Ok) -> ready b k s'.
Proof.
  intros b k n s s'. unfold run_voice. generalize (List.length (current s)) as c, 0%nat as i. intros c. revert s.
  induction c as [|c IH]; intros s i Rd H; cbn [voice_loop] in H; [inversion H; subst; exact Rd|].
  destruct (nth_error (current s) i) as [p|] eqn:E; [|inversion H; subst; exact Rd]. apply nth_error_In in E.
  destruct (get_voice p n s) as [[v s1]|m|m] eqn:G; [|discriminate H|discriminate H].
  eapply IH; [|exact H]. eapply fetched_ready; [exact Rd|exact E|]. eapply get_voice_fetched; [apply Rd, E|exact G].
Qed.

(* ------------------------- the end of the voices ------------------------- *)

Lemma last_in : forall s (vs : list (Z * pid)) d, vs <> [] -> exists n, In (n, last_to_finish s vs d) vs.
Proof.
  intros s vs d H. unfold last_to_finish.
  assert (X : exists n, In (n, snd (last vs (0%Z, d))) vs).
  { exists (fst (last vs (0%Z, d))). rewrite <- surjective_pairing. destruct (exists_last H) as [l [a ->]]. rewrite last_last. apply in_or_app. right. left. reflexivity. }
  assert (Y : forall x, In x (removelast vs) -> In x vs).
  { intros x Hx. rewrite (app_removelast_last (0%Z, d) H). apply in_or_app. left. exact Hx. }
  revert X Y. generalize (snd (last vs (0%Z, d))). induction (removelast vs) as [|x l IH]; intros y X Y; [exact X|]. cbn [fold_left]. apply IH.
  - destruct (nltb _ _); [|exact X]. exists (fst x). rewrite <- surjective_pairing. apply Y. left. reflexivity.
  - intros z Hz. apply Y. right. exact Hz.
Qed.

Lemma nth_upd_in : forall (l : list pid) i j x q, nth_error (upd_nth i x l) j = Some q -> (j = i /\ q = x) \/ (j <> i /\ nth_error l j = Some q).
Proof.
  induction l as [|a l IH]; intros i j x q H; [destruct i, j; discriminate H|].
  destruct i as [|i], j as [|j]; cbn in H.
  - left. inversion H. auto.
  - right. cbn. split; [discriminate|exact H].
  - right. cbn. split; [discriminate|exact H].
  - destruct (IH i j x q H) as [[A B]|[A B]]; [left; auto|right; split; [lia|exact B]].
Qed.
Lemma nodup_index : forall A B (f : A -> B) l i j x y, NoDup (map f l) -> nth_error l i = Some x -> nth_error l j = Some y -> f x = f y -> i = j.
Proof.
  intros A B f l i j x y H Hi Hj E. rewrite NoDup_nth_error in H. apply H.
  - rewrite map_length. apply nth_error_Some. congruence.
  - rewrite !nth_error_map, Hi, Hj. cbn. congruence.
Qed.
Lemma lists_ext : forall A (l m : list A), (forall j, nth_error l j = nth_error m j) -> l = m.
Proof.
  induction l as [|a l IH]; intros [|c m] H; [reflexivity|specialize (H 0%nat); discriminate H|specialize (H 0%nat); discriminate H|].
  pose proof (H 0%nat) as E. inversion E. f_equal. apply IH. intros j. apply (H (S j)).
Qed.
Lemma nodup_upd : forall A (l : list A) i x, NoDup l -> ~ In x l -> NoDup (upd_nth i x l).
Proof.
  induction l as [|a l IH]; intros i x H Hx; [destruct i; constructor|]. inversion H as [|? ? H1 H2]. subst. destruct i as [|i]; cbn.
  - constructor; [|exact H2]. intros X. apply Hx. right. exact X.
  - constructor; [|apply IH; [exact H2|intros X; apply Hx; right; exact X]].
    intros X. apply in_upd_nth in X. destruct X as [->|X]; [apply Hx; left; reflexivity|apply H1, X].
Qed.
Definition closed_below (i : nat) (s : score) : Prop :=
  forall j q, (j < i)%nat -> nth_error (current s) j = Some q -> getv s (pvoices (getp s q)) = [].

Lemma voice_end_one_ready : forall b k i p s, ready b k s -> nth_error (current s) i = Some p -> closed_below i s ->
  ready b k (voice_end_one i p s) /\ closed_below (S i) (voice_end_one i p s) /\ List.length (current (voice_end_one i p s)) = List.length (current s).
Proof.
  intros b k i p s Rd Hi Cl. pose proof Rd as [G [V [D1 D2]]]. assert (Ip : In p (current s)) by (eapply nth_error_In; exact Hi).
  destruct (V p Ip) as [V1 [V2 [V3 V4]]].
  unfold voice_end_one. destruct (getv s (pvoices (getp s p))) as [|x l] eqn:C.
  { split; [exact Rd|]. split; [|reflexivity]. intros j q Hj Hq. destruct (Nat.eq_dec j i) as [->|Hn].
    - rewrite Hi in Hq. inversion Hq. subst. exact C.
    - apply (Cl j q); [lia|exact Hq]. }
  destruct (last_in s (x :: l) p ltac:(discriminate)) as [n Hn]. set (lv := last_to_finish s (x :: l) p) in *.
  destruct (V4 n lv Hn) as [Gl Ll].
  set (cell := List.length (vheap s)). cbv zeta.
  set (s1 := set_vheap (vheap s ++ [[]]) s). set (s2 := modp lv (fun q => set_ptmpl None (set_pvoices cell q)) s1).
  match goal with |- ready b k ?e /\ _ => set (s5 := e) end.
  assert (Gp : forall q, getp s5 q = getp s2 q) by reflexivity.
  assert (Gv : forall c, getv s5 c = nth c (vheap s ++ [[]]) []) by reflexivity.
  assert (Gl5 : getp s5 lv = set_ptmpl None (set_pvoices cell (getp s lv))) by (rewrite Gp; unfold s2; rewrite getp_modp_same by apply Gl; reflexivity).
  assert (Go5 : forall q, q <> lv -> getp s5 q = getp s q) by (intros q Hq; rewrite Gp; unfold s2; rewrite getp_modp_other by congruence; reflexivity).
  assert (Cu : current s5 = upd_nth i lv (current s)) by reflexivity.
  assert (Lh : List.length (heap s5) = List.length (heap s)) by (change (heap s5) with (heap s2); unfold s2; rewrite heap_modp; reflexivity).
  assert (Vh : vheap s5 = vheap s ++ [[]]) by reflexivity.
  assert (LV : List.length (vheap s5) = S cell) by (rewrite Vh, app_length; cbn; unfold cell; lia).
  assert (Old : forall c, (c < cell)%nat -> getv s5 c = getv s c) by (intros c Hc; rewrite Gv; apply app_nth1, Hc).
  assert (New : getv s5 cell = []) by (rewrite Gv, app_nth2 by (unfold cell; lia); unfold cell; rewrite Nat.sub_diag; reflexivity).
  assert (Far : forall j q, j <> i -> nth_error (current s) j = Some q -> pvoices (getp s q) <> pvoices (getp s p)).
  { intros j q Hj Hq E. apply Hj. apply (nodup_index _ _ _ _ _ _ _ _ D2 Hq Hi E). }
  assert (PvL : pvoices (getp s5 lv) = cell) by (rewrite Gl5; reflexivity).
  assert (FarL : forall r, pvoices (getp s r) <> pvoices (getp s p) -> getp s5 r = getp s r).
  { intros r Hr. apply Go5. intros ->. apply Hr, links_voices, Ll. }
  assert (Vl : vok b k s5 lv).
  { unfold vok. rewrite PvL, New. split; [|split; [lia|split; [congruence|intros ? ? []]]].
    split; [rewrite Lh; apply Gl|]. rewrite Gl5. apply Gl. }
  assert (Gl0 : globals s5 = globals s) by reflexivity.
  clearbody s5. split; [|split].
  - split; [|split; [|split]].
    + rewrite Gl0. exact G.
    + rewrite Cu. intros q Hq. apply In_nth_error in Hq. destruct Hq as [j Hq]. apply nth_upd_in in Hq. destruct Hq as [[_ ->]|[Hj Hq]]; [exact Vl|].
      assert (Iq : In q (current s)) by (eapply nth_error_In; exact Hq). pose proof (Far j q Hj Hq) as F.
      apply (vok_frame b k s s5 q (V q Iq)); [|lia|lia|apply Old; apply (V q Iq)].
      intros r _ Er. apply FarL. congruence.
    + assert (E : map (fun q => porigin (getp s5 q)) (current s5) = map (fun q => porigin (getp s q)) (current s)); [|rewrite E; exact D1].
      assert (Po : forall q, porigin (getp s5 q) = porigin (getp s q)).
      { intros q. destruct (Nat.eq_dec q lv) as [->|Hq]; [rewrite Gl5; reflexivity|rewrite Go5 by exact Hq; reflexivity]. }
      rewrite (map_ext _ _ Po), Cu, upd_nth_map, (links_origin _ _ Ll). apply upd_nth_self. rewrite nth_error_map, Hi. reflexivity.
    + assert (E : map (fun q => pvoices (getp s5 q)) (current s5) = upd_nth i cell (map (fun q => pvoices (getp s q)) (current s))).
      { apply lists_ext. intros j. rewrite nth_error_map, Cu.
        destruct (nth_error (upd_nth i lv (current s)) j) as [q|] eqn:E.
        - apply nth_upd_in in E. destruct E as [[-> ->]|[Hj Hq]]; cbn [option_map].
          + rewrite PvL. symmetry. apply nth_error_upd_same. rewrite map_length. apply nth_error_Some. congruence.
          + rewrite FarL by (eapply Far; eassumption). rewrite nth_error_upd_other by congruence. rewrite nth_error_map, Hq. reflexivity.
        - cbn [option_map]. symmetry. apply nth_error_None. apply nth_error_None in E. rewrite upd_nth_length in *. rewrite map_length. exact E. }
      rewrite E. apply nodup_upd; [exact D2|]. intros X. apply in_map_iff in X. destruct X as [q [Eq Iq]]. destruct (V q Iq) as [_ [X _]]. unfold cell in Eq. lia.
  - intros j q Hj Hq. rewrite Cu in Hq. apply nth_upd_in in Hq. destruct Hq as [[_ ->]|[Hn' Hq]]; [rewrite PvL; exact New|].
    rewrite FarL by (eapply Far; eassumption). assert (Iq : In q (current s)) by (eapply nth_error_In; exact Hq).
    rewrite Old by apply (V q Iq). apply (Cl j q); [lia|exact Hq].
  - rewrite Cu. apply upd_nth_length.
Qed.

Lemma run_voice_end_closed : forall b k s, ready b k s -> closed b k (run_voice_end s).
Proof.
  intros b k s Rd. unfold run_voice_end.
  assert (X : forall c i s, (i + c = List.length (current s))%nat -> ready b k s -> closed_below i s -> closed b k (voice_end_loop i c s)).
  { induction c as [|c IH]; intros i s0 L R0 C; cbn [voice_end_loop].
    - split; [exact R0|]. intros p Hp. apply In_nth_error in Hp. destruct Hp as [j Hj]. apply (C j p); [|exact Hj].
      assert (j < List.length (current s0))%nat by (apply nth_error_Some; congruence). lia.
    - destruct (nth_error (current s0) i) as [p|] eqn:E.
      + destruct (voice_end_one_ready b k i p s0 R0 E C) as [A [B D]]. apply IH; [lia|exact A|exact B].
      + apply nth_error_None in E. lia. }
  apply X; [reflexivity|exact Rd|]. intros j q Hj. lia.
Qed.

(* ------------------------- attributes between voices ------------------------- *)

Lemma key_closed : forall b k k' s, closed b k s -> exists s', run_attr (PKey k') s = (s', Ok) /\ closed b k' s'.
Proof.
  intros b k k' s [[G [V [D1 D2]]] C]. destruct (run_attr_same (PKey k') s) as [A1 [A2 [A3 [_ A5]]]].
  assert (K : keeps links s (fst (run_attr (PKey k') s))) by (apply run_attr_keeps; [intros p v Hv; inversion Hv; reflexivity|reflexivity]).
  assert (S : keeps pstock s (fst (run_attr (PKey k') s))) by (apply run_attr_keeps; [intros p v Hv; inversion Hv; reflexivity|reflexivity]).
  assert (X : snd (run_attr (PKey k') s) = Ok /\ forall p, In p (current s) -> pkey (getp (fst (run_attr (PKey k') s)) p) = k').
  { assert (Y : forall l s0, (forall p, In p l -> (p < List.length (heap s0))%nat) -> let r := each (fun p s => seqo (do_update_part (PKey k') false p s) (fun s => (modp p (set_povr (Some (PKey k'))) s, Ok))) l s0 in
       snd r = Ok /\ (forall p, In p l -> pkey (getp (fst r) p) = k') /\ (forall p, pkey (getp s0 p) = k' -> pkey (getp (fst r) p) = k')).
    { induction l as [|p l IH]; intros s0 H0; cbv zeta; [cbn; intuition|]. cbn [each]. unfold do_update_part at 1 3 5. cbn [update_part seqo].
      set (s1 := modp p (set_povr (Some (PKey k'))) (setp p (set_pkey k' (getp s0 p)) s0)).
      assert (L : List.length (heap s1) = List.length (heap s0)) by (unfold s1; rewrite heap_modp, heap_setp; reflexivity).
      assert (Kp : pkey (getp s1 p) = k').
      { unfold s1. rewrite getp_modp_same by (rewrite heap_setp; apply H0; left; reflexivity). rewrite getp_setp_same by (apply H0; left; reflexivity). reflexivity. }
      assert (Ko : forall q, pkey (getp s0 q) = k' -> pkey (getp s1 q) = k').
      { intros q Hq. destruct (Nat.eq_dec q p) as [->|Hn]; [exact Kp|]. unfold s1. rewrite getp_modp_other, getp_setp_other by congruence. exact Hq. }
      destruct (IH s1) as [B1 [B2 B3]]; [intros q Hq; rewrite L; apply H0; right; exact Hq|].
      split; [exact B1|]. split.
      - intros q [->|Hq]; [apply B3, Kp|apply B2, Hq].
      - intros q Hq. apply B3, Ko, Hq. }
    destruct (Y (current s) s) as [B1 [B2 _]]; [intros p Hp; apply V, Hp|]. split; assumption. }
  destruct X as [X1 X2]. destruct (run_attr (PKey k') s) as [s' o]. cbn [fst snd] in *. subst o. exists s'. split; [reflexivity|].
  assert (Cl : forall p, In p (current s) -> getv s' (pvoices (getp s' p)) = []).
  { intros p Hp. rewrite (links_voices _ _ (K p)). unfold getv. rewrite A5. apply C, Hp. }
  split; [|intros p Hp; rewrite A1 in Hp; apply Cl, Hp]. split; [rewrite A3; exact G|]. rewrite A1.
  split; [|split].
  - intros p Hp. unfold vok. rewrite (Cl p Hp), (links_voices _ _ (K p)), A5. destruct (V p Hp) as [[V1 [V2 V3]] [V4 _]].
    split; [|split; [exact V4|split; [congruence|intros ? ? []]]]. split; [rewrite A2; exact V1|]. split; [apply X2, Hp|]. rewrite S. exact V3.
  - rewrite (map_ext _ (fun p => porigin (getp s p))); [exact D1|]. intros p. apply links_origin, K.
  - rewrite (map_ext _ (fun p => pvoices (getp s p))); [exact D2|]. intros p. apply links_voices, K.
Qed.
Lemma transp_kept : forall n s, kept s (fst (run_attr (PTransp n) s)).
Proof.
  intros n s. destruct (run_attr_same (PTransp n) s) as [A1 [A2 [A3 [_ A5]]]].
  constructor; auto; apply run_attr_keeps; try reflexivity; intros p v Hv; inversion Hv; reflexivity.
Qed.
End Ready.
