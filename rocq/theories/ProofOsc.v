(** Transmissions (C29-C34). *)
From Coq Require Import ZArith QArith Qcanon List String Bool Permutation Sorted Lia Arith.
From Coq Require Import SpecFloat.
From Verif Require Import Base Num ModelPitch ModelDuration ModelInstruments ModelTypes ModelLisp
  ModelScore ModelOsc SpecScore SpecVars SpecParts SpecSolo SpecTiming SpecGlobals SpecOsc ProofHeap ProofNum ProofGlobals.
Import ListNotations.
Local Open Scope list_scope.
Local Open Scope Z_scope.

Section Osc.
Context {N : Num}.

(* ---------------- the time range ---------------- *)

Fixpoint note_run (s : score) (start : num) (sync : list (pid * num)) (c : channels) (l : list note_event)
  : channels * list msg :=
  match l with
  | [] => (c, [])
  | e :: t => let (c1, m1) := note_step s start sync c e in
              let (c2, m2) := note_run s start sync c1 t in (c2, m1 ++ m2)
  end.

Lemma not_lt_le : linear_order -> forall a b, nisnan a = false -> nisnan b = false -> nltb a b = false -> nleb b a = true.
Proof. intros LO a b. apply (lo_total LO). Qed.
Lemma le_not_lt : linear_order -> forall a b, nleb a b = true -> nltb b a = false.
Proof. intros LO a b H. apply (lo_le LO a b H). Qed.
Lemma lt_iff : linear_order -> forall a b, nisnan a = false -> nisnan b = false -> nltb a b = negb (nleb b a).
Proof.
  intros LO a b Ha Hb. destruct (nltb a b) eqn:E.
  - destruct (lo_lt LO a b E) as [_ ->]. reflexivity.
  - rewrite (lo_total LO a b Ha Hb E). reflexivity.
Qed.

Lemma loop_run : linear_order -> forall s start stop sync l c,
  nisnan start = false -> nisnan stop = false -> (forall e, In e l -> nisnan (ev_off e) = false) ->
  StronglySorted (fun a b => nltb (ev_off b) (ev_off a) = false) l ->
  note_loop s start stop sync c l = note_run s start sync c (filter (in_range start stop) l).
Proof.
  intros LO s start stop sync l. induction l as [|e t IH]; intros c Hs Ht Hl S; [reflexivity|].
  inversion S as [|? ? S1 S2]; subst. cbn [note_loop filter].
  assert (He : nisnan (ev_off e) = false) by (apply Hl; left; reflexivity).
  assert (Hl' : forall x, In x t -> nisnan (ev_off x) = false) by (intros; apply Hl; right; assumption).
  unfold in_range at 1. rewrite (lt_iff LO (ev_off e) start He Hs), (lt_iff LO (ev_off e) stop He Ht).
  destruct (nleb start (ev_off e)) eqn:E1; cbn [negb andb]; [|apply IH; assumption].
  destruct (nleb stop (ev_off e)) eqn:E2; cbn [negb].
  - replace (filter (in_range start stop) t) with (@nil note_event); [reflexivity|].
    clear IH Hl S S1. symmetry. induction t as [|x t IHt]; [reflexivity|]. cbn [filter]. inversion S2 as [|? ? S3 S4]; subst.
    assert (H : nleb stop (ev_off x) = true).
    { eapply (lo_trans LO); [exact E2|]. apply (lo_total LO); [apply Hl'; left; reflexivity|exact He|exact S3]. }
    unfold in_range at 1. rewrite (lt_iff LO (ev_off x) stop) by (try exact Ht; apply Hl'; left; reflexivity). rewrite H, andb_false_r.
    apply IHt; [exact S4|]. intros y Hy; apply Hl'; right; exact Hy.
  - cbn [note_run]. destruct (note_step s start sync c e) as [c1 m1]. rewrite IH by assumption. reflexivity.
Qed.

(* ---------------- the messages ---------------- *)

Lemma last_on_app : forall ch l e, last_on ch (l ++ [e]) = if ev_chan e =? ch then Some e else last_on ch l.
Proof. intros ch l e. unfold last_on. rewrite fold_left_app. reflexivity. Qed.

Record agree (s : score) (c : channels) (pre : list note_event) : Prop := Agree {
  ag_patch : forall ch, ch <> 9 -> aget Z.eqb ch (ch_patch c) = option_map (patch_of s) (last_on ch pre);
  ag_vol : forall ch x, changed neqb (aget Z.eqb ch (ch_vol c)) x = changed neqb (option_map ev_tvol (last_on ch pre)) x;
  ag_pan : forall ch x, changed neqb (aget Z.eqb ch (ch_pan c)) x = changed neqb (option_map ev_pan (last_on ch pre)) x }.

Lemma neqb_cong : linear_order -> forall x a b, neqb a b = true -> neqb x a = neqb x b.
Proof.
  intros LO x a b H. apply Bool.eq_iff_eq_true. rewrite !(lo_eq LO). apply (lo_eq LO) in H. destruct H as [H1 H2].
  split; intros [A B]; split.
  - eapply (lo_trans LO); eassumption.
  - eapply (lo_trans LO); eassumption.
  - eapply (lo_trans LO); eassumption.
  - eapply (lo_trans LO); eassumption.
Qed.

Lemma changed_set : linear_order -> forall (f : note_event -> num) m pre e,
  (forall ch x, changed neqb (aget Z.eqb ch m) x = changed neqb (option_map f (last_on ch pre)) x) ->
  forall ch x, changed neqb (aget Z.eqb ch (if changed neqb (aget Z.eqb (ev_chan e) m) (f e) then aset Z.eqb (ev_chan e) (f e) m else m)) x
             = changed neqb (option_map f (last_on ch (pre ++ [e]))) x.
Proof.
  intros LO f m pre e H ch x. rewrite last_on_app. destruct (ev_chan e =? ch) eqn:E.
  - apply Z.eqb_eq in E. subst ch. destruct (changed neqb (aget Z.eqb (ev_chan e) m) (f e)) eqn:C.
    + rewrite aget_aset_same by apply Z.eqb_refl. reflexivity.
    + cbn [option_map changed]. destruct (aget Z.eqb (ev_chan e) m) as [y|]; [|discriminate]. cbn [changed] in *.
      apply negb_false_iff in C. rewrite (neqb_cong LO x (f e) y C). reflexivity.
  - apply Z.eqb_neq in E. rewrite <- H. destruct (changed neqb (aget Z.eqb (ev_chan e) m) (f e)); [|reflexivity].
    rewrite aget_aset_other; [reflexivity|intros; apply Z.eqb_eq|exact E].
Qed.

Lemma differs_changed : forall A (eqb : A -> A -> bool) f prev e, differs eqb f prev e = changed eqb (option_map f prev) (f e).
Proof. intros A eqb f [p|] e; reflexivity. Qed.

Lemma step_sends : linear_order -> forall s start sync c pre e, agree s c pre ->
  agree s (fst (note_step s start sync c e)) (pre ++ [e]) /\
  snd (note_step s start sync c e) ++ [] = sends s start sync pre [e] /\
  ch_len (fst (note_step s start sync c e)) = nmax (ch_len c) (nadd (relative start sync e) (ev_aud e)).
Proof.
  intros LO s start sync c pre e [A1 A2 A3]. split; [|split; [|reflexivity]].
  - constructor; cbn [note_step fst ch_patch ch_vol ch_pan].
    + intros ch Hch. rewrite last_on_app. destruct (ev_chan e =? ch) eqn:E.
      * apply Z.eqb_eq in E. subst ch. apply Z.eqb_neq in Hch. rewrite Hch. cbn [negb andb].
        fold (patch_of s e). destruct (changed Z.eqb _ _) eqn:C.
        -- rewrite aget_aset_same by apply Z.eqb_refl. reflexivity.
        -- destruct (aget Z.eqb (ev_chan e) (ch_patch c)) as [y|]; [|discriminate]. cbn [changed] in C. apply negb_false_iff in C.
           apply Z.eqb_eq in C. rewrite <- C. reflexivity.
      * apply Z.eqb_neq in E. rewrite <- A1 by exact Hch. destruct (_ && _); [|reflexivity].
        rewrite aget_aset_other; [reflexivity|intros; apply Z.eqb_eq|exact E].
    + apply changed_set; assumption.
    + apply changed_set; assumption.
  - rewrite app_nil_r. cbn [note_step snd sends]. rewrite !differs_changed, <- A2, <- A3. fold (patch_of s e).
    destruct (ev_chan e =? 9) eqn:E9; cbn [negb andb]; [reflexivity|]. apply Z.eqb_neq in E9. rewrite <- (A1 _ E9). reflexivity.
Qed.

Lemma sends_cons : forall s start sync pre e l, sends s start sync pre (e :: l) = sends s start sync pre [e] ++ sends s start sync (pre ++ [e]) l.
Proof. intros. cbn [sends]. rewrite <- !app_assoc. cbn [app]. reflexivity. Qed.

Lemma run_sends : linear_order -> forall s start sync l c pre, agree s c pre ->
  snd (note_run s start sync c l) = sends s start sync pre l /\
  ch_len (fst (note_run s start sync c l)) = fold_left (fun m e => nmax m (nadd (relative start sync e) (ev_aud e))) l (ch_len c).
Proof.
  intros LO s start sync l. induction l as [|e t IH]; intros c pre A; [split; reflexivity|].
  cbn [note_run]. destruct (step_sends LO s start sync c pre e A) as (A1 & A2 & A3).
  destruct (note_step s start sync c e) as [c1 m1]. cbn [fst snd] in *. destruct (IH c1 (pre ++ [e]) A1) as [B1 B2].
  destruct (note_run s start sync c1 t) as [c2 m2]. cbn [fst snd] in *. split.
  - rewrite sends_cons, <- A2, B1, app_nil_r. reflexivity.
  - rewrite B2, A3. reflexivity.
Qed.

(** What a transmission consists of. *)
Definition ending (t : transmission) (start : num) (es : list note_event) : list msg :=
  (if t_load t then [] else [MPlay]) ++
  (if t_oneoff t then [MShutdown (nround32 (nadd (fold_left (fun m e => nmax m (nadd (relative start (t_sync t) e) (ev_aud e))) es n0) (nofZ 10000)))] else []).

Lemma filter_perm : forall A (f : A -> bool) l l', Permutation l l' -> Permutation (filter f l) (filter f l').
Proof.
  intros A f l l' H. induction H; cbn [filter].
  - constructor.
  - destruct (f x); [constructor; assumption|assumption].
  - destruct (f x), (f y); try constructor; try apply Permutation_refl.
  - eapply perm_trans; eassumption.
Qed.
Lemma sorted_filter : forall A (R : A -> A -> Prop) f l, StronglySorted R l -> StronglySorted R (filter f l).
Proof.
  intros A R f l H. induction H as [|x l H IH F]; cbn [filter]; [constructor|].
  destruct (f x); [|exact IH]. constructor; [exact IH|]. rewrite Forall_forall in *. intros y Hy. apply F. apply filter_In in Hy. apply Hy.
Qed.
Lemma slice_in : forall A lo hi (l : list A) x, In x (slice lo hi l) -> In x l.
Proof.
  intros A lo hi l x H. unfold slice in H. rewrite <- (firstn_skipn lo l). apply in_or_app. right.
  rewrite <- (firstn_skipn (hi - lo) (skipn lo l)). apply in_or_app. left. exact H.
Qed.

Lemma bundle : linear_order -> forall t s s' b start stop notes, transmits t s s' (ROk b) -> asked t s start stop notes ->
  exists es, Permutation notes es /\ StronglySorted (fun a b => nltb (ev_off b) (ev_off a) = false) es /\
    b = (if nonempty (t_sync t) then [] else tempo_messages s start stop) ++ sends s start (t_sync t) [] es ++ ending t start es.
Proof.
  intros LO t s s' b start stop notes H [T (lo & hi & E & ->) (R1 & R2 & R3)].
  inversion H as [lo' hi' start' stop' sorted H1 H2 H3 H4 H5| |]; subst.
  assert (start' = start /\ stop' = stop) as [-> ->] by (split; congruence).
  assert (lo' = lo /\ hi' = hi) as [-> ->] by (split; congruence).
  destruct H3 as [P S].
  assert (Hn : forall e, In e (slice lo hi (events s)) -> nisnan (ev_off e) = false) by (intros e He; apply R3; eapply slice_in; exact He).
  specialize (S Hn). exists (filter (in_range start stop) sorted). split; [apply filter_perm; exact P|].
  split; [apply sorted_filter; exact S|]. unfold bundle_of.
  assert (Hn' : forall e, In e sorted -> nisnan (ev_off e) = false).
  { intros e He. apply Hn. eapply Permutation_in; [apply Permutation_sym; exact P|exact He]. }
  rewrite (loop_run LO) by assumption.
  destruct (run_sends LO s start (t_sync t) (filter (in_range start stop) sorted) (Channels [] [] [] n0) []) as [A B].
  { constructor; reflexivity. }
  destruct (note_run _ _ _ _ _) as [c m]. cbn [fst snd] in *. subst m. unfold ending. rewrite B. reflexivity.
Qed.

(* ---------------- kinds of messages ---------------- *)

Lemma tempo_loop_kind : forall it first start stop l m, In m (tempo_loop it first start stop l) -> is_tempo m = true.
Proof.
  intros it first start stop l. induction l as [|o l IH]; intros m H; [destruct H|]. cbn [tempo_loop] in H.
  destruct (nltb o first); [apply IH; exact H|]. destruct (nleb stop o); [destruct H|]. destruct H as [<-|H]; [reflexivity|apply IH; exact H].
Qed.
Lemma tempo_kind : forall s start stop m, In m (tempo_messages s start stop) -> is_tempo m = true.
Proof. intros s start stop m H. eapply tempo_loop_kind. exact H. Qed.
Lemma sends_kind : forall s start sync l pre m, In m (sends s start sync pre l) -> is_note m || is_control m = true.
Proof.
  intros s start sync l. induction l as [|e l IH]; intros pre m H; [destruct H|]. cbn [sends] in H.
  repeat match type of H with In _ (_ ++ _) => apply in_app_or in H; destruct H as [H|H] end; try (eapply IH; exact H).
  - destruct (_ && _); [|destruct H]. destruct H as [<-|[]]. reflexivity.
  - destruct (differs _ _ _ _); [|destruct H]. destruct H as [<-|[]]. reflexivity.
  - destruct (differs _ _ _ _); [|destruct H]. destruct H as [<-|[]]. reflexivity.
  - destruct H as [<-|[]]. reflexivity.
Qed.

Lemma filter_nil : forall A (f : A -> bool) l, (forall x, In x l -> f x = false) -> filter f l = [].
Proof. intros A f l H. induction l as [|x l IH]; [reflexivity|]. cbn [filter]. rewrite H by (left; reflexivity). apply IH. intros; apply H; right; assumption. Qed.
Lemma filter_all : forall A (f : A -> bool) l, (forall x, In x l -> f x = true) -> filter f l = l.
Proof. intros A f l H. induction l as [|x l IH]; [reflexivity|]. cbn [filter]. rewrite H by (left; reflexivity). f_equal. apply IH. intros; apply H; right; assumption. Qed.

Lemma ending_kind : forall t start es m, In m (ending t start es) -> is_note m = false /\ is_control m = false /\ is_tempo m = false.
Proof.
  intros t start es m H. unfold ending in H. apply in_app_or in H. destruct H as [H|H].
  - destruct (t_load t); [destruct H|]. destruct H as [<-|[]]. auto.
  - destruct (t_oneoff t); [|destruct H]. destruct H as [<-|[]]. auto.
Qed.

Lemma sends_notes : forall s start sync l pre, filter is_note (sends s start sync pre l) = map (note_message s start sync) l.
Proof.
  intros s start sync l. induction l as [|e l IH]; intros pre; [reflexivity|]. cbn [sends map]. rewrite !filter_app, IH.
  replace (filter is_note (if negb (ev_chan e =? 9) && differs Z.eqb (patch_of s) (last_on (ev_chan e) pre) e then _ else [])) with (@nil msg) by (destruct (_ && _); reflexivity).
  replace (filter is_note (if differs neqb ev_tvol _ e then _ else [])) with (@nil msg) by (destruct (differs neqb ev_tvol _ e); reflexivity).
  replace (filter is_note (if differs neqb ev_pan _ e then _ else [])) with (@nil msg) by (destruct (differs neqb ev_pan _ e); reflexivity).
  reflexivity.
Qed.

Lemma c29 : linear_order -> forall t s s' b start stop notes, transmits t s s' (ROk b) -> asked t s start stop notes ->
  Permutation (filter is_note b) (map (note_message s start (t_sync t)) notes).
Proof.
  intros LO t s s' b start stop notes H A. destruct (bundle LO _ _ _ _ _ _ _ H A) as (es & P & _ & ->).
  rewrite !filter_app, sends_notes.
  rewrite (filter_nil _ is_note (ending _ _ _)) by (intros m Hm; apply (ending_kind _ _ _ _ Hm)).
  replace (filter is_note (if nonempty (t_sync t) then [] else tempo_messages s start stop)) with (@nil msg).
  - rewrite app_nil_r. apply Permutation_map. apply Permutation_sym. exact P.
  - destruct (nonempty (t_sync t)); [reflexivity|]. symmetry. apply filter_nil. intros m Hm. apply tempo_kind in Hm. destruct m; try discriminate; reflexivity.
Qed.

(* ---------------- controls ---------------- *)

Lemma latest_app : forall A (f : msg -> option A) l m, latest f (l ++ [m]) = match f m with Some x => Some x | None => latest f l end.
Proof. intros A f l m. unfold latest. rewrite fold_left_app. reflexivity. Qed.
Lemma latest_none : forall A (f : msg -> option A) l, (forall m, In m l -> f m = None) -> latest f l = None.
Proof.
  intros A f l. induction l as [|m l IH] using rev_ind; intros H; [reflexivity|].
  rewrite latest_app, H by (apply in_or_app; right; left; reflexivity). apply IH. intros x Hx. apply H. apply in_or_app. left; exact Hx.
Qed.
Lemma heard_app : forall l l' pre, heard pre (l ++ l') = heard pre l ++ heard (pre ++ l) l'.
Proof.
  induction l as [|m l IH]; intros l' pre; cbn [heard app]; [rewrite app_nil_r; reflexivity|].
  rewrite IH, <- !app_assoc. reflexivity.
Qed.
Lemma heard_nil : forall l pre, (forall m, In m l -> is_note m = false) -> heard pre l = [].
Proof.
  induction l as [|m l IH]; intros pre H; [reflexivity|]. cbn [heard]. rewrite IH by (intros; apply H; right; assumption).
  pose proof (H m (or_introl eq_refl)). destruct m; try discriminate; reflexivity.
Qed.

Lemma in_if : forall A (b : bool) (x m : A), In m (if b then [x] else []) -> m = x.
Proof. intros A [] x m H; [destruct H as [H|[]]; symmetry; exact H|destruct H]. Qed.

Record told (s : score) (mp : list msg) (pre : list note_event) : Prop := Told {
  to_patch : forall ch, ch <> 9 -> latest (patch_on ch) mp = option_map (patch_of s) (last_on ch pre);
  to_vol : forall ch, latest (volume_on ch) mp = option_map (fun e => level (ev_tvol e)) (last_on ch pre);
  to_pan : forall ch, latest (panning_on ch) mp = option_map (fun e => level (ev_pan e)) (last_on ch pre) }.

Lemma heard_sends : levels_agree -> forall s start sync l mp pre, told s mp pre ->
  heard mp (sends s start sync pre l) = map (intended s start sync) l.
Proof.
  intros LA s start sync l. induction l as [|e l IH]; intros mp pre T; [reflexivity|].
  cbn [sends map].
  set (P := if negb (ev_chan e =? 9) && differs Z.eqb (patch_of s) (last_on (ev_chan e) pre) e then _ else _).
  set (V := if differs neqb ev_tvol _ e then _ else _). set (Q := if differs neqb ev_pan _ e then _ else _).
  assert (Vol : forall ch, latest (volume_on ch) ((mp ++ P) ++ V) = if ev_chan e =? ch then Some (level (ev_tvol e)) else latest (volume_on ch) mp).
  { intros ch. assert (E : latest (volume_on ch) (mp ++ P) = latest (volume_on ch) mp).
    { unfold P. destruct (_ && _); [rewrite latest_app; reflexivity|rewrite app_nil_r; reflexivity]. }
    unfold V. destruct (differs neqb ev_tvol (last_on (ev_chan e) pre) e) eqn:D.
    - rewrite latest_app. cbn [volume_on]. destruct (ev_chan e =? ch); [reflexivity|exact E].
    - rewrite app_nil_r, E. destruct (ev_chan e =? ch) eqn:C; [|reflexivity]. apply Z.eqb_eq in C. subst ch.
      rewrite (to_vol _ _ _ T). destruct (last_on (ev_chan e) pre) as [p|]; [|discriminate]. cbn [differs] in D. apply negb_false_iff in D.
      cbn [option_map]. f_equal. symmetry. apply LA. exact D. }
  assert (Pan : forall ch, latest (panning_on ch) (((mp ++ P) ++ V) ++ Q) = if ev_chan e =? ch then Some (level (ev_pan e)) else latest (panning_on ch) mp).
  { intros ch. assert (E : latest (panning_on ch) ((mp ++ P) ++ V) = latest (panning_on ch) mp).
    { assert (E : latest (panning_on ch) (mp ++ P) = latest (panning_on ch) mp)
        by (unfold P; destruct (_ && _); [rewrite latest_app; reflexivity|rewrite app_nil_r; reflexivity]).
      rewrite <- E. unfold V. destruct (differs neqb ev_tvol _ e); [rewrite latest_app; reflexivity|rewrite app_nil_r; reflexivity]. }
    unfold Q. destruct (differs neqb ev_pan (last_on (ev_chan e) pre) e) eqn:D.
    - rewrite latest_app. cbn [panning_on]. destruct (ev_chan e =? ch); [reflexivity|exact E].
    - rewrite app_nil_r, E. destruct (ev_chan e =? ch) eqn:C; [|reflexivity]. apply Z.eqb_eq in C. subst ch.
      rewrite (to_pan _ _ _ T). destruct (last_on (ev_chan e) pre) as [p|]; [|discriminate]. cbn [differs] in D. apply negb_false_iff in D.
      cbn [option_map]. f_equal. symmetry. apply LA. exact D. }
  assert (Pat : forall ch, ch <> 9 -> latest (patch_on ch) (((mp ++ P) ++ V) ++ Q) = if ev_chan e =? ch then Some (patch_of s e) else latest (patch_on ch) mp).
  { intros ch H9.
    assert (E : latest (patch_on ch) (((mp ++ P) ++ V) ++ Q) = latest (patch_on ch) (mp ++ P)).
    { transitivity (latest (patch_on ch) ((mp ++ P) ++ V)).
      - unfold Q. destruct (differs neqb ev_pan _ e); [rewrite latest_app; reflexivity|rewrite app_nil_r; reflexivity].
      - unfold V. destruct (differs neqb ev_tvol _ e); [rewrite latest_app; reflexivity|rewrite app_nil_r; reflexivity]. }
    rewrite E. unfold P. destruct (ev_chan e =? 9) eqn:C9; cbn [negb andb].
    - rewrite app_nil_r. apply Z.eqb_eq in C9. destruct (ev_chan e =? ch) eqn:C; [|reflexivity]. apply Z.eqb_eq in C. congruence.
    - destruct (differs Z.eqb (patch_of s) (last_on (ev_chan e) pre) e) eqn:D.
      + rewrite latest_app. cbn [patch_on]. destruct (ev_chan e =? ch); reflexivity.
      + rewrite app_nil_r. destruct (ev_chan e =? ch) eqn:C; [|reflexivity]. apply Z.eqb_eq in C. subst ch.
        rewrite (to_patch _ _ _ T) by exact H9. destruct (last_on (ev_chan e) pre) as [p|]; [|discriminate]. cbn [differs] in D.
        apply negb_false_iff in D. apply Z.eqb_eq in D. cbn [option_map]. congruence. }
  rewrite (heard_app P). rewrite (heard_nil P) by (intros m Hm; apply in_if in Hm; subst m; reflexivity).
  rewrite (heard_app V). rewrite (heard_nil V) by (intros m Hm; apply in_if in Hm; subst m; reflexivity).
  rewrite (heard_app Q). rewrite (heard_nil Q) by (intros m Hm; apply in_if in Hm; subst m; reflexivity).
  cbn [app heard]. unfold note_message at 1. cbn [app]. f_equal.
  - unfold intended. rewrite Pan, Z.eqb_refl.
    assert (E9 : (if ev_chan e =? 9 then None else latest (patch_on (ev_chan e)) (((mp ++ P) ++ V) ++ Q)) = (if ev_chan e =? 9 then None else Some (patch_of s e))).
    { destruct (ev_chan e =? 9) eqn:C9; [reflexivity|]. apply Z.eqb_neq in C9. rewrite Pat by exact C9. rewrite Z.eqb_refl. reflexivity. }
    rewrite E9.
    assert (E : latest (volume_on (ev_chan e)) (((mp ++ P) ++ V) ++ Q) = latest (volume_on (ev_chan e)) ((mp ++ P) ++ V)).
      { unfold Q. destruct (differs neqb ev_pan _ e); [rewrite latest_app; reflexivity|rewrite app_nil_r; reflexivity]. }
    rewrite E, Vol, Z.eqb_refl. reflexivity.
  - apply IH. constructor.
    + intros ch H9. rewrite latest_app. cbn [patch_on note_message]. rewrite Pat by exact H9. rewrite last_on_app.
      destruct (ev_chan e =? ch); [reflexivity|]. apply (to_patch _ _ _ T). exact H9.
    + intros ch. rewrite latest_app. cbn [volume_on note_message]. rewrite last_on_app.
      assert (E : latest (volume_on ch) (((mp ++ P) ++ V) ++ Q) = latest (volume_on ch) ((mp ++ P) ++ V)).
      { unfold Q. destruct (differs neqb ev_pan _ e); [rewrite latest_app; reflexivity|rewrite app_nil_r; reflexivity]. }
      rewrite E, Vol. destruct (ev_chan e =? ch); [reflexivity|]. apply (to_vol _ _ _ T).
    + intros ch. rewrite latest_app. cbn [panning_on note_message]. rewrite Pan, last_on_app.
      destruct (ev_chan e =? ch); [reflexivity|]. apply (to_pan _ _ _ T).
Qed.

Lemma c30 : linear_order -> levels_agree -> forall t s s' b start stop notes, transmits t s s' (ROk b) -> asked t s start stop notes ->
  Permutation (heard [] b) (map (intended s start (t_sync t)) notes).
Proof.
  intros LO LA t s s' b start stop notes H A. destruct (bundle LO _ _ _ _ _ _ _ H A) as (es & P & _ & ->).
  set (T := if nonempty (t_sync t) then [] else tempo_messages s start stop).
  assert (HT : forall m, In m T -> is_tempo m = true).
  { intros m. unfold T. destruct (nonempty (t_sync t)); [intros []|]. apply tempo_kind. }
  rewrite heard_app, (heard_nil T) by (intros m Hm; apply HT in Hm; destruct m; try discriminate; reflexivity).
  rewrite heard_app. rewrite (heard_nil (ending _ _ _)) by (intros m Hm; apply (ending_kind _ _ _ _ Hm)).
  cbn [app]. rewrite app_nil_r, heard_sends.
  - apply Permutation_map. apply Permutation_sym. exact P.
  - exact LA.
  - constructor; intros; cbn [last_on fold_left option_map]; apply latest_none; intros m Hm; apply HT in Hm; destruct m; try discriminate; reflexivity.
Qed.

Lemma c31 : linear_order -> forall t s s' b start stop notes, transmits t s s' (ROk b) -> asked t s start stop notes ->
  exists es, Permutation notes es /\ StronglySorted (fun a b => nltb (ev_off b) (ev_off a) = false) es /\
    filter (fun m => is_note m || is_control m) b = sends s start (t_sync t) [] es.
Proof.
  intros LO t s s' b start stop notes H A. destruct (bundle LO _ _ _ _ _ _ _ H A) as (es & P & S & ->).
  exists es. split; [exact P|]. split; [exact S|]. rewrite !filter_app.
  rewrite (filter_nil _ _ (ending _ _ _)) by (intros m Hm; destruct (ending_kind _ _ _ _ Hm) as (-> & -> & _); reflexivity).
  rewrite (filter_all _ _ (sends _ _ _ _ _)) by (intros m Hm; eapply sends_kind; exact Hm).
  rewrite filter_nil, app_nil_r; [reflexivity|].
  intros m Hm. destruct (nonempty (t_sync t)); [destruct Hm|]. apply tempo_kind in Hm. destruct m; try discriminate; reflexivity.
Qed.

(** A patch message always changes the patch of its channel. *)
Lemma split_app : forall A (p : list A) m q l l', p ++ m :: q = l ++ l' ->
  (exists q', l = p ++ m :: q' /\ q = q' ++ l') \/ (exists p', p = l ++ p' /\ p' ++ m :: q = l').
Proof.
  intros A p m q l. revert p. induction l as [|x l IH]; intros p l' H.
  - right. exists p. split; [reflexivity|exact H].
  - destruct p as [|y p].
    + cbn in H. injection H as E1 E2. left. exists l. split; [cbn; congruence|exact E2].
    + cbn in H. injection H as E1 E2. subst y. destruct (IH p l' E2) as [(q' & A1 & A2)|(p' & A1 & A2)].
      * left. exists q'. split; [cbn; congruence|exact A2].
      * right. exists p'. split; [cbn; congruence|exact A2].
Qed.

Definition no_rep (mp l : list msg) : Prop := forall p tr ch off v q, l = p ++ MPatch tr ch off v :: q -> latest (patch_on ch) (mp ++ p) <> Some v.
Lemma no_rep_app : forall mp l l', no_rep mp l -> no_rep (mp ++ l) l' -> no_rep mp (l ++ l').
Proof.
  intros mp l l' H1 H2 p tr ch off v q E. symmetry in E. apply split_app in E. destruct E as [(q' & A1 & _)|(p' & A1 & A2)].
  - eapply H1. exact A1.
  - subst p. rewrite app_assoc. eapply H2. symmetry. exact A2.
Qed.
Lemma no_rep_none : forall mp l, (forall m, In m l -> match m with MPatch _ _ _ _ => False | _ => True end) -> no_rep mp l.
Proof. intros mp l H p tr ch off v q E. exfalso. apply (H (MPatch tr ch off v)). rewrite E. apply in_or_app. right; left; reflexivity. Qed.

Lemma patch_keep : forall ch l mp, (forall m, In m l -> match m with MPatch _ _ _ _ => False | _ => True end) -> latest (patch_on ch) (mp ++ l) = latest (patch_on ch) mp.
Proof.
  intros ch l. induction l as [|m l IH] using rev_ind; intros mp H; [rewrite app_nil_r; reflexivity|].
  rewrite app_assoc, latest_app. assert (K : In m (l ++ [m])) by (apply in_or_app; right; left; reflexivity). apply H in K.
  rewrite IH by (intros x Hx; apply H; apply in_or_app; left; exact Hx). destruct m; try reflexivity. destruct K.
Qed.

Lemma sends_patch : forall s start sync l mp pre, (forall ch, ch <> 9 -> latest (patch_on ch) mp = option_map (patch_of s) (last_on ch pre)) ->
  no_rep mp (sends s start sync pre l).
Proof.
  intros s start sync l. induction l as [|e l IH]; intros mp pre T; [intros p tr ch off v q E; destruct p; discriminate|].
  cbn [sends]. set (P := if negb (ev_chan e =? 9) && differs Z.eqb (patch_of s) (last_on (ev_chan e) pre) e then _ else _).
  set (V := if differs neqb ev_tvol _ e then _ else _). set (Q := if differs neqb ev_pan _ e then _ else _).
  assert (HV : forall m, In m V -> match m with MPatch _ _ _ _ => False | _ => True end) by (intros m Hm; apply in_if in Hm; subst m; exact I).
  assert (HQ : forall m, In m Q -> match m with MPatch _ _ _ _ => False | _ => True end) by (intros m Hm; apply in_if in Hm; subst m; exact I).
  assert (HN : forall m, In m [note_message s start sync e] -> match m with MPatch _ _ _ _ => False | _ => True end) by (intros m [<-|[]]; exact I).
  apply no_rep_app; [|apply no_rep_app; [apply no_rep_none; exact HV|apply no_rep_app; [apply no_rep_none; exact HQ|apply no_rep_app; [apply no_rep_none; exact HN|]]]].
  - unfold P. destruct (ev_chan e =? 9) eqn:C9; cbn [negb andb]; [intros p tr ch off v q E; destruct p; discriminate|].
    apply Z.eqb_neq in C9. destruct (differs Z.eqb (patch_of s) (last_on (ev_chan e) pre) e) eqn:D; [|intros p tr ch off v q E; destruct p; discriminate].
    intros p tr ch off v q E. destruct p as [|x [|y p]]; [|discriminate|discriminate]. cbn in E. injection E as _ E2 _ E4 _. subst ch v.
    rewrite app_nil_r, (T _ C9). destruct (last_on (ev_chan e) pre) as [x|]; cbn [option_map]; [|discriminate]. cbn [differs] in D.
    apply negb_true_iff in D. apply Z.eqb_neq in D. congruence.
  - apply IH. intros ch H9. rewrite patch_keep by exact HN. rewrite patch_keep by exact HQ. rewrite patch_keep by exact HV. rewrite last_on_app.
    unfold P. destruct (ev_chan e =? 9) eqn:C9; cbn [negb andb].
    + rewrite app_nil_r. apply Z.eqb_eq in C9. destruct (ev_chan e =? ch) eqn:C; [apply Z.eqb_eq in C; congruence|]. apply T. exact H9.
    + destruct (differs Z.eqb (patch_of s) (last_on (ev_chan e) pre) e) eqn:D.
      * rewrite latest_app. cbn [patch_on]. destruct (ev_chan e =? ch); [reflexivity|apply T; exact H9].
      * rewrite app_nil_r, (T _ H9). destruct (ev_chan e =? ch) eqn:C; [|reflexivity]. apply Z.eqb_eq in C. subst ch.
        destruct (last_on (ev_chan e) pre) as [p|]; [|discriminate]. cbn [differs] in D. apply negb_false_iff in D. apply Z.eqb_eq in D. cbn. congruence.
Qed.

Lemma c31_patch : linear_order -> forall t s s' b start stop notes p tr ch off v q, transmits t s s' (ROk b) -> asked t s start stop notes ->
  b = p ++ MPatch tr ch off v :: q -> latest (patch_on ch) p <> Some v.
Proof.
  intros LO t s s' b start stop notes p tr ch off v q H A E. destruct (bundle LO _ _ _ _ _ _ _ H A) as (es & _ & _ & Eb).
  set (T := if nonempty (t_sync t) then [] else tempo_messages s start stop) in *.
  assert (HT : forall m, In m T -> is_tempo m = true).
  { intros m. unfold T. destruct (nonempty (t_sync t)); [intros []|]. apply tempo_kind. }
  assert (K : no_rep [] b); [|exact (K p tr ch off v q E)]. rewrite Eb. apply no_rep_app; [|apply no_rep_app].
  - apply no_rep_none. intros m Hm. apply HT in Hm. destruct m; try discriminate; exact I.
  - apply sends_patch. intros c Hc. cbn. apply latest_none. intros m Hm. apply HT in Hm. destruct m; try discriminate; reflexivity.
  - apply no_rep_none. intros m Hm. destruct (ending_kind _ _ _ _ Hm) as (_ & K & _). destruct m; try discriminate; exact I.
Qed.

(* ---------------- excerpts ---------------- *)

Lemma c32 : linear_order -> forall t1 t2 t3 s s1 s2 s3 b1 b2 b3 a b c n1 n2 n3,
  t_fromi t1 = t_fromi t3 -> t_fromi t2 = t_fromi t3 -> t_toi t1 = t_toi t3 -> t_toi t2 = t_toi t3 ->
  transmits t1 s s1 (ROk b1) -> transmits t2 s s2 (ROk b2) -> transmits t3 s s3 (ROk b3) ->
  asked t1 s a b n1 -> asked t2 s b c n2 -> asked t3 s a c n3 -> nleb a b = true -> nleb b c = true ->
  Permutation (n1 ++ n2) n3 /\
  Permutation (map timeless (filter is_note b1 ++ filter is_note b2)) (map timeless (filter is_note b3)).
Proof.
  intros LO t1 t2 t3 s s1 s2 s3 b1 b2 b3 a b c n1 n2 n3 F1 F2 F3 F4 H1 H2 H3 A1 A2 A3 Hab Hbc.
  assert (P : Permutation (n1 ++ n2) n3).
  { destruct A1 as [_ (lo1 & hi1 & R1 & ->) (NA & NB & NE)]. destruct A2 as [_ (lo2 & hi2 & R2 & ->) (_ & NC & _)]. destruct A3 as [_ (lo & hi & R3 & ->) _].
    assert (R1' : event_range t1 s = event_range t3 s) by (unfold event_range; rewrite F1, F3; reflexivity).
    assert (R2' : event_range t2 s = event_range t3 s) by (unfold event_range; rewrite F2, F4; reflexivity).
    assert (lo1 = lo /\ hi1 = hi) as [-> ->] by (split; congruence). assert (lo2 = lo /\ hi2 = hi) as [-> ->] by (split; congruence).
    assert (NS : forall e, In e (slice lo hi (events s)) -> nisnan (ev_off e) = false) by (intros e He; apply NE; eapply slice_in; exact He).
    induction (slice lo hi (events s)) as [|e l IH]; [constructor|]. cbn [filter].
    specialize (IH (fun x Hx => NS x (or_intror Hx))). pose proof (NS e (or_introl eq_refl)) as Ne.
    replace (in_range a b e) with (nleb a (ev_off e) && negb (nleb b (ev_off e))) by (unfold in_range; rewrite (lt_iff LO (ev_off e) b Ne NB); reflexivity).
    replace (in_range b c e) with (nleb b (ev_off e) && negb (nleb c (ev_off e))) by (unfold in_range; rewrite (lt_iff LO (ev_off e) c Ne NC); reflexivity).
    replace (in_range a c e) with (nleb a (ev_off e) && negb (nleb c (ev_off e))) by (unfold in_range; rewrite (lt_iff LO (ev_off e) c Ne NC); reflexivity).
    destruct (nleb b (ev_off e)) eqn:E1; cbn [negb andb].
    - rewrite (lo_trans LO a b (ev_off e) Hab E1). cbn [andb]. rewrite ?andb_false_r.
      destruct (nleb c (ev_off e)); cbn [negb andb]; [exact IH|]. apply Permutation_sym, Permutation_cons_app, Permutation_sym. exact IH.
    - assert (E2 : nleb c (ev_off e) = false).
      { destruct (nleb c (ev_off e)) eqn:E2; [|reflexivity]. rewrite (lo_trans LO b c (ev_off e) Hbc E2) in E1. discriminate. }
      rewrite E2. cbn [negb]. rewrite !andb_true_r. destruct (nleb a (ev_off e)); [cbn [app]; constructor|]; exact IH. }
  split; [exact P|].
  pose proof (c29 LO _ _ _ _ _ _ _ H1 A1) as K1. pose proof (c29 LO _ _ _ _ _ _ _ H2 A2) as K2. pose proof (c29 LO _ _ _ _ _ _ _ H3 A3) as K3.
  apply (Permutation_map timeless) in K1. apply (Permutation_map timeless) in K2. apply (Permutation_map timeless) in K3.
  rewrite map_app. eapply perm_trans; [apply Permutation_app; [exact K1|exact K2]|].
  eapply perm_trans; [|apply Permutation_sym; exact K3]. rewrite !map_map.
  change (fun x => timeless (note_message s b (t_sync t2) x)) with (fun x => timeless (note_message s a (t_sync t3) x)).
  change (fun x => timeless (note_message s a (t_sync t1) x)) with (fun x => timeless (note_message s a (t_sync t3) x)).
  rewrite <- map_app. apply Permutation_map. exact P.
Qed.

(* ---------------- the end ---------------- *)

Lemma greatest_fold : linear_order -> max_law -> forall l m, nisnan m = false -> (forall x, In x l -> nisnan x = false) ->
  let r := fold_left nmax l m in (r = m \/ In r l) /\ nleb m r = true /\ forall x, In x l -> nleb x r = true.
Proof.
  intros LO ML l. induction l as [|x l IH]; intros m Hm Hl; cbn [fold_left].
  - split; [left; reflexivity|]. split; [|intros y []]. destruct (ML m m Hm Hm) as ([E|E] & A & _); rewrite E in A; exact A.
  - destruct (ML m x Hm (Hl x (or_introl eq_refl))) as (E & A & B).
    assert (Hn : nisnan (nmax m x) = false) by (apply (lo_le LO) in A; tauto).
    destruct (IH (nmax m x) Hn (fun y Hy => Hl y (or_intror Hy))) as (C & D & F). split; [|split].
    + destruct C as [C|C]; [|right; right; exact C]. rewrite C. destruct E as [-> | ->]; [left; reflexivity|right; left; reflexivity].
    + eapply (lo_trans LO); [exact A|exact D].
    + intros y [<-|Hy]; [eapply (lo_trans LO); [exact B|exact D]|apply F, Hy].
Qed.

Lemma c34 : linear_order -> max_law -> forall t s s' b start stop notes, transmits t s s' (ROk b) -> asked t s start stop notes ->
  nisnan n0 = false -> (forall e, In e notes -> nisnan (audible_end start (t_sync t) e) = false) ->
  exists body last, greatest last (map (audible_end start (t_sync t)) notes) /\
    b = body ++ (if t_load t then [] else [MPlay]) ++
        (if t_oneoff t then [MShutdown (nround32 (nadd last (nofZ 10000)))] else []) /\
    Forall (fun m => is_note m || is_control m || is_tempo m = true) body.
Proof.
  intros LO ML t s s' b start stop notes H A H0 Hn. destruct (bundle LO _ _ _ _ _ _ _ H A) as (es & P & S & ->).
  exists ((if nonempty (t_sync t) then [] else tempo_messages s start stop) ++ sends s start (t_sync t) [] es).
  exists (fold_left nmax (map (audible_end start (t_sync t)) es) n0).
  assert (Pm : Permutation (map (audible_end start (t_sync t)) notes) (map (audible_end start (t_sync t)) es)) by (apply Permutation_map; exact P).
  assert (Hn' : forall x, In x (map (audible_end start (t_sync t)) es) -> nisnan x = false).
  { intros x Hx. apply (Permutation_in x (Permutation_sym Pm)) in Hx. apply in_map_iff in Hx. destruct Hx as (e & <- & He). apply Hn, He. }
  destruct (greatest_fold LO ML _ n0 H0 Hn') as (G1 & G2 & G3). split; [|split].
  - split; [|split; [exact G2|]].
    + destruct G1 as [G1|G1]; [left; exact G1|right]. eapply Permutation_in; [apply Permutation_sym; exact Pm|exact G1].
    + intros x Hx. apply G3. eapply Permutation_in; [exact Pm|exact Hx].
  - rewrite <- app_assoc. unfold ending. do 4 f_equal. destruct (t_oneoff t); [|reflexivity]. do 4 f_equal.
    generalize (n0 : num). clear. induction es as [|e es IH]; intros m; [reflexivity|]. cbn [map fold_left]. apply IH.
  - apply Forall_app. split; apply Forall_forall; intros m Hm.
    + destruct (nonempty (t_sync t)); [destruct Hm|]. rewrite (tempo_kind _ _ _ _ Hm). apply orb_true_r.
    + rewrite (sends_kind _ _ _ _ _ _ Hm). reflexivity.
Qed.

(** For examples: when the events are in order already. *)
Fixpoint in_order (l : list note_event) : bool :=
  match l with [] => true | e :: t => forallb (fun x => negb (nltb (ev_off x) (ev_off e))) t && in_order t end.
Lemma in_order_sorted : forall l, in_order l = true -> StronglySorted (fun a b => nltb (ev_off b) (ev_off a) = false) l.
Proof.
  induction l as [|e l IH]; intros H; [constructor|]. cbn in H. apply andb_true_iff in H. destruct H as [H1 H2].
  constructor; [apply IH, H2|]. apply Forall_forall. intros x Hx. rewrite forallb_forall in H1. apply negb_true_iff, H1, Hx.
Qed.
Lemma transmit_now : forall t s lo hi start stop, event_range t s = ROk (lo, hi) -> time_range t s = ROk (start, stop) ->
  in_order (slice lo hi (events s)) = true ->
  exists s', transmits t s s' (ROk (bundle_of t s start stop (slice lo hi (events s)))).
Proof.
  intros t s lo hi start stop H1 H2 H3. eexists. eapply Tr_bundle; [exact H1|exact H2|].
  split; [apply Permutation_refl|]. intros _. apply in_order_sorted, H3.
Qed.
Lemma asked_now : forall t s lo hi start stop, event_range t s = ROk (lo, hi) -> time_range t s = ROk (start, stop) ->
  nisnan start = false -> nisnan stop = false -> forallb (fun e => negb (nisnan (ev_off e))) (events s) = true ->
  asked t s start stop (filter (in_range start stop) (slice lo hi (events s))).
Proof.
  intros t s lo hi start stop H1 H2 H3 H4 H5. constructor; [exact H2|exists lo, hi; split; [exact H1|reflexivity]|].
  split; [exact H3|]. split; [exact H4|]. intros e He. rewrite forallb_forall in H5. apply negb_true_iff, H5, He.
Qed.
End Osc.

(* ---------------- the laws hold of both number systems ---------------- *)

Lemma levels_XQ : @levels_agree XQ.
Proof.
  intros a b H. change (xq_eqb a b = true) in H. assert (a = b); [|subst; reflexivity].
  destruct a as [x| | |], b as [y| | |]; try discriminate; auto. cbn in H. apply qc_eqb_eq in H. congruence.
Qed.
Lemma levels_B64 : @levels_agree B64.
Proof.
  intros a b H. change (SFeqb a b = true) in H.
  destruct a as [[]|[]| |[] ma ea], b as [[]|[]| |[] mb eb]; try discriminate;
    try (match goal with |- context [S754_finite] => fail 1 | _ => vm_compute; reflexivity end).
  all: cbn in H; destruct (Z.compare ea eb) eqn:Ec; try discriminate; apply Z.compare_eq in Ec; subst eb;
      destruct (Pos.compare_cont Eq ma mb) eqn:Em; try discriminate; apply Pos.compare_eq in Em; subst mb; reflexivity.
Qed.
Lemma max_XQ : @max_law XQ.
Proof.
  intros a b Ha Hb. change (nisnan a) with (negb (xq_eqb a a)) in Ha. change (nisnan b) with (negb (xq_eqb b b)) in Hb.
  change (@nmax XQ) with xq_max. change (@nleb XQ) with xq_leb.
  destruct a as [x| | |], b as [y| | |]; try discriminate; 
    try (split; [auto|split; unfold xq_leb; cbn; rewrite ?qc_eqb_refl, ?orb_true_r; reflexivity]); cbn [xq_max].
  destruct (xq_ltb (Fin y) (Fin x)) eqn:E; split; auto; split; unfold xq_leb; cbn in *; rewrite ?qc_eqb_refl, ?orb_true_r; try reflexivity.
  - rewrite E. reflexivity.
  - apply qc_ltb_ge in E. apply Qcle_lt_or_eq in E. destruct E as [E|E]; [apply qc_ltb_lt in E; rewrite E; reflexivity|].
    subst. rewrite qc_eqb_refl. apply orb_true_r.
Qed.
Lemma max_B64 : @max_law B64.
Proof.
  intros a b Ha Hb. pose proof linear_B64 as LO.
  assert (Ra : @nleb B64 a a = true) by (apply (le_refl LO), Ha). assert (Rb : @nleb B64 b b = true) by (apply (le_refl LO), Hb).
  assert (K : forall m : @num B64, m = (if @nltb B64 b a then a else b) -> (m = a \/ m = b) /\ @nleb B64 a m = true /\ @nleb B64 b m = true).
  { intros m ->. destruct (@nltb B64 b a) eqn:E; split; auto; split; auto; [apply (lo_lt LO _ _ E)|apply (lo_total LO _ _ Hb Ha E)]. }
  change (@nmax B64) with b64_max.
  destruct a as [sa|sa| |sa ma ea], b as [sb|sb| |sb mb eb]; try discriminate; try destruct sa; try destruct sb;
    try (apply K; reflexivity); cbn [b64_max]; (split; [auto|split; auto]).
Qed.
