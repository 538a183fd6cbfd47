(** The player's sequence has what was sent (C59): lists of messages, and the
    invariant of a player that is sent a bundle. *)
From Coq Require Import ZArith String List Bool Lia ZifyBool Permutation Sorted.
From Verif Require Import Base Num ModelPitch ModelDuration ModelInstruments ModelTypes ModelLisp ModelScore ModelOsc SpecOsc ProofOsc
  ModelPlayer SpecPlayer ProofPlayer ProofPackets ModelApply SpecApply.
Import ListNotations.
Local Open Scope list_scope.
Local Open Scope Z_scope.

(* ---------------- lists ---------------- *)
Definition adds (log : list (Z * midi)) : list (Z * midi) := fold_left (fun l x => track_add (fst x) (snd x) l) log [].
Lemma adds_snoc : forall log x, adds (log ++ [x]) = track_add (fst x) (snd x) (adds log).
Proof. intros. unfold adds. rewrite fold_left_app. reflexivity. Qed.
Lemma adds_sorted : forall log, in_ticks (adds log).
Proof. induction log as [|x log IH] using rev_ind; [constructor|]. rewrite adds_snoc. apply track_add_sorted, IH. Qed.
Lemma adds_perm : forall log, Permutation log (adds log).
Proof.
  induction log as [|x log IH] using rev_ind; [constructor|]. rewrite adds_snoc. etransitivity; [apply Permutation_app_comm|]. cbn [app].
  etransitivity; [|apply track_add_perm]. destruct x. cbn. constructor. exact IH.
Qed.
Lemma filter_none : forall A (f : A -> bool) l, Forall (fun x => f x = false) l -> filter f l = [].
Proof. induction 1 as [|x l H _ IH]; [reflexivity|]. cbn. rewrite H. exact IH. Qed.
Lemma track_add_at : forall t m l k, in_ticks l ->
  filter (fun x => fst x =? k) (track_add t m l) = filter (fun x => fst x =? k) l ++ (if t =? k then [(t, m)] else []).
Proof.
  intros t m l k. induction l as [|[t' m'] l IH]; intros S; cbn [track_add].
  - cbn. destruct (t =? k); reflexivity.
  - inversion S as [|? ? S' F]; subst. destruct (t <? t') eqn:E.
    + destruct (t =? k) eqn:K.
      * assert (Z0 : filter (fun x : Z * midi => fst x =? k) ((t', m') :: l) = []).
        { apply filter_none. constructor; [cbn; lia|]. eapply Forall_impl; [|exact F]. cbn. intros; lia. }
        cbn [filter fst] in *. rewrite K, Z0. reflexivity.
      * rewrite app_nil_r. cbn [filter fst]. rewrite K. reflexivity.
    + cbn [filter fst]. rewrite IH by exact S'. destruct (t' =? k); reflexivity.
Qed.
Lemma adds_at : forall log k, filter (fun x => fst x =? k) (adds log) = filter (fun x => fst x =? k) log.
Proof.
  induction log as [|x log IH] using rev_ind; intros k; [reflexivity|]. rewrite adds_snoc, track_add_at by apply adds_sorted. rewrite IH, filter_app. cbn.
  destruct x as [t m]; cbn. destruct (t =? k); reflexivity.
Qed.

Lemma filter_filter : forall A (f g : A -> bool) l, filter f (filter g l) = filter (fun x => f x && g x) l.
Proof. induction l as [|x l IH]; [reflexivity|]. cbn. destruct (g x) eqn:G; cbn; destruct (f x); cbn; rewrite ?IH; reflexivity. Qed.
Lemma filter_swap : forall A (f g : A -> bool) l, filter f (filter g l) = filter g (filter f l).
Proof. intros. rewrite !filter_filter. apply filter_ext. intros. apply andb_comm. Qed.

(** Lists in the order of a key agree if they agree for each value of it. *)
Lemma sorted_agree : forall A (key : A -> Z) a b, StronglySorted (fun x y => key x <= key y) a -> StronglySorted (fun x y => key x <= key y) b ->
  (forall k, filter (fun x => key x =? k) a = filter (fun x => key x =? k) b) -> a = b.
Proof.
  intros A key. induction a as [|x a IH]; intros b Sa Sb H.
  - destruct b as [|y b]; [reflexivity|]. specialize (H (key y)). cbn in H. rewrite Z.eqb_refl in H. discriminate.
  - destruct b as [|y b]; [specialize (H (key x)); cbn in H; rewrite Z.eqb_refl in H; discriminate|].
    inversion Sa as [|? ? Sa' Fa]; subst. inversion Sb as [|? ? Sb' Fb]; subst.
    assert (K : key x = key y).
    { rewrite Forall_forall in Fa, Fb. pose proof (H (key x)) as Hx. pose proof (H (key y)) as Hy. cbn in Hx, Hy. rewrite Z.eqb_refl in Hx, Hy.
      destruct (key y =? key x) eqn:E; [lia|]. exfalso.
      assert (I1 : In x (filter (fun z => key z =? key x) b)) by (rewrite <- Hx; left; reflexivity).
      assert (I2 : In y (filter (fun z => key z =? key y) a)). { replace (key x =? key y) with false in Hy by lia. rewrite Hy. left. reflexivity. }
      apply filter_In in I1, I2. specialize (Fa _ (proj1 I2)). specialize (Fb _ (proj1 I1)). cbn in *. lia. }
    assert (E : x = y). { specialize (H (key x)). cbn in H. rewrite <- K, Z.eqb_refl in H. congruence. }
    subst y. f_equal. apply IH; try assumption. intros k. specialize (H k). cbn in H. destruct (key x =? k); [congruence|exact H].
Qed.
(** Lists are permutations of one another if they agree for each tag. *)
Lemma tags_perm : forall A T (eqb : T -> T -> bool) (tag : A -> T) a b, (forall x y, eqb x y = true <-> x = y) ->
  (forall t, filter (fun x => eqb (tag x) t) a = filter (fun x => eqb (tag x) t) b) -> Permutation a b.
Proof.
  intros A T eqb tag a b E. revert b. induction a as [|x a IH]; intros b H.
  - destruct b as [|y b]; [constructor|]. specialize (H (tag y)). cbn in H. rewrite (proj2 (E _ _) eq_refl) in H. discriminate.
  - pose proof (H (tag x)) as Hx. cbn in Hx. rewrite (proj2 (E _ _) eq_refl) in Hx.
    assert (I : exists b1 b2, b = b1 ++ x :: b2 /\ Forall (fun z => eqb (tag z) (tag x) = false) b1).
    { clear - Hx. revert Hx. generalize (filter (fun z => eqb (tag z) (tag x)) a). induction b as [|y b IH]; intros r Hx; [discriminate|]. cbn in Hx. destruct (eqb (tag y) (tag x)) eqn:Y.
      - injection Hx as <- _. exists [], b. split; [reflexivity|constructor].
      - destruct (IH r Hx) as (b1 & b2 & -> & F). exists (y :: b1), b2. split; [reflexivity|constructor; assumption]. }
    destruct I as (b1 & b2 & -> & F). etransitivity; [|apply Permutation_middle]. constructor. apply IH. intros t. specialize (H t). cbn in H. rewrite filter_app in *. cbn in H.
    destruct (eqb (tag x) t) eqn:X; [|exact H]. apply E in X. subst t. rewrite (filter_none _ _ b1 F) in *. cbn in *. congruence.
Qed.
Lemma StronglySorted_map : forall A B (f : A -> B) (R : B -> B -> Prop) l, StronglySorted (fun x y => R (f x) (f y)) l -> StronglySorted R (map f l).
Proof. induction l as [|x l IH]; intros H; cbn; [constructor|]. inversion H; subst. constructor; [apply IH; assumption|]. apply Forall_map. assumption. Qed.
Lemma StronglySorted_filter : forall A (R : A -> A -> Prop) (f : A -> bool) l, StronglySorted R l -> StronglySorted R (filter f l).
Proof.
  induction l as [|x l IH]; intros H; cbn; [constructor|]. inversion H; subst. destruct (f x); [|apply IH; assumption]. constructor; [apply IH; assumption|].
  apply Forall_forall. intros y Hy. apply filter_In in Hy. rewrite Forall_forall in *. intuition.
Qed.

(* ---------------- what is heard, channel by channel ---------------- *)
(** What bears on how the notes of a channel are heard. *)
Definition about (c : Z) (x : Z * midi) : bool :=
  match snd x with NoteOn ch _ _ | Control ch _ _ | Program ch _ => ch =? c | _ => false end.
Arguments last_value : simpl never.
Lemma last_value_snoc : forall A B (f : A -> option B) l x, last_value f (l ++ [x]) = match f x with Some v => Some v | None => last_value f l end.
Proof. intros. unfold last_value. rewrite fold_left_app. reflexivity. Qed.
Lemma last_value_filter : forall A B (f : A -> option B) g l, (forall x, g x = false -> f x = None) -> last_value f (filter g l) = last_value f l.
Proof.
  intros A B f g l H. induction l as [|x l IH] using rev_ind; [reflexivity|]. rewrite filter_app, last_value_snoc. cbn. destruct (g x) eqn:G; [rewrite last_value_snoc, IH; reflexivity|].
  rewrite app_nil_r, IH, (H x G). reflexivity.
Qed.
Lemma heard_filter : forall c l before, filter (fun h => h_chan h =? c) (heard_in before l) = heard_in (filter (about c) before) (filter (about c) l).
Proof.
  intros c. induction l as [|x l IH]; intros before; [reflexivity|]. cbn [heard_in filter]. rewrite filter_app, IH, filter_app. cbn [filter].
  assert (G : forall ch, ch = c -> last_value (program_on ch) (filter (about c) before) = last_value (program_on ch) before /\
    (forall w, last_value (control_on w ch) (filter (about c) before) = last_value (control_on w ch) before)).
  { intros ch ->. split; [|intros w]; apply last_value_filter; intros [t m] K; unfold about, program_on, control_on in *; cbn in *; destruct m; try reflexivity; rewrite K; reflexivity. }
  destruct x as [t m]. destruct m; cbn; rewrite ?app_nil_r; try reflexivity.
  - destruct (chan =? c) eqn:E; cbn; rewrite ?app_nil_r; [|reflexivity]. apply Z.eqb_eq in E. destruct (G chan E) as [G1 G2]. rewrite G1, !G2. reflexivity.
  - destruct (chan =? c) eqn:E; cbn; rewrite ?app_nil_r; reflexivity.
  - destruct (chan =? c) eqn:E; cbn; rewrite ?app_nil_r; reflexivity.
Qed.
Lemma heard_perm : forall a b, (forall c, filter (about c) a = filter (about c) b) -> Permutation (heard_in [] a) (heard_in [] b).
Proof.
  intros a b H. apply (tags_perm _ Z Z.eqb h_chan); [intros; apply Z.eqb_eq|]. intros c. rewrite !heard_filter. cbn [filter]. rewrite H. reflexivity.
Qed.
(** Moving the messages moves the notes. *)
Definition move (f : Z -> Z) (h : heard_note) : heard_note := Heard (f (h_tick h)) (h_chan h) (h_note h) (h_vel h) (h_patch h) (h_vol h) (h_pan h).
Lemma heard_move : forall f l before, heard_in (map (fun x => (f (fst x), snd x)) before) (map (fun x => (f (fst x), snd x)) l) = map (move f) (heard_in before l).
Proof.
  intros f. assert (LV : forall B (g : Z * midi -> option B) l, (forall x, g (f (fst x), snd x) = g x) -> last_value g (map (fun x => (f (fst x), snd x)) l) = last_value g l).
  { intros B g l H. induction l as [|x l IH] using rev_ind; [reflexivity|]. rewrite map_app. cbn [map]. rewrite !last_value_snoc, IH, H. reflexivity. }
  induction l as [|x l IH]; intros before; [reflexivity|]. cbn [heard_in map fst snd]. specialize (IH (before ++ [x])). rewrite map_app in IH. cbn [map] in IH. rewrite map_app, <- IH.
  f_equal. destruct (snd x); cbn; try reflexivity. unfold move. cbn. rewrite !LV; [reflexivity|..]; intros [? ?]; reflexivity.
Qed.
Lemma starts_perm : forall a b, Permutation a b -> Permutation (starts_in a) (starts_in b).
Proof. intros. unfold starts_in. apply Permutation_flat_map. assumption. Qed.
Lemma ends_perm : forall a b, Permutation a b -> Permutation (ends_in a) (ends_in b).
Proof. intros. unfold ends_in. apply Permutation_flat_map. assumption. Qed.
