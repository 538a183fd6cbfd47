(** The player: tracks, export, expiry, messages. *)
From Coq Require DecimalPos DecimalZ DecimalFacts.
From Coq Require Import Decimal DecimalString.
From Coq Require Import ZArith List String Ascii Bool Permutation Sorted Lia ZifyBool.
From Verif Require Import Base Num ModelPitch ModelDuration ModelInstruments ModelTypes ModelLisp ModelScore ModelOsc ModelPlayer SpecPlayer.
Import ListNotations.
Local Open Scope string_scope.
Local Open Scope list_scope.
Local Open Scope Z_scope.

(* ------------------------- C50 ------------------------- *)

Lemma delay_mono : forall timeout p x, x <= delay timeout p x /\ p + timeout <= delay timeout p x.
Proof. intros. unfold delay. destruct (x <? p + timeout) eqn:E; lia. Qed.
Lemma expiry_fold : forall timeout l x, x <= fold_left (fun x s => delay timeout (signal_point s) x) l x /\
  Forall (fun s => signal_point s + timeout <= fold_left (fun x s => delay timeout (signal_point s) x) l x) l.
Proof.
  intros timeout. induction l as [|s l IH]; intros x; cbn [fold_left]; [split; [lia|constructor]|].
  destruct (IH (delay timeout (signal_point s) x)) as [A B]. destruct (delay_mono timeout (signal_point s) x) as [C D].
  split; [lia|]. constructor; [lia|exact B].
Qed.
Lemma c50_monotone : forall timeout start l l', expiry_after timeout start l <= expiry_after timeout start (l ++ l').
Proof. intros. unfold expiry_after. rewrite fold_left_app. apply (expiry_fold timeout l'). Qed.
Lemma c50_covers : forall timeout start l clock s, In s l -> expired (expiry_after timeout start l) clock = true ->
  signal_point s + timeout < clock /\ start + timeout < clock.
Proof.
  intros timeout start l clock s H E. unfold expired in E. unfold expiry_after, first_expiry in E.
  destruct (expiry_fold timeout l (start + timeout)) as [A B]. rewrite Forall_forall in B. specialize (B s H). cbn beta in B. lia.
Qed.

Lemma expiry_fold_lt : forall timeout l x clock, x < clock -> Forall (fun s => signal_point s + timeout < clock) l ->
  fold_left (fun x s => delay timeout (signal_point s) x) l x < clock.
Proof.
  intros timeout l x clock H F. revert x H. induction F as [|s l Hs F IH]; intros x H; [exact H|]. cbn [fold_left]. apply IH.
  unfold delay. destruct (_ <? _); assumption.
Qed.
Lemma c50_expires : forall timeout start l clock, expired (expiry_after timeout start l) clock = true <->
  start + timeout < clock /\
  (forall c, In (SPacket c) l -> c + timeout < clock) /\
  (forall off c cur, In (SSchedule off c cur) l -> c + (off - cur) + timeout < clock).
Proof.
  intros timeout start l clock. split.
  - intros E. split; [|split].
    + unfold expired, expiry_after, first_expiry in E. destruct (expiry_fold timeout l (start + timeout)) as [A _]. lia.
    + intros c H. apply (proj1 (c50_covers timeout start l clock _ H E)).
    + intros off c cur H. apply (proj1 (c50_covers timeout start l clock _ H E)).
  - intros [A [B C]]. unfold expired. apply Z.ltb_lt. apply expiry_fold_lt; [exact A|]. apply Forall_forall.
    intros [c|off c cur] H; [apply (B c H)|apply (C off c cur H)].
Qed.

(* ------------------------- C39 ------------------------- *)

Definition in_ticks (l : list (Z * midi)) : Prop := StronglySorted (fun a b => fst a <= fst b) l.

Lemma track_add_last : forall t m l, Forall (fun x => fst x <= t) l -> track_add t m l = l ++ [(t, m)].
Proof.
  induction l as [|[t' m'] l IH]; intros H; [reflexivity|]. inversion H; subst. cbn [track_add fst] in *.
  replace (t <? t') with false by lia. rewrite IH by assumption. reflexivity.
Qed.
Lemma track_add_in : forall t m l x, In x (track_add t m l) <-> x = (t, m) \/ In x l.
Proof.
  induction l as [|[t' m'] l IH]; intros x; cbn [track_add].
  - cbn. intuition congruence.
  - destruct (t <? t'); cbn [In]; [|rewrite IH]; intuition congruence.
Qed.
Lemma track_add_perm : forall t m l, Permutation ((t, m) :: l) (track_add t m l).
Proof.
  induction l as [|[t' m'] l IH]; cbn [track_add]; [apply Permutation_refl|]. destruct (t <? t'); [apply Permutation_refl|].
  eapply perm_trans; [apply perm_swap|]. apply perm_skip. exact IH.
Qed.
Lemma track_add_sorted : forall t m l, in_ticks l -> in_ticks (track_add t m l).
Proof.
  induction l as [|[t' m'] l IH]; intros H; cbn [track_add]; [constructor; [constructor|constructor]|].
  inversion H as [|? ? S F]; subst. destruct (t <? t') eqn:E.
  - constructor; [exact H|]. constructor; [cbn; lia|]. eapply Forall_impl; [|exact F]. cbn. intros; lia.
  - constructor; [apply IH, S|]. apply Forall_forall. intros x Hx. apply track_add_in in Hx. destruct Hx as [->|Hx]; [cbn; lia|].
    rewrite Forall_forall in F. apply F, Hx.
Qed.
Lemma earliest_fold : forall l acc, let f := fun acc (x : Z * midi) => if counts (snd x) then Z.min acc (fst x) else acc in
  fold_left f l acc <= acc /\ Forall (fun x => counts (snd x) = true -> fold_left f l acc <= fst x) l /\
  (fold_left f l acc = acc \/ exists x, In x l /\ counts (snd x) = true /\ fst x = fold_left f l acc).
Proof.
  intros l. induction l as [|x l IH]; intros acc f; cbn [fold_left]; [split; [lia|]; split; [constructor|left; reflexivity]|].
  specialize (IH (f acc x)). cbn zeta in IH. fold f in IH. destruct IH as (A & B & C).
  assert (f acc x <= acc /\ (counts (snd x) = true -> f acc x <= fst x)) as [D E].
  { unfold f. destruct (counts (snd x)); split; intros; try discriminate; lia. }
  split; [lia|]. split; [constructor; [intros K; specialize (E K); lia|exact B]|].
  destruct C as [C|(y & I & Cy & Ey)].
  - assert (X : f acc x = acc \/ (counts (snd x) = true /\ f acc x = fst x)) by (unfold f; destruct (counts (snd x)); [lia|left; reflexivity]).
    destruct X as [X|[K X]]; [left; congruence|]. right. exists x. split; [left; reflexivity|]. split; [exact K|congruence].
  - right. exists y. split; [right; exact I|]. split; assumption.
Qed.
Lemma exported_map : forall l, in_ticks l -> exported l = map (fun x => (Z.max 0 (fst x - earliest l), snd x)) l.
Proof.
  intros l S. unfold exported. set (d := earliest l). clearbody d.
  assert (G : forall l acc, in_ticks l -> (forall x y, In x acc -> In y l -> fst x <= Z.max 0 (fst y - d)) ->
    fold_left (fun acc x => track_add (Z.max 0 (fst x - d)) (snd x) acc) l acc = acc ++ map (fun x => (Z.max 0 (fst x - d), snd x)) l).
  { clear. induction l as [|x l IH]; intros acc S H; cbn [fold_left map]; [rewrite app_nil_r; reflexivity|]. inversion S as [|? ? S' F]; subst.
    rewrite track_add_last by (apply Forall_forall; intros y Hy; apply (H y x Hy); left; reflexivity).
    rewrite IH; [rewrite <- app_assoc; reflexivity|exact S'|]. intros y z Hy Hz. apply in_app_or in Hy. rewrite Forall_forall in F. specialize (F z Hz). cbn beta in F.
    destruct Hy as [Hy|[<-|[]]]; [|cbn; lia]. specialize (H y x Hy (or_introl eq_refl)). lia. }
  rewrite G; [reflexivity|exact S|]. intros x y [].
Qed.

Section Engine.
Context {N : Num} {J : JNum N}.
Lemma reaches_sorted : forall en, reaches en -> in_ticks (en_events en).
Proof.
  intros en H. induction H as [|o b en en' H IH E|o m en en' H IH E]; [constructor| |].
  - unfold set_tempo in E. destruct (ms_to_ticks _ _); inversion E; subst. apply track_add_sorted, IH.
  - unfold schedule_msg in E. destruct (valid_midi m); [|discriminate]. destruct (ms_to_ticks _ _); inversion E; subst. apply track_add_sorted, IH.
Qed.
Lemma c39 : forall en, reaches en -> existsb (fun x => counts (snd x)) (en_events en) = true ->
  Forall (fun x => fst x < 2 ^ 63 - 1) (en_events en) ->
  exists d, Forall2 (fun x x' => snd x' = snd x /\ 0 <= fst x' /\ (counts (snd x) = true -> d <= fst x) /\
                                 (d <= fst x -> fst x' = fst x - d) /\ (fst x <= d -> fst x' = 0)) (en_events en) (exported (en_events en)) /\
    (exists x', In x' (exported (en_events en)) /\ counts (snd x') = true /\ fst x' = 0).
Proof.
  intros en H K B. pose proof (reaches_sorted en H) as S. set (l := en_events en) in *. clearbody l. rewrite (exported_map l S). exists (earliest l).
  destruct (earliest_fold l (2 ^ 63 - 1)) as (_ & F & D). change (fold_left _ l (2 ^ 63 - 1)) with (earliest l) in D. change (Forall (fun x => counts (snd x) = true -> earliest l <= fst x) l) in F.
  apply existsb_exists in K. destruct K as (x & I & C). split.
  - clear D I S. generalize (earliest l) F. clear. intros d F. induction l as [|x l IH]; [constructor|]. inversion F; subst. cbn [map]. constructor; [|apply IH; assumption].
    cbn [fst snd]. split; [reflexivity|]. split; [lia|]. split; [assumption|]. split; intros; lia.
  - destruct D as [D|(y & Iy & Cy & Ey)].
    + exfalso. rewrite Forall_forall in F, B. specialize (F x I C). specialize (B x I). cbn beta in *. rewrite D in F. lia.
    + exists (Z.max 0 (fst y - earliest l), snd y). split; [apply (in_map (fun x => (Z.max 0 (fst x - earliest l), snd x))); exact Iy|]. split; [exact Cy|]. cbn [fst]. rewrite Ey. lia.
Qed.
Lemma schedule_reaches : forall es en, reaches en -> reaches (fst (schedule es en)).
Proof.
  intros es. unfold schedule. induction (flat_map messages_of es) as [|[o m] l IH]; intros en H; [exact H|]. cbn [schedule_msgs].
  destruct (schedule_msg o m en) as [en'|] eqn:E; [|exact H]. apply IH. apply (R_schedule o m en en' H E).
Qed.
Lemma tempo_reaches : forall o b, reaches (match set_tempo o b new_engine with Some en => en | None => new_engine end).
Proof. intros o b. destruct (set_tempo o b new_engine) as [en|] eqn:E; [apply (R_tempo o b new_engine en (R_new) E)|apply R_new]. Qed.
End Engine.

(* ------------------------- C37, C38 ------------------------- *)

Lemma acts_app : forall a b t, acts (a ++ b) t = match acts a t with Some t' => acts b t' | None => None end.
Proof. induction a as [|x a IH]; intros b t; cbn [app acts]; [reflexivity|]. destruct (act x t); [apply IH|reflexivity]. Qed.

Lemma remove_nth_perm : forall A i (l : list A) x r, remove_nth i l = Some (x, r) -> Permutation l (x :: r).
Proof.
  intros A i l. revert i. induction l as [|y l IH]; intros i x r H; [destruct i; discriminate|]. destruct i as [|i]; cbn in H.
  - inversion H; subst. apply Permutation_refl.
  - destruct (remove_nth i l) as [[z r']|] eqn:E; [|discriminate]. inversion H; subst. eapply perm_trans; [apply perm_skip, (IH _ _ _ E)|]. apply perm_swap.
Qed.

(** Everything there is: scheduled, on the way or waiting. *)
Definition whereabouts (t : track) : list (list event) := map pl_batch (history t) ++ on_the_way t ++ tr_queue t.

Lemma act_where : forall a t t', act a t = Some t' -> a <> AClear -> a <> AFail ->
  Permutation (whereabouts t ++ puts [a]) (whereabouts t').
Proof.
  intros a [q th li bu st dn] t' H C F. unfold whereabouts, history, on_the_way, puts. destruct a as [b| |i| |now pl| |]; cbn [act] in H; try congruence.
  - inversion H; subst. cbn. rewrite <- !app_assoc. apply Permutation_refl.
  - destruct q as [|b q]; [discriminate|]. inversion H; subst. cbn. rewrite app_nil_r. rewrite <- !app_assoc. apply Permutation_refl.
  - destruct (remove_nth i th) as [[b th']|] eqn:E; [|discriminate]. inversion H; subst. cbn. rewrite app_nil_r.
    apply remove_nth_perm in E. rewrite E. rewrite <- !app_assoc. apply Permutation_app_head. apply Permutation_app_head. apply Permutation_app_head. apply Permutation_refl.
  - destruct li as [|b li]; [discriminate|]. destruct bu; [discriminate|]. inversion H; subst. cbn. rewrite app_nil_r. apply Permutation_refl.
  - destruct bu as [[b s]|]; [|discriminate]. cbn in H. inversion H; subst. cbn. rewrite app_nil_r. rewrite map_app. cbn. rewrite <- !app_assoc. apply Permutation_refl.
Qed.
Lemma puts_app : forall a b, puts (a ++ b) = puts a ++ puts b.
Proof. intros. unfold puts. apply flat_map_app. Qed.
Lemma c37_once : forall l t, acts l new_track = Some t -> no_clear l -> no_failure l ->
  Permutation (puts l) (map pl_batch (history t) ++ on_the_way t ++ tr_queue t).
Proof.
  intros l t H C F. change (puts l) with (whereabouts new_track ++ puts l). revert H C F. generalize new_track.
  induction l as [|a l IH]; intros t0 H C F; cbn [acts] in H.
  - inversion H; subst. cbn [puts flat_map]. rewrite app_nil_r. apply Permutation_refl.
  - destruct (act a t0) as [t1|] eqn:E; [|discriminate]. change (a :: l) with ([a] ++ l). rewrite puts_app, app_assoc.
    eapply perm_trans; [|apply (IH t1 H); [intros K; apply C; right; exact K|intros K; apply F; right; exact K]].
    apply Permutation_app_tail. apply act_where; [exact E|intros ->; apply C; left; reflexivity|intros ->; apply F; left; reflexivity].
Qed.

Lemma orderly_where : forall a t t', act a t = Some t' -> a <> AClear -> a <> AFail -> (List.length (tr_threads t) <= 1)%nat -> (a = ATake -> tr_threads t = []) ->
  whereabouts t ++ puts [a] = whereabouts t' /\ (List.length (tr_threads t') <= 1)%nat.
Proof.
  intros a [q th li bu st dn] t' H C F L O. unfold whereabouts, history, on_the_way, puts. destruct a as [b| |i| |now pl| |]; cbn [act tr_threads] in *; try congruence.
  - inversion H; subst. cbn. rewrite <- !app_assoc. split; [reflexivity|exact L].
  - rewrite (O eq_refl) in *. destruct q as [|b q]; [discriminate|]. inversion H; subst. cbn. rewrite !app_nil_r. rewrite <- !app_assoc. split; [reflexivity|lia].
  - destruct (remove_nth i th) as [[b th']|] eqn:E; [|discriminate]. inversion H; subst. cbn. rewrite app_nil_r.
    destruct th as [|c [|d th]]; [destruct i; discriminate| |cbn in L; lia]. destruct i as [|i]; [|destruct i; discriminate]. cbn in E. inversion E; subst.
    rewrite <- !app_assoc. split; [reflexivity|cbn; lia].
  - destruct li as [|b li]; [discriminate|]. destruct bu; [discriminate|]. inversion H; subst. cbn. rewrite app_nil_r. split; [reflexivity|exact L].
  - destruct bu as [[b s]|]; [|discriminate]. cbn in H. inversion H; subst. cbn. rewrite app_nil_r. rewrite map_app. cbn. rewrite <- !app_assoc. split; [reflexivity|exact L].
Qed.
Lemma c37_order : forall l t, acts l new_track = Some t -> no_clear l -> no_failure l -> orderly l new_track ->
  puts l = map pl_batch (history t) ++ on_the_way t ++ tr_queue t.
Proof.
  intros l t H C F O. change (puts l) with (whereabouts new_track ++ puts l).
  assert (L : (List.length (tr_threads new_track) <= 1)%nat) by (cbn; lia). revert H C F O L. generalize new_track.
  induction l as [|a l IH]; intros t0 H C F O L; cbn [acts] in H.
  - inversion H; subst. cbn [puts flat_map]. rewrite app_nil_r. reflexivity.
  - cbn [orderly] in O. destruct O as [O1 O2]. destruct (act a t0) as [t1|] eqn:E; [|discriminate]. change (a :: l) with ([a] ++ l). rewrite puts_app, app_assoc.
    destruct (orderly_where a t0 t1 E) as [W L1]; [intros ->; apply C; left; reflexivity|intros ->; apply F; left; reflexivity|exact L|exact O1|].
    rewrite W. apply (IH t1 H); [intros K; apply C; right; exact K|intros K; apply F; right; exact K|exact O2|exact L1].
Qed.

(** Where the next batch starts. *)
Definition start_of (l : list placement) : Z := match l with [] => 0 | p :: _ => pl_next p end.
Fixpoint linked (l : list placement) : Prop :=
  match l with
  | [] => True
  | p :: r => (exists now playing, pl_start p = adjust now playing (start_of r)) /\
              pl_events p = map (add_offset (pl_start p)) (pl_batch p) /\ pl_next p = next_start (start_of r) (pl_events p) /\ linked r
  end.
Lemma act_linked : forall a t t', act a t = Some t' -> a <> AClear ->
  linked (tr_done t) -> tr_start t = start_of (tr_done t) -> (forall b s, tr_busy t = Some (b, s) -> s = tr_start t) ->
  linked (tr_done t') /\ tr_start t' = start_of (tr_done t') /\ (forall b s, tr_busy t' = Some (b, s) -> s = tr_start t').
Proof.
  intros a [q th li bu st dn] t' H C L S B. cbn [tr_done tr_start tr_busy] in *. destruct a as [b| |i| |now pl| |]; cbn [act] in H; try congruence.
  - inversion H; subst. auto.
  - destruct q; inversion H; subst. auto.
  - destruct (remove_nth i th) as [[b th']|]; inversion H; subst. auto.
  - destruct li as [|b li]; [discriminate|]. destruct bu; [discriminate|]. inversion H; subst. cbn. split; [exact L|]. split; [reflexivity|]. congruence.
  - destruct bu as [[b s]|]; [|discriminate]. specialize (B b s eq_refl). subst s. cbn in H. inversion H; subst. cbn. 
    split; [|split; [reflexivity|discriminate]]. split; [exists now, pl; reflexivity|]. split; [reflexivity|]. split; [reflexivity|exact L].
  - destruct bu as [[b s]|]; [|discriminate]. inversion H; subst. cbn. split; [exact L|]. split; [reflexivity|discriminate].
Qed.
Lemma acts_linked : forall l t, acts l new_track = Some t -> no_clear l -> linked (tr_done t).
Proof.
  intros l t H C. assert (I : linked (tr_done new_track) /\ tr_start new_track = start_of (tr_done new_track) /\ (forall b s, tr_busy new_track = Some (b, s) -> s = tr_start new_track)).
  { split; [exact I|]. split; [reflexivity|discriminate]. }
  revert H C I. generalize new_track. induction l as [|a l IH]; intros t0 H C (I1 & I2 & I3); cbn [acts] in H.
  - inversion H; subst. exact I1.
  - destruct (act a t0) as [t1|] eqn:E; [|discriminate]. apply (IH t1 H); [intros K; apply C; right; exact K|].
    apply (act_linked a t0 t1 E); [intros ->; apply C; left; reflexivity|assumption|assumption|assumption].
Qed.

Lemma wrap32_small : forall z, - 2 ^ 31 <= z < 2 ^ 31 -> wrap32 z = z.
Proof. intros z H. unfold wrap32. rewrite Z.mod_small; lia. Qed.
Lemma wrap32_range : forall z, - 2 ^ 31 <= wrap32 z < 2 ^ 31.
Proof. intros z. unfold wrap32. pose proof (Z.mod_pos_bound (z + 2147483648) 4294967296). lia. Qed.
Lemma adjust_later : forall now playing s, 0 <= s < 2 ^ 31 -> 0 <= adjust now playing s -> s <= adjust now playing s.
Proof.
  intros now playing s H K. unfold adjust in *. pose proof (wrap32_range now) as R.
  set (s0 := if s <? wrap32 now then wrap32 now else s) in *.
  assert (s <= s0 < 2 ^ 31) by (unfold s0; destruct (s <? wrap32 now) eqn:E; lia). clearbody s0.
  destruct (playing && (wrap32 (s0 - wrap32 now) <? 500))%bool; [|lia].
  destruct (Z_lt_ge_dec (s0 + 500) (2 ^ 31)) as [G|G]; [rewrite (wrap32_small (s0 + 500)) by lia; lia|].
  exfalso. unfold wrap32 in K. rewrite <- (Z.mod_unique (s0 + 500 + 2147483648) 4294967296 1 (s0 + 500 + 2147483648 - 4294967296)) in K; lia.
Qed.

Lemma fold_max : forall l x, x <= fold_left Z.max l x /\ Forall (fun y => y <= fold_left Z.max l x) l /\ In (fold_left Z.max l x) (x :: l).
Proof.
  induction l as [|y l IH]; intros x; cbn [fold_left]; [split; [lia|split; [constructor|left; reflexivity]]|].
  destruct (IH (Z.max x y)) as (A & B & C). split; [lia|]. split; [constructor; [lia|exact B]|].
  destruct C as [C|C]; [|right; right; exact C]. rewrite <- C. destruct (Z.max_spec x y) as [[_ ->]|[_ ->]]; [right; left; reflexivity|left; reflexivity].
Qed.
Lemma next_start_max : forall start es, es <> [] -> Forall (fun e => end_offset e <= next_start start es) es /\
  exists e, In e es /\ end_offset e = next_start start es.
Proof.
  intros start [|e es] H; [congruence|]. unfold next_start. cbn [map]. destruct (fold_max (map end_offset es) (end_offset e)) as (A & B & C). split.
  - constructor; [exact A|]. rewrite Forall_map in B. exact B.
  - destruct C as [C|C]; [exists e; split; [left; reflexivity|exact C]|]. apply in_map_iff in C. destruct C as (e' & E & I). exists e'. split; [right; exact I|exact E].
Qed.

(** A musical batch starts where it is placed and ends with its last note. *)
Lemma musical_ends : forall p r, linked (p :: r) -> musical p ->
  Forall (fun e => pl_start p <= e_off e /\ (is_enote e = true -> e_off e + duration_of e <= pl_next p)) (pl_events p) /\
  pl_start p <= pl_next p < 2 ^ 31 /\
  Forall2 (fun e e' => e_off e' = pl_start p + e_off e /\ duration_of e' = duration_of e) (pl_batch p) (pl_events p).
Proof.
  intros p r (_ & E & K & _) (Hn & S & F). rewrite E in *. set (st := pl_start p) in *. set (bs := pl_batch p) in *.
  assert (G : Forall2 (fun e e' => e_off e' = st + e_off e /\ duration_of e' = duration_of e /\ is_enote e' = is_enote e /\ (is_enote e = true -> end_offset e' = e_off e' + duration_of e')) bs (map (add_offset st) bs)).
  { clear -F S. induction bs as [|e bs IH]; [constructor|]. inversion F as [|? ? (A & B & C) F']; subst. constructor; [|apply IH; exact F'].
    destruct e; cbn [e_off duration_of add_offset is_enote end_offset] in *; rewrite ?(wrap32_small (off + st)) by lia; (split; [lia|]; split; [reflexivity|]; split; [reflexivity|]; intros; try discriminate; rewrite wrap32_small; lia). }
  assert (NE : map (add_offset st) bs <> []) by (destruct bs; [discriminate|discriminate]).
  destruct (next_start_max (start_of r) _ NE) as [M1 (e0 & I0 & M2)]. rewrite <- K in *.
  assert (Hev : Forall (fun e => st <= e_off e /\ (is_enote e = true -> e_off e + duration_of e <= pl_next p)) (map (add_offset st) bs)).
  { apply Forall_forall. intros e' He'. rewrite Forall_forall in M1. specialize (M1 e' He').
    apply in_map_iff in He'. destruct He' as (e & <- & He). rewrite Forall_forall in F. specialize (F e He). cbn beta in F.
    assert (Q : e_off (add_offset st e) = st + e_off e /\ (is_enote (add_offset st e) = true -> end_offset (add_offset st e) = e_off (add_offset st e) + duration_of (add_offset st e))).
    { destruct e; cbn [e_off duration_of add_offset is_enote end_offset] in *; rewrite ?(wrap32_small (off + st)) by lia; (split; [lia|]; intros; try discriminate; rewrite wrap32_small; lia). }
    destruct Q as [Q1 Q2]. split; [lia|]. intros Hi. specialize (Q2 Hi). lia. }
  split; [exact Hev|]. split.
  - split.
    + apply existsb_exists in Hn. destruct Hn as (e & He & Hi). rewrite Forall_forall in Hev. specialize (Hev (add_offset st e) (in_map _ _ _ He)).
      rewrite Forall_forall in F. specialize (F e He). destruct e; try discriminate. cbn [e_off duration_of add_offset is_enote] in *. specialize (proj2 Hev eq_refl). lia.
    + rewrite <- M2. unfold end_offset. destruct e0; try lia. apply wrap32_range.
  - clear -G. induction G as [|a b l l' (A & B & _) G IH]; [constructor|]. constructor; [split; assumption|exact IH].
Qed.

Lemma linked_tail : forall p l, linked (p :: l) -> linked l.
Proof. intros p l H. cbn [linked] in H. apply H. Qed.
Lemma linked_after : forall l, linked l -> Forall musical l ->
  0 <= start_of l < 2 ^ 31 /\
  Forall (fun p => Forall (fun e => is_enote e = true -> e_off e + duration_of e <= start_of l) (pl_events p)) l.
Proof.
  induction l as [|p l IH]; intros L M; [split; [cbn; lia|constructor]|]. inversion M as [|? ? Mp Ml]; subst.
  destruct (IH (linked_tail p l L) Ml) as [R F]. destruct (musical_ends p l L Mp) as (E & B & _).
  destruct L as ((now & pl & S) & _). pose proof (adjust_later now pl (start_of l) R) as A. rewrite <- S in A.
  destruct Mp as (_ & S0 & _). specialize (A S0). cbn [start_of]. split; [lia|]. constructor.
  - eapply Forall_impl; [|exact E]. cbn. intros e [_ K]. exact K.
  - eapply Forall_impl; [|exact F]. cbn. intros q Fq. eapply Forall_impl; [|exact Fq]. cbn. intros e K Hi. specialize (K Hi). lia.
Qed.
Lemma FOP_snoc : forall A (R : A -> A -> Prop) l x, ForallOrdPairs R l -> Forall (fun y => R y x) l -> ForallOrdPairs R (l ++ [x]).
Proof.
  induction l as [|y l IH]; intros x H F; cbn [app]; [repeat constructor|]. inversion H as [|? ? Fy Hl]; subst. inversion F; subst. constructor; [|apply IH; assumption].
  apply Forall_app. split; [assumption|]. constructor; [assumption|constructor].
Qed.
Lemma c37_apart : forall l t, acts l new_track = Some t -> no_clear l -> Forall musical (history t) ->
  ForallOrdPairs (fun p q => forall e e', In e (pl_events p) -> In e' (pl_events q) -> is_enote e = true -> e_off e + duration_of e <= e_off e') (history t) /\
  Forall (fun p => Forall2 (fun e e' => e_off e' = pl_start p + e_off e /\ duration_of e' = duration_of e) (pl_batch p) (pl_events p)) (history t).
Proof.
  intros l t H C M. pose proof (acts_linked l t H C) as L. unfold history in *. apply Forall_rev in M. rewrite rev_involutive in M.
  generalize dependent (tr_done t). clear. intros l M L. induction l as [|p l IH]; [split; constructor|]. inversion M as [|? ? Mp Ml]; subst.
  destruct (IH Ml (linked_tail p l L)) as [A B]. destruct (linked_after l (linked_tail p l L) Ml) as [R F]. destruct (musical_ends p l L Mp) as (E & _ & G).
  destruct L as ((now & pl & S) & _). pose proof (adjust_later now pl (start_of l) R) as A'. rewrite <- S in A'. specialize (A' (proj1 (proj2 Mp))).
  cbn [rev]. split.
  - apply FOP_snoc; [exact A|]. apply Forall_rev. eapply Forall_impl; [|exact F]. cbn. intros q Fq e e' He He' Hi.
    rewrite Forall_forall in Fq, E. specialize (Fq e He Hi). specialize (E e' He'). cbn beta in E. lia.
  - apply Forall_app. split; [exact B|]. constructor; [exact G|constructor].
Qed.

Lemma act_new : forall a t t', act a t = Some t' -> a <> AClear -> exists new lost, tr_done t' = new ++ tr_done t /\
  Permutation (on_the_way t ++ tr_queue t ++ puts [a]) (map pl_batch new ++ on_the_way t' ++ tr_queue t' ++ lost).
Proof.
  intros a [q th li bu st dn] t' H C. unfold on_the_way, puts. destruct a as [b| |i| |now pl| |]; cbn [act] in H; try congruence.
  - inversion H; subst. exists [], []. split; [reflexivity|]. cbn. rewrite !app_nil_r. apply Permutation_refl.
  - destruct q as [|b q]; [discriminate|]. inversion H; subst. exists [], []. split; [reflexivity|]. cbn. rewrite !app_nil_r, <- !app_assoc. apply Permutation_refl.
  - destruct (remove_nth i th) as [[b th']|] eqn:E; [|discriminate]. inversion H; subst. exists [], []. split; [reflexivity|]. cbn. rewrite !app_nil_r.
    apply remove_nth_perm in E. rewrite E. rewrite <- !app_assoc. apply Permutation_refl.
  - destruct li as [|b li]; [discriminate|]. destruct bu; [discriminate|]. inversion H; subst. exists [], []. split; [reflexivity|]. cbn. rewrite !app_nil_r. apply Permutation_refl.
  - destruct bu as [[b s]|]; [|discriminate]. cbn in H. inversion H; subst. eexists [_], []. split; [reflexivity|]. cbn. rewrite !app_nil_r. apply Permutation_refl.
  - destruct bu as [[b s]|]; [|discriminate]. inversion H; subst. exists [], [b]. split; [reflexivity|]. cbn. rewrite !app_nil_r. rewrite app_assoc. apply Permutation_cons_append.
Qed.
Lemma perm_shuffle : forall A (a l b o r : list A), Permutation (a ++ l ++ b ++ o ++ r) ((b ++ a) ++ o ++ l ++ r).
Proof.
  intros. rewrite (app_assoc a l). eapply perm_trans; [apply Permutation_app_swap_app|]. rewrite <- !app_assoc.
  apply Permutation_app_head, Permutation_app_head, Permutation_app_swap_app.
Qed.
Lemma acts_new : forall l t t', acts l t = Some t' -> exists new rest, tr_done t' = new ++ tr_done t /\
  Permutation (on_the_way t ++ tr_queue t ++ puts l) (map pl_batch new ++ rest).
Proof.
  assert (G : forall l t t', acts l t = Some t' -> exists new rest, tr_done t' = new ++ tr_done t /\
    Permutation (on_the_way t ++ tr_queue t ++ puts l) (map pl_batch new ++ (on_the_way t' ++ tr_queue t') ++ rest)).
  { induction l as [|a l IH]; intros t t' H; cbn [acts] in H.
    - inversion H; subst. exists [], []. split; [reflexivity|]. cbn [puts flat_map map app]. rewrite !app_nil_r. apply Permutation_refl.
    - destruct (act a t) as [t1|] eqn:E; [|discriminate]. destruct (IH t1 t' H) as (n2 & r2 & D2 & P2).
      change (a :: l) with ([a] ++ l). rewrite puts_app. 
      assert (X : exists n1 l1, tr_done t1 = n1 ++ tr_done t /\ Permutation (on_the_way t ++ tr_queue t ++ puts [a]) (map pl_batch n1 ++ on_the_way t1 ++ tr_queue t1 ++ l1)).
      { destruct a as [b| |i| |now pl| |]; try (apply (act_new _ _ _ E); discriminate).
        destruct t as [q th li bu st dn]. cbn in E. inversion E; subst. exists [], q. split; [reflexivity|]. cbn. rewrite !app_nil_r. apply Permutation_refl. }
      destruct X as (n1 & l1 & D1 & P1). exists (n2 ++ n1), (l1 ++ r2). split; [rewrite D2, D1, app_assoc; reflexivity|].
      rewrite map_app. 
      eapply perm_trans with (l' := (map pl_batch n1 ++ on_the_way t1 ++ tr_queue t1 ++ l1) ++ puts l).
      { rewrite <- P1. rewrite <- !app_assoc. apply Permutation_refl. }
      eapply perm_trans with (l' := map pl_batch n1 ++ l1 ++ (on_the_way t1 ++ tr_queue t1 ++ puts l)).
      { rewrite <- !app_assoc. apply Permutation_app_head. rewrite !app_assoc. apply Permutation_app_tail. rewrite <- !app_assoc. rewrite (app_assoc (on_the_way t1)). apply Permutation_app_comm. }
      eapply perm_trans; [apply Permutation_app_head, Permutation_app_head, P2|].
      apply perm_shuffle. }
  intros l t t' H. destruct (G l t t' H) as (n & r & D & P). exists n, ((on_the_way t' ++ tr_queue t') ++ r). split; assumption.
Qed.
Lemma c38 : forall l1 l2 t1 t, acts l1 new_track = Some t1 -> acts (AClear :: l2) t1 = Some t ->
  exists new rest, tr_done t = new ++ tr_done t1 /\ Permutation (on_the_way t1 ++ puts l2) (map pl_batch new ++ rest).
Proof.
  intros l1 l2 t1 t _ H. cbn [acts act] in H. destruct t1 as [q th li bu st dn]. destruct (acts_new l2 _ t H) as (n & r & D & P). exists n, r. split; [exact D|exact P].
Qed.
Lemma c38_later : forall l1 l2 t1 t, acts l1 new_track = Some t1 -> on_the_way t1 = [] -> acts (AClear :: l2) t1 = Some t ->
  exists new rest, tr_done t = new ++ tr_done t1 /\ Permutation (puts l2) (map pl_batch new ++ rest).
Proof. intros l1 l2 t1 t H O K. destruct (c38 l1 l2 t1 t H K) as (n & r & D & P). rewrite O in P. exists n, r. split; assumption. Qed.
