(** The player understands what the client sends (C40). *)
From Coq Require DecimalPos DecimalZ DecimalFacts.
From Coq Require Import Decimal DecimalString.
From Coq Require Import ZArith List String Ascii Bool Lia ZifyBool.
From Verif Require Import Base Num ModelPitch ModelDuration ModelInstruments ModelTypes ModelLisp ModelScore ModelOsc SpecOsc ProofOsc ModelPlayer SpecPlayer.
Import ListNotations.
Local Open Scope string_scope.
Local Open Scope list_scope.
Local Open Scope Z_scope.

Definition starts_plain (r : string) : Prop := match r with String c _ => is_digit c = false | EmptyString => True end.
Lemma digits_string : forall d r, starts_plain r -> digits (NilEmpty.string_of_uint d ++ r)%string = (NilEmpty.string_of_uint d, r).
Proof.
  induction d as [|d IH|d IH|d IH|d IH|d IH|d IH|d IH|d IH|d IH|d IH]; intros r H.
  1:{ cbn. destruct r as [|c r]; [reflexivity|]. cbn in H. cbn [digits]. rewrite H. reflexivity. }
  all: cbn [NilEmpty.string_of_uint String.append digits]; rewrite (IH r H); reflexivity.
Qed.
Lemma decimal_uint : forall t, 0 <= t -> exists d, decimal t = NilEmpty.string_of_uint d /\ d <> Nil /\ Z.of_uint d = t.
Proof.
  intros t H. unfold decimal. pose proof (DecimalZ.of_to t) as O. destruct t as [|p|p]; [|cbn [Z.to_int] in *|lia].
  - exists (D0 Nil). split; [reflexivity|]. split; [discriminate|reflexivity].
  - exists (Pos.to_uint p). assert (N0 : Pos.to_uint p <> Nil) by apply DecimalPos.Unsigned.to_uint_nonnil. split; [|split; [exact N0|exact O]].
    cbn. unfold NilZero.string_of_uint. destruct (Pos.to_uint p); congruence.
Qed.
Lemma track_address_decimal : forall t r, 0 <= t < 2 ^ 31 -> starts_plain r ->
  track_address ("/track/" ++ decimal t ++ r)%string = Some (Some t, r).
Proof.
  intros t r H R. destruct (decimal_uint t (proj1 H)) as (d & E & Nd & V). rewrite E. unfold track_address.
  change (strip "/track/" ("/track/" ++ (NilEmpty.string_of_uint d ++ r))%string) with (Some (NilEmpty.string_of_uint d ++ r)%string).
  cbv iota beta. rewrite (digits_string d r R).
  assert (X : NilZero.uint_of_string (NilEmpty.string_of_uint d) = Some d).
  { replace (NilEmpty.string_of_uint d) with (NilZero.string_of_uint d) by (destruct d; [congruence|reflexivity..]). apply NilZero.usu, Nd. }
  destruct (NilEmpty.string_of_uint d) as [|c s] eqn:Es; [destruct d; cbn in Es; congruence|].
  rewrite X. rewrite V. replace (t <? 2 ^ 31) with true by lia. reflexivity.
Qed.

Section Packets.
Context {N : Num}.

Lemma not_system : forall t r a, (forall s, a <> String "/" (String "t" s)) -> String.eqb ("/track/" ++ decimal t ++ r)%string a = false.
Proof. intros t r a H. apply String.eqb_neq. intros E. apply (H ("rack/" ++ decimal t ++ r)%string). rewrite <- E. reflexivity. Qed.
Ltac sys := repeat (rewrite not_system by (intros ? ?; discriminate)).

(** What a message does to the state: one step. *)
Definition step (m : msg) (u : updates) : updates :=
  match event_of m with
  | Some (t, e) => add_event t e u
  | None =>
      let v := match system_of m with [y] => add_system y u | _ => u end in
      match m with
      | MPing => Updates true (u_shutdown u) (u_play u) (u_stop u) (u_clear u) (u_system u) (u_clears u) (u_tracks u)
      | MPlay => Updates (u_ping u) (u_shutdown u) true (u_stop u) (u_clear u) (u_system u) (u_clears u) (u_tracks u)
      | MStop => Updates (u_ping u) (u_shutdown u) (u_play u) true (u_clear u) (u_system u) (u_clears u) (u_tracks u)
      | MShutdown o => if o =? 0 then Updates (u_ping u) true (u_play u) (u_stop u) (u_clear u) (u_system u) (u_clears u) (u_tracks u) else v
      | _ => v
      end
  end.
Lemma parse_encode : forall m u, numbered m -> parse (encode m) u = step m u.
Proof.
  intros m u H. destruct m; try reflexivity.
  1: (cbn [encode parse o_address o_args step event_of system_of String.eqb Ascii.eqb Bool.eqb]; destruct (off =? 0); reflexivity).
  all: cbn [numbered event_of] in H; unfold parse; cbn [encode o_address o_args]; sys; rewrite (track_address_decimal _ _ H) by reflexivity; reflexivity.
Qed.

Lemma aget_aset : forall A (k k' : Z) (v : A) m, aget Z.eqb k (aset Z.eqb k' v m) = if k' =? k then Some v else aget Z.eqb k m.
Proof.
  intros A k k' v. induction m as [|[a b] m IH]; cbn [aset aget].
  - reflexivity.
  - destruct (a =? k') eqn:E; cbn [aget].
    + destruct (a =? k) eqn:F; destruct (k' =? k) eqn:G; try reflexivity; lia.
    + destruct (a =? k) eqn:F; [destruct (k' =? k) eqn:G; [lia|reflexivity]|]. exact IH.
Qed.

Lemma adds_step : forall ms u m, adds_up ms u -> adds_up (ms ++ [m]) (step m u).
Proof.
  intros ms u m (A & B & C & D & E & F & G & H). unfold adds_up. unfold events_for in *. rewrite flat_map_app. cbn [flat_map]. rewrite app_nil_r.
  assert (I : forall x, In x (ms ++ [m]) <-> In x ms \/ m = x) by (intros x; rewrite in_app_iff; cbn; intuition).
  destruct (event_of m) as [[t' e]|] eqn:V.
  - assert (S : step m u = add_event t' e u) by (unfold step; rewrite V; reflexivity). rewrite S.
    assert (Y : system_of m = []) by (destruct m; try discriminate V; reflexivity). rewrite Y, app_nil_r.
    split.
    { intros t. rewrite flat_map_app. rewrite <- A. cbn [flat_map]. rewrite V. unfold track_events, add_event. cbn [u_tracks]. rewrite aget_aset.
      destruct (t' =? t) eqn:T; [|rewrite app_nil_r; reflexivity]. replace t' with t by lia. reflexivity. }
    cbn [add_event u_system u_ping u_shutdown u_play u_stop u_clear u_clears]. split; [exact B|].
    rewrite !I. repeat split; try tauto; intros [K|K]; try tauto; rewrite K in V; discriminate V.
  - assert (Z0 : forall t, flat_map (fun m => match event_of m with Some (t', e) => if t' =? t then [e] else [] | None => [] end) (ms ++ [m]) = track_events u t).
    { intros t. rewrite flat_map_app. cbn [flat_map]. rewrite V, app_nil_r. symmetry. apply A. }
    assert (T : forall t, track_events (step m u) t = track_events u t).
    { intros t. unfold step. rewrite V. unfold track_events. destruct m; cbn; try reflexivity. destruct (off =? 0); reflexivity. }
    split; [intros t; rewrite T, Z0; reflexivity|]. clear A Z0 T. rewrite !I.
    destruct m; try discriminate V; cbn; rewrite ?app_nil_r, ?B.
    all: try (split; [reflexivity|]; repeat split; try tauto; try (intros [K|K]; [tauto|discriminate K]); intros K; try (right; reflexivity); tauto).
    destruct (off =? 0) eqn:O; cbn; rewrite ?app_nil_r, ?B.
    + replace off with 0 by lia. split; [reflexivity|]; repeat split; try tauto; try (intros [K|K]; [tauto|discriminate K]); intros K; try (right; reflexivity); tauto.
    + split; [reflexivity|]; repeat split; try tauto; try (intros [K|K]; [tauto|]; try discriminate K; inversion K; lia); intros K; tauto.
Qed.
Lemma parse_adds : forall ms, Forall numbered ms -> adds_up ms (parse_updates (map encode ms)).
Proof.
  intros ms. unfold parse_updates. induction ms as [|m ms IH] using rev_ind; intros F.
  - cbn. unfold adds_up. cbn. repeat split; intros; try tauto; try discriminate.
  - apply Forall_app in F. destruct F as [F1 F2]. inversion F2; subst. rewrite map_app, fold_left_app. cbn [map fold_left]. rewrite parse_encode by assumption. apply adds_step, IH, F1.
Qed.

(** Tracks are numbered from 1 to the number of parts. *)
Lemma aset_val : forall A (k : nat) (v : A) m k' v', In (k', v') (aset Nat.eqb k v m) -> v' = v \/ In (k', v') m.
Proof.
  intros A k v. induction m as [|[a b] m IH]; intros k' v' H; cbn [aset] in H.
  - destruct H as [H|[]]. inversion H; subst. left; reflexivity.
  - destruct (Nat.eqb a k); cbn [In] in *.
    + destruct H as [H|H]; [inversion H; subst; left; reflexivity|right; right; exact H].
    + destruct H as [H|H]; [right; left; exact H|]. destruct (IH k' v' H); [left; assumption|right; right; assumption].
Qed.
Lemma aget_some_in : forall A (k : nat) (m : list (nat * A)) v, aget Nat.eqb k m = Some v -> exists k', In (k', v) m.
Proof.
  intros A k. induction m as [|[a b] m IH]; intros v H; cbn [aget] in H; [discriminate|].
  destruct (Nat.eqb a k); [inversion H; subst; exists a; left; reflexivity|]. destruct (IH v H) as [k' I]. exists k'. right; exact I.
Qed.
Lemma tracks_range : forall s, Z.of_nat (List.length (parts s)) < 2 ^ 31 - 1 ->
  forall o z, aget Nat.eqb o (tracks s) = Some z -> 0 <= z < 2 ^ 31.
Proof.
  intros s L o z H. apply aget_some_in in H. destruct H as [k' H]. unfold tracks in H.
  assert (G : forall l m, (forall i p, In (i, p) l -> (i < List.length (parts s))%nat) -> (forall k v, In (k, v) m -> 0 <= v < 2 ^ 31) ->
    forall k v, In (k, v) (fold_left (fun m '(i, p) => aset Nat.eqb (porigin (getp s p)) (wrap32 (Z.of_nat i + 1)) m) l m) -> 0 <= v < 2 ^ 31).
  { induction l as [|[i p] l IH]; intros m Hl Hm k v K; cbn [fold_left] in K; [apply (Hm k v K)|].
    apply (IH _ (fun i p I => Hl i p (or_intror I))) in K; [exact K|]. intros k1 v1 I. apply aset_val in I. destruct I as [-> |I]; [|apply (Hm k1 v1 I)].
    specialize (Hl i p (or_introl eq_refl)). unfold wrap32. rewrite Z.mod_small; lia. }
  apply (G _ _) in H; [exact H| |intros ? ? []]. intros i p I. apply in_combine_l in I. apply in_seq in I. lia.
Qed.
Lemma note_step_numbered : forall s start sync c e, (forall o z, aget Nat.eqb o (tracks s) = Some z -> 0 <= z < 2 ^ 31) ->
  Forall numbered (snd (note_step s start sync c e)).
Proof.
  intros s start sync c e T. unfold note_step. cbn [snd].
  set (track := match aget Nat.eqb (ev_part e) (tracks s) with Some t => t | None => 0 end).
  assert (R : 0 <= track < 2 ^ 31) by (unfold track; destruct (aget Nat.eqb (ev_part e) (tracks s)) eqn:E; [apply (T _ _ E)|lia]). clearbody track.
  repeat (apply Forall_app; split); try (destruct (_ : bool); [|constructor]); (constructor; [exact R|constructor]).
Qed.
Lemma note_loop_numbered : forall s start stop sync, (forall o z, aget Nat.eqb o (tracks s) = Some z -> 0 <= z < 2 ^ 31) ->
  forall l c, Forall numbered (snd (note_loop s start stop sync c l)).
Proof.
  intros s start stop sync T. induction l as [|e l IH]; intros c; cbn [note_loop]; [constructor|].
  destruct (nltb (ev_off e) start); [apply IH|]. destruct (nleb stop (ev_off e)); [constructor|].
  pose proof (note_step_numbered s start sync c e T) as X. destruct (note_step s start sync c e) as [c1 m1].
  specialize (IH c1). destruct (note_loop s start stop sync c1 l) as [c2 m2]. apply Forall_app. split; assumption.
Qed.
Lemma transmits_numbered : forall t s s' b, transmits t s s' (ROk b) -> Z.of_nat (List.length (parts s)) < 2 ^ 31 - 1 -> Forall numbered b.
Proof.
  intros t s s' b H L. inversion H; subst. unfold bundle_of.
  pose proof (note_loop_numbered s start stop (t_sync t) (tracks_range s L) sorted (Channels [] [] [] n0)) as X.
  destruct (note_loop s start stop (t_sync t) (Channels [] [] [] n0) sorted) as [c notes].
  apply Forall_app; split; [|apply Forall_app; split; [exact X|apply Forall_app; split]].
  - destruct (nonempty (t_sync t)); [constructor|]. apply Forall_forall. intros m I. apply tempo_loop_kind in I. destruct m; try discriminate I. exact Logic.I.
  - destruct (t_load t); repeat constructor.
  - destruct (t_oneoff t); repeat constructor.
Qed.
Lemma c40_bundle : forall t s s' b, transmits t s s' (ROk b) -> Z.of_nat (List.length (parts s)) < 2 ^ 31 - 1 ->
  adds_up b (parse_updates (map encode b)).
Proof. intros. apply parse_adds. eapply transmits_numbered; eassumption. Qed.
End Packets.
