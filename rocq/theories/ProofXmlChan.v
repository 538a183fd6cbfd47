(** Channels for at most 15 melodic instruments (C57). *)
From Coq Require Import ZArith String List Bool Lia Arith.
From Verif Require Import Base Num ModelPitch ModelDuration ModelInstruments ModelTypes ModelLisp ModelScore.
Import ListNotations.
Local Open Scope list_scope.
Local Open Scope Z_scope.

Section Chan.
Context {N : Num}.

(** The table of channels when these instruments have got theirs, in order. *)
Definition layout (os : list pid) : list (list pid) :=
  let r := map (fun q => [q]) os ++ repeat [] (15 - List.length os) in
  firstn 9 r ++ [] :: skipn 9 r.
Lemma concat_layout : forall os, concat (layout os) = os.
Proof.
  intros os. unfold layout. cbv zeta. rewrite concat_app. cbn [concat app]. rewrite <- concat_app, firstn_skipn, concat_app.
  assert (E : forall n, concat (repeat (@nil pid) n) = []) by (induction n; [reflexivity|assumption]).
  rewrite E, app_nil_r. induction os as [|x os IH]; [reflexivity|]. cbn [map concat app]. now rewrite IH.
Qed.
Lemma layout_inj : forall a b, layout a = layout b -> a = b.
Proof. intros a b H. now rewrite <- (concat_layout a), H, concat_layout. Qed.
(** [q] has a channel or can get one. *)
Definition room (q : pid) (os : list pid) : Prop := (List.length os <= 15)%nat /\ (In q os \/ (List.length os < 15)%nat).
(** The owners after [q] has played. *)
Definition joined (q : pid) (os os' : list pid) : Prop := os' = os \/ ~ In q os /\ os' = os ++ [q].

Lemma joined_room : forall q os os', room q os -> joined q os os' -> room q os'.
Proof.
  intros q os os' [H1 H2] [-> | [H3 ->]]; [now split|]. split.
  - rewrite app_length. cbn. destruct H2 as [H2|H2]; [contradiction|lia].
  - left. apply in_or_app. right. now left.
Qed.


Ltac owners_case q Hr :=
  cbv [layout List.length Nat.sub map app repeat firstn skipn find all_channels Z.eqb Pos.eqb negb andb orb Z.to_nat Pos.to_nat Pos.iter_op Nat.add nth];
  repeat match goal with |- context [Nat.eqb ?a q] => destruct (Nat.eqb_spec a q); [subst a|]; cbn [orb andb negb] end;
  first
    [ exfalso; destruct Hr as [Hr|Hr]; cbn [In List.length] in Hr; [intuition congruence|lia]
    | match goal with |- exists c os', Some ?z = Some c /\ _ => exists z end;
      cbv [List.length Nat.sub map app repeat firstn skipn Z.to_nat Pos.to_nat Pos.iter_op Nat.add nth existsb upd_nth];
      rewrite ?Nat.eqb_refl; cbn [orb];
      first
        [ eexists; split; [reflexivity|]; split; [lia|]; split; [left; reflexivity|reflexivity]
        | eexists; split; [reflexivity|]; split; [lia|]; split; [right; split; [cbn [In]; intuition congruence|reflexivity]|reflexivity] ] ].
Lemma simple_ok : forall (s : score) os q, usage s = layout os -> room q os ->
  exists c os', simple_check s q = Some c /\ 0 <= c < 16 /\ joined q os os' /\
    (if existsb (Nat.eqb q) (usage_at s c) then usage s else upd_nth (Z.to_nat c) (usage_at s c ++ [q]) (usage s)) = layout os'.
Proof.
  intros s os q Hu [Hl Hr]. unfold simple_check, channel_unused, exclusive, usage_at, joined. rewrite Hu. clear Hu.
  do 16 (destruct os as [|? os]; [owners_case q Hr|]). cbn in Hl. lia.
Qed.

Definition chan_good (p : part) : Prop := pchan p = -1 \/ 0 <= pchan p < 16.

Lemma assign_ok : forall (s : score) os p aud, usage s = layout os -> room (porigin p) os ->
  pexplicit p = false -> iperc (pstock p) = false -> chan_good p ->
  exists c os', assign_channel s p aud = ROk (c, set_usage (layout os') s) /\ 0 <= c < 16 /\ joined (porigin p) os os'.
Proof.
  intros s os p aud Hu Hr He Hp Hc. unfold assign_channel, determine_channel. rewrite He, Hp.
  assert (Same : set_usage (usage s) s = s) by (destruct s; reflexivity).
  assert (Av : exists c os', rbind (available_channel s p aud) (fun c =>
      if negb (chan_ok c) then RPanic "index out of range"
      else let ps := usage_at s c in
           if existsb (Nat.eqb (porigin p)) ps then ROk (c, s)
           else ROk (c, set_usage (upd_nth (Z.to_nat c) (ps ++ [porigin p]) (usage s)) s))
      = ROk (c, set_usage (layout os') s) /\ 0 <= c < 16 /\ joined (porigin p) os os').
  { destruct (simple_ok s os (porigin p) Hu Hr) as (c & os' & E & Rc & J & U).
    exists c, os'. split; [|now split]. unfold available_channel. rewrite E. cbn [rbind].
    assert (chan_ok c = true) as -> by (unfold chan_ok; lia). cbn [negb]. cbv zeta.
    destruct (existsb _ _); [|now rewrite U]. now rewrite <- U, Same. }
  destruct (pchan p =? -1) eqn:E1; cbn [negb]; [exact Av|].
  assert (Rp : 0 <= pchan p < 16) by (destruct Hc; [lia|assumption]).
  assert (Ok1 : chan_ok (pchan p) = true) by (unfold chan_ok; lia).
  rewrite Ok1. cbn [negb]. destruct (exclusive s (porigin p) (pchan p)) eqn:E2; [|exact Av].
  exists (pchan p), os. cbn [rbind]. rewrite Ok1. cbn [negb].
  unfold exclusive in E2. destruct (usage_at s (pchan p)) as [|x [|]]; try discriminate.
  cbv zeta. cbn [existsb]. rewrite Nat.eqb_sym, E2. cbn [orb]. rewrite <- Hu, Same.
  split; [reflexivity|]. split; [exact Rp|now left].
Qed.
End Chan.
