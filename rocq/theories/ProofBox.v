(** Proofs about boxes. *)
From Coq Require Import ZArith List Bool Lia.
From Verif Require Import Base ModelScan ModelShowTree ModelBox SpecBox.
Import ListNotations.
Local Open Scope Z_scope.

Lemma split_nonempty t : split_lines t <> [].
Proof. destruct t as [|r t]; [discriminate|]. cbn [split_lines]. destruct (r =? newline); [discriminate|]. destruct (split_lines t); discriminate. Qed.
Lemma split_clean t : Forall (fun l => ~ In newline l) (split_lines t).
Proof.
  induction t as [|r t IH]; [constructor; [intros []|constructor]|]. cbn [split_lines]. destruct (Z.eqb_spec r newline) as [E|E]; [constructor; [intros []|exact IH]|].
  destruct (split_lines t) as [|l ls]; [constructor; [|constructor]; intros [H|[]]; congruence|]. inversion IH as [|? ? A B]; subst. constructor; [|exact B]. intros [H|H]; [congruence|contradiction].
Qed.
Lemma split_app l t : ~ In newline l -> split_lines (l ++ newline :: t) = l :: split_lines t.
Proof.
  induction l as [|r l IH]; intros H; cbn [app split_lines]; [reflexivity|]. destruct (Z.eqb_spec r newline) as [E|E]; [elim H; left; exact E|].
  rewrite IH; [reflexivity|]. intros X. apply H. right. exact X.
Qed.
Lemma split_one l : ~ In newline l -> split_lines l = [l].
Proof.
  induction l as [|r l IH]; intros H; cbn [split_lines]; [reflexivity|]. destruct (Z.eqb_spec r newline) as [E|E]; [elim H; left; exact E|].
  rewrite IH; [reflexivity|]. intros X. apply H. right. exact X.
Qed.
Lemma split_join ls : ls <> [] -> Forall (fun l => ~ In newline l) ls -> split_lines (join_lines ls) = ls.
Proof.
  induction ls as [|l ls IH]; intros H F; [now elim H|]. inversion F as [|? ? A B]; subst. destruct ls as [|m ls]; [now apply split_one|].
  change (split_lines (l ++ newline :: join_lines (m :: ls)) = l :: m :: ls). rewrite split_app by exact A. f_equal. apply IH; [discriminate|exact B].
Qed.

Section Box.
Variable strip : list rune -> list rune.
Lemma longest_ge ls : forall m, (m <= fold_left (fun m l => if (m <? line_length strip l)%nat then line_length strip l else m) ls m)%nat /\
  Forall (fun l => line_length strip l <= fold_left (fun m l => if (m <? line_length strip l)%nat then line_length strip l else m) ls m)%nat ls.
Proof.
  induction ls as [|l ls IH]; intros m; cbn [fold_left]; [split; [lia|constructor]|]. destruct (IH (if (m <? line_length strip l)%nat then line_length strip l else m)) as [A B].
  destruct (Nat.ltb_spec m (line_length strip l)); split; [lia|constructor; [lia|exact B]|lia|constructor; [lia|exact B]].
Qed.
Lemma longest_attained ls : forall m, let w := fold_left (fun m l => if (m <? line_length strip l)%nat then line_length strip l else m) ls m in
  w = m \/ exists l, In l ls /\ line_length strip l = w.
Proof.
  induction ls as [|l ls IH]; intros m; cbn [fold_left]; [left; reflexivity|]. destruct (IH (if (m <? line_length strip l)%nat then line_length strip l else m)) as [E|(x & Hx & E)].
  - destruct (m <? line_length strip l)%nat; [right; exists l; split; [left; reflexivity|now rewrite E]|left; exact E].
  - right. exists x. split; [right; exact Hx|exact E].
Qed.

Lemma frame_clean l : Forall frame_char l -> ~ In newline l.
Proof.
  intros F H. rewrite Forall_forall in F. specialize (F _ H). unfold frame_char, newline, space, horizontal, vertical, corner_tl, corner_tr, corner_bl, corner_br in F.
  cbn in F. intuition discriminate.
Qed.
Lemma frame_repeat r n : frame_char r -> Forall frame_char (repeat r n).
Proof. intros H. apply Forall_forall. intros x Hx. apply repeat_spec in Hx. now subst. Qed.
Ltac fr := unfold frame_char; cbn; tauto.

Theorem c72_box t : self_contained strip [] -> strip [] = [] -> Forall (self_contained strip) (split_lines t) ->
  exists w pads, Forall (fun l => (length (strip l) <= w)%nat) (split_lines t) /\ (w = 0%nat \/ exists l, In l (split_lines t) /\ length (strip l) = w) /\
    split_lines (boxed strip t) =
      (corner_tl :: repeat horizontal (w + 2) ++ [corner_tr]) :: (vertical :: repeat space (w + 2) ++ [vertical]) ::
      map (fun p => [vertical; space] ++ fst p ++ repeat space (snd p) ++ [space; vertical]) (combine (split_lines t) pads) ++
      [vertical :: repeat space (w + 2) ++ [vertical]; corner_bl :: repeat horizontal (w + 2) ++ [corner_br]] /\
    length pads = length (split_lines t) /\
    Forall (fun l => length (strip l) = (w + 4)%nat) (split_lines (boxed strip t)).
Proof.
  intros S0 E0 S. set (ls := split_lines t) in *. set (w := longest strip ls).
  assert (W : Forall (fun l => (length (strip l) <= w)%nat) ls) by apply (longest_ge ls 0%nat).
  exists w, (map (fun l => (w - line_length strip l)%nat) ls). split; [exact W|]. split; [apply (longest_attained ls 0%nat)|].
  set (top := corner_tl :: repeat horizontal (w + 2) ++ [corner_tr]). set (blank := vertical :: repeat space (w + 2) ++ [vertical]). set (bottom := corner_bl :: repeat horizontal (w + 2) ++ [corner_br]).
  assert (Ft : Forall frame_char top /\ Forall frame_char blank /\ Forall frame_char bottom).
  { unfold top, blank, bottom. repeat split; (constructor; [fr|]; apply Forall_app; split; [apply frame_repeat; fr|constructor; [fr|constructor]]). }
  destruct Ft as (F1 & F2 & F3).
  assert (X : split_lines (boxed strip t) = top :: blank :: map (fun l => [vertical; space] ++ l ++ repeat space (w - line_length strip l) ++ [space; vertical]) ls ++ [blank; bottom]).
  { unfold boxed. fold ls. fold w. apply split_join; [discriminate|]. constructor; [now apply frame_clean|]. constructor; [now apply frame_clean|]. apply Forall_app. split.
    - apply Forall_forall. intros x Hx. apply in_map_iff in Hx as (l & <- & Hl). pose proof (split_clean t) as C. rewrite Forall_forall in C. specialize (C l Hl).
      intros H. apply in_app_or in H as [H|H]; [revert H; apply frame_clean; repeat (constructor; [fr|]); constructor|]. apply in_app_or in H as [H|H]; [contradiction|].
      revert H. apply frame_clean. apply Forall_app. split; [apply frame_repeat; fr|repeat (constructor; [fr|]); constructor].
    - constructor; [now apply frame_clean|]. constructor; [now apply frame_clean|constructor]. }
  rewrite X. split; [|split].
  - do 2 f_equal. f_equal. generalize w as v, ls as q. clear. intros v q. induction q as [|l q IH]; [reflexivity|]. cbn [map combine fst snd]. f_equal. exact IH.
  - apply map_length.
  - assert (V : forall l, Forall frame_char l -> length (strip l) = length l).
    { intros l F. pose proof (S0 l [] F (Forall_nil _)) as H. rewrite !app_nil_r in H. rewrite H, E0. cbn. lia. }
    assert (L : length top = (w + 4)%nat /\ length blank = (w + 4)%nat /\ length bottom = (w + 4)%nat).
    { unfold top, blank, bottom. cbn [length]. rewrite !app_length, !repeat_length. cbn. lia. }
    destruct L as (L1 & L2 & L3). constructor; [now rewrite V|]. constructor; [now rewrite V|]. apply Forall_app. split; [|constructor; [now rewrite V|constructor; [now rewrite V|constructor]]].
    apply Forall_forall. intros x Hx. apply in_map_iff in Hx as (l & <- & Hl). rewrite Forall_forall in S, W. specialize (S l Hl). specialize (W l Hl). cbn beta in W.
    rewrite (S [vertical; space] (repeat space (w - line_length strip l) ++ [space; vertical])).
    + rewrite app_length, repeat_length. unfold line_length. cbn [length]. lia.
    + repeat (constructor; [fr|]). constructor.
    + apply Forall_app. split; [apply frame_repeat; fr|repeat (constructor; [fr|]); constructor].
Qed.
End Box.

Lemma c72_lines t : join_lines (split_lines t) = t /\ Forall (fun l => ~ In newline l) (split_lines t).
Proof.
  split; [|apply split_clean]. induction t as [|r t IH]; [reflexivity|]. cbn [split_lines]. pose proof (split_nonempty t) as H. destruct (Z.eqb_spec r newline) as [->|E].
  - destruct (split_lines t) as [|l ls]; [now elim H|]. change ([] ++ newline :: join_lines (l :: ls) = newline :: t). now rewrite IH.
  - destruct (split_lines t) as [|l ls]; [now elim H|]. destruct ls as [|m ls]; [cbn in *; now rewrite IH|].
    change ((r :: l) ++ newline :: join_lines (m :: ls) = r :: t). change (l ++ newline :: join_lines (m :: ls) = t) in IH. cbn [app]. now rewrite IH.
Qed.
