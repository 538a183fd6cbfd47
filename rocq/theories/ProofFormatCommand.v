(** Proofs about `alda format`. *)
From Coq Require Import ZArith List Bool Lia.
From Verif Require Import Base Num ModelPitch ModelDuration ModelInstruments ModelTypes ModelLisp ModelScan SpecScan ModelParser SpecParser ModelAst ModelFormat SpecFormat ProofFormatTop
  ModelFormatCommand SpecFormatCommand.
Import ListNotations.
Local Open Scope Z_scope.

Section Proof.
Context {N : Num}.
Variable fmt : num -> list rune.

Lemma settings_blank g : sensible g -> blank_text (c_indent (settings g)).
Proof. intros [_ B]. unfold settings. cbn [c_indent]. destruct (g_indent g) as [|r t]; [exact default_blank|exact B]. Qed.

Lemma last_growing (l : list (list rune)) t n d : (0 < n <= length t)%nat -> last (l ++ growing t n) d = firstn n t.
Proof.
  intro H. unfold growing. destruct n as [|n]; [lia|]. rewrite seq_S, map_app. cbn [map]. rewrite app_assoc. apply last_last.
Qed.
Lemma final_written old t : t <> [] -> last ([old; []] ++ growing t (length t)) [] = t.
Proof. intro H. rewrite last_growing; [apply firstn_all|]. destruct t; [congruence|cbn; lia]. Qed.
Lemma final_empty old : last ([old; []] ++ growing [] 0) [] = ([] : list rune).
Proof. reflexivity. Qed.

Lemma growing_prefix t n c : In c (growing t n) -> exists rest, t = c ++ rest.
Proof. unfold growing. intro H. apply in_map_iff in H. destruct H as (k & <- & _). exists (skipn k t). symmetry. apply firstn_skipn. Qed.

(** Without the flag the file is not touched; nor is a file that is no score. *)
Lemma c67_untouched g d old : g_overwrite g = false \/ (forall a, parse old <> Parsed a) \/ d_reads d = false \/ d_opens d = false /\ g_overwrite g = true ->
  r_contents (format_command fmt g d old) = [old].
Proof.
  intro H. unfold format_command. destruct (d_reads d) eqn:R; cbn [negb]; [|reflexivity].
  destruct (parse old) as [a|m l c| |] eqn:P; try reflexivity.
  destruct (g_overwrite g) eqn:O; cbn [andb].
  - destruct H as [H|[H|[H|[H _]]]]; [discriminate|elim (H a eq_refl)|discriminate|]. rewrite H. reflexivity.
  - destruct (g_wrap g <? 0); [reflexivity|]. destruct (format fmt (settings g) a); reflexivity.
Qed.

Lemma c67_formats g d old : formattable fmt old -> sensible g -> 
  let r := format_command fmt g d old in
  exists t, compile t = compile old /\
    (r_succeeds r = true -> (g_overwrite g = true /\ final r = t) \/ (g_overwrite g = false /\ r_output r = t)) /\
    (d_fails d = None -> final r = old \/ final r = t) /\
    (d_reads d = true -> d_opens d = true -> d_fails d = None -> r_succeeds r = true) /\
    forall c, In c (r_contents r) -> c = old \/ exists rest, t = c ++ rest.
Proof.
  intros (a & P & Z & M & S) B r.
  destruct (format_parse fmt (settings g) old a P Z (settings_blank g B) M S) as (t & F & Q).
  exists t. split; [eapply format_compile; eauto using settings_blank|].
  unfold r, format_command. rewrite P, F. destruct B as [W _]. destruct (Z.ltb_spec (g_wrap g) 0) as [L|_]; [lia|].
  unfold written, complete, final.
  destruct (d_reads d); cbn [negb]; [|cbn; repeat split; try discriminate; auto; intros c [<-|[]]; auto].
  destruct (g_overwrite g); cbn [andb].
  - destruct (d_opens d); cbn [negb]; [|cbn; repeat split; try discriminate; auto; intros c [<-|[]]; auto].
    cbn [r_contents r_output r_succeeds]. split; [|split; [|split]].
    + destruct (d_fails d); [discriminate|]. intros _. left. split; [reflexivity|].
      destruct t as [|x t]; [reflexivity|]. apply final_written. discriminate.
    + intros ->. right. destruct t as [|x t]; [reflexivity|]. apply final_written. discriminate.
    + intros _ _ ->. reflexivity.
    + intros c X. apply in_app_or in X. destruct X as [[<-|[<-|[]]]|X]; [left; reflexivity|right; exists t; reflexivity|right]. eapply growing_prefix; exact X.
  - cbn [r_contents r_output r_succeeds]. split; [|split; [|split]].
    + destruct (d_fails d); [discriminate|]. intros _. right. split; [reflexivity|]. apply firstn_all.
    + intros _. left. reflexivity.
    + intros _ _ ->. reflexivity.
    + intros c [<-|[]]. left. reflexivity.
Qed.

Lemma c67_layout g d old : formattable fmt old -> sensible g ->
  let r := format_command fmt g d old in r_succeeds r = true ->
  exists a t, parse old = Parsed a /\ format fmt (asked_layout g) a = Some t /\
    (if g_overwrite g then final r = t /\ r_output r = [] else r_output r = t).
Proof.
  intros (a & P & Z & M & S) B r Hs.
  destruct (format_parse fmt (settings g) old a P Z (settings_blank g B) M S) as (t & F & Q).
  exists a, t. split; [exact P|]. split.
  - rewrite <- F. f_equal. unfold asked_layout, settings. destruct B as [W _]. f_equal.
    + destruct (Z.eqb_spec (g_wrap g) 0) as [E|E]; [rewrite E; reflexivity|]. destruct (Z.ltb_spec 0 (g_wrap g)); [reflexivity|lia].
    + destruct (g_indent g); reflexivity.
  - revert Hs. unfold r, format_command, final, written, complete. rewrite P, F. destruct B as [W _]. destruct (Z.ltb_spec (g_wrap g) 0) as [L|_]; [lia|].
    destruct (d_reads d); cbn [negb]; [|discriminate]. destruct (g_overwrite g); cbn [andb].
    + destruct (d_opens d); cbn [negb]; [|discriminate]. cbn [r_contents r_output r_succeeds]. destruct (d_fails d); [discriminate|]. intros _. split; [|reflexivity].
      destruct t as [|x t]; [reflexivity|]. apply final_written. discriminate.
    + cbn [r_contents r_output r_succeeds]. destruct (d_fails d); [discriminate|]. intros _. apply firstn_all.
Qed.
End Proof.
