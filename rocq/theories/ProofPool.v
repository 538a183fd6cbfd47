(** The player pool (C49). *)
From Coq Require Import ZArith List String Ascii Bool Lia.
From Verif Require Import Base ModelLisp ModelPool SpecPool.
Import ListNotations.
Local Open Scope string_scope.
Local Open Scope list_scope.

Section Pool.
Variable w : world.

(* ---------------------------- names ---------------------------- *)

Lemma chars_app : forall a b, chars (a ++ b)%string = chars a ++ chars b.
Proof. induction a as [|c a IH]; intros b; [reflexivity|]. cbn. f_equal. apply IH. Qed.
Lemma replace_id : forall l, ~ In "."%char l -> replace_first (chars ".json") (l ++ chars ".json") = l.
Proof.
  induction l as [|c l IH]; intros N; [reflexivity|]. cbn [app].
  assert (C : Ascii.eqb "." c = false) by (apply Ascii.eqb_neq; intros <-; apply N; left; reflexivity).
  change (replace_first (chars ".json") (c :: l ++ chars ".json")) with
    (match (if Ascii.eqb "." c then starts_with (chars "json") (l ++ chars ".json") else None) with
     | Some r => r | None => c :: replace_first (chars ".json") (l ++ chars ".json") end).
  rewrite C, IH; [reflexivity|]. intros I. apply N. right. exact I.
Qed.
Lemma id_of_named : forall id, ~ In "."%char (list_ascii_of_string id) -> id_of (id ++ ".json") = id.
Proof.
  intros id N. unfold id_of. rewrite chars_app, replace_id by exact N. unfold chars, unchars. apply string_of_list_ascii_of_string.
Qed.

(* ---------------------------- reading ---------------------------- *)

Lemma players_in : forall fs p, In p (players_of fs) -> exists f, In f fs /\ player_of f = Some p.
Proof.
  induction fs as [|f fs IH]; intros p I; [destruct I|]. cbn [players_of] in I.
  destruct (player_of f) as [q|] eqn:E; [destruct I as [<- |I]; [exists f; split; [left; reflexivity|assumption]|]|];
    destruct (IH p I) as (g & G & F); exists g; split; [right; assumption|assumption|right; assumption|assumption].
Qed.
Lemma player_ready : forall f p, player_of f = Some p -> says "ready" f = String.eqb (p_state p) "ready".
Proof. intros f p H. unfold player_of in H. unfold says. destruct (f_content f); try discriminate. injection H as <-. reflexivity. Qed.
Lemma counts_on_hand : forall fs, List.length (filter counts (players_of fs)) = on_hand fs.
Proof.
  unfold on_hand. induction fs as [|f fs IH]; [reflexivity|]. cbn [players_of filter]. unfold player_of, says at 1 2.
  destruct (f_content f) as [| |st port]; cbn [orb]; [assumption|assumption|]. cbn [filter]. unfold counts at 1. cbn [p_state].
  destruct (String.eqb st "ready" || String.eqb st "starting"); cbn [List.length]; rewrite IH; reflexivity.
Qed.
Lemma read_trace : forall s s' r, read_states w s = (s', r) ->
  exists fs, files s' = fs /\ fs = filter fresh (w_others w (now s) (files s)) /\
    match r with
    | Some ps => trace s' = trace s ++ [Looked fs] /\ ps = players_of fs
    | None => trace s' = trace s
    end.
Proof.
  intros s s' r H. unfold read_states in H. eexists. split; [reflexivity|].
  destruct (w_readable w (now s)); injection H as <- <-; cbn; auto.
Qed.
Lemma start_trace : forall n s s' ok, start_players w n s = (s', ok) ->
  exists oks, trace s' = trace s ++ map Started oks /\ List.length oks = n /\ ok = forallb (fun b => b) oks /\ files s' = files s.
Proof.
  induction n as [|n IH]; intros s s' ok H; cbn [start_players] in H.
  - injection H as <- <-. exists []. rewrite app_nil_r. auto.
  - destruct (start_players w n (log (Started (w_starts w (now s))) s)) as [s1 r] eqn:E. injection H as <- <-.
    destruct (IH _ _ _ E) as (oks & T & L & R & F). exists (w_starts w (now s) :: oks). cbn [map List.length forallb].
    split; [rewrite T; cbn; rewrite <- app_assoc; reflexivity|]. split; [lia|]. split; [rewrite R; reflexivity|exact F].
Qed.

Theorem fill_trace : forall s s' ok, fill_pool w s = (s', ok) ->
  exists tr, trace s' = trace s ++ tr /\
    ((tr = [] /\ (ok = true -> w_disabled w = true)) \/
     (w_disabled w = false /\ exists oks, filling oks tr /\ ok = forallb (fun b => b) oks)).
Proof.
  intros s s' ok H. unfold fill_pool in H. destruct (w_disabled w) eqn:D.
  - injection H as <- <-. exists []. rewrite app_nil_r. auto.
  - destruct (w_on_path w (now s)).
    + destruct (read_states w _) as [s1 [ps|]] eqn:R; destruct (read_trace _ _ _ R) as (fs & _ & _ & T); cbn [trace] in T.
      * destruct T as [T ->]. destruct (start_trace _ _ _ _ H) as (oks & T' & L & O & _).
        exists (Looked fs :: map Started oks). split; [rewrite T', T, <- app_assoc; reflexivity|]. right. split; [reflexivity|].
        exists oks. split; [|exact O]. exists fs. split; [reflexivity|]. rewrite L, counts_on_hand. reflexivity.
      * injection H as <- <-. exists []. rewrite app_nil_r. split; [exact T|]. left. split; [reflexivity|discriminate].
    + injection H as <- <-. exists []. rewrite app_nil_r. split; [reflexivity|]. left. split; [reflexivity|discriminate].
Qed.
Lemma start_works : (forall n, w_starts w n = true) -> forall n s, snd (start_players w n s) = true.
Proof.
  intros W. induction n as [|n IH]; intros s; [reflexivity|]. cbn [start_players]. rewrite W. specialize (IH (log (Started true) s)).
  destruct (start_players w n _); cbn in *. assumption.
Qed.
Theorem fill_works : (forall n, w_on_path w n = true) -> (forall n, w_readable w n = true) -> (forall n, w_starts w n = true) ->
  forall s, snd (fill_pool w s) = true.
Proof.
  intros P R W s. unfold fill_pool. destruct (w_disabled w); [reflexivity|]. rewrite P. unfold read_states. rewrite R. cbn [files now]. apply start_works, W.
Qed.

(* ---------------------------- finding ---------------------------- *)

Lemma found_ready : forall fs p, (forall f, In f fs -> fresh f = true) ->
  find (fun p => String.eqb (p_state p) "ready") (players_of fs) = Some p -> announced_ready p fs.
Proof.
  intros fs p F H. apply find_some in H. destruct H as [I S]. apply String.eqb_eq in S. apply players_in in I.
  destruct I as (f & I & E). exists f. unfold player_of in E. specialize (F f I). apply Z.leb_le in F.
  destruct (f_content f) as [| |st port] eqn:C; try discriminate. injection E as <-. cbn [p_state p_port p_id] in *. subst st.
  split; [assumption|]. split; [exact F|]. auto.
Qed.
Lemma none_ready : forall fs, find (fun p => String.eqb (p_state p) "ready") (players_of fs) = None -> forall f, In f fs -> says "ready" f = false.
Proof.
  induction fs as [|g fs IH]; intros H f I; [destruct I|]. cbn [players_of] in H. unfold player_of in H.
  destruct I as [-> |I].
  - unfold says. destruct (f_content f); [reflexivity|reflexivity|]. cbn [find p_state] in H. destruct (String.eqb state "ready"); [discriminate|reflexivity].
  - destruct (f_content g); [apply IH; assumption|apply IH; assumption|]. cbn [find p_state] in H. destruct (String.eqb state "ready"); [discriminate|apply IH; assumption].
Qed.

Lemma delete_trace : forall id s s' ok, delete_state w id s = (s', ok) ->
  if ok then trace s' = trace s ++ [Forgot id (files s')] /\ files s' = filter (fun f => negb (String.eqb (f_name f) (id ++ ".json"))) (w_others w (now s) (files s))
  else trace s' = trace s.
Proof. intros id s s' ok H. unfold delete_state in H. destruct (w_deletable w (now s)); injection H as <- <-; cbn; auto. Qed.

Definition concludes (r : found) (last : list action) : Prop :=
  match r with
  | Available p => exists fs, last = [Looked fs; Pinged (p_port p) true] /\ announced_ready p fs
  | NoneAvailable => exists fs, last = [Looked fs] /\ forall f, In f fs -> says "ready" f = false
  | Failed => True
  end.
Theorem find_trace : forall fuel s s' r, find_player w fuel s = (s', Some r) ->
  exists tr last, trace s' = trace s ++ tr ++ last /\ attempts (w_disabled w) tr /\ concludes r last.
Proof.
  induction fuel as [|fuel IH]; intros s s' r H; [discriminate|]. cbn [find_player] in H.
  destruct (read_states w s) as [s1 [ps|]] eqn:R; destruct (read_trace _ _ _ R) as (fs & F & FF & T).
  2:{ injection H as <- <-. exists [], []. split; [rewrite T, app_nil_r; reflexivity|]. split; [constructor|exact I]. }
  destruct T as [T ->].
  assert (Fr : forall f, In f fs -> fresh f = true) by (intros f If; rewrite FF in If; apply filter_In in If; apply If).
  destruct (find _ (players_of fs)) as [p|] eqn:E.
  2:{ injection H as <- <-. exists [], [Looked fs]. split; [exact T|]. split; [constructor|]. exists fs. split; [reflexivity|apply none_ready; assumption]. }
  apply (found_ready fs p Fr) in E. destruct (w_answers w (now s1) (p_port p)).
  { injection H as <- <-. exists [], [Looked fs; Pinged (p_port p) true]. split; [cbn; rewrite T, <- app_assoc; reflexivity|]. split; [constructor|]. exists fs. auto. }
  destruct (delete_state w (p_id p) _) as [s3 [|]] eqn:D; pose proof (delete_trace _ _ _ _ D) as DT; cbv iota in DT.
  2:{ injection H as <- <-. exists [], [Looked fs; Pinged (p_port p) false].
      split; [rewrite DT; cbn; rewrite T, <- app_assoc; reflexivity|]. split; [constructor|exact I]. }
  destruct DT as [DT DF]. cbn [log trace] in DT.
  destruct (fill_pool w s3) as [s4 [|]] eqn:Fi; destruct (fill_trace _ _ _ Fi) as (tr & TT & Tr).
  2:{ injection H as <- <-. exists [], ([Looked fs; Pinged (p_port p) false; Forgot (p_id p) (files s3)] ++ tr).
      split; [rewrite TT, DT, T; cbn; rewrite <- !app_assoc; reflexivity|]. split; [constructor|exact I]. }
  destruct (IH _ _ _ H) as (tr' & last & T' & A & C).
  exists (Looked fs :: Pinged (p_port p) false :: Forgot (p_id p) (files s3) :: tr ++ tr'), last.
  split; [rewrite T', TT, DT, T; cbn; rewrite <- !app_assoc; reflexivity|]. split; [|assumption].
  assert (G : forall f, In f (files s3) -> f_name f <> (p_id p ++ ".json")%string).
  { intros f If. rewrite DF in If. apply filter_In in If. destruct If as [_ If]. apply negb_true_iff, String.eqb_neq in If. exact If. }
  destruct Tr as [[-> Dis] | [Dis (oks & Fl & Ok)]].
  - rewrite (Dis eq_refl) in *. apply att_one with (oks := []); auto.
  - rewrite Dis in *. apply att_one with (oks := oks); auto.
Qed.

(** Enough fuel when nobody announces new players. *)
Definition ready_within (L : list string) (fs : list pfile) : Prop :=
  forall f, In f fs -> says "ready" f = true -> In (f_name f) L /\ usual_name f.
Lemma start_files : forall n s, files (fst (start_players w n s)) = files s.
Proof. intros n s. destruct (start_players w n s) as [s' ok] eqn:E. destruct (start_trace _ _ _ _ E) as (_ & _ & _ & _ & F). exact F. Qed.
Lemma others_within : no_newcomers w -> forall L n fs, ready_within L fs -> ready_within L (w_others w n fs).
Proof.
  intros N L n fs R f I S. destruct (N n fs f I S) as (g & G & E & Sg). destruct (R g G Sg) as [A [id [B C]]]. rewrite <- E. split; [assumption|].
  exists id. split; [unfold named in *; congruence|assumption].
Qed.
Lemma filter_within : forall L (q : pfile -> bool) fs, ready_within L fs -> ready_within L (filter q fs).
Proof. intros L q fs R f I S. apply filter_In in I. apply R; [apply I|assumption]. Qed.
Lemma fill_within : no_newcomers w -> forall L s, ready_within L (files s) -> ready_within L (files (fst (fill_pool w s))).
Proof.
  intros N L s R. unfold fill_pool. destruct (w_disabled w); [exact R|]. destruct (w_on_path w (now s)); [|exact R].
  destruct (read_states w _) as [s1 [ps|]] eqn:E; destruct (read_trace _ _ _ E) as (fs & F & FF & _); cbn [files now] in FF.
  - rewrite start_files, F, FF. apply filter_within, others_within; assumption.
  - cbn [fst]. rewrite F, FF. apply filter_within, others_within; assumption.
Qed.
Lemma find_ends_aux : no_newcomers w -> forall fuel L s, ready_within L (files s) -> List.length L < fuel -> snd (find_player w fuel s) <> None.
Proof.
  intros N. induction fuel as [|fuel IH]; intros L s R Len; [lia|]. cbn [find_player].
  destruct (read_states w s) as [s1 [ps|]] eqn:E; destruct (read_trace _ _ _ E) as (fs & F & FF & T); [|discriminate].
  destruct T as [_ ->].
  assert (R1 : ready_within L fs) by (rewrite FF; apply filter_within, others_within; assumption).
  destruct (find _ (players_of fs)) as [p|] eqn:P; [|discriminate].
  apply find_some in P. destruct P as [I S]. apply players_in in I. destruct I as (f & I & Pf).
  assert (Sf : says "ready" f = true) by (rewrite (player_ready f p Pf); exact S).
  destruct (R1 f I Sf) as [Lf (id & Nm & Nd)].
  assert (Pid : p_id p = id).
  { unfold player_of in Pf. destruct (f_content f); try discriminate. injection Pf as <-. cbn. rewrite Nm. apply id_of_named, Nd. }
  destruct (w_answers w (now s1) (p_port p)); [discriminate|].
  destruct (delete_state w (p_id p) _) as [s3 [|]] eqn:D; [|discriminate]. pose proof (delete_trace _ _ _ _ D) as DT. cbv iota in DT. destruct DT as [_ DF].
  cbn [log files] in DF.
  destruct (fill_pool w s3) as [s4 ok] eqn:Fi. destruct ok; [|discriminate].
  set (L' := remove string_dec (f_name f) L).
  apply IH with (L := L').
  - pose proof (fill_within N L' s3) as G. rewrite Fi in G. apply G. rewrite DF. intros g Ig Sg. apply filter_In in Ig. destruct Ig as [Ig Ne].
    rewrite F in Ig. destruct (others_within N L (now (log (Pinged (p_port p) false) s1)) fs R1 g Ig Sg) as [Lg Ug]. split; [|assumption].
    apply in_in_remove; [|assumption]. apply negb_true_iff, String.eqb_neq in Ne. rewrite Pid, <- Nm in Ne. exact Ne.
  - pose proof (remove_length_lt string_dec L (f_name f) Lf). unfold L'. lia.
Qed.
Theorem find_ends : no_newcomers w -> forall s, (forall f, In f (files s) -> says "ready" f = true -> usual_name f) ->
  exists s' r, find_player w (S (List.length (files s))) s = (s', Some r).
Proof.
  intros N s U. pose proof (find_ends_aux N (S (List.length (files s))) (map f_name (files s)) s) as H.
  destruct (find_player w _ s) as [s' [r|]]; [eauto|]. exfalso. apply H; [|rewrite map_length; lia|reflexivity].
  intros f I S. split; [apply in_map; assumption|apply U; assumption].
Qed.
End Pool.
