(** Sessions read like their inputs (C58): proofs. *)
From Coq Require Import ZArith String Ascii List Bool Permutation Lia.
From Verif Require Import Base Num ModelPitch ModelDuration ModelInstruments ModelTypes ModelLisp ModelScore ModelOsc ModelRepl
  SpecScore SpecVars SpecParts SpecSolo SpecTiming SpecGlobals SpecOsc SpecRepl ProofGlobals ProofRepl ModelReplClient SpecReplClient ProofReplClient
  ModelScan ModelAst ModelUtf8 SpecLines ProofLines ProofUtf8.
Import ListNotations.
Local Open Scope string_scope.
Local Open Scope list_scope.

Section Sessions.
Context {N : Num}.

Lemma decode_lines : forall codes, Forall (fun c => trim c = c) codes -> decode (fold_right (fun c t => line c ++ t)%string "" codes) = joined (map decode codes).
Proof.
  induction 1 as [|c codes H _ IH]; [reflexivity|]. cbn [fold_right map]. set (rest := fold_right _ _ codes) in *. unfold line. rewrite H. unfold ModelRepl.newline.
  assert (A : forall a b c : string, ((a ++ b) ++ c = a ++ b ++ c)%string) by (induction a as [|x a IHa]; intros; [reflexivity|]; cbn; now rewrite IHa).
  rewrite A. cbn [append]. rewrite decode_newline, IH. unfold joined. cbn [flat_map]. now rewrite <- app_assoc.
Qed.
Lemma fold_left_lines : forall codes t, fold_left (fun t c => t ++ line c)%string codes t = (t ++ fold_right (fun c t => line c ++ t)%string "" codes)%string.
Proof.
  assert (A : forall a b c : string, ((a ++ b) ++ c = a ++ b ++ c)%string) by (induction a as [|x a IHa]; intros; [reflexivity|]; cbn; now rewrite IHa).
  induction codes as [|c codes IH]; intros t; cbn [fold_left fold_right].
  - clear. induction t; [reflexivity|]. cbn. now rewrite <- IHt.
  - rewrite IH. apply A.
Qed.

Theorem c58_session : forall rs sv log uss, serves compile_text new_server rs sv log ->
  Forall (fun h => asks "eval-and-play" (h_request h) /\ went_well h) log -> orderly log uss ->
  compile_text (sv_input sv) = ROk (List.concat uss).
Proof.
  intros rs sv log uss H F [O1 O2].
  assert (Hr : rs = map h_request log).
  { destruct (c43_answers compile_text _ _ _ _ H) as [E [[L _]|(log' & h & -> & _ & Z)]].
    - rewrite E, L. now rewrite firstn_all.
    - exfalso. apply Forall_app in F. destruct F as [_ F]. inversion_clear F as [|? ? [_ W] _]. unfold went_well in W. rewrite Z in W. discriminate. }
  assert (Hc : exists codes, Forall2 (asks_with "eval-and-play") codes rs /\ Forall (fun c => trim c = c) codes /\ Forall2 (fun t us => compile t = ROk us /\ tidy t) (map decode codes) uss).
  { rewrite Hr. clear H Hr rs O2. induction O1 as [|h us log uss (code & E1 & E2 & E3 & E4) _ IH]; [exists []; repeat split; constructor|].
    inversion_clear F as [|? ? [A W] F']. destruct (IH F') as (codes & C1 & C2 & C3). exists (code :: codes). split; [|split]; cbn [map]; constructor; try assumption.
    - split; assumption.
    - split; assumption. }
  destruct Hc as (codes & C1 & C2 & C3).
  assert (W : Forall went_well log) by (eapply Forall_impl; [|exact F]; intros h [_ X]; exact X).
  rewrite (c43_lines compile_text _ _ _ _ codes H W C1). cbn [new_server sv_input]. unfold compile_text. rewrite fold_left_lines. cbn [append]. rewrite (decode_lines codes C2).
  exact (proj1 (compile_lines _ _ C3 O2)).
Qed.
Lemma orderly_reads : forall rs sv log uss, serves compile_text new_server rs sv log ->
  Forall (fun h => asks "eval-and-play" (h_request h) /\ went_well h) log -> orderly log uss ->
  forall uss', Forall2 (fun h us => exists code, field "code" (h_request h) = Some (Some code) /\ compile_text code = ROk us) log uss' ->
  compile_text (sv_input sv) = ROk (List.concat uss').
Proof.
  intros rs sv log uss H F O uss' F'. assert (uss' = uss); [|subst uss'; exact (c58_session rs sv log uss H F O)].
  destruct O as [O _]. clear H F. revert uss O. induction F' as [|h us log uss' (code & E1 & E2) _ IH]; intros uss O; inversion O as [|? us0 ? uss0 (code0 & X1 & _ & X2 & _) O']; subst; [reflexivity|].
  f_equal; [congruence|apply IH, O'].
Qed.
Theorem c58_replay : forall rs sv log uss r sv' out res ans, serves compile_text new_server rs sv log ->
  Forall (fun h => asks "eval-and-play" (h_request h) /\ went_well h) log -> orderly log uss ->
  handles compile_text sv r sv' out res ans -> asks "replay" r -> map r_status ans = [["done"]] ->
  same_music (sv_score sv) (sv_score sv').
Proof.
  intros rs sv log uss r sv' out res ans H F O K A W. exact (c43_reproduces compile_text rs sv log r sv' out res ans H F (orderly_reads rs sv log uss H F O) K A W).
Qed.
Theorem c58_reload : forall split w lines w' es, converses compile_text split w lines w' es -> w_unread w = [] -> fresh_ids es ->
  forall e f r a rs sv log uss, In e es -> command_for split "load" f e -> aget String.eqb f (w_files (n_before e)) = Some (sv_input sv) ->
  In (Asked r (Some a)) (n_happened e) -> r_status a = ["done"] ->
  serves compile_text new_server rs sv log -> Forall (fun h => asks "eval-and-play" (h_request h) /\ went_well h) log -> orderly log uss ->
  same_music (sv_score sv) (sv_score (w_server (n_after e))).
Proof.
  intros split w lines w' es H Hu Hd e f r a rs sv log uss He Hc Ht Ha Hs Hsv Hl O.
  exact (c57_reload compile_text split w lines w' es H Hu Hd e f r a rs sv log He Hc Ht Ha Hs Hsv Hl (orderly_reads rs sv log uss Hsv Hl O)).
Qed.
End Sessions.

(* ---------------- checking examples ---------------- *)
Section Check.
Context {N : Num}.
Local Open Scope Z_scope.
Fixpoint same_runes (a b : list rune) : bool := match a, b with [], [] => true | x :: a, y :: b => (x =? y) && same_runes a b | _, _ => false end.
Lemma same_runes_refl : forall a, same_runes a a = true.
Proof. induction a as [|x a IH]; [reflexivity|]. cbn. now rewrite Z.eqb_refl, IH. Qed.
Definition tidy_check (text : list rune) : bool :=
  match scan text with
  | Scanned ts => forallb (fun t => match tkind t with TOctSet _ => negb (same_runes (ttext t) (runes "o")) | _ => true end) ts &&
      match ts with t :: _ => match tkind t with TBarline => false | _ => true end | [] => true end
  | _ => true
  end.
Lemma tidy_check_ok : forall text, tidy_check text = true -> tidy text.
Proof.
  intros text H. unfold tidy_check in H. split.
  - intros (ts & t & n & E & I0 & K & T). rewrite E in H. apply andb_true_iff in H. destruct H as [H _]. rewrite forallb_forall in H. specialize (H t I0). rewrite K, T, same_runes_refl in H. discriminate.
  - intros (t & ts & E & K). rewrite E, K in H. rewrite andb_false_r in H. discriminate.
Qed.
Definition updates_of (code : string) : list update := match compile_text code with ROk us => us | _ => [] end.
Definition reads_check (codes : list string) : bool :=
  forallb (fun c => String.eqb (trim c) c && tidy_check (decode c) && match compile_text c with ROk _ => true | _ => false end) codes.
Lemma orderly_check : forall codes log, map (fun h => field "code" (h_request h)) log = map (fun c => Some (Some c)) codes -> reads_check codes = true -> follow_on (map updates_of codes) -> orderly log (map updates_of codes).
Proof.
  intros codes log E R F. split; [|exact F]. clear F. revert log E R. induction codes as [|c codes IH]; intros [|h log] E R; try discriminate; [constructor|]. cbn [map] in *. injection E as E1 E2.
  unfold reads_check in R. cbn [forallb] in R. apply andb_true_iff in R. destruct R as [R1 R2]. apply andb_true_iff in R1. destruct R1 as [R1 R3]. apply andb_true_iff in R1. destruct R1 as [R1 R4]. constructor; [|exact (IH log E2 R2)].
  exists c. split; [exact E1|]. split; [now apply String.eqb_eq|]. split; [|now apply tidy_check_ok]. unfold updates_of. destruct (compile_text c); try discriminate. reflexivity.
Qed.
Fixpoint follow_check (uss : list (list update)) : bool :=
  match uss with
  | [] => true
  | us :: rest => match List.concat rest with [] => true | _ => negb (ends_open us) && (negb (in_voices us) || negb (closes_voices (List.concat rest))) end && follow_check rest
  end.
Lemma follow_check_ok : forall uss, follow_check uss = true -> follow_on uss.
Proof.
  induction uss as [|us uss IH]; intros H; [exact I|]. cbn [follow_check] in H. apply andb_true_iff in H. destruct H as [H1 H2]. split; [|exact (IH H2)]. unfold can_follow. destruct (List.concat uss) as [|u l]; [now left|right].
  apply andb_true_iff in H1. destruct H1 as [H1 H3]. split; [now apply negb_true_iff|]. intros V. rewrite V in H3. now apply negb_true_iff.
Qed.
Definition well_check (log : list exchange) : bool :=
  forallb (fun h => match field "op" (h_request h) with Some (Some op) => String.eqb op "eval-and-play" | _ => false end && successful h) log.
Lemma well_check_ok : forall log, well_check log = true -> Forall (fun h => asks "eval-and-play" (h_request h) /\ went_well h) log.
Proof.
  intros log H. apply Forall_forall. intros h I0. unfold well_check in H. rewrite forallb_forall in H. specialize (H h I0). apply andb_true_iff in H. destruct H as [H1 H2]. split.
  - unfold asks. destruct (field "op" (h_request h)) as [[op|]|]; try discriminate. apply String.eqb_eq in H1. now subst op.
  - unfold successful in H2. unfold went_well. destruct (h_answers h) as [|a [|]]; try discriminate. cbn. destruct (r_status a) as [|x [|]]; try discriminate. apply String.eqb_eq in H2. now subst x.
Qed.
(** The notes of a score: number and whether they start within the first half second. *)
Definition early (s : score) : list (Z * bool) := map (fun e => (ev_note e, nltb (ev_off e) (nofZ 500))) (events s).
End Check.

(* ---------------- where it fails ---------------- *)
Definition ran_text (codes : list string) : @score B64 := fst (exec (updates_of (N := B64) (sv_input (fst (played (N := B64) compile_text codes)))) new_score).
Lemma rebuilt : forall codes, match play_log (N := B64) compile_text codes new_server with Some _ => true | None => false end = true ->
  well_check (snd (played (N := B64) compile_text codes)) = true ->
  match compile_text (N := B64) (sv_input (fst (played (N := B64) compile_text codes))) with ROk us => match snd (exec us new_score) with Ok => true | _ => false end | _ => false end = true ->
  exists sv log us s, serves (compile_text (N := B64)) new_server (map play codes) sv log /\ Forall (fun h => asks "eval-and-play" (h_request h) /\ went_well h) log /\
    compile_text (sv_input sv) = ROk us /\ exec us new_score = (s, Ok) /\ sv = fst (played (N := B64) compile_text codes) /\ s = ran_text codes.
Proof.
  intros codes H1 H2 H3. exists (fst (played (N := B64) compile_text codes)), (snd (played (N := B64) compile_text codes)). unfold ran_text, updates_of.
  destruct (compile_text (sv_input (fst (played compile_text codes)))) as [us|m|m]; try discriminate. exists us, (fst (exec us new_score)).
  split; [apply played_serves, H1|]. split; [apply well_check_ok, H2|]. split; [reflexivity|]. split; [|split; reflexivity]. destruct (exec us new_score) as [s o]. cbn in *. destruct o; try discriminate. reflexivity.
Qed.
Lemma error_of : forall text m, match compile_text (N := B64) text with RErr m' => String.eqb m' m | _ => false end = true -> compile_text (N := B64) text = RErr m.
Proof. intros text m H. destruct (compile_text text); try discriminate. apply String.eqb_eq in H. now subst. Qed.
Lemma updates_of_ok : forall text, match compile_text (N := B64) text with ROk _ => true | _ => false end = true -> compile (decode text) = ROk (updates_of (N := B64) text).
Proof. intros text H. unfold updates_of. fold (compile_text (N := B64) text). destruct (compile_text text); try discriminate. reflexivity. Qed.
Lemma c58_octave_refuted : exists codes sv log m, serves (compile_text (N := B64)) new_server (map play codes) sv log /\
  Forall (fun h => asks "eval-and-play" (h_request h) /\ went_well h) log /\ compile_text (N := B64) (sv_input sv) = RErr m.
Proof.
  pose (codes := ["piano:"; "o"; "c"]). exists codes, (fst (played (N := B64) compile_text codes)), (snd (played (N := B64) compile_text codes)), "in note/rest/name".
  split; [apply played_serves; vm_compute; reflexivity|]. split; [apply well_check_ok; vm_compute; reflexivity|]. apply error_of. vm_compute. reflexivity.
Qed.
Lemma c58_bar_refuted : exists a b (ua ub us : list (@update B64)), compile a = ROk ua /\ compile b = ROk ub /\ can_follow ua ub /\ ~ bare_octave (N := B64) a /\
  compile (a ++ newline :: b) = ROk us /\ List.length us <> List.length (ua ++ ub).
Proof.
  exists (decode "c4"), (decode "| d"), (updates_of (N := B64) "c4"), (updates_of (N := B64) "| d"), (updates_of (N := B64) ("c4" ++ String "010" "| d")%string).
  split; [apply updates_of_ok; vm_compute; reflexivity|]. split; [apply updates_of_ok; vm_compute; reflexivity|]. split; [right; split; [vm_compute; reflexivity|intros X; vm_compute in X; discriminate]|].
  split; [apply tidy_check_ok; vm_compute; reflexivity|]. split; [change (decode "c4" ++ newline :: decode "| d") with (decode ("c4" ++ String "010" "| d")%string); apply updates_of_ok; vm_compute; reflexivity|]. vm_compute. discriminate.
Qed.
Lemma c58_definition_refuted : exists codes sv log us s, serves (compile_text (N := B64)) new_server (map play codes) sv log /\
  Forall (fun h => asks "eval-and-play" (h_request h) /\ went_well h) log /\
  compile_text (N := B64) (sv_input sv) = ROk us /\ exec us new_score = (s, Ok) /\
  List.length (events (sv_score sv)) = 2%nat /\ List.length (events s) = 0%nat.
Proof.
  pose (codes := ["piano: foo = V1: c"; "d e"]). exists codes. destruct (rebuilt codes) as (sv & log & us & s & H1 & H2 & H3 & H4 & H5 & H6); [vm_compute; reflexivity|vm_compute; reflexivity|vm_compute; reflexivity|].
  exists sv, log, us, s. split; [exact H1|]. split; [exact H2|]. split; [exact H3|]. split; [exact H4|]. rewrite H5, H6. split; vm_compute; reflexivity.
Qed.
Lemma c58_voices_refuted : exists codes sv log us s, serves (compile_text (N := B64)) new_server (map play codes) sv log /\
  Forall (fun h => asks "eval-and-play" (h_request h) /\ went_well h) log /\
  compile_text (N := B64) (sv_input sv) = ROk us /\ exec us new_score = (s, Ok) /\
  early (sv_score sv) = [(60%Z, true); (62%Z, false); (64%Z, true)] /\ early s = [(60%Z, true); (62%Z, false); (64%Z, false)].
Proof.
  pose (codes := ["piano: V1: c d"; "V0: e"]). exists codes. destruct (rebuilt codes) as (sv & log & us & s & H1 & H2 & H3 & H4 & H5 & H6); [vm_compute; reflexivity|vm_compute; reflexivity|vm_compute; reflexivity|].
  exists sv, log, us, s. split; [exact H1|]. split; [exact H2|]. split; [exact H3|]. split; [exact H4|]. rewrite H5, H6. split; vm_compute; reflexivity.
Qed.
