(** REPL sessions. *)
From Coq Require Import ZArith List String Ascii Bool Permutation Sorted Lia ZifyBool ZifyNat.
From Verif Require Import Base Num ModelPitch ModelDuration ModelInstruments ModelTypes ModelLisp
  ModelScore ModelOsc ModelRepl SpecScore SpecVars SpecParts SpecSolo SpecTiming SpecGlobals SpecOsc SpecRepl ProofEvents ProofSafe ProofOrder ProofOsc.
Import ListNotations.
Local Open Scope string_scope.
Local Open Scope list_scope.

Section Repl.
Context {N : Num}.
Variable compile : string -> res (list update).
Notation update_score := (update_score compile).
Notation evals := (evals compile).
Notation loads := (loads compile).
Notation replays := (replays compile).
Notation exports := (exports compile).
Notation operates := (operates compile).
Notation handles := (handles compile).
Notation serves := (serves compile).

(* ---------------- what each action does to the text ---------------- *)

Lemma update_text : forall code sv sv1 r t, update_score code sv = (sv1, r, t) ->
  match r with
  | Done => sv_input sv1 = (sv_input sv ++ line code)%string /\
            exists us s, compile code = ROk us /\ exec us (sv_score sv) = (s, Ok) /\ sv_score sv1 = s /\
              sv_index sv1 = Z.of_nat (List.length (events s))
  | _ => sv_input sv1 = sv_input sv /\ sv_index sv1 = sv_index sv
  end /\ t = Transmission "" "" (sv_index sv) (-1) (part_offsets (sv_score sv)) false false.
Proof.
  intros code sv sv1 r t H. unfold ModelRepl.update_score in H. destruct (compile code) as [us|m|m].
  - destruct (exec us (sv_score sv)) as [s o] eqn:E. destruct o; inversion H; subst; clear H; (split; [|reflexivity]); cbn; try (split; reflexivity).
    split; [reflexivity|]. exists us, s. auto.
  - inversion H; subst. split; [split; reflexivity|reflexivity].
  - inversion H; subst. split; [split; reflexivity|reflexivity].
Qed.
Lemma sends_text : forall t sv sv' out r, sends_score t sv sv' out r -> sv_input sv' = sv_input sv /\ sv_index sv' = sv_index sv.
Proof. intros t sv sv' out r H. destruct H; split; reflexivity. Qed.
Lemma resets_text : forall sv sv' out r, resets sv sv' out r -> match r with Done => sv' = blank sv | _ => sv' = sv end.
Proof. intros sv sv' out r H. destruct H; reflexivity. Qed.
Lemma evals_text : forall code from to sv sv' out r, evals code from to sv sv' out r ->
  (r = Done -> sv_input sv' = (sv_input sv ++ line code)%string) /\
  (sv_input sv' = sv_input sv \/ sv_input sv' = (sv_input sv ++ line code)%string) /\
  (rejects compile sv code -> sv_input sv' = sv_input sv /\ sv_index sv' = sv_index sv /\ out = [] /\ r <> Done).
Proof.
  intros code from to sv sv' out r H. destruct H as [e|sv1 r t H K|sv1 t sv2 out r H K].
  - split; [discriminate|]. split; [left; reflexivity|]. intros _. repeat (split; [reflexivity|]). discriminate.
  - pose proof (proj1 (update_text _ _ _ _ _ H)) as T. split; [congruence|]. destruct r; [congruence| |];
      (split; [left; apply T|]; intros _; split; [apply T|]; split; [apply T|]; split; [reflexivity|exact K]).
  - pose proof (proj1 (update_text _ _ _ _ _ H)) as [T (us & s & C & X & _)]. destruct (sends_text _ _ _ _ _ K) as [I1 I2].
    split; [intros _; congruence|]. split; [right; congruence|].
    intros [[m Hm]|(us' & s' & m & Hm & Hx)]; congruence.
Qed.
Lemma loads_text : forall code sv sv' out, loads code sv sv' out Done -> sv_input sv' = line code.
Proof.
  intros code sv sv' out H. inversion H as [| | |sv1 o1 sv2 t sv3 o2 r A B C D|sv1 o1 sv2 t sv3 o2 o3 r A B C D]; subst; try congruence.
  apply resets_text in A. apply update_text in B. apply sends_text in C. destruct B as [[B _] _]. rewrite (proj1 C), B, A. reflexivity.
Qed.

Lemma in_ops : forall sv r op sv' out res ans, operates sv r op sv' out res ans -> In op ops.
Proof. intros sv r op sv' out res ans H. destruct H; cbn; tauto. Qed.
Lemma field_valid : forall k r, validate k r = [] -> exists v, field k r = Some (Some v).
Proof. intros k r H. unfold validate in H. destruct (field k r) as [[v|]|]; try discriminate. exists v; reflexivity. Qed.
Lemma valid_field : forall k r v, field k r = Some (Some v) -> validate k r = [].
Proof. intros k r v H. unfold validate. rewrite H. reflexivity. Qed.

Ltac by_op := match goal with A : field "op" _ = Some (Some ?x) |- _ => unfold edits; rewrite A end.

Lemma answer_well : forall r res d, map r_status (answer r res d) = [["done"]] -> res = Done.
Proof. intros r [|m|] d H; [reflexivity|discriminate|discriminate]. Qed.

Lemma handles_text : forall sv r sv' out res ans, handles sv r sv' out res ans -> map r_status ans = [["done"]] ->
  sv_input sv' = edits r (sv_input sv).
Proof.
  intros sv r sv' out res ans H W. destruct H as [H|op H _|op sv' out res ans F H].
  - cbn in W. discriminate.
  - cbn in W. discriminate.
  - destruct H; unfold edits; rewrite F; cbv iota beta; try reflexivity; try (cbn in W; discriminate).
    + rewrite H. apply answer_well in W. subst. apply evals_text in H0. apply H0. reflexivity.
    + destruct (field "code" r) as [[]|]; apply answer_well in W; subst;
        (inversion H as [| |sv1 o file r0 L K E1 E2 E3]; subst; [congruence|apply loads_text in L; exact L]).
    + rewrite H. apply answer_well in W. subst. apply loads_text in H0. exact H0.
    + apply answer_well in W. subst. apply resets_text in H. subst. destruct (field "code" r) as [[]|]; reflexivity.
    + apply answer_well in W. subst. inversion H as [|sv1 o1 sv2 o2 r0 A B]; subst; [congruence|].
      apply resets_text in A. subst. apply evals_text in B. destruct B as [B _]. rewrite (B eq_refl). destruct (field "code" r) as [[]|]; reflexivity.
Qed.

Lemma c43_text : forall sv rs sv' log, serves sv rs sv' log -> Forall went_well log -> List.length log = List.length rs /\
  sv_input sv' = fold_left (fun t r => edits r t) rs (sv_input sv).
Proof.
  intros sv rs sv' log H. induction H as [sv|sv r rs sv1 out res ans sv2 log H D Hs IH|sv r rs sv1 out ans H]; intros W.
  - split; reflexivity.
  - inversion W; subst. destruct (IH H3) as [A B]. split; [cbn; lia|]. cbn [fold_left]. rewrite B. f_equal. eapply handles_text; [exact H|exact H2].
  - inversion W; subst. exfalso. unfold went_well in H2. cbn [h_answers] in H2. clear W H3.
    inversion H as [| |op sv' out' res ans' F K]; subst. inversion K; subst; cbn in H2; discriminate.
Qed.

(** Inputs only. *)
Lemma c43_lines : forall sv rs sv' log codes, serves sv rs sv' log -> Forall went_well log ->
  Forall2 (asks_with "eval-and-play") codes rs ->
  sv_input sv' = fold_left (fun t c => t ++ line c)%string codes (sv_input sv).
Proof.
  intros sv rs sv' log codes H W F. destruct (c43_text _ _ _ _ H W) as [_ ->]. generalize (sv_input sv). clear H W.
  induction F as [|c r cs rs [A B] F IH]; intros t; [reflexivity|]. cbn [fold_left]. rewrite IH. f_equal. unfold edits, asks in *.
  rewrite A, B. reflexivity.
Qed.

(** Failing inputs. *)
Lemma c42_rejected : forall sv r sv' out res ans code, handles sv r sv' out res ans ->
  asks_with "eval-and-play" code r -> rejects compile sv code ->
  sv_input sv' = sv_input sv /\ sv_index sv' = sv_index sv /\ out = [] /\
  exists m, ans = [respond_error r m].
Proof.
  intros sv r sv' out res ans code H [A B] R. unfold asks in A. destruct H as [H|op H K|op sv' out res ans F H].
  - exfalso. apply H. eapply valid_field; exact A.
  - exfalso. apply K. rewrite A in H. inversion H. cbn. tauto.
  - assert (op = "eval-and-play") by congruence. subst op. inversion H; subst.
    + exfalso. apply H0. eapply valid_field; exact B.
    + assert (code0 = code) by congruence. subst code0. match goal with E : evals _ _ _ _ _ _ _ |- _ =>
        pose proof E as E'; destruct (evals_text _ _ _ _ _ _ _ E) as (_ & _ & G) end.
      destruct (G R) as (G1 & G2 & G3 & G4). split; [exact G1|]. split; [exact G2|]. split; [exact G3|].
      destruct res as [|m|]; [congruence|exists m; reflexivity|]. exfalso.
      inversion E' as [|sv1 r0 t U V|sv1 t sv2 o r0 U V]; subst.
      * unfold ModelRepl.update_score in U. destruct R as [[m Hm]|(us & s & m & Hm & Hx)]; rewrite Hm in U; [|rewrite Hx in U]; discriminate.
      * unfold ModelRepl.update_score in U. destruct R as [[m Hm]|(us & s & m & Hm & Hx)]; rewrite Hm in U; [|rewrite Hx in U]; discriminate.
Qed.
Lemma c42_unparsed : forall sv r sv' out res ans code m, handles sv r sv' out res ans ->
  asks_with "eval-and-play" code r -> compile code = RErr m -> sv' = sv.
Proof.
  intros sv r sv' out res ans code m H [A B] R. unfold asks in A. destruct H as [H|op H K|op sv' out res ans F H]; try reflexivity.
  assert (op = "eval-and-play") by congruence. subst op. inversion H; subst; try reflexivity.
  assert (code0 = code) by congruence. subst code0.
  match goal with E : evals _ _ _ _ _ _ _ |- _ => inversion E as [|sv1 r0 t U V|sv1 t sv2 o r0 U V]; subst end; try reflexivity;
    unfold ModelRepl.update_score in U; rewrite R in U; inversion U; reflexivity.
Qed.

(** Requests that only ask, or make no sense. *)
Lemma c43_harmless : forall sv r sv' out res ans, handles sv r sv' out res ans -> harmless r ->
  same_session sv' sv /\ (out = [] \/ asks "stop" r /\ out = [[MStop]]).
Proof.
  intros sv r sv' out res ans H R. destruct H as [H|op H K|op sv' out res ans F H];
    try (split; [repeat split|left; reflexivity]).
  assert (K : ~ In op ["eval-and-play"; "export"; "load"; "new-score"; "replay"] \/
    ((op = "eval-and-play" \/ op = "load") /\ match field "code" r with Some (Some _) => False | _ => True end)).
  { destruct R as [R|[(op' & R & K)|[R K]]].
    - rewrite F in R. destruct R.
    - left. unfold asks in R. rewrite F in R. inversion R; subst. exact K.
    - right. split; [|exact K]. unfold asks in R. rewrite F in R. destruct R as [R|R]; inversion R; auto. }
  destruct H; try (split; [split; [reflexivity|split; reflexivity]|left; reflexivity]);
    try (exfalso; destruct K as [K|[[K|K] _]]; [apply K; cbn; tauto|discriminate|discriminate]).
  - exfalso. destruct K as [K|[_ K]]; [apply K; cbn; tauto|]. rewrite H in K. exact K.
  - exfalso. destruct K as [K|[_ K]]; [apply K; cbn; tauto|]. rewrite H in K. exact K.
  - split; [split; [reflexivity|split; reflexivity]|]. destruct H; [right; split; [exact F|reflexivity]|left; reflexivity].
Qed.

(** One answer each, in order. *)
Lemma handles_answers : forall sv r sv' out res ans, handles sv r sv' out res ans ->
  List.length ans = match res with Dead => 0 | _ => 1 end.
Proof.
  intros sv r sv' out res ans H. destruct H as [H|op H K|op sv' out res ans F H]; try reflexivity.
  destruct H; try reflexivity; destruct res; reflexivity.
Qed.
Lemma c43_answers : forall sv rs sv' log, serves sv rs sv' log ->
  map h_request log = firstn (List.length log) rs /\
  ((List.length log = List.length rs /\ Forall (fun h => List.length (h_answers h) = 1) log) \/
   exists log' h, log = log' ++ [h] /\ Forall (fun h => List.length (h_answers h) = 1) log' /\ h_answers h = []).
Proof.
  intros sv rs sv' log H. induction H as [sv|sv r rs sv1 out res ans sv2 log H D Hs [IH1 IH2]|sv r rs sv1 out ans H].
  - split; [reflexivity|left; split; [reflexivity|constructor]].
  - apply handles_answers in H. assert (L : List.length ans = 1) by (destruct res; congruence).
    split; [cbn; rewrite IH1; reflexivity|]. destruct IH2 as [[A B]|(log' & h & A & B & C)].
    + left. split; [cbn; lia|constructor; [exact L|exact B]].
    + right. exists (Exchange r sv sv1 out ans :: log'), h. split; [rewrite A; reflexivity|]. split; [constructor; [exact L|exact B]|exact C].
  - apply handles_answers in H. split; [reflexivity|]. right. exists [], (Exchange r sv sv1 out ans). split; [reflexivity|]. split; [constructor|].
    cbn. destruct ans; [reflexivity|discriminate].
Qed.

(** Ids and sessions. *)
Lemma in_respond : forall r st pr d a, In a [respond r st pr d] -> r_id a = field "id" r /\ r_session a = field "session" r.
Proof. intros r st pr d a [<-|[]]. split; reflexivity. Qed.
Lemma in_answer : forall r res d a, In a (answer r res d) -> r_id a = field "id" r /\ r_session a = field "session" r.
Proof. intros r [|m|] d a H; [eapply in_respond; exact H|eapply in_respond; exact H|destruct H]. Qed.
Lemma handles_ids : forall sv r sv' out res ans a, handles sv r sv' out res ans -> In a ans ->
  (r_id a = field "id" r /\ r_session a = field "session" r) \/
  (asks "describe" r /\ r_id a = match field "id" r with Some v => Some v | None => d_id sv end /\
   r_session a = match field "session" r with Some v => Some v | None => d_session sv end).
Proof.
  intros sv r sv' out res ans a H I. destruct H as [H|op H _|op sv' out res ans F H].
  - left. eapply in_respond; exact I.
  - left. eapply in_respond; exact I.
  - destruct H; try (left; solve [eapply in_answer; exact I | eapply in_respond; exact I | destruct I]).
    right. split; [exact F|]. destruct I as [<-|[]]. split; reflexivity.
Qed.
Lemma c51 : forall sv r sv' out res ans a, handles sv r sv' out res ans -> In a ans -> ~ asks "describe" r ->
  r_id a = field "id" r /\ r_session a = field "session" r.
Proof.
  intros sv r sv' out res ans a H I K. destruct (handles_ids _ _ _ _ _ _ _ H I) as [G|[G _]]; [exact G|contradiction].
Qed.
Lemma c51_describe : forall sv r sv' out res ans a v, handles sv r sv' out res ans -> In a ans ->
  (field "id" r = Some v -> r_id a = Some v) /\ (field "session" r = Some v -> r_session a = Some v).
Proof.
  intros sv r sv' out res ans a v H I. destruct (handles_ids _ _ _ _ _ _ _ H I) as [[G K]|[_ [G K]]]; split; intros E; rewrite E in *; congruence.
Qed.

(* ---------------- the score ---------------- *)

Definition in_bounds (sv : server) : Prop := (0 <= sv_index sv <= Z.of_nat (List.length (events (sv_score sv))))%Z.

Lemma wf_last : forall A (l : list A) n, (0 <= n <= Z.of_nat (List.length l))%Z -> slice (Z.to_nat n) (List.length l) l = skipn (Z.to_nat n) l.
Proof. intros A l n H. unfold slice. apply firstn_all2. rewrite skipn_length. lia. Qed.

Lemma evals_done : forall code sv sv' out, evals code None None sv sv' out Done -> in_bounds sv ->
  exists us s b, compile code = ROk us /\ exec us (sv_score sv) = (s, Ok) /\ out = [b] /\
    let t := Transmission "" "" (sv_index sv) (-1) (part_offsets (sv_score sv)) false false in
    transmits t s (sv_score sv') (ROk b) /\ sv_index sv' = Z.of_nat (List.length (events s)) /\
    event_range t s = ROk (Z.to_nat (sv_index sv), List.length (events s)).
Proof.
  intros code sv sv' out H B. inversion H as [|sv1 r t U V|sv1 t sv2 o r U V]; subst; [congruence|].
  destruct (update_text _ _ _ _ _ U) as [(T & us & s & C & X & S1 & S2) E].
  inversion V as [s' b K| | |]; subst. exists us, (sv_score sv1), b. split; [exact C|]. split; [exact X|]. split; [reflexivity|].
  cbv zeta. split; [exact K|]. split; [exact S2|]. unfold event_range. cbn.
  destruct (c04 us (sv_score sv)) as [new Hn]. rewrite X in Hn. cbn [fst] in Hn. rewrite Hn. rewrite app_length.
  destruct B as [B1 B2]. replace (0 <=? sv_index sv)%Z with true by lia. 
  replace (sv_index sv <=? Z.of_nat (List.length (events (sv_score sv)) + List.length new))%Z with true by lia.
  rewrite Z.leb_refl. cbn. rewrite Nat2Z.id. reflexivity.
Qed.
Lemma transmits_events : forall t s s' b lo, transmits t s s' (ROk b) -> event_range t s = ROk (lo, List.length (events s)) -> lo <= List.length (events s) ->
  s' = set_events (events s') s /\ exists sorted, Permutation (skipn lo (events s)) sorted /\ events s' = firstn lo (events s) ++ sorted.
Proof.
  intros t s s' b lo H E L. inversion H as [lo' hi start stop sorted E' T P Q R| |]; subst. split; [reflexivity|]. rewrite E in E'. inversion E'; subst lo' hi.
  exists sorted. rewrite (skipn_all (events s)), app_nil_r. split; [|reflexivity]. destruct P as [P _].
  unfold slice in P. rewrite firstn_all2 in P by (rewrite skipn_length; lia). exact P.
Qed.
Lemma rejected_step : forall sv r sv' out res ans code, handles sv r sv' out res ans ->
  asks_with "eval-and-play" code r -> rejects compile sv code ->
  exists new, events (sv_score sv') = events (sv_score sv) ++ new.
Proof.
  intros sv r sv' out res ans code H [A B] R. unfold asks in A.
  assert (Same : sv' = sv -> exists new, events (sv_score sv') = events (sv_score sv) ++ new) by (intros ->; exists []; rewrite app_nil_r; reflexivity).
  destruct H as [H|op H K|op sv' out res ans F H]; try (apply Same; reflexivity).
  assert (op = "eval-and-play") by congruence. subst op. inversion H; subst; [apply Same; reflexivity|].
  assert (code0 = code) by congruence. subst code0.
  match goal with E : evals _ _ _ _ _ _ _ |- _ => inversion E as [|sv1 r0 t U V|sv1 t sv2 o r0 U V]; subst end; [apply Same; reflexivity| |].
  - unfold ModelRepl.update_score in U. destruct R as [[m Hm]|(us & s & m & Hm & Hx)]; rewrite Hm in U.
    + inversion U; subst. apply Same. reflexivity.
    + rewrite Hx in U. inversion U; subst. cbn. destruct (c04 us (sv_score sv)) as [new Hn]. rewrite Hx in Hn. exists new. exact Hn.
  - unfold ModelRepl.update_score in U. destruct R as [[m Hm]|(us & s & m & Hm & Hx)]; rewrite Hm in U; [|rewrite Hx in U]; discriminate.
Qed.
Lemma well_step : forall sv r sv' out res ans code, handles sv r sv' out res ans ->
  asks_with "eval-and-play" code r -> map r_status ans = [["done"]] -> evals code None None sv sv' out Done.
Proof.
  intros sv r sv' out res ans code H [A B] W. unfold asks in A. destruct H as [H|op H K|op sv' out res ans F H]; try (cbn in W; discriminate).
  assert (op = "eval-and-play") by congruence. subst op. inversion H; subst; [cbn in W; discriminate|].
  assert (code0 = code) by congruence. subst code0. apply answer_well in W. subst. assumption.
Qed.

Lemma input_bounds : forall sv r sv' out res ans code, handles sv r sv' out res ans -> asks_with "eval-and-play" code r ->
  map r_status ans = [["done"]] \/ rejects compile sv code -> in_bounds sv ->
  in_bounds sv' /\ (forall e, In e (events (sv_score sv)) -> In e (events (sv_score sv'))).
Proof.
  intros sv r sv' out res ans code H A [W|R] B.
  - pose proof (well_step _ _ _ _ _ _ _ H A W) as E. destruct (evals_done _ _ _ _ E B) as (us & s & b & C & X & O & T & I & ER).
    destruct (c04 us (sv_score sv)) as [new Hn]. rewrite X in Hn. cbn [fst] in Hn.
    assert (L : Z.to_nat (sv_index sv) <= List.length (events s)) by (rewrite Hn, app_length; destruct B; lia).
    destruct (transmits_events _ _ _ _ _ T ER L) as (_ & sorted & P & E2).
    assert (PP : Permutation (events s) (events (sv_score sv'))).
    { rewrite E2. rewrite <- (firstn_skipn (Z.to_nat (sv_index sv)) (events s)) at 1. apply Permutation_app_head. exact P. }
    split.
    + unfold in_bounds. rewrite I, (Permutation_length PP). lia.
    + intros e He. eapply Permutation_in; [exact PP|]. rewrite Hn. apply in_or_app. left. exact He.
  - destruct (c42_rejected _ _ _ _ _ _ _ H A R) as (_ & I & _ & _). destruct (rejected_step _ _ _ _ _ _ _ H A R) as [new Hn].
    split.
    + destruct B. unfold in_bounds. rewrite I, Hn, app_length. lia.
    + intros e He. rewrite Hn. apply in_or_app. left. exact He.
Qed.

Definition regular_events (s : score) : Prop := forall e, In e (events s) -> in_range n0 nmaxval e = true.

Lemma serves_grow : forall sv rs sv' log, serves sv rs sv' log -> Forall (input_exchange compile) log -> in_bounds sv ->
  in_bounds sv' /\ (forall e, In e (events (sv_score sv)) -> In e (events (sv_score sv'))).
Proof.
  intros sv rs sv' log H. induction H as [sv|sv r rs sv1 out res ans sv2 log H D Hs IH|sv r rs sv1 out ans H]; intros F B.
  - split; [exact B|auto].
  - inversion F as [|? ? (code & A & W) F']; subst. destruct (input_bounds _ _ _ _ _ _ _ H A W B) as [B1 G1].
    destruct (IH F' B1) as [B2 G2]. split; [exact B2|auto].
  - inversion F as [|? ? (code & A & W) F']; subst. eapply input_bounds; eassumption.
Qed.

Lemma filter_regular : forall (f : note_event -> bool) l, (forall e, In e l -> f e = true) -> filter f l = l.
Proof. intros f l H. induction l as [|a l IH]; [reflexivity|]. cbn. rewrite (H a (or_introl eq_refl)). f_equal. apply IH. intros; apply H; right; assumption. Qed.

Lemma c41_step : linear_order -> nisnan n0 = false -> nisnan nmaxval = false -> forall sv r sv' out res ans code, handles sv r sv' out res ans -> asks_with "eval-and-play" code r ->
  map r_status ans = [["done"]] -> in_bounds sv -> regular_events (sv_score sv') ->
  exists b batch, out = [b] /\ Permutation (filter is_note b) (map (note_message (sv_score sv') n0 (part_offsets (sv_score sv))) batch) /\
    sv_index sv' = Z.of_nat (List.length (events (sv_score sv'))) /\
    Permutation (firstn (Z.to_nat (sv_index sv)) (events (sv_score sv)) ++ batch) (events (sv_score sv')).
Proof.
  intros LO NZ NM sv r sv' out res ans code H A W B R.
  pose proof (well_step _ _ _ _ _ _ _ H A W) as E. destruct (evals_done _ _ _ _ E B) as (us & s & b & C & X & O & T & I & ER).
  destruct (c04 us (sv_score sv)) as [new Hn]. rewrite X in Hn. cbn [fst] in Hn.
  assert (L : Z.to_nat (sv_index sv) <= List.length (events s)) by (rewrite Hn, app_length; destruct B; lia).
  destruct (transmits_events _ _ _ _ _ T ER L) as (E1 & sorted & P & E2).
  set (batch := skipn (Z.to_nat (sv_index sv)) (events s)) in *.
  assert (PP : Permutation (events s) (events (sv_score sv'))).
  { rewrite E2. rewrite <- (firstn_skipn (Z.to_nat (sv_index sv)) (events s)) at 1. apply Permutation_app_head. exact P. }
  assert (Rs : forall e, In e (events s) -> in_range n0 nmaxval e = true) by (intros e He; apply R; eapply Permutation_in; eassumption).
  exists b, batch. split; [exact O|]. split; [|split].
  - rewrite E1. apply (c29 LO _ _ _ _ n0 nmaxval batch T). split.
    + reflexivity.
    + exists (Z.to_nat (sv_index sv)), (List.length (events s)). split; [exact ER|]. unfold slice. rewrite firstn_all2 by (rewrite skipn_length; lia).
      symmetry. apply filter_regular. intros e He. apply Rs. unfold batch in He. rewrite <- (firstn_skipn (Z.to_nat (sv_index sv)) (events s)). apply in_or_app. right. exact He.
    + split; [exact NZ|]. split; [exact NM|]. intros e He. specialize (Rs e He). unfold in_range in Rs. apply andb_prop in Rs. destruct Rs as [Rs _].
      destruct LO as [_ LE _ _ _]. apply LE in Rs. apply Rs.
  - rewrite I. rewrite (Permutation_length PP). reflexivity.
  - rewrite <- PP. eapply perm_trans; [|rewrite <- (firstn_skipn (Z.to_nat (sv_index sv)) (events s)); apply Permutation_refl].
    apply Permutation_app_tail. rewrite Hn. rewrite firstn_app. replace (Z.to_nat (sv_index sv) - List.length (events (sv_score sv))) with 0 by (destruct B; lia).
    cbn [firstn]. rewrite app_nil_r. apply Permutation_refl.
Qed.

Lemma c41_from : linear_order -> nisnan n0 = false -> nisnan nmaxval = false -> forall sv rs sv' log, serves sv rs sv' log ->
  Forall (input_exchange compile) log -> in_bounds sv -> regular_events (sv_score sv') ->
  exists batches, Forall2 delivers log batches /\
    Permutation (firstn (Z.to_nat (sv_index sv)) (events (sv_score sv)) ++ List.concat batches) (firstn (Z.to_nat (sv_index sv')) (events (sv_score sv'))) /\
    (log = [] \/ exists log' h, log = log' ++ [h] /\ (went_well h -> sv_index sv' = Z.of_nat (List.length (events (sv_score sv'))))).
Proof.
  intros LO NZ NM sv rs sv' log H. induction H as [sv|sv r rs sv1 out res ans sv2 log H D Hs IH|sv r rs sv1 out ans H]; intros F B R.
  - exists []. split; [constructor|]. split; [cbn; rewrite app_nil_r; apply Permutation_refl|left; reflexivity].
  - inversion F as [|? ? (code & A & W) F']; subst. cbn [h_request h_before h_answers] in *.
    destruct (input_bounds _ _ _ _ _ _ _ H A W B) as [B1 G1]. destruct (IH F' B1 R) as (bs & D1 & P1 & L1).
    destruct (serves_grow _ _ _ _ Hs F' B1) as [_ G2].
    assert (Hlast : (log = [] -> went_well (Exchange r sv sv1 out ans) -> sv_index sv1 = Z.of_nat (List.length (events (sv_score sv1)))) ->
       Exchange r sv sv1 out ans :: log = [] \/ exists log' h, Exchange r sv sv1 out ans :: log = log' ++ [h] /\ (went_well h -> sv_index sv2 = Z.of_nat (List.length (events (sv_score sv2))))).
    { intros K. right. destruct L1 as [L1|(log' & h & L1 & L2)].
      - subst log. inversion Hs; subst. exists [], (Exchange r sv sv2 out ans). split; [reflexivity|]. apply K. reflexivity.
      - exists (Exchange r sv sv1 out ans :: log'), h. split; [rewrite L1; reflexivity|exact L2]. }
    destruct W as [W|W].
    + destruct (c41_step LO NZ NM _ _ _ _ _ _ _ H A W B) as (b & batch & O & Pb & I & Pe); [intros e He; apply R, G2, He|].
      exists (batch :: bs). split; [constructor; [left; split; [exact W|exists b; auto]|exact D1]|]. split.
      * cbn [List.concat]. rewrite app_assoc. rewrite <- P1. apply Permutation_app_tail. rewrite I, Nat2Z.id, firstn_all. exact Pe.
      * apply Hlast. intros _ _. exact I.
    + destruct (c42_rejected _ _ _ _ _ _ _ H A W) as (_ & I & O & m & An). destruct (rejected_step _ _ _ _ _ _ _ H A W) as [new Hn].
      exists ([] :: bs). split; [constructor; [right; split; [exists [m]; cbn; rewrite An; reflexivity|split; [exact O|reflexivity]]|exact D1]|]. split.
      * cbn [List.concat]. rewrite <- P1. apply Permutation_app_tail. rewrite I, Hn, firstn_app.
        replace (Z.to_nat (sv_index sv) - List.length (events (sv_score sv))) with 0 by (destruct B; lia).
        cbn [firstn app]. rewrite app_nil_r. apply Permutation_refl.
      * apply Hlast. intros _ W'. exfalso. unfold went_well in W'. cbn in W'. rewrite An in W'. discriminate.
  - exfalso. inversion F as [|? ? (code & A & W) F']; subst. cbn [h_request h_before h_answers] in *. apply handles_answers in H as K.
    destruct W as [W|W].
    + unfold went_well in W. cbn in W. destruct ans; discriminate.
    + destruct (c42_rejected _ _ _ _ _ _ _ H A W) as (_ & _ & _ & m & An). subst. discriminate.
Qed.
Lemma c41 : linear_order -> nisnan n0 = false -> nisnan nmaxval = false -> forall rs sv log, serves new_server rs sv log ->
  Forall (input_exchange compile) log -> (forall e, In e (events (sv_score sv)) -> in_range n0 nmaxval e = true) ->
  exists batches unsent, Forall2 delivers log batches /\ Permutation (List.concat batches ++ unsent) (events (sv_score sv)) /\
    (ends_well log -> unsent = []).
Proof.
  intros LO NZ NM rs sv log H F R. assert (B : in_bounds new_server) by (unfold in_bounds; cbn; lia).
  destruct (c41_from LO NZ NM _ _ _ _ H F B R) as (bs & D & P & L). cbn in P.
  exists bs, (skipn (Z.to_nat (sv_index sv)) (events (sv_score sv))). split; [exact D|]. split.
  - rewrite P. rewrite firstn_skipn. apply Permutation_refl.
  - intros W. destruct L as [L|(log' & h & L & K)].
    + subst log. inversion H; subst. reflexivity.
    + rewrite (K (W _ _ L)), Nat2Z.id. apply skipn_all.
Qed.

Lemma successful_iff : forall h, successful h = true <-> went_well h.
Proof.
  intros h. unfold successful, went_well. destruct (h_answers h) as [|a [|b l]]; cbn; try (split; discriminate).
  destruct (r_status a) as [|x [|y l]]; cbn; try (split; discriminate).
  rewrite String.eqb_eq. split; [intros ->; reflexivity|intros K; inversion K; reflexivity].
Qed.
Lemma c43_input : forall sv rs sv' log, serves sv rs sv' log -> Forall (ordinary compile) log ->
  sv_input sv' = fold_left (fun t r => edits r t) (map h_request (filter successful log)) (sv_input sv).
Proof.
  intros sv rs sv' log H.
  assert (Step : forall sv r sv' out res ans, handles sv r sv' out res ans -> ordinary compile (Exchange r sv sv' out ans) ->
    sv_input sv' = if successful (Exchange r sv sv' out ans) then edits r (sv_input sv) else sv_input sv).
  { clear. intros sv r sv' out res ans H O. destruct (successful _) eqn:S.
    - apply successful_iff in S. eapply handles_text; eassumption.
    - destruct O as [O|[(code & A & R)|Hr]].
      + apply successful_iff in O. congruence.
      + apply (c42_rejected _ _ _ _ _ _ _ H A R).
      + apply (c43_harmless _ _ _ _ _ _ H Hr). }
  induction H as [sv|sv r rs sv1 out res ans sv2 log H D Hs IH|sv r rs sv1 out ans H]; intros W.
  - reflexivity.
  - inversion W; subst. rewrite (IH H3), (Step _ _ _ _ _ _ H H2). cbn [filter]. destruct (successful _); reflexivity.
  - inversion W; subst. rewrite (Step _ _ _ _ _ _ H H2). cbn [filter]. destruct (successful _); reflexivity.
Qed.

(* ---------------- the score is that of the inputs ---------------- *)

Lemma transmits_same : forall t s s' r, transmits t s s' r -> reordered s s'.
Proof.
  intros t s s' r H. destruct H as [lo hi start stop sorted E T [P _]|lo hi m E T|m E]; [|apply reordered_refl|apply reordered_refl].
  apply reordered_set. rewrite <- (firstn_skipn lo (events s)) at 1. apply Permutation_app_head.
  assert (K : skipn lo (events s) = slice lo hi (events s) ++ skipn hi (events s) \/ hi < lo).
  { destruct (Nat.le_gt_cases lo hi) as [G|G]; [left|right; exact G]. unfold slice. rewrite <- (firstn_skipn (hi - lo) (skipn lo (events s))) at 1. f_equal.
    clear -G. revert hi G. induction lo; intros hi G; [rewrite Nat.sub_0_r; reflexivity|]. destruct hi; [lia|]. destruct (events s) as [|e l] eqn:El; [rewrite skipn_nil; reflexivity|].
    cbn [skipn Nat.sub]. clear IHlo El. revert hi G l. induction lo; intros hi G l; [rewrite Nat.sub_0_r; reflexivity|]. destruct hi; [lia|]. destruct l; [rewrite !skipn_nil; reflexivity|]. cbn [skipn Nat.sub]. apply IHlo. lia. }
  destruct K as [K|K].
  - rewrite K. apply Permutation_app_tail. exact P.
  - exfalso. unfold event_range in E. match type of E with (if ?b then _ else _) = _ => destruct b eqn:Eb; [|discriminate] end. inversion E; subst. lia.
Qed.

Lemma sends_same : forall t sv sv' out r, sends_score t sv sv' out r ->
  reordered (sv_score sv) (sv_score sv') /\ sv_input sv' = sv_input sv /\ sv_index sv' = sv_index sv.
Proof. intros t sv sv' out r H. destruct H as [s b T|s b m T|s m T|s m T]; (split; [exact (transmits_same _ _ _ _ T)|split; reflexivity]). Qed.

Lemma evals_score : forall code from to sv sv' out, evals code from to sv sv' out Done ->
  exists us, compile code = ROk us /\ snd (exec us (sv_score sv)) = Ok /\ reordered (fst (exec us (sv_score sv))) (sv_score sv').
Proof.
  intros code from to sv sv' out H. inversion H as [|sv1 r t U V|sv1 t sv2 o r U V]; subst; [congruence|].
  destruct (update_text _ _ _ _ _ U) as [(T & us & s & C & X & S1 & S2) E]. exists us. split; [exact C|]. rewrite X. split; [reflexivity|].
  cbn [fst]. rewrite <- S1. apply (sends_same _ _ _ _ _ V).
Qed.
Lemma continue_com : forall uss s t, reordered s t -> reordered (continue s uss) (continue t uss).
Proof. induction uss as [|us uss IH]; intros s t H; [exact H|]. apply IH. apply (exec_com us s t H). Qed.

(** Evaluations only: the score is that of the inputs evaluated one by one. *)
Lemma c43_score_from : forall sv rs sv' log, serves sv rs sv' log ->
  Forall (fun h => asks "eval-and-play" (h_request h) /\ went_well h) log ->
  exists uss, Forall2 (fun h us => exists code, field "code" (h_request h) = Some (Some code) /\ compile code = ROk us) log uss /\
    forall s, reordered s (sv_score sv) ->
      (forall us a b, uss = a ++ us :: b -> snd (exec us (continue s a)) = Ok) /\ reordered (continue s uss) (sv_score sv').
Proof.
  intros sv rs sv' log H. induction H as [sv|sv r rs sv1 out res ans sv2 log H D Hs IH|sv r rs sv1 out ans H]; intros F.
  - exists []. split; [constructor|]. intros s R. split; [intros us [|? ?] b K; discriminate|exact R].
  - inversion F as [|? ? [A W] F']; subst. cbn [h_request] in A. destruct (IH F') as (uss & F2 & R2).
    unfold went_well in W. cbn [h_answers] in W.
    assert (Hc : exists code, field "code" r = Some (Some code)).
    { destruct H as [H|op H K|op sv' out res ans F0 H]; try (cbn in W; discriminate).
      assert (op = "eval-and-play") by (unfold asks in A; congruence). subst op. inversion H; subst; [cbn in W; discriminate|]. exists code; assumption. }
    destruct Hc as [code Hc]. destruct (evals_score _ _ _ _ _ _ (well_step _ _ _ _ _ _ _ H (conj A Hc) W)) as (us & C & X & R).
    exists (us :: uss). split; [constructor; [exists code; auto|exact F2]|]. intros s Rs.
    destruct (exec_com us s (sv_score sv) Rs) as [R3 O3]. destruct (R2 (fst (exec us s)) (reordered_trans _ _ _ R3 R)) as [K1 K2].
    split; [|exact K2]. intros u [|u0 a] b E; inversion E; subst; [change (continue s []) with s; rewrite O3; exact X|]. exact (K1 u a b eq_refl).
  - inversion F as [|? ? [A W] F']; subst. exfalso. apply handles_answers in H. unfold went_well in W. cbn in W. destruct ans; discriminate.
Qed.

Lemma c43_score : forall rs sv log, serves new_server rs sv log ->
  Forall (fun h => asks "eval-and-play" (h_request h) /\ went_well h) log ->
  exists uss, Forall2 (fun h us => exists code, field "code" (h_request h) = Some (Some code) /\ compile code = ROk us) log uss /\
    exec (List.concat uss) new_score = (session uss, Ok) /\ same_music (session uss) (sv_score sv).
Proof.
  intros rs sv log H F. destruct (c43_score_from _ _ _ _ H F) as (uss & F2 & R). exists uss. split; [exact F2|].
  destruct (R new_score (reordered_refl _)) as [K1 K2]. split; [|exact K2]. clear -K1. change (session uss) with (continue new_score uss). revert K1.
  generalize (@new_score N). induction uss as [|us uss IH]; intros s K1; [reflexivity|]. cbn [List.concat]. rewrite c05_app.
  pose proof (K1 us [] uss eq_refl) as O. cbn in O. change (continue s (us :: uss)) with (continue (fst (exec us s)) uss).
  destruct (exec us s) as [s1 o] eqn:E0. cbn [fst snd] in *. subst o. apply IH. intros u a b E. subst uss.
  pose proof (K1 u (us :: a) b eq_refl) as K2. change (continue s (us :: a)) with (continue (fst (exec us s)) a) in K2. rewrite E0 in K2. exact K2.
Qed.

(** Replaying rebuilds the score from the text. *)
Lemma c43_replay : forall sv r sv' out res ans, handles sv r sv' out res ans -> asks "replay" r -> map r_status ans = [["done"]] ->
  exists us s, compile (sv_input sv) = ROk us /\ exec us new_score = (s, Ok) /\ same_music s (sv_score sv').
Proof.
  intros sv r sv' out res ans H A W. destruct H as [H|op H K|op sv' out res ans F0 H]; try (cbn in W; discriminate).
  assert (op = "replay") by (unfold asks in A; congruence). subst op. inversion H as [| | | | | | | | | |sv1 o1 r1 K| | | | | | | | | ]; subst. apply answer_well in W. subst.
  inversion K as [|sv2 o2 sv3 o3 r3 RS EV]; subst; [congruence|]. apply resets_text in RS. subst sv2.
  destruct (evals_score _ _ _ _ _ _ EV) as (us & C & X & R). exists us, (fst (exec us new_score)).
  cbn [blank sv_score] in *. split; [exact C|]. split; [destruct (exec us new_score); cbn in *; congruence|exact R].
Qed.
Lemma c43_reproduces : forall rs sv log r sv' out res ans, serves new_server rs sv log ->
  Forall (fun h => asks "eval-and-play" (h_request h) /\ went_well h) log ->
  (forall uss, Forall2 (fun h us => exists code, field "code" (h_request h) = Some (Some code) /\ compile code = ROk us) log uss ->
     compile (sv_input sv) = ROk (List.concat uss)) ->
  handles sv r sv' out res ans -> asks "replay" r -> map r_status ans = [["done"]] ->
  same_music (sv_score sv) (sv_score sv').
Proof.
  intros rs sv log r sv' out res ans H F C K A W. destruct (c43_score _ _ _ H F) as (uss & F2 & X & R).
  destruct (c43_replay _ _ _ _ _ _ K A W) as (us & s & C2 & X2 & R2). rewrite (C _ F2) in C2. inversion C2; subst us.
  rewrite X in X2. inversion X2; subst s. exact (reordered_trans _ _ _ (reordered_sym _ _ R) R2).
Qed.

(* ---------------- the process never dies ---------------- *)

Section Alive.
Hypothesis tame_compile : forall text, match compile text with ROk us => Forall safe us | RErr _ => True | RPanic _ => False end.

Definition sound (sv : server) : Prop :=
  in_bounds sv /\ exists calls, Forall (Forall safe) calls /\ reordered (session calls) (sv_score sv).

Lemma sound_blank : forall sv, sound (blank sv).
Proof. intros sv. split; [unfold in_bounds; cbn; lia|]. exists []. split; [constructor|apply reordered_refl]. Qed.
Lemma update_alive : forall code sv sv1 r t, update_score code sv = (sv1, r, t) -> sound sv ->
  sound sv1 /\ r <> Dead /\ (0 <= t_fromi t <= Z.of_nat (List.length (events (sv_score sv1))))%Z /\ t_toi t = (-1)%Z.
Proof.
  intros code sv sv1 r t H [B (calls & F & R)]. unfold ModelRepl.update_score in H. pose proof (tame_compile code) as T.
  destruct (compile code) as [us|m|m]; [|inversion H; subst; (split; [split; [exact B|exists calls; auto]|split; [discriminate|split; [exact B|reflexivity]]])|destruct T].
  pose proof (c21_safe calls us F T) as S. destruct (exec_com us _ _ R) as [R2 O2]. rewrite O2 in S.
  destruct (c04 us (sv_score sv)) as [new Hn].
  destruct (exec us (sv_score sv)) as [s o] eqn:E. cbn [fst snd] in *.
  assert (R3 : exists calls0, Forall (Forall safe) calls0 /\ reordered (session calls0) s).
  { exists (calls ++ [us]). split; [apply Forall_app; split; [exact F|constructor; [exact T|constructor]]|].
    unfold session. rewrite fold_left_app. cbn. exact R2. }
  destruct B as [B1 B2].
  destruct o as [|m|m| |]; try destruct S; inversion H; subst; (split; [split; [unfold in_bounds; cbn; rewrite ?Hn, ?app_length; lia|exact R3]|split; [discriminate|split; [cbn; rewrite Hn, app_length; lia|reflexivity]]]).
Qed.
Lemma sends_alive : forall t sv sv' out r, sends_score t sv sv' out r -> sound sv ->
  (0 <= t_fromi t <= Z.of_nat (List.length (events (sv_score sv))))%Z -> t_toi t = (-1)%Z -> sound sv' /\ r <> Dead.
Proof.
  intros t sv sv' out r H [B (calls & F & R)] T1 T2. destruct (sends_same _ _ _ _ _ H) as (S & _ & I). split.
  - split; [|exists calls; split; [exact F|exact (reordered_trans _ _ _ R S)]]. destruct S as [_ S]. apply Permutation_length in S.
    unfold in_bounds in *. rewrite I, <- S. exact B.
  - destruct H as [s b T|s b m T|s m T|s m T]; try discriminate. inversion T as [| |? E]; subst. unfold event_range in E. rewrite T2 in E. cbn in E.
    replace (0 <=? t_fromi t)%Z with true in E by lia. replace (t_fromi t <=? _)%Z with true in E by lia. rewrite Z.leb_refl in E. discriminate.
Qed.
Lemma resets_alive : forall sv sv' out r, resets sv sv' out r -> sound sv -> sound sv' /\ r <> Dead.
Proof. intros sv sv' out r H S. destruct H; (split; [try apply sound_blank; exact S|discriminate]). Qed.
Lemma evals_alive : forall code from to sv sv' out r, evals code from to sv sv' out r -> sound sv -> sound sv' /\ r <> Dead.
Proof.
  intros code from to sv sv' out r H S. destruct H as [e|sv1 r t U V|sv1 t sv2 o r U V].
  - split; [exact S|discriminate].
  - destruct (update_alive _ _ _ _ _ U S) as (A & D & _). split; assumption.
  - destruct (update_alive _ _ _ _ _ U S) as (A & D & T1 & T2). exact (sends_alive _ _ _ _ _ V A T1 T2).
Qed.
Lemma message_alive : forall m out r, sends_message m out r -> r <> Dead.
Proof. intros m out r H. destruct H; discriminate. Qed.
Lemma loads_alive : forall code sv sv' out r, loads code sv sv' out r -> sound sv -> sound sv' /\ r <> Dead.
Proof.
  intros code sv sv' out r H S. destruct H as [sv1 o1 r A K|sv1 o1 e A|sv1 o1 sv2 r t A U K|sv1 o1 sv2 t sv3 o2 r A U V K|sv1 o1 sv2 t sv3 o2 o3 r A U V M];
    destruct (resets_alive _ _ _ _ A S) as [S1 D1].
  - split; assumption.
  - split; [exact S1|discriminate].
  - destruct (update_alive _ _ _ _ _ U S1) as (S2 & D & _). split; assumption.
  - destruct (update_alive _ _ _ _ _ U S1) as (S2 & D & T1 & T2). exact (sends_alive _ _ _ _ _ V S2 T1 T2).
  - destruct (update_alive _ _ _ _ _ U S1) as (S2 & D & T1 & T2). split; [exact (proj1 (sends_alive _ _ _ _ _ V S2 T1 T2))|exact (message_alive _ _ _ M)].
Qed.
Lemma operates_alive : forall sv r op sv' out res ans, operates sv r op sv' out res ans -> sound sv -> sound sv' /\ res <> Dead.
Proof.
  intros sv r op sv' out res ans H S. destruct H; try (split; [exact S|discriminate]).
  - eapply evals_alive; eassumption.
  - match goal with E : exports _ _ _ _ |- _ => destruct E as [sv1 o r0 L K|sv1 o e L|sv1 o f r0 L K] end;
      destruct (loads_alive _ _ _ _ _ L S) as [S1 D1]; (split; [exact S1|first [exact D1|discriminate|exact K]]).
  - eapply loads_alive; eassumption.
  - eapply resets_alive; eassumption.
  - match goal with E : replays _ _ _ _ _ _ |- _ => destruct E as [sv1 o1 r1 A K|sv1 o1 sv2 o2 r1 A K] end; destruct (resets_alive _ _ _ _ A S) as [S1 D1].
    + split; assumption.
    + exact (evals_alive _ _ _ _ _ _ _ K S1).
  - exfalso. match goal with E : compile _ = RPanic _ |- _ => pose proof (tame_compile (sv_input sv)) as T; rewrite E in T; exact T end.
  - split; [exact S|]. eapply message_alive; eassumption.
Qed.
Lemma handles_alive : forall sv r sv' out res ans, handles sv r sv' out res ans -> sound sv -> sound sv' /\ res <> Dead.
Proof.
  intros sv r sv' out res ans H S. destruct H; try (split; [exact S|discriminate]). eapply operates_alive; eassumption.
Qed.
Lemma c43_alive : forall rs sv log, serves new_server rs sv log ->
  List.length log = List.length rs /\ Forall2 (fun r h => h_request h = r /\ List.length (h_answers h) = 1) rs log.
Proof.
  intros rs sv log H. assert (S : sound new_server) by (split; [unfold in_bounds; cbn; lia|exists []; split; [constructor|apply reordered_refl]]).
  revert S. induction H as [sv|sv r rs sv1 out res ans sv2 log H D Hs IH|sv r rs sv1 out ans H]; intros S.
  - split; [reflexivity|constructor].
  - destruct (handles_alive _ _ _ _ _ _ H S) as [S1 _]. destruct (IH S1) as [L F]. split; [cbn; lia|]. constructor; [|exact F].
    cbn. split; [reflexivity|]. apply handles_answers in H. destruct res; [exact H|exact H|congruence].
  - destruct (handles_alive _ _ _ _ _ _ H S) as [_ D]. congruence.
Qed.
End Alive.

(* ---------------- sessions to look at ---------------- *)

Definition play (code : string) : request := [("op", Some "eval-and-play"); ("code", Some code)].
(** Evaluating when nothing goes wrong outside and the new notes are in order. *)
Definition play_now (sv : server) (code : string) : option (server * sent * result) :=
  match update_score code sv with
  | (sv1, Done, t) =>
      match event_range t (sv_score sv1) with
      | ROk (lo, hi) =>
          if in_order (slice lo hi (events (sv_score sv1)))
          then Some (set_score (set_events (firstn lo (events (sv_score sv1)) ++ slice lo hi (events (sv_score sv1)) ++ skipn hi (events (sv_score sv1))) (sv_score sv1)) sv1,
                     [bundle_of t (sv_score sv1) n0 nmaxval (slice lo hi (events (sv_score sv1)))], Done)
          else None
      | _ => None
      end
  | (sv1, Failed m, t) => Some (sv1, [], Failed m)
  | (sv1, Dead, t) => None
  end.
Fixpoint play_log (codes : list string) (sv : server) : option (server * list exchange) :=
  match codes with
  | [] => Some (sv, [])
  | c :: codes =>
      match play_now sv c with
      | Some (sv1, out, r) =>
          match play_log codes sv1 with
          | Some (sv2, log) => Some (sv2, Exchange (play c) sv sv1 out (answer (play c) r DNone) :: log)
          | None => None
          end
      | None => None
      end
  end.
Definition played (codes : list string) : server * list exchange :=
  match play_log codes new_server with Some x => x | None => (new_server, []) end.

Lemma play_now_handles : forall sv c sv1 out r, play_now sv c = Some (sv1, out, r) ->
  handles sv (play c) sv1 out r (answer (play c) r DNone) /\ r <> Dead.
Proof.
  intros sv c sv1 out r H. unfold play_now in H. destruct (update_score c sv) as [[sv2 r2] t] eqn:U.
  pose proof (update_text _ _ _ _ _ U) as [_ T].
  destruct r2 as [|m|]; [| |discriminate].
  - destruct (event_range t (sv_score sv2)) as [[lo hi]|m|m] eqn:E; try discriminate.
    destruct (in_order _) eqn:O; [|discriminate]. inversion H; subst sv1 out r. split; [|discriminate].
    eapply H_op; [reflexivity|]. apply (O_play compile sv (play c) c); [reflexivity|]. eapply EV_sent; [exact U|].
    assert (Et : with_options None None false t = t) by (subst t; reflexivity). rewrite Et. apply SS_sent. eapply Tr_bundle; [exact E|subst t; reflexivity|].
    split; [apply Permutation_refl|]. intros _. apply in_order_sorted, O.
  - inversion H; subst. split; [|discriminate]. eapply H_op; [reflexivity|]. apply (O_play compile sv (play c) c); [reflexivity|].
    eapply EV_bad; [exact U|discriminate].
Qed.
Lemma play_log_serves : forall codes sv sv' log, play_log codes sv = Some (sv', log) -> serves sv (map play codes) sv' log.
Proof.
  induction codes as [|c codes IH]; intros sv sv' log H; cbn [play_log map] in *; [inversion H; constructor|].
  destruct (play_now sv c) as [[[sv1 out] r]|] eqn:E; [|discriminate]. destruct (play_log codes sv1) as [[sv2 log2]|] eqn:E2; [|discriminate].
  inversion H; subst. destruct (play_now_handles _ _ _ _ _ E) as [A B]. eapply SV_next; [exact A|exact B|]. apply IH, E2.
Qed.
Lemma played_serves : forall codes, match play_log codes new_server with Some _ => true | None => false end = true ->
  serves new_server (map play codes) (fst (played codes)) (snd (played codes)).
Proof.
  intros codes H. unfold played. destruct (play_log codes new_server) as [[sv log]|] eqn:E; [|discriminate]. apply play_log_serves, E.
Qed.
End Repl.

(* ---------------- the laws hold of both number systems ---------------- *)

Lemma nonan_XQ : @nisnan XQ n0 = false /\ @nisnan XQ nmaxval = false.
Proof. split; reflexivity. Qed.
Lemma nonan_B64 : @nisnan B64 n0 = false /\ @nisnan B64 nmaxval = false.
Proof. split; vm_compute; reflexivity. Qed.

(* ---------------- what does not hold ---------------- *)

(** A compiler that knows a few inputs. *)
Definition toy_note {N : Num} (l : letter) : update := UPrim (Note (PLetter l None) (Some [CLen (nofZ 4) 0%Z]) false).
Definition toy {N : Num} (text : string) : res (list update) :=
  if String.eqb text "piano: c" then ROk [UPart ["piano"] ""; toy_note LC]
  else if String.eqb text "d" then ROk [toy_note LD]
  else if String.eqb text "e f oops" then ROk [toy_note LE; toy_note LF; UVarRef "oops"]
  else if String.eqb text (line "piano: c" ++ line "d")%string then ROk [UPart ["piano"] ""; toy_note LC; toy_note LD]
  else RErr "syntax error".

Lemma c42_score_refuted : exists (compile : string -> res (list (@update B64))) before bad after sv log sv' log',
  serves compile new_server (before ++ [bad] ++ after) sv log /\ serves compile new_server (before ++ after) sv' log' /\
  all_well log = [true; false; true] /\ all_well log' = [true; true] /\
  notes_sent log = [1; 0; 3] /\ notes_sent log' = [1; 1].
Proof.
  exists toy, [play "piano: c"], (play "e f oops"), [play "d"], (fst (played toy ["piano: c"; "e f oops"; "d"])), (snd (played toy ["piano: c"; "e f oops"; "d"])),
    (fst (played toy ["piano: c"; "d"])), (snd (played toy ["piano: c"; "d"])).
  split; [apply (played_serves toy ["piano: c"; "e f oops"; "d"]); vm_compute; reflexivity|].
  split; [apply (played_serves toy ["piano: c"; "d"]); vm_compute; reflexivity|].
  split; [vm_compute; reflexivity|]. split; [vm_compute; reflexivity|]. split; vm_compute; reflexivity.
Qed.

Lemma serves_app : forall {N : Num} compile sv rs sv1 log r sv2 out res ans, serves compile sv rs sv1 log -> List.length log = List.length rs ->
  Forall (fun h => h_answers h <> []) log ->
  handles compile sv1 r sv2 out res ans -> serves compile sv (rs ++ [r]) sv2 (log ++ [Exchange r sv1 sv2 out ans]).
Proof.
  intros N compile sv rs sv1 log r sv2 out res ans H. revert r sv2 out res ans. induction H as [sv|sv r rs sv1 out res ans sv2 log H D Hs IH|sv r rs sv1 out ans H]; intros r' sv' out' res' ans' L F K.
  - destruct res'; [eapply SV_next; [exact K|discriminate|constructor]|eapply SV_next; [exact K|discriminate|constructor]|apply SV_dead; exact K].
  - inversion F; subst. cbn [app]. eapply SV_next; [exact H|exact D|]. eapply IH; [cbn in L; lia|assumption|exact K].
  - inversion F; subst. exfalso. apply handles_answers in H. cbn in *. destruct ans; [congruence|discriminate].
Qed.

Lemma play_log_answers : forall {N : Num} compile codes sv sv' log, play_log compile codes sv = Some (sv', log) ->
  List.length log = List.length (map play codes) /\ Forall (fun h => h_answers h <> []) log.
Proof.
  intros N compile. induction codes as [|c codes IH]; intros sv sv' log H; cbn [play_log] in H; [inversion H; split; [reflexivity|constructor]|].
  destruct (play_now compile sv c) as [[[sv1 out] r]|] eqn:E; [|discriminate]. destruct (play_log compile codes sv1) as [[sv2 log2]|] eqn:E2; [|discriminate].
  inversion H; subst. destruct (IH _ _ _ E2) as [A B]. split; [cbn; rewrite A; reflexivity|]. constructor; [|exact B].
  destruct (play_now_handles _ _ _ _ _ _ E) as [_ D]. cbn. destruct r; [discriminate|discriminate|congruence].
Qed.
Definition lost_log {N : Num} (x : server * list exchange) : list exchange :=
  snd x ++ [Exchange [("op", Some "replay")] (fst x) (blank (fst x)) [] [respond_error [("op", Some "replay")] "no players available"]].
Lemma lost_serves : forall {N : Num} compile codes, match play_log compile codes new_server with Some _ => true | None => false end = true ->
  serves compile new_server (map play codes ++ [[("op", Some "replay")]]) (blank (fst (played compile codes))) (lost_log (played compile codes)).
Proof.
  intros N compile codes H. unfold played. destruct (play_log compile codes new_server) as [[sv log]|] eqn:E; [|discriminate].
  destruct (play_log_answers _ _ _ _ _ E) as [A B]. unfold lost_log. cbn [fst snd].
  eapply (serves_app compile _ _ sv log _ (blank sv) _ (Failed "no players available")); [apply play_log_serves, E|exact A|exact B|].
  eapply H_op; [reflexivity|]. apply (O_replay compile sv [("op", Some "replay")] (blank sv) [] (Failed "no players available")).
  apply (RP_eval compile _ _ sv (blank sv) [] (blank sv) []); [apply RS_alone|apply EV_timeout].
Qed.
Lemma c43_lost_refuted : exists (compile : string -> res (list (@update B64))) rs r sv log,
  serves compile new_server (rs ++ [r]) sv log /\ asks "replay" r /\
  all_well log = [true; true; false] /\ map (fun h => sv_input (h_after h)) log = [line "piano: c"; (line "piano: c" ++ line "d")%string; ""].
Proof.
  exists toy, (map play ["piano: c"; "d"]), [("op", Some "replay")], (blank (fst (played toy ["piano: c"; "d"]))), (lost_log (played toy ["piano: c"; "d"])).
  split; [apply lost_serves; vm_compute; reflexivity|]. split; [reflexivity|]. split; vm_compute; reflexivity.
Qed.

(** An input whose notes could not be sent is in the text all the same. *)
Lemma unsent_handles : forall {N : Num} compile code,
  match update_score compile code new_server with
  | (sv, Done, t) => match event_range t (sv_score sv) with ROk (lo, hi) => in_order (slice lo hi (events (sv_score sv))) | _ => false end
  | _ => false end = true ->
  exists sv, handles compile new_server (play code) sv [] (Failed "no route") [respond_error (play code) "no route"] /\
    sv_input sv = line code /\ sv_index sv = Z.of_nat (List.length (events (sv_score sv))) /\
    List.length (events (sv_score sv)) = List.length (events (sv_score (fst (fst (update_score compile code new_server))))).
Proof.
  intros N compile code H. destruct (update_score compile code new_server) as [[sv1 r1] t] eqn:U. destruct r1; try discriminate.
  destruct (update_text _ _ _ _ _ _ U) as [(T1 & us & s & C & X & S1 & S2) T].
  destruct (event_range t (sv_score sv1)) as [[lo hi]|m|m] eqn:E; try discriminate.
  destruct (transmit_now t (sv_score sv1) lo hi n0 nmaxval E) as [s' Y]; [subst t; reflexivity|exact H|].
  exists (set_score s' sv1). split; [|split; [exact T1|]].
  - eapply H_op; [reflexivity|]. apply (O_play compile new_server (play code) code (set_score s' sv1) [] (Failed "no route")); [reflexivity|].
    eapply EV_sent; [exact U|]. eapply SS_lost. assert (Et : with_options None None false t = t) by (rewrite T; reflexivity). rewrite Et. exact Y.
  - cbn. destruct (transmits_same _ _ _ _ Y) as [_ P]. apply Permutation_length in P. rewrite <- P, S2, S1. split; reflexivity.
Qed.
Lemma c42_unsent_refuted : exists (compile : string -> res (list (@update B64))) sv r,
  handles compile new_server r sv [] (Failed "no route") [respond_error r "no route"] /\ asks_with "eval-and-play" "piano: c" r /\
  sv_input sv = line "piano: c" /\ sv_index sv = Z.of_nat (List.length (events (sv_score sv))) /\ List.length (events (sv_score sv)) = 1.
Proof.
  destruct (unsent_handles (N := B64) toy "piano: c") as (sv & A & B & C & D); [vm_compute; reflexivity|].
  exists toy, sv, (play "piano: c"). split; [exact A|]. split; [split; reflexivity|]. split; [exact B|]. split; [exact C|].
  rewrite D. vm_compute. reflexivity.
Qed.

Lemma c51_describe_refuted : exists (compile : string -> res (list (@update B64))) r1 r2 sv h1 h2,
  serves compile new_server [r1; r2] sv [h1; h2] /\ field "id" r2 = None /\ map r_id (h_answers h2) = [Some (Some "7")].
Proof.
  exists toy, [("op", Some "describe"); ("id", Some "7")], [("op", Some "describe")]. do 3 eexists. split; [|split].
  - eapply SV_next; [eapply H_op; [reflexivity|apply O_describe]|discriminate|].
    eapply SV_next; [eapply H_op; [reflexivity|apply O_describe]|discriminate|constructor].
  - reflexivity.
  - reflexivity.
Qed.
