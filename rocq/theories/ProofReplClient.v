(** Proofs about REPL client sessions (C57). *)
From Coq Require Import ZArith String Ascii List Bool Lia Permutation.
From Verif Require Import Base Num ModelPitch ModelDuration ModelInstruments ModelTypes ModelLisp ModelScore ModelOsc ModelRepl
  SpecScore SpecVars SpecParts SpecSolo SpecTiming SpecGlobals SpecOsc SpecRepl ProofGlobals ProofOrder ProofOsc ProofRepl ModelReplClient SpecReplClient.
Import ListNotations.
Local Open Scope string_scope.
Local Open Scope list_scope.

Section ReplClient.
Context {N : Num}.
Variable compile : string -> res (list update).
Variable split : string -> option (list string).
Notation carries_out := (carries_out compile).
Notation sends_request := (sends_request compile).
Notation handles := (handles compile).
Notation converses := (converses compile split).
Notation action := (action split).
Notation plan := (plan split).

(* ---------------- requests ---------------- *)
Definition anonymous (r : request) : Prop := Forall (fun x => fst x <> "id") r.
Definition plain_act (a : act) : Prop := match a with Ask r _ => anonymous r | _ => True end.

Lemma field_app : forall k (r s : request), Forall (fun x => fst x <> k) r -> field k (r ++ s) = field k s.
Proof.
  intros k r s H. induction H as [|[k' v] r Hx _ IH]; [reflexivity|]. cbn [fst] in Hx. unfold field in *. cbn [app aget].
  destruct (String.eqb_spec k' k); [contradiction|exact IH].
Qed.
Lemma field_first : forall k (r s : request) v, field k r = Some v -> field k (r ++ s) = Some v.
Proof. intros k r. unfold field. induction r as [|[k' v'] r IH]; intros s v H; [discriminate|]. cbn [app aget] in *. destruct (String.eqb k' k); [exact H|now apply IH]. Qed.
Lemma full_id : forall c id r, anonymous r -> field "id" (full_request c id r) = Some (Some id).
Proof. intros c id r H. unfold full_request. rewrite field_app by exact H. destruct (String.eqb (c_session c) ""); reflexivity. Qed.
Lemma full_for : forall c id r sv sv' out ans, request_for r (Exchange (full_request c id r) sv sv' out ans).
Proof.
  intros. eexists. split; [reflexivity|]. destruct (String.eqb (c_session c) ""); cbn [app]; repeat (apply Forall_cons; [cbn; tauto|]); constructor.
Qed.

Ltac anon := repeat (apply Forall_cons; [discriminate|]); try apply Forall_nil.
Lemma plan_plain : forall w name args, plain_act (snd (plan w name args)).
Proof.
  intros w name args. unfold ModelReplClient.plan, ModelReplClient.op.
  repeat match goal with |- context [String.eqb name ?x] => destruct (String.eqb name x) end; cbn [snd];
  try (destruct (split args) as [l|]; [|exact I]); try exact I; try (cbn; anon; fail).
  - destruct l as [|f [|? ?]]; try exact I. cbn. anon.
  - destruct l; [exact I|]. destruct (existsb _ _); exact I.
  - destruct (file_of (w_client w) l) as [c1|]; [|exact I]. cbn [snd]. destruct (aget _ _ _); [|exact I]. cbn. anon.
  - destruct (play_args l None None) as [[f t]|]; [|exact I]. cbn. destruct f, t; cbn; anon.
  - destruct (file_of (w_client w) l) as [c1|]; [|exact I]. cbn. anon.
  - destruct l as [|f [|? ?]]; [cbn; anon| |exact I]. repeat match goal with |- context [String.eqb f ?x] => destruct (String.eqb f x) end; try exact I; cbn; anon.
Qed.
Lemma action_plain : forall w line, plain_act (snd (action w line)).
Proof.
  intros w line. unfold ModelReplClient.action. destruct (String.eqb line ""); [exact I|]. destruct (understand line); try exact I; [apply plan_plain|]. cbn. unfold ModelReplClient.op. anon.
Qed.

(* ---------------- answers ---------------- *)
Definition known (used : list string) (a : response) : Prop := exists i, r_id a = Some (Some i) /\ In i used.

Lemma reads_incl : forall u v a, reads u v a -> incl v u.
Proof. intros u v a H. destruct H as [u|a lost rest]; [apply incl_refl|]. intros x Hx. right. apply in_or_app. now right. Qed.
Lemma reads_head : forall u v a, reads u v (Some a) -> exists t, u = a :: t.
Proof. intros u v a H. inversion H; subst. eexists. reflexivity. Qed.

(** The exchange of a request. *)
Definition made (r : request) (id : string) (w w' : world) (h : exchange) : Prop :=
  h_request h = full_request (w_client w) id r /\ w_server w' = h_after h /\
  exists res, handles (h_before h) (h_request h) (h_after h) (h_sent h) res (h_answers h).

Lemma known_more : forall used id l, Forall (known used) l -> Forall (known (id :: used)) l.
Proof. intros used id l H. eapply Forall_impl; [|exact H]. intros a (i & A & B). exists i. split; [exact A|now right]. Qed.

Lemma sends_ok : forall used id r w w' x a, sends_request id r w w' x a -> anonymous r -> Forall (known used) (w_unread w) -> ~ In id used ->
  Forall (known (id :: used)) (w_unread w') /\ w_client w' = w_client w /\ w_files w' = w_files w /\
  (forall h, x = Some h -> made r id w w' h) /\
  (forall y, a = Some y -> exists h, x = Some h /\ In y (h_answers h)).
Proof.
  intros used id r w w' x a H Ha Hu Hn. destruct H as [|sv u a Hl Ho Hr|sv sv' out res ans u a Hl Ho Hh Hr].
  - split; [now apply known_more|]. repeat split; discriminate.
  - cbn [w_unread w_client w_files]. split.
    { apply known_more. rewrite Forall_forall in *. intros y Hy. apply Hu. now apply (reads_incl _ _ _ Hr). }
    split; [reflexivity|]. split; [reflexivity|]. split; [discriminate|]. intros y Hy. exfalso. unfold accepted in Hy. destruct a as [z|]; [|discriminate].
    destruct (reads_head _ _ _ Hr) as [t Et]. rewrite Et in Hu. apply Forall_inv in Hu. destruct Hu as (i & I1 & I2). rewrite I1 in Hy.
    destruct (String.eqb_spec i id) as [-> |]; [now apply Hn|discriminate].
  - cbn [w_unread w_client w_files].
    assert (Hid : Forall (known (id :: used)) ans).
    { rewrite Forall_forall. intros y Hy. exists id. split; [|now left]. apply (c51_describe _ _ _ _ _ _ _ y (Some id) Hh Hy). now apply full_id. }
    assert (Hall : Forall (known (id :: used)) (w_unread w ++ ans)) by (apply Forall_app; split; [now apply known_more|exact Hid]).
    split. { rewrite Forall_forall in *. intros y Hy. apply Hall. now apply (reads_incl _ _ _ Hr). }
    split; [reflexivity|]. split; [reflexivity|]. split.
    { intros h Hh2. injection Hh2 as <-. split; [reflexivity|]. split; [reflexivity|]. exists res. exact Hh. }
    intros y Hy. eexists. split; [reflexivity|]. cbn [h_answers]. unfold accepted in Hy. destruct a as [z|]; [|discriminate].
    destruct (r_id z) as [[i|]|] eqn:Ei; [|discriminate|discriminate]. destruct (String.eqb_spec i id) as [-> |]; [|discriminate]. injection Hy as <-.
    destruct (reads_head _ _ _ Hr) as [t Et]. destruct (w_unread w) as [|b u0] eqn:Eu; cbn [app] in Et.
    + rewrite Et. now left.
    + assert (b = z) by congruence. subst b. exfalso. apply Forall_inv in Hu. destruct Hu as (i & I1 & I2). rewrite Ei in I1. injection I1 as <-. now apply Hn.
Qed.

(** One action. *)
Record fine (w : world) (a : act) (w' : world) (hs : list happening) (log : list exchange) (ids : list string) : Prop := {
  fi_files : w_files w' = written hs (w_files w);
  fi_file : c_file (w_client w') = c_file (w_client w);
  fi_session : c_session (w_client w') = c_session (w_client w);
  fi_asked : forall r y, In (Asked r (Some y)) hs -> (exists u, a = Ask r u) /\
    exists h id, log = [h] /\ ids = [id] /\ In y (h_answers h) /\ made r id w w' h;
  fi_wrote : forall f t, In (Wrote f t) hs -> exists r u y, a = Ask r u /\ In (Asked r (Some y)) hs /\ u (r_data y) = Write f t;
  fi_log : forall h, In h log -> exists r u id, a = Ask r u /\ made r id w w' h }.

Lemma carries_fine : forall used w a w' hs log ids, carries_out w a w' hs log ids -> plain_act a -> Forall (known used) (w_unread w) -> (forall i, In i ids -> ~ In i used) ->
  fine w a w' hs log ids /\ Forall (known (ids ++ used)) (w_unread w').
Proof.
  intros used w a w' hs log ids H Ha Hu Hn.
  destruct H as [| | |id r u w1 x H|id r u w1 x y H Hy|id r u w1 x y H Hy|id r u w1 x y f t H Hy|id r u w1 x y f t H Hy].
  - split; [|exact Hu]. constructor; try reflexivity; try (intros ? ? [K|[]]; discriminate). intros ? [].
  - split; [|exact Hu]. constructor; try reflexivity; try (intros ? ? []). intros ? [].
  - split; [|exact Hu]. constructor; try reflexivity; try (intros ? ? []). intros ? [].
  - destruct (sends_ok used id r w w1 x None H Ha Hu (Hn id (or_introl eq_refl))) as (S1 & S2 & S3 & S4 & S5). split; [|exact S1].
    constructor; try (cbn; congruence); try (intros ? ? [K|[K|[]]]; discriminate).
    intros h Hh. destruct x as [h0|]; [|destruct Hh]. destruct Hh as [<-|[]]. exists r, u, id. split; [reflexivity|]. apply S4. reflexivity.
  - destruct (sends_ok used id r w w1 x (Some y) H Ha Hu (Hn id (or_introl eq_refl))) as (S1 & S2 & S3 & S4 & S5). destruct (S5 y eq_refl) as (h & -> & Hin). split; [|exact S1].
    constructor; try (cbn; congruence).
    + intros r' y' [K|[K|[]]]; [|discriminate]. injection K as <- <-. split; [now exists u|]. exists h, id. split; [reflexivity|]. split; [reflexivity|]. split; [exact Hin|]. apply S4. reflexivity.
    + intros ? ? [K|[K|[]]]; discriminate.
    + intros h0 [<-|[]]. exists r, u, id. split; [reflexivity|]. apply S4. reflexivity.
  - destruct (sends_ok used id r w w1 x (Some y) H Ha Hu (Hn id (or_introl eq_refl))) as (S1 & S2 & S3 & S4 & S5). destruct (S5 y eq_refl) as (h & -> & Hin). split; [|exact S1].
    constructor; try (cbn; congruence).
    + intros r' y' [K|[]]. injection K as <- <-. split; [now exists u|]. exists h, id. split; [reflexivity|]. split; [reflexivity|]. split; [exact Hin|]. apply S4. reflexivity.
    + intros ? ? [K|[]]; discriminate.
    + intros h0 [<-|[]]. exists r, u, id. split; [reflexivity|]. apply S4. reflexivity.
  - destruct (sends_ok used id r w w1 x (Some y) H Ha Hu (Hn id (or_introl eq_refl))) as (S1 & S2 & S3 & S4 & S5). destruct (S5 y eq_refl) as (h & -> & Hin). split; [|exact S1].
    constructor; [unfold write, written; cbn [w_files fold_left]; now rewrite S3|exact (f_equal c_file S2)|exact (f_equal c_session S2)| | |].
    + intros r' y' [K|[K|[]]]; [|discriminate]. injection K as <- <-. split; [now exists u|]. exists h, id. split; [reflexivity|]. split; [reflexivity|]. split; [exact Hin|].
      destruct (S4 h eq_refl) as (M1 & M2 & M3). repeat apply conj; [exact M1|exact M2|exact M3].
    + intros f' t' [K|[K|[]]]; [discriminate|]. injection K as <- <-. exists r, u, y. repeat apply conj; [reflexivity|now left|exact Hy].
    + intros h0 [<-|[]]. exists r, u, id. split; [reflexivity|]. destruct (S4 h eq_refl) as (M1 & M2 & M3). repeat apply conj; [exact M1|exact M2|exact M3].
  - destruct (sends_ok used id r w w1 x (Some y) H Ha Hu (Hn id (or_introl eq_refl))) as (S1 & S2 & S3 & S4 & S5). destruct (S5 y eq_refl) as (h & -> & Hin). split; [|exact S1].
    constructor; try (cbn; congruence).
    + intros r' y' [K|[K|[]]]; [|discriminate]. injection K as <- <-. split; [now exists u|]. exists h, id. split; [reflexivity|]. split; [reflexivity|]. split; [exact Hin|]. apply S4. reflexivity.
    + intros ? ? [K|[K|[]]]; discriminate.
    + intros h0 [<-|[]]. exists r, u, id. split; [reflexivity|]. apply S4. reflexivity.
Qed.

(** One entry. *)
Definition good_entry (e : entry) : Prop :=
  fine (set_client (fst (action (n_before e) (n_line e))) (n_before e)) (snd (action (n_before e) (n_line e))) (n_after e) (n_happened e) (n_log e) (n_ids e).
Lemma converses_good : forall w lines w' es, converses w lines w' es -> forall used, Forall (known used) (w_unread w) -> NoDup (flat_map n_ids es) ->
  (forall i, In i (flat_map n_ids es) -> ~ In i used) -> Forall good_entry es.
Proof.
  intros w lines w' es H. induction H as [w|w lines Hr|w f t lines w2 es H IH|w line lines w1 hs log ids w2 es Hr Hc H IH]; intros used Hu Hd Hn.
  - constructor.
  - constructor.
  - apply (IH used); assumption.
  - cbn [flat_map n_ids] in *.
    destruct (carries_fine used _ _ _ _ _ _ Hc (action_plain w line) Hu) as [Hf Hk]; [intros i Hi; apply Hn; apply in_or_app; now left|].
    apply Forall_cons; [exact Hf|]. apply (IH (ids ++ used) Hk).
    + clear -Hd. induction ids as [|i ids IH]; [exact Hd|]. apply IH. now inversion Hd.
    + intros i Hi K. apply in_app_or in K. destruct K as [K|K].
      * clear -Hd Hi K. induction ids as [|j ids IH]; [destruct K|]. cbn in Hd. inversion_clear Hd as [|? ? N1 N2]. destruct K as [-> |K]; [apply N1; apply in_or_app; now right|now apply IH].
      * apply (Hn i); [apply in_or_app; now right|exact K].
Qed.
Lemma all_good : forall w lines w' es, converses w lines w' es -> w_unread w = [] -> fresh_ids es -> Forall good_entry es.
Proof. intros w lines w' es H Hu Hd. apply (converses_good w lines w' es H []); [rewrite Hu; constructor|exact Hd|intros i _ []]. Qed.

Lemma made_for : forall r id w w' h, made r id w w' h -> request_for r h.
Proof. intros r id w w' [q b a o l] (M1 & _ & _). cbn [h_request] in M1. subst q. apply full_for. Qed.

Theorem c57_own : forall w lines w' es, converses w lines w' es -> w_unread w = [] -> fresh_ids es ->
  forall e r a, In e es -> In (Asked r (Some a)) (n_happened e) ->
  exists h, exchanged e h /\ request_for r h /\ In a (h_answers h) /\ w_server (n_after e) = h_after h.
Proof.
  intros w lines w' es H Hu Hd e r a He Ha. pose proof (all_good w lines w' es H Hu Hd) as G. rewrite Forall_forall in G. destruct (G e He) as [G1 G2 G3 G4 G5 G6].
  destruct (G4 r a Ha) as (_ & h & id & L & I & Hin & M). exists h. repeat apply conj; [exact L|eapply made_for; exact M|exact Hin|apply M].
Qed.

(* ---------------- files ---------------- *)
Lemma op_of_request : forall o h r, request_for r h -> field "op" r = Some (Some o) -> asks o (h_request h).
Proof. intros o h r (e & E & _) Ho. unfold asks. rewrite E. now apply field_first. Qed.

Lemma file_named : forall c l c1, file_of c l = Some c1 -> l = [c_file c1] \/ l = [] /\ c1 = c /\ c_file c <> "".
Proof.
  intros c [|f [|? ?]] c1 H; cbn in H; try discriminate.
  - right. destruct (String.eqb_spec (c_file c) ""); [discriminate|]. injection H as <-. now repeat split.
  - left. now injection H as <-.
Qed.

(** Only two commands write. *)
Lemma plan_writes : forall w name args r u y f t, plan w name args = (fst (plan w name args), Ask r u) -> u (r_data y) = Write f t ->
  (name = "save" /\ r = ModelReplClient.op "score-text" /\ r_data y = DText t /\
     (split args = Some [f] \/ split args = Some [] /\ f = c_file (w_client w) /\ f <> "")) \/
  (name = "export" /\ r = ModelReplClient.op "export" /\ r_data y = DBinary t /\ split args = Some [f]).
Proof.
  intros w name args r u y f t H Hu. assert (Hs : snd (plan w name args) = Ask r u) by now rewrite H. clear H. revert Hs. unfold ModelReplClient.plan.
  destruct (String.eqb_spec name "export") as [-> |N1].
  { cbn [snd]. destruct (split args) as [[|g [|? ?]]|]; intros Hs; try discriminate. injection Hs as <- <-. right. destruct (r_data y); try discriminate. injection Hu as <- <-. now repeat split. }
  destruct (String.eqb name "help"). { cbn [snd]. destruct (split args) as [[|? ?]|]; try discriminate. destruct (existsb _ _); discriminate. }
  destruct (String.eqb name "instruments"). { cbn [snd]. intros Hs. injection Hs as <- <-. destruct (r_data y); discriminate. }
  destruct (String.eqb name "load"). { destruct (split args) as [l|]; [|discriminate]. destruct (file_of (w_client w) l) as [c1|]; [|discriminate]. cbn [snd]. destruct (aget _ _ _); [|discriminate].
    intros Hs. injection Hs as <- <-. discriminate. }
  destruct (String.eqb name "new"). { cbn [snd]. intros Hs. injection Hs as <- <-. discriminate. }
  destruct (String.eqb name "parts"). { cbn [snd]. intros Hs. injection Hs as <- <-. unfold show_score in Hu. destruct (r_data y); discriminate. }
  destruct (String.eqb name "play"). { cbn [snd]. destruct (split args) as [l|]; [|discriminate]. destruct (play_args l None None) as [[? ?]|]; [|discriminate].
    intros Hs. injection Hs as <- <-. discriminate. }
  destruct (String.eqb name "quit"); [discriminate|].
  destruct (String.eqb_spec name "save") as [-> |N2].
  { destruct (split args) as [l|] eqn:El; [|discriminate]. destruct (file_of (w_client w) l) as [c1|] eqn:Ef; [|discriminate]. cbn [snd]. intros Hs. injection Hs as <- <-.
    left. destruct (r_data y); try discriminate. injection Hu as <- <-. repeat apply conj; try reflexivity. apply file_named in Ef. destruct Ef as [-> |(-> & -> & Hne)]; [now left|right; now repeat split]. }
  destruct (String.eqb name "score").
  { cbn [snd]. destruct (split args) as [[|sub [|? ?]]|]; try discriminate.
    - intros Hs. injection Hs as <- <-. unfold show_text in Hu. destruct (r_data y); discriminate.
    - repeat match goal with |- context [String.eqb sub ?x] => destruct (String.eqb sub x) end; try discriminate; intros Hs; injection Hs as <- <-;
      unfold show_text, show_score, show_events, show_ast in Hu; destruct (r_data y); discriminate. }
  destruct (String.eqb name "stop"). { cbn [snd]. intros Hs. injection Hs as <- <-. discriminate. }
  destruct (String.eqb name "version"). { cbn [snd]. intros Hs. injection Hs as <- <-. destruct (r_data y); discriminate. }
  discriminate.
Qed.

Lemma text_answer : forall sv r sv' out res ans y t, handles sv r sv' out res ans -> asks "score-text" r -> In y ans -> r_data y = DText t -> t = sv_input sv.
Proof.
  intros sv r sv' out res ans y t H A Hin Hd. destruct H as [H|o H K|o sv' out res ans F0 H].
  - destruct Hin as [<-|[]]. discriminate.
  - destruct Hin as [<-|[]]. discriminate.
  - assert (o = "score-text") by (unfold asks in A; congruence). subst o. inversion H; subst. destruct Hin as [<-|[]]. cbn in Hd. congruence.
Qed.

Theorem c57_files : forall w lines w' es, converses w lines w' es -> w_unread w = [] -> fresh_ids es ->
  Forall (fun e => w_files (n_after e) = written (n_happened e) (w_files (n_before e)) /\
    forall f t, In (Wrote f t) (n_happened e) -> exists h, exchanged e h /\
      (command_for split "save" f e /\ asks "score-text" (h_request h) /\ t = sv_input (h_before h) \/
       command_for split "export" f e /\ asks "export" (h_request h) /\ exists a, In a (h_answers h) /\ r_data a = DBinary t)) es.
Proof.
  intros w lines w' es H Hu Hd. pose proof (all_good w lines w' es H Hu Hd) as G. eapply Forall_impl; [|exact G]. clear. intros e [G1 G2 G3 G4 G5 G6]. split; [exact G1|].
  intros f t Hw. destruct (G5 f t Hw) as (r & u & y & Ea & Hin & Hy). destruct (G4 r y Hin) as (_ & h & id & L & I & Hi & M). exists h. split; [exact L|].
  pose proof (made_for _ _ _ _ _ M) as Hf. destruct M as (_ & _ & res & Hh).
  unfold ModelReplClient.action in Ea. destruct (String.eqb (n_line e) ""); [discriminate|]. destruct (understand (n_line e)) as [name args| | |s] eqn:El; try discriminate.
  - destruct (plan_writes (n_before e) name args r u y f t) as [(-> & -> & D & K)|(-> & -> & D & K)]; [rewrite <- Ea; now destruct (plan (n_before e) name args)|exact Hy| |].
    + left. split; [exists args; now split|]. assert (A : asks "score-text" (h_request h)) by (apply (op_of_request "score-text" h _ Hf); reflexivity). split; [exact A|].
      eapply text_answer; eassumption.
    + right. split; [exists args; split; [exact El|now left]|]. split; [apply (op_of_request "export" h _ Hf); reflexivity|]. now exists y.
  - injection Ea as <- <-. discriminate.
Qed.

Theorem c57_remembers : forall w lines w' es, converses w lines w' es -> w_unread w = [] -> fresh_ids es ->
  Forall (fun e => c_file (w_client (n_after e)) = remembers split e) es.
Proof.
  intros w lines w' es H Hu Hd. pose proof (all_good w lines w' es H Hu Hd) as G. eapply Forall_impl; [|exact G]. clear. intros e [G1 G2 G3 G4 G5 G6]. rewrite G2. clear.
  cbn [w_client set_client]. unfold remembers, ModelReplClient.action. destruct (String.eqb_spec (n_line e) "") as [-> |Hl]; [reflexivity|].
  destruct (understand (n_line e)) as [name args| | |s]; try reflexivity. cbn [existsb]. unfold ModelReplClient.plan.
  destruct (String.eqb_spec name "load") as [-> |N1]; [|destruct (String.eqb_spec name "save") as [-> |N2]].
  - cbn. destruct (split args) as [l|]; [|reflexivity]. destruct l as [|f [|? ?]]; cbn; try reflexivity. destruct (String.eqb (c_file _) ""); reflexivity.
  - cbn. destruct (split args) as [l|]; [|reflexivity]. destruct l as [|f [|? ?]]; cbn; try reflexivity. destruct (String.eqb (c_file _) ""); reflexivity.
  - cbn [orb]. repeat match goal with |- context [String.eqb name ?x] => destruct (String.eqb name x) end; reflexivity.
Qed.

(* ---------------- what is sent ---------------- *)
Theorem c57_sends : forall w lines w' es, converses w lines w' es -> w_unread w = [] -> fresh_ids es ->
  forall e h, In e es -> In h (n_log e) ->
  match understand (n_line e) with
  | Code s => asks_with "eval-and-play" s (h_request h)
  | Command name args => exists o, In (name, o) operations /\ asks o (h_request h) /\
      (name = "play" -> exists l from to, split args = Some l /\ play_args l None None = Some (from, to) /\
         option_field "from" (h_request h) = from /\ option_field "to" (h_request h) = to) /\
      (name = "load" -> exists f t, command_for split "load" f e /\ aget String.eqb f (w_files (n_before e)) = Some t /\ asks_with "load" t (h_request h))
  | _ => False
  end.
Proof.
  intros w lines w' es H Hu Hd e h He Hh. pose proof (all_good w lines w' es H Hu Hd) as G. rewrite Forall_forall in G. destruct (G e He) as [_ _ _ _ _ G6]. clear -G6 Hh.
  destruct (G6 h Hh) as (r & u & id & Ea & M). pose proof (made_for _ _ _ _ _ M) as (extra & E & Hx). clear M G6.
  assert (Xf : forall k, k <> "session" -> k <> "id" -> field k extra = None).
  { intros k K1 K2. clear -Hx K1 K2. induction Hx as [|[k' v] l Hk _ IH]; [reflexivity|]. unfold field in *. cbn [aget]. cbn in Hk. destruct (String.eqb_spec k' k) as [-> |_]; [|exact IH].
    destruct Hk as [Hk|[Hk|[]]]; congruence. }
  unfold ModelReplClient.action in Ea. destruct (String.eqb_spec (n_line e) "") as [El|_]; [discriminate|].
  destruct (understand (n_line e)) as [name args| | |s] eqn:El; try discriminate.
  2:{ cbn [snd] in Ea. injection Ea as <- <-. rewrite E. split; reflexivity. }
  assert (Ho : forall o, In (name, o) operations -> field "op" r = Some (Some o) -> name <> "play" -> name <> "load" -> exists o, In (name, o) operations /\ asks o (h_request h) /\
      (name = "play" -> exists l from to, split args = Some l /\ play_args l None None = Some (from, to) /\
         option_field "from" (h_request h) = from /\ option_field "to" (h_request h) = to) /\
      (name = "load" -> exists f t, command_for split "load" f e /\ aget String.eqb f (w_files (n_before e)) = Some t /\ asks_with "load" t (h_request h))).
  { intros o I1 I2 N1 N2. exists o. split; [exact I1|]. split; [unfold asks; rewrite E; now apply field_first|]. split; intros; contradiction. }
  revert Ea. unfold ModelReplClient.plan.
  destruct (String.eqb_spec name "export") as [-> |N1].
  { cbn [snd]. destruct (split args) as [[|g [|? ?]]|]; intros Hs; try discriminate. injection Hs as <- <-. apply (Ho "export"); [cbn; tauto|reflexivity|discriminate|discriminate]. }
  destruct (String.eqb name "help"). { cbn [snd]. destruct (split args) as [[|? ?]|]; try discriminate. destruct (existsb _ _); discriminate. }
  destruct (String.eqb_spec name "instruments") as [-> |N2]. { cbn [snd]. intros Hs. injection Hs as <- <-. apply (Ho "instruments"); [cbn; tauto|reflexivity|discriminate|discriminate]. }
  destruct (String.eqb_spec name "load") as [-> |N3].
  { destruct (split args) as [l|] eqn:Es; [|discriminate]. destruct (file_of (w_client (n_before e)) l) as [c1|] eqn:Ef; [|discriminate]. cbn [snd]. destruct (aget _ _ _) as [t|] eqn:Et; [|discriminate].
    intros Hs. injection Hs as <- <-. exists "load". split; [cbn; tauto|]. split; [unfold asks; now rewrite E|]. split; [discriminate|]. intros _. exists (c_file c1), t.
    split; [exists args; split; [exact El|]; apply file_named in Ef; destruct Ef as [-> |(-> & -> & Hne)]; [now left|right; now repeat split]|]. split; [exact Et|]. rewrite E. split; reflexivity. }
  destruct (String.eqb_spec name "new") as [-> |N4]. { cbn [snd]. intros Hs. injection Hs as <- <-. apply (Ho "new-score"); [cbn; tauto|reflexivity|discriminate|discriminate]. }
  destruct (String.eqb_spec name "parts") as [-> |N5]. { cbn [snd]. intros Hs. injection Hs as <- <-. apply (Ho "score-data"); [cbn; tauto|reflexivity|discriminate|discriminate]. }
  destruct (String.eqb_spec name "play") as [-> |N6].
  { cbn [snd]. destruct (split args) as [l|] eqn:Es; [|discriminate]. destruct (play_args l None None) as [[from to]|] eqn:Ep; [|discriminate].
    intros Hs. injection Hs as <- <-. exists "replay". split; [cbn; tauto|]. split; [unfold asks; now rewrite E|]. split; [|discriminate]. intros _. exists l, from, to. split; [reflexivity|]. split; [exact Ep|].
    pose proof (Xf "from" ltac:(discriminate) ltac:(discriminate)) as F1. pose proof (Xf "to" ltac:(discriminate) ltac:(discriminate)) as F2.
    unfold option_field. rewrite E. unfold field in *. destruct from, to; cbn in *; rewrite ?F1, ?F2; split; reflexivity. }
  destruct (String.eqb name "quit"); [discriminate|].
  destruct (String.eqb_spec name "save") as [-> |N7].
  { destruct (split args) as [l|]; [|discriminate]. destruct (file_of (w_client (n_before e)) l) as [c1|]; [|discriminate]. cbn [snd]. intros Hs. injection Hs as <- <-.
    apply (Ho "score-text"); [cbn; tauto|reflexivity|discriminate|discriminate]. }
  destruct (String.eqb_spec name "score") as [-> |N8].
  { cbn [snd]. destruct (split args) as [[|sub [|? ?]]|]; try discriminate.
    - intros Hs. injection Hs as <- <-. apply (Ho "score-text"); [cbn; tauto|reflexivity|discriminate|discriminate].
    - repeat match goal with |- context [String.eqb sub ?x] => destruct (String.eqb sub x) end; try discriminate; intros Hs; injection Hs as <- <-;
      (eapply Ho; [|reflexivity|discriminate|discriminate]; cbn; tauto). }
  destruct (String.eqb_spec name "stop") as [-> |N9]. { cbn [snd]. intros Hs. injection Hs as <- <-. apply (Ho "stop"); [cbn; tauto|reflexivity|discriminate|discriminate]. }
  destruct (String.eqb_spec name "version") as [-> |N10]. { cbn [snd]. intros Hs. injection Hs as <- <-. apply (Ho "describe"); [cbn; tauto|reflexivity|discriminate|discriminate]. }
  discriminate.
Qed.

(* ---------------- loading ---------------- *)
Lemma one_answer : forall sv r sv' out res ans a, handles sv r sv' out res ans -> In a ans -> ans = [a].
Proof.
  intros sv r sv' out res ans a H Hin. destruct H as [H|o H K|o sv' out res ans F0 H]; [destruct Hin as [<-|[]]; reflexivity|destruct Hin as [<-|[]]; reflexivity|].
  destruct H; try (destruct Hin as [<-|[]]; reflexivity); try destruct Hin; unfold answer in *; destruct res; try (destruct Hin as [<-|[]]; reflexivity); destruct Hin.
Qed.
Lemma loaded : forall sv r sv' out res ans code, handles sv r sv' out res ans -> asks_with "load" code r -> map r_status ans = [["done"]] ->
  sv_input sv' = line code /\ exists us s, compile code = ROk us /\ exec us new_score = (s, Ok) /\ same_music s (sv_score sv').
Proof.
  intros sv r sv' out res ans code H [A C] W. split.
  { rewrite (handles_text compile _ _ _ _ _ _ H W). unfold edits. unfold asks in A. rewrite A, C. reflexivity. }
  destruct H as [H|o H K|o sv' out res ans F0 H]; try (cbn in W; discriminate).
  assert (o = "load") by (unfold asks in A; congruence). subst o. inversion H as [| | | | | | | |code' sv1 o1 r1 C' K| | | | | | | | | | |]; subst; [cbn in W; discriminate|].
  apply answer_well in W. subst. assert (code' = code) by congruence. subst code'.
  inversion K as [| | |sv1 o1 sv2 t sv3 o2 r9 A1 B1 C1 D1|sv1 o1 sv2 t sv3 o2 o3 r9 A1 B1 C1 D1]; subst; try congruence.
  apply resets_text in A1. subst sv1. apply update_text in B1. destruct B1 as [(_ & us & s & X1 & X2 & X3 & _) _]. cbn [blank sv_score] in X2.
  exists us, s. repeat apply conj; [exact X1|exact X2| |]; rewrite <- X3; apply (sends_same _ _ _ _ _ C1).
Qed.

(** What is asked for by an entry is what its line means. *)
Lemma loads_what : forall (e : entry) f t r y, good_entry e -> command_for split "load" f e -> aget String.eqb f (w_files (n_before e)) = Some t ->
  In (Asked r (Some y)) (n_happened e) -> r = ModelReplClient.op "load" ++ [("code", Some t)].
Proof.
  intros e f t r y [G1 G2 G3 G4 G5 G6] (args & El & Hf) Ht Hin. destruct (G4 r y Hin) as ((u & Ea) & _). clear -Ea El Hf Ht.
  unfold ModelReplClient.action in Ea. destruct (String.eqb_spec (n_line e) "") as [E|_]; [rewrite E in El; discriminate|]. rewrite El in Ea. unfold ModelReplClient.plan in Ea. cbn [String.eqb Ascii.eqb Bool.eqb] in Ea.
  destruct Hf as [K|(K & -> & Hne)]; rewrite K in Ea; cbn [file_of set_file c_file] in Ea.
  - rewrite Ht in Ea. cbn [snd] in Ea. congruence.
  - destruct (String.eqb_spec (c_file (w_client (n_before e))) ""); [contradiction|]. rewrite Ht in Ea. cbn [snd] in Ea. congruence.
Qed.

Theorem c57_load : forall w lines w' es, converses w lines w' es -> w_unread w = [] -> fresh_ids es ->
  forall e f t r a, In e es -> command_for split "load" f e -> aget String.eqb f (w_files (n_before e)) = Some t ->
  In (Asked r (Some a)) (n_happened e) -> r_status a = ["done"] ->
  exists h us s, exchanged e h /\ asks_with "load" t (h_request h) /\ sv_input (h_after h) = line t /\
    compile t = ROk us /\ exec us new_score = (s, Ok) /\ same_music s (sv_score (h_after h)).
Proof.
  intros w lines w' es H Hu Hd e f t r a He Hc Ht Ha Hs. pose proof (all_good w lines w' es H Hu Hd) as G. rewrite Forall_forall in G. specialize (G e He).
  pose proof (loads_what e f t r a G Hc Ht Ha) as Er. destruct G as [G1 G2 G3 G4 G5 G6]. destruct (G4 r a Ha) as (_ & h & id & L & I & Hin & M).
  pose proof (made_for _ _ _ _ _ M) as (extra & E & _). destruct M as (_ & _ & res & Hh).
  assert (A : asks_with "load" t (h_request h)) by (rewrite E, Er; split; reflexivity).
  pose proof (one_answer _ _ _ _ _ _ a Hh Hin) as E1. destruct (loaded _ _ _ _ _ _ t Hh A) as (K1 & us & s & K2 & K3 & K4); [rewrite E1; cbn; now rewrite Hs|].
  exists h, us, s. repeat apply conj; [exact L|apply A|apply A|exact K1|exact K2|exact K3|apply K4|apply K4].
Qed.

(** The text of evaluations, loaded again, gives their score. *)
Theorem c57_reload : forall w lines w' es, converses w lines w' es -> w_unread w = [] -> fresh_ids es ->
  forall e f r a rs sv log, In e es -> command_for split "load" f e -> aget String.eqb f (w_files (n_before e)) = Some (sv_input sv) ->
  In (Asked r (Some a)) (n_happened e) -> r_status a = ["done"] ->
  serves compile new_server rs sv log -> Forall (fun h => asks "eval-and-play" (h_request h) /\ went_well h) log ->
  (forall uss, Forall2 (fun h us => exists code, field "code" (h_request h) = Some (Some code) /\ compile code = ROk us) log uss ->
     compile (sv_input sv) = ROk (List.concat uss)) ->
  same_music (sv_score sv) (sv_score (w_server (n_after e))).
Proof.
  intros w lines w' es H Hu Hd e f r a rs sv log He Hc Ht Ha Hs Hsv Hl Hcomp.
  destruct (c57_load w lines w' es H Hu Hd e f _ r a He Hc Ht Ha Hs) as (h & us & s & L & _ & _ & C & X & R).
  destruct (c57_own w lines w' es H Hu Hd e r a He Ha) as (h' & L' & _ & _ & E). unfold exchanged in *. assert (h' = h) by congruence. subst h'. rewrite E.
  destruct (c43_score compile _ _ _ Hsv Hl) as (uss & F2 & X1 & R1). rewrite (Hcomp _ F2) in C. assert (us = List.concat uss) by congruence. subst us.
  assert (s = session uss) by congruence. subst s. exact (reordered_trans _ _ _ (reordered_sym _ _ R1) R).
Qed.

(* ---------------- :play ---------------- *)
Theorem c57_play : forall l from to, play_args l None None = Some (from, to) <->
  match from, to with
  | None, None => l = []
  | Some a, None => l = ["from"; a]
  | None, Some b => l = ["to"; b]
  | Some a, Some b => l = ["from"; a; "to"; b] \/ l = ["to"; b; "from"; a]
  end.
Proof.
  assert (full : forall l a b, play_args l (Some a) (Some b) = match l with [] => Some (Some a, Some b) | _ => None end).
  { intros [|k [|v l]] a b; cbn; try reflexivity. destruct (String.eqb k "from"); [reflexivity|]. destruct (String.eqb k "to"); reflexivity. }
  intros l from to. split.
  - destruct l as [|k [|v l]]; cbn; intros H; try discriminate; [injection H as <- <-; reflexivity|].
    destruct (String.eqb_spec k "from") as [-> |_]; [|destruct (String.eqb_spec k "to") as [-> |_]; [|discriminate]].
    + destruct l as [|k2 [|v2 l]]; cbn in H; try discriminate; [injection H as <- <-; reflexivity|].
      destruct (String.eqb k2 "from"); [discriminate|]. destruct (String.eqb_spec k2 "to") as [-> |_]; [|discriminate]. rewrite full in H. destruct l; [|discriminate]. injection H as <- <-. now left.
    + destruct l as [|k2 [|v2 l]]; cbn in H; try discriminate; [injection H as <- <-; reflexivity|].
      destruct (String.eqb_spec k2 "from") as [-> |_]; [|destruct (String.eqb k2 "to"); discriminate]. rewrite full in H. destruct l; [|discriminate]. injection H as <- <-. now right.
  - destruct from as [a|], to as [b|]; intros H; subst; try reflexivity. destruct H as [-> | ->]; reflexivity.
Qed.

(* ---------------- lines ---------------- *)
Lemma until_spec : forall s, no_blank (fst (until_space s)) = true /\
  (snd (until_space s) = "" /\ s = fst (until_space s) \/ s = (fst (until_space s) ++ String " " (snd (until_space s)))%string).
Proof.
  induction s as [|c s [IH1 IH2]]; [split; [reflexivity|now left]|]. cbn [until_space]. destruct (Ascii.eqb_spec c " ") as [-> |Hc]; [split; [reflexivity|right; reflexivity]|].
  destruct (until_space s) as [a b]. cbn [fst snd] in *. split.
  - cbn [no_blank]. rewrite IH1. destruct (Ascii.eqb_spec c " "); [contradiction|reflexivity].
  - destruct IH2 as [[-> IH2]|IH2]; [left; split; [reflexivity|now rewrite IH2]|right; now rewrite IH2].
Qed.
Lemma until_word : forall a b, no_blank a = true -> until_space a = (a, "") /\ until_space (a ++ String " " b) = (a, b).
Proof.
  induction a as [|c a IH]; intros b H; [split; reflexivity|]. cbn [no_blank] in H. apply andb_prop in H. destruct H as [Hc H]. apply negb_true_iff in Hc.
  destruct (IH b H) as [I1 I2]. cbn [append until_space]. rewrite Hc, I1, I2. split; reflexivity.
Qed.
Theorem c57_command : forall line name args, understand line = Command name args <->
  name <> "" /\ no_blank name = true /\ (trim line = (":" ++ name)%string /\ args = "" \/ trim line = (":" ++ name ++ " " ++ args)%string).
Proof.
  intros line name args. unfold understand. split.
  - destruct (trim line) as [|c [|d t]]; [discriminate|destruct (existsb _ _); discriminate|]. destruct (Ascii.eqb_spec c ":") as [-> |_]; [|destruct (existsb _ _); discriminate].
    pose proof (until_spec (String d t)) as U. destruct (until_space (String d t)) as [a b]. cbn [fst snd] in U. destruct (String.eqb_spec a "") as [|Ha]; [discriminate|].
    intros H. injection H as <- <-. destruct U as [U1 U2]. split; [exact Ha|]. split; [exact U1|]. destruct U2 as [[-> U2]|U2]; [left; now rewrite U2|right; now rewrite U2].
  - intros (Hn & Hb & H). destruct name as [|d t]; [contradiction|]. destruct (until_word (String d t) args Hb) as [U1 U2].
    destruct H as [[H ->]|H]; rewrite H; cbn [append]; cbv iota beta.
    + change (Ascii.eqb ":" ":") with true. cbv iota. rewrite U1. reflexivity.
    + change (Ascii.eqb ":" ":") with true. cbv iota. change (String d (t ++ String " " args)) with (String d t ++ String " " args)%string. rewrite U2. reflexivity.
Qed.
Theorem c57_code : forall line s, understand line = Code s <->
  s = trim line /\ ~ In s ["quit"; "exit"; "bye"] /\ (forall t, s = String ":" t -> t = "").
Proof.
  assert (E : forall s, existsb (String.eqb s) ["quit"; "exit"; "bye"] = true <-> In s ["quit"; "exit"; "bye"]).
  { intros s. rewrite existsb_exists. split; [intros (x & Hx & K); apply String.eqb_eq in K; now subst x|intros H; exists s; split; [exact H|apply String.eqb_refl]]. }
  intros line s. unfold understand. destruct (trim line) as [|c [|d t]] eqn:Et.
  - cbn. split; [intros H; injection H as <-; repeat split; [intros [K|[K|[K|[]]]]; discriminate|discriminate]|intros (-> & _); reflexivity].
  - destruct (existsb (String.eqb (String c "")) _) eqn:Ex.
    + split; [discriminate|]. intros (-> & K & _). exfalso. apply K. now apply E.
    + split; [|intros (-> & _); reflexivity]. intros H. injection H as <-. repeat split; [|intros t H; now injection H]. intros K. apply E in K. congruence.
  - destruct (Ascii.eqb_spec c ":") as [-> |Hc].
    + destruct (until_space (String d t)) as [a b]. split; [destruct (String.eqb a ""); discriminate|]. intros (-> & _ & K). specialize (K _ eq_refl). discriminate.
    + destruct (existsb (String.eqb (String c (String d t))) _) eqn:Ex.
      * split; [discriminate|]. intros (-> & K & _). exfalso. apply K. now apply E.
      * split; [|intros (-> & _); reflexivity]. intros H. injection H as <-. repeat split; [|intros t' H; injection H as H _; contradiction]. intros K. apply E in K. congruence.
Qed.

(* ---------------- sessions in which nothing goes wrong outside ---------------- *)
Definition load_now (sv : server) (code : string) : option (server * sent * result) :=
  match update_score compile code (blank sv) with
  | (sv1, Done, t) =>
      let t := with_options None None true t in
      match event_range t (sv_score sv1) with
      | ROk (lo, hi) =>
          if in_order (slice lo hi (events (sv_score sv1)))
          then let s := set_events (firstn lo (events (sv_score sv1)) ++ slice lo hi (events (sv_score sv1)) ++ skipn hi (events (sv_score sv1))) (sv_score sv1) in
               Some (set_score s sv1, [] ++ [bundle_of t (sv_score sv1) n0 nmaxval (slice lo hi (events (sv_score sv1)))] ++ [[MOffset (new_offset s)]], Done)
          else None
      | _ => None
      end
  | (sv1, Failed m, t) => Some (sv1, [], Failed m)
  | (sv1, Dead, t) => None
  end.
Lemma load_now_ok : forall sv code sv1 out r, load_now sv code = Some (sv1, out, r) -> loads compile code sv sv1 out r.
Proof.
  intros sv code sv1 out r H. unfold load_now in H. destruct (update_score compile code (blank sv)) as [[sv2 r2] t] eqn:U.
  pose proof (update_text _ _ _ _ _ _ U) as [_ T]. destruct r2 as [|m|]; [| |discriminate].
  - cbv zeta in H. destruct (event_range _ (sv_score sv2)) as [[lo hi]|m|m] eqn:E; try discriminate.
    destruct (in_order _) eqn:O; [|discriminate]. inversion H; subst sv1 out r.
    match goal with |- loads _ _ _ _ [?b; [MOffset ?m]] _ => change [b; [MOffset m]] with ([] ++ [b] ++ [[MOffset m]]) end.
    eapply LD_sent; [apply RS_alone|exact U| |apply SM_sent]. apply SS_sent. eapply Tr_bundle; [exact E|subst t; reflexivity|]. split; [apply Permutation_refl|]. intros _. apply in_order_sorted, O.
  - inversion H; subst. eapply LD_bad; [apply RS_alone|exact U|discriminate].
Qed.
Lemma play_now_ok : forall sv code sv1 out r, play_now compile sv code = Some (sv1, out, r) -> evals compile code None None sv sv1 out r.
Proof.
  intros sv c sv1 out r H. unfold play_now in H. destruct (update_score compile c sv) as [[sv2 r2] t] eqn:U.
  pose proof (update_text _ _ _ _ _ _ U) as [_ T]. destruct r2 as [|m|]; [| |discriminate].
  - destruct (event_range t (sv_score sv2)) as [[lo hi]|m|m] eqn:E; try discriminate.
    destruct (in_order _) eqn:O; [|discriminate]. inversion H; subst sv1 out r. eapply EV_sent; [exact U|].
    assert (Et : with_options None None false t = t) by (subst t; reflexivity). rewrite Et. apply SS_sent. eapply Tr_bundle; [exact E|subst t; reflexivity|].
    split; [apply Permutation_refl|]. intros _. apply in_order_sorted, O.
  - inversion H; subst. eapply EV_bad; [exact U|discriminate].
Qed.
Definition handle_now (sv : server) (r : request) : option (server * sent * result * list response) :=
  match field "op" r with
  | Some (Some o) =>
      if String.eqb o "score-text" then Some (sv, [], Done, [respond_done r (DText (sv_input sv))])
      else if String.eqb o "new-score" then Some (blank sv, [], Done, answer r Done DNone)
      else match field "code" r with
           | Some (Some code) =>
               if String.eqb o "eval-and-play" then match play_now compile sv code with Some (sv1, out, res) => Some (sv1, out, res, answer r res DNone) | None => None end
               else if String.eqb o "load" then match load_now sv code with Some (sv1, out, res) => Some (sv1, out, res, answer r res DNone) | None => None end
               else None
           | _ => None
           end
  | _ => None
  end.
Lemma handle_now_ok : forall sv r sv1 out res ans, handle_now sv r = Some (sv1, out, res, ans) -> handles sv r sv1 out res ans.
Proof.
  intros sv r sv1 out res ans H. unfold handle_now in H. destruct (field "op" r) as [[o|]|] eqn:Eo; try discriminate.
  destruct (String.eqb_spec o "score-text") as [-> |_]. { injection H as <- <- <- <-. eapply H_op; [exact Eo|apply O_text]. }
  destruct (String.eqb_spec o "new-score") as [-> |_]. { injection H as <- <- <- <-. eapply H_op; [exact Eo|]. change [respond_done r DNone] with (answer r Done DNone). apply O_new, RS_alone. }
  destruct (field "code" r) as [[code|]|] eqn:Ec; try discriminate.
  destruct (String.eqb_spec o "eval-and-play") as [-> |_].
  { destruct (play_now compile sv code) as [[[sv2 o2] r2]|] eqn:E; [|discriminate]. injection H as <- <- <- <-. eapply H_op; [exact Eo|]. eapply O_play; [exact Ec|now apply play_now_ok]. }
  destruct (String.eqb_spec o "load") as [-> |_]; [|discriminate].
  destruct (load_now sv code) as [[[sv2 o2] r2]|] eqn:E; [|discriminate]. injection H as <- <- <- <-. eapply H_op; [exact Eo|]. eapply O_load; [exact Ec|now apply load_now_ok].
Qed.

Definition step_now (w : world) (line id : string) : option (world * entry) :=
  let w0 := set_client (fst (action w line)) w in
  match snd (action w line), w_alive w, w_unread w with
  | Fail, _, _ => Some (w0, Entry line w w0 [Error] [] [])
  | Ask r u, true, [] =>
      match handle_now (w_server w) (full_request (w_client w0) id r) with
      | Some (sv, out, Dead, _) => None
      | Some (sv, out, _, [a]) =>
          let w1 := World (w_client w0) sv true [] (w_files w) in
          let log := [Exchange (full_request (w_client w0) id r) (w_server w) sv out [a]] in
          match accepted id (Some a) with
          | Some _ =>
              match u (r_data a) with
              | Show => Some (w1, Entry line w w1 [Asked r (Some a)] log [id])
              | Write f t => Some (write f t w1, Entry line w (write f t w1) [Asked r (Some a); Wrote f t] log [id])
              | Unusable => Some (w1, Entry line w w1 [Asked r (Some a); Error] log [id])
              end
          | None => None
          end
      | _ => None
      end
  | _, _, _ => None
  end.
Fixpoint run_now (w : world) (lines : list (string * string)) : option (world * list entry) :=
  match lines with
  | [] => Some (w, [])
  | (line, id) :: lines =>
      if c_running (w_client w) then
        match step_now w line id with
        | Some (w1, e) => match run_now w1 lines with Some (w2, es) => Some (w2, e :: es) | None => None end
        | None => None
        end
      else None
  end.
Lemma accepted_self : forall id a b, accepted id a = Some b -> a = Some b.
Proof. intros id [x|] b H; cbn in H; [|discriminate]. destruct (r_id x) as [[i|]|]; try discriminate. destruct (String.eqb i id); [|discriminate]. congruence. Qed.
Lemma step_now_ok : forall w line id w1 e, step_now w line id = Some (w1, e) ->
  exists hs log ids, e = Entry line w w1 hs log ids /\ carries_out (set_client (fst (action w line)) w) (snd (action w line)) w1 hs log ids.
Proof.
  intros w line id w1 e H. unfold step_now in H. cbv zeta in H. destruct (snd (action w line)) as [| | |r u].
  - injection H as <- <-. exists [Error], [], []. split; [reflexivity|constructor].
  - discriminate.
  - discriminate.
  - destruct (w_alive w) eqn:Ea; [|discriminate]. destruct (w_unread w) eqn:Eu; [|discriminate].
    destruct (handle_now _ _) as [[[[sv out] res] ans]|] eqn:Eh; [|discriminate]. apply handle_now_ok in Eh.
    assert (Er : (match res with Dead => false | _ => true end) = true /\ exists a, ans = [a]).
    { destruct res; [| |discriminate]; (destruct ans as [|a [|? ?]]; [discriminate| |discriminate]); (split; [reflexivity|now exists a]). }
    destruct Er as (Er & a & ->). 
    assert (H' : match accepted id (Some a) with
      | Some _ =>
          match u (r_data a) with
          | Show => Some (World (fst (action w line)) sv true [] (w_files w), Entry line w (World (fst (action w line)) sv true [] (w_files w)) [Asked r (Some a)] [Exchange (full_request (fst (action w line)) id r) (w_server w) sv out [a]] [id])
          | Write f t => Some (write f t (World (fst (action w line)) sv true [] (w_files w)), Entry line w (write f t (World (fst (action w line)) sv true [] (w_files w))) [Asked r (Some a); Wrote f t] [Exchange (full_request (fst (action w line)) id r) (w_server w) sv out [a]] [id])
          | Unusable => Some (World (fst (action w line)) sv true [] (w_files w), Entry line w (World (fst (action w line)) sv true [] (w_files w)) [Asked r (Some a); Error] [Exchange (full_request (fst (action w line)) id r) (w_server w) sv out [a]] [id])
          end
      | None => None
      end = Some (w1, e)) by (destruct res; [exact H|exact H|discriminate]). clear H.
    destruct (accepted id (Some a)) as [b|] eqn:Eacc; [|discriminate]. assert (b = a) by (apply accepted_self in Eacc; congruence). subst b.
    pose proof (SR_handled compile id r (set_client (fst (action w line)) w) (w_server w) sv out res [a] [] (Some a) Ea (OT_none compile _) Eh) as S.
    cbn [set_client w_unread w_client w_files] in S. rewrite Eu, Er, Eacc in S. specialize (S (RD_response a [] [])).
    destruct (u (r_data a)) as [|f t|] eqn:Ud; injection H' as <- <-; eexists; eexists; eexists; (split; [reflexivity|]).
    + exact (CO_show compile _ id r u _ _ a S Ud).
    + exact (CO_write compile _ id r u _ _ a f t S Ud).
    + exact (CO_unusable compile _ id r u _ _ a S Ud).
Qed.
Lemma run_now_ok : forall lines w w' es, run_now w lines = Some (w', es) -> converses w (map fst lines) w' es.
Proof.
  induction lines as [|[line id] lines IH]; intros w w' es H; cbn [run_now map fst] in *; [injection H as <- <-; constructor|].
  destruct (c_running (w_client w)) eqn:Er; [|discriminate]. destruct (step_now w line id) as [[w1 e]|] eqn:Es; [|discriminate].
  destruct (run_now w1 lines) as [[w2 es2]|] eqn:En; [|discriminate]. injection H as <- <-. apply step_now_ok in Es. destruct Es as (hs & log & ids & -> & C).
  eapply SN_line; [exact Er|exact C|]. apply IH, En.
Qed.

(* ---------------- one answer too late ---------------- *)
Definition new_request : request := ModelReplClient.op "new-score".
Lemma new_line : forall w, action w ":new" = (w_client w, Ask new_request (fun _ => Show)).
Proof. reflexivity. Qed.
Definition new_answer (c : client) (id : string) : response := respond_done (full_request c id new_request) DNone.
Lemma new_answer_id : forall c id, r_id (new_answer c id) = Some (Some id).
Proof. intros c id. unfold new_answer, full_request. destruct (String.eqb (c_session c) ""); reflexivity. Qed.
Lemma late_step : forall c sv u u' files id, c_running c = true -> reads (u ++ [new_answer c id]) u' (match u with [] => None | a :: _ => Some a end) ->
  accepted id (match u with [] => None | a :: _ => Some a end) = None ->
  let h := Exchange (full_request c id new_request) sv (blank sv) [] [new_answer c id] in
  carries_out (World c sv true u files) (Ask new_request (fun _ => Show)) (World c (blank sv) true u' files) [Asked new_request None; Error] [h] [id] /\
  asks "new-score" (h_request h) /\ went_well h.
Proof.
  intros c sv u u' files id Hr Hd Ha h. split; [|split; reflexivity].
  assert (Hh : handles sv (full_request c id new_request) (blank sv) [] Done [new_answer c id]).
  { eapply H_op; [reflexivity|]. change [new_answer c id] with (answer (full_request c id new_request) Done DNone). apply O_new, RS_alone. }
  pose proof (SR_handled compile id new_request (World c sv true u files) sv (blank sv) [] Done [new_answer c id] u' _ eq_refl (OT_none compile _) Hh Hd) as S.
  rewrite Ha in S. exact (CO_lost compile _ id new_request _ _ _ S).
Qed.

Fixpoint tally (n : nat) : string := match n with O => "" | S n => String "i" (tally n) end.
Lemma tally_inj : forall m n, tally m = tally n -> m = n.
Proof. induction m as [|m IH]; intros [|n] H; try discriminate; [reflexivity|]. injection H as H. f_equal. now apply IH. Qed.
Lemma late_steps : forall c files, c_running c = true -> forall n k sv, exists w' es,
  converses (World c sv true [new_answer c (tally k)] files) (repeat ":new" n) w' es /\ flat_map n_ids es = map tally (seq (S k) n) /\ List.length es = n /\
  Forall (done_unnoticed "new-score") es /\ Forall one_unread es.
Proof.
  intros c files Hr. induction n as [|n IH]; intros k sv.
  - eexists. exists []. split; [constructor|]. repeat split; constructor.
  - destruct (IH (S k) (blank sv)) as (w' & es & H1 & H2 & H3 & H4 & H5).
    destruct (late_step c sv [new_answer c (tally k)] [new_answer c (tally (S k))] files (tally (S k)) Hr) as (S1 & S2 & S3).
    { exact (RD_response (new_answer c (tally k)) [] [new_answer c (tally (S k))]). }
    { cbn [accepted]. rewrite new_answer_id. destruct (String.eqb_spec (tally k) (tally (S k))) as [E|_]; [apply tally_inj in E; lia|reflexivity]. }
    eexists. eexists. split; [cbn [repeat]; eapply SN_line; [exact Hr| |exact H1]; rewrite new_line; exact S1|].
    split; [cbn [flat_map n_ids seq map app]; now rewrite H2|]. split; [cbn [List.length]; now rewrite H3|].
    split; apply Forall_cons; try assumption; [|reflexivity]. eexists. eexists. split; [reflexivity|]. split; [reflexivity|]. split; [exact S2|exact S3].
Qed.
Theorem c57_late_refuted : forall n, exists w w' es, w_unread w = [] /\ converses w (repeat ":new" n) w' es /\ fresh_ids es /\ List.length es = n /\
  Forall (done_unnoticed "new-score") es /\ Forall one_unread es.
Proof.
  intros n. exists (World (Client true "" "") new_server true [] []). destruct n as [|n].
  { eexists. exists []. split; [reflexivity|]. split; [constructor|]. repeat split; constructor. }
  set (c := Client true "" "").
  destruct (late_steps c [] eq_refl n 0 (blank new_server)) as (w' & es & H1 & H2 & H3 & H4 & H5).
  destruct (late_step c new_server [] [new_answer c (tally 0)] [] (tally 0) eq_refl) as (S1 & S2 & S3); [constructor|reflexivity|].
  eexists. eexists. split; [reflexivity|]. split; [cbn [repeat]; eapply SN_line; [reflexivity| |exact H1]; rewrite new_line; exact S1|].
  split; [unfold fresh_ids; cbn [flat_map n_ids app]; rewrite H2; change (NoDup (map tally (seq 0 (S n)))); apply FinFun.Injective_map_NoDup; [exact tally_inj|apply seq_NoDup]|].
  split; [cbn [List.length]; now rewrite H3|].
  split; apply Forall_cons; try assumption; [|reflexivity]. eexists. eexists. split; [reflexivity|]. split; [reflexivity|]. split; [exact S2|exact S3].
Qed.
End ReplClient.

(* ---------------- a file is lost ---------------- *)
(** Words between blanks. *)
Fixpoint words_from (s acc : string) : list string :=
  match s with
  | EmptyString => if String.eqb acc "" then [] else [acc]
  | String c t => if Ascii.eqb c " " then (if String.eqb acc "" then words_from t "" else acc :: words_from t "") else words_from t (acc ++ String c "")%string
  end.
Definition words (s : string) : option (list string) := Some (words_from s "").

Definition begins {N : Num} (files : list (string * string)) : world := World (Client true "" "") new_server true [] files.
Definition ran {N : Num} (files : list (string * string)) (lines : list (string * string)) : world * list entry :=
  match run_now toy words (begins files) lines with Some x => x | None => (begins files, []) end.
Lemma ran_ok : forall (N : Num) files lines, match run_now toy words (begins files) lines with Some _ => true | None => false end = true ->
  converses toy words (begins files) (map fst lines) (fst (ran files lines)) (snd (ran files lines)).
Proof. intros N files lines H. unfold ran. destruct (run_now toy words (begins files) lines) as [[w es]|] eqn:E; [|discriminate]. apply run_now_ok, E. Qed.

Lemma c57_lost_refuted : exists (compile : string -> res (list (@update B64))) split w w' es, w_unread w = [] /\
  converses compile split w [":load my.alda"; ":save"] w' es /\ fresh_ids es /\
  w_files w = [("my.alda", "piano: c oops")] /\ w_files w' = [("my.alda", "")].
Proof.
  pose (ls := [(":load my.alda", "1"); (":save", "2")]). pose (fs := [("my.alda", "piano: c oops")]).
  exists toy, words, (begins fs), (fst (ran fs ls)), (snd (ran fs ls)). split; [reflexivity|].
  split; [apply (ran_ok B64 fs ls); vm_compute; reflexivity|]. split; [|split; [reflexivity|vm_compute; reflexivity]].
  unfold fresh_ids. assert (E : flat_map n_ids (snd (ran (N := B64) fs ls)) = ["1"; "2"]) by (vm_compute; reflexivity). rewrite E.
  repeat constructor; cbn; intuition discriminate.
Qed.
