(** Proofs about the commands. *)
From Coq Require Import ZArith String List Bool Ascii Lia Permutation Sorted.
From Verif Require Import Base Num ModelPitch ModelDuration ModelInstruments ModelTypes ModelLisp ModelScan ModelAst ModelScore ModelOsc ModelPool ModelCommand SpecCommand SpecGlobals ProofApplyEx.
Import ListNotations.
Local Open Scope string_scope.
Local Open Scope list_scope.
Local Open Scope Z_scope.

Section Proof.
Context {N : Num}.
Variable w : world.

Lemma await_in {A} (l : list (option A)) a : await l = Some a -> In (Some a) l.
Proof. induction l as [|[x|] l IH]; cbn; intros H; [discriminate|left; congruence|right; now apply IH]. Qed.
Lemma await_some {A} (l : list (option A)) a : In (Some a) l -> exists b, await l = Some b.
Proof. induction l as [|[x|] l IH]; cbn; intros H; [destruct H|now exists x|destruct H as [H|H]; [discriminate|now apply IH]]. Qed.

Lemma source_text l t : given w l t <-> read_source w l = Text t.
Proof.
  unfold read_source. destruct (String.eqb_spec (l_file l) "") as [F|F]; cbn [negb].
  - split.
    + intros [t' F' _|F' C|t' F' C S]; [now elim F'| |].
      * destruct (l_code l); [now elim C|reflexivity].
      * rewrite C, S. reflexivity.
    + destruct (l_code l) eqn:C; intros H.
      * destruct (w_stdin w) eqn:S; try discriminate. assert (text = t) by congruence. subst. now apply G_piped.
      * assert (t = l_code l) by congruence. subst t. apply G_code; [exact F|]. rewrite C. discriminate.
  - split.
    + intros [t' F' R|F' C|t' F' C S]; [|now elim F..]. rewrite R. reflexivity.
    + destruct (w_read w (l_file l)) eqn:R; intros H; [|discriminate]. apply G_file; [exact F|congruence].
Qed.
Lemma source_none l : no_text w l <-> read_source w l = Nothing.
Proof.
  unfold read_source, no_text. destruct (String.eqb_spec (l_file l) "") as [F|F]; cbn [negb].
  - split; [intros (_ & -> & ->); reflexivity|]. destruct (l_code l); [|discriminate]. destruct (w_stdin w); try discriminate. intros _. now repeat split.
  - split; [intros (F' & _); now elim F|]. destruct (w_read w (l_file l)); discriminate.
Qed.
Lemma score_ok t s : score_of t s <-> make_score t = ROk s.
Proof.
  unfold score_of, make_score. split.
  - intros (us & -> & ->). reflexivity.
  - destruct (compile t) as [us| |]; try discriminate. destruct (exec us new_score) as [s' []] eqn:E; try discriminate. intros H. exists us. split; [reflexivity|congruence].
Qed.
Lemma by_id l p : l_port l = -1 -> l_id l <> "" -> find_by_id w (l_id l) = Some p -> chosen w l (p_port p).
Proof.
  unfold find_by_id. destruct (w_states w) as [ps|] eqn:S; [|discriminate]. intros P I F. apply find_some in F. destruct F as [F1 F2].
  apply String.eqb_eq in F2. eapply C_id; eauto.
Qed.
Lemma by_id_none l port : l_port l = -1 -> find_by_id w (l_id l) = None -> ~ chosen w l port.
Proof.
  unfold find_by_id. intros P F [H|ps p _ I S Ip E]; [now elim H|]. rewrite S in F. apply (find_none _ _ F) in Ip. rewrite E, String.eqb_refl in Ip. discriminate.
Qed.

Lemma packets_app a b : packets (N := N) (a ++ b) = packets a ++ packets b.
Proof. apply flat_map_app. Qed.
Lemma packets_sent q ms ok a : packets (N := N) (Sent q ms ok :: a) = (q, ms, ok) :: packets a.
Proof. reflexivity. Qed.
Lemma packets_said x a : packets (N := N) (Said x :: a) = packets a.
Proof. reflexivity. Qed.

Lemma targets_play l ps : play_targets w false l = Some ps -> exists p, ps = [p] /\ meant w l (p_port p).
Proof.
  unfold play_targets. destruct (Z.eqb_spec (l_port l) (-1)) as [P|P]; cbn [negb].
  - destruct (String.eqb_spec (l_id l) "") as [I|I]; cbn [negb].
    + destruct (await _) as [p|] eqn:A; [|discriminate]. intros H. exists p. split; [congruence|]. right. split; [now split|]. exists p. split; [apply await_in, A|reflexivity].
    + destruct (find_by_id w (l_id l)) as [p|] eqn:F; [|discriminate]. intros H. exists p. split; [congruence|]. left. now apply by_id.
  - intros H. exists (unknown (l_port l)). split; [congruence|]. left. now apply C_port.
Qed.
Lemma targets_play_none l port : play_targets w false l = None -> ~ meant w l port.
Proof.
  unfold play_targets. destruct (Z.eqb_spec (l_port l) (-1)) as [P|P]; cbn [negb]; [|discriminate].
  destruct (String.eqb_spec (l_id l) "") as [I|I]; cbn [negb].
  - destruct (await _) as [p|] eqn:A; [discriminate|]. intros _ [[H|ps p _ H]|[_ (p & Av & _)]]; [now elim H|now elim H|].
    destruct (await_some _ _ Av) as [b B]. congruence.
  - destruct (find_by_id w (l_id l)) as [p|] eqn:F; [discriminate|]. intros _ [H|[[_ H] _]]; [|now elim I]. exact (by_id_none l port P F H).
Qed.

Theorem c65_play l t acts e : given w l t -> play w l = (acts, e) ->
  (e = Done /\ exists s port ms, score_of t s /\ meant w l port /\ w_bundle w (play_options l) s = ROk ms /\ packets acts = [(port, ms, true)]) \/
  (e <> Done /\ received acts = []).
Proof.
  intros G. apply source_text in G. unfold play. destruct (l_args l); [intros H; right; assert (e = Fails) by congruence; assert (acts = []) by congruence; subst; now split|].
  rewrite G. destruct (make_score t) as [s| |] eqn:S; try (intros H; right; inversion H; subst; now split).
  destruct (play_targets w false l) as [ps|] eqn:T; [|intros H; right; inversion H; subst; now split].
  apply targets_play in T. destruct T as (p & -> & M). cbn [send_all]. destruct (w_bundle w (play_options l) s) as [ms| |] eqn:B; try (intros H; right; inversion H; subst; now split).
  destruct (w_delivers w 0 (p_port p)) eqn:D; intros H; inversion H; subst; [|right; now split].
  left. split; [reflexivity|]. exists s, (p_port p), ms. apply score_ok in S. now repeat split.
Qed.
Theorem c65_plays l t s ms : l_args l = false -> given w l t -> score_of t s -> w_bundle w (play_options l) s = ROk ms ->
  (exists port, meant w l port) -> (forall port, meant w l port -> w_delivers w 0 port = true) -> snd (play w l) = Done.
Proof.
  intros A G S B (port & M) D. apply source_text in G. apply score_ok in S. unfold play. rewrite A, G, S.
  destruct (play_targets w false l) as [ps|] eqn:T; [|exfalso; exact (targets_play_none l port T M)].
  apply targets_play in T. destruct T as (p & -> & Mp). cbn [send_all]. rewrite B, (D _ Mp). reflexivity.
Qed.

Lemma send_all_packets ms ps : forall k acts e, send_all w k (ROk ms) ps = (acts, e) ->
  (e = Done /\ packets acts = map (fun q => (q, ms, true)) (map p_port ps)) \/
  (e = Fails /\ exists before q after, map p_port ps = before ++ q :: after /\ packets acts = map (fun q => (q, ms, true)) before ++ [(q, ms, false)]).
Proof.
  induction ps as [|p ps IH]; intros k acts e; cbn [send_all].
  - intros H. inversion H; subst. left. now split.
  - destruct (w_delivers w k (p_port p)).
    + destruct (send_all w (S k) (ROk ms) ps) as [a e'] eqn:R. intros H. inversion H; subst. destruct (IH _ _ _ R) as [[E P]|(E & b & q & af & M & P)].
      * left. split; [exact E|]. rewrite packets_sent, P. reflexivity.
      * right. split; [exact E|]. exists (p_port p :: b), q, af. cbn [map]. rewrite packets_sent, M, P. now split.
    + intros H. inversion H; subst. right. split; [reflexivity|]. exists [], (p_port p), (map p_port ps). now split.
Qed.
Lemma undecided_not l port : undecided l -> ~ chosen w l port.
Proof. intros [P I] [H|ps p _ H]; now elim H. Qed.
Theorem c65_resume l acts e : l_args l = false -> no_text w l -> play w l = (acts, e) ->
  (exists ports, concerned w l active ports /\
     ((e = Done /\ packets acts = map (fun q => (q, [MPlay], true)) ports) \/
      (e = Fails /\ exists before q after, ports = before ++ q :: after /\ packets acts = map (fun q => (q, [MPlay], true)) before ++ [(q, [MPlay], false)]))) \/
  (e = Fails /\ packets acts = [] /\ forall ports, ~ concerned w l active ports).
Proof.
  intros A G. apply source_none in G. unfold play. rewrite A, G. destruct (play_targets w true l) as [ps|] eqn:T; intros H.
  - left. exists (map p_port ps). split; [|exact (send_all_packets _ _ _ _ _ H)]. revert T. unfold play_targets.
    destruct (Z.eqb_spec (l_port l) (-1)) as [P|P]; cbn [negb].
    + destruct (String.eqb_spec (l_id l) "") as [I|I]; cbn [negb].
      * destruct (w_states w) as [qs|] eqn:S; [|discriminate]. intros T. right. split; [now split|]. exists qs. split; [exact S|]. apply (f_equal (fun o => match o with Some x => x | None => [] end)) in T. now rewrite <- T.
      * destruct (find_by_id w (l_id l)) as [p|] eqn:F; [|discriminate]. intros T. left. exists (p_port p). split; [now apply by_id|]. assert (E : ps = [p]) by congruence. now rewrite E.
    + intros T. left. exists (l_port l). split; [now apply C_port|]. assert (E : ps = [unknown (l_port l)]) by congruence. now rewrite E.
  - right. inversion H; subst. split; [reflexivity|]. split; [reflexivity|]. revert T. unfold play_targets.
    destruct (Z.eqb_spec (l_port l) (-1)) as [P|P]; cbn [negb]; [|discriminate]. destruct (String.eqb_spec (l_id l) "") as [I|I]; cbn [negb].
    + destruct (w_states w) eqn:S; [discriminate|]. intros _ ports [(port & C & _)|(_ & ps & S' & _)]; [|congruence]. exact (undecided_not l port (conj P I) C).
    + destruct (find_by_id w (l_id l)) eqn:F; [discriminate|]. intros _ ports [(port & C & _)|([_ U] & _)]; [|now elim I]. exact (by_id_none l port P F C).
Qed.

Lemma tell_packets m ps : forall k, map fst (packets (tell_all w k m ps)) = map (fun q => (q, [m])) (map p_port ps).
Proof. induction ps as [|p ps IH]; intros k; [reflexivity|]. cbn [tell_all map]. rewrite packets_sent. cbn [map fst]. now rewrite IH. Qed.
Lemma anyone_all (ps : list player) : filter anyone ps = ps.
Proof. induction ps as [|p ps IH]; [reflexivity|]. cbn. now rewrite IH. Qed.
Theorem c65_tell what m l acts e : tell w what m l = (acts, e) ->
  (e = Done /\ exists ports, concerned w l anyone ports /\ map fst (packets acts) = map (fun q => (q, [m])) ports) \/
  (e = Fails /\ packets acts = [] /\ forall ports, ~ concerned w l anyone ports).
Proof.
  unfold tell. destruct (command_targets w l) as [ps|] eqn:T; intros H; inversion H; subst; clear H.
  - left. split; [reflexivity|]. exists (map p_port ps). split; [|rewrite packets_said; apply tell_packets]. revert T. unfold command_targets.
    destruct (Z.eqb_spec (l_port l) (-1)) as [P|P]; cbn [negb].
    + destruct (String.eqb_spec (l_id l) "") as [I|I]; cbn [negb].
      * intros T. right. split; [now split|]. exists ps. split; [exact T|]. now rewrite anyone_all.
      * destruct (find_by_id w (l_id l)) as [p|] eqn:F; [|discriminate]. intros T. left. exists (p_port p). split; [now apply by_id|]. assert (E : ps = [p]) by congruence. now rewrite E.
    + intros T. left. exists (l_port l). split; [now apply C_port|]. assert (E : ps = [unknown (l_port l)]) by congruence. now rewrite E.
  - right. split; [reflexivity|]. split; [reflexivity|]. revert T. unfold command_targets.
    destruct (Z.eqb_spec (l_port l) (-1)) as [P|P]; cbn [negb]; [|discriminate]. destruct (String.eqb_spec (l_id l) "") as [I|I]; cbn [negb].
    + intros S ports [(port & C & _)|(_ & ps & S' & _)]; [|congruence]. exact (undecided_not l port (conj P I) C).
    + destruct (find_by_id w (l_id l)) eqn:F; [discriminate|]. intros _ ports [(port & C & _)|([_ U] & _)]; [|now elim I]. exact (by_id_none l port P F C).
Qed.

Theorem c65_export l t acts e : given w l t -> export w l = (acts, e) ->
  (e <> Done /\ received acts = []) \/
  exists s p ms middle ok, score_of t s /\ available w p /\ w_bundle w (export_options l) s = ROk ms /\
    packets acts = (p_port p, ms, true) :: middle ++ [(p_port p, [MShutdown 0], ok)] /\
    ((e = Fails /\ middle = []) \/
     exists f, ((l_output l <> "" /\ f = l_output l) \/ (l_output l = "" /\ w_tmp w = Some f)) /\
       ((e = Done /\ middle = [(p_port p, [MExport f], true)]) \/ (e = Fails /\ middle = [(p_port p, [MExport f], false)]))).
Proof.
  intros G. apply source_text in G. unfold export. destruct (String.eqb (l_format l) "midi"); cbn [negb]; [|intros H; left; inversion H; subst; now split].
  rewrite G. destruct (make_score t) as [s| |] eqn:S; try (intros H; left; inversion H; subst; now split). apply score_ok in S.
  destruct (await _) as [p|] eqn:A; [|intros H; left; inversion H; subst; now split]. apply await_in in A.
  destruct (w_bundle w (export_options l) s) as [ms| |] eqn:B; try (intros H; left; inversion H; subst; now split).
  destruct (w_delivers w 0 (p_port p)) eqn:D0; [|intros H; left; inversion H; subst; now split]. cbv zeta.
  assert (X : forall f, export_file w l = Some f -> (l_output l <> "" /\ f = l_output l) \/ (l_output l = "" /\ w_tmp w = Some f)).
  { intros f. unfold export_file. destruct (String.eqb_spec (l_output l) "") as [O|O]; cbn [negb]; intros E; [right; now split|left; split; [exact O|congruence]]. }
  destruct (export_file w l) as [f|] eqn:F.
  - specialize (X f eq_refl). destruct (w_delivers w 1 (p_port p)) eqn:D1.
    + destruct (await_file w l f) as [a e'] eqn:W. intros H. assert (Ha : packets a = [] /\ e' = Done).
      { unfold await_file in W. destruct (await _) as [c|]; [destruct (negb _)|]; inversion W; subst; now split. }
      destruct Ha as [Pa ->]. inversion H; subst. right. exists s, p, ms, [(p_port p, [MExport f], true)], (w_delivers w 2 (p_port p)). repeat split; try assumption.
      * rewrite !packets_sent, packets_said, packets_app, Pa. reflexivity.
      * right. exists f. split; [exact X|]. left. now split.
    + intros H. inversion H; subst. right. exists s, p, ms, [(p_port p, [MExport f], false)], (w_delivers w 2 (p_port p)). repeat split; try assumption.
      right. exists f. split; [exact X|]. right. now split.
  - intros H. inversion H; subst. right. exists s, p, ms, [], (w_delivers w 1 (p_port p)). repeat split; try assumption. left. now split.
Qed.

Theorem c65_output l t acts e before dir midi f : given w l t -> export w l = (acts, e) ->
  writes w before dir f midi -> ((l_output l <> "" /\ f = l_output l) \/ (l_output l = "" /\ w_tmp w = Some f)) ->
  before (resolve (w_cwd w) f) = None ->
  (forall c, In (Output c) acts -> l_output l = "" /\ exists rest, midi = c ++ rest) /\
  (forall x, In (Said ("Exported score to " ++ x)) acts -> x = l_output l /\ resolve (w_cwd w) f = resolve dir f).
Proof.
  intros G H W F B. apply source_text in G. revert H. unfold export.
  assert (E0 : forall a : list action, a = [] \/ (exists q ms ok, a = [Sent q ms ok]) \/ (exists q ms q' ms' ok ok', a = [Sent q ms ok; Sent q' ms' ok']) \/
    (exists q ms q' ms' q2 m2 ok ok' ok2, a = [Sent q ms ok; Sent q' ms' ok'; Sent q2 m2 ok2]) ->
    (forall c, In (Output c) a -> l_output l = "" /\ exists rest, midi = c ++ rest) /\ (forall x, In (Said ("Exported score to " ++ x)) a -> x = l_output l /\ resolve (w_cwd w) f = resolve dir f)).
  { intros a [->|[(q & ms & ok & ->)|[(q & ms & q' & ms' & ok & ok' & ->)|(q & ms & q' & ms' & q2 & m2 & ok & ok' & ok2 & ->)]]]; split; cbn; intros x I; repeat (destruct I as [I|I]; [discriminate I|]); destruct I. }
  destruct (String.eqb (l_format l) "midi"); cbn [negb]; [|intros H; inversion H; subst; apply E0; now left].
  rewrite G. destruct (make_score t) as [s| |]; try (intros H; inversion H; subst; apply E0; now left).
  destruct (await (w_first w :: w_later w)) as [p|]; [|intros H; inversion H; subst; apply E0; now left].
  destruct (w_bundle w (export_options l) s) as [ms| |]; try (intros H; inversion H; subst; apply E0; now left).
  destruct (w_delivers w 0 (p_port p)); [|intros H; inversion H; subst; apply E0; right; left; repeat eexists]. cbv zeta.
  destruct (export_file w l) as [f'|] eqn:F'.
  - assert (f' = f).
    { unfold export_file in F'. destruct (String.eqb_spec (l_output l) "") as [O|O]; cbn [negb] in F'; destruct F as [[O' Ef]|[O' Ef]]; congruence || now elim O'. }
    subst f'. destruct (w_delivers w 1 (p_port p)).
    + destruct (await_file w l f) as [a e'] eqn:A. intros H. inversion H; subst acts e'. clear H. unfold await_file in A.
      destruct (await (w_opens w (resolve (w_cwd w) f))) as [c|] eqn:O.
      * apply await_in in O. destruct (W _ _ O) as [K|[K (rest & R)]]; [congruence|].
        destruct (String.eqb_spec (l_output l) "") as [Q|Q]; cbn [negb] in A; inversion A; subst a e; split; cbn; intros x I.
        -- destruct I as [I|[I|[I|[I|[I|[]]]]]]; try discriminate I. assert (x = c) by congruence. subst x. split; [exact Q|]. now exists rest.
        -- destruct I as [I|[I|[I|[I|[I|[]]]]]]; discriminate I.
        -- destruct I as [I|[I|[I|[I|[I|[]]]]]]; discriminate I.
        -- destruct I as [I|[I|[I|[I|[I|[]]]]]]; try discriminate I. injection I as I. split; [symmetry; exact I|exact K].
      * inversion A; subst a e. split; cbn; intros x I; destruct I as [I|[I|[I|[I|[]]]]]; discriminate I.
    + intros H. inversion H; subst. apply E0. right. right. right. repeat eexists.
  - intros H. inversion H; subst. apply E0. right. right. left. repeat eexists.
Qed.
End Proof.

(** The same, in terms of what C29-C34 are about. *)
Section Sent.
Context {N : Num}.
Theorem c65_played w l t acts e : transmitting w -> given w l t -> play w l = (acts, e) ->
  (e = Done /\ exists s s' port ms, score_of t s /\ meant w l port /\ transmits (Transmission (l_from l) (l_to l) 0 (-1) [] true false) s s' (ROk ms) /\
     packets acts = [(port, ms, true)]) \/
  (e <> Done /\ received acts = []).
Proof.
  intros T G H. destruct (c65_play w l t acts e G H) as [(E & s & port & ms & S & M & B & P)|X]; [left|right; exact X].
  split; [exact E|]. destruct (T (play_options l) s) as [s' Ts]. rewrite B in Ts. now exists s, s', port, ms.
Qed.
Theorem c65_exported w l t acts e : transmitting w -> given w l t -> export w l = (acts, e) ->
  (e <> Done /\ received acts = []) \/
  exists s s' p ms middle ok, score_of t s /\ available w p /\ transmits (Transmission (l_from l) (l_to l) 0 (-1) [] false true) s s' (ROk ms) /\
    packets acts = (p_port p, ms, true) :: middle ++ [(p_port p, [MShutdown 0], ok)] /\
    ((e = Fails /\ middle = []) \/
     exists f, ((l_output l <> "" /\ f = l_output l) \/ (l_output l = "" /\ w_tmp w = Some f)) /\
       ((e = Done /\ middle = [(p_port p, [MExport f], true)]) \/ (e = Fails /\ middle = [(p_port p, [MExport f], false)]))).
Proof.
  intros T G H. destruct (c65_export w l t acts e G H) as [X|(s & p & ms & middle & ok & S & A & B & P & R)]; [left; exact X|right].
  destruct (T (export_options l) s) as [s' Ts]. rewrite B in Ts. exists s, s', p, ms, middle, ok. now repeat split.
Qed.

(** For examples: a way to send scores. *)
Definition a_bundle (t : transmission) (s : score) : res (list msg) :=
  match event_range t s with
  | ROk (lo, hi) => match time_range t s with
                    | ROk (start, stop) => ROk (bundle_of t s start stop (sort_events (slice lo hi (events s))))
                    | RErr m => RErr m
                    | RPanic m => RPanic m
                    end
  | RErr m => RErr m
  | RPanic m => RPanic m
  end.
Lemma sorted_events (LO : linear_order) l : sorted_into l (sort_events l).
Proof.
  split; [apply sort_events_perm|]. induction l as [|e l IH]; intros H; [constructor|]. cbn [sort_events fold_right]. fold (sort_events l).
  assert (Hl : forall x, In x (sort_events l) -> nisnan (ev_off x) = false).
  { intros x I. apply H. right. eapply Permutation_in; [symmetry; apply sort_events_perm|exact I]. }
  assert (S : StronglySorted (fun a b => nltb (ev_off b) (ev_off a) = false) (sort_events l)) by (apply IH; intros x I; apply H; right; exact I).
  pose proof (H e (or_introl eq_refl)) as He. clear IH H. induction S as [|x r S IH F]; cbn [insert_event]; [repeat constructor|].
  assert (Hx : nisnan (ev_off x) = false) by (apply Hl; now left).
  destruct (nltb (ev_off x) (ev_off e)) eqn:L.
  - constructor; [apply IH; intros y I; apply Hl; now right|]. apply Forall_forall. intros y I.
    apply (Permutation_in _ (Permutation_sym (insert_event_perm e r))) in I. destruct I as [<-|I].
    + exact (proj2 (proj2 (lo_le LO _ _ (proj1 (lo_lt LO _ _ L))))).
    + rewrite Forall_forall in F. apply F, I.
  - constructor; [constructor; assumption|]. constructor; [exact L|]. rewrite Forall_forall in *. intros y I. specialize (F y I).
    assert (Hy : nisnan (ev_off y) = false) by (apply Hl; right; exact I).
    pose proof (lo_total LO _ _ Hx He L) as A. pose proof (lo_total LO _ _ Hy Hx F) as B. exact (proj2 (proj2 (lo_le LO _ _ (lo_trans LO _ _ _ A B)))).
Qed.
Lemma a_bundle_ok (LO : linear_order) t s : exists s', transmits t s s' (a_bundle t s).
Proof.
  unfold a_bundle. destruct (event_range t s) as [[lo hi]|m|m] eqn:E.
  - destruct (time_range t s) as [[start stop]|m|m] eqn:T.
    + eexists. eapply Tr_bundle; [exact E|exact T|]. apply (sorted_events LO).
    + eexists. eapply Tr_error; eassumption.
    + exfalso. revert T. unfold time_range. assert (X : forall r, exists x, offset_reference s r = ROk x \/ exists m, offset_reference s r = RErr m).
      { intros r. unfold offset_reference. destruct (time_marking r) as [[]|]; [eexists; left; reflexivity|]. destruct (aget _ _ _) as [x|]; [exists x; left; reflexivity|exists n0; right; eexists; reflexivity]. }
      destruct (X (t_from t)) as [x [-> |[m' ->]]]; destruct (X (t_to t)) as [y [-> |[m2 ->]]]; destruct (String.eqb (t_from t) ""); destruct (String.eqb (t_to t) ""); cbn; discriminate.
  - exfalso. revert E. unfold event_range. destruct (_ && _); discriminate.
  - eexists. eapply Tr_panic; eassumption.
Qed.
End Sent.

(** What was said and put out, for the examples. *)
Definition said {N : Num} (acts : list action) : list string := flat_map (fun a => match a with Said x => [x] | _ => [] end) acts.
Definition outputs {N : Num} (acts : list action) : list (list ascii) := flat_map (fun a => match a with Output c => [c] | _ => [] end) acts.
Lemma in_said {N : Num} acts x : In (Said x) acts <-> In x (said acts).
Proof.
  unfold said. rewrite in_flat_map. split; [intro H; exists (Said x); split; [exact H|left; reflexivity]|].
  intros (a & H & H'). destruct a; cbn in H'; try contradiction. destruct H' as [->|[]]. exact H.
Qed.
Lemma in_outputs {N : Num} acts x : In (Output x) acts <-> In x (outputs acts).
Proof.
  unfold outputs. rewrite in_flat_map. split; [intro H; exists (Output x); split; [exact H|left; reflexivity]|].
  intros (a & H & H'). destruct a; cbn in H'; try contradiction. destruct H' as [->|[]]. exact H.
Qed.
