(** What a player that is sent a bundle and commands has in its sequence (C59). *)
From Coq Require Import ZArith String List Bool Lia ZifyBool Permutation Sorted.
From Verif Require Import Base Num ModelPitch ModelDuration ModelInstruments ModelTypes ModelLisp ModelScore SpecScore ModelOsc SpecOsc ProofOsc
  ModelPlayer SpecPlayer ProofPlayer ProofPackets ModelApply SpecApply ProofApply ProofApplyRun.
Import ListNotations.
Local Open Scope list_scope.
Local Open Scope Z_scope.

Section End.
Context {N : Num} {J : JNum N}.

(* ---------------- the program of a bundle ---------------- *)
Lemma aset_keys : forall A (k : Z) (v : A) m k', In k' (map fst (aset Z.eqb k v m)) -> k' = k \/ In k' (map fst m).
Proof.
  induction m as [|[a b] m IH]; intros k' H; cbn in *; [intuition|]. destruct (a =? k) eqn:E; cbn in *; [|destruct H as [H|H]; [auto|destruct (IH k' H); auto]]. destruct H as [H|H]; auto; lia.
Qed.
Lemma aset_once : forall A (k : Z) (v : A) m, NoDup (map fst m) -> NoDup (map fst (aset Z.eqb k v m)).
Proof.
  induction m as [|[a b] m IH]; intros H; cbn; [repeat constructor; intros []|]. cbn in H. inversion H; subst. destruct (a =? k) eqn:E; cbn; constructor; try assumption.
  - intros K. apply aset_keys in K. destruct K as [K|K]; [lia|contradiction].
  - apply IH. assumption.
Qed.
Lemma step_once : forall m u, NoDup (map fst (u_tracks u)) -> NoDup (map fst (u_tracks (step m u))).
Proof.
  intros m u H. unfold step. destruct (event_of m) as [[t e]|]; [apply aset_once, H|]. destruct m; cbn; try exact H. destruct (off =? 0); exact H.
Qed.
Lemma step_idle : forall m u, event_of m = None -> u_tracks (step m u) = u_tracks u.
Proof. intros m u H. unfold step. rewrite H. destruct m; cbn; try reflexivity. destruct (off =? 0); reflexivity. Qed.
Lemma parsed_once : forall b, Forall numbered b -> NoDup (map fst (u_tracks (parse_updates (map encode b)))).
Proof.
  intros b. unfold parse_updates. induction b as [|m b IH] using rev_ind; intros F; [constructor|]. apply Forall_app in F. destruct F as [F1 F2]. inversion F2; subst.
  rewrite map_app, fold_left_app. cbn [map fold_left]. rewrite parse_encode by assumption. apply step_once, IH, F1.
Qed.
Lemma parsed_idle : forall b, Forall (fun m => event_of m = None) b -> u_tracks (parse_updates (map encode b)) = [].
Proof.
  intros b. unfold parse_updates. induction b as [|m b IH] using rev_ind; intros F; [reflexivity|]. apply Forall_app in F. destruct F as [F1 F2]. inversion F2; subst.
  rewrite map_app, fold_left_app. cbn [map fold_left]. rewrite parse_encode; [|unfold numbered; rewrite H1; exact I]. rewrite step_idle by assumption. apply IH, F1.
Qed.
Lemma tempos_program : forall b, flat_map (fun y => match y with YTempo o x => [ITempo o x] | _ => [] end) (flat_map system_of b) = map itempo (tempo_changes b).
Proof.
  induction b as [|m b IH]; [reflexivity|]. unfold tempo_changes in *. cbn [flat_map]. rewrite flat_map_app, map_app, IH. f_equal. destruct m; try reflexivity. cbn. destruct (off =? 0); reflexivity.
Qed.
Lemma no_offsets : forall b, Forall (fun m => match m with MOffset _ => False | _ => True end) b ->
  flat_map (fun y => match y with YOffset o => [@IOffset N o] | _ => [] end) (flat_map system_of b) = [].
Proof.
  induction 1 as [|m b H _ IH]; [reflexivity|]. cbn [flat_map]. rewrite flat_map_app, IH, app_nil_r. destruct m; try reflexivity; [|destruct H]. cbn. destruct (off =? 0); reflexivity.
Qed.
Lemma later_flat : forall A (f : A -> list instr) l, (forall x, Forall (fun i => later i = true) (f x)) -> Forall (fun i => later i = true) (flat_map f l).
Proof. intros A f l H. induction l as [|x l IH]; [constructor|]. cbn. apply Forall_app. split; [apply H|exact IH]. Qed.

Lemma bundle_program : forall b, Forall numbered b -> Forall (fun m => match m with MOffset _ | MStop => False | _ => True end) b ->
  exists pre tail, Forall (fun i => i = IShutdown) pre /\ Forall (fun i => later i = true) tail /\
    program (parse_updates (map encode b)) = pre ++ map itempo (tempo_changes b) ++ map iput (u_tracks (parse_updates (map encode b))) ++ tail.
Proof.
  intros b F K. destruct (parse_adds b F) as (A & B & C & D & E & G & H & I). unfold program. rewrite B, H, I, tempos_program. cbn [map app].
  assert (S : u_stop (parse_updates (map encode b)) = false). { destruct (u_stop _); [|reflexivity]. exfalso. rewrite Forall_forall in K. exact (K MStop (proj1 G eq_refl)). }
  rewrite S, no_offsets by (eapply Forall_impl; [|exact K]; intros []; intros X; try exact Logic.I; exact X). cbn [app].
  eexists (if u_shutdown _ then [IShutdown] else []), _. split; [|split; [|reflexivity]].
  - destruct (u_shutdown _); repeat constructor.
  - apply Forall_app. split; [|apply Forall_app; split].
    + apply later_flat. intros []; repeat constructor.
    + apply later_flat. intros []; repeat constructor.
    + destruct (u_play _); repeat constructor.
Qed.
Lemma commands_program : forall b, Forall command b -> Forall (fun i => later i = true) (program (parse_updates (map encode b))).
Proof.
  intros b F. assert (E : Forall (fun m => event_of m = None) b) by (eapply Forall_impl; [|exact F]; intros []; cbn; intros; try assumption; contradiction).
  assert (Nu : Forall numbered b) by (eapply Forall_impl; [|exact E]; intros m H; unfold numbered; rewrite H; exact I).
  destruct (parse_adds b Nu) as (A & B & _ & _ & _ & _ & H & K). unfold program. rewrite (parsed_idle b E), B, H, K, tempos_program.
  assert (T : tempo_changes b = []). { clear - F. induction F as [|m b H _ IH]; [reflexivity|]. unfold tempo_changes in *. cbn. rewrite IH, app_nil_r. destruct m; try reflexivity. destruct H. }
  rewrite T. cbn [map app]. repeat (apply Forall_app; split); try (apply later_flat; intros []; repeat constructor); match goal with |- Forall _ (if ?c then _ else _) => destruct c; repeat constructor end.
Qed.

(* ---------------- the messages of a bundle, with their tracks ---------------- *)
Variable T : list tempo_entry.
Definition labelled (b : list msg) : list (option Z * (Z * midi)) :=
  flat_map (fun m => match event_of m with Some (t, e) => map (fun x => (Some t, conv T x)) (messages_of (add_offset (lateness T) e)) | None => [] end) b.
Lemma labelled_app : forall a b, labelled (a ++ b) = labelled a ++ labelled b.
Proof. intros. apply flat_map_app. Qed.
Lemma of_track_app : forall t a b, of_track t (a ++ b) = of_track t a ++ of_track t b.
Proof. intros. unfold of_track. rewrite filter_app, map_app. reflexivity. Qed.
Lemma of_track_label : forall t t' l, of_track t (map (fun x => (Some t', conv T x)) l) = if t' =? t then map (conv T) l else [].
Proof.
  intros t t' l. unfold of_track. induction l as [|x l IH]; [destruct (t' =? t); reflexivity|]. cbn [map filter]. unfold tagged at 1. cbn [fst]. destruct (t' =? t); [|exact IH]. cbn [map snd]. rewrite IH. reflexivity.
Qed.
Lemma labelled_track : forall t b, of_track t (labelled b) = map (conv T) (msgs T (events_for t b)).
Proof.
  intros t b. unfold events_for, msgs. induction b as [|m b IH]; [reflexivity|]. change (labelled (m :: b)) with (labelled ([m] ++ b)). rewrite labelled_app, of_track_app, IH.
  cbn [flat_map]. rewrite map_app, flat_map_app, map_app. f_equal. unfold labelled. cbn [flat_map]. rewrite app_nil_r. destruct (event_of m) as [[t' e]|]; [|reflexivity].
  rewrite of_track_label. destruct (t' =? t); [|reflexivity]. cbn [map flat_map]. rewrite app_nil_r. reflexivity.
Qed.

Lemma complete_labelled : forall TS b puts L, Forall numbered b -> puts = u_tracks (parse_updates (map encode b)) -> complete T TS puts L ->
  exists log, L = adds (map snd log) /\ Forall (fun x => fst x = None -> meta (snd (snd x)) = true) log /\ forall t, of_track t log = of_track t (labelled b).
Proof.
  intros TS b puts L F -> (_ & log & E & M & O). exists log. split; [exact E|]. split; [exact M|]. intros t. rewrite O, labelled_track.
  destruct (parse_adds b F) as (A & _). rewrite <- A. unfold track_events. destruct (aget _ _ _); reflexivity.
Qed.
(** Everything with a tag is there once, in some order. *)
Lemma labelled_perm : forall log X, (forall t, of_track t log = of_track t X) -> Forall (fun x => fst x <> None) X ->
  Permutation (filter (fun x => match fst x with Some _ => true | None => false end) log) X.
Proof.
  intros log X H F. apply (tags_perm _ (option Z) (fun a b => match a, b with Some a, Some b => a =? b | None, None => true | _, _ => false end) fst).
  { intros [x|] [y|]; split; intros K; try discriminate; try reflexivity; [f_equal; lia|inversion K; lia]. }
  assert (W : forall t (l : list (option Z * (Z * midi))), filter (tagged t) l = map (fun x => (Some t, x)) (of_track t l)).
  { intros t l. unfold of_track. induction l as [|[a x] l IH]; [reflexivity|]. cbn [filter]. destruct (tagged t (a, x)) eqn:E; [|exact IH].
    cbn [map snd]. rewrite <- IH. f_equal. f_equal. unfold tagged in E. cbn in E. destruct a; [f_equal; lia|discriminate]. }
  intros [t|]; rewrite filter_filter.
  - transitivity (filter (tagged t) log); [apply filter_ext; intros [[a|] x]; unfold tagged; cbn; rewrite ?andb_true_r; reflexivity|].
    transitivity (filter (tagged t) X); [rewrite !W, H; reflexivity|apply filter_ext; intros [[a|] x]; reflexivity].
  - rewrite !filter_none; [reflexivity| |].
    + eapply Forall_impl; [|exact F]. intros [[a|] x] K; [reflexivity|exfalso; apply K; reflexivity].
    + apply Forall_forall. intros [[a|] x] _; reflexivity.
Qed.
Lemma labelled_tags : forall b, Forall (fun x => fst x <> None) (labelled b).
Proof.
  induction b as [|m b IH]; [constructor|]. change (m :: b) with ([m] ++ b). rewrite labelled_app. apply Forall_app. split; [|exact IH]. unfold labelled. cbn. rewrite app_nil_r.
  destruct (event_of m) as [[t e]|]; [|constructor]. apply Forall_map. apply Forall_forall. intros x _. discriminate.
Qed.
Lemma flat_split : forall A B (f : A -> list B) g l, (forall x, In x l -> g x = false -> f x = []) -> flat_map f l = flat_map f (filter g l).
Proof. induction l as [|x l IH]; intros H; [reflexivity|]. cbn. rewrite IH by (intros; apply H; [right|]; assumption). destruct (g x) eqn:G; [reflexivity|]. rewrite (H x (or_introl eq_refl) G). reflexivity. Qed.
Lemma flat_map_map : forall A B C (f : B -> list C) (g : A -> B) l, flat_map f (map g l) = flat_map (fun x => f (g x)) l.
Proof. induction l as [|x l IH]; [reflexivity|]. cbn. rewrite IH. reflexivity. Qed.

Lemma log_flat : forall (B : Type) (f : Z * midi -> list B) log b, (forall x, meta (snd x) = true -> f x = []) ->
  Forall (fun x => fst x = None -> meta (snd (snd x)) = true) log -> (forall t, of_track t log = of_track t (labelled b)) ->
  Permutation (flat_map f (adds (map snd log))) (flat_map f (map snd (labelled b))).
Proof.
  intros B f log b Hf M O. etransitivity; [apply Permutation_flat_map; symmetry; apply adds_perm|]. rewrite !flat_map_map.
  rewrite (flat_split _ _ _ (fun x => match fst x with Some _ => true | None => false end) log).
  - apply Permutation_flat_map. apply labelled_perm; [exact O|apply labelled_tags].
  - intros [[a|] x] I E; [discriminate|]. apply Hf. rewrite Forall_forall in M. exact (M _ I eq_refl).
Qed.

(** Where only one track is concerned, the order is the bundle's. *)
Lemma one_track : forall (P : Z * midi -> bool) log X, (forall t, of_track t log = of_track t X) ->
  Forall (fun x => fst x = None -> P (snd x) = false) log -> Forall (fun x => fst x <> None) X ->
  (forall x y, In x X -> In y X -> P (snd x) = true -> P (snd y) = true -> fst x = fst y) ->
  filter P (map snd log) = filter P (map snd X).
Proof.
  intros P log X H F G U.
  assert (InT : forall l t x, In (Some t, x) l <-> In x (of_track t l)).
  { intros l t x. unfold of_track. rewrite in_map_iff. split.
    - intros I. exists (Some t, x). split; [reflexivity|]. apply filter_In. split; [exact I|]. unfold tagged. cbn. apply Z.eqb_refl.
    - intros ([a y] & <- & I). apply filter_In in I. destruct I as [I J0]. unfold tagged in J0. cbn in *. destruct a as [a|]; [|discriminate]. apply Z.eqb_eq in J0. subst a. exact I. }
  assert (ONE : forall t0 (l : list (option Z * (Z * midi))), Forall (fun x => P (snd x) = true -> fst x = Some t0) l -> filter P (map snd l) = filter P (of_track t0 l)).
  { intros t0 l K. unfold of_track. induction K as [|[a x] l K0 _ IH]; [reflexivity|]. cbn [map filter fst snd]. unfold tagged at 1. cbn [fst snd] in *. destruct (P x) eqn:E.
    - rewrite (K0 eq_refl). rewrite Z.eqb_refl. cbn. rewrite E, IH. reflexivity.
    - destruct a as [a|]; [destruct (a =? t0)|]; cbn; rewrite ?E; exact IH. }
  destruct (filter P (map snd X)) as [|z r] eqn:E.
  - apply filter_none. apply Forall_forall. intros x I. apply in_map_iff in I. destruct I as ([a y] & <- & I). cbn. destruct (P y) eqn:Q; [|reflexivity]. exfalso.
    destruct a as [t|]; [|rewrite Forall_forall in F; specialize (F _ I eq_refl); cbn in F; congruence].
    apply InT in I. rewrite H in I. apply InT in I. assert (K : In y (filter P (map snd X))) by (apply filter_In; split; [apply (in_map snd) in I; exact I|exact Q]). rewrite E in K. destruct K.
  - assert (K : In z (filter P (map snd X))) by (rewrite E; left; reflexivity). apply filter_In in K. destruct K as [K Q]. apply in_map_iff in K. destruct K as ([a y] & Ey & I). cbn in Ey. subst y.
    destruct a as [t0|]; [|rewrite Forall_forall in G; exfalso; exact (G _ I eq_refl)].
    rewrite <- E. rewrite (ONE t0 log), (ONE t0 X); [rewrite H; reflexivity| |].
    + apply Forall_forall. intros x Ix Px. symmetry. exact (U _ _ I Ix Q Px).
    + apply Forall_forall. intros [b x] Ix Px. cbn in *. destruct b as [t|]; [|rewrite Forall_forall in F; specialize (F _ Ix eq_refl); cbn in F; congruence].
      apply InT in Ix. rewrite H in Ix. apply InT in Ix. symmetry. exact (U _ _ I Ix Q Px).
Qed.
End End.
