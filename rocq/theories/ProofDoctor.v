(** Proofs about the doctor. *)
From Coq Require Import String Ascii ZArith List Bool Lia.
From Verif Require Import Base ModelScan ModelUpdate ModelPrompt SpecPrompt ProofPrompt ModelDoctor SpecDoctor.
Import ListNotations.
Local Open Scope string_scope.
Local Open Scope list_scope.

Lemma is_player_spec a : is_player a = true <-> the_player a.
Proof. unfold is_player, the_player. rewrite orb_true_iff, !String.eqb_eq. reflexivity. Qed.
Lemma fold_player assets : forall start,
  let a := fold_left (fun found a => if is_player a then a else found) assets start in
  (a = start /\ Forall (fun b => ~ the_player b) assets) \/
  (exists p q, assets = p ++ a :: q /\ the_player a /\ Forall (fun b => ~ the_player b) q).
Proof.
  induction assets as [|x assets IH]; intros start; cbn [fold_left]; [left; split; [reflexivity|constructor]|].
  destruct (is_player x) eqn:P.
  - right. destruct (IH x) as [[E F]|(p & q & E & Q & F)].
    + exists [], assets. cbn zeta in E. rewrite E. split; [reflexivity|]. split; [now apply is_player_spec|exact F].
    + exists (x :: p), q. split; [cbn [app]; now rewrite <- E|]. auto.
  - destruct (IH start) as [[E F]|(p & q & E & Q & F)].
    + left. split; [exact E|]. constructor; [|exact F]. intros H. apply is_player_spec in H. congruence.
    + right. exists (x :: p), q. split; [cbn [app]; now rewrite <- E|]. auto.
Qed.
Lemma last_unique (P : asset -> Prop) p : forall q a p' q' a', p ++ a :: q = p' ++ a' :: q' -> P a -> P a' ->
  Forall (fun b => ~ P b) q -> Forall (fun b => ~ P b) q' -> a = a'.
Proof.
  induction p as [|x p IH]; intros q a [|x' p'] q' a' E Pa Pa' F F'; cbn [app] in E; inversion E; subst.
  - reflexivity.
  - exfalso. rewrite Forall_forall in F. apply (F a'); [|exact Pa']. apply in_or_app. right; now left.
  - exfalso. rewrite Forall_forall in F'. apply (F' a); [|exact Pa]. apply in_or_app. right; now left.
  - eapply IH; eassumption.
Qed.
Lemma player_asset_spec platform answer a : player_asset platform answer = ROk a <-> exists release, answer = ROk release /\ player_of platform release a.
Proof.
  unfold player_asset, player_of. destruct answer as [release|e|e]; cbn [rbind]; [|split; [discriminate|intros (r & H & _); discriminate] ..].
  destruct (version_assets platform (Some release)) as [assets|e|e] eqn:V; cbn [rbind].
  - pose proof (fold_player assets (Asset "" "" "")) as K. cbn zeta in K. set (f := fold_left _ assets _) in *. destruct K as [[E F]|(p & q & E & Q & F)].
    + rewrite E. cbn. split; [discriminate|]. intros (r & [= <-] & p & q & H & Q & _). rewrite V in H. inversion H; subst assets.
      apply Forall_app in F as [_ F]. inversion F; contradiction.
    + assert (N : String.eqb (a_name f) "" = false) by (destruct Q as [-> | ->]; reflexivity). rewrite N. split.
      * intros [= <-]. exists release. split; [reflexivity|]. exists p, q. rewrite V, E at 1. auto.
      * intros (r & [= <-] & p' & q' & H & Q' & F'). rewrite V in H. injection H as H. f_equal. rewrite E in H. exact (last_unique the_player _ _ _ _ _ _ H Q Q' F F').
  - split; [discriminate|]. intros (r & [= <-] & p & q & H & _). congruence.
  - split; [discriminate|]. intros (r & [= <-] & p & q & H & _). congruence.
Qed.

Section Doctor.
Variable other_blank : rune -> bool.
Variable other_lower : rune -> rune.
Hypothesis low_other : forall r, (128 <= r)%Z -> (128 <= other_lower r)%Z \/ other_lower r = 105%Z \/ other_lower r = 107%Z.

Lemma offer_spec platform answer input works a :
  In a (fst (offer other_blank other_lower platform answer input works)) <->
  consent other_blank input /\ exists release, answer = ROk release /\ player_of platform release a.
Proof.
  unfold consent. rewrite <- (c73_question other_blank other_lower low_other true input true), <- player_asset_spec. unfold offer.
  destruct (ask other_blank other_lower true input) as [[|]|]; cbn [fst In]; try (split; [intros []|intros [H _]; discriminate]).
  destruct (player_asset platform answer) as [x|e|e]; cbn [fst In]; split.
  - intros [->|[]]; auto.
  - intros [_ [= ->]]; auto.
  - intros [].
  - intros [_ H]; discriminate.
  - intros [].
  - intros [_ H]; discriminate.
Qed.
Lemma offer_ok platform answer input works : snd (offer other_blank other_lower platform answer input works) = true -> consent other_blank input.
Proof.
  unfold consent. rewrite <- (c73_question other_blank other_lower low_other true input true). unfold offer. destruct (ask other_blank other_lower true input) as [[|]|]; cbn [snd]; congruence.
Qed.
Lemma c74_player platform answer first second in1 in2 works1 works2 a :
  In a (fst (doctor_player other_blank other_lower platform answer first second in1 in2 works1 works2)) ->
  (exists release, answer = ROk release /\ player_of platform release a) /\
  ((first = NotFound /\ consent other_blank in1) \/ (first = Found false /\ consent other_blank in2)).
Proof.
  unfold doctor_player. pose proof (offer_spec platform answer in1 works1 a) as O1. pose proof (offer_spec platform answer in2 works2 a) as O2. pose proof (offer_ok platform answer in1 works1) as G.
  destruct (offer other_blank other_lower platform answer in1 works1) as [l ok], (offer other_blank other_lower platform answer in2 works2) as [l2 ok2]. cbn [fst snd] in O1, O2, G.
  destruct first as [| |[|]]; cbn [fst In app]; try (intros []).
  - destruct ok.
    + specialize (G eq_refl). intros I. split; [|left; now split]. destruct second as [| |[|]]; cbn [fst] in I; rewrite ?in_app_iff in I; try (now apply O1 in I). destruct I as [I|I]; [now apply O1 in I|now apply O2 in I].
    + cbn [fst]. intros I. apply O1 in I as [C R]. auto.
  - intros I. apply O2 in I as [C R]. auto.
Qed.
Lemma c74_repairs platform answer release a : answer = ROk release -> player_of platform release a ->
  forall first second in1 in2 works1 works2, (first = NotFound /\ consent other_blank in1) \/ (first = Found false /\ consent other_blank in2) ->
  In a (fst (doctor_player other_blank other_lower platform answer first second in1 in2 works1 works2)).
Proof.
  intros E P first second in1 in2 w1 w2 H. unfold doctor_player. pose proof (offer_spec platform answer in1 w1 a) as O1. pose proof (offer_spec platform answer in2 w2 a) as O2.
  destruct (offer other_blank other_lower platform answer in1 w1) as [l ok], (offer other_blank other_lower platform answer in2 w2) as [l2 ok2]. cbn [fst] in O1, O2.
  destruct H as [[-> C]|[-> C]].
  - assert (I : In a l) by (apply O1; split; [exact C|now exists release]). destruct ok; [destruct second as [| |[|]]|]; cbn [fst]; rewrite ?in_app_iff; auto.
  - cbn [fst app]. apply O2. split; [exact C|now exists release].
Qed.
Lemma c74_healthy platform answer second in1 in2 works1 works2 :
  doctor_player other_blank other_lower platform answer (Found true) second in1 in2 works1 works2 = ([], true).
Proof. reflexivity. Qed.
End Doctor.
