(** Proofs about `alda import`. *)
From Coq Require Import String ZArith List Bool Lia Permutation.
From Verif Require Import Base Num ModelPitch ModelDuration ModelInstruments ModelTypes ModelLisp ModelScan SpecScan ModelParser SpecParser ModelAst ModelFormat SpecFormat ProofFormatTop
  ModelScore ModelImporter ModelMusicXml ModelGen SpecGen SpecScore SpecImporter SpecMusicXml SpecXmlScore SpecWritten ProofWritten8 ModelFormatCommand ProofFormatCommand
  ModelImportCommand SpecImportCommand.
Import ListNotations.
Local Open Scope string_scope.
Local Open Scope list_scope.
Local Open Scope Z_scope.

Lemma source_given g v b : import_source g v = Some b <-> given g v b.
Proof.
  unfold import_source, given. destruct (String.eqb_spec (m_file g) "") as [E|E]; cbn [negb].
  - destruct (m_code g) as [|x t] eqn:C.
    + split; [intros H; right; right; auto|]. intros [(A & _)|[(_ & A & B)|(_ & _ & A)]]; [now elim A|now elim B|exact A].
    + split; [intros [= <-]; right; left; split; [exact E|split; [reflexivity|discriminate]]|]. intros [(A & _)|[(_ & A & B)|(_ & A & _)]]; [now elim A|now rewrite A|discriminate].
  - destruct (v_reads v (m_file g)) eqn:R.
    + split; [intros H; left; auto|]. intros [(_ & _ & A)|[(A & _)|(A & _)]]; [exact A|now elim E|now elim E].
    + split; [discriminate|]. intros [(_ & A & _)|[(A & _)|(A & _)]]; [discriminate|now elim E|now elim E].
Qed.
Lemma put_same fs p t : put fs p t p = Some t.
Proof. unfold put. now rewrite String.eqb_refl. Qed.
Lemma put_other fs p t q : q <> p -> put fs p t q = fs q.
Proof. intros H. unfold put. destruct (String.eqb_spec q p); [contradiction|reflexivity]. Qed.

Section Any.
Context {N : Num} {G : GNum N}.
Variables (fmt : num -> list rune) (xml : list rune -> option (list elem)) (other : string -> num).
Variables (po : nat -> list string -> list string) (vo : nat -> list Z -> list Z) (feq : num -> num -> bool) (order : list ModelPitch.letter).
Notation command := (import_command fmt xml other po vo feq order).
Notation tree := (import_tree xml other po vo feq order).

Lemma tree_some g v a : tree g v = Some a ->
  m_format g = "musicxml" /\ exists b doc us, given g v b /\ xml b = Some doc /\ import_music_xml other po vo feq doc = ROk us /\ generate order us = ROk a.
Proof.
  unfold import_tree. destruct (String.eqb_spec (m_format g) "musicxml") as [E|E]; cbn [negb]; [|discriminate]. destruct (import_source g v) as [b|] eqn:S; [|discriminate].
  destruct (xml b) as [doc|] eqn:X; [|discriminate]. destruct (import_music_xml other po vo feq doc) as [us|?|?] eqn:I; cbn [rbind]; try discriminate.
  destruct (generate order us) as [a'|?|?] eqn:Ge; try discriminate. intros [= <-]. split; [exact E|]. exists b, doc, us. split; [now apply source_given|]. auto.
Qed.

Lemma c70_untouched g v : let r := command g v in
  (forall fs p, In fs (n_states r) -> p <> m_output g -> fs p = v_files v p) /\
  (m_output g = "" -> n_states r = [v_files v]) /\
  (~ (m_format g = "musicxml" /\ exists b doc us, given g v b /\ xml b = Some doc /\ import_music_xml other po vo feq doc = ROk us) \/
   (m_output g <> "" /\ v_opens v (m_output g) = false) ->
   n_states r = [v_files v] /\ n_output r = [] /\ n_succeeds r = false).
Proof.
  cbv zeta. split; [|split].
  - intros fs p. unfold import_command. destruct (tree g v) as [a|]; [|intros [<-|[]]; reflexivity]. destruct (String.eqb (m_output g) "").
    + destruct (format fmt default_config a); intros [<-|[]]; reflexivity.
    + destruct (v_opens v (m_output g)); cbn [negb]; [|intros [<-|[]]; reflexivity]. destruct (format fmt default_config a) as [t|]; cbn [n_states].
      * intros H D. apply in_app_or in H as [[<-|[<-|[]]]|H]; [reflexivity|now apply put_other|]. apply in_map_iff in H as (c & <- & _). now apply put_other.
      * intros [<-|[<-|[]]] D; [reflexivity|now apply put_other].
  - intros E. unfold import_command. rewrite E. cbn [String.eqb]. destruct (tree g v); [|reflexivity]. destruct (format fmt default_config _); reflexivity.
  - intros H. unfold import_command. destruct (tree g v) as [a|] eqn:T; [|auto]. destruct H as [H|[H1 H2]].
    + elim H. destruct (tree_some g v a T) as (A & b & doc & us & B & C & D & _). split; [exact A|]. now exists b, doc, us.
    + rewrite H2. destruct (String.eqb_spec (m_output g) ""); [contradiction|]. auto.
Qed.
End Any.

Theorem c70_imports : forall M fmt xml other po vo feq order g v b doc l,
  1 <= M <= 24 -> (forall k vs, Permutation vs (vo k vs)) -> (forall x y, feq x y = true -> x = y) -> (forall x : ModelPitch.letter, In x order) ->
  m_format g = "musicxml" -> given g v b -> xml b = Some doc -> read_score M doc = Some l ->
  (forall us, import_music_xml other po vo feq doc = ROk us -> writable fmt us) ->
  let r := import_command (N := XQ) fmt xml other po vo feq order g v in
  exists t, text_plays t (map (in_ms M) l) /\
    (n_succeeds r = true ->
     if String.eqb (m_output g) "" then n_output r = t else n_output r = [] /\ in_the_end v r (m_output g) = Some t) /\
    (m_output g = "" \/ v_opens v (m_output g) = true -> v_fails v = None -> n_succeeds r = true) /\
    (forall fs, In fs (n_states r) -> fs (m_output g) = v_files v (m_output g) \/ exists c rest, fs (m_output g) = Some c /\ t = c ++ rest).
Proof.
  intros M fmt xml other po vo feq order g v b doc l HM Hv Hf Ho Hm Hg Hx Hr Hw r.
  destruct (c69_document M other po vo feq doc l fmt default_config order HM Hv Hf Ho default_blank Hr) as (us & I & D).
  destruct (Hw us I) as (ps & E & P & R). destruct (D ps E P R) as (a & t & us' & Ge & F & C & S1 & S2).
  exists t. split; [exists us'; auto|].
  assert (T : import_tree xml other po vo feq order g v = Some a).
  { unfold import_tree. rewrite Hm. cbn [negb]. replace (import_source g v) with (Some b) by (symmetry; now apply source_given).
    rewrite Hx, I. cbn [rbind]. rewrite Ge. reflexivity. }
  unfold r, import_command. rewrite T, F. unfold in_the_end, written, complete. cbn [d_fails].
  destruct (String.eqb_spec (m_output g) "") as [O|O].
  - cbn [n_states n_output n_succeeds]. split; [|split].
    + destruct (v_fails v); [discriminate|]. intros _. apply firstn_all.
    + intros _ ->. reflexivity.
    + intros fs [<-|[]]. left. reflexivity.
  - destruct (v_opens v (m_output g)); cbn [negb].
    + cbn [n_states n_output n_succeeds]. split; [|split].
      * destruct (v_fails v); [discriminate|]. intros _. split; [reflexivity|]. destruct t as [|x t]; [cbn; apply put_same|].
        unfold growing. cbn [length]. rewrite seq_S, !map_app. cbn [map]. rewrite app_assoc, last_last. rewrite put_same. f_equal. exact (firstn_all (x :: t)).
      * intros _ ->. reflexivity.
      * intros fs H. apply in_app_or in H as [[<-|[<-|[]]]|H]; [left; reflexivity|right; exists [], t; split; [apply put_same|reflexivity]|].
        apply in_map_iff in H as (c & <- & Hc). right. destruct (growing_prefix t _ c Hc) as [rest Er]. exists c, rest. split; [apply put_same|exact Er].
    + cbn [n_states n_output n_succeeds]. split; [discriminate|]. split; [intros [A|A]; [contradiction|discriminate]|]. intros fs [<-|[]]. left. reflexivity.
Qed.
