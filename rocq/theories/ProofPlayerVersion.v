(** Proofs about the version of the player. *)
From Coq Require Import String Ascii ZArith List Bool Lia.
From Verif Require Import Base ModelScan ModelDoctor ModelPlayerVersion SpecPlayerVersion.
Import ListNotations.
Local Open Scope string_scope.
Local Open Scope list_scope.
Local Open Scope Z_scope.

Lemma in_line_spec r : in_line r = true <-> ~ line_end r.
Proof. unfold in_line, line_end. rewrite negb_true_iff, orb_false_iff, !Z.eqb_neq. tauto. Qed.
Lemma after_word_spec w : forall t rest, after_word w t = Some rest <-> t = w ++ rest.
Proof.
  induction w as [|a w IH]; intros t rest; cbn [after_word app]; [split; [now intros [= ->]|now intros ->]|].
  destruct t as [|b t]; [split; discriminate|]. destruct (Z.eqb_spec a b) as [->|N]; [|split; [discriminate|intros [= E _]; congruence]].
  rewrite IH. split; [now intros ->|now intros [= ->]].
Qed.
Lemma line_rest_split t : exists post, t = line_rest t ++ post /\ Forall (fun r => ~ line_end r) (line_rest t) /\ (post = [] \/ exists r u, post = r :: u /\ line_end r).
Proof.
  induction t as [|r t (post & E & F & P)]; [exists []; split; [reflexivity|]; split; [constructor|now left]|]. cbn [line_rest]. destruct (in_line r) eqn:I.
  - exists post. split; [cbn [app]; now rewrite <- E|]. split; [|exact P]. constructor; [now apply in_line_spec|exact F].
  - exists (r :: t). split; [reflexivity|]. split; [constructor|]. right. exists r, t. split; [reflexivity|]. unfold in_line in I. apply negb_false_iff, orb_true_iff in I. rewrite !Z.eqb_eq in I. unfold line_end. tauto.
Qed.
Lemma line_rest_exact v post : Forall (fun r => ~ line_end r) v -> (post = [] \/ exists r u, post = r :: u /\ line_end r) -> line_rest (v ++ post) = v.
Proof.
  intros F P. induction F as [|r v N _ IH]; cbn [app line_rest].
  - destruct P as [->|(r & u & -> & L)]; [reflexivity|]. cbn [line_rest]. destruct (in_line r) eqn:I; [|reflexivity]. apply in_line_spec in I. contradiction.
  - apply in_line_spec in N. now rewrite N, IH.
Qed.
Lemma here_spec t v : version_here t = Some v <-> names t [] v.
Proof.
  unfold version_here, names. cbn [app]. split.
  - destruct (after_word (runes "alda-player ") t) as [rest|] eqn:A; [|discriminate]. apply after_word_spec in A. destruct (line_rest_split rest) as (post & E & F & P).
    destruct (line_rest rest) as [|x l] eqn:L; [discriminate|]. intros [= <-]. exists post. split; [now rewrite A, E|]. split; [discriminate|]. auto.
  - intros (post & E & N & F & P). apply after_word_spec in E. rewrite E, line_rest_exact by assumption. destruct v; [contradiction|reflexivity].
Qed.
Lemma names_cons r t pre v : names (r :: t) (r :: pre) v <-> names t pre v.
Proof. unfold names. split; intros (post & E & H); exists post; (split; [|exact H]); cbn [app] in *; congruence. Qed.
Lemma names_head t x pre v : names t (x :: pre) v -> exists u, t = x :: u /\ names u pre v.
Proof. intros N. pose proof N as (post & E & _). cbn [app] in E. subst t. eexists. split; [reflexivity|]. apply (names_cons x). exact N. Qed.
Lemma c75_version out v : player_version out = Some v <-> says_version out v.
Proof.
  assert (S : forall out, match player_version out with Some w => says_version out w | None => forall pre w, ~ names out pre w end).
  { clear out v. induction out as [|r t IH]; cbn [player_version].
    - destruct (version_here []) as [w|] eqn:H; [discriminate H|]. intros [|x pre] w N; [apply here_spec in N; congruence|]. apply names_head in N as (u & E & _). discriminate.
    - destruct (version_here (r :: t)) as [w|] eqn:H.
      + exists []. split; [now apply here_spec|]. intros. cbn. lia.
      + assert (Z0 : forall w, ~ names (r :: t) [] w) by (intros w N; apply here_spec in N; congruence).
        destruct (player_version t) as [w|].
        * destruct IH as (pre & N & M). exists (r :: pre). split; [now apply names_cons|]. intros [|x p] w' N'; [now apply Z0 in N'|]. apply names_head in N' as (u & [= <- <-] & N'). apply M in N'. cbn. lia.
        * intros [|x p] w N; [now apply Z0 in N|]. apply names_head in N as (u & [= <- <-] & N). now apply IH in N. }
  assert (U : forall out pre a b, names out pre a -> names out pre b -> a = b).
  { intros o pre. revert o. induction pre as [|x pre IH]; intros o a b A B.
    - apply here_spec in A, B. congruence.
    - apply names_head in A as (u & -> & A), B as (u' & [= <-] & B). eapply IH; eassumption. }
  assert (P : forall out p q a b, names out p a -> names out q b -> length p = length q -> p = q).
  { intros o p q a b (x & E & _) (y & E' & _) L. rewrite E in E'. clear E. revert q L E'. induction p as [|c p IH]; intros [|d q] L E'; cbn in L; try lia; [reflexivity|]. cbn [app] in E'. injection E' as -> E'. f_equal. apply IH; [lia|exact E']. }
  specialize (S out). split; [intros E; now rewrite E in S|]. intros (pre & N & M). destruct (player_version out) as [w|]; [|now apply S in N].
  destruct S as (q & N' & M'). f_equal. assert (q = pre) by (eapply P; [exact N'|exact N|]; apply M in N'; apply M' in N; lia). subst q. eapply U; eassumption.
Qed.
Lemma c75_finding client on_path info same : alda_player_path client on_path info = Found same <->
  on_path = true /\ exists out v, info = Some out /\ says_version out v /\ (same = true <-> v = client).
Proof.
  unfold alda_player_path. destruct on_path; [|split; [discriminate|intros [H _]; discriminate]]. destruct info as [out|]; [|split; [discriminate|intros (_ & o & v & H & _); discriminate]].
  destruct (player_version out) as [v|] eqn:V.
  - destruct (list_eq_dec Z.eq_dec v client) as [E|E]; (split; [intros [= <-]; split; [reflexivity|]; exists out, v; split; [reflexivity|]; split; [now apply c75_version|]; split; congruence|]);
    intros (_ & o & w & [= <-] & S & I); apply c75_version in S; rewrite V in S; injection S as <-; destruct same; try reflexivity; exfalso.
    + assert (false = true) by now apply I. discriminate.
    + apply E. now apply I.
  - split; [discriminate|]. intros (_ & o & w & [= <-] & S & _). apply c75_version in S. congruence.
Qed.
Lemma c75_missing client on_path info : alda_player_path client on_path info = NotFound <-> on_path = false.
Proof. unfold alda_player_path. destruct on_path; [|now split]. destruct info as [out|]; [destruct (player_version out)|]; split; discriminate. Qed.
Lemma c75_agrees client version path cr : version <> [] -> Forall (fun r => ~ line_end r) version -> cr = [] \/ cr = [13] ->
  alda_player_path client true (Some (runes "alda-player " ++ version ++ cr ++ 10 :: runes "log path: " ++ path ++ cr ++ [10])) =
  Found (if list_eq_dec Z.eq_dec version client then true else false).
Proof.
  intros N F C. unfold alda_player_path. set (out := runes "alda-player " ++ _).
  assert (V : version_here out = Some version).
  { apply here_spec. eexists. split; [reflexivity|]. split; [exact N|]. split; [exact F|]. right. destruct C as [-> | ->]; cbn [app]; do 2 eexists; (split; [reflexivity|]); unfold line_end; auto. }
  assert (P : player_version out = Some version) by (destruct out; cbn [player_version]; now rewrite V). now rewrite P.
Qed.
