(** C54: writing updates as Alda. *)
From Coq Require Import String Ascii ZArith List Bool.
From Verif Require Import Base Num ModelPitch ModelDuration ModelTypes ModelLisp ModelScan SpecScan ModelParser SpecParser ModelAst ModelGen SpecAst
  ModelFormat SpecFormat ProofFormatTop ProofAstTree SpecGen ProofGen ProofGen2 ProofGen3 ProofGen4.
Import ListNotations.
Local Open Scope string_scope.
Local Open Scope list_scope.
Local Open Scope Z_scope.

(** C54: every list of updates that Alda can express ([score_writable]) is
    written as a tree, whatever order Go visits the letters of a key signature
    in, and reading that tree gives the same updates: dynamics and key
    signatures come back as S-expressions that evaluate to them. *)
Theorem C54_written : forall {N : Num} (order : list ModelPitch.letter), (forall l, In l order) ->
  forall us, score_writable prim_writable us ->
  exists a us', generate order us = ROk a /\ updates a = ROk us' /\ Forall2 reads_as us us'.
Proof. exact @written. Qed.
Print Assumptions C54_written.

(** C54: ... in particular the updates of every score's text, exactly. *)
Theorem C54_text : forall {N : Num} (order : list ModelPitch.letter) (input : list rune) us, (forall l, In l order) ->
  Forall scalar input -> compile input = ROk us ->
  exists a, generate order us = ROk a /\ updates a = ROk us.
Proof. exact @text_written. Qed.
Print Assumptions C54_text.

(** C54: the tree is the one the text was parsed to, if the text has no empty
    alias and no "V0:" directly followed by repetition numbers. *)
Theorem C54_tree : forall {N : Num} (order : list ModelPitch.letter) (input : list rune) ts a us,
  Forall scalar input -> scan input = Scanned ts -> plain ts -> ~ empty_alias ts ->
  parse input = Parsed a -> updates a = ROk us -> generate order us = ROk a.
Proof. exact @tree_back. Qed.
Print Assumptions C54_tree.

(** C54: formatting the generated tree gives a text that compiles to the same
    updates, under the conditions of C46. *)
Theorem C54_formatted : forall {N : Num} (order : list ModelPitch.letter) (fmt : num -> list rune) cfg (input : list rune) ts a us,
  Forall scalar input -> scan input = Scanned ts -> plain ts -> ~ empty_alias ts ->
  parse input = Parsed a -> updates a = ROk us -> ~ zero_before_bar ts -> blank_text (c_indent cfg) ->
  everywhere (number_printed fmt) a -> everywhere (fun n => ~ slurred_at_bar n) a ->
  exists a' text, generate order us = ROk a' /\ format fmt cfg a' = Some text /\ compile text = ROk us.
Proof. exact @formatted. Qed.
Print Assumptions C54_formatted.

(** An empty alias is dropped from the tree. *)
Theorem C54_alias_refuted : exists us, @compile XQ alias_text = ROk us /\
  exists a b, parse alias_text = Parsed a /\ generate all7 us = ROk b /\ a <> b.
Proof. exact alias_refuted. Qed.
Print Assumptions C54_alias_refuted.

(** A voice group that is played on some repetitions gets brackets around it. *)
Theorem C54_group_refuted : exists us, @compile XQ group_text = ROk us /\
  exists a b, parse group_text = Parsed a /\ generate all7 us = ROk b /\ a <> b.
Proof. exact group_refuted. Qed.
Print Assumptions C54_group_refuted.

(** The end of a voice group without a voice makes the program crash. *)
Theorem C54_stray_end_refuted : forall {N : Num} order, exists m, generate order [UVoiceEnd] = RPanic m.
Proof. exact @stray_end. Qed.
Print Assumptions C54_stray_end_refuted.

(** Updates with a dynamic, a key signature, voices, nested events and two
    parts can be written. *)
Definition d_major : keysig := KS None None (Some [Sharp]) None None (Some [Sharp]) None.
Example ex_writable : score_writable (N := XQ) prim_writable
  [UPrim (Attr (POctave 3)); UPart ["piano"; "violin"] "duo"; UPrim (Attr (PDynamic "mf")); UPrim (Attr (PKey d_major));
   UVoice 1; UPrim (Note (PLetter LC (Some [Sharp])) (Some [CLen (nlit 4 1) 1; CBar]) true); UVoice 2; URepeat (USeq [UVoice 1; UBarline; UVoiceEnd; UMarker "m"]) 3;
   UVoiceEnd; ULisp [LSym "vol"; LNum (nlit 50 1)]; UPart ["cello"] ""; UCram [UChord [UPrim (Rest None)]] None].
Proof.
  assert (E : forall s, (exists rs, forallb scalar_check rs = true /\ s = utf8 rs) -> encoded s).
  { intros s (rs & A & B). exists rs. split; [now apply scalar_check_ok|exact B]. }
  split; [reflexivity|].
  repeat (apply Forall_cons; [|]); try (apply Forall_nil).
  - exact I.
  - split; [discriminate|]. split; [repeat constructor|]; apply E;
      [exists (runes "piano")|exists (runes "violin")|exists (runes "duo")]; split; reflexivity.
  - cbn. tauto.
  - intros l accs H. destruct l; inversion H; subst; (split; [discriminate|]); repeat constructor; discriminate.
  - exact I.
  - split; [discriminate|]. split; [discriminate|]. repeat constructor. discriminate.
  - exact I.
  - split; [exact I|]. split; [reflexivity|]. split; [exact I|]. split; [exact I|]. split; [exact I|]. split; [|exact I].
    apply E. exists (runes "m"). split; reflexivity.
  - exact I.
  - split; [apply E; exists (runes "vol"); split; reflexivity|]. split; [exact I|exact I].
  - split; [discriminate|]. split; [repeat constructor|]; apply E; [exists (runes "cello")|exists []]; split; reflexivity.
  - split; [reflexivity|]. split; [exact I|]. split; [|exact I]. split; [discriminate|]. split; [reflexivity|]. split; [exact I|exact I].
Qed.
(** A score with parts, an alias, a chord, nested sequences and cram
    expressions, variables, voices, S-expressions, markers and repetitions
    meets the conditions on texts. *)
Definition score : list rune :=
  runes "piano/violin ""duo"": (tempo! 120) [c4~|2 > / e+ '1-3,4]*2 %mark {r [g]}8 | "
  ++ newline :: runes "foo = {r c}4 d" ++ newline :: runes "V1: (vol! 5 '(a b)) @mark"
  ++ newline :: runes "V2: foo*3 o3 d8. < e V0: d" ++ newline :: runes "cello: c4500ms r2s".
Example ex_text : Forall scalar score /\
  match @scan XQ score with Scanned ts => plain_check ts && alias_check ts | _ => false end = true /\
  match @compile XQ score with ROk us => List.length us | _ => 0%nat end = 20%nat.
Proof. split; [apply scalar_check_ok; vm_compute; reflexivity|]. split; vm_compute; reflexivity. Qed.
Example ex_checks : forall {N : Num} ts, plain_check ts && alias_check ts = true -> plain ts /\ ~ empty_alias ts.
Proof. intros N ts H. apply andb_true_iff in H as [A B]. split; [now apply plain_check_ok|now apply alias_check_ok]. Qed.
