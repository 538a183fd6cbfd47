(** Property theorems C69: imported scores, written as Alda text, read as the same. *)
From Coq Require Import String Ascii ZArith List Bool Permutation.
From Verif Require Import Base Num ModelPitch ModelDuration ModelTypes ModelLisp ModelScan SpecScan ModelParser ModelAst ModelFormat SpecFormat ProofFormatTop
  ModelScore SpecScore ModelGen SpecGen ModelImporter ModelMusicXml SpecImporter SpecMusicXml SpecXmlScore ProofGen4 SpecWritten ProofWritten5 ProofWritten6 ProofWritten7 ProofWritten8.
From Verif Require PropertiesXmlScore.
Import ListNotations.
Local Open Scope string_scope.
Local Open Scope list_scope.
Local Open Scope Z_scope.

(** C69: a score of the kind that the importer makes becomes a tree and then a text,
    in any layout, and the text compiles to the updates of the score as it reads:
    nothing is lost, split, joined or reordered by the way. *)
Theorem C69_text : forall {N : Num} (fmt : num -> list rune) cfg (order : list ModelPitch.letter), (forall l, In l order) ->
  forall ps, blank_text (c_indent cfg) -> Forall (plain_part fmt) ps ->
  exists a text us, generate order (score_updates ps) = ROk a /\ format fmt cfg a = Some text /\ compile text = ROk us /\
    Forall2 reads_as (score_updates (map part_read ps)) us.
Proof. exact @c69_text. Qed.
Print Assumptions C69_text.
(** A piano part with a key, a transposition, a dynamic marking, tied and slurred
    notes, chords, barlines and two voices. *)
Example C69_text_inhabited :
  (forall l, In l all7) /\ blank_text (c_indent default_config) /\ Forall (plain_part int_text) [prelude_part] /\
  List.length (score_updates [prelude_part]) = 21%nat /\ List.length (score_updates (map part_read [prelude_part])) = 19%nat.
Proof.
  split; [exact all7_ok|]. split; [exact default_blank|]. split; [constructor; [exact prelude_plain|constructor]|].
  split; vm_compute; reflexivity.
Qed.

(** The text does not always give the very updates that were written. *)
Theorem C69_exactly_refuted : exists ps, Forall (plain_part int_text) ps /\
  exists a text us, generate all7 (score_updates ps) = ROk a /\ format int_text default_config a = Some text /\ compile (N := XQ) text = ROk us /\
    List.length us <> List.length (score_updates ps).
Proof. exact c69_exactly_refuted. Qed.
Print Assumptions C69_exactly_refuted.

(** C69: played after anything that leaves no global attribute pending, the text gives
    the very notes that the score gives, and the same result; only barlines in a
    part's last written length can differ afterwards. *)
Theorem C69_plays : forall (fmt : xq -> list rune) cfg (order : list ModelPitch.letter) ps (s : @score XQ), (forall l, In l order) ->
  blank_text (c_indent cfg) -> Forall (plain_part fmt) ps -> Forall in_range (score_updates ps) -> ga_offs (globals s) = [] ->
  exists a txt us, generate order (score_updates ps) = ROk a /\ format fmt cfg a = Some txt /\ compile txt = ROk us /\
    let r := exec (SpecImporter.text_of (score_updates ps)) s in
    let r' := exec us s in
    events (fst r) = events (fst r') /\ snd r = snd r' /\ same_so_far (fst r) (fst r').
Proof. exact c69_plays. Qed.
Print Assumptions C69_plays.
Example C69_plays_inhabited :
  Forall (plain_part int_text) [prelude_part] /\ Forall in_range (score_updates [prelude_part]) /\ ga_offs (globals (@new_score XQ)) = [] /\
  snd (exec (SpecImporter.text_of (score_updates [prelude_part])) (@new_score XQ)) = Ok /\
  List.length (events (fst (exec (SpecImporter.text_of (score_updates [prelude_part])) (@new_score XQ)))) = 7%nat.
Proof.
  split; [constructor; [exact prelude_plain|constructor]|]. split; [exact prelude_in_range|]. split; [reflexivity|].
  split; vm_compute; reflexivity.
Qed.

(** C69: a document that C56 covers is imported, and if its updates are of the kind
    above, its text is made and plays the notes of the document. *)
Theorem C69_document : forall M other part_order voice_order feq doc l (fmt : xq -> list rune) cfg (order : list ModelPitch.letter),
  1 <= M <= 24 -> (forall k vs, Permutation vs (voice_order k vs)) -> (forall x y, feq x y = true -> x = y) ->
  (forall x, In x order) -> blank_text (c_indent cfg) -> read_score M doc = Some l ->
  exists us, import_music_xml other part_order voice_order feq doc = ROk us /\
    forall ps : list (@wpart XQ), us = score_updates ps -> Forall (plain_part fmt) ps -> Forall in_range us ->
    exists a txt us', generate order us = ROk a /\ format fmt cfg a = Some txt /\ compile txt = ROk us' /\
      let r := exec us' new_score in
      snd r = Ok /\ Permutation (map (as_heard (fst r)) (events (fst r))) (map (in_ms M) l).
Proof. exact c69_document. Qed.
Print Assumptions C69_document.
(** The duo of C56: its import is of that kind. *)
Example C69_document_inhabited :
  read_score 12 PropertiesXmlScore.ex_duo <> None /\
  exists us, import_music_xml (N := XQ) PropertiesXmlScore.no_float (fun _ l => rev l) (fun _ l => rev l) neqb PropertiesXmlScore.ex_duo = ROk us /\
    exists ps, us = score_updates ps /\ Forall (plain_part int_text) ps /\ Forall in_range us.
Proof.
  split; [vm_compute; discriminate|].
  assert (E : match import_music_xml (N := XQ) PropertiesXmlScore.no_float (fun _ l => rev l) (fun _ l => rev l) neqb PropertiesXmlScore.ex_duo with ROk us => written_b us | _ => false end = true) by (vm_compute; reflexivity).
  destruct (import_music_xml _ _ _ _ _) as [us|?|?]; [|discriminate E|discriminate E]. exists us. split; [reflexivity|]. now apply written_ok.
Qed.
