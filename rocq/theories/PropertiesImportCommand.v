(** Property theorems C70: `alda import`. *)
From Coq Require Import String Ascii ZArith List Bool Permutation.
From Verif Require Import Base Num ModelPitch ModelDuration ModelInstruments ModelTypes ModelLisp ModelScan SpecScan ModelParser SpecParser ModelAst ModelFormat SpecFormat ProofFormatTop
  ModelScore SpecScore ModelGen SpecGen ModelImporter ModelMusicXml SpecImporter SpecMusicXml SpecXmlScore ProofGen4 SpecWritten ProofWritten6 ProofWritten8
  ModelImportCommand SpecImportCommand ProofImportCommand.
From Verif Require PropertiesXmlScore.
Import ListNotations.
Local Open Scope string_scope.
Local Open Scope list_scope.
Local Open Scope Z_scope.

(** C70: given a document of C56 whose import is of C69's kind, in a file, a text or
    piped in, a run that succeeds has put a text that plays the notes of the document
    out or into the output file, and it succeeds if nothing fails; at all times the
    output file is as before or contains the start of that text. *)
Theorem C70_imports : forall M fmt xml other part_order voice_order feq key_order g v b doc l,
  1 <= M <= 24 -> (forall k vs, Permutation vs (voice_order k vs)) -> (forall x y, feq x y = true -> x = y) -> (forall x : ModelPitch.letter, In x key_order) ->
  m_format g = "musicxml" -> given g v b -> xml b = Some doc -> read_score M doc = Some l ->
  (forall us, import_music_xml other part_order voice_order feq doc = ROk us -> writable fmt us) ->
  let r := import_command (N := XQ) fmt xml other part_order voice_order feq key_order g v in
  exists t, text_plays t (map (in_ms M) l) /\
    (n_succeeds r = true ->
     if String.eqb (m_output g) "" then n_output r = t else n_output r = [] /\ in_the_end v r (m_output g) = Some t) /\
    (m_output g = "" \/ v_opens v (m_output g) = true -> v_fails v = None -> n_succeeds r = true) /\
    (forall fs, In fs (n_states r) -> fs (m_output g) = v_files v (m_output g) \/ exists c rest, fs (m_output g) = Some c /\ t = c ++ rest).
Proof. exact c70_imports. Qed.
Print Assumptions C70_imports.

(** C70: no file but the output file is ever changed, none at all without -o, and
    nothing is changed or put out if the format is not the supported one, no data can
    be read, it is not a document, the importer does not accept it, or the output
    file cannot be opened. *)
Theorem C70_untouched : forall {N : Num} {G : GNum N} (fmt : num -> list rune) xml other part_order voice_order feq key_order g v,
  let r := import_command fmt xml other part_order voice_order feq key_order g v in
  (forall fs p, In fs (n_states r) -> p <> m_output g -> fs p = v_files v p) /\
  (m_output g = "" -> n_states r = [v_files v]) /\
  (~ (m_format g = "musicxml" /\ exists b doc us, given g v b /\ xml b = Some doc /\ import_music_xml other part_order voice_order feq doc = ROk us) \/
   (m_output g <> "" /\ v_opens v (m_output g) = false) ->
   n_states r = [v_files v] /\ n_output r = [] /\ n_succeeds r = false).
Proof. exact @c70_untouched. Qed.
Print Assumptions C70_untouched.

(** The duo of C56 in a file, written over another file. *)
Definition duo_data : list rune := runes "<score-partwise>...</score-partwise>".
Definition duo_xml (t : list rune) : option (list elem) := if list_eq_dec Z.eq_dec t duo_data then Some PropertiesXmlScore.ex_duo else None.
Definition duo_flags : import_flags := ImportFlags "musicxml" "duo.musicxml" [] "duo.alda".
Definition duo_files : files := put (put (fun _ => None) "duo.musicxml" duo_data) "duo.alda" (runes "piano: c").
Definition duo_env (fails : option nat) : import_env := ImportEnv duo_files (fun _ => true) (fun _ => true) None fails.
Definition duo_run (fails : option nat) : import_run :=
  import_command (N := XQ) int_text duo_xml PropertiesXmlScore.no_float (fun _ l => rev l) (fun _ l => rev l) neqb all7 duo_flags (duo_env fails).
Example C70_imports_inhabited :
  given duo_flags (duo_env None) duo_data /\ duo_xml duo_data = Some PropertiesXmlScore.ex_duo /\ read_score 12 PropertiesXmlScore.ex_duo <> None /\
  (forall us, import_music_xml (N := XQ) PropertiesXmlScore.no_float (fun _ l => rev l) (fun _ l => rev l) neqb PropertiesXmlScore.ex_duo = ROk us -> writable int_text us) /\
  n_succeeds (duo_run None) = true /\ (1 < List.length (n_states (duo_run None)))%nat.
Proof.
  split; [left; split; [discriminate|split; reflexivity]|]. split; [vm_compute; reflexivity|]. split; [vm_compute; discriminate|]. split.
  - assert (E : match import_music_xml (N := XQ) PropertiesXmlScore.no_float (fun _ l => rev l) (fun _ l => rev l) neqb PropertiesXmlScore.ex_duo with ROk us => written_b us | _ => false end = true) by (vm_compute; reflexivity).
    intros us H. rewrite H in E. exact (written_ok us E).
  - split; [vm_compute; reflexivity|]. apply PeanoNat.Nat.ltb_lt. vm_compute. reflexivity.
Qed.
Example C70_untouched_inhabited :
  m_output duo_flags <> "" /\ "duo.musicxml" <> m_output duo_flags /\ ~ (m_format (ImportFlags "midi" "" [] "") = "musicxml").
Proof. repeat split; discriminate. Qed.

(** An existing output file is replaced without asking, and lost if the disk is full
    or the command is killed then. *)
Theorem C70_existing_refuted : exists g v, v_files v (m_output g) = Some (runes "piano: c") /\
  let r := import_command (N := XQ) int_text duo_xml PropertiesXmlScore.no_float (fun _ l => rev l) (fun _ l => rev l) neqb all7 g v in
  n_succeeds r = false /\ in_the_end v r (m_output g) = Some [].
Proof. exists duo_flags, (duo_env (Some 0%nat)). split; [reflexivity|]. split; vm_compute; reflexivity. Qed.
Print Assumptions C70_existing_refuted.
