(** Property theorems C55. *)
From Coq Require Import ZArith QArith Qabs Qcanon Ascii String List Bool.
From Verif Require Import Base Num ModelPitch ModelDuration ModelInstruments ModelTypes ModelLisp ModelScore ModelImporter ModelMusicXml
  SpecScore SpecImporter SpecMusicXml ProofXmlDur2.
Import ListNotations.
Local Open Scope string_scope.
Local Open Scope list_scope.
Local Open Scope Z_scope.

(** C55: an element of [d] divisions, in a part with up to 24 divisions per
    quarter note, is given an Alda duration of exactly as many quarter notes.
    Numbers that are not strings of digits are read by [other]. *)
Theorem C55_exact :
  forall other e (p : @xpart XQ) d,
  units e = Some d -> 1 <= d -> 1 <= p_div p <= 24 ->
  (dots e = 0 -> d <= 40000 * p_div p) -> (0 < dots e -> 2 ^ dots e * d < 10000) ->
  exists du, translate_duration other e p = ROk du /\ dur_valid du = true /\
             lasts du (inject_Z d / inject_Z (p_div p)).
Proof. exact c55_exact. Qed.
Print Assumptions C55_exact.

(** C55: with any number of divisions, the duration is off by less than a
    twenty-fourth of a quarter note. *)
Theorem C55_close :
  forall other e (p : @xpart XQ) d,
  units e = Some d -> 1 <= d <= 40000 * p_div p -> dots e <= 2147483647 ->
  exists du q, translate_duration other e p = ROk du /\ dur_valid du = true /\ lasts du q /\
               (Qabs (q - inject_Z d / inject_Z (p_div p)) < 1 # 24)%Q.
Proof. exact c55_close. Qed.
Print Assumptions C55_close.

Definition leaf (t x : string) : elem := Elem t [] x [].
Definition node (t : string) (cs : list elem) : elem := Elem t [] "" cs.
Definition in_divisions (n : Z) : @xpart XQ := set_div n new_part.
(** five of seven parts of a quarter note; a double-dotted note; a long one *)
Definition ex_fifths : elem := node "note" [leaf "rest" ""; leaf "duration" "5"].
Definition ex_dotted : elem := node "note" [leaf "rest" ""; leaf "duration" "42"; leaf "dot" ""; leaf "dot" ""].
Definition ex_long : elem := node "note" [leaf "rest" ""; leaf "duration" "1002"].
Definition no_float (s : string) : @num XQ := n0.
(** the components of a duration, with their lengths as fractions *)
Definition shown (d : res (@duration XQ)) : list (Z * positive * Z) :=
  match d with
  | ROk d => map (fun c => match c with CLen (Fin q) k => (Qnum (this q), Qden (this q), k) | _ => (0, xH, 0) end) (dcomps d)
  | _ => []
  end.

Example C55_exact_ex :
  (units ex_fifths = Some 5 /\ dots ex_fifths = 0) /\ shown (translate_duration no_float ex_fifths (in_divisions 7)) = [(28, 5%positive, 0)] /\
  (units ex_dotted = Some 42 /\ dots ex_dotted = 2) /\ shown (translate_duration no_float ex_dotted (in_divisions 24)) = [(4, 1%positive, 2)] /\
  units ex_long = Some 1002 /\ List.length (shown (translate_duration no_float ex_long (in_divisions 24))) = 13%nat.
Proof. vm_compute. repeat split; reflexivity. Qed.

(** Beyond 24 divisions some durations are off: 101 divisions of a
    twenty-fifth of a quarter note become a whole note. *)
Theorem C55_fine_refuted :
  exists e (p : @xpart XQ), units e = Some 101 /\ dots e = 0 /\ p_div p = 25 /\
  shown (translate_duration no_float e p) = [(1, 1%positive, 0)].
Proof. exact (ex_intro _ (node "note" [leaf "duration" "101"]) (ex_intro _ (in_divisions 25) (conj eq_refl (conj eq_refl (conj eq_refl eq_refl))))). Qed.
Print Assumptions C55_fine_refuted.

(** A note of more than forty thousand quarter notes hangs the importer: the
    loop that splits its duration up does not end. *)
Theorem C55_too_long_refuted :
  forall e (p : @xpart XQ) d, units e = Some d -> 1 <= p_div p -> 40000 * p_div p < d ->
  forall fuel, decompose fuel [1; 2; 4; 8; 16] (round_close (ndiv (nmul (@nofZ XQ 4) (nofZ (p_div p))) (nofZ d))) = None.
Proof. exact c55_too_long. Qed.
Print Assumptions C55_too_long_refuted.

Example C55_too_long_ex : units (node "note" [leaf "duration" "80001"]) = Some 80001 /\ 40000 * p_div (in_divisions 2) < 80001.
Proof. vm_compute. split; reflexivity. Qed.

(** The number of divisions is read as an 8-bit integer: in a file with 480 to
    the quarter note, the usual choice of MIDI programs, a quarter note plays
    for 1890 milliseconds at 120 bpm. *)
Definition ex_480 : list elem :=
  [node "score-partwise"
    [node "part-list" [Elem "score-part" [("id", "P1")] "" []];
     Elem "part" [("id", "P1")] "" [node "measure"
       [node "attributes" [leaf "divisions" "480"];
        node "note" [node "pitch" [leaf "step" "G"; leaf "octave" "4"]; leaf "duration" "480"; leaf "voice" "1"]]]]].
Definition lengths_played (doc : list elem) : list Z :=
  match import_music_xml (N := XQ) no_float (fun _ l => l) (fun _ l => l) neqb doc with
  | ROk us => map (fun e => xq_round32 (ev_dur e)) (events (fst (exec (text_of us) new_score)))
  | _ => []
  end.
Theorem C55_divisions_refuted : exists doc, lengths_played doc = [1890] /\ doc = ex_480.
Proof. exact (ex_intro _ ex_480 (conj (@eq_refl (list Z) [1890] <: lengths_played ex_480 = [1890]) eq_refl)). Qed.
Print Assumptions C55_divisions_refuted.
