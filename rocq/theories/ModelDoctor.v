(** Model of how `alda doctor` installs the player (client/cmd/doctor.go, update.go). *)
From Coq Require Import String Ascii ZArith List Bool.
From Verif Require Import Base ModelScan ModelUpdate ModelPrompt.
Import ListNotations.
Local Open Scope string_scope.
Local Open Scope list_scope.

Section Doctor.
(** As in ModelPrompt.v. *)
Variable other_blank : rune -> bool.
Variable other_lower : rune -> rune.
Variable platform : string.
(** fetchReleaseInfo(generated.ClientVersion) (update.go:439-463): the release of the
    version of `alda` itself. *)
Variable answer : res json.

(** update.go:486-520, installCorrectAldaPlayerVersion, up to the file to install. *)
Definition is_player (a : asset) : bool := String.eqb (a_name a) "alda-player" || String.eqb (a_name a) "alda-player.exe".
Definition player_asset : res asset :=
  rbind answer (fun release => rbind (version_assets platform (Some release)) (fun assets =>
    let a := fold_left (fun found a => if is_player a then a else found) assets (Asset "" "" "") in
    if String.eqb (a_name a) "" then RErr "the release seems to be missing an alda-player asset" else ROk a)).

(** doctor.go:231-244 and 273-297: the question, then the installation. [works]: whether
    downloading and installing (C62) succeeds. The files that were to be installed,
    and whether the doctor goes on. *)
Definition offer (input : list rune) (works : bool) : list asset * bool :=
  match ask other_blank other_lower true input with
  | Answered true => match player_asset with ROk a => ([a], works) | RErr _ | RPanic _ => ([], false) end
  | Answered false | Crashed => ([], false)
  end.

(** AldaPlayerPath (system/process_management.go:464-499): not found, an error, or
    whether the player has the version of `alda`. *)
Inductive finding := NotFound | Failed | Found (same_version : bool).

(** doctor.go:223-302, the two steps about the player. [first] and [second]: what is
    found before and after an installation; [in1] and [in2]: what each of the
    questions reads. *)
Definition doctor_player (first second : finding) (in1 in2 : list rune) (works1 works2 : bool) : list asset * bool :=
  let '(l, found) :=
    match first with
    | NotFound => let '(l, ok) := offer in1 works1 in (l, if ok then second else Failed)
    | f => ([], f)
    end in
  match found with
  | Found true => (l, true)
  | Found false => let '(l2, ok) := offer in2 works2 in (l ++ l2, ok)
  | NotFound | Failed => (l, false)
  end.
End Doctor.
