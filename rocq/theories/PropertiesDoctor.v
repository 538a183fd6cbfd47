(** Property theorems C74: what the doctor installs. *)
From Coq Require Import String Ascii ZArith List Bool Lia.
From Verif Require Import Base ModelScan ModelUpdate ModelPrompt SpecPrompt ModelDoctor SpecDoctor ProofDoctor.
Import ListNotations.
Local Open Scope string_scope.
Local Open Scope list_scope.

(** C74: all that the doctor installs is the player of the release of `alda`'s own version,
    and only with consent: to the question about a missing player if it is missing, and
    to the one about versions if it has another version. The hypothesis is that of C73. *)
Theorem C74_player : forall other_blank other_lower,
  (forall r, (128 <= r)%Z -> (128 <= other_lower r)%Z \/ other_lower r = 105%Z \/ other_lower r = 107%Z) ->
  forall platform answer first second in1 in2 works1 works2 a,
  In a (fst (doctor_player other_blank other_lower platform answer first second in1 in2 works1 works2)) ->
  (exists release, answer = ROk release /\ player_of platform release a) /\
  ((first = NotFound /\ consent other_blank in1) \/ (first = Found false /\ consent other_blank in2)).
Proof. exact c74_player. Qed.
Print Assumptions C74_player.
(** If the player is missing or has another version, consent is enough. *)
Theorem C74_repairs : forall other_blank other_lower,
  (forall r, (128 <= r)%Z -> (128 <= other_lower r)%Z \/ other_lower r = 105%Z \/ other_lower r = 107%Z) ->
  forall platform answer release a, answer = ROk release -> player_of platform release a ->
  forall first second in1 in2 works1 works2, (first = NotFound /\ consent other_blank in1) \/ (first = Found false /\ consent other_blank in2) ->
  In a (fst (doctor_player other_blank other_lower platform answer first second in1 in2 works1 works2)).
Proof. exact c74_repairs. Qed.
Print Assumptions C74_repairs.
(** If the player is there and has the version of `alda`, nothing is installed and the
    doctor goes on, whatever is typed. *)
Theorem C74_healthy : forall other_blank other_lower platform answer second in1 in2 works1 works2,
  doctor_player other_blank other_lower platform answer (Found true) second in1 in2 works1 works2 = ([], true).
Proof. exact c74_healthy. Qed.
Print Assumptions C74_healthy.

Definition own_release : json :=
  JObj [("assets", JObj [("linux-amd64", JArr [
    JObj [("name", JStr "alda"); ("type", JStr "executable"); ("url", JStr "u")];
    JObj [("name", JStr "alda-player"); ("type", JStr "executable"); ("url", JStr "v")]])])].
Example C74_inhabited :
  doctor_player (fun _ => false) (fun r => r) "linux-amd64" (ROk own_release) NotFound (Found true) [10%Z] [] true true = ([Asset "alda-player" "executable" "v"], true) /\
  doctor_player (fun _ => false) (fun r => r) "linux-amd64" (ROk own_release) (Found false) Failed [] (runes "n" ++ [10%Z]) true true = ([], false) /\
  player_of "linux-amd64" own_release (Asset "alda-player" "executable" "v") /\ consent (fun _ => false) [10%Z].
Proof.
  split; [reflexivity|]. split; [reflexivity|]. split.
  - exists [Asset "alda" "executable" "u"], []. split; [reflexivity|]. split; [now left|constructor].
  - exists [], []. split; [exists []; split; [reflexivity|repeat constructor; intros []]|]. split; [constructor|]. left. split; [|reflexivity].
    exists [], [], []. split; [reflexivity|]. split; constructor.
Qed.
