(** Property theorems C75: finding the player. *)
From Coq Require Import String Ascii ZArith List Bool Lia.
From Verif Require Import Base ModelScan ModelDoctor ModelPlayerVersion SpecPlayerVersion ProofPlayerVersion.
Import ListNotations.
Local Open Scope string_scope.
Local Open Scope list_scope.
Local Open Scope Z_scope.

(** C75: the player counts as found exactly if it is on the PATH, runs and says its version
    somewhere in its output, and as the right one exactly if the first version that
    it says, to the end of the line, is that of the client. *)
Theorem C75_finding : forall client on_path info same, alda_player_path client on_path info = Found same <->
  on_path = true /\ exists out v, info = Some out /\ says_version out v /\ (same = true <-> v = client).
Proof. exact c75_finding. Qed.
Print Assumptions C75_finding.
(** It counts as missing, so that installing it is offered, exactly if it is not on the PATH. *)
Theorem C75_missing : forall client on_path info, alda_player_path client on_path info = NotFound <-> on_path = false.
Proof. exact c75_missing. Qed.
Print Assumptions C75_missing.
(** What the player prints (player/src/main/kotlin/io/alda/player/Main.kt:47-50), with any
    version and log path and with either kind of line end, is understood. *)
Theorem C75_agrees : forall client version path cr, version <> [] -> Forall (fun r => ~ line_end r) version -> cr = [] \/ cr = [13] ->
  alda_player_path client true (Some (runes "alda-player " ++ version ++ cr ++ 10 :: runes "log path: " ++ path ++ cr ++ [10])) =
  Found (if list_eq_dec Z.eq_dec version client then true else false).
Proof. exact c75_agrees. Qed.
Print Assumptions C75_agrees.

Definition printed : list rune := runes "alda-player 2.3.1" ++ 10 :: runes "log path: /home/alda-player 2/logs" ++ [10].
Example C75_inhabited : alda_player_path (runes "2.3.1") true (Some printed) = Found true /\ says_version printed (runes "2.3.1") /\
  alda_player_path (runes "2.3") true (Some printed) = Found false /\ alda_player_path (runes "2.3") true (Some (runes "alda-player" ++ [10])) = Failed.
Proof. split; [reflexivity|]. split; [apply c75_version; reflexivity|]. split; reflexivity. Qed.
