(** Property theorems C66: telemetry. *)
From Coq Require Import String List Bool Ascii.
From Verif Require Import ModelTelemetry SpecTelemetry ProofTelemetry.
Import ListNotations.
Local Open Scope string_scope.
Local Open Scope list_scope.

(** C66: however commands overlap, fail or are killed: before anything is sent, the
    notice has been shown or telemetry asked for; what is sent names the system,
    the version and the command, nothing else; asking for help, using alda wrongly
    and `alda` alone send nothing. *)
Theorem C66_sent : forall b ls s es before i r after, history b fresh ls = Some (s, es) -> es = before ++ (i, Sent r) :: after ->
  aware before /\ exists c name, In (i, Started c false) before /\ runs c name /\ name <> "alda" /\
    r = [("os", b_os b); ("arch", b_arch b); ("version", b_version b); ("command", name)].
Proof. exact c66_sent. Qed.
Print Assumptions C66_sent.

(** C66: a command run with ALDA_DISABLE_TELEMETRY=yes sends nothing and shows no notice. *)
Theorem C66_silent : forall b ls s es i c, history b fresh ls = Some (s, es) -> In (i, Started c true) es ->
  ~ In (i, Noticed) es /\ forall r, ~ In (i, Sent r) es.
Proof. exact c66_silent. Qed.
Print Assumptions C66_silent.

(** C66: once telemetry is disabled and nothing is running, nothing is sent and it
    stays disabled, however many commands run at the same time and are killed, as
    long as the setting is not changed and can be read. *)
Theorem C66_off : forall b s ls s' es, quiet s -> s_file s = Some "disabled" ->
  (forall c x status, In (Starts c x) ls -> ~ changes c status) -> (forall i o, In (Runs i o) ls -> o = Good) ->
  history b s ls = Some (s', es) -> s_file s' = Some "disabled" /\ forall i, ~ In (i, Noticed) es /\ forall r, ~ In (i, Sent r) es.
Proof. exact c66_off. Qed.
Print Assumptions C66_off.

(** C66: if `alda telemetry --disable` (or --enable), run alone, reports the
    setting, the setting has been made, whatever fails. *)
Theorem C66_set : forall b s c status x ls s' es i st, quiet s -> changes c status -> (forall c' y, ~ In (Starts c' y) ls) ->
  history b s (Starts c x :: ls) = Some (s', es) -> In (i, Reported st) es -> st = status /\ s_file s' = Some status.
Proof. exact c66_set. Qed.
Print Assumptions C66_set.

Definition linux : build := Build "linux" "amd64" "2.3.1".
Definition good (i n : nat) : list label := repeat (Runs i Good) n.
Definition disable : command := Telemetry false true.
Definition play_it : command := Plain "play" ["-f"; "secret.alda"] 0.
Definition ended (file : string) : system := System (Some file) [Process play_it false Begin [] None].
(** Two players, one of which is asked to be silent; then telemetry is disabled. *)
Example C66_example :
  (exists s es, history linux fresh (Starts play_it false :: Starts play_it true :: good 0 8 ++ good 1 2 ++ [Posts 0]) = Some (s, es) /\
     es = [(0, Started play_it false); (1, Started play_it true); (0, Noticed)]
       ++ [(0, Sent [("os", "linux"); ("arch", "amd64"); ("version", "2.3.1"); ("command", "play")])]) /\
  (exists s es, history linux (ended "disabled") (Starts play_it false :: Starts (Usage 1) false :: good 1 6 ++ good 2 6) = Some (s, es) /\
     es = [(1, Started play_it false); (2, Started (Usage 1) false)]) /\
  (exists s es, history linux (ended "enabled") (Starts disable false :: good 1 10) = Some (s, es) /\
     es = [(1, Started disable false); (1, Reported "disabled")]) /\
  quiet (ended "disabled") /\ changes disable "disabled".
Proof.
  repeat split; try (eexists; eexists; split; vm_compute; reflexivity); try constructor; destruct H as [<-|[]]; reflexivity.
Qed.

(** The very command that disables telemetry reports itself, if it is the first one. *)
Theorem C66_first_refuted : exists ls s es, history linux fresh (Starts disable false :: ls) = Some (s, es) /\ (forall c x, ~ In (Starts c x) ls) /\
  s_file s = Some "disabled" /\ exists r, In (0, Sent r) es.
Proof.
  exists (good 0 12 ++ [Posts 0]). eexists; eexists. split; [vm_compute; reflexivity|].
  split; [cbn; intuition discriminate|]. split; [reflexivity|]. eexists. right; right; right; left; reflexivity.
Qed.
Print Assumptions C66_first_refuted.

(** A setting written with an editor, which adds a newline, does not count: the
    next command enables telemetry and sends a request.  So it is if the file cannot
    be read once. *)
Definition with_newline : string := "disabled" ++ String "010" "".
Theorem C66_unreadable_refuted :
  (exists ls s es r, history linux (ended with_newline) (Starts play_it false :: ls) = Some (s, es) /\ (forall c x, ~ In (Starts c x) ls) /\
     s_file s = Some "enabled" /\ In (1, Sent r) es) /\
  (exists ls s es r, history linux (ended "disabled") (Starts play_it false :: ls) = Some (s, es) /\ (forall c x, ~ In (Starts c x) ls) /\
     s_file s = Some "enabled" /\ In (1, Sent r) es).
Proof.
  split.
  - exists (good 1 9 ++ [Posts 1]). do 3 eexists. split; [vm_compute; reflexivity|].
    split; [cbn; intuition discriminate|]. split; [reflexivity|]. right; right; left; reflexivity.
  - exists (good 1 2 ++ Runs 1 (Bad 0) :: good 1 6 ++ [Posts 1]). do 3 eexists. split; [vm_compute; reflexivity|].
    split; [cbn; intuition discriminate|]. split; [reflexivity|]. right; right; left; reflexivity.
Qed.
Print Assumptions C66_unreadable_refuted.

(** A command that was already running when telemetry was disabled may enable it
    again: a command started after that sends a request. *)
Theorem C66_race_refuted : exists ls s es ls' s' es', history linux fresh ls = Some (s, es) /\ In (1, Started disable false) es /\ In (1, Reported "disabled") es /\
  s_file s = Some "disabled" /\ (forall c x, In (Starts c x) (ls ++ ls') -> c <> Telemetry true false) /\
  history linux s ls' = Some (s', es') /\ exists r, In (2, Started play_it false) es' /\ In (2, Sent r) es'.
Proof.
  exists (Starts play_it false :: good 0 2 ++ Starts disable false :: good 1 12). do 2 eexists.
  exists (good 0 3 ++ Starts play_it false :: good 2 6 ++ [Posts 2]). do 2 eexists. split; [vm_compute; reflexivity|].
  split; [right; left; reflexivity|]. split; [right; right; right; left; reflexivity|]. split; [reflexivity|].
  split; [cbn; unfold play_it, disable; intuition congruence|]. split; [vm_compute; reflexivity|]. eexists. split; [right; left; reflexivity|right; right; left; reflexivity].
Qed.
Print Assumptions C66_race_refuted.

(** So may one that runs while telemetry is disabled again: it may find the file
    empty. *)
Theorem C66_overlap_refuted : exists ls s es r, history linux (ended "disabled") ls = Some (s, es) /\ (forall c x, In (Starts c x) ls -> c <> Telemetry true false) /\
  (forall i o, In (Runs i o) ls -> o = Good) /\ In (1, Reported "disabled") es /\ In (2, Sent r) es /\ s_file s = Some "enabled".
Proof.
  exists (Starts disable false :: good 1 8 ++ Starts play_it false :: good 2 4 ++ good 1 2 ++ good 2 5 ++ [Posts 2]). do 3 eexists. split; [vm_compute; reflexivity|].
  split; [cbn; unfold play_it, disable; intuition congruence|]. split; [cbn; intuition congruence|].
  split; [|split; [|reflexivity]]; cbn; intuition reflexivity.
Qed.
Print Assumptions C66_overlap_refuted.
