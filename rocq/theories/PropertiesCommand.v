(** Property theorems C65: the commands play, stop, shutdown and export. *)
From Coq Require Import ZArith String List Bool Ascii.
From Verif Require Import Base Num ModelPitch ModelDuration ModelInstruments ModelTypes ModelLisp ModelScan ModelAst ModelScore ModelOsc SpecGlobals ProofGlobals
  ModelPool ModelCommand SpecCommand ProofCommand.
Import ListNotations.
Local Open Scope string_scope.
Local Open Scope list_scope.
Local Open Scope Z_scope.

(** C65: `alda play` with a text sends the excerpt of its score, once, to one
    player that is meant, and succeeds; or it fails and no player gets anything. *)
Theorem C65_play : forall {N : Num} w l t acts e, transmitting w -> given w l t -> play w l = (acts, e) ->
  (e = Done /\ exists s s' port ms, score_of t s /\ meant w l port /\ transmits (Transmission (l_from l) (l_to l) 0 (-1) [] true false) s s' (ROk ms) /\
     packets acts = [(port, ms, true)]) \/
  (e <> Done /\ received acts = []).
Proof. exact @c65_played. Qed.
Print Assumptions C65_play.

(** C65: it does succeed if the text has a score, the excerpt exists, a player is
    meant and can be reached. *)
Theorem C65_plays : forall {N : Num} w l t s ms, l_args l = false -> given w l t -> score_of t s ->
  w_bundle w (Transmission (l_from l) (l_to l) 0 (-1) [] true false) s = ROk ms ->
  (exists port, meant w l port) -> (forall port, meant w l port -> w_delivers w 0 port = true) -> snd (play w l) = Done.
Proof. exact @c65_plays. Qed.
Print Assumptions C65_plays.

(** C65: `alda play` without a text tells the chosen player, or else every active
    one, to go on; at the first that cannot be reached it fails and leaves out the
    others. *)
Theorem C65_resume : forall {N : Num} w l acts e, l_args l = false -> no_text w l -> play w l = (acts, e) ->
  (exists ports, concerned w l active ports /\
     ((e = Done /\ packets acts = map (fun q => (q, [MPlay], true)) ports) \/
      (e = Fails /\ exists before q after, ports = before ++ q :: after /\ packets acts = map (fun q => (q, [MPlay], true)) before ++ [(q, [MPlay], false)]))) \/
  (e = Fails /\ packets acts = [] /\ forall ports, ~ concerned w l active ports).
Proof. exact @c65_resume. Qed.
Print Assumptions C65_resume.

(** C65: `alda stop` and `alda shutdown` tell the chosen player, or else every
    known one, exactly once, whether or not others can be reached. *)
Theorem C65_stop : forall {N : Num} w l acts e, stop w l = (acts, e) ->
  (e = Done /\ exists ports, concerned w l anyone ports /\ map fst (packets acts) = map (fun q => (q, [MStop])) ports) \/
  (e = Fails /\ packets acts = [] /\ forall ports, ~ concerned w l anyone ports).
Proof. exact (fun N w => @c65_tell N w _ _). Qed.
Print Assumptions C65_stop.
Theorem C65_shutdown : forall {N : Num} w l acts e, shutdown w l = (acts, e) ->
  (e = Done /\ exists ports, concerned w l anyone ports /\ map fst (packets acts) = map (fun q => (q, [MShutdown 0])) ports) \/
  (e = Fails /\ packets acts = [] /\ forall ports, ~ concerned w l anyone ports).
Proof. exact (fun N w => @c65_tell N w _ _). Qed.
Print Assumptions C65_shutdown.

(** C65: `alda export` loads the excerpt into one available player, asks it for the
    file and, whatever happens after loading, tells it to shut down at the end; or
    it fails and no player gets anything. *)
Theorem C65_export : forall {N : Num} w l t acts e, transmitting w -> given w l t -> export w l = (acts, e) ->
  (e <> Done /\ received acts = []) \/
  exists s s' p ms middle ok, score_of t s /\ available w p /\ transmits (Transmission (l_from l) (l_to l) 0 (-1) [] false true) s s' (ROk ms) /\
    packets acts = (p_port p, ms, true) :: middle ++ [(p_port p, [MShutdown 0], ok)] /\
    ((e = Fails /\ middle = []) \/
     exists f, ((l_output l <> "" /\ f = l_output l) \/ (l_output l = "" /\ w_tmp w = Some f)) /\
       ((e = Done /\ middle = [(p_port p, [MExport f], true)]) \/ (e = Fails /\ middle = [(p_port p, [MExport f], false)]))).
Proof. exact @c65_exported. Qed.
Print Assumptions C65_export.

(** C65: if the file was not there before, the start of the player's file, at
    least, is what `alda export` writes to its standard output; and it says that
    the file was written only if it was, and where it was asked for. *)
Theorem C65_output : forall {N : Num} w l t acts e before dir midi f, given w l t -> export w l = (acts, e) ->
  writes w before dir f midi -> ((l_output l <> "" /\ f = l_output l) \/ (l_output l = "" /\ w_tmp w = Some f)) ->
  before (resolve (w_cwd w) f) = None ->
  (forall c, In (Output c) acts -> l_output l = "" /\ exists rest, midi = c ++ rest) /\
  (forall x, In (Said ("Exported score to " ++ x)) acts -> x = l_output l /\ resolve (w_cwd w) f = resolve dir f).
Proof. exact @c65_output. Qed.
Print Assumptions C65_output.

(** Three players, of which two are playing and the first of these is gone. *)
Definition ex_players : list player := [Player "abc" "ready" 1; Player "bcd" "active" 2; Player "cde" "active" 3].
Definition ex_full : list ascii := list_ascii_of_string "MThd...".
Definition ex_world (input : stdin) (files : string -> list (option (list ascii))) : @world XQ :=
  World (fun _ => None) input (Some ex_players) None [None; Some (Player "abc" "ready" 1)] a_bundle (fun _ port => negb (port =? 2)) (Some "/tmp/x.mid") "/home" files.
Definition no_files (_ : string) : list (option (list ascii)) := [None; None].
Definition ex_line (code : string) : line := Line false "" (runes code) (-1) "" "" "" "midi" "".
Definition ports_of {A B} (l : list (Z * A * B)) : list (Z * B) := map (fun x => (fst (fst x), snd x)) l.
(** The export requests among the messages. *)
Definition exports_of {N : Num} (l : list (Z * list msg)) : list (Z * string) :=
  flat_map (fun x => flat_map (fun m => match m with MExport f => [(fst x, f)] | _ => [] end) (snd x)) l.
Definition ex_play : list action * ending := play (ex_world NoInput no_files) (ex_line "piano: c/e").
Example C65_example :
  transmitting (ex_world NoInput no_files) /\ given (ex_world NoInput no_files) (ex_line "piano: c/e") (runes "piano: c/e") /\
  meant (ex_world NoInput no_files) (ex_line "piano: c/e") 1 /\ snd ex_play = Done /\ ports_of (packets (fst ex_play)) = [(1, true)] /\
  no_text (ex_world NoInput no_files) (ex_line "") /\
  map fst (ports_of (packets (fst (stop (ex_world NoInput no_files) (ex_line ""))))) = [1; 2; 3].
Proof.
  split; [intros t s; apply a_bundle_ok, linear_XQ|]. split; [apply G_code; [reflexivity|discriminate]|].
  split; [right; split; [split; reflexivity|]; exists (Player "abc" "ready" 1); split; [right; right; left; reflexivity|reflexivity]|].
  split; [vm_compute; reflexivity|]. split; [vm_compute; reflexivity|]. split; [repeat split|vm_compute; reflexivity].
Qed.

(** An active player that cannot be reached keeps those after it silent. *)
Theorem C65_resume_refuted : exists (w : @world XQ) l ps p, no_text w l /\ undecided l /\ w_states w = Some ps /\ In p ps /\ p_state p = "active" /\
  (forall k, w_delivers w k (p_port p) = true) /\ ports_of (packets (fst (play w l))) = [(2, false)] /\ p_port p <> 2.
Proof.
  exists (ex_world NoInput no_files), (ex_line ""), ex_players, (Player "cde" "active" 3).
  split; [repeat split|]. split; [split; reflexivity|]. split; [reflexivity|]. split; [right; right; left; reflexivity|]. split; [reflexivity|].
  split; [reflexivity|]. split; [vm_compute; reflexivity|discriminate].
Qed.
Print Assumptions C65_resume_refuted.

(** Stopping succeeds although the player asked for was not reached. *)
Theorem C65_stop_refuted : exists (w : @world XQ) l, l_id l = "bcd" /\ snd (stop w l) = Done /\ received (fst (stop w l)) = [].
Proof.
  exists (ex_world NoInput no_files), (Line false "" [] (-1) "bcd" "" "" "midi" ""). split; [reflexivity|]. split; [vm_compute; reflexivity|].
  apply map_eq_nil with (f := fst). vm_compute. reflexivity.
Qed.
Print Assumptions C65_stop_refuted.

(** Exporting to a file named relative to the current directory, with a player
    started in another one: the player writes its file, complete, elsewhere; after
    the time is up, the command succeeds without the file. *)
Definition ex_export (output : string) : line := Line false "" (runes "piano: c/e") (-1) "" "" "" "midi" output.
Definition elsewhere (path : string) : list (option (list ascii)) := if String.eqb path "/work/a.mid" then [Some ex_full] else [None; None].
Theorem C65_elsewhere_refuted : exists (w : @world XQ) l dir midi, l_output l = "a.mid" /\ writes w (fun _ => None) dir "a.mid" midi /\
  In (Some midi) (w_opens w (resolve dir "a.mid")) /\ snd (export w l) = Done /\ exports_of (received (fst (export w l))) = [(1, "a.mid")] /\
  ~ In (Said ("Exported score to " ++ "a.mid")) (fst (export w l)) /\ await (w_opens w (resolve (w_cwd w) "a.mid")) = None.
Proof.
  exists (ex_world NoInput elsewhere), (ex_export "a.mid"), "/work", ex_full. split; [reflexivity|]. split.
  - intros path c. cbn [w_opens ex_world]. unfold elsewhere. destruct (String.eqb_spec path "/work/a.mid") as [->|_]; cbn [In].
    + intros [H|[]]. right. split; [reflexivity|]. exists []. rewrite app_nil_r. congruence.
    + intros [H|[H|[]]]; discriminate.
  - split; [left; reflexivity|]. split; [vm_compute; reflexivity|]. split; [vm_compute; reflexivity|]. split; [|reflexivity].
    rewrite in_said. vm_compute. intros H; repeat (destruct H as [H|H]; [discriminate|]); exact H.
Qed.
Print Assumptions C65_elsewhere_refuted.

(** The file is copied to the standard output as soon as there is one: what the
    player has not yet written is missing. *)
Definition growing (path : string) : list (option (list ascii)) := if String.eqb path "/tmp/x.mid" then [None; Some (firstn 4 ex_full)] else [None; None].
Theorem C65_partial_refuted : exists (w : @world XQ) l midi c, l_output l = "" /\ writes w (fun _ => None) "/work" "/tmp/x.mid" midi /\ w_tmp w = Some "/tmp/x.mid" /\
  snd (export w l) = Done /\ In (Output c) (fst (export w l)) /\ c <> midi.
Proof.
  exists (ex_world NoInput growing), (ex_export ""), ex_full, (firstn 4 ex_full). split; [reflexivity|]. split.
  - intros path c. cbn [w_opens ex_world]. unfold growing. destruct (String.eqb_spec path "/tmp/x.mid") as [->|_]; cbn [In].
    + intros [H|[H|[]]]; [discriminate|]. right. split; [reflexivity|]. exists (skipn 4 ex_full). assert (E : c = firstn 4 ex_full) by congruence. rewrite E. reflexivity.
    + intros [H|[H|[]]]; discriminate.
  - split; [reflexivity|]. split; [vm_compute; reflexivity|]. split; [|discriminate]. rewrite in_outputs. vm_compute. left; reflexivity.
Qed.
Print Assumptions C65_partial_refuted.

(** A file that is already there is taken for the exported one. *)
Definition existing (path : string) : list (option (list ascii)) := if String.eqb path "/home/a.mid" then [Some []] else [None; None].
Theorem C65_existing_refuted : exists (w : @world XQ) l old, l_output l = "a.mid" /\ writes w (fun p => if String.eqb p "/home/a.mid" then Some old else None) "/work" "a.mid" ex_full /\
  In (Said ("Exported score to " ++ "a.mid")) (fst (export w l)).
Proof.
  exists (ex_world NoInput existing), (ex_export "a.mid"), []. split; [reflexivity|]. split.
  - intros path c. cbn [w_opens ex_world]. unfold existing. destruct (String.eqb_spec path "/home/a.mid") as [->|_]; cbn [In].
    + intros [H|[]]. left. cbn. congruence.
    + intros [H|[H|[]]]; discriminate.
  - rewrite in_said. vm_compute. right; left; reflexivity.
Qed.
Print Assumptions C65_existing_refuted.
