(** Property theorems C62. *)
From Coq Require Import ZArith Ascii String List Bool Arith.
From Verif Require Import Base ModelUpdate SpecUpdate ProofUpdate.
Import ListNotations.
Local Open Scope string_scope.
Local Open Scope list_scope.

(** C62: whenever `alda update` stops, for whatever reason, and whatever other
    `alda` commands clean up meanwhile, files that are neither Alda's programs nor
    look like old ones are as they were. *)
Theorem C62_others : forall served windows d assets, release_of_alda assets -> forall cs m n,
  happens served windows d assets cs m -> ~ In n (map a_name assets) -> ~ mentions_old n -> look n (m_dir m) = look n d.
Proof. exact upd_others. Qed.
Print Assumptions C62_others.

(** C62: and under a program's name there is nothing, the old version, or the new
    one, which can be executed only once it is complete. *)
Theorem C62_whole : forall served windows d assets, release_of_alda assets -> forall cs m a f,
  happens served windows d assets cs m -> In a assets -> look (a_name a) (m_dir m) = Some f ->
  look (a_name a) d = Some f \/ becoming served windows a f.
Proof. exact upd_whole. Qed.
Print Assumptions C62_whole.

(** C62: when it has succeeded, all programs are the new ones. *)
Theorem C62_done : forall served windows d assets, release_of_alda assets -> forall cs m a,
  happens served windows d assets cs m -> succeeded m -> In a assets ->
  a_type a = "executable" /\ look (a_name a) (m_dir m) = Some (File (served (a_url a)) (negb windows)).
Proof. exact upd_done. Qed.
Print Assumptions C62_done.

(** C62: when downloading fails, no program has been touched. *)
Theorem C62_download : forall served windows d assets pre post m n, Forall cleaning pre ->
  happens served windows d assets (pre ++ Fails :: post) m ->
  m_failed m = true /\ (~ mentions_old n -> look n (m_dir m) = look n d).
Proof. exact upd_download. Qed.
Print Assumptions C62_download.

(** C62: as long as no `alda` command cleans up, each old version is still there,
    in its place or renamed. *)
Theorem C62_kept : forall served windows d assets, release_of_alda assets -> forall cs m a f,
  happens served windows d assets cs m -> ~ In Lists cs -> In a assets -> look (a_name a) d = Some f ->
  look (a_name a) (m_dir m) = Some f \/
  exists t r, decimal_number t /\ decimal_number r /\ look (renamed_executable (a_name a) t r) (m_dir m) = Some f.
Proof. exact upd_kept. Qed.
Print Assumptions C62_kept.

(** C62: cleaning up removes the files that look like old programs, and no others. *)
Theorem C62_cleaned : forall served assets m, exists m', acts served assets (cleanup m) m = Some m' /\ m_todo m' = m_todo m /\ m_failed m' = m_failed m /\
  forall n, (mentions_old n -> look n (m_dir m') = None) /\ (~ mentions_old n -> look n (m_dir m') = look n (m_dir m)).
Proof. exact cleaned. Qed.
Print Assumptions C62_cleaned.

(** C62: what is installed is the release selected, and only if confirmed. *)
Theorem C62_choice : forall platform yes latest selected assets, to_install platform yes None latest selected = ROk assets -> assets <> [] ->
  yes = true /\ exists answer releases r, latest = ROk answer /\ children (field "releases" (Some answer)) = Some releases /\ In r releases /\
    (releases = [r] \/ release_label r = selected) /\ version_assets platform (Some r) = ROk assets.
Proof. exact chosen. Qed.
Print Assumptions C62_choice.

(** Two releases; 2.3.1 is selected and installed, an `alda` command cleaning up in
    between. *)
Definition ex_asset (n u : string) : json := JObj [("name", JStr n); ("type", JStr "executable"); ("url", JStr u)].
Definition ex_release (v : string) (l : list json) : json :=
  JObj [("version", JStr v); ("date", JStr "2024-11-09"); ("assets", JObj [("linux-amd64", JArr l)])].
Definition ex_answer : json :=
  JObj [("releases", JArr [ex_release "2.3.1" [ex_asset "alda" "u1"; ex_asset "alda-player" "u2"]; ex_release "3.0.0" []])].
Definition ex_run : list choice :=
  [Lists] ++ first_done ++ [Works; Renames "1700000001" "7"; Lists; Works; Works; Cleans 1 true; Copies 2; Works; Fails; Works].
Definition ex_updated : machine :=
  Machine [("notes.txt", File [9]%Z false); ("alda", File [11; 12; 13]%Z true); ("alda-player.1700000001.7.old", File [3]%Z true); ("alda-player", File [21; 22]%Z true)]
    [("alda-player", [21; 22]%Z)] [] false [[]; ["alda-player.1700000001.7.old"]].
Example C62_example :
  to_install "linux-amd64" true None (ROk ex_answer) "Alda 2.3.1 (2024-11-09)" = ROk two /\ release_of_alda two /\
  happens serves false before_update two ex_run ex_updated /\ succeeded ex_updated /\ ~ In Lists first_done /\
  (exists m, happens serves false before_update two (first_done ++ [Works; Fails]) m /\
     m_dir m = [("alda-player", File [3]%Z true); ("notes.txt", File [9]%Z false); ("alda.1700000000.42.old", File [1; 2]%Z true); ("alda", File [11; 12; 13]%Z true)]) /\
  match acts serves two (cleanup ex_updated) ex_updated with Some m => map fst (m_dir m) | None => [] end = ["notes.txt"; "alda"; "alda-player"].
Proof.
  split; [vm_compute; reflexivity|]. split; [exact two_release|]. split; [vm_compute; reflexivity|]. split; [split; reflexivity|]. split; [cbn; intuition discriminate|].
  split; [|vm_compute; reflexivity]. eexists. split; vm_compute; reflexivity.
Qed.

(** C62: a program can be lost: the old `alda-player` is renamed, copying the new
    one fails, and the next `alda` command removes the old one. *)
Theorem C62_lost_refuted : exists served d assets cs m a f, release_of_alda assets /\ happens served false d assets cs m /\ In a assets /\ look (a_name a) d = Some f /\ f_exec f = true /\
  forall n g, look n (m_dir m) = Some g -> g <> f /\ ~ (f_exec g = true /\ f_bytes g = served (a_url a)).
Proof. exact lost_refuted. Qed.
Print Assumptions C62_lost_refuted.

(** C62: an update can fail half way, leaving a new `alda` with an old
    `alda-player`: types of assets are only looked at when their turn comes. *)
Theorem C62_half_refuted : exists served d assets cs m a b, release_of_alda assets /\ happens served false d assets cs m /\ m_failed m = true /\ m_todo m = [] /\ In a assets /\ In b assets /\
  look (a_name a) (m_dir m) = Some (File (served (a_url a)) true) /\ look (a_name a) (m_dir m) <> look (a_name a) d /\ look (a_name b) (m_dir m) = look (a_name b) d /\ look (a_name b) d <> None.
Proof. exact half_refuted. Qed.
Print Assumptions C62_half_refuted.

(** C62: a file of the user's can look like an old program. *)
Theorem C62_foreign_refuted : mentions_old "my-alda.2024.11.old-scores.zip".
Proof. exact foreign_refuted. Qed.
Print Assumptions C62_foreign_refuted.
