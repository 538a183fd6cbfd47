(** Model of `alda update` (client/cmd/update.go), of the files it renames
    (client/system/dirs.go) and of the cleaning up that every `alda` command does in
    the background (client/cmd/root.go). *)
From Coq Require Import ZArith Ascii String List Bool Arith.
From Verif Require Import Base.
Import ListNotations.
Local Open Scope string_scope.
Local Open Scope list_scope.

(** ** What to install *)

(** JSON as the API answers it, decoded (github.com/Jeffail/gabs v2); numbers,
    booleans and null are not looked at. Keys of an object are distinct. *)
Inductive json := JStr (s : string) | JObj (fields : list (string * json)) | JArr (l : list json) | JOther.
(** Container.Search with one key: an absent container or key gives none; a list has
    no keys that are words. *)
Definition field (key : string) (j : option json) : option json :=
  match j with Some (JObj fields) => aget String.eqb key fields | _ => None end.
Definition text_of_json (j : option json) : option string := match j with Some (JStr s) => Some s | _ => None end.
(** Container.Children: also the values of an object. *)
Definition children (j : option json) : option (list json) :=
  match j with Some (JArr l) => Some l | Some (JObj fields) => Some (map snd fields) | _ => None end.

(** update.go:80-84 *)
Record asset := Asset { a_name : string; a_type : string; a_url : string }.

(** update.go:320-336, versionString and dateString. *)
Definition version_string (j : option json) : string :=
  match text_of_json (field "version" j) with Some s => s | None => "<unknown version>" end.
Definition date_string (j : option json) : string :=
  match text_of_json (field "date" j) with Some s => s | None => "<unknown date>" end.

(** update.go:353-380, one element of the list of assets. *)
Definition asset_of (j : json) : res asset :=
  match j with
  | JObj _ =>
    match text_of_json (field "name" (Some j)), text_of_json (field "type" (Some j)), text_of_json (field "url" (Some j)) with
    | Some n, Some t, Some u => ROk (Asset n t u)
    | _, _, _ => RErr "unexpected asset"
    end
  | _ => RErr "unexpected asset"
  end.
(** update.go:338-383, versionAssets. [platform] is GOOS-GOARCH. *)
Definition version_assets (platform : string) (release : option json) : res (list asset) :=
  match field platform (field "assets" release) with
  | Some (JArr l) => rmapl asset_of l
  | _ => RErr "no assets found"
  end.

(** update.go:465-484 promptAndInstallVersion and 385-397 installVersion, up to
    the assets to download and install: none if declined. [yes]: --yes, or the
    prompt is confirmed. *)
Definition install_version (platform : string) (yes : bool) (release : option json) : res (list asset) :=
  if yes then version_assets platform release else ROk [].

(** update.go:559-563, how a release is shown. *)
Definition release_label (release : json) : string :=
  ("Alda " ++ version_string (Some release) ++ " (" ++ date_string (Some release) ++ ")")%string.
(** update.go:553-579: the map from labels to releases; when the prompt is aborted
    the selection is empty, and so is the release. *)
Definition release_labelled (label : string) (releases : list json) : option json :=
  aget String.eqb label (rev (map (fun r => (release_label r, r)) releases)).

(** update.go:522-581 checkForUpdates, 583-597 the command. [wanted]: the answer
    about --version, if given; [latest]: the answer about the latest releases (errors
    are errors); [selected]: the label selected. *)
Definition check_for_updates (platform : string) (yes : bool) (latest : res json) (selected : string) : res (list asset) :=
  rbind latest (fun answer =>
    match children (field "releases" (Some answer)) with
    | None => RErr "unexpected Alda API response"
    | Some [] => ROk []
    | Some [release] => install_version platform yes (Some release)
    | Some releases => install_version platform yes (release_labelled selected releases)
    end).
Definition to_install (platform : string) (yes : bool) (wanted : option (res json)) (latest : res json) (selected : string) : res (list asset) :=
  match wanted with
  | Some answer => rbind answer (fun release => install_version platform yes (Some release))
  | None => check_for_updates platform yes latest selected
  end.

(** ** Names of old executables *)

Fixpoint drop_prefix (p l : list ascii) : option (list ascii) :=
  match p, l with
  | [], _ => Some l
  | a :: p, b :: l => if Ascii.eqb a b then drop_prefix p l else None
  | _, [] => None
  end.
Definition digit_char (c : ascii) : bool := let n := nat_of_ascii c in (48 <=? n)%nat && (n <=? 57)%nat.
Fixpoint drop_digits (l : list ascii) : list ascii :=
  match l with c :: t => if digit_char c then drop_digits t else l | [] => [] end.
Definition starts_digit (l : list ascii) : bool := match l with c :: _ => digit_char c | [] => false end.
Definition optionally (p l : list ascii) : list ascii := match drop_prefix p l with Some r => r | None => l end.
(** dirs.go:54-58: alda(-player)?(\.exe)?\.\d+\.\d+\.old, from the first character
    on. Neither option can be skipped where it is possible: what follows both is a
    dot and a digit. *)
Definition matches_here (l : list ascii) : bool :=
  match drop_prefix (list_ascii_of_string "alda") l with
  | None => false
  | Some l =>
    let l := optionally (list_ascii_of_string ".exe") (optionally (list_ascii_of_string "-player") l) in
    match drop_prefix (list_ascii_of_string ".") l with
    | None => false
    | Some l => starts_digit l &&
      match drop_prefix (list_ascii_of_string ".") (drop_digits l) with
      | None => false
      | Some l => starts_digit l && match drop_prefix (list_ascii_of_string ".old") (drop_digits l) with Some _ => true | None => false end
      end
    end
  end.
(** regexp's MatchString: anywhere in the name. *)
Fixpoint matches_somewhere (l : list ascii) : bool :=
  matches_here l || match l with [] => false | _ :: t => matches_somewhere t end.
(** dirs.go:54-58, IsRenamedExecutable. *)
Definition is_renamed (name : string) : bool := matches_somewhere (list_ascii_of_string name).
(** dirs.go:43-50, RenamedExecutable: the time and the random number in decimal. *)
Definition renamed_executable (name time random : string) : string := (name ++ "." ++ time ++ "." ++ random ++ ".old")%string.

(** ** Installing *)

(** A file: its bytes, and whether it may be executed. The directory is that of the
    running `alda` (dirs.go:18-38); subdirectories are left out. *)
Record file := File { f_bytes : list Z; f_exec : bool }.
Definition dir := list (string * file).
Definition look (n : string) (d : dir) : option file := aget String.eqb n d.
Definition put (n : string) (f : file) (d : dir) : dir := aset String.eqb n f d.
Definition remove (n : string) (d : dir) : dir := filter (fun x => negb (String.eqb (fst x) n)) d.

(** What `alda update` still has to do. *)
Inductive instr :=
| IDownload                     (* update.go:86-177, downloadAssets: all of them, to a directory of its own *)
| IRefuse (a : asset)           (* :180-184, the type is not "executable" *)
| IPath (a : asset)             (* :186-191, AldaExecutablePath *)
| IRename (a : asset)           (* :208-226 *)
| IOpen (a : asset)             (* :228-239 *)
| ICreate (a : asset)           (* :241-249 *)
| ICopy (a : asset) (n : nat)   (* :251-255, [n] bytes copied so far *)
| IForget (a : asset)           (* :257-260, the downloaded file is removed *)
| IChmod (a : asset).           (* :262-299 *)

(** update.go:179-302, installAsset. *)
Definition install_asset (windows : bool) (a : asset) : list instr :=
  if String.eqb (a_type a) "executable"
  then [IPath a; IRename a; IOpen a; ICreate a; ICopy a 0; IForget a] ++ (if windows then [] else [IChmod a])
  else [IRefuse a].
(** update.go:304-318, downloadAndInstallAssets. *)
Definition installation (windows : bool) (assets : list asset) : list instr :=
  IDownload :: concat (map (install_asset windows) assets).

(** The directory, the downloaded files, what is left to do, whether it has failed,
    and for each `alda` process cleaning up the files it has still to remove. *)
Record machine := Machine {
  m_dir : dir;
  m_got : list (string * list Z);
  m_todo : list instr;
  m_failed : bool;
  m_cleaning : list (list string) }.

(** What happens next, as far as it is not determined. A crash is that nothing
    happens any more. *)
Inductive choice :=
| Works                              (* the next instruction succeeds *)
| Renames (time random : string)     (* so does renaming, to this name *)
| Copies (n : nat)                   (* some bytes are copied *)
| Fails                              (* the next instruction fails *)
| Lists                              (* an `alda` process starts to clean up (root.go:122-131) *)
| Cleans (i : nat) (removed : bool). (* the i-th of them removes a file, or fails to (root.go:132-145) *)

Definition advance (d : dir) (got : list (string * list Z)) (l : list instr) (m : machine) : option machine :=
  Some (Machine d got l (m_failed m) (m_cleaning m)).
Fixpoint set_nth {A} (i : nat) (x : A) (l : list A) : list A :=
  match l, i with [], _ => [] | _ :: t, O => x :: t | y :: t, S i => y :: set_nth i x t end.

(** [served url]: the bytes an address serves. *)
Definition act (served : string -> list Z) (assets : list asset) (c : choice) (m : machine) : option machine :=
  let d := m_dir m in let got := m_got m in
  match c, m_todo m with
  | Lists, _ => Some (Machine d got (m_todo m) (m_failed m) (m_cleaning m ++ [filter is_renamed (map fst d)]))
  | Cleans i removed, _ =>
    match nth_error (m_cleaning m) i with
    | Some (n :: names) => Some (Machine (if removed then remove n d else d) got (m_todo m) (m_failed m) (set_nth i names (m_cleaning m)))
    | _ => None
    end
  | Fails, IForget _ :: l => advance d got l m
  | Fails, _ :: _ => Some (Machine d got [] true (m_cleaning m))
  | Works, IDownload :: l => advance d (map (fun a => (a_name a, served (a_url a))) assets) l m
  | Works, IPath _ :: l => advance d got l m
  | Works, IRename a :: l => match look (a_name a) d with None => advance d got l m | Some _ => None end
  | Renames time random, IRename a :: l =>
    match look (a_name a) d with
    | Some f => if forallb digit_char (list_ascii_of_string time) && forallb digit_char (list_ascii_of_string random) && negb (String.eqb time "") && negb (String.eqb random "")
                then advance (put (renamed_executable (a_name a) time random) f (remove (a_name a) d)) got l m else None
    | None => None
    end
  | Works, IOpen a :: l => match aget String.eqb (a_name a) got with Some _ => advance d got l m | None => None end
  | Works, ICreate a :: l => advance (put (a_name a) (File [] (match look (a_name a) d with Some f => f_exec f | None => false end)) d) got l m
  | Copies k, ICopy a n :: l =>
    match aget String.eqb (a_name a) got, look (a_name a) d with
    | Some bytes, Some f => advance (put (a_name a) (File (firstn (n + k) bytes) (f_exec f)) d) got (ICopy a (n + k) :: l) m
    | _, _ => None
    end
  | Works, ICopy a n :: l =>
    match aget String.eqb (a_name a) got with
    | Some bytes => if (List.length bytes <=? n)%nat then advance d got l m else None
    | None => None
    end
  | Works, IForget a :: l => advance d (filter (fun x => negb (String.eqb (fst x) (a_name a))) got) l m
  | Works, IChmod a :: l => match look (a_name a) d with Some f => advance (put (a_name a) (File (f_bytes f) true) d) got l m | None => None end
  | _, _ => None
  end.
Fixpoint acts (served : string -> list Z) (assets : list asset) (cs : list choice) (m : machine) : option machine :=
  match cs with
  | [] => Some m
  | c :: cs => match act served assets c m with Some m => acts served assets cs m | None => None end
  end.
(** `alda update`, about to install [assets], while no file is being removed. *)
Definition begins (windows : bool) (d : dir) (assets : list asset) : machine := Machine d [] (installation windows assets) false [].
