(** C74: what the doctor may install. *)
From Coq Require Import String Ascii ZArith List Bool.
From Verif Require Import Base ModelScan ModelUpdate SpecPrompt.
Import ListNotations.
Local Open Scope string_scope.
Local Open Scope list_scope.

(** A file with the name of the player. *)
Definition the_player (a : asset) : Prop := a_name a = "alda-player" \/ a_name a = "alda-player.exe".
(** The player in a release for a computer: if there are several, the last one. *)
Definition player_of (platform : string) (release : json) (a : asset) : Prop :=
  exists before after, version_assets platform (Some release) = ROk (before ++ a :: after) /\ the_player a /\ Forall (fun b => ~ the_player b) after.
(** The question, with yes as the default, was answered yes. *)
Definition consent (other_blank : rune -> bool) (input : list rune) : Prop :=
  exists before l, typed input before l /\ Forall (unclear other_blank true) before /\ answers other_blank true l true.
