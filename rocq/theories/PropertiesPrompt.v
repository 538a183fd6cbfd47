(** Property theorems C73: yes-or-no questions. *)
From Coq Require Import String Ascii ZArith List Bool Lia.
From Verif Require Import Base ModelScan ModelBox ModelUpdate ModelPrompt SpecPrompt ProofPrompt.
Import ListNotations.
Local Open Scope string_scope.
Local Open Scope list_scope.
Local Open Scope Z_scope.

(** C73: a question is answered by the first line that is an answer, whatever unclear
    lines come before it and whatever follows. The hypothesis holds of Unicode: the
    only other characters with small ASCII letters are those of i and k. *)
Theorem C73_question : forall other_blank other_lower,
  (forall r, 128 <= r -> 128 <= other_lower r \/ other_lower r = 105 \/ other_lower r = 107) ->
  forall d input b, ask other_blank other_lower d input = Answered b <->
    exists before l, typed input before l /\ Forall (unclear other_blank d) before /\ answers other_blank d l b.
Proof. exact c73_question. Qed.
Print Assumptions C73_question.
(** It crashes exactly if the input ends before any line answers it. *)
Theorem C73_crash : forall other_blank other_lower,
  (forall r, 128 <= r -> 128 <= other_lower r \/ other_lower r = 105 \/ other_lower r = 107) ->
  forall d input, ask other_blank other_lower d input = Crashed <-> forall before l, typed input before l -> unclear other_blank d l.
Proof. exact c73_crash. Qed.
Print Assumptions C73_crash.
(** `alda update` installs something exactly if the release has files for this computer
    and there is consent: --yes, or a first answer that is yes or a blank line. *)
Theorem C73_consent : forall other_blank other_lower,
  (forall r, 128 <= r -> 128 <= other_lower r \/ other_lower r = 105 \/ other_lower r = 107) ->
  forall platform assume_yes input release assets, assets <> [] ->
    prompt_and_install other_blank other_lower platform assume_yes input release = ROk assets <->
    version_assets platform release = ROk assets /\
    (assume_yes = true \/ exists before l, typed input before l /\ Forall (unclear other_blank true) before /\
      (says other_blank l "" \/ says other_blank l "y" \/ says other_blank l "yes")).
Proof. exact c73_consent. Qed.
Print Assumptions C73_consent.
(** An answer that is not ended by a newline is not taken. *)
Theorem C73_last_line_refuted : exists d input, forall other_blank other_lower,
  answers other_blank d input true /\ ask other_blank other_lower d input = Crashed.
Proof. exact c73_last_line. Qed.
Print Assumptions C73_last_line_refuted.

(** "maybe", then " No", then "y". *)
Definition hesitant : list rune := runes "maybe" ++ 10 :: runes " No" ++ [13; 10] ++ runes "y" ++ [10].
Example C73_inhabited : (forall r, 128 <= r -> 128 <= r \/ r = 105 \/ r = 107) /\
  ask (fun _ => false) (fun r => r) true hesitant = Answered false /\
  typed hesitant [runes "maybe"] (runes " No" ++ [13]) /\ answers (fun _ => false) true (runes " No" ++ [13]) false /\
  ask (fun _ => false) (fun r => r) true [10] = Answered true /\ ask (fun _ => false) (fun r => r) false [32; 10] = Answered false.
Proof.
  split; [auto|]. split; [reflexivity|]. split.
  { exists (runes "y" ++ [10]). split; [reflexivity|]. repeat constructor; cbn; intuition discriminate. }
  split; [|split; reflexivity]. right; right. split; [right|reflexivity]. exists [32], (runes "No"), [13].
  split; [reflexivity|]. split; [repeat constructor; left; cbn; tauto|]. constructor; [right; reflexivity|]. constructor; [left; reflexivity|constructor].
Qed.
Example C73_consent_inhabited :
  let release := Some (JObj [("assets", JObj [("linux-amd64", JArr [JObj [("name", JStr "alda"); ("type", JStr "executable"); ("url", JStr "u")]])])]) in
  prompt_and_install (fun _ => false) (fun r => r) "linux-amd64" false (runes "what" ++ 10 :: runes "YES" ++ [10]) release = ROk [Asset "alda" "executable" "u"] /\
  prompt_and_install (fun _ => false) (fun r => r) "linux-amd64" false hesitant release = ROk [].
Proof. split; reflexivity. Qed.
