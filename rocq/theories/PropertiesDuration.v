(** Property theorem C28: durations, over exact rationals. *)
From Coq Require Import ZArith QArith Qcanon List Permutation.
From Verif Require Import Base Num ModelDuration SpecDuration ProofDuration.
Import ListNotations.
Local Open Scope Qc_scope.

(** The length in milliseconds of any (nested) duration: its beats at the tempo
    plus its fixed milliseconds. *)
Theorem C28_length : forall x tempo, meaningful x -> tempo <> 0 ->
  comp_ms (N := XQ) (Fin tempo) (embed x) = Fin (beats x * (Q2Qc 60000 / tempo) + fixed_ms x).
Proof. exact c28_value. Qed.
Print Assumptions C28_length.

(** A 1/d note with k dots has (4/d)*(2-1/2^k) beats. *)
Theorem C28_dots : forall d k, d <> 0 ->
  beats (XLen d k) = Q2Qc 4 / d * (Q2Qc 2 - half_pow k).
Proof. exact c28_note. Qed.
Print Assumptions C28_dots.

(** Ties add up irrespective of grouping... *)
Theorem C28_grouping : forall a l b tempo, Forall meaningful (a ++ l ++ b) -> tempo <> 0 ->
  dur_ms_of (N := XQ) (Fin tempo) (Some (map embed (a ++ [XTied l] ++ b))) =
  dur_ms_of (N := XQ) (Fin tempo) (Some (map embed (a ++ l ++ b))).
Proof. exact c28_grouping. Qed.
Print Assumptions C28_grouping.

(** ... and order, and a barline contributes nothing. *)
Theorem C28_order : forall l l' tempo, Forall meaningful l -> tempo <> 0 -> Permutation l l' ->
  dur_ms_of (N := XQ) (Fin tempo) (Some (map embed l)) =
  dur_ms_of (N := XQ) (Fin tempo) (Some (map embed l')).
Proof. exact c28_order. Qed.
Print Assumptions C28_order.
Theorem C28_barline : forall a b tempo, Forall meaningful (a ++ b) -> tempo <> 0 ->
  dur_ms_of (N := XQ) (Fin tempo) (Some (map embed (a ++ [XBar] ++ b))) =
  dur_ms_of (N := XQ) (Fin tempo) (Some (map embed (a ++ b))).
Proof. exact c28_barline. Qed.
Print Assumptions C28_barline.

(** Multiplying the tempo divides the beats' time and leaves fixed lengths alone. *)
Theorem C28_tempo : forall x tempo k, meaningful x -> tempo <> 0 -> k <> 0 ->
  exists slow fast,
    comp_ms (N := XQ) (Fin tempo) (embed x) = Fin (fixed_ms x + slow) /\
    comp_ms (N := XQ) (Fin (k * tempo)) (embed x) = Fin (fixed_ms x + fast) /\
    fast = slow / k.
Proof. exact c28_tempo. Qed.
Print Assumptions C28_tempo.

(** Validation accepts exactly the positive lengths. *)
Theorem C28_validation : forall l,
  dur_valid (N := XQ) (Some (map embed l)) = true <-> Forall positive_lengths l.
Proof. exact dur_valid_iff. Qed.
Print Assumptions C28_validation.

(** A dotted quarter tied to 500ms and a half note, at 90 bpm:
    1000 + 500 + 1333.33 = 2833.33 ms. *)
Definition ex28 : xdur :=
  XTied [XLen (Q2Qc 4) 1; XBar; XTied [XMs (Q2Qc 500); XLen (Q2Qc 2) 0]].
Example C28_example :
  meaningful ex28 /\ positive_lengths ex28 /\ Q2Qc 90 <> 0 /\
  this (ms_at (Q2Qc 90) ex28) = (8500 # 3)%Q /\
  (match comp_ms (N := XQ) (Fin (Q2Qc 90)) (embed ex28) with
   | Fin q => this q = (8500 # 3)%Q | _ => False end) /\
  dur_valid (N := XQ) (Some (map embed [ex28])) = true.
Proof. vm_compute. repeat split; discriminate. Qed.
