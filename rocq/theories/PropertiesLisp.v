(** C47: attributes and their arguments. *)
From Coq Require Import ZArith QArith Qcanon List String Ascii Bool Lia.
From Verif Require Import Base Num ModelPitch ModelDuration ModelInstruments ModelTypes ModelLisp SpecLisp ProofLisp.
Import ListNotations.
Local Open Scope string_scope.
Local Open Scope list_scope.

(** C47: an attribute applied to any arguments (numbers, strings, quoted symbols
    and lists) gives the update it should when they are acceptable, and an error
    otherwise; with "!" it gives the same update for all parts.  (Note lengths in
    strings: see below.) *)
Theorem C47_attributes : forall name args, In name attribute_names ->
  (takes_lengths name -> forall a, In a args -> ~ is_string a) ->
  (exists u, accepts name args u /\
     eval_update (LSym name :: map written args) = ROk (Some (Attr u)) /\
     eval_update (LSym (name ++ "!")%string :: map written args) = ROk (Some (GAttr u))) \/
  ((forall u, ~ accepts name args u) /\ exists e,
     eval_update (LSym name :: map written args) = RErr e /\
     eval_update (LSym (name ++ "!")%string :: map written args) = RErr e).
Proof. exact attributes_decided. Qed.
Print Assumptions C47_attributes.

(** The specification gives at most one meaning. *)
Theorem C47_one_meaning : forall name args u v, accepts name args u -> accepts name args v -> u = v.
Proof. exact accepts_one. Qed.
Print Assumptions C47_one_meaning.

(** Note lengths written in a string are read as written. *)
Theorem C47_lengths : forall ws, ws <> [] -> Forall well_written ws ->
  eval_update [LSym "set-note-length"; LStr (unchars (tied_text ws))] =
  ROk (Some (Attr (PDurSet (Some (map length_meant ws))))).
Proof. exact lengths_read. Qed.
Print Assumptions C47_lengths.

(** Dynamic markings stand for the documented volumes, to within one percent. *)
Theorem C47_markings : map fst documented_volumes = markings /\
  forall m v, In (m, v) documented_volumes -> exists q, dynamic_volume (N := XQ) m = Fin q /\
    (whole (v - 1) < q * whole 100)%Qc /\ (q * whole 100 < whole (v + 1))%Qc.
Proof. exact markings_volumes. Qed.
Print Assumptions C47_markings.

Definition succeeds (els : list (@lform XQ)) : bool := match eval_update els with ROk (Some (Attr _)) => true | _ => false end.
Example C47_example :
  accepts "panning" [ANumber (whole 75)] (PPan (Fin (whole 75 / whole 100)%Qc)) /\
  map (fun '(n, x) => succeeds [LSym n; LNum (nofZ x)])
    [("vol", 0); ("vol", 100); ("vol", 101); ("vol", -1); ("midi-channel", 15); ("midi-channel", 16); ("tempo", 0); ("octave", -3)]%Z =
    [true; true; false; false; true; false; false; true] /\
  succeeds [LSym "octave"; LNum (nlit 9 2)] = false /\ succeeds [LSym "mf"] = true /\
  well_written {| whole_digits := [1; 2]%Z; point_digits := [5]%Z; dot_count := 2 |} /\
  unchars (tied_text [{| whole_digits := [1; 2]%Z; point_digits := [5]%Z; dot_count := 2 |}; {| whole_digits := [8]%Z; point_digits := []; dot_count := 0 |}]) = "12.5..~8".
Proof.
  split; [apply A_percent; [cbn; tauto|discriminate|discriminate]|]. split; [vm_compute; reflexivity|]. split; [vm_compute; reflexivity|].
  split; [vm_compute; reflexivity|]. split; [|reflexivity].
  split; [discriminate|]. split; [|cbn; lia]. intros d [<- |[<- |[<- |[]]]]; lia.
Qed.

(** Quantization is documented as a percentage from 0 to 100, but more is
    accepted; a tempo must be positive, but below 1 it is rejected. *)
Theorem C47_quantization_refuted : exists q, (whole 100 < q)%Qc /\ succeeds [LSym "quant"; LNum (Fin q)] = true.
Proof. exists (whole 150). split; [reflexivity|vm_compute; reflexivity]. Qed.
Print Assumptions C47_quantization_refuted.
Theorem C47_slow_refuted : exists q, (0 < q)%Qc /\ succeeds [LSym "tempo"; LNum (Fin q)] = false.
Proof. exists (Q2Qc (1 # 2)). split; [reflexivity|vm_compute; reflexivity]. Qed.
Print Assumptions C47_slow_refuted.

(** A note length with a stray character at the end is accepted. *)
Theorem C47_junk_refuted : succeeds [LSym "set-note-length"; LStr "4x"] = true /\ succeeds [LSym "set-note-length"; LStr "4xy"] = false.
Proof. split; vm_compute; reflexivity. Qed.
Print Assumptions C47_junk_refuted.
