(** C66: what users can expect of telemetry. *)
From Coq Require Import String List Bool.
From Verif Require Import ModelTelemetry.
Import ListNotations.
Local Open Scope string_scope.
Local Open Scope list_scope.

(** Alda has just been installed. *)
Definition fresh : system := System None [].
(** Nobody is using it. *)
Definition quiet (s : system) : Prop := forall p, In p (s_processes s) -> p_todo p = [] /\ p_pending p = None.

(** Some user has seen the notice or asked for telemetry. *)
Definition aware (es : list (nat * event)) : Prop :=
  exists i, In (i, Noticed) es \/ exists silent, In (i, Started (Telemetry true false) silent) es.

(** The command that a command line runs, without its arguments. *)
Inductive runs : command -> string -> Prop :=
| R_plain name args n : runs (Plain name args n) name
| R_telemetry e d : runs (Telemetry e d) "telemetry".

(** The command lines that change the setting, and to what. *)
Inductive changes : command -> string -> Prop :=
| C_enable : changes (Telemetry true false) "enabled"
| C_disable : changes (Telemetry false true) "disabled".
