(** Model of `alda format` (client/cmd/format.go).

    Simplifications: files and the standard output are texts (the bytes of C58's
    UTF-8 encoding); the warning about comments is left out; a panic of the
    formatter is an error. *)
From Coq Require Import ZArith List Bool.
From Verif Require Import Base Num ModelPitch ModelDuration ModelInstruments ModelTypes ModelLisp ModelScan ModelParser ModelAst ModelFormat.
Import ListNotations.
Local Open Scope Z_scope.

Section FormatCommand.
Context {N : Num}.
Variable fmt : num -> list rune.

(** format.go:14-35, the flags. *)
Record flags := Flags { g_overwrite : bool; g_wrap : Z; g_indent : list rune }.

(** What the environment decides: whether the file can be read and be opened for
    writing, and, if writing fails, how much of the text is written. *)
Record disk := Disk { d_reads : bool; d_opens : bool; d_fails : option nat }.

(** What a run of the command does: all contents that the file has at some time, in
    order, what is written to the standard output, and whether it succeeds. *)
Record run := Run { r_contents : list (list rune); r_output : list rune; r_succeeds : bool }.

(** The contents that a file goes through while a text is written to it, which it
    need not be in one piece. *)
Definition growing (t : list rune) (n : nat) : list (list rune) := map (fun k => firstn k t) (seq 1 n).
(** io.Writer's Write: what is written in the end. *)
Definition written (d : disk) (t : list rune) : nat := match d_fails d with None => length t | Some n => Nat.min n (length t) end.
Definition complete (d : disk) : bool := match d_fails d with None => true | Some _ => false end.

(** format.go:99-121: the defaults (newFormatter) hold for what is not given. *)
Definition settings (g : flags) : config :=
  Config (if 0 <? g_wrap g then g_wrap g else c_wrap default_config)
         (match g_indent g with [] => c_indent default_config | t => t end).

(** format.go:61-131: the file is opened, which empties it, before the line width is
    checked and the tree is formatted. *)
Definition format_command (g : flags) (d : disk) (old : list rune) : run :=
  if negb (d_reads d) then Run [old] [] false
  else match parse old with
  | Parsed a =>
      if g_overwrite g && negb (d_opens d) then Run [old] [] false
      else
        let opened := if g_overwrite g then [old; []] else [old] in
        if g_wrap g <? 0 then Run opened [] false
        else match format fmt (settings g) a with
             | Some t =>
                 let n := written d t in
                 if g_overwrite g then Run (opened ++ growing t n) [] (complete d)
                 else Run opened (firstn n t) (complete d)
             | None => Run opened [] false
             end
  | _ => Run [old] [] false
  end.
End FormatCommand.
