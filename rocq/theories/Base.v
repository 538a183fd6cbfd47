(** Shared small utilities: 32-bit wrap-around, finite maps as association
    lists, updates of one list position.  No modelled code lives here. *)
From Coq Require Import ZArith List String Bool Lia ZifyBool ZifyNat.
Import ListNotations.
Local Open Scope Z_scope.

(** Go's int32 arithmetic wraps modulo 2^32 (Go spec, "Integer overflow"). *)
Definition wrap32 (z : Z) : Z := (z + 2147483648) mod 4294967296 - 2147483648.

Definition min_int32 : Z := -2147483648.
Definition max_int32 : Z := 2147483647.
Definition in_int32 (z : Z) : Prop := min_int32 <= z <= max_int32.

(** Replace position [i] of a list; unchanged when out of range. *)
Fixpoint upd_nth {A} (i : nat) (x : A) (l : list A) : list A :=
  match l, i with
  | [], _ => []
  | _ :: t, O => x :: t
  | h :: t, S j => h :: upd_nth j x t
  end.

(** Go maps keyed by a type with decidable equality, as association lists.
    [aset] overwrites the first entry with the key or appends a new one. *)
Fixpoint aget {K V} (eqk : K -> K -> bool) (k : K) (m : list (K * V)) : option V :=
  match m with
  | [] => None
  | (k', v) :: t => if eqk k' k then Some v else aget eqk k t
  end.

Fixpoint aset {K V} (eqk : K -> K -> bool) (k : K) (v : V) (m : list (K * V))
  : list (K * V) :=
  match m with
  | [] => [(k, v)]
  | (k', v') :: t => if eqk k' k then (k', v) :: t else (k', v') :: aset eqk k v t
  end.

(** Result of a Go function that may return an error or panic. *)
Inductive res (A : Type) : Type :=
| ROk (a : A)
| RErr (msg : string)
| RPanic (msg : string).
Arguments ROk {A}. Arguments RErr {A}. Arguments RPanic {A}.

Definition rbind {A B} (r : res A) (k : A -> res B) : res B :=
  match r with
  | ROk a => k a
  | RErr m => RErr m
  | RPanic m => RPanic m
  end.

Definition rmap {A B} (f : A -> B) (r : res A) : res B := rbind r (fun a => ROk (f a)).

Fixpoint rfold {A B} (f : B -> A -> res B) (l : list A) (b : B) : res B :=
  match l with
  | [] => ROk b
  | a :: t => rbind (f b a) (fun b' => rfold f t b')
  end.

Fixpoint rmapl {A B} (f : A -> res B) (l : list A) : res (list B) :=
  match l with
  | [] => ROk []
  | a :: t => rbind (f a) (fun b => rbind (rmapl f t) (fun bs => ROk (b :: bs)))
  end.
