(** The numbers of the Go code are float64.  The model is written once over a
    bare record of operations; theorems about control flow hold for every
    instance, theorems about arithmetic for the exact instance [XQ].  [B64] is
    IEEE binary64 (stdlib SpecFloat), so that floating-point counterexamples
    can be computed. *)
From Coq Require Import ZArith QArith Qcanon Bool List SpecFloat Qround.
From Verif Require Import Base.
Local Open Scope Z_scope.

(** Operations used by the Go code on float64 values.  No laws are assumed. *)
Class Num := {
  num : Type;
  nofZ : Z -> num;                 (* float64(n), and integer literals *)
  nadd : num -> num -> num;
  nsub : num -> num -> num;
  nmul : num -> num -> num;
  ndiv : num -> num -> num;
  nltb : num -> num -> bool;       (* a < b *)
  nleb : num -> num -> bool;       (* a <= b *)
  neqb : num -> num -> bool;       (* a == b *)
  nmin : num -> num -> num;        (* math.Min *)
  nmax : num -> num -> num;        (* math.Max *)
  nmaxval : num;                   (* math.MaxFloat64 *)
  npow2 : Z -> num;                (* math.Pow(2, float64(e)) *)
  nround32 : num -> Z;             (* int32(math.Round(x)) *)
  ntrunc32 : num -> Z;             (* int32(x) *)
  nfloat32 : num -> num            (* float32(x), value kept as a num *)
}.

Declare Scope num_scope.
Delimit Scope num_scope with num.
Infix "+" := nadd : num_scope.
Infix "-" := nsub : num_scope.
Infix "*" := nmul : num_scope.
Infix "/" := ndiv : num_scope.
Infix "<?" := nltb : num_scope.
Infix "<=?" := nleb : num_scope.
Infix "=?" := neqb : num_scope.

Section Lit.
Context {N : Num}.
(** A decimal literal a/b of the source: a correctly rounded quotient. *)
Definition nlit (a : Z) (b : positive) : num := ndiv (nofZ a) (nofZ (Zpos b)).
Definition n0 : num := nofZ 0.
Definition n1 : num := nofZ 1.
Definition nneqb (a b : num) : bool := negb (neqb a b).
Definition nisnan (a : num) : bool := negb (neqb a a).
End Lit.

(* ------------------------------------------------------------------ *)
(** ** Exact instance: canonical rationals with infinities and NaN.
    Conventions for infinities, NaN and division by zero follow IEEE 754
    (the sign of zero is not tracked: x/0 takes the sign of x); there is no
    rounding and no overflow. *)

Inductive xq := Fin (q : Qc) | PInf | NInf | NaN.

Definition qc_ltb (a b : Qc) : bool := negb (Qle_bool b a).
Definition qc_leb (a b : Qc) : bool := Qle_bool a b.
Definition qc_eqb (a b : Qc) : bool := Qeq_bool a b.

Definition qc_sgn (a : Qc) : Z := Z.sgn (Qnum a).

Definition xq_inf (s : Z) : xq := if s =? 0 then NaN else if s >? 0 then PInf else NInf.

Definition xq_add (a b : xq) : xq :=
  match a, b with
  | Fin x, Fin y => Fin (x + y)%Qc
  | NaN, _ | _, NaN => NaN
  | PInf, NInf | NInf, PInf => NaN
  | PInf, _ | _, PInf => PInf
  | NInf, _ | _, NInf => NInf
  end.

Definition xq_opp (a : xq) : xq :=
  match a with Fin x => Fin (- x)%Qc | PInf => NInf | NInf => PInf | NaN => NaN end.

Definition xq_sub (a b : xq) : xq :=
  match a, b with
  | Fin x, Fin y => Fin (x - y)%Qc
  | _, _ => xq_add a (xq_opp b)
  end.

Definition xq_sgn (a : xq) : Z :=
  match a with Fin x => qc_sgn x | PInf => 1 | NInf => -1 | NaN => 0 end.

Definition xq_mul (a b : xq) : xq :=
  match a, b with
  | Fin x, Fin y => Fin (x * y)%Qc
  | NaN, _ | _, NaN => NaN
  | _, _ => xq_inf (xq_sgn a * xq_sgn b)
  end.

Definition xq_div (a b : xq) : xq :=
  match a, b with
  | NaN, _ | _, NaN => NaN
  | Fin x, Fin y => if qc_eqb y (Q2Qc 0) then xq_inf (qc_sgn x) else Fin (x / y)%Qc
  | Fin x, _ => Fin (Q2Qc 0)
  | _, Fin y => xq_inf (xq_sgn a * (if qc_eqb y (Q2Qc 0) then 1 else qc_sgn y))
  | _, _ => NaN
  end.

Definition xq_ltb (a b : xq) : bool :=
  match a, b with
  | Fin x, Fin y => qc_ltb x y
  | NaN, _ | _, NaN => false
  | NInf, NInf => false
  | NInf, _ => true
  | _, PInf => match a with PInf => false | _ => true end
  | _, _ => false
  end.

Definition xq_eqb (a b : xq) : bool :=
  match a, b with
  | Fin x, Fin y => qc_eqb x y
  | PInf, PInf | NInf, NInf => true
  | _, _ => false
  end.

Definition xq_leb (a b : xq) : bool := xq_ltb a b || xq_eqb a b.

(** math.Min / math.Max: -Inf (resp. +Inf) wins over NaN, NaN over numbers. *)
Definition xq_min (a b : xq) : xq :=
  match a, b with
  | NInf, _ | _, NInf => NInf
  | NaN, _ | _, NaN => NaN
  | _, _ => if xq_ltb a b then a else b
  end.
Definition xq_max (a b : xq) : xq :=
  match a, b with
  | PInf, _ | _, PInf => PInf
  | NaN, _ | _, NaN => NaN
  | _, _ => if xq_ltb b a then a else b
  end.

Definition xq_ofZ (z : Z) : xq := Fin (Q2Qc (inject_Z z)).

(** math.MaxFloat64 = (2^53 - 1) * 2^971. *)
Definition xq_maxval : xq := xq_ofZ ((2 ^ 53 - 1) * 2 ^ 971).

Definition xq_pow2 (e : Z) : xq := Fin (Q2Qc (2 ^ e)%Q).

(** math.Round: half away from zero. *)
Definition q_round (q : Q) : Z :=
  if Qle_bool 0 q then Qfloor (q + (1 # 2)) else - Qfloor (- q + (1 # 2)).
Definition q_trunc (q : Q) : Z :=
  if Qle_bool 0 q then Qfloor q else - Qfloor (- q).

(** int32(float64) is implementation-defined out of range; here the amd64
    behaviour (truncate to 64 bits, keep the low 32; NaN and infinities give
    the low half of the 64-bit "indefinite" value, 0). *)
Definition xq_round32 (a : xq) : Z := match a with Fin x => wrap32 (q_round x) | _ => 0 end.
Definition xq_trunc32 (a : xq) : Z := match a with Fin x => wrap32 (q_trunc x) | _ => 0 end.

#[global] Instance XQ : Num := {|
  num := xq; nofZ := xq_ofZ; nadd := xq_add; nsub := xq_sub; nmul := xq_mul;
  ndiv := xq_div; nltb := xq_ltb; nleb := xq_leb; neqb := xq_eqb;
  nmin := xq_min; nmax := xq_max; nmaxval := xq_maxval; npow2 := xq_pow2;
  nround32 := xq_round32; ntrunc32 := xq_trunc32; nfloat32 := fun x => x
|}.

(* ------------------------------------------------------------------ *)
(** ** IEEE binary64 instance (stdlib SpecFloat, round to nearest even). *)

Definition b64_ofZ (z : Z) : spec_float := binary_normalize 53 1024 z 0 false.

Definition b64_isnan (a : spec_float) : bool := match a with S754_nan => true | _ => false end.
Definition b64_min (a b : spec_float) : spec_float :=
  match a, b with
  | S754_infinity true, _ | _, S754_infinity true => S754_infinity true
  | S754_nan, _ | _, S754_nan => S754_nan
  | _, _ => if SFltb a b then a else b
  end.
Definition b64_max (a b : spec_float) : spec_float :=
  match a, b with
  | S754_infinity false, _ | _, S754_infinity false => S754_infinity false
  | S754_nan, _ | _, S754_nan => S754_nan
  | _, _ => if SFltb b a then a else b
  end.

Definition b64_toQ (a : spec_float) : option Q :=
  match a with
  | S754_zero _ => Some 0%Q
  | S754_finite s m e =>
      Some (inject_Z (if s then Zneg m else Zpos m) * (2 ^ e))%Q
  | _ => None
  end.
Definition b64_toint (f : Q -> Z) (a : spec_float) : Z :=
  match b64_toQ a with Some q => wrap32 (f q) | None => 0 end.

Definition b64_to32 (a : spec_float) : spec_float :=
  match a with
  | S754_finite s m e => binary_normalize 24 128 (if s then Zneg m else Zpos m) e s
  | _ => a
  end.

Definition B64 : Num := {|
  num := spec_float; nofZ := b64_ofZ;
  nadd := SFadd 53 1024; nsub := SFsub 53 1024; nmul := SFmul 53 1024;
  ndiv := SFdiv 53 1024; nltb := SFltb; nleb := SFleb; neqb := SFeqb;
  nmin := b64_min; nmax := b64_max;
  nmaxval := binary_normalize 53 1024 (2 ^ 53 - 1) 971 false;
  npow2 := fun e => binary_normalize 53 1024 1 e false;
  nround32 := b64_toint q_round; ntrunc32 := b64_toint q_trunc;
  nfloat32 := b64_to32
|}.
