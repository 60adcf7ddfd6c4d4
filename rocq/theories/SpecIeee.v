(** Specification: the double numbers of Coq's standard library (Floats/SpecFloat.v, which describes IEEE 754 binary64) and their values *)
From Coq Require Import Bool ZArith QArith Floats.SpecFloat.
From Verif Require Import Ieee.

(** the value of a number of the standard library; the sign of zero is dropped *)
Definition double_value (x : spec_float) : dbl :=
  match x with
  | S754_zero _ => DFin 0
  | S754_infinity s => DInf s
  | S754_nan => DNaN
  | S754_finite s m e => DFin (inject_Z (if s then Zneg m else Zpos m) * 2 ^ e)
  end.
Definition same_double (x y : dbl) : Prop :=
  match x, y with
  | DFin a, DFin b => (a == b)%Q
  | DInf s, DInf s' => s = s'
  | DNaN, DNaN => True
  | _, _ => False
  end.
Definition is_double (x : spec_float) : Prop := valid_binary 53 1024 x = true.
