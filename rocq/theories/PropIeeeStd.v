(** Properties C143: the doubles of the model and those of the standard library *)
From Coq Require Import List Bool ZArith QArith Floats.SpecFloat.
From Verif Require Import Ieee SpecIeee IeeeStd IeeeStd2.
Import ListNotations.

(** C143: the operations on doubles of the model (Ieee.v) are those of IEEE 754 binary64 as specified in Coq's standard library *)
Theorem C143_standard_add : forall x y : spec_float, is_double x -> is_double y ->
  same_double (double_value (SFadd 53 1024 x y)) (dadd (double_value x) (double_value y)).
Proof. exact add_ok. Qed.
Print Assumptions C143_standard_add.
Theorem C143_standard_sub : forall x y : spec_float, is_double x -> is_double y ->
  same_double (double_value (SFsub 53 1024 x y)) (dsub (double_value x) (double_value y)).
Proof. exact sub_ok. Qed.
Print Assumptions C143_standard_sub.
Theorem C143_standard_mul : forall x y : spec_float, is_double x -> is_double y ->
  same_double (double_value (SFmul 53 1024 x y)) (dmul (double_value x) (double_value y)).
Proof. exact mul_ok. Qed.
Print Assumptions C143_standard_mul.
(** the sign of zero is not modelled, hence the third hypothesis *)
Theorem C143_standard_div : forall x y : spec_float, is_double x -> is_double y -> y <> S754_zero true ->
  same_double (double_value (SFdiv 53 1024 x y)) (ddiv (double_value x) (double_value y)).
Proof. exact div_ok. Qed.
Print Assumptions C143_standard_div.
Theorem C143_standard_compare : forall x y : spec_float, is_double x -> is_double y ->
  SFleb x y = dleb (double_value x) (double_value y) /\ SFltb y x = dgtb (double_value x) (double_value y).
Proof. intros x y Vx Vy. exact (conj (leb_ok x y Vx Vy) (gtb_ok x y Vx Vy)). Qed.
Print Assumptions C143_standard_compare.

(** one half, three, the largest double, the smallest subnormal number, both infinities and NaN *)
Definition some_doubles : list spec_float :=
  [S754_finite false (2 ^ 52) (-53); S754_finite false (3 * 2 ^ 51) (-51); S754_finite true (2 ^ 53 - 1) 971; S754_finite false 1 (-1074);
   S754_zero false; S754_zero true; S754_infinity false; S754_infinity true; S754_nan].
Example C143_standard_case : Forall is_double some_doubles
  /\ map (fun x => SFadd 53 1024 x (S754_finite true (2 ^ 53 - 1) 971)) (firstn 3 some_doubles)
     = [S754_finite true (2 ^ 53 - 1) 971; S754_finite true (2 ^ 53 - 1) 971; S754_infinity true]
  /\ dadd (double_value (S754_finite true (2 ^ 53 - 1) 971)) (double_value (S754_finite true (2 ^ 53 - 1) 971)) = DInf true
  /\ SFmul 53 1024 (S754_finite false (2 ^ 52) (-53)) (S754_finite false 1 (-1074)) = S754_zero false
  /\ SFdiv 53 1024 (S754_finite false (2 ^ 52) (-53)) (S754_finite false (3 * 2 ^ 51) (-51)) = S754_finite false 6004799503160661 (-55)
  /\ SFadd 53 1024 (S754_infinity false) (S754_infinity true) = S754_nan.
Proof. split; [repeat constructor|]. vm_compute. repeat split. Qed.
