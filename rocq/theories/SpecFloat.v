(** Floating point numbers with [p] bits of precision *)
From Coq Require Import ZArith QArith Qabs.

Definition float_number (p : Z) (x : Q) : Prop :=
  exists m e : Z, (Z.abs m <= 2 ^ p)%Z /\ (x == inject_Z m * 2 ^ e)%Q.
(** no floating point number is closer to [q] than [r] *)
Definition nearest_float (p : Z) (q r : Q) : Prop :=
  forall x, float_number p x -> (Qabs (q - r) <= Qabs (q - x))%Q.
(** a rounding function that keeps the floating point numbers *)
Definition keeps_floats (p : Z) (rnd : Q -> Q) : Prop := forall x, float_number p x -> (rnd x == x)%Q.
(** a rounding function with relative error at most [u] *)
Definition relative_error (u : Q) (rnd : Q -> Q) : Prop := forall x, (Qabs (rnd x - x) <= u * Qabs x)%Q.
(** every result is a floating point number, and none is closer to the argument; ties are broken in any way *)
Definition rounds_to_nearest (p : Z) (rnd : Q -> Q) : Prop := forall x, float_number p (rnd x) /\ nearest_float p x (rnd x).
Fixpoint qpow (x : Q) (k : nat) : Q := match k with O => 1 | S k' => x * qpow x k' end%Q.
(** [x] results from [y] by at most [k] changes with relative error [u] *)
Definition within (u : Q) (k : nat) (x y : Q) : Prop := (qpow (1 - u) k * y <= x <= qpow (1 + u) k * y)%Q.
(** the finite numbers of IEEE 754 binary64; the largest is 2^1024 - 2^971 *)
Definition double_number (x : Q) : Prop :=
  exists m e : Z, (Z.abs m < 2 ^ 53)%Z /\ (-1074 <= e <= 971)%Z /\ (x == inject_Z m * 2 ^ e)%Q.
