(** What the bounds of the relative error are: the reference value replaced by the powers of two around it *)
From Coq Require Import List Bool Arith ZArith QArith.
From Verif Require Import Res Cudd Spec Helpers.
Import ListNotations.
Open Scope Z_scope.

(** the power of two below a positive number, and the largest number with as many bits, as a double: [2^k - 1] is
    representable up to [k = 53] and [2^k] after rounding from [k = 54] on *)
Definition pow2_below (x : Z) : Z := 2 ^ Z.log2 x.
Definition all_ones (x : Z) : Z := if Z.log2 x <? 53 then 2 * pow2_below x - 1 else 2 * pow2_below x.

(** the distance divided by the larger and by the smaller of them *)
Definition low_rel (r : NumberRepresentation) (f g : list bdd) (a : asg) : Q :=
  (inject_Z (wrapped r f g a) / inject_Z (all_ones (Z.max 1 (Z.abs (value r f a)))))%Q.
Definition high_rel (r : NumberRepresentation) (f g : list bdd) (a : asg) : Q :=
  (inject_Z (wrapped r f g a) / inject_Z (pow2_below (Z.max 1 (Z.abs (value r f a)))))%Q.
