(** The remainder of a rational number *)
From Coq Require Import ZArith QArith Qround.

(** [x] reduced to the range from 0 to [m] by subtracting a multiple of [m] *)
Definition remainderQ (x m : Q) : Q := (x - inject_Z (Qfloor (x / m)) * m)%Q.
