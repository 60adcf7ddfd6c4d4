(** Rounding to a binary floating point format with [p] bits of precision: to the nearest number,
    ties to even. [p] is 53 for double, 24 for float. Subnormal numbers, overflow, infinities and
    NaN are not modelled. *)
From Coq Require Import Bool ZArith QArith Qround.

(** the nearest integer *)
Definition round_half_even (x : Q) : Z :=
  let z := Qfloor x in
  let r := (x - inject_Z z)%Q in
  if negb (Qle_bool (1 # 2) r) then z
  else if negb (Qle_bool r (1 # 2)) then (z + 1)%Z
  else if Z.even z then z else (z + 1)%Z.
(** the [e] with 2^e <= q < 2^(e+1) for positive [q] *)
Definition binary_exponent (q : Q) : Z :=
  let e := (Z.log2 (Qnum q) - Z.log2 (Zpos (Qden q)))%Z in
  if Qle_bool (2 ^ e) q then e else (e - 1)%Z.
(** the nearest multiple of the unit in the last place *)
Definition round_pos (p : Z) (q : Q) : Q :=
  let u := (2 ^ (binary_exponent q - (p - 1)))%Q in
  (inject_Z (round_half_even (q / u)) * u)%Q.
Definition round_float (p : Z) (q : Q) : Q :=
  match Qnum q with
  | Z0 => 0
  | Zpos _ => round_pos p q
  | Zneg _ => - round_pos p (- q)
  end%Q.
