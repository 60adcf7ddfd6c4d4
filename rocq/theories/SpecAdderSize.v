(** The number of nodes of an approximate adder in the index order *)
From Coq Require Import List Bool Arith.
From Verif Require Import Spec SpecAdder.
Import ListNotations.
Open Scope nat_scope.

(** the number of positions looked at for the carry into position [k] *)
Definition looked_at (restart : nat -> bool) (P k : nat) : nat := k - before restart P k.
(** the nodes that belong to a sum bit whose carry looks at [d] positions, and to such a carry output *)
Definition sum_bit_size (d : nat) : nat := if d =? 0 then 2 else 3 * d + 1.
Definition carry_out_size (d : nat) : nat := if d =? 0 then 0 else 3 * d - 2.
Definition approximate_size (N : nat) (restart : nat -> bool) (P : nat) : nat :=
  1 + fold_right Nat.add 0 (map (fun k => sum_bit_size (looked_at restart P k)) (seq 0 N)) + carry_out_size (looked_at restart P N).
