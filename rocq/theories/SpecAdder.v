(** Which approximate adder restarts its carry chain where, and the errors that follow from it *)
From Coq Require Import List Bool Arith ZArith QArith.
From Verif Require Import Res Cudd Spec Examples.
Import ListNotations.
Open Scope nat_scope.

(** [r] is one of the approximate adders for [N] bits; its carry chain restarts at the positions
    [restart] with [P] positions of lookback *)
Inductive approximate_adder (M : mgr) (N : nat) : (nat -> bool) -> nat -> list bdd -> Prop :=
| is_aca1 Q r : almost_correct_adder_1 M N Q = Ok r ->
    approximate_adder M N (fun k => Q - 1 <=? k) (Q - 1) r
| is_aca2 Q r : almost_correct_adder_2 M N Q = Ok r ->
    approximate_adder M N (block_end N (N / (N / Q + 1))) (Q / 2) r
| is_gda p P r : gracefully_degrading_adder M N p P = Ok r ->
    approximate_adder M N (block_end N (N / p)) P r
| is_gear R P r : generic_accuracy_reconfigurable_adder M N R P = Ok r ->
    approximate_adder M N (gear_end N R P) P r.

(** the first position looked at before a restart at position [k] *)
Definition before (restart : nat -> bool) (P k : nat) : nat :=
  match k with O => 0 | S k' => lookback restart P k' end.
(** the restart at position [k] forgets a carry: it is generated at a position [g] that is looked at
    before the restart, but not after it, and it is propagated through position [k] *)
Definition generates (x y : nat -> bool) (k g : nat) : bool :=
  x g && y g && forallb (fun j => xorb (x j) (y j)) (seq (S g) (k - g)).
Definition forgets (restart : nat -> bool) (P : nat) (x y : nat -> bool) (k : nat) : bool :=
  restart k && existsb (generates x y k) (seq (before restart P k) (k + 1 - P - before restart P k)).

(** the largest number with bit [k] for every restart at [k < n] that forgets a carry, for
    [n], [n - 1], ..., [0] positions *)
Fixpoint largest_losses (restart : nat -> bool) (P n : nat) : list Z :=
  match n with
  | O => [0%Z]
  | S k => let l := largest_losses restart P k in
      (if restart k && (P <=? k) then (2 ^ Z.of_nat k + nth P l 0)%Z else hd 0%Z l) :: l
  end.
(** the number of pairs of operands for which no carry is forgotten, for [n], [n - 1], ..., [0] positions *)
Definition sumZ (l : list Z) : Z := fold_right Z.add 0%Z l.
Fixpoint exact_pairs (restart : nat -> bool) (P n : nat) : list Z :=
  match n with
  | O => [1%Z]
  | S k => let l := exact_pairs restart P k in
      (4 * hd 0 l - (if restart k then sumZ (map (fun j => 2 ^ Z.of_nat j * nth j l 0)
                                         (seq P (k - before restart P k + 1 - P))) else 0))%Z :: l
  end.
