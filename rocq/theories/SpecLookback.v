(** No error metric prefers the adder [r] to the adder [r'] *)
From Coq Require Import List Bool Arith ZArith QArith.
From Verif Require Import Res Cudd CuddFacts Spec SpecBounds Helpers Metrics RelMetrics.
Import ListNotations.
Open Scope nat_scope.

(** the values: inputs added exactly by [r] are added exactly by [r'], and the averages over all operands *)
Definition no_value_worse (N : nat) (s r r' : list bdd) : Prop :=
  (forall a, uval r a = uval s a -> uval r' a = uval s a)
  /\ (average (2 * N) (fun a => inject_Z (hamming s r' a)) <= average (2 * N) (fun a => inject_Z (hamming s r a)))%Q
  /\ (average (2 * N) (fun a => inject_Z (dist (uval s a) (uval r' a))) <= average (2 * N) (fun a => inject_Z (dist (uval s a) (uval r a))))%Q
  /\ (average (2 * N) (fun a => inject_Z (dist (uval s a) (uval r' a) * dist (uval s a) (uval r' a)))
      <= average (2 * N) (fun a => inject_Z (dist (uval s a) (uval r a) * dist (uval s a) (uval r a))))%Q
  /\ (average (2 * N) (fun a => rel (uval s a) (uval r' a)) <= average (2 * N) (fun a => rel (uval s a) (uval r a)))%Q
  /\ (average (2 * N) (low_rel BaseTwo s r') <= average (2 * N) (low_rel BaseTwo s r))%Q
  /\ (average (2 * N) (high_rel BaseTwo s r') <= average (2 * N) (high_rel BaseTwo s r))%Q.

(** the numbers the functions of the library return *)
Definition no_metric_worse (M : mgr) (N : nat) (s r r' : list bdd) : Prop :=
  (exists p q, error_rate M s r' = Ok p /\ error_rate M s r = Ok q /\ (p <= q)%Q)
  /\ (exists p q, average_bit_flip_error M s r' = Ok p /\ average_bit_flip_error M s r = Ok q /\ (p <= q)%Q)
  /\ ((Z.of_nat N + 1 < 2 ^ 32)%Z ->
       exists p q, worst_case_bit_flip_error M s r' = Ok p /\ worst_case_bit_flip_error M s r = Ok q /\ (p <= q)%Z)
  /\ (N < 256 -> exists p q, worst_case_error M s r' BaseTwo = Ok p /\ worst_case_error M s r BaseTwo = Ok q /\ (p <= q)%Z)
  /\ (3 * N + 1 < 256 ->
       (exists p q, average_case_error M s r' BaseTwo = Ok (Fin p) /\ average_case_error M s r BaseTwo = Ok (Fin q) /\ (p <= q)%Q)
       /\ exists lo hi lo' hi', acre_bounds M s r' BaseTwo = Ok (Fin lo', Fin hi')
            /\ acre_bounds M s r BaseTwo = Ok (Fin lo, Fin hi) /\ (lo' <= lo)%Q /\ (hi' <= hi)%Q)
  /\ (index_order M -> 2 * N <= 63 ->
       (exists p q, mean_squared_error_add M s r' BaseTwo = Ok (Fin p) /\ mean_squared_error_add M s r BaseTwo = Ok (Fin q) /\ (p <= q)%Q)
       /\ (exists p q, wcre_add M s r' BaseTwo = Ok p /\ wcre_add M s r BaseTwo = Ok q /\ (p <= q)%Q)
       /\ exists p q, acre_add M s r' BaseTwo = Ok (Fin p) /\ acre_add M s r BaseTwo = Ok (Fin q) /\ (p <= q)%Q).

(** the first position of the last block of an adder of [N] bits with blocks of length [d]: the largest multiple of
    [d] below [N]; no block ends at position 0 *)
Definition last_start (N d : nat) : nat := if (d =? 1) && (N =? 2) then 0 else d * ((N - 1) / d).
(** the first sum bit that does not see all positions below it: the first multiple of [d] beyond the lookback *)
Definition first_cut (d P : nat) : nat := if (d =? 1) && (P =? 0) then 2 else d * (P / d + 1).
(** the number of restarts below [n] that can forget a carry *)
Definition cuts (restart : nat -> bool) (P n : nat) : nat := length (filter (fun k => restart k && (P <=? k)) (seq 0 n)).
