(** Properties C93-C97: the errors of the approximate adders (src/example_bdds/approximate_adders.cpp)
    in closed form. [approximate_adder M N restart P r] says that [r] is one of the four
    adders and where its carry chain restarts; [number n x] is the number with bits [x 0 .. x (n-1)]. *)
From Coq Require Import List Bool Arith ZArith QArith.
From Verif Require Import Res Cudd CuddFacts Spec SpecAdder Helpers Examples Metrics AdderErrorFacts AdderErrorFacts2 AdderErrorFacts3.
Import ListNotations.
Open Scope nat_scope.

(** C93 *)
Theorem C93_value : forall (M : mgr) (N P : nat) (restart : nat -> bool) (r : list bdd),
  approximate_adder M N restart P r -> forall a,
  (uval r a = number N (op1 a) + number N (op2 a) - 2 * number N (forgets restart P (op1 a) (op2 a)))%Z.
Proof. intros M N P restart r. exact (adder_value M N restart P r). Qed.
Print Assumptions C93_value.
Example C93_case : (* 7 + 1 with sub adders of 2 bits: a carry is forgotten at position 1 *)
  let a := fun i => Nat.even i || (i =? 1) in
  match almost_correct_adder_1 (id_mgr 6) 3 2 with
  | Ok r => number 3 (op1 a) = 7%Z /\ number 3 (op2 a) = 1%Z /\ uval r a = 4%Z
      /\ map (forgets (fun k => 1 <=? k) 1 (op1 a) (op2 a)) [0; 1; 2] = [false; true; false]
  | _ => False
  end.
Proof. vm_compute. auto. Qed.

(** C94 *)
Theorem C94_average_case_error : forall (M : mgr) (N P : nat) (restart : nat -> bool) (r s : list bdd),
  approximate_adder M N restart P r -> regular_adder M N = Ok s -> 3 * N + 1 < 256 ->
  exists q, average_case_error M s r BaseTwo = Ok (Fin q)
    /\ (q == (inject_Z (2 ^ Z.of_nat (lookback restart P (N - 1))) - 1) / 2)%Q.
Proof. exact two_ace. Qed.
Print Assumptions C94_average_case_error.
Theorem C94_almost_correct_adder_1 : forall (M : mgr) (N Q : nat) (r s : list bdd),
  almost_correct_adder_1 M N Q = Ok r -> regular_adder M N = Ok s -> 3 * N + 1 < 256 ->
  exists q, average_case_error M s r BaseTwo = Ok (Fin q) /\ (q == (inject_Z (2 ^ Z.of_nat (N + 1 - Q)) - 1) / 2)%Q.
Proof. exact aca1_ace. Qed.
Print Assumptions C94_almost_correct_adder_1.
Theorem C94_gracefully_degrading_adder : forall (M : mgr) (N p P : nat) (r s : list bdd),
  gracefully_degrading_adder M N p P = Ok r -> regular_adder M N = Ok s -> 3 * N + 1 < 256 ->
  1 < p -> N mod p = 0 -> 2 < N ->
  exists q, average_case_error M s r BaseTwo = Ok (Fin q) /\ (q == (inject_Z (2 ^ Z.of_nat (N - N / p - P)) - 1) / 2)%Q.
Proof. exact gda_ace. Qed.
Print Assumptions C94_gracefully_degrading_adder.
Theorem C94_gear : forall (M : mgr) (N R P : nat) (r s : list bdd),
  generic_accuracy_reconfigurable_adder M N R P = Ok r -> regular_adder M N = Ok s -> 3 * N + 1 < 256 ->
  0 < R -> R + P <= N -> (N - P) mod R = 0 ->
  exists q, average_case_error M s r BaseTwo = Ok (Fin q) /\ (q == (inject_Z (2 ^ Z.of_nat (N - R - P)) - 1) / 2)%Q.
Proof. exact gear_ace. Qed.
Print Assumptions C94_gear.
Theorem C94_average_bit_flip_error : forall (M : mgr) (N P : nat) (restart : nat -> bool) (r s : list bdd),
  approximate_adder M N restart P r -> regular_adder M N = Ok s ->
  exists q, average_bit_flip_error M s r = Ok q
    /\ (q == sumQ (map (fun i => (inject_Z (2 ^ Z.of_nat (before restart P i)) - 1) / inject_Z (2 ^ Z.of_nat (i + 1)))
                    (seq 0 (N + 1))))%Q.
Proof. exact two_flips. Qed.
Print Assumptions C94_average_bit_flip_error.
Example C94_case :
  let M := id_mgr 8 in
  match almost_correct_adder_1 M 4 2, gracefully_degrading_adder M 4 2 1, generic_accuracy_reconfigurable_adder M 4 1 1, regular_adder M 4 with
  | Ok r1, Ok r2, Ok r3, Ok s =>
      map (fun r => match average_case_error M s r BaseTwo with Ok (Fin q) => Qred q | _ => 0%Q end) [r1; r2; r3] = [7#2; 1#2; 3#2]%Q
      /\ map (fun r => match average_bit_flip_error M s r with Ok q => Qred q | _ => 0%Q end) [r1] = [17#32]%Q
  | _, _, _, _ => False
  end.
Proof. vm_compute. auto. Qed.

(** C95 *)
Theorem C95_worst_case_error : forall (M : mgr) (N P : nat) (restart : nat -> bool) (r s : list bdd),
  approximate_adder M N restart P r -> regular_adder M N = Ok s -> N < 256 ->
  worst_case_error M s r BaseTwo = Ok (2 * hd 0 (largest_losses restart P N))%Z.
Proof. exact two_wce. Qed.
Print Assumptions C95_worst_case_error.
Theorem C95_almost_correct_adder_1 : forall (M : mgr) (N Q : nat) (r s : list bdd),
  almost_correct_adder_1 M N Q = Ok r -> regular_adder M N = Ok s -> N < 256 ->
  exists m, worst_case_error M s r BaseTwo = Ok m
    /\ (m * (2 ^ Z.of_nat Q - 1) = 2 ^ Z.of_nat (N + Q) - 2 ^ Z.of_nat (N mod Q + Q))%Z.
Proof. exact aca1_wce. Qed.
Print Assumptions C95_almost_correct_adder_1.
Example C95_case :
  let M := id_mgr 10 in
  match almost_correct_adder_1 M 4 2, almost_correct_adder_1 M 5 2, regular_adder M 4, regular_adder M 5 with
  | Ok r, Ok r', Ok s, Ok s' => worst_case_error M s r BaseTwo = Ok 20%Z /\ worst_case_error M s' r' BaseTwo = Ok 40%Z
  | _, _, _, _ => False
  end /\ largest_losses (gear_end 6 1 1) 1 6 = [20; 20; 10; 4; 2; 0; 0]%Z.
Proof. vm_compute. auto. Qed.

(** C96 *)
Theorem C96_error_rate : forall (M : mgr) (N P : nat) (restart : nat -> bool) (r s : list bdd),
  approximate_adder M N restart P r -> regular_adder M N = Ok s ->
  exists q, error_rate M s r = Ok q
    /\ (q == 1 - inject_Z (hd 0%Z (exact_pairs restart P N)) / inject_Z (4 ^ Z.of_nat N))%Q.
Proof. exact two_rate. Qed.
Print Assumptions C96_error_rate.
Example C96_case :
  let M := id_mgr 8 in
  match almost_correct_adder_1 M 4 2, regular_adder M 4 with
  | Ok r, Ok s => match error_rate M s r with Ok q => Qred q = (23#64)%Q | _ => False end
      /\ exact_pairs (fun k => 1 <=? k) 1 4 = [164; 48; 14; 4; 1]%Z
  | _, _ => False
  end.
Proof. vm_compute. auto. Qed.

(** C97: false as stated *)
Theorem C97_longer_sub_adders_refuted : exists (M : mgr) (N Q R : nat) (r r' s : list bdd) (a : asg),
  Q < R /\ almost_correct_adder_1 M N Q = Ok r /\ almost_correct_adder_1 M N R = Ok r' /\ regular_adder M N = Ok s
  /\ (dist (uval s a) (uval r a) < dist (uval s a) (uval r' a))%Z.
Proof. exact aca1_worse. Qed.
Print Assumptions C97_longer_sub_adders_refuted.
(** what holds: an exact sum stays exact, and no metric gets worse *)
Theorem C97_longer_sub_adders_partial : forall (M : mgr) (N Q R : nat) (r r' s : list bdd),
  almost_correct_adder_1 M N Q = Ok r -> almost_correct_adder_1 M N R = Ok r' -> regular_adder M N = Ok s -> Q <= R ->
  (forall a, uval r a = uval s a -> uval r' a = uval s a)
  /\ (exists p q, error_rate M s r' = Ok p /\ error_rate M s r = Ok q /\ (p <= q)%Q)
  /\ (exists p q, average_bit_flip_error M s r' = Ok p /\ average_bit_flip_error M s r = Ok q /\ (p <= q)%Q)
  /\ (N < 256 -> exists p q, worst_case_error M s r' BaseTwo = Ok p /\ worst_case_error M s r BaseTwo = Ok q /\ (p <= q)%Z)
  /\ (3 * N + 1 < 256 -> exists p q, average_case_error M s r' BaseTwo = Ok (Fin p)
        /\ average_case_error M s r BaseTwo = Ok (Fin q) /\ (p <= q)%Q).
Proof. exact aca1_better. Qed.
Print Assumptions C97_longer_sub_adders_partial.
Example C97_case :
  let M := id_mgr 6 in let a := fun i => Nat.even i || (i =? 1) in
  match almost_correct_adder_1 M 3 1, almost_correct_adder_1 M 3 2, regular_adder M 3 with
  | Ok r, Ok r', Ok s => uval s a = 8%Z /\ uval r a = 6%Z /\ uval r' a = 4%Z
      /\ worst_case_error M s r BaseTwo = Ok 14%Z /\ worst_case_error M s r' BaseTwo = Ok 8%Z
  | _, _, _ => False
  end.
Proof. vm_compute. auto. Qed.
