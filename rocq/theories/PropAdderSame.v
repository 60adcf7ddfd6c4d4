(** Property C162: which configurations of the approximate adders (src/example_bdds/approximate_adders.cpp) are the same
    circuits, and which are exact. BDD vectors are compared, so equal means identical nodes. *)
From Coq Require Import List Bool Arith ZArith Lia.
From Verif Require Import Res Cudd CuddFacts Spec SpecAdder Examples AdderErrorFacts6.
Import ListNotations.
Open Scope nat_scope.

(** C162: two approximate adders are the same exactly if all their carries look back to the same positions *)
Theorem C162_same_adders : forall (M : mgr) (N : nat) (restart : nat -> bool) (P : nat) (r : list bdd) (restart' : nat -> bool) (P' : nat) (r' : list bdd),
  approximate_adder M N restart P r -> approximate_adder M N restart' P' r' ->
  (r = r' <-> forall k, k < N -> lookback restart P k = lookback restart' P' k).
Proof. exact same_iff. Qed.
Print Assumptions C162_same_adders.
Theorem C162_same_bits : forall (M : mgr) (N : nat) (restart : nat -> bool) (P : nat) (r : list bdd) (restart' : nat -> bool) (P' : nat) (r' : list bdd) (k : nat),
  approximate_adder M N restart P r -> approximate_adder M N restart' P' r' -> k < N ->
  (nth (S k) r bzero = nth (S k) r' bzero <-> lookback restart P k = lookback restart' P' k).
Proof. exact same_bit_iff. Qed.
Print Assumptions C162_same_bits.
(** the carry out of the almost correct adder 1 is never that of the generic adder with the same windows (C105) *)
Theorem C162_aca1_gear : forall (M : mgr) (N Q : nat) (r r' : list bdd),
  almost_correct_adder_1 M N Q = Ok r -> generic_accuracy_reconfigurable_adder M N 1 (Q - 1) = Ok r' -> nth N r bzero <> nth N r' bzero.
Proof. exact aca1_gear_never. Qed.
Print Assumptions C162_aca1_gear.
(** the sufficient conditions of C106 in necessary and sufficient form *)
Theorem C162_aca2_gear : forall (M : mgr) (N Q : nat) (r r' : list bdd),
  almost_correct_adder_2 M N Q = Ok r -> generic_accuracy_reconfigurable_adder M N (Q / 2) (Q / 2) = Ok r' ->
  (r = r' <-> N / (N / Q + 1) = Q / 2).
Proof. exact aca2_gear_iff. Qed.
Print Assumptions C162_aca2_gear.
Theorem C162_gda_gear : forall (M : mgr) (N p P : nat) (r r' : list bdd), 0 < p <= N ->
  gracefully_degrading_adder M N p P = Ok r -> generic_accuracy_reconfigurable_adder M N (N / p) P = Ok r' ->
  let d := N / p in (r = r' <-> (1 < d + P /\ P mod d = 0) \/ N <= (P / d + 1) * d).
Proof. exact gda_gear_iff. Qed.
Print Assumptions C162_gda_gear.
(** the exact configurations *)
Theorem C162_aca1_exact : forall (M : mgr) (N Q : nat) (r s : list bdd),
  almost_correct_adder_1 M N Q = Ok r -> regular_adder M N = Ok s -> r <> s.
Proof. exact aca1_never_exact. Qed.
Print Assumptions C162_aca1_exact.
Theorem C162_aca2_exact : forall (M : mgr) (N Q : nat) (r s : list bdd),
  almost_correct_adder_2 M N Q = Ok r -> regular_adder M N = Ok s -> (r = s <-> Q = N /\ (N = 1 \/ N mod 2 = 0)).
Proof. exact aca2_exact_iff. Qed.
Print Assumptions C162_aca2_exact.
Theorem C162_gda_exact : forall (M : mgr) (N p P : nat) (r s : list bdd), 0 < p <= N ->
  gracefully_degrading_adder M N p P = Ok r -> regular_adder M N = Ok s -> (r = s <-> N <= (Nat.max P 1 / (N / p) + 1) * (N / p)).
Proof. exact gda_exact_iff. Qed.
Print Assumptions C162_gda_exact.
Theorem C162_gear_exact : forall (M : mgr) (N R P : nat) (r s : list bdd),
  generic_accuracy_reconfigurable_adder M N R P = Ok r -> regular_adder M N = Ok s -> (r = s <-> R = 0 \/ N <= R + P).
Proof. exact gear_exact_iff. Qed.
Print Assumptions C162_gear_exact.
Example C162_case : let M := id_mgr 12 in
  let same x y := match x, y with Ok r, Ok r' => forallb (fun p => bdd_eqb (fst p) (snd p)) (combine r r') | _, _ => false end in
  (* N = 6: ACA2 with partitions of 4 bits has blocks of 3 bits, GDA in blocks of 2 *)
  same (almost_correct_adder_2 M 6 4) (generic_accuracy_reconfigurable_adder M 6 2 2) = false /\ 6 / (6 / 4 + 1) = 3
  /\ same (gracefully_degrading_adder M 6 3 2) (generic_accuracy_reconfigurable_adder M 6 2 2) = true
  /\ same (gracefully_degrading_adder M 6 3 1) (generic_accuracy_reconfigurable_adder M 6 2 1) = false
  /\ same (gracefully_degrading_adder M 6 3 4) (regular_adder M 6) = true /\ same (gracefully_degrading_adder M 6 3 3) (regular_adder M 6) = false
  /\ same (almost_correct_adder_2 M 6 6) (regular_adder M 6) = true /\ same (almost_correct_adder_2 M 5 5) (regular_adder M 5) = false
  /\ same (generic_accuracy_reconfigurable_adder M 6 2 4) (regular_adder M 6) = true.
Proof. vm_compute. auto 10. Qed.
