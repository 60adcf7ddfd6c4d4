(** Property C176: the sizes of the approximate adders (src/example_bdds/approximate_adders.cpp). *)
From Coq Require Import List Bool Arith ZArith.
From Verif Require Import Res Cudd Spec Helpers Examples SpecAdder SpecAdderSize AdderSize2 AdderSize3.
Import ListNotations.
Open Scope nat_scope.

(** C176: the number of nodes follows from the positions looked at for every carry *)
Theorem C176_size : forall (M : mgr) (N : nat) (restart : nat -> bool) (P : nat) (r : list bdd), index_order M ->
  approximate_adder M N restart P r -> nodeCount r = approximate_size N restart P.
Proof. exact approximate_adder_size. Qed.
Print Assumptions C176_size.
(** an approximate adder is never larger than the exact one, and smaller if it is wrong for some operands *)
Theorem C176_never_larger : forall (M : mgr) (N : nat) (restart : nat -> bool) (P : nat) (r : list bdd), index_order M ->
  approximate_adder M N restart P r ->
  2 * nodeCount r <= N * (3 * N + 5)
  /\ ((exists a, uval r a <> (number N (op1 a) + number N (op2 a))%Z) -> 2 * nodeCount r < N * (3 * N + 5)).
Proof. exact approximate_never_larger. Qed.
Print Assumptions C176_never_larger.
(** closed forms: almost_correct_adder_1 is linear in N, gracefully_degrading_adder without lookback is linear in the number of blocks *)
Theorem C176_almost_correct_1 : forall (M : mgr) (N Q : nat) (r : list bdd), index_order M -> 2 <= Q ->
  almost_correct_adder_1 M N Q = Ok r ->
  2 * nodeCount r + 3 * (Q - 1) * (Q - 1) = 2 * N + 6 * N * (Q - 1) + 3 * (Q - 1).
Proof. exact aca1_size. Qed.
Print Assumptions C176_almost_correct_1.
Theorem C176_no_carry : forall (M : mgr) (N : nat) (r : list bdd), index_order M ->
  almost_correct_adder_1 M N 1 = Ok r -> nodeCount r = 2 * N + 1.
Proof. exact aca1_size_one. Qed.
Print Assumptions C176_no_carry.
Theorem C176_gracefully_degrading : forall (M : mgr) (N p d : nat) (r : list bdd), index_order M -> 2 <= d -> N = p * d ->
  gracefully_degrading_adder M N p 0 = Ok r -> 2 * nodeCount r = p * (3 * d * d - d + 2) + 6 * d - 2.
Proof. exact gda_size. Qed.
Print Assumptions C176_gracefully_degrading.
Definition adder_size (r : res (list bdd)) : nat := match r with Ok r => nodeCount r | _ => 0 end.
Example C176_case :
  (map (fun Q => adder_size (almost_correct_adder_1 (id_mgr 10) 5 Q)) [1; 2; 3; 4; 5] = [11; 20; 32; 41; 47])
  /\ (map (fun p => adder_size (gracefully_degrading_adder (id_mgr 12) 6 p 0)) [1; 2; 3; 6] = [69; 34; 23; 16])
  /\ (adder_size (generic_accuracy_reconfigurable_adder (id_mgr 12) 6 2 2) = 51 /\ approximate_size 6 (gear_end 6 2 2) 2 = 51)
  /\ (adder_size (almost_correct_adder_2 (id_mgr 12) 6 3) = 36 /\ approximate_size 6 (block_end 6 (6 / (6 / 3 + 1))) (3 / 2) = 36).
Proof. vm_compute. repeat split; reflexivity. Qed.
