(** Property C94 for the adders made of blocks, without conditions on the parameters
    (src/example_bdds/approximate_adders.cpp, src/error_metrics/average_case_error.cpp) *)
From Coq Require Import List Bool Arith ZArith QArith.
From Verif Require Import Res Cudd CuddFacts Spec SpecLookback Helpers Examples Metrics AdderErrorFacts9.
Import ListNotations.
Open Scope nat_scope.

(** C94: for all parameters for which the adder exists *)
Theorem C94_gda_all_parameters : forall (M : mgr) (N p P : nat) (r s : list bdd),
  gracefully_degrading_adder M N p P = Ok r -> regular_adder M N = Ok s -> 3 * N + 1 < 256 ->
  exists q, average_case_error M s r BaseTwo = Ok (Fin q) /\ (q == (inject_Z (2 ^ Z.of_nat (last_start N (N / p) - P)) - 1) / 2)%Q.
Proof. exact gda_ace_any. Qed.
Print Assumptions C94_gda_all_parameters.
Theorem C94_aca2_all_parameters : forall (M : mgr) (N Q : nat) (r s : list bdd),
  almost_correct_adder_2 M N Q = Ok r -> regular_adder M N = Ok s -> 3 * N + 1 < 256 ->
  exists q, average_case_error M s r BaseTwo = Ok (Fin q)
    /\ (q == (inject_Z (2 ^ Z.of_nat (last_start N (N / (N / Q + 1)) - Q / 2)) - 1) / 2)%Q.
Proof. exact aca2_ace_any. Qed.
Print Assumptions C94_aca2_all_parameters.
Theorem C94_gear_all_parameters : forall (M : mgr) (N R P : nat) (r s : list bdd),
  generic_accuracy_reconfigurable_adder M N R P = Ok r -> regular_adder M N = Ok s -> 3 * N + 1 < 256 ->
  exists q, average_case_error M s r BaseTwo = Ok (Fin q) /\ (q == (inject_Z (2 ^ Z.of_nat (R * ((N - 1 - P) / R))) - 1) / 2)%Q.
Proof. exact gear_ace_any. Qed.
Print Assumptions C94_gear_all_parameters.
Example C94_all_parameters_case : (* widths that are no multiple of the block length *)
  let M := id_mgr 14 in
  let ace s r := match average_case_error M s r BaseTwo with Ok (Fin q) => Qred q | _ => 0%Q end in
  match gracefully_degrading_adder M 5 2 1, gracefully_degrading_adder M 2 2 0, almost_correct_adder_2 M 5 2, almost_correct_adder_2 M 7 4,
    generic_accuracy_reconfigurable_adder M 5 2 0, generic_accuracy_reconfigurable_adder M 5 4 0 with
  | Ok r1, Ok r2, Ok r3, Ok r4, Ok r5, Ok r6 =>
      match regular_adder M 2, regular_adder M 5, regular_adder M 7 with
      | Ok s2, Ok s5, Ok s7 => [ace s5 r1; ace s2 r2; ace s5 r3; ace s7 r4; ace s5 r5; ace s5 r6] = [7 # 2; 0; 7 # 2; 15 # 2; 15 # 2; 15 # 2]%Q
      | _, _, _ => False
      end
  | _, _, _, _, _, _ => False
  end
  /\ [last_start 5 (5 / 2) - 1; last_start 2 (2 / 2) - 0; last_start 5 (5 / (5 / 2 + 1)) - 2 / 2; last_start 7 (7 / (7 / 4 + 1)) - 4 / 2;
      2 * ((5 - 1 - 0) / 2); 4 * ((5 - 1 - 0) / 4)] = [3; 0; 3; 4; 4; 4].
Proof. vm_compute. auto. Qed.
