(** Property C121 for the adders made of blocks in closed form
    (src/example_bdds/approximate_adders.cpp, src/error_metrics/worst_case_bit_flip_error.cpp) *)
From Coq Require Import List Bool Arith ZArith.
From Verif Require Import Res Cudd CuddFacts Spec SpecLookback Helpers Examples Metrics AdderErrorFacts10.
Import ListNotations.
Open Scope nat_scope.

(** C121: all sum bits from the first one that does not see every position below it can be wrong at once *)
Theorem C121_gda : forall (M : mgr) (N p P : nat) (r s : list bdd),
  gracefully_degrading_adder M N p P = Ok r -> regular_adder M N = Ok s -> (Z.of_nat N + 1 < 2 ^ 32)%Z -> 1 < N ->
  worst_case_bit_flip_error M s r = Ok (Z.of_nat (if first_cut (N / p) P <? N then N + 1 - first_cut (N / p) P else 0)).
Proof. exact gda_flips. Qed.
Print Assumptions C121_gda.
Theorem C121_aca2 : forall (M : mgr) (N Q : nat) (r s : list bdd),
  almost_correct_adder_2 M N Q = Ok r -> regular_adder M N = Ok s -> (Z.of_nat N + 1 < 2 ^ 32)%Z -> 1 < N ->
  worst_case_bit_flip_error M s r = Ok (Z.of_nat (let d := N / (N / Q + 1) in if first_cut d (Q / 2) <? N then N + 1 - first_cut d (Q / 2) else 0)).
Proof. exact aca2_flips. Qed.
Print Assumptions C121_aca2.
Theorem C121_gear : forall (M : mgr) (N R P : nat) (r s : list bdd),
  generic_accuracy_reconfigurable_adder M N R P = Ok r -> regular_adder M N = Ok s -> (Z.of_nat N + 1 < 2 ^ 32)%Z ->
  worst_case_bit_flip_error M s r = Ok (Z.of_nat (if (0 <? R) && (R + P <? N) then N + 1 - (R + P) else 0)).
Proof. exact gear_flips. Qed.
Print Assumptions C121_gear.
Example C121_closed_case :
  let M := id_mgr 14 in
  match gracefully_degrading_adder M 5 2 1, gracefully_degrading_adder M 5 2 3, gracefully_degrading_adder M 5 5 0, almost_correct_adder_2 M 5 4,
    generic_accuracy_reconfigurable_adder M 5 2 1, generic_accuracy_reconfigurable_adder M 5 4 1, regular_adder M 5 with
  | Ok r1, Ok r2, Ok r3, Ok r4, Ok r5, Ok r6, Ok s =>
      map (worst_case_bit_flip_error M s) [r1; r2; r3; r4; r5; r6] = [Ok 4; Ok 2; Ok 4; Ok 2; Ok 3; Ok 0]%Z
  | _, _, _, _, _, _, _ => False
  end
  /\ [first_cut (5 / 2) 1; first_cut (5 / 2) 3; first_cut (5 / 5) 0; first_cut (5 / (5 / 4 + 1)) (4 / 2)] = [2; 4; 2; 4].
Proof. vm_compute. auto. Qed.
