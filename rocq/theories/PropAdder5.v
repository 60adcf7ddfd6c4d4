(** Property C179: more lookback never makes an approximate adder worse (src/example_bdds/approximate_adders.cpp) *)
From Coq Require Import List Bool Arith ZArith QArith.
From Verif Require Import Res Cudd CuddFacts Spec SpecAdder SpecBounds SpecLookback Helpers Examples Metrics RelMetrics AdderErrorFacts8.
Import ListNotations.
Open Scope nat_scope.

(** C179: the same sub adders with more lookback *)
Theorem C179_gracefully_degrading_adder : forall (M : mgr) (N p P P' : nat) (r r' s : list bdd),
  gracefully_degrading_adder M N p P = Ok r -> gracefully_degrading_adder M N p P' = Ok r' -> regular_adder M N = Ok s -> P <= P' ->
  no_value_worse N s r r' /\ no_metric_worse M N s r r'.
Proof. exact gda_better. Qed.
Print Assumptions C179_gracefully_degrading_adder.
(** GeAr: the lookback grows by a multiple of the bits a sub adder contributes *)
Theorem C179_gear : forall (M : mgr) (N R P t : nat) (r r' s : list bdd),
  generic_accuracy_reconfigurable_adder M N R P = Ok r -> generic_accuracy_reconfigurable_adder M N R (P + t * R) = Ok r' ->
  regular_adder M N = Ok s -> 0 < R -> no_value_worse N s r r' /\ no_metric_worse M N s r r'.
Proof. exact gear_better. Qed.
Print Assumptions C179_gear.
(** all adders with the same restarts *)
Theorem C179_same_restarts : forall (M : mgr) (N P P' : nat) (restart : nat -> bool) (r r' s : list bdd),
  approximate_adder M N restart P r -> approximate_adder M N restart P' r' -> regular_adder M N = Ok s -> P <= P' ->
  no_value_worse N s r r' /\ no_metric_worse M N s r r'.
Proof. exact same_restart_better. Qed.
Print Assumptions C179_same_restarts.
(** GDA with lookback 0 and 1; GeAr with lookback 0, 1 and 2 and sub adders that contribute 1 bit, and with
    sub adders that contribute 3 and 4 bits and no lookback: here the longer ones are worse *)
Example C179_case :
  let M := id_mgr 12 in
  let ace s r := match average_case_error M s r BaseTwo with Ok (Fin q) => Qred q | _ => 0%Q end in
  match gracefully_degrading_adder M 4 2 0, gracefully_degrading_adder M 4 2 1, generic_accuracy_reconfigurable_adder M 4 1 0,
    generic_accuracy_reconfigurable_adder M 4 1 1, generic_accuracy_reconfigurable_adder M 4 1 2, regular_adder M 4 with
  | Ok r1, Ok r2, Ok q1, Ok q2, Ok q3, Ok s => map (ace s) [r1; r2; q1; q2; q3] = [3 # 2; 1 # 2; 7 # 2; 3 # 2; 1 # 2]%Q
      /\ map (fun r => match error_rate M s r with Ok q => Qred q | _ => 0%Q end) [r1; r2; q1; q2; q3] = [3 # 8; 1 # 8; 37 # 64; 1 # 4; 1 # 16]%Q
  | _, _, _, _, _, _ => False
  end
  /\ match generic_accuracy_reconfigurable_adder M 6 3 0, generic_accuracy_reconfigurable_adder M 6 4 0, regular_adder M 6 with
     | Ok r, Ok r', Ok s => map (ace s) [r; r'] = [7 # 2; 15 # 2]%Q
     | _, _, _ => False
     end.
Proof. vm_compute. auto. Qed.
