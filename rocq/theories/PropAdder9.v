(** Property C181: how large the error rate of the approximate adders is
    (src/example_bdds/approximate_adders.cpp, src/error_metrics/error_rate.cpp) *)
From Coq Require Import List Bool Arith ZArith QArith.
From Verif Require Import Res Cudd CuddFacts Spec SpecFloat SpecAdder SpecLookback Helpers Examples Metrics AdderErrorFacts12.
Import ListNotations.
Open Scope nat_scope.

(** C181: every restart that can forget a carry adds at most 1 / 2^(P+1) *)
Theorem C181_upper : forall (M : mgr) (N P : nat) (restart : nat -> bool) (r s : list bdd),
  approximate_adder M N restart P r -> regular_adder M N = Ok s ->
  exists q, error_rate M s r = Ok q /\ (q <= inject_Z (Z.of_nat (cuts restart P N)) / inject_Z (2 ^ Z.of_nat (P + 1)))%Q.
Proof. exact rate_upper. Qed.
Print Assumptions C181_upper.
(** the first one alone gives 1 / 2^(P+1) - 1 / 2^(k0+2) *)
Theorem C181_lower : forall (M : mgr) (N P : nat) (restart : nat -> bool) (r s : list bdd) (k0 : nat),
  approximate_adder M N restart P r -> regular_adder M N = Ok s ->
  k0 < N -> restart k0 = true -> P <= k0 -> (forall k, k < k0 -> restart k && (P <=? k) = false) ->
  exists q, error_rate M s r = Ok q /\ (1 / inject_Z (2 ^ Z.of_nat (P + 1)) - 1 / inject_Z (2 ^ Z.of_nat (k0 + 2)) <= q)%Q
    /\ ((forall k, k0 < k < N -> restart k = false) -> (q == 1 / inject_Z (2 ^ Z.of_nat (P + 1)) - 1 / inject_Z (2 ^ Z.of_nat (k0 + 2)))%Q).
Proof. exact rate_lower. Qed.
Print Assumptions C181_lower.
(** without lookback the blocks are independent *)
Theorem C181_gda : forall (M : mgr) (N p : nat) (r s : list bdd),
  gracefully_degrading_adder M N p 0 = Ok r -> regular_adder M N = Ok s -> 2 <= N / p ->
  exists q, error_rate M s r = Ok q
    /\ (q == 1 - qpow (inject_Z (2 ^ Z.of_nat (N / p) + 1) / inject_Z (2 ^ Z.of_nat (N / p + 1))) ((N - 1) / (N / p)))%Q.
Proof. exact gda_rate. Qed.
Print Assumptions C181_gda.
Theorem C181_gear : forall (M : mgr) (N R : nat) (r s : list bdd),
  generic_accuracy_reconfigurable_adder M N R 0 = Ok r -> regular_adder M N = Ok s ->
  exists q, error_rate M s r = Ok q
    /\ (q == 1 - qpow (inject_Z (2 ^ Z.of_nat R + 1) / inject_Z (2 ^ Z.of_nat (R + 1))) ((N - 1) / R))%Q.
Proof. exact gear_rate. Qed.
Print Assumptions C181_gear.
Example C181_case :
  let M := id_mgr 12 in
  let rate s r := match error_rate M s r with Ok q => Qred q | _ => 0%Q end in
  match gracefully_degrading_adder M 6 3 0, gracefully_degrading_adder M 6 2 2, generic_accuracy_reconfigurable_adder M 6 1 0,
    generic_accuracy_reconfigurable_adder M 6 1 2, regular_adder M 6 with
  | Ok r1, Ok r2, Ok r3, Ok r4, Ok s => [rate s r1; rate s r2; rate s r3; rate s r4] = [39 # 64; 1 # 16; 781 # 1024; 3 # 16]%Q
  | _, _, _, _, _ => False
  end
  /\ Qred (1 - qpow (5 # 8) 2) = (39 # 64)%Q /\ Qred (1 / 8 - 1 / 16) = (1 # 16)%Q /\ Qred (1 - qpow (3 # 4) 5) = (781 # 1024)%Q
  /\ cuts (gear_end 6 1 2) 2 6 = 3.
Proof. vm_compute. auto. Qed.
