(** Properties C121-C123: bit flips, relative errors and squared errors of the approximate adders
    (src/example_bdds/approximate_adders.cpp). [approximate_adder] and [before] as in C93-C97. *)
From Coq Require Import List Bool Arith ZArith QArith.
From Verif Require Import Res Cudd CuddFacts Spec SpecAdder Helpers Examples Metrics RelMetrics AdderErrorFacts5.
Import ListNotations.
Open Scope nat_scope.

(** C121: all outputs whose carry chain does not reach back to position 0 can be wrong at once *)
Theorem C121_worst_case_bit_flip_error : forall (M : mgr) (N P : nat) (restart : nat -> bool) (r s : list bdd),
  approximate_adder M N restart P r -> regular_adder M N = Ok s -> (Z.of_nat N + 1 < 2 ^ 32)%Z ->
  worst_case_bit_flip_error M s r = Ok (Z.of_nat (length (filter (fun i => 0 <? before restart P i) (seq 0 (N + 1))))).
Proof. exact worst_flips_full. Qed.
Print Assumptions C121_worst_case_bit_flip_error.
Theorem C121_almost_correct_adder_1 : forall (M : mgr) (N Q : nat) (r s : list bdd),
  almost_correct_adder_1 M N Q = Ok r -> regular_adder M N = Ok s -> (Z.of_nat N + 1 < 2 ^ 32)%Z ->
  worst_case_bit_flip_error M s r = Ok (Z.of_nat (N + 1 - Q)).
Proof. exact aca1_worst_flips. Qed.
Print Assumptions C121_almost_correct_adder_1.
Example C121_case :
  let M := id_mgr 10 in
  match almost_correct_adder_1 M 5 2, almost_correct_adder_2 M 5 4, gracefully_degrading_adder M 5 2 1, regular_adder M 5 with
  | Ok r1, Ok r2, Ok r3, Ok s => map (worst_case_bit_flip_error M s) [r1; r2; r3] = [Ok 4; Ok 2; Ok 4]%Z
  | _, _, _, _ => False
  end.
Proof. vm_compute. auto. Qed.

(** C122: an adder that is not exact has the largest possible relative error *)
Theorem C122_relative_error : forall (M : mgr) (N P : nat) (restart : nat -> bool) (r s : list bdd),
  approximate_adder M N restart P r -> regular_adder M N = Ok s ->
  ((exists k, k < N /\ restart k = true /\ P <= k) -> is_maxQ (fun a => rel (uval s a) (uval r a)) 1)
  /\ ((forall k, k < N -> restart k = true -> k < P) -> forall a, uval r a = uval s a).
Proof. exact relative_full. Qed.
Print Assumptions C122_relative_error.
Theorem C122_metrics : forall (M : mgr) (N P : nat) (restart : nat -> bool) (r s : list bdd),
  approximate_adder M N restart P r -> regular_adder M N = Ok s ->
  (exists k, k < N /\ restart k = true /\ P <= k) ->
  (index_order M -> 2 * N <= 63 -> exists q, wcre_add M s r BaseTwo = Ok q /\ (q == 1)%Q)
  /\ (N < 256 -> exists lo hi, wcre_bounds M s r BaseTwo = Ok (lo, hi) /\ (1 # 2 <= lo <= 1)%Q /\ (1 <= hi <= 2)%Q).
Proof. exact relative_metrics. Qed.
Print Assumptions C122_metrics.
Example C122_case : (* the adders of 4 bits with sub adders of 3 bits, and of 3 bits with one sub adder that looks back at everything *)
  let M := id_mgr 8 in
  match almost_correct_adder_1 M 4 3, regular_adder M 4, gracefully_degrading_adder M 3 3 3, regular_adder M 3 with
  | Ok r, Ok s, Ok r', Ok s' => wcre_add M s r BaseTwo = Ok 1%Q /\ match wcre_bounds M s r BaseTwo with Ok (lo, hi) => Qred lo = (8 # 15)%Q /\ Qred hi = 1%Q | _ => False end
      /\ wcre_add M s' r' BaseTwo = Ok 0%Q
  | _, _, _, _ => False
  end.
Proof. vm_compute. auto. Qed.

(** C123: every restart at [k] that forgets a carry generated at [g] contributes 4^(k+1) and the products with
    the carries forgotten below [g] *)
Theorem C123_mean_squared_error : forall (M : mgr) (N P : nat) (restart : nat -> bool) (r s : list bdd),
  approximate_adder M N restart P r -> regular_adder M N = Ok s ->
  let mean := sumQ (map (fun k => if restart k
    then sumQ (map (fun g => inject_Z (2 ^ Z.of_nat (k + g))
                 + inject_Z (2 ^ Z.of_nat g) * (inject_Z (2 ^ Z.of_nat (before restart P g)) - 1) / 2)%Q
               (seq (before restart P k) (k + 1 - P - before restart P k)))
    else 0%Q) (seq 0 N)) in
  (average (2 * N) (fun a => inject_Z (dist (uval s a) (uval r a) * dist (uval s a) (uval r a))) == mean)%Q
  /\ (index_order M -> 2 * N <= 63 -> exists q, mean_squared_error_add M s r BaseTwo = Ok (Fin q) /\ (q == mean)%Q).
Proof. exact squares_full. Qed.
Print Assumptions C123_mean_squared_error.
Example C123_case :
  let M := id_mgr 10 in
  match almost_correct_adder_1 M 5 2, almost_correct_adder_2 M 5 4, gracefully_degrading_adder M 5 2 1, regular_adder M 5 with
  | Ok r1, Ok r2, Ok r3, Ok s =>
      map (fun r => match mean_squared_error_add M s r BaseTwo with Ok (Fin q) => Qred q | _ => 0%Q end) [r1; r2; r3] = [184; 24; 52]%Q
  | _, _, _, _ => False
  end.
Proof. vm_compute. auto. Qed.
