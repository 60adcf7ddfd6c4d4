(** Property C95 for the adders made of blocks in closed form
    (src/example_bdds/approximate_adders.cpp, src/error_metrics/worst_case_error.cpp) *)
From Coq Require Import List Bool Arith ZArith.
From Verif Require Import Res Cudd CuddFacts Spec SpecLookback Helpers Examples Metrics AdderErrorFacts11.
Import ListNotations.
Open Scope nat_scope.

(** C95: the carries that can be lost together are those at the last cut and every [w] positions below it; the sum of
    their weights is a geometric sum *)
Theorem C95_gda : forall (M : mgr) (N p P : nat) (r s : list bdd),
  gracefully_degrading_adder M N p P = Ok r -> regular_adder M N = Ok s -> N < 256 -> 1 < N ->
  exists e, worst_case_error M s r BaseTwo = Ok e /\
    let d := N / p in let w := d * (P / d + 1) in
    if first_cut d P <? N
    then (e * (2 ^ Z.of_nat w - 1) = 2 ^ Z.of_nat (last_start N d + w)
         - 2 ^ Z.of_nat (first_cut d P + d * ((last_start N d - first_cut d P) / d mod (P / d + 1))))%Z
    else e = 0%Z.
Proof. exact gda_wce. Qed.
Print Assumptions C95_gda.
Theorem C95_aca2 : forall (M : mgr) (N Q : nat) (r s : list bdd),
  almost_correct_adder_2 M N Q = Ok r -> regular_adder M N = Ok s -> N < 256 -> 1 < N ->
  exists e, worst_case_error M s r BaseTwo = Ok e /\
    let d := N / (N / Q + 1) in let P := Q / 2 in let w := d * (P / d + 1) in
    if first_cut d P <? N
    then (e * (2 ^ Z.of_nat w - 1) = 2 ^ Z.of_nat (last_start N d + w)
         - 2 ^ Z.of_nat (first_cut d P + d * ((last_start N d - first_cut d P) / d mod (P / d + 1))))%Z
    else e = 0%Z.
Proof. exact aca2_wce. Qed.
Print Assumptions C95_aca2.
Theorem C95_gear : forall (M : mgr) (N R P : nat) (r s : list bdd),
  generic_accuracy_reconfigurable_adder M N R P = Ok r -> regular_adder M N = Ok s -> N < 256 ->
  exists e, worst_case_error M s r BaseTwo = Ok e
    /\ if (0 <? R) && (R + P <? N)
       then let t := (N - 1 - P) / R in let w := R * (P / R + 1) in
            (e * (2 ^ Z.of_nat w - 1) = 2 ^ Z.of_nat (P + R * t + w) - 2 ^ Z.of_nat (P + R * ((t - 1) mod (P / R + 1) + 1)))%Z
       else e = 0%Z.
Proof. exact gear_wce. Qed.
Print Assumptions C95_gear.
Example C95_closed_case :
  let M := id_mgr 14 in
  match gracefully_degrading_adder M 7 3 1, gracefully_degrading_adder M 7 3 2, gracefully_degrading_adder M 7 7 0, almost_correct_adder_2 M 7 4,
    generic_accuracy_reconfigurable_adder M 7 1 2, generic_accuracy_reconfigurable_adder M 7 2 1, generic_accuracy_reconfigurable_adder M 7 6 1, regular_adder M 7 with
  | Ok r1, Ok r2, Ok r3, Ok r4, Ok r5, Ok r6, Ok r7, Ok s =>
      map (fun r => worst_case_error M s r BaseTwo) [r1; r2; r3; r4; r5; r6; r7] = [Ok 84; Ok 64; Ok 124; Ok 72; Ok 72; Ok 40; Ok 0]%Z
  | _, _, _, _, _, _, _, _ => False
  end
  /\ [(84 * (2 ^ 2 - 1), 2 ^ 8 - 2 ^ 2); (64 * (2 ^ 4 - 1), 2 ^ 10 - 2 ^ 6); (72 * (2 ^ 3 - 1), 2 ^ 9 - 2 ^ 3); (40 * (2 ^ 2 - 1), 2 ^ 7 - 2 ^ 3)]%Z
   = [(252, 252); (960, 960); (504, 504); (120, 120)]%Z.
Proof. vm_compute. auto. Qed.
