(** Property C189: round_bdd and round_best on doubles are as good as on exact numbers up to the rounding of the densities
    (src/approximation_operators/approximation_operators.cpp 64-81, 200-373). *)
From Coq Require Import List Bool Arith ZArith QArith Lia.
From Verif Require Import Res Cudd Spec SpecFloat Helpers Counting Operators Ieee CuddFacts HelpersFacts NearFacts NearFacts2.
Import ListNotations.
Open Scope nat_scope.

(** C189: any number of variables, also beyond the range of double; [x], [y] and [a] are as in C172 *)
Theorem C189_near_optimal : forall (M : mgr) (f : bdd) (n level : nat), index_order M -> wf M f -> depends_below n f ->
  let x := qpow (1 - 2 ^ (-53)) (2 * n) in let y := qpow (1 + 2 ^ (-53)) (2 * n) in let a := (inject_Z (Z.of_nat (3 * n)) * 2 ^ (-1075))%Q in
  exists r, round_bdd_d M f level = Ok r /\ wf M r /\ depends_below level r
    /\ forall h, below_fun level h -> (disagreement n (ev f) (ev r) <= disagreement n (ev f) h + 2 * (y - x + y * a))%Q.
Proof. exact round_near. Qed.
Print Assumptions C189_near_optimal.

(** C189: at most n * 2^-49 of the inputs are lost *)
Theorem C189_near_optimal_simple : forall (M : mgr) (f : bdd) (n level : nat), index_order M -> wf M f -> depends_below n f -> (Z.of_nat n <= 2 ^ 50)%Z ->
  exists r, round_bdd_d M f level = Ok r
    /\ forall h, below_fun level h -> (disagreement n (ev f) (ev r) <= disagreement n (ev f) h + inject_Z (Z.of_nat n) * 2 ^ (-49))%Q.
Proof. exact round_near_simple. Qed.
Print Assumptions C189_near_optimal_simple.

(** C189: with doubles the optimality of C49 is lost *)
Theorem C189_optimal_refuted : exists (M : mgr) (f : bdd) (n level : nat) (r : bdd) (h : asg -> bool),
  index_order M /\ wf M f /\ depends_below n f /\ round_bdd_d M f level = Ok r /\ below_fun level h
  /\ (disagreement n (ev f) h < disagreement n (ev f) (ev r))%Q.
Proof. exact round_not_optimal. Qed.
Print Assumptions C189_optimal_refuted.

(** C189: round_best at one level: the factor two is that of C50 (ties), the rest is due to the rounding; all variable orders *)
Theorem C189_round_best : forall (M : mgr) (f : bdd) (n level : nat), wf M f -> depends_below n f ->
  let x := qpow (1 - 2 ^ (-53)) (2 * n) in let y := qpow (1 + 2 ^ (-53)) (2 * n) in let a := (inject_Z (Z.of_nat (3 * n)) * 2 ^ (-1075))%Q in
  exists r, round_best_d M f level level = Ok r /\ wf M r
    /\ forall h, at_range level level child_const f h ->
       (disagreement n (ev f) (ev r) <= 2 * disagreement n (ev f) h + 2 * (y - x + y * a) + (2 ^ (-53) + 2 ^ (-1075)))%Q.
Proof. exact best_near. Qed.
Print Assumptions C189_round_best.
Theorem C189_round_best_simple : forall (M : mgr) (f : bdd) (n level : nat), wf M f -> depends_below n f -> (Z.of_nat n <= 2 ^ 50)%Z ->
  exists r, round_best_d M f level level = Ok r
    /\ forall h, at_range level level child_const f h ->
       (disagreement n (ev f) (ev r) <= 2 * disagreement n (ev f) h + inject_Z (Z.of_nat n + 1) * 2 ^ (-49))%Q.
Proof. exact best_near_simple. Qed.
Print Assumptions C189_round_best_simple.
Example C189_round_best_case : let M := id_mgr 3 in
  let f := bor M (band M (bvar 0) (bvar 1)) (band M (bnot (bvar 0)) (band M (bvar 1) (bvar 2))) in
  round_best_d M f 0 0 = Ok (band M (bvar 0) (bvar 1)) /\ round_best_d M (bxor M (bvar 0) (bvar 1)) 0 0 = Ok bzero.
Proof. vm_compute. auto. Qed.

Example C189_case : let M := id_mgr 3 in let f := bor M (band M (bvar 0) (bvar 1)) (band M (bvar 2) (bor M (bvar 0) (bvar 1))) in
  round_bdd_d M f 1 = Ok (bvar 0) (* the majority of three inputs *)
  /\ round_bdd M near_half 0 = Ok bone /\ round_bdd_d M near_half 0 = Ok bzero (* density 1/2 + 2^-60 *)
  /\ Qred (frac near_half - (1 # 2)) = Qred (2 ^ (-60)).
Proof. vm_compute. auto. Qed.
