(** Property C194: round_best on every output of a vector flips at most twice the fewest bits
    (src/approximation_operators/approximation_operators.cpp 72-81, 264-373; src/error_metrics/average_bit_flip_error.cpp). *)
From Coq Require Import List Bool Arith ZArith QArith Lia.
From Verif Require Import Res Cudd Spec Helpers Counting Metrics Operators RoundVectorFacts2.
Import ListNotations.
Open Scope nat_scope.

(** C194: for every variable order, against every choice of one child and one constant for each node of the level *)
Theorem C194_twice_fewest_flips : forall (M : mgr) (n : nat) (f : list bdd) (level : nat), Forall (wf M) f -> below n f ->
  exists g, map (fun b => round_best M b level level) f = map Ok g
    /\ forall h, Forall (wf M) h -> below n h -> Forall2 (fun b k => at_range level level child_const b (ev k)) f h ->
       exists q q', average_bit_flip_error M f g = Ok q /\ average_bit_flip_error M f h = Ok q' /\ (q <= 2 * q')%Q.
Proof. exact best_flips. Qed.
Print Assumptions C194_twice_fewest_flips.

(** C194: the factor two is attained for every number of outputs *)
Theorem C194_attained : forall m : nat, 1 <= m -> exists (M : mgr) (f g h : list bdd) (level : nat) (q q' : Q),
  index_order M /\ Forall (wf M) f /\ length f = m
  /\ map (fun b => round_best M b level level) f = map Ok g
  /\ Forall (wf M) h /\ Forall2 (fun b k => at_range level level child_const b (ev k)) f h
  /\ average_bit_flip_error M f g = Ok q /\ average_bit_flip_error M f h = Ok q' /\ (0 < q' /\ q == 2 * q')%Q.
Proof. exact best_flips_attained. Qed.
Print Assumptions C194_attained.

(** the half adder at level 0: the xor loses both children, the and keeps its only variable child *)
Example C194_case : let M := id_mgr 2 in let x := bvar 0 in let y := bvar 1 in
  let f := [bxor M x y; band M x y] in let g := [bzero; band M x y] in let h := [band M (bnot x) y; band M x y] in
  let value r := match r with Ok q => Qred q | _ => 9%Q end in
  map (fun b => round_best M b 0 0) f = map Ok g
  /\ (value (average_bit_flip_error M f g), value (average_bit_flip_error M f h)) = (1 # 2, 1 # 4)%Q.
Proof. vm_compute. auto. Qed.
