(** Property C154: the maps of src/util/cudd_helpers.cpp:74-167 and src/approximation_operators/approximation_operators.cpp:105-373
    bound the work: every subfunction is treated once. *)
From Coq Require Import List Bool Arith ZArith QArith Lia.
From Verif Require Import Res Cudd Spec Counting Operators SpecOperators OutOfMemory WorkFacts.
Import ListNotations.
Open Scope nat_scope.

(** C154: an operator calls [Cudd_bddIte] at most [2 N - 3] times for a BDD of [N] nodes: if these calls succeed, it returns its result,
    whatever the outcome of later calls would be *)
Theorem C154_operator_work : forall (M : mgr) (ls le i : nat) (fails : nat -> bool) op op_oom (f : bdd),
  nth_error (the_operators M ls le) i = Some op -> nth_error (operators_oom M fails ls le) i = Some op_oom ->
  (forall j, j < 2 * nodeCount [f] - 3 -> fails j = false) -> exists r, op f = Ok r /\ op_oom f = Ok (Some r).
Proof. exact operator_work. Qed.
Print Assumptions C154_operator_work.
(** the maps of the counts have at most two entries per node *)
Theorem C154_maps : forall f : bdd,
  length (count_minterms f) <= 2 * nodeCount [f] /\ length (count_solutions f) <= 2 * nodeCount [f].
Proof. exact maps_work. Qed.
Print Assumptions C154_maps.
Example C154_case : (* the parity of six variables has 7 nodes and 64 paths; the bound of 11 calls is reached *)
  let M := id_mgr 6 in let f := fold_right (fun v acc => bxor M (bvar v) acc) bzero (seq 0 6) in
  nodeCount [f] = 7 /\ length (count_minterms f) = 13
  /\ map (fun k => round_bdd_oom M (Nat.eqb k) f 6) [9; 10; 11] = [UB; Ok None; Ok (Some f)].
Proof. vm_compute. auto. Qed.
