(** Property C191: on the parity function every child replacement loses exactly half per level, so the bounds of C48 are attained
    (src/approximation_operators/approximation_operators.cpp 36-62, 83-198, 375-388; src/example_bdds/simple.cpp). *)
From Coq Require Import List Bool Arith ZArith QArith Lia.
From Verif Require Import Res Cudd Spec SpecFloat SpecOperators Helpers Counting Operators Examples Ieee HalfFacts.
Import ListNotations.
Open Scope nat_scope.

(** C191: whatever the counts are, also on doubles *)
Theorem C191_parity : forall (M : mgr) (n level_start level_end : nat), index_order M -> level_start <= level_end -> S level_end < n ->
  let k := Z.of_nat (level_end - level_start + 1) in
  (density n (xor_bdd M n) == 1 # 2)%Q
  /\ (forall op, In op [subset_light_child; subset_heavy_child; round_down] ->
      exists r, op M (xor_bdd M n) level_start level_end = Ok r /\ (density n (xor_bdd M n) == inject_Z (2 ^ k) * density n r)%Q)
  /\ (forall op, In op [superset_light_child; superset_heavy_child; round_up] ->
      exists r, op M (xor_bdd M n) level_start level_end = Ok r /\ (1 - density n (xor_bdd M n) == inject_Z (2 ^ k) * (1 - density n r))%Q)
  /\ (forall op, In op [subset_light_child_d; subset_heavy_child_d] ->
      exists r, op M (xor_bdd M n) level_start level_end = Ok r /\ (density n (xor_bdd M n) == inject_Z (2 ^ k) * density n r)%Q)
  /\ (forall op, In op [superset_light_child_d; superset_heavy_child_d] ->
      exists r, op M (xor_bdd M n) level_start level_end = Ok r /\ (1 - density n (xor_bdd M n) == inject_Z (2 ^ k) * (1 - density n r))%Q).
Proof. exact parity_ops. Qed.
Print Assumptions C191_parity.

(** the parity of five variables: levels 1 and 2 leave a quarter of the half *)
Example C191_case : let M := id_mgr 5 in let d r := match r with Ok f => Qred (density 5 f) | _ => 7%Q end in
  map (fun op => d (op (xor_bdd M 5) 1 2)) [subset_light_child M; subset_heavy_child M; round_down M; subset_light_child_d M; subset_heavy_child_d M]
    = repeat (1 # 8)%Q 5
  /\ map (fun op => d (op (xor_bdd M 5) 1 2)) [superset_light_child M; superset_heavy_child M; round_up M; superset_light_child_d M; superset_heavy_child_d M]
    = repeat (7 # 8)%Q 5
  /\ d (subset_light_child M (xor_bdd M 5) 0 4) = (1 # 32)%Q /\ d (subset_light_child M (xor_bdd M 5) 0 3) = (1 # 32)%Q. (* the last level of parity is not halved: S level_end < n *)
Proof. vm_compute. auto. Qed.
