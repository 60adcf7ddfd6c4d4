(** Property C190: child replacement on doubles keeps half per level up to the rounding of the densities
    (src/approximation_operators/approximation_operators.cpp 36-48, 105-198, 375-388). *)
From Coq Require Import List Bool Arith ZArith QArith Lia.
From Verif Require Import Res Cudd Spec SpecFloat Helpers Counting Operators Ieee CuddFacts HelpersFacts NearFacts3.
Import ListNotations.
Open Scope nat_scope.

(** C190: one level, all variable orders; n * 2^-50 of the inputs are lost to the rounding *)
Theorem C190_one_level : forall (M : mgr) (f : bdd) (n level : nat), wf M f -> depends_below n f -> (Z.of_nat n <= 2 ^ 50)%Z ->
  (exists r, subset_light_child_d M f level level = Ok r /\ (density n f <= 2 * density n r + inject_Z (Z.of_nat n) * 2 ^ (-50))%Q)
  /\ (exists r, superset_heavy_child_d M f level level = Ok r /\ (1 - density n f <= 2 * (1 - density n r) + inject_Z (Z.of_nat n) * 2 ^ (-50))%Q).
Proof. exact half_near. Qed.
Print Assumptions C190_one_level.

(** C190: more levels, index order *)
Theorem C190_level_range : forall (M : mgr) (f : bdd) (n level_start level_end : nat),
  index_order M -> wf M f -> depends_below n f -> level_start <= level_end -> (Z.of_nat n <= 2 ^ 50)%Z ->
  let k := Z.of_nat (level_end - level_start + 1) in
  (exists r, subset_light_child_d M f level_start level_end = Ok r
     /\ (density n f <= inject_Z (2 ^ k) * density n r + inject_Z (k * Z.of_nat n) * 2 ^ (-50))%Q)
  /\ (exists r, superset_heavy_child_d M f level_start level_end = Ok r
     /\ (1 - density n f <= inject_Z (2 ^ k) * (1 - density n r) + inject_Z (k * Z.of_nat n) * 2 ^ (-50))%Q).
Proof. exact range_near. Qed.
Print Assumptions C190_level_range.

(** C190: without the additional term (C48 as it is) the claim is false for doubles *)
Theorem C190_half_refuted : exists (M : mgr) (f : bdd) (n level : nat) (r : bdd), wf M f /\ depends_below n f
  /\ subset_light_child_d M f level level = Ok r /\ (2 * density n r < density n f)%Q.
Proof. exact half_lost. Qed.
Print Assumptions C190_half_refuted.

Example C190_case : let M := id_mgr 61 in
  subset_light_child_d M near_tie 0 0 = Ok (band M (bnot (bvar 0)) (bvar 1)) (* the lighter child is kept: equal doubles *)
  /\ subset_light_child M near_tie 0 0 <> subset_light_child_d M near_tie 0 0
  /\ Qred (frac near_tie) = Qred ((1 # 2) + 2 ^ (-61))
  /\ subset_light_child_d (id_mgr 3) (bor (id_mgr 3) (bvar 0) (bvar 1)) 0 1 = Ok (bvar 0).
Proof. vm_compute. split; [reflexivity|]. split; [discriminate|]. auto. Qed.
