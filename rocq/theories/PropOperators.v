(** Properties C46-C51: the approximation operators
    (src/approximation_operators/approximation_operators.cpp). *)
From Coq Require Import List Bool Arith ZArith QArith Lia.
From Verif Require Import Res Cudd CuddFacts Spec SpecFacts Helpers Counting Operators OperatorFacts4 FromPapers LevelFacts.
Import ListNotations.
Open Scope nat_scope.

(** the unit test "Example 3 from ASP-DAC 2016 paper" *)
Definition each (F : bdd -> res bdd) (l : list bdd) : list (res bdd) := map F l.
Example operators_unit_test : let M := id_mgr 4 in
  each (fun b => round_down M b 2 4) (example1a M) = map Ok (example1b M)
  /\ each (fun b => round_up M b 2 4) (example1a M) = map Ok (example1c M)
  /\ each (fun b => round_bdd M b 2) (example1a M) = map Ok (example1d M).
Proof. vm_compute. auto. Qed.

(** C46: the subset operators never fail and only remove inputs *)
Theorem C46_subset_operators : forall (M : mgr) (f : bdd) (level_start level_end : nat), wf M f ->
  (exists r, subset_light_child M f level_start level_end = Ok r /\ wf M r /\ forall a, ev r a = true -> ev f a = true)
  /\ (exists r, subset_heavy_child M f level_start level_end = Ok r /\ wf M r /\ forall a, ev r a = true -> ev f a = true)
  /\ (exists r, round_down M f level_start level_end = Ok r /\ wf M r /\ forall a, ev r a = true -> ev f a = true).
Proof. exact subset_ops. Qed.
Print Assumptions C46_subset_operators.
(** x0 (x1 + x2) + !x0 x1 x2 *)
Definition maj3 : bdd :=
  let M := id_mgr 3 in bor M (band M (bvar 0) (bor M (bvar 1) (bvar 2))) (band M (bvar 1) (bvar 2)).
Example C46_case : let M := id_mgr 3 in
  subset_light_child M maj3 0 0 = Ok (band M (bvar 0) (bor M (bvar 1) (bvar 2)))
  /\ subset_heavy_child M maj3 0 0 = Ok (band M (bnot (bvar 0)) (band M (bvar 1) (bvar 2)))
  /\ round_down M maj3 0 0 = Ok (band M (bvar 0) (bor M (bvar 1) (bvar 2))).
Proof. vm_compute. auto. Qed.

(** C47: the superset operators never fail and only add inputs *)
Theorem C47_superset_operators : forall (M : mgr) (f : bdd) (level_start level_end : nat), wf M f ->
  (exists r, superset_light_child M f level_start level_end = Ok r /\ wf M r /\ forall a, ev f a = true -> ev r a = true)
  /\ (exists r, superset_heavy_child M f level_start level_end = Ok r /\ wf M r /\ forall a, ev f a = true -> ev r a = true)
  /\ (exists r, round_up M f level_start level_end = Ok r /\ wf M r /\ forall a, ev f a = true -> ev r a = true).
Proof. exact superset_ops. Qed.
Print Assumptions C47_superset_operators.
Example C47_case : let M := id_mgr 3 in
  superset_light_child M maj3 0 0 = Ok (bor M (bnot (bvar 0)) (bor M (bvar 1) (bvar 2)))
  /\ superset_heavy_child M maj3 0 0 = Ok (bor M (bvar 0) (band M (bvar 1) (bvar 2)))
  /\ round_up M maj3 0 0 = Ok (bor M (bnot (bvar 0)) (bor M (bvar 1) (bvar 2))).
Proof. vm_compute. auto. Qed.

(** C48: on one level the light child holds at most half of the ON set, the heavy child at most
    half of the OFF set *)
Theorem C48_one_level : forall (M : mgr) (n : nat) (f : bdd) (level : nat), wf M f -> depends_below n f ->
  (exists r, subset_light_child M f level level = Ok r /\ (density n f <= 2 * density n r)%Q)
  /\ (exists r, superset_heavy_child M f level level = Ok r /\ (1 - density n f <= 2 * (1 - density n r))%Q).
Proof. exact half_one_level. Qed.
Print Assumptions C48_one_level.
(** more levels, index order: at most halved per level *)
Theorem C48_level_range : forall (M : mgr) (n : nat) (f : bdd) (level_start level_end : nat),
  index_order M -> wf M f -> depends_below n f -> level_start <= level_end ->
  (exists r, subset_light_child M f level_start level_end = Ok r
     /\ (density n f <= inject_Z (2 ^ Z.of_nat (level_end - level_start + 1)) * density n r)%Q)
  /\ (exists r, superset_heavy_child M f level_start level_end = Ok r
     /\ (1 - density n f <= inject_Z (2 ^ Z.of_nat (level_end - level_start + 1)) * (1 - density n r))%Q).
Proof. exact range_loss. Qed.
Print Assumptions C48_level_range.
(** nothing happens if no variable of the function is in the range *)
Theorem C48_outside_range : forall (M : mgr) (f : bdd) (level_start level_end : nat), wf M f ->
  (forall i, In i (support f) -> ~ level_start <= i <= level_end) ->
  subset_light_child M f level_start level_end = Ok f /\ subset_heavy_child M f level_start level_end = Ok f
  /\ superset_light_child M f level_start level_end = Ok f /\ superset_heavy_child M f level_start level_end = Ok f
  /\ round_down M f level_start level_end = Ok f /\ round_up M f level_start level_end = Ok f
  /\ round_best M f level_start level_end = Ok f.
Proof. exact outside_unchanged. Qed.
Print Assumptions C48_outside_range.
(** the child of smaller / larger density is the one that becomes constant; on equal densities the
    light variants replace the then child and the heavy variants the else child *)
Theorem C48_child_choice : forall (M : mgr) (n : nat) (f : bdd) (level_start level_end : nat),
  wf M f -> depends_below n f ->
  (exists r, subset_light_child M f level_start level_end = Ok r
     /\ at_range level_start level_end (light_const (density n) false) f (ev r))
  /\ (exists r, subset_heavy_child M f level_start level_end = Ok r
     /\ at_range level_start level_end (heavy_const (density n) false) f (ev r))
  /\ (exists r, superset_light_child M f level_start level_end = Ok r
     /\ at_range level_start level_end (light_const (density n) true) f (ev r))
  /\ (exists r, superset_heavy_child M f level_start level_end = Ok r
     /\ at_range level_start level_end (heavy_const (density n) true) f (ev r)).
Proof. exact child_choice. Qed.
Print Assumptions C48_child_choice.
Definition dens (n : nat) (x : res bdd) : option Q := match x with Ok r => Some (Qred (density n r)) | _ => None end.
Example C48_case : let M := id_mgr 3 in
  (Qred (density 3 maj3), dens 3 (subset_light_child M maj3 0 0), dens 3 (superset_heavy_child M maj3 0 0))
    = (1#2, Some (3#8), Some (5#8))%Q
  /\ dens 3 (subset_light_child M (bxor M (bvar 0) (bvar 1)) 0 0) = Some (1#4)%Q (* exactly half lost *)
  /\ dens 3 (subset_light_child M maj3 0 2) = Some (1#4)%Q
  /\ support maj3 = [0; 1; 2] /\ subset_light_child M maj3 3 5 = Ok maj3.
Proof. vm_compute. auto 10. Qed.

(** C49: round depends only on the variables below the level and is a best such approximation *)
Theorem C49_round_optimal : forall (M : mgr) (n : nat) (f : bdd) (level : nat),
  index_order M -> wf M f -> depends_below n f ->
  exists r, round_bdd M f level = Ok r /\ wf M r /\ depends_below level r
    /\ forall h, below_fun level h -> (disagreement n (ev f) (ev r) <= disagreement n (ev f) h)%Q.
Proof. exact round_optimal. Qed.
Print Assumptions C49_round_optimal.
Example C49_case : let M := id_mgr 3 in
  round_bdd M maj3 1 = Ok (bvar 0)
  /\ Qred (disagreement 3 (ev maj3) (ev (bvar 0))) = (1#4)%Q
  /\ Qred (disagreement 3 (ev maj3) (fun _ => true)) = (1#2)%Q.
Proof. vm_compute. auto. Qed.

(** C50: false as stated: on equal densities both children become constant *)
Theorem C50_round_best_refuted : exists (M : mgr) (f : bdd) (level n : nat) (r : bdd) (h : asg -> bool),
  index_order M /\ wf M f /\ depends_below n f
  /\ round_best M f level level = Ok r /\ at_range level level child_const f h
  /\ (disagreement n (ev f) h < disagreement n (ev f) (ev r))%Q.
Proof. exact best_refuted. Qed.
Print Assumptions C50_round_best_refuted.
(** the error is at most twice the minimum, and it is the minimum if no node of the level has
    children of equal or complementary density *)
Theorem C50_round_best_partial : forall (M : mgr) (n : nat) (f : bdd) (level : nat), wf M f -> depends_below n f ->
  exists r, round_best M f level level = Ok r /\ wf M r
    /\ (forall h, at_range level level child_const f h ->
          (disagreement n (ev f) (ev r) <= 2 * disagreement n (ev f) h)%Q)
    /\ ((forall c t d e, In (c, Nd level t d e) (reachable f) ->
           ~ (density n (c, t) == density n (xorb c d, e))%Q
           /\ ~ (density n (c, t) + density n (xorb c d, e) == 1)%Q) ->
        at_range level level child_const f (ev r)
        /\ forall h, at_range level level child_const f h ->
             (disagreement n (ev f) (ev r) <= disagreement n (ev f) h)%Q).
Proof. exact best_partial. Qed.
Print Assumptions C50_round_best_partial.
Example C50_case : let M := id_mgr 3 in
  let f := bor M (band M (bvar 0) (bvar 1)) (band M (bnot (bvar 0)) (band M (bvar 1) (bvar 2))) in
  round_best M f 0 0 = Ok (band M (bvar 0) (bvar 1))
  /\ Qred (disagreement 3 (ev f) (ev (band M (bvar 0) (bvar 1)))) = (1#8)%Q
  /\ round_best M maj3 0 0 = Ok (bvar 0). (* a tie: densities 3/4 and 1/4 *)
Proof. vm_compute. auto. Qed.

(** C51: false as stated: the counts ignore the variables skipped between a node and its child *)
Theorem C51_round_down_refuted : exists (M : mgr) (n : nat) (f : bdd) (v : nat) (t e r : bdd),
  index_order M /\ wf M f /\ depends_below n f
  /\ f = ite M (bvar v) t e /\ ~ In v (support t) /\ ~ In v (support e)
  /\ (density n e < density n t)%Q
  /\ round_down M f v v = Ok r /\ then_const v false (ev e) (ev r).
Proof. exact down_refuted. Qed.
Print Assumptions C51_round_down_refuted.
(** round_up fills the child with fewer solutions *)
Theorem C51_round_up_refuted : exists (M : mgr) (n : nat) (f : bdd) (v : nat) (t e r : bdd),
  index_order M /\ wf M f /\ depends_below n f
  /\ f = ite M (bvar v) t e /\ ~ In v (support t) /\ ~ In v (support e)
  /\ (density n t < density n e)%Q
  /\ round_up M f v v = Ok r /\ then_const v true (ev e) (ev r).
Proof. exact up_refuted. Qed.
Print Assumptions C51_round_up_refuted.
(** what holds: both replace the child with fewer solutions over its own variables *)
Theorem C51_round_partial : forall (M : mgr) (f : bdd) (level_start level_end T : nat), index_order M -> wf M f -> levels_of [f] T ->
  (exists r, round_down M f level_start level_end = Ok r
     /\ at_range level_start level_end (light_const (own_solutions T) false) f (ev r))
  /\ (exists r, round_up M f level_start level_end = Ok r
     /\ at_range level_start level_end (light_const (own_solutions T) true) f (ev r)).
Proof. exact down_up_levels. Qed.
Print Assumptions C51_round_partial.
(** which are the solutions over the same variables if the children of each node start at the same level *)
Theorem C51_same_level_partial : forall (M : mgr) (f : bdd) (level_start level_end T : nat), index_order M -> wf M f -> levels_of [f] T ->
  (forall c v t d e, In (c, Nd v t d e) (reachable f) -> level_start <= v <= level_end ->
     start_level T (c, t) = start_level T (xorb c d, e)) ->
  (exists r, round_down M f level_start level_end = Ok r
     /\ at_range level_start level_end (light_const (density T) false) f (ev r))
  /\ (exists r, round_up M f level_start level_end = Ok r
     /\ at_range level_start level_end (light_const (density T) true) f (ev r)).
Proof. exact down_up_same_levels. Qed.
Print Assumptions C51_same_level_partial.
Example C51_case : let M := id_mgr 3 in (* both children of the root of maj3 start at level 1 *)
  (forall c v t d e, In (c, Nd v t d e) (reachable maj3) -> 0 <= v <= 0 -> start_level 3 (c, t) = start_level 3 (xorb c d, e))
  /\ levels_of [maj3] 3
  /\ round_down M maj3 0 0 = Ok (band M (bvar 0) (bor M (bvar 1) (bvar 2)))
  (* at level 1 under x0 the child 1 counts as one solution, like x2, and is dropped *)
  /\ round_down M maj3 0 1 = Ok (band M (bvar 0) (band M (bnot (bvar 1)) (bvar 2))).
Proof.
  split; [|split; [exact (levels_of_check [maj3] 3 eq_refl)|vm_compute; auto]]. intros c v t d e H L. vm_compute in H.
  repeat (destruct H as [H|H]; [first [discriminate H|injection H; intros; subst; first [reflexivity|lia]]|]). destruct H.
Qed.
