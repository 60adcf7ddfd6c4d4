(** Properties C171, C172: the numbers of solutions and the densities with doubles of limited range, for any number of variables,
    and the child that the operators replace (src/util/cudd_helpers.cpp, src/approximation_operators/approximation_operators.cpp) *)
From Coq Require Import List Bool Arith ZArith QArith Lia.
From Verif Require Import Res Cudd CuddFacts Spec SpecFacts SpecFloat SpecNan SpecLimited Helpers Counting CountFacts LevelFacts Operators Ieee IeeeFacts7 NanFacts NanFacts2 LimitedFacts LimitedFacts2.
Import ListNotations.
Open Scope nat_scope.

(** C171: how far a number of solutions is off *)
Theorem C171_counts : forall (M : mgr) (f : bdd) (T : nat), index_order M -> wf M f -> levels_of [f] T -> (Z.of_nat T < 2 ^ 64)%Z ->
  forall k x, In (k, x) (count_solutions_d f) ->
  (has_far_zero M T k -> x = DNaN)
  /\ (~ has_far_zero M T k ->
      (exists q, x = DFin q /\ (q < 2 ^ 1024)%Q /\ within (2 ^ (-53)) (2 * T) q (own_solutions T k))
      \/ (x = DInf false /\ (2 ^ 1024 <= qpow (1 + 2 ^ (-53)) (2 * T) * own_solutions T k)%Q)).
Proof. exact (fun M f T HI W L B => solutions_near M HI f W T L B). Qed.
Print Assumptions C171_counts.
(** and which child round_down and round_up replace *)
Theorem C171_replaced_child : forall (M : mgr) (f : bdd) (T level_start level_end : nat),
  index_order M -> wf M f -> levels_of [f] T -> (Z.of_nat T < 2 ^ 64)%Z ->
  let x := qpow (1 - 2 ^ (-53)) (2 * T) in let y := qpow (1 + 2 ^ (-53)) (2 * T) in
  let known := fun g => ~ has_far_zero M T g in
  (exists r, round_down_d M f level_start level_end = Ok r
     /\ at_range level_start level_end (limited_light_const x y (2 ^ 1024) known (own_solutions T) false) f (ev r))
  /\ (exists r, round_up_d M f level_start level_end = Ok r
     /\ at_range level_start level_end (limited_light_const x y (2 ^ 1024) known (own_solutions T) true) f (ev r)).
Proof. exact (fun M f T ls le HI W L B => round_limited M HI f W T L B ls le). Qed.
Print Assumptions C171_replaced_child.
Example C171_case : let M := id_mgr 1031 in
  let t := bor M (bvar 1) (bvar 1030) in let f := ite M (bvar 0) t (bvar 1030) in (* an infinite number of solutions against 1 *)
  index_order M /\ wf M f /\ levels_of [f] 1031
  /\ blookup t (count_solutions_d f) = Some (DInf false) /\ (exists q, blookup (bvar 1030) (count_solutions_d f) = Some (DFin q) /\ (q == 1)%Q)
  /\ round_down_d M f 0 0 = Ok (band M (bvar 0) t) /\ round_up_d M f 0 0 = Ok (bor M (bnot (bvar 0)) t).
Proof.
  cbv zeta. split; [intro i; reflexivity|]. split; [auto 10 with wf|]. split; [apply levels_of_check; vm_compute; reflexivity|].
  repeat split; try (eexists; split); vm_compute; reflexivity.
Qed.

(** C172: how far a density is off *)
Theorem C172_densities : forall (M : mgr) (f : bdd) (n : nat), wf M f -> depends_below n f ->
  let a := (inject_Z (Z.of_nat (3 * n)) * 2 ^ (-1075))%Q in
  forall k v, In (k, v) (count_minterms_d f) ->
  exists q, v = DFin q /\ (0 <= q <= 1)%Q
    /\ (qpow (1 - 2 ^ (-53)) (2 * n) * density n k - a <= q)%Q /\ (q <= qpow (1 + 2 ^ (-53)) (2 * n) * (density n k + a))%Q.
Proof. exact (fun M f n W B => minterms_close M f W n B). Qed.
Print Assumptions C172_densities.
(** and which child the four operators replace *)
Theorem C172_replaced_child : forall (M : mgr) (f : bdd) (n level_start level_end : nat), wf M f -> depends_below n f ->
  let x := qpow (1 - 2 ^ (-53)) (2 * n) in let y := qpow (1 + 2 ^ (-53)) (2 * n) in let a := (inject_Z (Z.of_nat (3 * n)) * 2 ^ (-1075))%Q in
  (exists r, subset_light_child_d M f level_start level_end = Ok r
     /\ at_range level_start level_end (slack_light_const x y a (density n) false) f (ev r))
  /\ (exists r, subset_heavy_child_d M f level_start level_end = Ok r
     /\ at_range level_start level_end (slack_heavy_const x y a (density n) false) f (ev r))
  /\ (exists r, superset_light_child_d M f level_start level_end = Ok r
     /\ at_range level_start level_end (slack_light_const x y a (density n) true) f (ev r))
  /\ (exists r, superset_heavy_child_d M f level_start level_end = Ok r
     /\ at_range level_start level_end (slack_heavy_const x y a (density n) true) f (ev r)).
Proof. exact (fun M f n ls le W B => operators_close M f W n B ls le). Qed.
Print Assumptions C172_replaced_child.
Example C172_case : let M := id_mgr 1200 in
  let t := bor M (bvar 1) (bvar 1199) in let f := ite M (bvar 0) t (bvar 1199) in (* 1200 variables, densities 3/4 and 1/2 *)
  wf M f /\ depends_below 1200 f
  /\ (exists q, blookup t (count_minterms_d f) = Some (DFin q) /\ (q == 3 # 4)%Q) /\ subset_light_child_d M f 0 0 = Ok (band M (bvar 0) t)
  /\ superset_heavy_child_d M f 0 0 = Ok (bor M (bvar 0) (bvar 1199)).
Proof.
  cbv zeta. split; [auto 10 with wf|].
  split; [intros a b H; rewrite !ev_ite, !ev_or, !ev_var, (H 0), (H 1), (H 1199) by lia; reflexivity|].
  repeat split; try (eexists; split); vm_compute; reflexivity.
Qed.
