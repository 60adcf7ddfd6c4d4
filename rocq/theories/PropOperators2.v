(** Properties C98-C101: the approximation operators
    (src/approximation_operators/approximation_operators.cpp): variables, size, repeated application, complement. *)
From Coq Require Import List Bool Arith ZArith QArith Lia.
From Verif Require Import Res Cudd CuddFacts Spec SpecFacts SpecOperators Helpers Counting Operators OperatorFacts5 OperatorFacts7 OperatorFacts8.
Import ListNotations.
Open Scope nat_scope.

(** C98: no operator introduces a variable *)
Theorem C98_support : forall (M : mgr) (level_start level_end : nat) (op : bdd -> res bdd) (f : bdd),
  In op (the_operators M level_start level_end) -> wf M f ->
  exists r, op f = Ok r /\ forall i, In i (support r) -> In i (support f).
Proof. exact ops_support. Qed.
Print Assumptions C98_support.
Example C98_case : let M := id_mgr 3 in
  let f := bor M (band M (bvar 0) (bor M (bvar 1) (bvar 2))) (band M (bvar 1) (bvar 2)) in
  support f = [0; 1; 2]
  /\ map (fun op => match op f with Ok r => support r | _ => [9] end) (the_operators M 1 1)
     = [[0; 1; 2]; [0; 1; 2]; [0; 1; 2]; [0; 1; 2]; [0; 1; 2]; [0; 1; 2]; [0]; [0; 1; 2]].
Proof. vm_compute. auto. Qed.

(** C99: false as stated: a node reached with and without complement gives two nodes *)
Theorem C99_size_refuted : exists (M : mgr) (f : bdd) (level_start level_end : nat) (r : bdd),
  index_order M /\ wf M f /\ subset_light_child M f level_start level_end = Ok r /\ nodeCount [f] < nodeCount [r].
Proof. exact size_grows. Qed.
Print Assumptions C99_size_refuted.
(** the size at most doubles in index order and at most triples in any order *)
Theorem C99_size_partial : forall (M : mgr) (level_start level_end : nat) (op : bdd -> res bdd) (f : bdd),
  In op (the_operators M level_start level_end) -> wf M f ->
  exists r, op f = Ok r /\ nodeCount [r] <= 3 * nodeCount [f] /\ (index_order M -> nodeCount [r] <= 2 * nodeCount [f]).
Proof. exact ops_size. Qed.
Print Assumptions C99_size_partial.
Example C99_case : (* parity of five variables *)
  let M := id_mgr 5 in let f := fold_right (bxor M) bzero (map bvar (seq 0 5)) in
  nodeCount [f] = 6
  /\ map (fun op => match op f with Ok r => nodeCount [r] | _ => 0 end) (the_operators M 3 3)
     = [9; 9; 9; 9; 9; 9; 1; 1].
Proof. vm_compute. auto. Qed.

(** C100: false as stated for three operators *)
Theorem C100_idempotent_refuted : exists (M : mgr) (l : nat), index_order M
  /\ (exists f r s, wf M f /\ superset_light_child M f l l = Ok r /\ superset_light_child M r l l = Ok s /\ r <> s)
  /\ (exists f r s, wf M f /\ subset_heavy_child M f l l = Ok r /\ subset_heavy_child M r l l = Ok s /\ r <> s)
  /\ (exists f r s, wf M f /\ round_up M f l l = Ok r /\ round_up M r l l = Ok s /\ r <> s).
Proof. exact twice_differs. Qed.
Print Assumptions C100_idempotent_refuted.
(** the other five operators change nothing when applied again *)
Theorem C100_idempotent_partial : forall (M : mgr) (f : bdd) (level_start level_end : nat) (r : bdd), wf M f ->
  (subset_light_child M f level_start level_end = Ok r -> subset_light_child M r level_start level_end = Ok r)
  /\ (superset_heavy_child M f level_start level_end = Ok r -> superset_heavy_child M r level_start level_end = Ok r)
  /\ (index_order M -> round_down M f level_start level_end = Ok r -> round_down M r level_start level_end = Ok r)
  /\ (round_bdd M f level_start = Ok r -> round_bdd M r level_start = Ok r)
  /\ (round_best M f level_start level_end = Ok r -> round_best M r level_start level_end = Ok r).
Proof. exact again. Qed.
Print Assumptions C100_idempotent_partial.
Example C100_case : let M := id_mgr 3 in let f := bxor M (bvar 0) (bxor M (bvar 1) (bvar 2)) in
  map (fun op => match op f with Ok r => (bdd_eqb f r, match op r with Ok s => bdd_eqb r s | _ => false end) | _ => (true, false) end)
    (the_operators M 1 1)
  = [(false, true); (false, false); (false, false); (false, true); (false, true); (false, true); (false, true); (false, true)].
Proof. vm_compute. auto. Qed.

(** C101: false as stated: on equal densities the light variants replace the then child and the heavy variants the else child *)
Theorem C101_complement_refuted : exists (M : mgr) (f : bdd) (l : nat) (r s : bdd), wf M f
  /\ superset_heavy_child M f l l = Ok r /\ subset_light_child M (bnot f) l l = Ok s /\ s <> bnot r.
Proof. exact complement_differs. Qed.
Print Assumptions C101_complement_refuted.
(** it holds without ties *)
Theorem C101_complement_partial : forall (M : mgr) (n : nat) (f : bdd) (level_start level_end : nat), wf M f -> depends_below n f ->
  (children_in_range n level_start level_end (fun x y => ~ (x == y)%Q) f ->
    (exists r, superset_heavy_child M f level_start level_end = Ok r /\ subset_light_child M (bnot f) level_start level_end = Ok (bnot r))
    /\ (exists r, superset_light_child M f level_start level_end = Ok r /\ subset_heavy_child M (bnot f) level_start level_end = Ok (bnot r))
    /\ (exists r, subset_heavy_child M f level_start level_end = Ok r /\ superset_light_child M (bnot f) level_start level_end = Ok (bnot r))
    /\ (exists r, subset_light_child M f level_start level_end = Ok r /\ superset_heavy_child M (bnot f) level_start level_end = Ok (bnot r)))
  /\ ((forall c v t d e, In (c, Nd v t d e) (reachable f) -> level_start <= v -> ~ (density n (c, Nd v t d e) == 1#2)%Q) ->
      exists r, round_bdd M f level_start = Ok r /\ round_bdd M (bnot f) level_start = Ok (bnot r))
  /\ (children_in_range n level_start level_end (fun x y => ~ (x == 1#2 /\ y == 1#2)%Q) f ->
      exists r, round_best M f level_start level_end = Ok r /\ round_best M (bnot f) level_start level_end = Ok (bnot r)).
Proof. exact complement_parts. Qed.
Print Assumptions C101_complement_partial.
Example C101_case : let M := id_mgr 3 in let f := band M (bvar 0) (bor M (bvar 1) (bvar 2)) in
  children_in_range 3 0 1 (fun x y => ~ (x == y)%Q) f
  /\ superset_heavy_child M f 0 1 = Ok (bvar 0) /\ subset_light_child M (bnot f) 0 1 = Ok (bnot (bvar 0)).
Proof.
  split; [|vm_compute; auto]. intros c v t d e H _. vm_compute in H.
  repeat (destruct H as [H|H]; [first [discriminate|injection H as <- <- <- <- <-; vm_compute; discriminate]|]). destruct H.
Qed.
