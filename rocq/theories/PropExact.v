(** What happens exactly when a documented property fails, and which adder is built *)
From Coq Require Import List Bool Arith ZArith QArith.
From Verif Require Import Res Cudd Spec SpecExact Helpers Counting Operators Examples FromPapers Benchmark SpecExperiments SpecBenchmark ExactFacts OperatorFacts2 CuddFacts.
Import ListNotations.
Open Scope nat_scope.

(** C20: for every outcome of rand() the returned input falsifies the function exactly if rand() returned
    0 at a variable that had to be false *)
Theorem C20_wrong_exactly_on_zero_draws :
  forall (M : mgr) (rand_max : Z) (f : bdd) (T : nat) (draws : list Z),
    index_order M -> (0 < rand_max)%Z -> wf M f -> (exists a, ev f a = true) -> depends_below T f ->
    length draws = T -> Forall (fun d => 0 <= d <= rand_max)%Z draws ->
    exists l, random_satisfying_input rand_max f (count_minterms f) T draws = Ok l
      /\ length l = T /\ Forall (fun x => x = 0 \/ x = 1)%Z l
      /\ (ev f (fun i => nth i l 0 =? 1)%Z = false <-> exists i, i < T /\ nth i draws 1%Z = 0%Z /\ needs_false f l i).
Proof. exact random_satisfying_input_exact. Qed.
Print Assumptions C20_wrong_exactly_on_zero_draws.
Example C20_zero_draws_case : let f := band (id_mgr 3) (bnot (bvar 0)) (bvar 2) in
  (* a zero for x0 is fatal, one for x2 is not *)
  random_satisfying_input 100 f (count_minterms f) 3 [0; 51; 100]%Z = Ok [1; 1; 0]%Z
  /\ random_satisfying_input 100 f (count_minterms f) 3 [1; 51; 0]%Z = Ok [0; 1; 1]%Z.
Proof. vm_compute. auto. Qed.

(** C50: what round_best does for every range of levels, ties included *)
Theorem C50_round_best_levels : forall (M : mgr) (n : nat) (f : bdd) (level_start level_end : nat), wf M f -> depends_below n f ->
  exists r, round_best M f level_start level_end = Ok r /\ wf M r
    /\ at_range level_start level_end (best_const (density n)) f (ev r).
Proof. exact round_best_exact. Qed.
Print Assumptions C50_round_best_levels.
Example C50_levels_case : let M := id_mgr 3 in
  let f := bor M (band M (bvar 0) (bvar 1)) (band M (bnot (bvar 0)) (band M (bvar 1) (bvar 2))) in
  round_best M f 0 1 = Ok (band M (bvar 0) (bvar 1)) /\ round_best M f 1 2 = Ok f
  /\ round_best M (bxor M (bvar 0) (bvar 1)) 0 0 = Ok bzero. (* a tie: both densities are 1/2 *)
Proof. vm_compute. auto. Qed.

(** C76: the configuration determines where the carry chain restarts and how far it looks back *)
Theorem C76_windows : forall (M : mgr) (a : ApproximateAdder) (N p1 p2 : nat) (r : list bdd),
  get_approximate_adder M a N p1 p2 = Ok r ->
  exact_when_inside N r (fun i => lookback (restarts a N p1 p2) (looks_back a p1 p2) (i - 1)).
Proof. exact get_adder_windows. Qed.
Print Assumptions C76_windows.
Example C76_windows_case : (* first position seen by the bits 1 .. 4 *)
  map (fun i => lookback (restarts ACA1 4 2 0) (looks_back ACA1 2 0) (i - 1)) (seq 1 4) = [0; 1; 2; 3]
  /\ map (fun i => lookback (restarts ACA2 4 2 0) (looks_back ACA2 2 0) (i - 1)) (seq 1 4) = [0; 1; 2; 2]
  /\ map (fun i => lookback (restarts GDA 4 2 1) (looks_back GDA 2 1) (i - 1)) (seq 1 4) = [0; 1; 1; 1]
  /\ map (fun i => lookback (restarts GEAR 4 2 1) (looks_back GEAR 2 1) (i - 1)) (seq 1 4) = [0; 0; 2; 2].
Proof. vm_compute. auto. Qed.
