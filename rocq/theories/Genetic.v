(** Model of /repo/experiments/minimization/nsga2: bddminimizationproblem.cpp and
    nsga2_minimization_helper.cpp. The genetic algorithm itself (pagmo) is an arbitrary function
    from populations to populations. [double] is an exact rational; the limits are stored as
    [float] and rounded. Times are not modelled. *)
From Coq Require Import List Bool Arith ZArith QArith Qround.
From Verif Require Import Res Cudd Float Helpers Counting Metrics Benchmark.
Import ListNotations.
Open Scope nat_scope.

(** conversion of a double to float *)
Definition to_float : Q -> Q := round_float 24.

(** a chromosome ([pagmo::vector_double]) *)
Definition individuum := list Q.

(** bddminimizationproblem.hpp 70-82 *)
Record problem := Problem {
  original : list bdd;
  max_error_rate : Q;
  max_average_case_error : Q;
  original_node_count : nat;
  support_positions : list (nat * nat);
  er_and_ace : bool
}.

Section Genetic.
Variable M : mgr.

(** bddminimizationproblem.cpp 18-31 *)
Fixpoint positions_from (i : nat) (function : list bdd) : list (nat * nat) :=
  match function with
  | [] => []
  | b :: function' => map (fun s => (i, s)) (support b) ++ positions_from (S i) function'
  end.
Definition compute_support_positions (function : list bdd) : list (nat * nat) := positions_from 0 function.

(** lines 6-16: [float] parameters *)
Definition make_problem (function : list bdd) (max_er : Q) (both : bool) (max_ace : Q) : problem :=
  Problem function (to_float max_er) (to_float max_ace) (nodeCount function) (compute_support_positions function) both.

(** lines 33-37 *)
Definition get_bounds (P : problem) : list Q * list Q :=
  (repeat 0%Q (length (support_positions P)), repeat 2%Q (length (support_positions P))).

(** lines 39-53: [draws] are the values of rand(); the right-hand side is evaluated first *)
Fixpoint init_loop (count : nat) (draws : nat -> Z) (pos : nat) (data : individuum) : res (individuum * nat) :=
  match count with
  | O => Ok (data, pos)
  | S count' =>
      _ <- require_ (negb (length data =? 0)) ;;
      let x := inject_Z (1 + draws pos mod 2) in
      data <- vset data (Z.to_nat (draws (S pos) mod Z.of_nat (length data))) x ;;
      init_loop count' draws (S (S pos)) data
  end.
Fixpoint population_loop (size : nat) (P : problem) (initialization_count : nat) (draws : nat -> Z) (pos : nat)
    (pop : list individuum) : res (list individuum) :=
  match size with
  | O => Ok pop
  | S size' =>
      '(data, pos) <- init_loop initialization_count draws pos (fst (get_bounds P)) ;;
      population_loop size' P initialization_count draws pos (pop ++ [data])
  end.
Definition make_population (P : problem) (population_size initialization_count : nat) (draws : nat -> Z)
  : res (list individuum) := population_loop population_size P initialization_count draws 0 [].

(** lines 55-74 *)
Fixpoint apply_positions (positions : list (nat * nat)) (parameters : individuum) (i : nat) (ind : list bdd)
  : res (list bdd) :=
  match positions with
  | [] => Ok ind
  | (bit, level) :: positions' =>
      p <- vget parameters i ;;
      if qlt (3 # 2) p then
        b <- vget ind bit ;;
        ind <- vset ind bit (cofactor M b level true) ;;
        apply_positions positions' parameters (S i) ind
      else if qlt (1 # 2) p then
        b <- vget ind bit ;;
        ind <- vset ind bit (cofactor M b level false) ;;
        apply_positions positions' parameters (S i) ind
      else apply_positions positions' parameters (S i) ind
  end.
Definition function_from_individuum (P : problem) (parameters : individuum) : res (list bdd) :=
  apply_positions (support_positions P) parameters 0 (original P).

(** lines 76-129. The average case error of a function is finite; a result that is not is
    outside the model ([UB]). *)
Definition finite (x : num) : res Q := match x with Fin q => Ok q | NonFin => UB end.
Definition fitness (P : problem) (parameters : individuum) : res (list Q) :=
  ind <- function_from_individuum P parameters ;;
  let node_count := inject_Z (Z.of_nat (nodeCount ind)) in
  if original_node_count P <=? nodeCount ind then
    if negb (er_and_ace P) then Ok [node_count * 5; 100]%Q
    else Ok [node_count * 5; 100; max_average_case_error P * 2]%Q
  else
    error_rate <- error_rate M (original P) ind ;;
    ace <- (if er_and_ace P then x <- average_case_error M (original P) ind BaseTwo ;; finite x else Ok 0%Q) ;;
    let node_count := if qlt (max_error_rate P) error_rate then (node_count * (error_rate * 10000 + 50))%Q else node_count in
    let node_count := if qlt (max_average_case_error P) ace then (node_count * (100 + ace))%Q else node_count in
    if negb (er_and_ace P) then Ok [node_count; error_rate] else Ok [node_count; error_rate; ace].

(** nsga2_minimization_helper.hpp 8-14 without the time *)
Record MinimizationResult_ := Result { node_count : Z; error_rate_ : Q; average_case_error_ : Q }.

(** nsga2_minimization_helper.cpp 51-66, one individual *)
Definition consider (P : problem) (max_er max_ace : Q) (both : bool) (ind : individuum) (best : MinimizationResult_)
  : res MinimizationResult_ :=
  fit <- fitness P ind ;;
  f1 <- vget fit 1 ;;
  if qlt f1 max_er then
    ok <- (if both then f2 <- vget fit 2 ;; Ok (qlt f2 max_ace) else Ok true) ;;
    if ok then
      f0 <- vget fit 0 ;;
      if qlt f0 (inject_Z (node_count best)) then
        let z := Z.quot (Qnum f0) (Zpos (Qden f0)) in
        _ <- require_ ((-1 <? z) && (z <? 2 ^ 64))%Z ;;
        ace <- (if both then vget fit 2 else Ok (average_case_error_ best)) ;;
        Ok (Result z f1 ace)
      else Ok best
    else Ok best
  else Ok best.
Fixpoint consider_all (P : problem) (max_er max_ace : Q) (both : bool) (inds : list individuum) (best : MinimizationResult_)
  : res MinimizationResult_ :=
  match inds with
  | [] => Ok best
  | ind :: inds' => best <- consider P max_er max_ace both ind best ;; consider_all P max_er max_ace both inds' best
  end.

(** lines 45-73: [evolve k pop] is the population after the k-th call *)
Fixpoint genetic_loop (P : problem) (max_er max_ace : Q) (both : bool) (evolve : nat -> list individuum -> list individuum)
    (fuel k : nat) (pop : list individuum) (best : MinimizationResult_) : option (res MinimizationResult_) :=
  match fuel with
  | O => None
  | S fuel' =>
      let pop := evolve k pop in
      match consider_all P max_er max_ace both pop best with
      | Ok best' =>
          if (node_count best' =? node_count best)%Z then Some (Ok best')
          else genetic_loop P max_er max_ace both evolve fuel' (S k) pop best'
      | UB => Some UB | Throw => Some Throw | Abort => Some Abort
      end
  end.

(** lines 9-85. Without any position the mutation probability [0.3 / 0] is rejected by pagmo. *)
Definition no_result : MinimizationResult_ := Result (2 ^ 64 - 1) 0 0.
Definition run_genetic_minimization (function : list bdd) (max_er max_ace : Q) (both : bool) (draws : nat -> Z)
    (evolve : nat -> list individuum -> list individuum) (fuel : nat) : option (res MinimizationResult_) :=
  let P := make_problem function max_er both max_ace in
  if length (support_positions P) =? 0 then Some Throw
  else
    match make_population P 100 3 draws with
    | Ok pop => genetic_loop P max_er max_ace both evolve fuel 0 pop no_result
    | UB => Some UB | Throw => Some Throw | Abort => Some Abort
    end.
End Genetic.
