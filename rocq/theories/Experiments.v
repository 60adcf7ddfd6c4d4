(** Model of the computations of /repo/experiments/runtime/operators.cpp, iscas85.cpp,
    average_case_error.cpp, ace_steps.cpp, approximate_adder_error_metrics.cpp,
    sampling_methods.cpp, /repo/experiments/misc/er_ace_adder_comparison.cpp, improved_sampling.cpp
    and /repo/experiments/testing.cpp.

    Files are read as in Benchmark.v, so the functions below start from the vector read. Time
    measurement, labels, repetition of the same computation and printing are left out. [M] is the
    manager after reading. *)
From Coq Require Import Ascii String List Bool Arith ZArith QArith.
From Verif Require Import Res Cudd Helpers Counting Metrics RelMetrics Operators Examples FromPapers Benchmark.
Import ListNotations.
Open Scope nat_scope.

(** the constant 10000 *)
Definition all_levels : nat := 100 * 100.

Section Experiments.
Variable M : mgr.

(** operators.cpp 9-19 *)
Inductive RoundingOperation :=
| SUPERSET_HEAVY | SUBSET_LIGHT | SUPERSET_LIGHT | SUBSET_HEAVY | ROUND_FULL | ROUND_BEST | COFACTOR_POSITIVE | COFACTOR_NEGATIVE.
(** operators.cpp 51-82 *)
Definition round_output (op : RoundingOperation) (level : nat) (orig : bdd) : res bdd :=
  match op with
  | SUPERSET_HEAVY => superset_heavy_child M orig level level
  | SUBSET_LIGHT => subset_light_child M orig level level
  | SUPERSET_LIGHT => superset_light_child M orig level level
  | SUBSET_HEAVY => subset_heavy_child M orig level level
  | ROUND_BEST => round_best M orig level level
  | ROUND_FULL => round_bdd M orig level
  | COFACTOR_POSITIVE => Ok (cofactor M orig level true)
  | COFACTOR_NEGATIVE => Ok (cofactor M orig level false)
  end.
(** operators.cpp 49-83 *)
Definition benchmark_operators (op : RoundingOperation) (level : nat) (original : list bdd) : res (list bdd) :=
  mapM (round_output op level) original.

(** iscas85.cpp 9-14 *)
Inductive IscasRounding := ROUND_UP_ | ROUND_DOWN_ | ROUND_FULL_.
(** iscas85.cpp 42-62 *)
Definition iscas_rounded (op : IscasRounding) (level : nat) (original : list bdd) : res (list bdd) :=
  mapM (fun orig =>
    match op with
    | ROUND_UP_ => superset_heavy_child M orig level all_levels
    | ROUND_DOWN_ => subset_light_child M orig level all_levels
    | ROUND_FULL_ => round_bdd M orig level
    end) original.
(** average_case_error.cpp 27-38 *)
Definition ace_rounded (up : bool) (level : nat) (original : list bdd) : res (list bdd) :=
  mapM (fun orig => if up then superset_light_child M orig level all_levels else subset_light_child M orig level all_levels) original.

(** the calls of [compute_error_metric] with a metric that needs no search *)
Definition metric_value (original approx : list bdd) (metric : Metric) : res num :=
  match compute_error_metric M (fun _ => 0) 0 (fun _ => 0%Z) original approx metric 0 with
  | Some r => r
  | None => UB
  end.
(** iscas85.cpp 64, average_case_error.cpp 46-47 *)
Definition benchmark_iscas85 (op : IscasRounding) (level : nat) (metric : Metric) (original : list bdd) : res num :=
  rounded <- iscas_rounded op level original ;; metric_value original rounded metric.
Definition benchmark_ace (up : bool) (level : nat) (original : list bdd) : res num :=
  rounded <- ace_rounded up level original ;; metric_value original rounded AVERAGE_CASE_.

(** ace_steps.cpp 30-53: the absolute difference, and its average if [difference_only] is false *)
Definition benchmark_ace_steps (level : nat) (original : list bdd) : res (list bdd * num) :=
  rounded <- mapM (fun orig => superset_heavy_child M orig level all_levels) original ;;
  let original := (original ++ [bzero])%list in
  let rounded := (rounded ++ [bzero])%list in
  difference <- bdd_subtract M original rounded ;;
  absdiff <- bdd_abs M difference TwosComplement ;;
  Ok (absdiff, average_value absdiff).

(** er_ace_adder_comparison.cpp 10-25; approximate_adder_error_metrics.cpp 25-32 computes one
    metric of the same pair *)
Definition generate_adders (adder : ApproximateAdder) (n_bits param1 param2 : nat) : res (string * num * num * num) :=
  correct <- regular_adder M n_bits ;;
  approximate_adder <- get_approximate_adder M adder n_bits param1 param2 ;;
  er <- metric_value correct approximate_adder ERROR_RATE_ ;;
  ace <- metric_value correct approximate_adder AVERAGE_CASE_ ;;
  wc <- metric_value correct approximate_adder WORST_CASE_ ;;
  Ok (approximate_adder_name adder (N.of_nat n_bits) (N.of_nat param1) (N.of_nat param2), er, ace, wc).
(** er_ace_adder_comparison.cpp 46-53 *)
Definition small_example : res num :=
  let zero := [bvar 0; bvar 1; bvar 2] in
  let one := [bor M (bvar 0) (band M (bvar 2) (bvar 1)); bvar 1; bvar 2] in
  average_case_error M one zero BaseTwo.

(** testing.cpp 15-19 *)
Definition testing_rounded : res (list bdd) :=
  mapM (fun fi => round_up M fi 1 1) (running_example M).

(** sampling_methods.cpp 30-51: the approximation is zero everywhere; [draws] is what rand() returns
    during the call *)
Definition sampling_method (sort : list (nat * Q) -> list (nat * Q)) (rand_max : Z) (draws : nat -> Z)
    (improved : bool) (samples : Z) (original : list bdd) : res num :=
  let rounded := repeat bzero (List.length original) in
  if improved then r <- error_rate_efficient_sampling M sort rand_max draws original rounded samples ;; Ok (Fin r)
  else error_rate_sampling M draws original rounded samples.

(** improved_sampling.cpp 19-36: the error rate and one row of estimates; the level is 52 and the
    last level 10000000. [draws1] and [draws2] are what rand() returns during the two calls *)
Definition improved_sampling (sort : list (nat * Q) -> list (nat * Q)) (rand_max : Z) (draws1 draws2 : nat -> Z)
    (level last : nat) (n : Z) (original : list bdd) : res (Q * num * Q) :=
  rounded <- mapM (fun orig => subset_light_child M orig level last) original ;;
  rate <- error_rate M original rounded ;;
  naive_sampling <- error_rate_sampling M draws1 original rounded n ;;
  improved <- error_rate_efficient_sampling M sort rand_max draws2 original rounded n ;;
  Ok (rate, naive_sampling, improved).
End Experiments.
