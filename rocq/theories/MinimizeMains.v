(** Model of the experiments in /repo/experiments/minimization (the six [main] functions) and of the
    file loaders of /repo/experiments/util/benchmark_util.cpp.

    A row of the output consists of the numbers printed; the headline, the separators, the decimal
    digits of the doubles and the times are not modelled. [evolve k] is the genetic algorithm in the
    k-th run; [srand(0)] makes the values of rand() the same in every run. *)
From Coq Require Import String List Bool Arith ZArith QArith.
From Verif Require Import Res Cudd Float Helpers Metrics Examples Parsing Benchmark Minimize Genetic.
Import ListNotations.
Open Scope nat_scope.

(** the double 0.05 *)
Definition limit_005 : Q := round_float 53 (1 # 20).

(** The calls lorina makes for a file until it stops, with [true] for success; [None]: no call
    (no file, no header) *)
Definition aiger_files := string -> option (N * N * N * list aig_event * bool).
(** benchmark_util.cpp 106-122 *)
Definition load_iscas_85_file (files : aiger_files) (M : mgr) (file_id : nat) : res (list bdd) :=
  path <- iscas_85_filepath_by_id file_id ;;
  match files path with
  | None => Throw
  | Some (m, i, o, evs, success) =>
      st <- on_header m i o ;;
      st <- aig_run M evs st ;;
      if success then get_outputs st else Throw
  end.
(** lorina::read_aiger without a look at the return code, then get_outputs: nsga2_minimize_iscas.cpp
    22-27 and benchmark_util.cpp 149-152 *)
Definition read_unchecked (files : aiger_files) (M : mgr) (path : string) : res (list bdd) :=
  match files path with
  | None => Ok []
  | Some (m, i, o, evs, _) => aig_file M m i o evs
  end.
(** benchmark_util.cpp 144-153 *)
Definition load_epfl_benchmark_file (files : aiger_files) (M : mgr) (file_id : nat) : res (list bdd) :=
  path <- epfl_filepath_by_id file_id ;; read_unchecked files M path.

(** the rows printed, and how the program ends ([None]: not within the given number of steps) *)
Fixpoint print_rows {A B} (run : nat -> A -> option (res B)) (k : nat) (items : list A) : list B * option (res unit) :=
  match items with
  | [] => ([], Some (Ok tt))
  | x :: items' =>
      match run k x with
      | None => ([], None)
      | Some (Ok row) => let '(rows, e) := print_rows run (S k) items' in (row :: rows, e)
      | Some UB => ([], Some UB)
      | Some Throw => ([], Some Throw)
      | Some Abort => ([], Some Abort)
      end
  end.

(** ** nsga2 *)
Record genetic_row := GeneticRow { g_name : string; g_original : nat; g_result : MinimizationResult_ }.
Section Genetic.
Variable draws : nat -> Z.
Variable evolve : nat -> nat -> list individuum -> list individuum.
Variable fuel : nat.

Definition genetic_row_of (M : mgr) (k : nat) (name : string) (f : res (list bdd)) (max_ace : Q) (both : bool)
  : option (res genetic_row) :=
  match f with
  | Ok f =>
      match run_genetic_minimization M f limit_005 max_ace both draws (evolve k) fuel with
      | None => None
      | Some r => Some (r <- r ;; Ok (GeneticRow name (nodeCount f) r))
      end
  | UB => Some UB | Throw => Some Throw | Abort => Some Abort
  end.

(** nsga2_minimize_adders.cpp 9-30 *)
Definition nsga2_adders : list (nat * Z) := [(8, 7%Z); (16, 35%Z); (32, 9000%Z)].
Definition nsga2_minimize_adders : list genetic_row * option (res unit) :=
  print_rows (fun k '(bits, max_ace) =>
    let M := id_mgr (2 * bits + 1) in
    genetic_row_of M k (to_string (N.of_nat bits)) (regular_adder M bits) (inject_Z max_ace) true) 0 nsga2_adders.

(** nsga2_minimize_iscas.cpp 9-38; [managers]: the manager after reading a file (reordering was on) *)
Variable files : aiger_files.
Variable managers : string -> mgr.
Definition nsga2_iscas_names : list string := ["c432"; "c499"; "c880"; "c1355"; "c1908"; "c2670"; "c3540"]%string.
Definition nsga2_minimize_iscas : list genetic_row * option (res unit) :=
  print_rows (fun k file =>
    let path := ("./iscas85/" ++ file ++ ".aig")%string in
    genetic_row_of (managers path) k file (read_unchecked files (managers path) path) 0 false) 0 nsga2_iscas_names.

(** nsga2_minimize_epfl.cpp 10-40; the order of the loop, as positions in the enumeration of
    benchmark_util.hpp 87-100 *)
Definition epfl_order : list nat := [4; 0; 1; 2; 3; 5; 6; 7; 8; 9].
Definition nsga2_minimize_epfl : list genetic_row * option (res unit) :=
  print_rows (fun k id =>
    match by_id epfl_files id, epfl_filepath_by_id id with
    | Ok name, Ok path => genetic_row_of (managers path) k name (load_epfl_benchmark_file files (managers path) id) 0 false
    | _, _ => Some Throw
    end) 0 epfl_order.
End Genetic.

(** ** bucket *)
Section Bucket.
Variable fuel : nat.
Variable files : aiger_files.
Variable managers : string -> mgr.
Definition both_cofactors : list Operator := [POSITIVE_COFACTOR; NEGATIVE_COFACTOR].

(** minimization_helper.cpp 59-105 with the default configuration of minimization_helper.hpp 32-54,
    loading included *)
Definition parsed (path : string) : option (N * N * N * list aig_event) :=
  match files path with Some (m, i, o, evs, true) => Some (m, i, o, evs) | _ => None end.
Definition minimize_input (input : string) (metrics : list SimpleMetricDimension) : option (res (nat * Bucket * list Bucket)) :=
  match load_input parsed (managers input) input with
  | Ok (M, f) => bucket_minimize_helper M fuel f metrics SINGLE_BDD both_cofactors [] 0 false
  | UB => Some UB | Throw => Some Throw | Abort => Some Abort
  end.

(** minimize_adders.cpp 41-60: the indices of a bucket and, if it is not empty, size and errors *)
Fixpoint bucket_rows (i : Z) (bounds : list Z) (buckets : list Bucket) : res (list (list Z * option (nat * Q * Q))) :=
  match buckets with
  | [] => Ok []
  | b :: buckets' =>
      idxs <- create_multi_dim_index i bounds ;;
      row <- (if is_empty b then Ok None
              else er <- vget (metric_values b) 0 ;; ace <- vget (metric_values b) 1 ;; Ok (Some (bdd_size b, er, ace))) ;;
      rows <- bucket_rows (u64 (i + 1)) bounds buckets' ;;
      Ok ((idxs, row) :: rows)
  end.
(** minimize_adders.cpp 21-61: sizes of the original and the smallest function, its errors, the buckets *)
Record adder_row := AdderRow { a_original : nat; a_smallest : nat * Q * Q; a_buckets : list (list Z * option (nat * Q * Q)) }.
Definition adder_row_of (bits : nat) (ace_limit : Q) : option (res adder_row) :=
  match minimize_input ("adder" ++ to_string (N.of_nat bits))
          [SimpleDim ERROR_RATE limit_005 20; SimpleDim AVERAGE_CASE ace_limit 20] with
  | None => None
  | Some r => Some (
      '(original, smallest, buckets) <- r ;;
      er <- vget (metric_values smallest) 0 ;;
      ace <- vget (metric_values smallest) 1 ;;
      rows <- bucket_rows 0 [20; 20]%Z buckets ;;
      Ok (AdderRow original (bdd_size smallest, er, ace) rows))
  end.
(** minimize_adders.cpp 10-63; the parameters {16, 35} and {32, 9000} are commented out *)
Definition minimize_adders : list adder_row * option (res unit) :=
  print_rows (fun _ '(bits, ace_limit) => adder_row_of bits (inject_Z ace_limit)) 0 [(8, 7%Z)].

(** minimize_iscas.cpp 20-35 and minimize_epfl.cpp 19-34 *)
Record file_row := FileRow { f_name : string; f_original : nat; f_smallest : nat; f_rate : Q }.
Definition file_row_of (name path : res string) : option (res file_row) :=
  match path with
  | Ok path =>
      match minimize_input path [SimpleDim ERROR_RATE limit_005 10] with
      | None => None
      | Some r => Some ('(original, smallest, _) <- r ;;
          name <- name ;;
          er <- vget (metric_values smallest) 0 ;;
          Ok (FileRow name original (bdd_size smallest) er))
      end
  | UB => Some UB | Throw => Some Throw | Abort => Some Abort
  end.
(** minimize_iscas.cpp 11-38: positions in the enumeration of benchmark_util.hpp 50-64 *)
Definition iscas_order : list nat := [1; 2; 3; 4; 5; 6; 7].
Definition minimize_iscas : list file_row * option (res unit) :=
  print_rows (fun _ id => file_row_of (by_id iscas_85_files id) (iscas_85_filepath_by_id id)) 0 iscas_order.
(** minimize_epfl.cpp 11-37 *)
Definition minimize_epfl : list file_row * option (res unit) :=
  print_rows (fun _ id => file_row_of (by_id epfl_files id) (epfl_filepath_by_id id)) 0 epfl_order.
End Bucket.
