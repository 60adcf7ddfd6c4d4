(** Fourth part of the model with rounding: the average metrics with rounded counts and the bucket minimisation.
    The result of every double operation is rounded by [rnd]; uint256_t and cpp_dec_float_100 are exact, the
    conversion of their values to double is rounded. *)
From Coq Require Import List Bool Arith ZArith QArith.
From Verif Require Import Res Cudd Helpers Counting Metrics RelMetrics Operators Examples Minimize Rounded RoundedAdd.
Import ListNotations.
Open Scope nat_scope.

Section RoundedMinimize.
Variable rnd : Q -> Q.

(** average_case_error.cpp 24-29 *)
Fixpoint average_sum_fl (f : list bdd) (i s : nat) (sum : Z) : Z :=
  match f with
  | [] => sum
  | b :: f' =>
      average_sum_fl f' (S i) s (u256 (sum + u256 (shl256 i * to_u256 (CountMinterm_fl rnd b s))))
  end.
(** average_case_error.cpp 12-33 *)
Definition average_value_fl (f : list bdd) : num :=
  let max_support_size := max_support f 0 in
  fdiv (inject_Z (average_sum_fl f 0 max_support_size 0)) (inject_Z (shl256 max_support_size)).
(** average_case_error.cpp 49-58 *)
Fixpoint square_row_fl (M : mgr) (x : bdd) (i : nat) (l : list bdd) (b s : nat) (sum : Z) : Z :=
  match l with
  | [] => sum
  | y :: l' =>
      let both := band M x y in
      let doubling_factor := if i =? b then 1%Z else 2%Z in
      square_row_fl M x i l' (S b) s
        (u256 (sum + u256 (u256 (u256 (shl256 i * shl256 b) * to_u256 (CountMinterm_fl rnd both s)) * doubling_factor)))
  end.
(** average_case_error.cpp 47-59 *)
Fixpoint square_sum_fl (M : mgr) (l : list bdd) (i s : nat) (sum : Z) : Z :=
  match l with
  | [] => sum
  | x :: l' => square_sum_fl M l' (S i) s (square_row_fl M x i l i s sum)
  end.
(** average_case_error.cpp 35-63 *)
Definition mean_squared_value_fl (M : mgr) (f : list bdd) : num :=
  let max_support_size := max_support f 0 in
  fdiv (inject_Z (square_sum_fl M f 0 max_support_size 0)) (inject_Z (shl256 max_support_size)).
(** average_case_error.cpp 65-74 *)
Definition average_case_error_fl (M : mgr) (f f_hat : list bdd) (num_rep : NumberRepresentation) : res num :=
  absolute_difference <- bdd_absolute_difference M f f_hat num_rep ;;
  Ok (average_value_fl absolute_difference).
(** average_case_error.cpp 76-85 *)
Definition mean_squared_error_fl (M : mgr) (f f_hat : list bdd) (num_rep : NumberRepresentation) : res num :=
  absolute_difference <- bdd_absolute_difference M f f_hat num_rep ;;
  Ok (mean_squared_value_fl M absolute_difference).
(** worst_case_error.cpp 59-66 *)
Definition worst_case_error_percent_fl (M : mgr) (f f_hat : list bdd) (num_rep : NumberRepresentation) : res num :=
  wce <- worst_case_error M f f_hat num_rep ;;
  Ok (fdiv_fl rnd (rnd (inject_Z wce)) (pow_minus_one (length f))).

(** ** bucket_minimization.cpp *)
(** the conversion to double *)
Definition to_double (x : num) : num := match x with Fin q => Fin (rnd q) | NonFin => NonFin end.
(** lines 303-354 *)
Definition metric_function_fl (M : mgr) (metric : ErrorMetric) : MetricFunction := fun orig approx =>
  match metric with
  | WORST_CASE => x <- worst_case_error M orig approx BaseTwo ;; Ok (Fin (rnd (inject_Z x)))
  | WORST_CASE_PERCENT => worst_case_error_percent_fl M orig approx BaseTwo
  | WORST_CASE_RELATIVE => x <- wcre_add_fl rnd M orig approx BaseTwo ;; Ok (Fin x)
  | AVERAGE_CASE => x <- average_case_error_fl M orig approx BaseTwo ;; Ok (to_double x)
  | AVERAGE_CASE_RELATIVE => x <- acre_add_fl rnd M orig approx BaseTwo ;; Ok (to_double x)
  | AVERAGE_CASE_RELATIVE_ADD => x <- acre_add_fl rnd M orig approx BaseTwo ;; Ok (to_double x)
  | MEAN_SQUARED => x <- mean_squared_error_fl M orig approx BaseTwo ;; Ok (to_double x)
  | ERROR_RATE => x <- error_rate_fl rnd M orig approx ;; Ok (Fin x)
  | AVERAGE_BIT_FLIP => x <- average_bit_flip_error_fl rnd M orig approx ;; Ok (Fin x)
  | WORST_CASE_BIT_FLIP => x <- worst_case_bit_flip_error_fl rnd M orig approx ;; Ok (Fin (rnd (inject_Z x)))
  end.

(** lines 125-126: [grid] is converted to double, then a product and a quotient *)
Definition dimension_index_fl (grid : Z) (error : num) (bound : Q) : res Z :=
  match error with
  | NonFin => UB
  | Fin e =>
      if Qeq_bool bound 0 then UB
      else
        let q := rnd (rnd (rnd (inject_Z grid) * e) / bound)%Q in
        let z := Z.quot (Qnum q) (Zpos (Qden q)) in
        if (0 <=? z)%Z && (z <? 2 ^ 64)%Z then Ok z else UB
  end.

(** the sum of the coordinates, lines 82-87 *)
Definition coordinate_sum_fl (x : list Z) : Q := fold_left (fun s c => rnd (s + rnd (inject_Z c)))%Q x 0%Q.
Fixpoint min_element_fl (best : list Z) (s : list (list Z)) : list Z :=
  match s with
  | [] => best
  | y :: s' => min_element_fl (if qgtb (coordinate_sum_fl best) (coordinate_sum_fl y) then y else best) s'
  end.

Section Search.
Variable function : list bdd.
Variable metrics : list MetricDimension.
Variable operators : list OperatorFunction.
Variable populate_all_buckets : bool.

(** lines 118-146 *)
Fixpoint metric_loop_fl (buckets : list Bucket) (nodes : nat) (modified : list bdd) (ms : list MetricDimension)
    (i : nat) (new_bucket_index : list Z) (values : list Q) : res verdict :=
  match ms with
  | [] => Ok (Better new_bucket_index values)
  | m :: ms' =>
      error <- metric m function modified ;;
      d <- dimension_index_fl (grid_size m) error (bound m) ;;
      if (grid_size m <=? d)%Z then Ok (Rejected true)
      else
        new_bucket_index <- vset new_bucket_index i d ;;
        partial_index <- reduce_multi_dim_index new_bucket_index (bucket_grid_size metrics) ;;
        b <- vget buckets (Z.to_nat partial_index) ;;
        if bdd_size b <=? nodes then Ok (Rejected false)
        else
          values <- vset values i (match error with Fin e => e | NonFin => 0%Q end) ;;
          metric_loop_fl buckets nodes modified ms' (i + 1) new_bucket_index values
  end.

(** lines 98-179 *)
Definition op_step_fl (current_index : nat) (bucket_function : list bdd) (opnum : nat) (st : op_state) : res op_state :=
  let '((buckets, replace, test), possible) := st in
  op <- vget operators opnum ;;
  p <- vget possible opnum ;;
  if negb p then Ok st
  else
    modified <- op bucket_function ;;
    let nodes := nodeCount modified in
    cur <- vget buckets current_index ;;
    if bdd_size cur <=? nodes then
      if bdd_size cur * 3 / 2 <? nodes then
        possible <- vset possible opnum false ;;
        Ok ((buckets, replace, test), possible)
      else Ok st
    else
      v <- metric_loop_fl buckets nodes modified metrics 0 (repeat 0%Z (length metrics)) (repeat 0%Q (length metrics)) ;;
      match v with
      | Rejected remove_operator =>
          if remove_operator then
            possible <- vset possible opnum false ;;
            Ok ((buckets, replace, test), possible)
          else Ok st
      | Better new_bucket_index values =>
          start <- reduce_multi_dim_index new_bucket_index (bucket_grid_size metrics) ;;
          let start := Z.to_nat start in
          let bucket_end := if populate_all_buckets then length buckets else start + 1 in
          st' <- populate metrics (seq start (bucket_end - start)) opnum nodes modified new_bucket_index values
                   (buckets, replace, test) ;;
          Ok (st', possible)
      end.

(** lines 81-187 *)
Definition explore_fl (buckets : list Bucket) (first : list Z) (rest : list (list Z)) : res (list Bucket * list (list Z)) :=
  let smallest_pos := min_element_fl first rest in
  let test := set_erase smallest_pos (first :: rest) in
  current_index <- reduce_multi_dim_index smallest_pos (bucket_grid_size metrics) ;;
  let current_index := Z.to_nat current_index in
  b <- vget buckets current_index ;;
  '((buckets, replace, test), possible) <-
    for_each (seq 0 (length operators)) ((buckets, [], test), possible_operators b)
             (op_step_fl current_index (b_function b)) ;;
  buckets <- replace_loop replace possible buckets ;;
  Ok (buckets, test).
Fixpoint search_fl (fuel : nat) (buckets : list Bucket) (test : list (list Z)) : option (res (list Bucket)) :=
  match test with
  | [] => Some (Ok buckets)
  | first :: rest =>
      match fuel with
      | O => None
      | S fuel' =>
          match explore_fl buckets first rest with
          | Ok (buckets', test') => search_fl fuel' buckets' test'
          | UB => Some UB
          | Throw => Some Throw
          | Abort => Some Abort
          end
      end
  end.
(** lines 49-191 *)
Definition bucket_greedy_minimize_fl (fuel : nat) : option (res (list Bucket)) :=
  if length metrics =? 0 then Some Throw
  else
    let buckets := repeat (Bkt function (nodeCount function) (repeat 0%Q (length metrics))
                             (repeat true (length operators)) true) (Z.to_nat (total_buckets metrics)) in
    match create_multi_dim_index 0 (bucket_grid_size metrics) with
    | Ok first => search_fl fuel buckets [first]
    | UB => Some UB
    | Throw => Some Throw
    | Abort => Some Abort
    end.
End Search.

(** ** the operators and the helper with rounded counts *)
Section Helper.
Variable M : mgr.
(** lines 193-213 *)
Definition apply_operator_fl (b : bdd) (op : Operator) (level_start level_end : nat) : res bdd :=
  match op with
  | POSITIVE_COFACTOR => Ok (cofactor M b level_start true)
  | NEGATIVE_COFACTOR => Ok (cofactor M b level_start false)
  | SUBSET_LIGHT => subset_light_child_fl rnd M b level_start level_end
  | SUPERSET_HEAVY => superset_heavy_child_fl rnd M b level_start level_end
  | SUBSET_HEAVY => subset_heavy_child_fl rnd M b level_start level_end
  | SUPERSET_LIGHT => superset_light_child_fl rnd M b level_start level_end
  | ROUND_BEST => round_best_fl rnd M b level_start level_end
  | ROUND => round_bdd_fl rnd M b level_start
  end.
(** lines 215-222 *)
Definition apply_operator_all_fl (function : list bdd) (op : Operator) (level_start level_end : nat) : res (list bdd) :=
  mapM (fun b => apply_operator_fl b op level_start level_end) function.
(** lines 235-237 *)
Definition single_operator_fl (i j : nat) (op : Operator) : OperatorFunction := fun f =>
  b <- vget f i ;;
  r <- apply_operator_fl b op j j ;;
  vset f i r.
(** lines 224-242 *)
Definition generate_single_bdd_operators_fl (function : list bdd) (operators : list Operator) : list OperatorFunction :=
  flat_map (fun i => flat_map (fun j => map (fun op => single_operator_fl i j op) operators)
    (seq 0 (terminal_level [function]))) (seq 0 (length function)).
(** lines 244-262 *)
Definition generate_multi_bdd_operators_fl (function : list bdd) (operators : list Operator) : list OperatorFunction :=
  flat_map (fun j => map (fun op f => apply_operator_all_fl f op j j) operators) (seq 0 (terminal_level [function])).
(** lines 264-282 *)
Fixpoint random_loop_fl (rands : list nat) (top_level : nat) (operators : list Operator) (count : nat)
    {struct count} : res (list OperatorFunction) :=
  match count with
  | O => Ok []
  | S count' =>
      match rands with
      | r1 :: r2 :: rands' =>
          _ <- require_ (negb (length operators =? 0)) ;;
          op <- vget operators (r1 mod length operators) ;;
          _ <- require_ (negb (top_level =? 0)) ;;
          let level := r2 mod top_level in
          rest <- random_loop_fl rands' top_level operators count' ;;
          Ok ((fun f => apply_operator_all_fl f op level level) :: rest)
      | _ => UB
      end
  end.
Definition generate_random_operators_fl (rands : list nat) (function : list bdd) (operators : list Operator) (count : nat) :=
  random_loop_fl rands (terminal_level [function]) operators count.

(** minimization_helper.cpp 59-105 without loading the function and the time measurement *)
Definition bucket_minimize_helper_fl (fuel : nat) (function : list bdd) (metrics : list SimpleMetricDimension)
    (mode : OperatorConstructionMode) (operators : list Operator) (rands : list nat) (num_operator_functions : nat)
    (populate_all_buckets : bool) : option (res (nat * Bucket * list Bucket)) :=
  let dims := map (fun m => Dim (m_grid_size m) (metric_function_fl M (m_metric m)) (m_bound m)) metrics in
  match
    match mode with
    | SINGLE_BDD => Ok (generate_single_bdd_operators_fl function operators)
    | MULTI_BDD => Ok (generate_multi_bdd_operators_fl function operators)
    | RANDOM => generate_random_operators_fl rands function operators num_operator_functions
    end
  with
  | Ok operator_functions =>
      match bucket_greedy_minimize_fl function dims operator_functions populate_all_buckets fuel with
      | None => None
      | Some r => Some (buckets <- r ;; smallest <- smallest_function buckets ;; Ok (nodeCount function, smallest, buckets))
      end
  | UB => Some UB
  | Throw => Some Throw
  | Abort => Some Abort
  end.
End Helper.
End RoundedMinimize.
