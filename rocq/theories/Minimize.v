(** Model of /repo/src/minimization/bucket_minimization.cpp.

    [std::size_t] is [Z] with explicit wrap-around. [double] is an exact rational, infinities and
    NaNs are [NonFin] (simplification: no rounding). The operators and metrics passed in are
    arbitrary functions of the vectors they are given (simplification: no state, no effect on the
    manager). Node counts come from an [int] and are natural numbers. *)
From Coq Require Import List Bool Arith ZArith QArith.
From Verif Require Import Res Cudd Helpers Counting Metrics RelMetrics Operators Examples.
Import ListNotations.
Open Scope nat_scope.

(** bucket_minimization.cpp 25-35 *)
Fixpoint reduce_loop (index bounds : list Z) (result : Z) : res Z :=
  match bounds with
  | [] => Ok result
  | b :: bounds' =>
      match index with
      | [] => UB
      | x :: index' => reduce_loop index' bounds' (u64 (u64 (result * b) + x))
      end
  end.
Definition reduce_multi_dim_index (index bounds : list Z) : res Z := reduce_loop index bounds 0%Z.

(** bucket_minimization.cpp 37-47: from the last dimension to the first *)
Fixpoint create_loop (rev_bounds : list Z) (index : Z) (result : list Z) : res (list Z) :=
  match rev_bounds with
  | [] => Ok result
  | b :: bounds' =>
      if (b =? 0)%Z then UB else create_loop bounds' (index / b)%Z ((index mod b)%Z :: result)
  end.
Definition create_multi_dim_index (index : Z) (bounds : list Z) : res (list Z) :=
  create_loop (rev bounds) index [].

(** bucket_minimization.hpp 24, 100-118, 122-140 *)
Definition OperatorFunction := list bdd -> res (list bdd).
Definition MetricFunction := list bdd -> list bdd -> res num.
Record MetricDimension := Dim { grid_size : Z; metric : MetricFunction; bound : Q }.
Record Bucket := Bkt {
  b_function : list bdd;
  bdd_size : nat;
  metric_values : list Q;
  possible_operators : list bool;
  is_empty : bool
}.

(** [std::size_t(grid * error / bound)], bucket_minimization.cpp 125-126: undefined if the truncated value is not
    representable *)
Definition dimension_index (grid : Z) (error : num) (bound : Q) : res Z :=
  match error with
  | NonFin => UB
  | Fin e =>
      if Qeq_bool bound 0 then UB
      else
        let q := (inject_Z grid * e / bound)%Q in
        let z := Z.quot (Qnum q) (Zpos (Qden q)) in
        if (0 <=? z)%Z && (z <? 2 ^ 64)%Z then Ok z else UB
  end.

(** ** std::set<std::vector<std::size_t>>: sorted lexicographically *)
Fixpoint lex_lt (x y : list Z) : bool :=
  match x, y with
  | [], _ :: _ => true
  | _, [] => false
  | a :: x', b :: y' => if (a <? b)%Z then true else if (b <? a)%Z then false else lex_lt x' y'
  end.
Fixpoint vec_eqb (x y : list Z) : bool :=
  match x, y with
  | [], [] => true
  | a :: x', b :: y' => (a =? b)%Z && vec_eqb x' y'
  | _, _ => false
  end.
Fixpoint set_insert (x : list Z) (s : list (list Z)) : list (list Z) :=
  match s with
  | [] => [x]
  | y :: s' => if lex_lt x y then x :: s else if vec_eqb x y then s else y :: set_insert x s'
  end.
Definition set_erase (x : list Z) (s : list (list Z)) : list (list Z) := filter (fun y => negb (vec_eqb x y)) s.
Definition coordinate_sum (x : list Z) : Z := fold_left Z.add x 0%Z.
(** [std::min_element]: the first of the smallest elements *)
Fixpoint min_element (best : list Z) (s : list (list Z)) : list Z :=
  match s with
  | [] => best
  | y :: s' => min_element (if (coordinate_sum y <? coordinate_sum best)%Z then y else best) s'
  end.

(** [std::map] from bucket to operator number *)
Fixpoint map_set (k v : nat) (m : list (nat * nat)) : list (nat * nat) :=
  match m with
  | [] => [(k, v)]
  | (k', v') :: m' => if k =? k' then (k, v) :: m' else (k', v') :: map_set k v m'
  end.

(** ** bucket_greedy_minimize, bucket_minimization.cpp 49-191 *)
Section Search.
Variable function : list bdd.
Variable metrics : list MetricDimension.
Variable operators : list OperatorFunction.
Variable populate_all_buckets : bool.

Definition bucket_grid_size : list Z := map grid_size metrics.

(** outcome of bucket_minimization.cpp 118-146 *)
Inductive verdict :=
| Rejected (remove_operator : bool)
| Better (new_bucket_index : list Z) (values : list Q).

Fixpoint metric_loop (buckets : list Bucket) (nodes : nat) (modified : list bdd) (ms : list MetricDimension)
    (i : nat) (new_bucket_index : list Z) (values : list Q) : res verdict :=
  match ms with
  | [] => Ok (Better new_bucket_index values)
  | m :: ms' =>
      error <- metric m function modified ;;
      d <- dimension_index (grid_size m) error (bound m) ;;
      if (grid_size m <=? d)%Z then Ok (Rejected true)
      else
        new_bucket_index <- vset new_bucket_index i d ;;
        partial_index <- reduce_multi_dim_index new_bucket_index bucket_grid_size ;;
        b <- vget buckets (Z.to_nat partial_index) ;;
        if bdd_size b <=? nodes then Ok (Rejected false)
        else
          values <- vset values i (match error with Fin e => e | NonFin => 0%Q end) ;;
          metric_loop buckets nodes modified ms' (i + 1) new_bucket_index values
  end.

(** buckets, replace_possible_operators, test *)
Definition pop_state : Type := list Bucket * list (nat * nat) * list (list Z).

(** bucket_minimization.cpp 153-179 *)
Fixpoint populate (indices : list nat) (opnum nodes : nat) (modified : list bdd) (new_bucket_index : list Z)
    (values : list Q) (st : pop_state) : res pop_state :=
  match indices with
  | [] => Ok st
  | i :: indices' =>
      let '(buckets, replace, test) := st in
      b <- vget buckets i ;;
      if bdd_size b <=? nodes then populate indices' opnum nodes modified new_bucket_index values st
      else
        index <- create_multi_dim_index (Z.of_nat i) bucket_grid_size ;;
        if existsb (fun '(x, y) => (x <? y)%Z) (combine index new_bucket_index)
        then populate indices' opnum nodes modified new_bucket_index values st
        else
          buckets <- vset buckets i (Bkt modified nodes values (possible_operators b) false) ;;
          populate indices' opnum nodes modified new_bucket_index values
            (buckets, map_set i opnum replace, set_insert index test)
  end.

(** the body of the operator loop, bucket_minimization.cpp 98-179; the state also has bucket_possible_operators *)
Definition op_state : Type := pop_state * list bool.
Definition op_step (current_index : nat) (bucket_function : list bdd) (opnum : nat) (st : op_state) : res op_state :=
  let '((buckets, replace, test), possible) := st in
  op <- vget operators opnum ;;
  p <- vget possible opnum ;;
  if negb p then Ok st
  else
    modified <- op bucket_function ;;
    let nodes := nodeCount modified in
    cur <- vget buckets current_index ;;
    if bdd_size cur <=? nodes then
      if bdd_size cur * 3 / 2 <? nodes then
        possible <- vset possible opnum false ;;
        Ok ((buckets, replace, test), possible)
      else Ok st
    else
      v <- metric_loop buckets nodes modified metrics 0 (repeat 0%Z (length metrics)) (repeat 0%Q (length metrics)) ;;
      match v with
      | Rejected remove_operator =>
          if remove_operator then
            possible <- vset possible opnum false ;;
            Ok ((buckets, replace, test), possible)
          else Ok st
      | Better new_bucket_index values =>
          start <- reduce_multi_dim_index new_bucket_index bucket_grid_size ;;
          let start := Z.to_nat start in
          let bucket_end := if populate_all_buckets then length buckets else start + 1 in
          st' <- populate (seq start (bucket_end - start)) opnum nodes modified new_bucket_index values
                   (buckets, replace, test) ;;
          Ok (st', possible)
      end.

(** bucket_minimization.cpp 183-187 *)
Fixpoint replace_loop (replace : list (nat * nat)) (possible : list bool) (buckets : list Bucket) : res (list Bucket) :=
  match replace with
  | [] => Ok buckets
  | (i, op) :: replace' =>
      b <- vget buckets i ;;
      ops <- vset possible op false ;;
      buckets <- vset buckets i (Bkt (b_function b) (bdd_size b) (metric_values b) ops (is_empty b)) ;;
      replace_loop replace' possible buckets
  end.

(** one round of the while loop, bucket_minimization.cpp 81-187 *)
Definition explore (buckets : list Bucket) (first : list Z) (rest : list (list Z)) : res (list Bucket * list (list Z)) :=
  let smallest_pos := min_element first rest in
  let test := set_erase smallest_pos (first :: rest) in
  current_index <- reduce_multi_dim_index smallest_pos bucket_grid_size ;;
  let current_index := Z.to_nat current_index in
  b <- vget buckets current_index ;;
  '((buckets, replace, test), possible) <-
    for_each (seq 0 (length operators)) ((buckets, [], test), possible_operators b)
             (op_step current_index (b_function b)) ;;
  buckets <- replace_loop replace possible buckets ;;
  Ok (buckets, test).

(** the while loop; [None]: not finished after [fuel] rounds *)
Fixpoint search (fuel : nat) (buckets : list Bucket) (test : list (list Z)) : option (res (list Bucket)) :=
  match test with
  | [] => Some (Ok buckets)
  | first :: rest =>
      match fuel with
      | O => None
      | S fuel' =>
          match explore buckets first rest with
          | Ok (buckets', test') => search fuel' buckets' test'
          | UB => Some UB
          | Throw => Some Throw
          | Abort => Some Abort
          end
      end
  end.

Definition total_buckets : Z := fold_left (fun x y => u64 (x * y)) bucket_grid_size 1%Z.

Definition bucket_greedy_minimize (fuel : nat) : option (res (list Bucket)) :=
  if length metrics =? 0 then Some Throw
  else
    let buckets := repeat (Bkt function (nodeCount function) (repeat 0%Q (length metrics))
                             (repeat true (length operators)) true) (Z.to_nat total_buckets) in
    match create_multi_dim_index 0 bucket_grid_size with
    | Ok first => search fuel buckets [first]
    | UB => Some UB
    | Throw => Some Throw
    | Abort => Some Abort
    end.
End Search.

(** ** operators, bucket_minimization.cpp 193-282 *)
Inductive Operator := POSITIVE_COFACTOR | NEGATIVE_COFACTOR | SUBSET_LIGHT | SUBSET_HEAVY
  | SUPERSET_LIGHT | SUPERSET_HEAVY | ROUND_BEST | ROUND.

Section Generators.
Variable M : mgr.

(** bucket_minimization.cpp 193-213 *)
Definition apply_operator (b : bdd) (op : Operator) (level_start level_end : nat) : res bdd :=
  match op with
  | POSITIVE_COFACTOR => Ok (cofactor M b level_start true)
  | NEGATIVE_COFACTOR => Ok (cofactor M b level_start false)
  | SUBSET_LIGHT => subset_light_child M b level_start level_end
  | SUPERSET_HEAVY => superset_heavy_child M b level_start level_end
  | SUBSET_HEAVY => subset_heavy_child M b level_start level_end
  | SUPERSET_LIGHT => superset_light_child M b level_start level_end
  | ROUND_BEST => round_best M b level_start level_end
  | ROUND => round_bdd M b level_start
  end.

(** bucket_minimization.cpp 215-222 (same loop as in 254-257 and 275-278) *)
Definition apply_operator_all (function : list bdd) (op : Operator) (level_start level_end : nat) : res (list bdd) :=
  mapM (fun b => apply_operator b op level_start level_end) function.

(** bucket_minimization.cpp 235-237 *)
Definition single_operator (i j : nat) (op : Operator) : OperatorFunction := fun f =>
  b <- vget f i ;;
  r <- apply_operator b op j j ;;
  vset f i r.

(** bucket_minimization.cpp 224-242 *)
Definition generate_single_bdd_operators (function : list bdd) (operators : list Operator) : list OperatorFunction :=
  flat_map (fun i => flat_map (fun j => map (fun op => single_operator i j op) operators)
    (seq 0 (terminal_level [function]))) (seq 0 (length function)).

(** bucket_minimization.cpp 244-262 *)
Definition generate_multi_bdd_operators (function : list bdd) (operators : list Operator) : list OperatorFunction :=
  flat_map (fun j => map (fun op f => apply_operator_all f op j j) operators) (seq 0 (terminal_level [function])).

(** bucket_minimization.cpp 264-282; [rands]: the results of the calls of [rand()] *)
Fixpoint random_loop (rands : list nat) (top_level : nat) (operators : list Operator) (count : nat)
    {struct count} : res (list OperatorFunction) :=
  match count with
  | O => Ok []
  | S count' =>
      match rands with
      | r1 :: r2 :: rands' =>
          _ <- require_ (negb (length operators =? 0)) ;;
          op <- vget operators (r1 mod length operators) ;;
          _ <- require_ (negb (top_level =? 0)) ;;
          let level := r2 mod top_level in
          rest <- random_loop rands' top_level operators count' ;;
          Ok ((fun f => apply_operator_all f op level level) :: rest)
      | _ => UB
      end
  end.
Definition generate_random_operators (rands : list nat) (function : list bdd) (operators : list Operator) (count : nat) :=
  random_loop rands (terminal_level [function]) operators count.
End Generators.

(** ** error metrics, bucket_minimization.cpp 303-354 (all with the default number representation) *)
Inductive ErrorMetric := WORST_CASE | WORST_CASE_PERCENT | WORST_CASE_RELATIVE | AVERAGE_CASE
  | AVERAGE_CASE_RELATIVE | AVERAGE_CASE_RELATIVE_ADD | MEAN_SQUARED | ERROR_RATE | AVERAGE_BIT_FLIP
  | WORST_CASE_BIT_FLIP.

Section Helper.
Variable M : mgr.
Definition metric_function (metric : ErrorMetric) : MetricFunction := fun orig approx =>
  match metric with
  | WORST_CASE => x <- worst_case_error M orig approx BaseTwo ;; Ok (Fin (inject_Z x))
  | WORST_CASE_PERCENT => worst_case_error_percent M orig approx BaseTwo
  | WORST_CASE_RELATIVE => x <- wcre_add M orig approx BaseTwo ;; Ok (Fin x)
  | AVERAGE_CASE => average_case_error M orig approx BaseTwo
  | AVERAGE_CASE_RELATIVE => acre_add M orig approx BaseTwo
  | AVERAGE_CASE_RELATIVE_ADD => acre_add M orig approx BaseTwo
  | MEAN_SQUARED => mean_squared_error M orig approx BaseTwo
  | ERROR_RATE => x <- error_rate M orig approx ;; Ok (Fin x)
  | AVERAGE_BIT_FLIP => x <- average_bit_flip_error M orig approx ;; Ok (Fin x)
  | WORST_CASE_BIT_FLIP => x <- worst_case_bit_flip_error M orig approx ;; Ok (Fin (inject_Z x))
  end.

(** ** minimization_helper.cpp *)
(** minimization_helper.cpp 99-101: the bucket with the fewest nodes *)
Fixpoint min_bucket (best : Bucket) (l : list Bucket) : Bucket :=
  match l with
  | [] => best
  | b :: l' => min_bucket (if bdd_size b <? bdd_size best then b else best) l'
  end.
Definition smallest_function (buckets : list Bucket) : res Bucket :=
  match buckets with [] => UB | b :: l => Ok (min_bucket b l) end.

(** minimization_helper.hpp: the configuration of a metric and the operator construction mode *)
Record SimpleMetricDimension := SimpleDim { m_metric : ErrorMetric; m_bound : Q; m_grid_size : Z }.
Inductive OperatorConstructionMode := SINGLE_BDD | MULTI_BDD | RANDOM.

(** minimization_helper.cpp 59-105 without loading the function and the time measurement; the result is
    original_size, smallest_function, all_buckets *)
Definition bucket_minimize_helper (fuel : nat) (function : list bdd) (metrics : list SimpleMetricDimension)
    (mode : OperatorConstructionMode) (operators : list Operator) (rands : list nat) (num_operator_functions : nat)
    (populate_all_buckets : bool) : option (res (nat * Bucket * list Bucket)) :=
  let dims := map (fun m => Dim (m_grid_size m) (metric_function (m_metric m)) (m_bound m)) metrics in
  match
    match mode with
    | SINGLE_BDD => Ok (generate_single_bdd_operators M function operators)
    | MULTI_BDD => Ok (generate_multi_bdd_operators M function operators)
    | RANDOM => generate_random_operators M rands function operators num_operator_functions
    end
  with
  | Ok operator_functions =>
      match bucket_greedy_minimize function dims operator_functions populate_all_buckets fuel with
      | None => None
      | Some r => Some (buckets <- r ;; smallest <- smallest_function buckets ;; Ok (nodeCount function, smallest, buckets))
      end
  | UB => Some UB
  | Throw => Some Throw
  | Abort => Some Abort
  end.
End Helper.
