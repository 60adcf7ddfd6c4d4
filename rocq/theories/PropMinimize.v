(** Properties C52-C56, C68-C71, C118-C119 and C127-C128: the bucket based minimisation
    (src/minimization/bucket_minimization.cpp, src/minimization/minimization_helper.cpp). *)
From Coq Require Import List Bool Arith ZArith QArith Sorted.
From Verif Require Import Res Cudd Spec Helpers Metrics Operators Minimize SpecMinimize MinimizeFacts MinimizeFacts3 MinimizeFacts4 MinimizeFacts5 MinimizeFacts6 MinimizeFacts7 MinimizeFacts8 MinimizeFacts9 MinimizeFacts10
  MinimizeFacts11 Benchmark Genetic LevelFacts.
Import ListNotations.
Open Scope nat_scope.

(** C52: flat and multi dimensional bucket indices are inverse to each other, row major *)
Theorem C52_index_conversions : forall (bounds : list Z), (volume bounds <= 2 ^ 64)%Z ->
  (forall index, in_box bounds index ->
     (0 <= row_major bounds index < volume bounds)%Z
     /\ reduce_multi_dim_index index bounds = Ok (row_major bounds index)
     /\ create_multi_dim_index (row_major bounds index) bounds = Ok index)
  /\ (Forall (fun b => (0 < b)%Z) bounds -> forall k, (0 <= k < volume bounds)%Z ->
     exists index, in_box bounds index /\ row_major bounds index = k
       /\ create_multi_dim_index k bounds = Ok index /\ reduce_multi_dim_index index bounds = Ok k).
Proof. exact index_conversions. Qed.
Print Assumptions C52_index_conversions.
(** the flat index is strictly monotone in the componentwise order *)
Theorem C52_index_order : forall (bounds x y : list Z), in_box bounds x -> in_box bounds y -> below_all x y ->
  (row_major bounds x <= row_major bounds y)%Z /\ (x <> y -> (row_major bounds x < row_major bounds y)%Z).
Proof. exact index_order_preserved. Qed.
Print Assumptions C52_index_order.
(** a grid size of zero is a division by zero *)
Theorem C52_zero_grid : forall (bounds : list Z), In 0%Z bounds -> forall k, create_multi_dim_index k bounds = UB.
Proof. exact create_zero. Qed.
Print Assumptions C52_zero_grid.
Example C52_case : reduce_multi_dim_index [1; 2; 3]%Z [2; 3; 5]%Z = Ok 28%Z
  /\ create_multi_dim_index 28 [2; 3; 5]%Z = Ok [1; 2; 3]%Z /\ volume [2; 3; 5]%Z = 30%Z
  /\ create_multi_dim_index 3 [2; 0]%Z = UB.
Proof. vm_compute. auto. Qed.

(** the example configurations: three outputs over three variables *)
Definition ex_mgr : mgr := id_mgr 3.
Definition ex_fun : list bdd :=
  let M := ex_mgr in
  [band M (bvar 0) (bor M (bvar 1) (bvar 2)); bxor M (bvar 1) (bvar 2); bor M (bvar 0) (band M (bvar 1) (bvar 2))].
Definition ex_ops : list OperatorFunction :=
  generate_single_bdd_operators ex_mgr ex_fun [NEGATIVE_COFACTOR; POSITIVE_COFACTOR].
Definition ex_dims : list MetricDimension := [Dim 8 (metric_function ex_mgr ERROR_RATE) 1].
Definition ex_dims2 : list MetricDimension :=
  [Dim 4 (metric_function ex_mgr WORST_CASE) 8; Dim 4 (metric_function ex_mgr ERROR_RATE) 1].
Definition summary (r : option (res (list Bucket))) : option (res (list (nat * list Q * bool))) :=
  match r with
  | Some (Ok l) => Some (Ok (map (fun b => (bdd_size b, map Qred (metric_values b), is_empty b)) l))
  | Some UB => Some UB | Some Throw => Some Throw | Some Abort => Some Abort | None => None
  end.

(** C53: soundness of the returned buckets *)
Theorem C53_buckets_sound : forall (function : list bdd) (metrics : list MetricDimension) (operators : list OperatorFunction) (pop_all : bool),
  metrics <> [] -> Forall (fun m => (0 < grid_size m)%Z) metrics -> (volume (map grid_size metrics) < 2 ^ 64)%Z ->
  forall fuel buckets, bucket_greedy_minimize function metrics operators pop_all fuel = Some (Ok buckets) ->
  length buckets = Z.to_nat (volume (map grid_size metrics)) /\
  forall i b index, nth_error buckets i = Some b -> in_box (map grid_size metrics) index ->
    row_major (map grid_size metrics) index = Z.of_nat i ->
    derived operators function (b_function b) /\ bdd_size b = nodeCount (b_function b) /\ bdd_size b <= nodeCount function
    /\ (is_empty b = true -> b_function b = function /\ metric_values b = repeat 0%Q (length metrics))
    /\ (is_empty b = false -> bdd_size b < nodeCount function /\ length (metric_values b) = length metrics
        /\ forall k m v x, nth_error metrics k = Some m -> nth_error (metric_values b) k = Some v -> nth_error index k = Some x ->
             metric m function (b_function b) = Ok (Fin v)
             /\ ((0 < bound m)%Q -> (v < bound m)%Q
                 /\ ((0 <= v)%Q -> exists c, (0 <= c <= x)%Z /\ (pop_all = false -> c = x)
                       /\ (inject_Z c * bound m / inject_Z (grid_size m) <= v)%Q
                       /\ (v < (inject_Z c + 1) * bound m / inject_Z (grid_size m))%Q))).
Proof. exact buckets_sound. Qed.
Print Assumptions C53_buckets_sound.
(** without a metric there is no grid: an exception *)
Theorem C53_no_metrics : forall (function : list bdd) (operators : list OperatorFunction) (pop_all : bool) (fuel : nat),
  bucket_greedy_minimize function [] operators pop_all fuel = Some Throw.
Proof. exact no_metrics. Qed.
Print Assumptions C53_no_metrics.
Example C53_case : summary (bucket_greedy_minimize ex_fun ex_dims2 ex_ops false 1000) = Some (Ok
  [(6%nat, [1; 1 # 8], false); (5%nat, [1; 3 # 8], false); (7%nat, [0; 0], true); (7%nat, [0; 0], true);
   (7%nat, [0; 0], true); (7%nat, [0; 0], true); (3%nat, [3; 5 # 8], false); (2%nat, [2; 3 # 4], false);
   (7%nat, [0; 0], true); (5%nat, [4; 3 # 8], false); (3%nat, [5; 5 # 8], false); (1%nat, [5; 3 # 4], false);
   (7%nat, [0; 0], true); (7%nat, [0; 0], true); (3%nat, [6; 5 # 8], false); (1%nat, [7; 7 # 8], false)]%Q).
Proof. vm_compute. reflexivity. Qed.

(** C54: termination; [fuel] bounds the number of explored buckets *)
Theorem C54_terminates : forall (function : list bdd) (metrics : list MetricDimension) (operators : list OperatorFunction) (pop_all : bool),
  metrics <> [] -> Forall (fun m => (0 < grid_size m)%Z) metrics -> (volume (map grid_size metrics) < 2 ^ 64)%Z ->
  forall fuel, Z.to_nat (volume (map grid_size metrics)) * nodeCount function + 1 <= fuel ->
  bucket_greedy_minimize function metrics operators pop_all fuel <> None.
Proof. exact search_enough. Qed.
Print Assumptions C54_terminates.
(** the bound does not influence the result *)
Theorem C54_fuel_irrelevant : forall (function : list bdd) (metrics : list MetricDimension) (operators : list OperatorFunction)
    (pop_all : bool) (fuel fuel' : nat) (r : res (list Bucket)), fuel <= fuel' ->
  bucket_greedy_minimize function metrics operators pop_all fuel = Some r ->
  bucket_greedy_minimize function metrics operators pop_all fuel' = Some r.
Proof. exact minimize_more. Qed.
Print Assumptions C54_fuel_irrelevant.
(** no undefined behaviour if the operators and metrics have none *)
Theorem C54_total : forall (function : list bdd) (metrics : list MetricDimension) (operators : list OperatorFunction) (pop_all : bool),
  metrics <> [] -> Forall (fun m => (0 < grid_size m)%Z) metrics -> (volume (map grid_size metrics) < 2 ^ 64)%Z ->
  forall fuel, Z.to_nat (volume (map grid_size metrics)) * nodeCount function + 1 <= fuel ->
  (forall g op, derived operators function g -> In op operators -> exists g', op g = Ok g') ->
  (forall g m, derived operators function g -> In m metrics -> exists v, metric m function g = Ok (Fin v) /\ (0 <= v)%Q
     /\ (0 < bound m)%Q /\ (inject_Z (grid_size m) * v / bound m < inject_Z (2 ^ 64))%Q) ->
  exists buckets, bucket_greedy_minimize function metrics operators pop_all fuel = Some (Ok buckets).
Proof. exact minimize_ok. Qed.
Print Assumptions C54_total.
(** no metric: exception; grid size zero: undefined *)
Theorem C54_misuse : forall (function : list bdd) (metrics : list MetricDimension) (operators : list OperatorFunction) (pop_all : bool) (fuel : nat),
  (metrics = [] -> bucket_greedy_minimize function metrics operators pop_all fuel = Some Throw)
  /\ (In 0%Z (map grid_size metrics) -> bucket_greedy_minimize function metrics operators pop_all fuel = Some UB).
Proof. exact minimize_misuse. Qed.
Print Assumptions C54_misuse.
(** operators that lead back to the original function do not keep the search alive *)
Definition back_and_forth : list OperatorFunction := [fun _ => Ok [bone; bone; bone]; fun _ => Ok ex_fun].
Example C54_case : Z.to_nat (volume (map grid_size ex_dims)) * nodeCount ex_fun + 1 = 57
  /\ summary (bucket_greedy_minimize ex_fun ex_dims back_and_forth true 57) = Some (Ok
       ([(7%nat, [0], true); (7%nat, [0], true); (7%nat, [0], true); (7%nat, [0], true); (7%nat, [0], true); (7%nat, [0], true);
        (1%nat, [3 # 4], false); (1%nat, [3 # 4], false)]%Q)).
Proof. vm_compute. auto. Qed.
Example C54_misuse_case : bucket_greedy_minimize ex_fun [] ex_ops true 10 = Some Throw
  /\ bucket_greedy_minimize ex_fun [Dim 0 (metric_function ex_mgr ERROR_RATE) 1] ex_ops true 10 = Some UB.
Proof. vm_compute. auto. Qed.

(** C55: with populate_all a looser bucket is never larger *)
Theorem C55_looser_smaller : forall (function : list bdd) (metrics : list MetricDimension) (operators : list OperatorFunction) (pop_all : bool),
  metrics <> [] -> Forall (fun m => (0 < grid_size m)%Z) metrics -> (volume (map grid_size metrics) < 2 ^ 64)%Z ->
  forall fuel buckets, pop_all = true -> bucket_greedy_minimize function metrics operators pop_all fuel = Some (Ok buckets) ->
  forall i j bi bj xi xj, nth_error buckets i = Some bi -> nth_error buckets j = Some bj ->
    in_box (map grid_size metrics) xi -> in_box (map grid_size metrics) xj ->
    row_major (map grid_size metrics) xi = Z.of_nat i -> row_major (map grid_size metrics) xj = Z.of_nat j ->
    below_all xi xj -> bdd_size bj <= bdd_size bi.
Proof. exact looser_smaller. Qed.
Print Assumptions C55_looser_smaller.
Theorem C55_last_smallest : forall (function : list bdd) (metrics : list MetricDimension) (operators : list OperatorFunction) (pop_all : bool),
  metrics <> [] -> Forall (fun m => (0 < grid_size m)%Z) metrics -> (volume (map grid_size metrics) < 2 ^ 64)%Z ->
  forall fuel buckets, pop_all = true -> bucket_greedy_minimize function metrics operators pop_all fuel = Some (Ok buckets) ->
  exists b, nth_error buckets (length buckets - 1) = Some b /\ forall b', In b' buckets -> bdd_size b <= bdd_size b'.
Proof. exact last_smallest. Qed.
Print Assumptions C55_last_smallest.
Example C55_case : summary (bucket_greedy_minimize ex_fun ex_dims ex_ops true 1000) = Some (Ok
  [(7%nat, [0], true); (6%nat, [1 # 8], false); (4%nat, [1 # 4], false); (4%nat, [3 # 8], false);
   (2%nat, [1 # 2], false); (2%nat, [1 # 2], false); (2%nat, [3 # 4], false); (2%nat, [3 # 4], false)]%Q).
Proof. vm_compute. reflexivity. Qed.

(** C56: what an operator does to an output *)
Theorem C56_apply_operator : forall (M : mgr) (b : bdd) (op : Operator) (l : nat), wf M b ->
  exists r, apply_operator M b op l l = Ok r /\ wf M r
  /\ (forall n, depends_below n b -> depends_below n r)
  /\ match op with
     | POSITIVE_COFACTOR => forall a, ev r a = ev b (upd a l true)
     | NEGATIVE_COFACTOR => forall a, ev r a = ev b (upd a l false)
     | SUBSET_LIGHT => (forall a, ev r a = true -> ev b a = true)
         /\ forall n, depends_below n b -> at_range l l (light_const (density n) false) b (ev r)
     | SUBSET_HEAVY => (forall a, ev r a = true -> ev b a = true)
         /\ forall n, depends_below n b -> at_range l l (heavy_const (density n) false) b (ev r)
     | SUPERSET_LIGHT => (forall a, ev b a = true -> ev r a = true)
         /\ forall n, depends_below n b -> at_range l l (light_const (density n) true) b (ev r)
     | SUPERSET_HEAVY => (forall a, ev b a = true -> ev r a = true)
         /\ forall n, depends_below n b -> at_range l l (heavy_const (density n) true) b (ev r)
     | ROUND_BEST => forall n h, depends_below n b -> at_range l l child_const b h ->
         (disagreement n (ev b) (ev r) <= 2 * disagreement n (ev b) h)%Q
     | ROUND => depends_below l r /\ (index_order M -> forall n h, depends_below n b -> below_fun l h ->
         (disagreement n (ev b) (ev r) <= disagreement n (ev b) h)%Q)
     end.
Proof. exact apply_operator_spec. Qed.
Print Assumptions C56_apply_operator.
(** one operator per output, level and kind; it changes only its output *)
Theorem C56_single_operators : forall (M : mgr) (function : list bdd) (ops : list Operator) (T : nat),
  levels_of function T -> let K := length ops in
  let gens := generate_single_bdd_operators M function ops in
  length gens = length function * (T * K)
  /\ forall i j k op, i < length function -> j < T -> nth_error ops k = Some op ->
     exists g, nth_error gens (i * (T * K) + (j * K + k)) = Some g
       /\ forall f, (length f <= i -> g f = UB)
          /\ forall b r, nth_error f i = Some b -> apply_operator M b op j j = Ok r ->
             exists f', g f = Ok f' /\ length f' = length f /\ nth_error f' i = Some r
               /\ forall m, m <> i -> nth_error f' m = nth_error f m.
Proof. exact single_levels. Qed.
Print Assumptions C56_single_operators.
(** one operator per level and kind; it changes every output *)
Theorem C56_multi_operators : forall (M : mgr) (function : list bdd) (ops : list Operator) (T : nat),
  levels_of function T -> let K := length ops in
  let gens := generate_multi_bdd_operators M function ops in
  length gens = T * K
  /\ forall j k op, j < T -> nth_error ops k = Some op ->
     exists g, nth_error gens (j * K + k) = Some g
       /\ forall f, Forall (wf M) f -> exists f', g f = Ok f' /\ length f' = length f
          /\ forall i b, nth_error f i = Some b -> exists r, nth_error f' i = Some r /\ apply_operator M b op j j = Ok r.
Proof. exact multi_levels. Qed.
Print Assumptions C56_multi_operators.
Example C56_case : let M := ex_mgr in let f := ex_fun in
  levels_of f 3
  /\ (match nth_error ex_ops (1 * (3 * 2) + (2 * 2 + 1)) with Some g => g f | None => UB end)
     = Ok [nth 0 f bone; bnot (bvar 1); nth 2 f bone]
  /\ (match nth_error (generate_multi_bdd_operators M f [ROUND; SUBSET_LIGHT; SUPERSET_HEAVY]) (1 * 3 + 2) with Some g => g f | None => UB end)
     = Ok [nth 0 f bone; bor M (bnot (bvar 1)) (bnot (bvar 2)); bor M (bvar 0) (bvar 1)].
Proof. split; [exact (levels_of_check ex_fun 3 eq_refl)|]. vm_compute. auto. Qed.

(** C68: no operator still marked as possible improves the result: its outcome is not smaller than
    the bucket itself, or lies outside of the grid, or is matched by a bucket of the same cell (a
    cell at or below it without populate_all) *)
Theorem C68_no_improvement : forall (function : list bdd) (metrics : list MetricDimension) (operators : list OperatorFunction),
  metrics <> [] -> Forall (fun m => (0 < grid_size m)%Z) metrics -> (volume (map grid_size metrics) < 2 ^ 64)%Z ->
  Forall (fun m => (0 < bound m)%Q) metrics ->
  forall pop_all fuel buckets, bucket_greedy_minimize function metrics operators pop_all fuel = Some (Ok buckets) ->
  forall i b k op g' cell, nth_error buckets i = Some b -> is_empty b = false \/ i = 0 ->
    nth_error operators k = Some op -> nth_error (possible_operators b) k = Some true -> op (b_function b) = Ok g' ->
    in_cell function metrics g' cell ->
    bdd_size b <= nodeCount g'
    \/ exists j bj index, nth_error buckets j = Some bj /\ in_box (map grid_size metrics) index
         /\ row_major (map grid_size metrics) index = Z.of_nat j
         /\ below_all index cell /\ (pop_all = true -> index = cell) /\ bdd_size bj <= nodeCount g'.
Proof. exact no_improvement. Qed.
Print Assumptions C68_no_improvement.
(** in the result of C55_case bucket 1 has 6 nodes; its operator 14 leads to 5 nodes with error 1/4, which
    bucket 2 matches with 4 nodes *)
Example C68_case : match bucket_greedy_minimize ex_fun ex_dims ex_ops true 1000 with
  | Some (Ok (_ :: b1 :: b2 :: _)) =>
      match nth_error ex_ops 14 with
      | Some op => match op (b_function b1) with
          | Ok g => nth_error (possible_operators b1) 14 = Some true /\ bdd_size b1 = 6 /\ is_empty b1 = false /\ nodeCount g = 5
              /\ (exists v, metric_function ex_mgr ERROR_RATE ex_fun g = Ok (Fin v) /\ (v == 1 # 4)%Q)
              /\ bdd_size b2 = 4
          | _ => False
          end
      | None => False
      end
  | _ => False
  end.
Proof. vm_compute. repeat split. eexists. split; reflexivity. Qed.

(** C69: the buckets of bucket_minimize_helper keep the requested error bounds. Wrong for the mean squared error,
    which is computed too small (C38): [x0; x1] is replaced with [0; 0] *)
Definition two_bits : list bdd := [bvar 0; bvar 1].
Theorem C69_error_bounds_refuted : exists (M : mgr) (n fuel : nat) (function : list bdd) (m : SimpleMetricDimension)
    (ops : list Operator) (pop_all : bool) (r : nat * Bucket * list Bucket),
  Forall (wf M) function /\ below n function /\ (0 < m_grid_size m)%Z /\ (0 < m_bound m)%Q
  /\ bucket_minimize_helper M fuel function [m] MULTI_BDD ops [] 0 pop_all = Some (Ok r)
  /\ exists b, In b (snd r) /\ ~ error_below (m_metric m) n function (b_function b) (m_bound m).
Proof. exact mse_bound_exceeded. Qed.
Print Assumptions C69_error_bounds_refuted.
(** the nine other metrics, as long as they are computed exactly *)
Theorem C69_error_bounds_partial : forall (M : mgr) (n : nat) (function : list bdd) (metrics : list SimpleMetricDimension)
    (mode : OperatorConstructionMode) (ops : list Operator) (rands : list nat) (count : nat) (pop_all : bool),
  Forall (wf M) function -> below n function -> metrics <> [] ->
  Forall (fun m => (0 < m_grid_size m)%Z) metrics -> Forall (fun m => (0 < m_bound m)%Q) metrics ->
  (volume (map m_grid_size metrics) < 2 ^ 64)%Z ->
  forall fuel original smallest buckets,
  bucket_minimize_helper M fuel function metrics mode ops rands count pop_all = Some (Ok (original, smallest, buckets)) ->
  original = nodeCount function
  /\ In smallest buckets /\ (forall b, In b buckets -> bdd_size smallest <= bdd_size b)
  /\ forall b, In b buckets ->
       bdd_size b = nodeCount (b_function b) /\ bdd_size b <= original
       /\ Forall (wf M) (b_function b) /\ below n (b_function b) /\ length (b_function b) = length function
       /\ forall m, In m metrics -> admissible M n (length function) (m_metric m) ->
            error_below (m_metric m) n function (b_function b) (m_bound m).
Proof. exact helper_guarantee. Qed.
Print Assumptions C69_error_bounds_partial.
(** for the mean squared error the bound holds for the truncated value (C38), and for the mean squared error itself if some
    bit of the difference depends on all its variables *)
Theorem C69_mean_squared_partial : forall (M : mgr) (n : nat) (function : list bdd) (metrics : list SimpleMetricDimension)
    (mode : OperatorConstructionMode) (ops : list Operator) (rands : list nat) (count : nat) (pop_all : bool),
  Forall (wf M) function -> below n function -> metrics <> [] ->
  Forall (fun m => (0 < m_grid_size m)%Z) metrics -> Forall (fun m => (0 < m_bound m)%Q) metrics ->
  (volume (map m_grid_size metrics) < 2 ^ 64)%Z ->
  forall fuel original smallest buckets,
  bucket_minimize_helper M fuel function metrics mode ops rands count pop_all = Some (Ok (original, smallest, buckets)) ->
  forall b m, In b buckets -> In m metrics -> m_metric m = MEAN_SQUARED -> 2 * length function + 2 + n <= 256 ->
  exists d, bdd_absolute_difference M function (b_function b) BaseTwo = Ok d
    /\ (forall a, uval d a = dist (uval function a) (uval (b_function b) a))
    /\ (forall s, largest_support d s -> (truncated_square n s d < m_bound m)%Q)
    /\ ((exists x, In x d /\ forall i, vars_in d i -> In i (varsn (snd x))) ->
        error_below MEAN_SQUARED n function (b_function b) (m_bound m)).
Proof. exact helper_mean_squared. Qed.
Print Assumptions C69_mean_squared_partial.
Example C69_mean_squared_case : match bucket_minimize_helper ex_mgr 1000 ex_fun [SimpleDim MEAN_SQUARED 3 2]
    SINGLE_BDD [NEGATIVE_COFACTOR; SUBSET_LIGHT; SUPERSET_HEAVY] [] 0 true with
  | Some (Ok (original, smallest, buckets)) => (original, (bdd_size smallest, map Qred (metric_values smallest)), length buckets)
  | _ => (0, (0, []), 0)
  end = (7, (3, [19 # 8]), 2).
Proof. vm_compute. reflexivity. Qed.
(** and the helper returns a result *)
Theorem C69_helper_total_partial : forall (M : mgr) (n : nat) (function : list bdd) (metrics : list SimpleMetricDimension)
    (mode : OperatorConstructionMode) (ops : list Operator) (rands : list nat) (count : nat) (pop_all : bool),
  Forall (wf M) function -> below n function -> metrics <> [] ->
  Forall (fun m => (0 < m_grid_size m)%Z) metrics -> Forall (fun m => (0 < m_bound m)%Q) metrics ->
  (volume (map m_grid_size metrics) < 2 ^ 64)%Z ->
  forall fuel, Z.to_nat (volume (map m_grid_size metrics)) * nodeCount function + 1 <= fuel ->
  (mode = RANDOM -> 2 * count <= length rands /\ (0 < count -> ops <> [] /\ function <> [])) ->
  Forall (fun m => admissible M n (length function) (m_metric m)
    /\ (inject_Z (m_grid_size m) * cap (length function) (m_metric m) / m_bound m < inject_Z (2 ^ 64))%Q) metrics ->
  exists r, bucket_minimize_helper M fuel function metrics mode ops rands count pop_all = Some (Ok r).
Proof. exact helper_ok. Qed.
Print Assumptions C69_helper_total_partial.
Example C69_case : match bucket_minimize_helper ex_mgr 1000 ex_fun [SimpleDim WORST_CASE 3 2; SimpleDim ERROR_RATE (3 # 4) 2]
    SINGLE_BDD [NEGATIVE_COFACTOR; SUBSET_LIGHT; SUPERSET_HEAVY] [] 0 true with
  | Some (Ok (original, smallest, buckets)) => (original, (bdd_size smallest, map Qred (metric_values smallest)), length buckets)
  | _ => (0, (0, []), 0)
  end = (7, (4, [2%Q; 5 # 8]), 4).
Proof. vm_compute. reflexivity. Qed.

(** C70: operators returned by generate_random_operators change one output of the function (as the documentation says).
    Wrong: they change all outputs, with the operator and level fixed when they are created *)
Theorem C70_single_output_refuted : exists (M : mgr) (rands : list nat) (function : list bdd) (ops : list Operator) (g : OperatorFunction) (f' : list bdd),
  Forall (wf M) function /\ generate_random_operators M rands function ops 1 = Ok [g] /\ g function = Ok f'
  /\ nth_error f' 0 <> nth_error function 0 /\ nth_error f' 1 <> nth_error function 1.
Proof. exact random_changes_two. Qed.
Print Assumptions C70_single_output_refuted.
(** [count] operators, each applying one of the kinds at one level to all outputs *)
Theorem C70_random_operators_partial : forall (M : mgr) (rands : list nat) (function : list bdd) (ops : list Operator) (count : nat) (gens : list OperatorFunction)
  (T : nat), levels_of function T -> generate_random_operators M rands function ops count = Ok gens ->
  length gens = count /\ forall g, In g gens -> exists op level, In op ops /\ level < T
    /\ forall f, Forall (wf M) f -> exists f', g f = Ok f' /\ length f' = length f
         /\ forall i b, nth_error f i = Some b -> exists r, nth_error f' i = Some r /\ apply_operator M b op level level = Ok r.
Proof. exact random_levels. Qed.
Print Assumptions C70_random_operators_partial.
(** no operator kinds or no outputs: division by zero *)
Theorem C70_outcome_partial : forall (M : mgr) (rands : list nat) (function : list bdd) (ops : list Operator) (count : nat),
  2 * count <= length rands -> 0 < count ->
  (ops = [] \/ function = [] -> generate_random_operators M rands function ops count = UB)
  /\ (ops <> [] -> function <> [] -> exists gens, generate_random_operators M rands function ops count = Ok gens).
Proof. exact random_outcome. Qed.
Print Assumptions C70_outcome_partial.
Example C70_case : let M := ex_mgr in
  match generate_random_operators M [5; 7; 12; 2] ex_fun [NEGATIVE_COFACTOR; POSITIVE_COFACTOR] 2 with
  | Ok [g1; g2] => (g1 ex_fun, g2 ex_fun) = (apply_operator_all M ex_fun POSITIVE_COFACTOR 1 1, apply_operator_all M ex_fun NEGATIVE_COFACTOR 2 2)
  | _ => False
  end /\ generate_random_operators M [5; 7] [] [NEGATIVE_COFACTOR] 1 = UB.
Proof. vm_compute. split; reflexivity. Qed.

(** C71: the non-empty buckets are a Pareto front (as the documentation says). Wrong with and without populate_all *)
Theorem C71_pareto_front_refuted : forall pop_all : bool, exists (function : list bdd) (metrics : list MetricDimension)
    (operators : list OperatorFunction) (fuel : nat) (buckets : list Bucket),
  bucket_greedy_minimize function metrics operators pop_all fuel = Some (Ok buckets)
  /\ exists x y, In x buckets /\ In y buckets /\ is_empty x = false /\ is_empty y = false /\ dominates x y.
Proof. exact pareto_dominated. Qed.
Print Assumptions C71_pareto_front_refuted.
(** with populate_all a dominated bucket is at least not larger than the one dominating it *)
Theorem C71_same_size_partial : forall (function : list bdd) (metrics : list MetricDimension) (operators : list OperatorFunction)
    (fuel : nat) (buckets : list Bucket),
  metrics <> [] -> Forall (fun m => (0 < grid_size m)%Z) metrics -> (volume (map grid_size metrics) < 2 ^ 64)%Z ->
  Forall (fun m => (0 < bound m)%Q) metrics ->
  bucket_greedy_minimize function metrics operators true fuel = Some (Ok buckets) ->
  forall x y, In x buckets -> In y buckets -> is_empty x = false -> is_empty y = false -> dominates x y -> bdd_size x = bdd_size y.
Proof. exact dominated_same_size. Qed.
Print Assumptions C71_same_size_partial.
(** buckets 2 and 3 of C55_case *)
Example C71_case : match bucket_greedy_minimize ex_fun ex_dims ex_ops true 1000 with
  | Some (Ok (_ :: _ :: x :: y :: _)) => dominates x y /\ bdd_size x = 4 /\ bdd_size y = 4
  | _ => False
  end.
Proof.
  vm_compute. split; [|auto]. split; [constructor; [discriminate|constructor]|]. split; [auto|].
  right. exists 0. do 2 eexists. split; [reflexivity|]. split; reflexivity.
Qed.

(** C118: the result is never worse than one step from the original function *)
Theorem C118_single_steps : forall (function : list bdd) (metrics : list MetricDimension) (operators : list OperatorFunction),
  metrics <> [] -> Forall (fun m => (0 < grid_size m)%Z) metrics -> (volume (map grid_size metrics) < 2 ^ 64)%Z ->
  Forall (fun m => (0 < bound m)%Q) metrics ->
  forall pop_all fuel buckets, bucket_greedy_minimize function metrics operators pop_all fuel = Some (Ok buckets) ->
  forall op g cell, In op operators -> op function = Ok g -> in_cell function metrics g cell ->
    exists j b index, nth_error buckets j = Some b /\ in_box (map grid_size metrics) index
      /\ row_major (map grid_size metrics) index = Z.of_nat j
      /\ below_all index cell /\ (pop_all = true -> index = cell) /\ bdd_size b <= nodeCount g.
Proof. exact single_steps. Qed.
Print Assumptions C118_single_steps.
(** every step whose errors are within the bounds lies in a cell *)
Theorem C118_within_bounds : forall (function : list bdd) (metrics : list MetricDimension) (operators : list OperatorFunction),
  metrics <> [] -> Forall (fun m => (0 < grid_size m)%Z) metrics -> (volume (map grid_size metrics) < 2 ^ 64)%Z ->
  Forall (fun m => (0 < bound m)%Q) metrics ->
  forall pop_all fuel buckets, bucket_greedy_minimize function metrics operators pop_all fuel = Some (Ok buckets) ->
  forall op g, In op operators -> op function = Ok g ->
    Forall (fun m => exists v, metric m function g = Ok (Fin v) /\ (0 <= v)%Q /\ (v < bound m)%Q) metrics ->
    exists b, In b buckets /\ bdd_size b <= nodeCount g.
Proof. exact within_bounds. Qed.
Print Assumptions C118_within_bounds.
(** six of the 18 steps from [ex_fun], with sizes and error rates; the buckets of C55_case with the rates 1/8 and 3/8 have 6 and 4 nodes *)
Example C118_case : map (fun op => match op ex_fun with
    | Ok g => match metric_function ex_mgr ERROR_RATE ex_fun g with Ok (Fin v) => (nodeCount g, Qred v) | _ => (0, 0%Q) end
    | _ => (0, 0%Q) end) (firstn 6 ex_ops) = [(5, 3 # 8); (6, 3 # 8); (6, 1 # 8); (6, 1 # 8); (7, 1 # 8); (6, 1 # 8)].
Proof. vm_compute. reflexivity. Qed.

(** C119: the result is not larger than any function within the bounds that the operators can reach. Wrong:
    an operator changes only one of two equal outputs *)
Theorem C119_reachable_refuted : exists (M : mgr) (n fuel : nat) (f : list bdd) (m : SimpleMetricDimension) (ops : list Operator)
    (r : nat * Bucket * list Bucket) (g : list bdd),
  Forall (wf M) f /\ below n f /\ (0 < m_grid_size m)%Z /\ (0 < m_bound m)%Q
  /\ bucket_minimize_helper M fuel f [m] SINGLE_BDD ops [] 0 true = Some (Ok r)
  /\ derived (generate_single_bdd_operators M f ops) f g /\ error_below (m_metric m) n f g (m_bound m)
  /\ nodeCount g < bdd_size (snd (fst r)).
Proof. exact reachable_missed. Qed.
Print Assumptions C119_reachable_refuted.
(** why: if every output occurs twice, nothing is found *)
Theorem C119_duplicated_outputs : forall (M : mgr) (function : list bdd) (metrics : list SimpleMetricDimension) (ops : list Operator)
    (pop_all : bool) (rands : list nat) (count fuel : nat),
  Forall (wf M) function -> metrics <> [] -> Forall (fun m => (0 < m_grid_size m)%Z) metrics ->
  (volume (map m_grid_size metrics) < 2 ^ 64)%Z -> 0 < fuel ->
  (forall i b, nth_error function i = Some b -> exists j, j <> i /\ nth_error function j = Some b) ->
  exists smallest buckets,
    bucket_minimize_helper M fuel function metrics SINGLE_BDD ops rands count pop_all = Some (Ok (nodeCount function, smallest, buckets))
    /\ b_function smallest = function
    /\ length buckets = Z.to_nat (volume (map m_grid_size metrics))
    /\ forall b, In b buckets -> is_empty b = true /\ b_function b = function.
Proof. exact duplicated_unchanged. Qed.
Print Assumptions C119_duplicated_outputs.
(** the outputs of [ex_fun] twice: no step found, although a single copy is reduced to 6 nodes with an error rate of 1/8 *)
Example C119_case : summary (bucket_greedy_minimize (ex_fun ++ ex_fun) ex_dims
    (generate_single_bdd_operators ex_mgr (ex_fun ++ ex_fun) [NEGATIVE_COFACTOR; POSITIVE_COFACTOR]) true 1) = Some (Ok (repeat (7%nat, [0%Q], true) 8)).
Proof. vm_compute. reflexivity. Qed.

(** C127: the order of the search. The pending positions are kept in lexicographic order without repetition; a round
    explores the one with the least coordinate sum (the lexicographically first of these) with every operator, and afterwards
    the other positions and those of the buckets that became smaller are pending *)
Theorem C127_order : forall (function : list bdd) (metrics : list MetricDimension) (operators : list OperatorFunction) (pop_all : bool),
  Forall (fun m => (0 < grid_size m)%Z) metrics -> (volume (map grid_size metrics) < 2 ^ 64)%Z ->
  forall k buckets test, rounds function metrics operators pop_all k buckets test ->
  StronglySorted lex_less test /\ forall first rest buckets' test', test = first :: rest ->
    explore function metrics operators pop_all buckets first rest = Ok (buckets', test') ->
    exists pos b, next_position test pos
    /\ nth_error buckets (Z.to_nat (row_major (map grid_size metrics) pos)) = Some b
    /\ length buckets' = length buckets
    /\ (forall i c b', nth_error buckets i = Some c -> nth_error buckets' i = Some b' ->
          (b_function b' = b_function c /\ bdd_size b' = bdd_size c /\ metric_values b' = metric_values c /\ is_empty b' = is_empty c)
          \/ (bdd_size b' < bdd_size c /\ exists op, In op operators /\ op (b_function b) = Ok (b_function b')))
    /\ (forall x, In x test' <-> (In x test /\ x <> pos) \/
          (in_box (map grid_size metrics) x /\ exists c b', nth_error buckets (Z.to_nat (row_major (map grid_size metrics) x)) = Some c
             /\ nth_error buckets' (Z.to_nat (row_major (map grid_size metrics) x)) = Some b' /\ bdd_size b' < bdd_size c)).
Proof. exact search_order. Qed.
Print Assumptions C127_order.
(** the search is this sequence of rounds *)
Theorem C127_rounds : forall (function : list bdd) (metrics : list MetricDimension) (operators : list OperatorFunction) (pop_all : bool),
  metrics <> [] -> Forall (fun m => (0 < grid_size m)%Z) metrics -> (volume (map grid_size metrics) < 2 ^ 64)%Z ->
  forall fuel buckets, bucket_greedy_minimize function metrics operators pop_all fuel = Some (Ok buckets)
  <-> exists k, k <= fuel /\ rounds function metrics operators pop_all k buckets [].
Proof. exact search_is_rounds. Qed.
Print Assumptions C127_rounds.
(** the pending positions of C53_case before the first seven rounds: the position with sum 1 is explored third; [1; 2] and [2; 1] have
    the same sum *)
Fixpoint pending_trace (k : nat) (buckets : list Bucket) (test : list (list Z)) : list (list (list Z)) :=
  match k, test with
  | S k', first :: rest =>
      match explore ex_fun ex_dims2 ex_ops false buckets first rest with
      | Ok (buckets', test') => test :: pending_trace k' buckets' test'
      | _ => []
      end
  | _, _ => []
  end.
Example C127_case : pending_trace 7 (repeat (Bkt ex_fun (nodeCount ex_fun) (repeat 0%Q 2) (repeat true (length ex_ops)) true) 16) [[0; 0]]%Z
  = [[[0; 0]]; [[0; 0]; [0; 1]; [2; 1]]; [[0; 1]; [1; 2]; [2; 1]; [2; 2]]; [[1; 2]; [1; 3]; [2; 1]; [2; 2]; [2; 3]];
     [[1; 2]; [1; 3]; [2; 1]; [2; 2]; [2; 3]; [3; 3]]; [[1; 3]; [2; 1]; [2; 2]; [2; 3]; [3; 3]]; [[1; 3]; [2; 2]; [2; 3]; [3; 2]; [3; 3]]]%Z.
Proof. vm_compute. reflexivity. Qed.

(** C128: failures. The search ends with undefined behaviour, an exception or a failed assertion only if an operator or a metric does
    so on a function that was reached, or if a metric value has no cell number; an operator that fails on the original function always
    makes the search fail *)
Theorem C128_search_failures : forall (function : list bdd) (metrics : list MetricDimension) (operators : list OperatorFunction) (pop_all : bool),
  metrics <> [] -> Forall (fun m => (0 < grid_size m)%Z) metrics -> (volume (map grid_size metrics) < 2 ^ 64)%Z ->
  forall fuel r, bucket_greedy_minimize function metrics operators pop_all fuel = Some r ->
  (forall e, fails e r -> caused function metrics operators e)
  /\ (forall op e, In op operators -> fails e (op function) -> exists e', fails e' r).
Proof. exact search_failures. Qed.
Print Assumptions C128_search_failures.
(** the generated operators and the metrics never throw, and no assertion fails: what is left is undefined behaviour *)
Theorem C128_helper_failures : forall (M : mgr) (n : nat) (function : list bdd) (metrics : list SimpleMetricDimension) (mode : OperatorConstructionMode)
    (ops : list Operator) (rands : list nat) (count : nat) (pop_all : bool),
  Forall (wf M) function -> below n function -> metrics <> [] -> Forall (fun m => (0 < m_grid_size m)%Z) metrics ->
  (volume (map m_grid_size metrics) < 2 ^ 64)%Z ->
  forall fuel r e, bucket_minimize_helper M fuel function metrics mode ops rands count pop_all = Some r -> fails e r ->
  e = Undefined
  /\ ((mode = RANDOM /\ (length rands < 2 * count \/ (0 < count /\ (ops = [] \/ function = []))))
      \/ exists m g, In m metrics /\ Forall (wf M) g /\ below n g /\ length g = length function
           /\ (metric_function M (m_metric m) function g = UB
               \/ exists value, metric_function M (m_metric m) function g = Ok value /\ no_cell (m_grid_size m) value (m_bound m))).
Proof. exact helper_fails. Qed.
Print Assumptions C128_helper_failures.
(** the genetic minimisation throws exactly if the function is constant *)
Theorem C128_genetic_failures : forall (M : mgr) (f : list bdd) (max_er max_ace : Q) (both : bool) (draws : nat -> Z)
    (evolve : nat -> list individuum -> list individuum) (fuel : nat) r e,
  run_genetic_minimization M f max_er max_ace both draws evolve fuel = Some r -> fails e r ->
  (e = Exception /\ compute_support_positions f = []) \/ (e = Undefined /\ compute_support_positions f <> []).
Proof. exact genetic_fails. Qed.
Print Assumptions C128_genetic_failures.
(** an operator that works on the original function and throws on the result of another one; a bound of 0; a bound so small that the
    cell number exceeds 2^64; the random generation without operators *)
Definition throws_later : OperatorFunction := fun f => if vec_eqb (map (fun b => Z.of_nat (nodeCount [b])) f) [1; 1; 1]%Z then Throw else Ok f.
Example C128_case : bucket_greedy_minimize ex_fun ex_dims [fun _ => Ok [bone; bone; bone]; throws_later] true 57 = Some Throw
  /\ throws_later ex_fun = Ok ex_fun /\ throws_later [bone; bone; bone] = Throw
  /\ bucket_minimize_helper ex_mgr 57 ex_fun [SimpleDim ERROR_RATE 0 8] SINGLE_BDD [POSITIVE_COFACTOR] [] 0 true = Some UB
  /\ bucket_minimize_helper ex_mgr 57 ex_fun [SimpleDim ERROR_RATE (1 # 2 ^ 62) 8] SINGLE_BDD [POSITIVE_COFACTOR] [] 0 true = Some UB
  /\ bucket_minimize_helper ex_mgr 57 ex_fun [SimpleDim ERROR_RATE 1 8] RANDOM [] [3; 4] 1 true = Some UB.
Proof. vm_compute. repeat split. Qed.
