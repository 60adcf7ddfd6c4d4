(** Properties C124-C126: rounding in the average metrics, in the bucket minimisation and in the operators
    (RoundedMinimize.v, Rounded.v). [rnd] rounds the result of every operation on doubles to a nearest number with 53
    significant bits; how ties are broken is open. *)
From Coq Require Import List Bool Arith ZArith QArith Lia.
From Verif Require Import Res Cudd CuddFacts Spec SpecFloat Float FloatFacts Helpers Counting Metrics RelMetrics Operators Minimize SpecMinimize MinimizeFacts3
  Rounded RoundedFacts RoundedFacts2 RoundedAdd RoundedMinimize RoundedAverageFacts RoundedOperatorFacts RoundedMinimizeFacts4 WideMseFacts.
Import ListNotations.
Open Scope nat_scope.

Definition any_of (M : mgr) (i k : nat) : bdd := fold_right (fun j f => bor M (bvar j) f) bzero (seq i k).

(** the rounding of the processor is such a function *)
Theorem C124_double_rounding : rounds_to_nearest 53 (round_float 53).
Proof. exact (rounds_float 53 ltac:(discriminate)). Qed.
Print Assumptions C124_double_rounding.
(** C124: with up to 53 variables the average metrics are those of exact counts; for more variables there is one relative
    error per operation on the longest path *)
Theorem C124_averages : forall (rnd : Q -> Q), rounds_to_nearest 53 rnd ->
  forall (M : mgr) (n : nat) (f g : list bdd) (r : NumberRepresentation),
  Forall (wf M) f -> Forall (wf M) g -> below n f -> below n g -> (r = TwosComplement -> f <> [] /\ g <> []) ->
  (n <= 53 -> average_case_error_fl rnd M f g r = average_case_error M f g r
              /\ mean_squared_error_fl rnd M f g r = mean_squared_error M f g r)
  /\ (Nat.max (length f) (length g) + n < 256 ->
      exists q, average_case_error_fl rnd M f g r = Ok (Fin q)
        /\ within (2 ^ (-53)) (2 * n) q (average n (fun a => inject_Z (wrapped r f g a))))
  /\ (2 * Nat.max (length f) (length g) + 2 + n <= 256 ->
      exists d q, bdd_absolute_difference M f g r = Ok d /\ mean_squared_error_fl rnd M f g r = Ok (Fin q)
        /\ (0 <= q <= qpow (1 + 2 ^ (-53)) (2 * n) * average n (fun a => inject_Z (wrapped r f g a * wrapped r f g a)))%Q
        /\ ((exists b, In b d /\ forall i, vars_in d i -> In i (varsn (snd b))) ->
            within (2 ^ (-53)) (2 * n) q (average n (fun a => inject_Z (wrapped r f g a * wrapped r f g a))))).
Proof. exact averages_fl. Qed.
Print Assumptions C124_averages.
Theorem C124_percent : forall (rnd : Q -> Q), rounds_to_nearest 53 rnd ->
  forall (M : mgr) (f g : list bdd) (r : NumberRepresentation),
  Forall (wf M) f -> Forall (wf M) g -> length f = length g -> 1 <= length f <= 256 ->
  exists m q, worst_case_error M f g r = Ok m /\ worst_case_error_percent_fl rnd M f g r = Ok (Fin q)
    /\ (length f <= 53 -> within (2 ^ (-53)) 1 q (inject_Z m / inject_Z (2 ^ Z.of_nat (length f) - 1)))
    /\ (53 < length f -> within (2 ^ (-53)) 2 q (inject_Z m / inject_Z (2 ^ Z.of_nat (length f)))).
Proof. exact percent_fl. Qed.
Print Assumptions C124_percent.
Example C124_case : (* 10 variables: exact; 54 variables: 2 (1 - 2^-54) becomes 2 *)
  let M := id_mgr 60 in let r := round_float 53 in
  match average_case_error_fl r M [bzero; any_of M 0 10] [bzero; bzero] BaseTwo, average_case_error_fl r M [bzero; any_of M 0 54] [bzero; bzero] BaseTwo,
        average_case_error M [bzero; any_of M 0 54] [bzero; bzero] BaseTwo, mean_squared_error_fl r M [bzero; any_of M 0 10] [bzero; bzero] BaseTwo,
        worst_case_error_percent_fl r M [bvar 0; bvar 1] [bzero; bvar 1] BaseTwo with
  | Ok (Fin a), Ok (Fin b), Ok (Fin c), Ok (Fin d), Ok (Fin e) => Qred a = (1023 # 512)%Q /\ Qred b = 2%Q /\ Qred ((2 - c) * 2 ^ 53) = 1%Q
      /\ Qred d = (1023 # 256)%Q /\ Qred (e * 2 ^ 54) = 6004799503160661%Q
  | _, _, _, _, _ => False
  end.
Proof. vm_compute. auto 6. Qed.

(** C125: with doubles every bucket of the minimisation keeps its bounds strictly. Wrong: the product of grid size and error
    and the quotient by the bound are rounded, and the quotient may fall below the grid size. The relative worst case
    error of [x0; x1] and [0; x1] is 1/3; with the double next to 1/3 as bound and a grid of 7 the bucket is accepted,
    though its value equals the bound and the error exceeds it. With exact numbers nothing is accepted *)
Theorem C125_strict_bound_refuted : exists (M : mgr) (n fuel : nat) (function : list bdd) (m : SimpleMetricDimension)
    (ops : list Operator) (r : nat * Bucket * list Bucket),
  Forall (wf M) function /\ below n function /\ m_metric m = WORST_CASE_PERCENT /\ (m_grid_size m = 7)%Z
  /\ (0 < m_bound m)%Q /\ float_number 53 (m_bound m)
  /\ bucket_minimize_helper_fl (round_float 53) M fuel function [m] SINGLE_BDD ops [] 0 true = Some (Ok r)
  /\ (exists b, In b (snd r) /\ metric_values b = [m_bound m]
       /\ exists a, (m_bound m < inject_Z (dist (uval function a) (uval (b_function b) a)) / inject_Z (2 ^ Z.of_nat (length function) - 1))%Q)
  /\ exists r', bucket_minimize_helper M fuel function [m] SINGLE_BDD ops [] 0 true = Some (Ok r')
       /\ forall b, In b (snd r') -> b_function b = function.
Proof. exact percent_bound_exceeded. Qed.
Print Assumptions C125_strict_bound_refuted.
(** the value of a metric never exceeds its bound, and is below it if the grid size is a power of two *)
Theorem C125_buckets_partial : forall (rnd : Q -> Q), rounds_to_nearest 53 rnd ->
  forall (function : list bdd) (metrics : list MetricDimension) (operators : list OperatorFunction) (pop_all : bool),
  metrics <> [] -> Forall (fun m => (0 < grid_size m)%Z) metrics -> (volume (map grid_size metrics) < 2 ^ 64)%Z ->
  (fold_right Z.add 0 (map grid_size metrics) <= 2 ^ 53)%Z ->
  forall fuel buckets, bucket_greedy_minimize_fl rnd function metrics operators pop_all fuel = Some (Ok buckets) ->
  length buckets = Z.to_nat (volume (map grid_size metrics)) /\
  forall i b index, nth_error buckets i = Some b -> in_box (map grid_size metrics) index -> row_major (map grid_size metrics) index = Z.of_nat i ->
    derived operators function (b_function b) /\ bdd_size b = nodeCount (b_function b) /\ bdd_size b <= nodeCount function
    /\ (is_empty b = true -> b_function b = function /\ metric_values b = repeat 0%Q (length metrics))
    /\ (is_empty b = false -> bdd_size b < nodeCount function /\ length (metric_values b) = length metrics
        /\ forall k m v x, nth_error metrics k = Some m -> nth_error (metric_values b) k = Some v -> nth_error index k = Some x ->
             metric m function (b_function b) = Ok (Fin v)
             /\ ((0 < bound m)%Q ->
                 (float_number 53 v -> float_number 53 (bound m) ->
                   (v <= bound m)%Q /\ ((exists j, grid_size m = 2 ^ Z.of_nat j)%Z -> (v < bound m)%Q))
                 /\ ((0 <= v)%Q -> exists c, (0 <= c <= x)%Z /\ (pop_all = false -> c = x)
                       /\ (inject_Z c * bound m / inject_Z (grid_size m) <= qpow (1 + 2 ^ (-53)) 2 * v)%Q
                       /\ (qpow (1 - 2 ^ (-53)) 2 * v < (inject_Z c + 1) * bound m / inject_Z (grid_size m))%Q))).
Proof. exact buckets_fl. Qed.
Print Assumptions C125_buckets_partial.
Theorem C125_terminates : forall (rnd : Q -> Q), rounds_to_nearest 53 rnd ->
  forall (function : list bdd) (metrics : list MetricDimension) (operators : list OperatorFunction) (pop_all : bool),
  metrics <> [] -> Forall (fun m => (0 < grid_size m)%Z) metrics -> (volume (map grid_size metrics) < 2 ^ 64)%Z ->
  (fold_right Z.add 0 (map grid_size metrics) <= 2 ^ 53)%Z ->
  forall fuel, Z.to_nat (volume (map grid_size metrics)) * nodeCount function + 1 <= fuel ->
  bucket_greedy_minimize_fl rnd function metrics operators pop_all fuel <> None.
Proof. exact terminates_fl. Qed.
Print Assumptions C125_terminates.
(** the helper: an error exceeds the bound by at most the roundings in the computation of the metric *)
Theorem C125_error_bounds_partial : forall (rnd : Q -> Q), rounds_to_nearest 53 rnd ->
  forall (M : mgr) (n : nat) (function : list bdd) (metrics : list SimpleMetricDimension)
    (mode : OperatorConstructionMode) (ops : list Operator) (rands : list nat) (count : nat) (pop_all : bool),
  Forall (wf M) function -> below n function -> metrics <> [] ->
  Forall (fun m => (0 < m_grid_size m)%Z) metrics -> Forall (fun m => (0 < m_bound m)%Q) metrics ->
  (volume (map m_grid_size metrics) < 2 ^ 64)%Z -> (fold_right Z.add 0 (map m_grid_size metrics) <= 2 ^ 53)%Z ->
  forall fuel original smallest buckets,
  bucket_minimize_helper_fl rnd M fuel function metrics mode ops rands count pop_all = Some (Ok (original, smallest, buckets)) ->
  original = nodeCount function
  /\ In smallest buckets /\ (forall b, In b buckets -> bdd_size smallest <= bdd_size b)
  /\ forall b, In b buckets ->
       bdd_size b = nodeCount (b_function b) /\ bdd_size b <= original
       /\ Forall (wf M) (b_function b) /\ below n (b_function b) /\ length (b_function b) = length function
       /\ forall m, In m metrics -> admissible_fl M n (length function) (m_metric m) -> float_number 53 (m_bound m) ->
            forall B, (m_bound m < qpow (1 - 2 ^ (-53)) (roundings n (length function) (m_metric m)) * B)%Q ->
            error_below (m_metric m) n function (b_function b) B.
Proof. exact helper_fl_guarantee. Qed.
Print Assumptions C125_error_bounds_partial.
Theorem C125_mean_squared_partial : forall (rnd : Q -> Q), rounds_to_nearest 53 rnd ->
  forall (M : mgr) (n : nat) (function : list bdd) (metrics : list SimpleMetricDimension)
    (mode : OperatorConstructionMode) (ops : list Operator) (rands : list nat) (count : nat) (pop_all : bool),
  Forall (wf M) function -> below n function -> metrics <> [] ->
  Forall (fun m => (0 < m_grid_size m)%Z) metrics -> Forall (fun m => (0 < m_bound m)%Q) metrics ->
  (volume (map m_grid_size metrics) < 2 ^ 64)%Z -> (fold_right Z.add 0 (map m_grid_size metrics) <= 2 ^ 53)%Z ->
  forall fuel original smallest buckets,
  bucket_minimize_helper_fl rnd M fuel function metrics mode ops rands count pop_all = Some (Ok (original, smallest, buckets)) ->
  forall b m, In b buckets -> In m metrics -> m_metric m = MEAN_SQUARED -> float_number 53 (m_bound m) ->
  2 * length function + 2 + n <= 256 -> n <= 53 ->
  forall B, (m_bound m < (1 - 2 ^ (-53)) * B)%Q ->
  exists d, bdd_absolute_difference M function (b_function b) BaseTwo = Ok d
    /\ (forall a, uval d a = dist (uval function a) (uval (b_function b) a))
    /\ (forall s, largest_support d s -> (truncated_square n s d < B)%Q)
    /\ ((exists x, In x d /\ forall i, vars_in d i -> In i (varsn (snd x))) ->
        error_below MEAN_SQUARED n function (b_function b) B).
Proof. exact helper_fl_mean_squared. Qed.
Print Assumptions C125_mean_squared_partial.
(** more than 53 variables: the exact error, if some output of the difference depends on all its variables *)
Theorem C125_mean_squared_wide_partial : forall (rnd : Q -> Q), rounds_to_nearest 53 rnd ->
  forall (M : mgr) (n : nat) (function : list bdd) (metrics : list SimpleMetricDimension)
    (mode : OperatorConstructionMode) (ops : list Operator) (rands : list nat) (count : nat) (pop_all : bool),
  Forall (wf M) function -> below n function -> metrics <> [] ->
  Forall (fun m => (0 < m_grid_size m)%Z) metrics -> Forall (fun m => (0 < m_bound m)%Q) metrics ->
  (volume (map m_grid_size metrics) < 2 ^ 64)%Z -> (fold_right Z.add 0 (map m_grid_size metrics) <= 2 ^ 53)%Z ->
  forall fuel original smallest buckets,
  bucket_minimize_helper_fl rnd M fuel function metrics mode ops rands count pop_all = Some (Ok (original, smallest, buckets)) ->
  forall b m, In b buckets -> In m metrics -> m_metric m = MEAN_SQUARED -> float_number 53 (m_bound m) ->
  2 * length function + 2 + n <= 256 ->
  forall B, (m_bound m < qpow (1 - 2 ^ (-53)) (2 * n + 1) * B)%Q ->
  exists d, bdd_absolute_difference M function (b_function b) BaseTwo = Ok d
    /\ (forall a, uval d a = dist (uval function a) (uval (b_function b) a))
    /\ ((exists x, In x d /\ forall i, vars_in d i -> In i (varsn (snd x))) ->
        error_below MEAN_SQUARED n function (b_function b) B).
Proof. exact wide_mean_squared. Qed.
Print Assumptions C125_mean_squared_wide_partial.
Definition wide_function : list bdd := [bvar 0; bor (id_mgr 60) (bvar 1) (fold_left (fun b i => band (id_mgr 60) b (bvar i)) (seq 2 58) bone)].
Example C125_wide_case : let r := round_float 53 in
  match bucket_minimize_helper_fl r (id_mgr 60) 300 wide_function [SimpleDim MEAN_SQUARED (1 # 4) 1] SINGLE_BDD [SUBSET_LIGHT] [] 0 true with
  | Some (Ok (original, smallest, buckets)) =>
      match bdd_absolute_difference (id_mgr 60) wide_function (b_function smallest) BaseTwo with
      | Ok d => (original, bdd_size smallest, map Qred (metric_values smallest), map (fun x => length (varsn (snd x))) d)
      | _ => (0, 0, [], []) end
  | _ => (0, 0, [], [])
  end = (61, 3, [Qred (2 ^ (-57))], [0; 59; 0]). (* the second output of the difference depends on x1 .. x59 *)
Proof. vm_compute. reflexivity. Qed.
(** and the helper returns a result *)
Theorem C125_helper_total_partial : forall (rnd : Q -> Q), rounds_to_nearest 53 rnd ->
  forall (M : mgr) (n : nat) (function : list bdd) (metrics : list SimpleMetricDimension)
    (mode : OperatorConstructionMode) (ops : list Operator) (rands : list nat) (count : nat) (pop_all : bool),
  Forall (wf M) function -> below n function -> metrics <> [] ->
  Forall (fun m => (0 < m_grid_size m)%Z) metrics -> Forall (fun m => (0 < m_bound m)%Q) metrics ->
  (volume (map m_grid_size metrics) < 2 ^ 64)%Z -> (fold_right Z.add 0 (map m_grid_size metrics) <= 2 ^ 53)%Z ->
  forall fuel, Z.to_nat (volume (map m_grid_size metrics)) * nodeCount function + 1 <= fuel ->
  (mode = RANDOM -> 2 * count <= length rands /\ (0 < count -> ops <> [] /\ function <> [])) ->
  Forall (fun m => admissible_fl M n (length function) (m_metric m)
    /\ (qpow (1 + 2 ^ (-53)) (roundings n (length function) (m_metric m) + 2) * inject_Z (m_grid_size m)
          * cap (length function) (m_metric m) / m_bound m < inject_Z (2 ^ 64))%Q) metrics ->
  exists r, bucket_minimize_helper_fl rnd M fuel function metrics mode ops rands count pop_all = Some (Ok r).
Proof. exact helper_fl_ok. Qed.
Print Assumptions C125_helper_total_partial.
Definition three_outputs : list bdd :=
  let M := id_mgr 3 in
  [band M (bvar 0) (bor M (bvar 1) (bvar 2)); bxor M (bvar 1) (bvar 2); bor M (bvar 0) (band M (bvar 1) (bvar 2))].
Example C125_case :
  let r := round_float 53 in
  match bucket_minimize_helper_fl r (id_mgr 3) 1000 three_outputs
      [SimpleDim WORST_CASE_RELATIVE (r (9 # 10)%Q) 3; SimpleDim ERROR_RATE (3 # 4) 2] SINGLE_BDD [NEGATIVE_COFACTOR; SUBSET_LIGHT; SUPERSET_HEAVY] [] 0 true with
  | Some (Ok (original, smallest, buckets)) => (original, (bdd_size smallest, map Qred (metric_values smallest)), length buckets)
  | _ => (0, (0, []), 0)
  end = (7, (5, [3602879701896397 # 18014398509481984; 3 # 8]), 6).
Proof. vm_compute. reflexivity. Qed.

(** C126: the operators with rounded counts, for any rounding function and any number of variables *)
Theorem C126_subset : forall (rnd : Q -> Q) (M : mgr) (f : bdd) (level_start level_end : nat), wf M f ->
  forall op, In op [subset_light_child_fl; subset_heavy_child_fl; round_down_fl] ->
  exists r, op rnd M f level_start level_end = Ok r /\ wf M r /\ (forall n, depends_below n f -> depends_below n r)
    /\ (forall a, ev r a = true -> ev f a = true)
    /\ ((forall i, In i (varsn (snd f)) -> ~ level_start <= i <= level_end) -> forall a, ev r a = ev f a).
Proof. exact subset_fl. Qed.
Print Assumptions C126_subset.
Theorem C126_superset : forall (rnd : Q -> Q) (M : mgr) (f : bdd) (level_start level_end : nat), wf M f ->
  forall op, In op [superset_light_child_fl; superset_heavy_child_fl; round_up_fl] ->
  exists r, op rnd M f level_start level_end = Ok r /\ wf M r /\ (forall n, depends_below n f -> depends_below n r)
    /\ (forall a, ev f a = true -> ev r a = true)
    /\ ((forall i, In i (varsn (snd f)) -> ~ level_start <= i <= level_end) -> forall a, ev r a = ev f a).
Proof. exact superset_fl. Qed.
Print Assumptions C126_superset.
Theorem C126_rounding : forall (rnd : Q -> Q) (M : mgr) (f : bdd) (level level_start level_end : nat), wf M f ->
  (exists r, round_bdd_fl rnd M f level = Ok r /\ wf M r /\ depends_below level r /\ (forall n, depends_below n f -> depends_below n r))
  /\ (exists r, round_best_fl rnd M f level_start level_end = Ok r /\ wf M r /\ (forall n, depends_below n f -> depends_below n r)
      /\ ((forall i, In i (varsn (snd f)) -> ~ level_start <= i <= level_end) -> forall a, ev r a = ev f a)).
Proof. exact rounding_fl. Qed.
Print Assumptions C126_rounding.
(** the chosen child is the lighter (heavier) one up to a factor of ((1 + u) / (1 - u))^(2 n) *)
Theorem C126_child : forall (u : Q) (rnd : Q -> Q) (M : mgr) (n : nat) (f : bdd) (level_start level_end : nat),
  (0 <= u <= 1)%Q -> relative_error u rnd -> wf M f -> depends_below n f ->
  let x := qpow (1 - u) (2 * n) in let y := qpow (1 + u) (2 * n) in
  (exists r, subset_light_child_fl rnd M f level_start level_end = Ok r
     /\ at_range level_start level_end (nearly_light_const x y (density n) false) f (ev r))
  /\ (exists r, subset_heavy_child_fl rnd M f level_start level_end = Ok r
     /\ at_range level_start level_end (nearly_heavy_const x y (density n) false) f (ev r))
  /\ (exists r, superset_light_child_fl rnd M f level_start level_end = Ok r
     /\ at_range level_start level_end (nearly_light_const x y (density n) true) f (ev r))
  /\ (exists r, superset_heavy_child_fl rnd M f level_start level_end = Ok r
     /\ at_range level_start level_end (nearly_heavy_const x y (density n) true) f (ev r)).
Proof. exact child_choice_fl. Qed.
Print Assumptions C126_child.
(** any of 55 variables: the densities 1 - 2^-54 and 1 of the children at the root cannot be told apart, and the child 1 is
    taken for the lighter one *)
Example C126_case : let M := id_mgr 60 in let r := round_float 53 in let f := any_of M 0 55 in
  wf M f /\ depends_below 55 f
  /\ subset_light_child_fl r M f 0 0 = Ok (band M (bnot (bvar 0)) (any_of M 1 54)) /\ subset_light_child M f 0 0 = Ok (bvar 0)
  /\ round_bdd_fl r M f 1 = Ok bone.
Proof.
  cbv zeta. assert (W : forall l, wf (id_mgr 60) (fold_right (fun j f => bor (id_mgr 60) (bvar j) f) bzero l))
    by (induction l as [|i l IH]; cbn [fold_right]; auto with wf).
  split; [apply W|]. split; [apply dep_vars; intros i Hi; apply Nat.ltb_lt; revert i Hi; apply forallb_forall; vm_compute; reflexivity|]. vm_compute. auto.
Qed.
