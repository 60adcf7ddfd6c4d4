(** Property C166: the operators generated for the minimisation with doubles, and its failures. *)
From Coq Require Import List Bool Arith ZArith QArith.
From Verif Require Import Res Cudd Spec SpecFloat Float Helpers Metrics Operators Minimize SpecMinimize SpecRoundedMinimize LevelFacts
  RoundedMinimize RoundedMinimizeFacts5.
Import ListNotations.
Open Scope nat_scope.

(** C166: operators for one output: every kind at every level of every output, in this order *)
Theorem C166_single : forall (rnd : Q -> Q) (M : mgr) (function : list bdd) (ops : list Operator) (T : nat), levels_of function T ->
  let K := length ops in
  let gens := generate_single_bdd_operators_fl rnd M function ops in
  length gens = length function * (T * K)
  /\ forall i j k op, i < length function -> j < T -> nth_error ops k = Some op ->
     exists g, nth_error gens (i * (T * K) + (j * K + k)) = Some g
       /\ forall f, (length f <= i -> g f = UB)
          /\ forall b r, nth_error f i = Some b -> apply_operator_fl rnd M b op j j = Ok r ->
             exists f', g f = Ok f' /\ length f' = length f /\ nth_error f' i = Some r
               /\ forall m, m <> i -> nth_error f' m = nth_error f m.
Proof. exact single_levels_fl. Qed.
Print Assumptions C166_single.
(** operators for all outputs: every kind at every level *)
Theorem C166_multi : forall (rnd : Q -> Q) (M : mgr) (function : list bdd) (ops : list Operator) (T : nat), levels_of function T ->
  let K := length ops in
  let gens := generate_multi_bdd_operators_fl rnd M function ops in
  length gens = T * K
  /\ forall j k op, j < T -> nth_error ops k = Some op ->
     exists g, nth_error gens (j * K + k) = Some g
       /\ forall f, Forall (wf M) f -> exists f', g f = Ok f' /\ length f' = length f
          /\ forall i b, nth_error f i = Some b -> exists r, nth_error f' i = Some r /\ apply_operator_fl rnd M b op j j = Ok r.
Proof. exact multi_levels_fl. Qed.
Print Assumptions C166_multi.
(** random operators: two draws each, the first selects the kind and the second the level *)
Theorem C166_random : forall (rnd : Q -> Q) (M : mgr) (function : list bdd) (ops : list Operator) (T : nat) (rands : list nat) (count : nat),
  levels_of function T ->
  (forall gens, generate_random_operators_fl rnd M rands function ops count = Ok gens ->
     length gens = count /\ 2 * count <= length rands
     /\ forall k, k < count -> exists r r' op g,
          nth_error rands (2 * k) = Some r /\ nth_error rands (2 * k + 1) = Some r' /\ nth_error ops (r mod length ops) = Some op
          /\ 0 < T /\ nth_error gens k = Some g
          /\ forall f, Forall (wf M) f -> exists f', g f = Ok f' /\ length f' = length f
               /\ forall i b, nth_error f i = Some b ->
                    exists x, nth_error f' i = Some x /\ apply_operator_fl rnd M b op (r' mod T) (r' mod T) = Ok x)
  /\ (2 * count <= length rands -> 0 < count ->
       (ops = [] \/ function = [] -> generate_random_operators_fl rnd M rands function ops count = UB)
       /\ (ops <> [] -> function <> [] -> exists gens, generate_random_operators_fl rnd M rands function ops count = Ok gens)).
Proof. exact random_levels_fl. Qed.
Print Assumptions C166_random.
(** the same choice without rounding *)
Theorem C166_random_exact : forall (M : mgr) (function : list bdd) (ops : list Operator) (T : nat) (rands : list nat) (count : nat)
    (gens : list OperatorFunction), levels_of function T ->
  generate_random_operators M rands function ops count = Ok gens ->
  length gens = count /\ 2 * count <= length rands
  /\ forall k, k < count -> exists r r' op g,
       nth_error rands (2 * k) = Some r /\ nth_error rands (2 * k + 1) = Some r' /\ nth_error ops (r mod length ops) = Some op
       /\ 0 < T /\ nth_error gens k = Some g
       /\ forall f, Forall (wf M) f -> exists f', g f = Ok f' /\ length f' = length f
            /\ forall i b, nth_error f i = Some b ->
                 exists x, nth_error f' i = Some x /\ apply_operator M b op (r' mod T) (r' mod T) = Ok x.
Proof. exact random_choice_levels. Qed.
Print Assumptions C166_random_exact.
(** the search fails only if an operator or a metric fails on a function that was reached, or if a value has no cell number after the
    roundings; an operator that fails on the original function makes the search fail *)
Theorem C166_search_failures : forall (rnd : Q -> Q), rounds_to_nearest 53 rnd ->
  forall (function : list bdd) (metrics : list MetricDimension) (operators : list OperatorFunction) (pop_all : bool),
  metrics <> [] -> Forall (fun m => (0 < grid_size m)%Z) metrics -> (volume (map grid_size metrics) < 2 ^ 64)%Z ->
  (fold_right Z.add 0 (map grid_size metrics) <= 2 ^ 53)%Z ->
  forall fuel r, bucket_greedy_minimize_fl rnd function metrics operators pop_all fuel = Some r ->
  (forall e, fails e r -> rounded_caused rnd function metrics operators e)
  /\ (forall op e, In op operators -> fails e (op function) -> exists e', fails e' r).
Proof. exact search_failures_fl. Qed.
Print Assumptions C166_search_failures.
(** no metric is an exception, a grid of size 0 is undefined behaviour *)
Theorem C166_misuse : forall (rnd : Q -> Q) (function : list bdd) (metrics : list MetricDimension) (operators : list OperatorFunction)
    (pop_all : bool) (fuel : nat),
  (metrics = [] -> bucket_greedy_minimize_fl rnd function metrics operators pop_all fuel = Some Throw)
  /\ (In 0%Z (map grid_size metrics) -> bucket_greedy_minimize_fl rnd function metrics operators pop_all fuel = Some UB).
Proof. exact misuse_fl. Qed.
Print Assumptions C166_misuse.
(** the helper fails only with undefined behaviour *)
Theorem C166_helper_failures : forall (rnd : Q -> Q), rounds_to_nearest 53 rnd ->
  forall (M : mgr) (n : nat) (function : list bdd) (metrics : list SimpleMetricDimension) (mode : OperatorConstructionMode)
    (ops : list Operator) (rands : list nat) (count : nat) (pop_all : bool),
  Forall (wf M) function -> below n function -> metrics <> [] -> Forall (fun m => (0 < m_grid_size m)%Z) metrics ->
  (volume (map m_grid_size metrics) < 2 ^ 64)%Z -> (fold_right Z.add 0 (map m_grid_size metrics) <= 2 ^ 53)%Z ->
  forall fuel r e, bucket_minimize_helper_fl rnd M fuel function metrics mode ops rands count pop_all = Some r -> fails e r ->
  e = Undefined
  /\ ((mode = RANDOM /\ (length rands < 2 * count \/ (0 < count /\ (ops = [] \/ function = []))))
      \/ exists m g, In m metrics /\ Forall (wf M) g /\ below n g /\ length g = length function
           /\ (metric_function_fl rnd M (m_metric m) function g = UB
               \/ exists value, metric_function_fl rnd M (m_metric m) function g = Ok value
                    /\ no_rounded_cell rnd (m_grid_size m) value (m_bound m))).
Proof. exact helper_failures_fl. Qed.
Print Assumptions C166_helper_failures.
(** two outputs of three variables. The draws 4, 7 choose the second of three kinds at level 1 of 3; draws without an operator; a bound
    of 2^-63, for which the cell number of an error rate of 1/2 exceeds 2^64; a cell number that the rounding moves by 256 *)
Definition two_of_three : list bdd := let M := id_mgr 3 in [band M (bvar 0) (bor M (bvar 1) (bvar 2)); bxor M (bvar 1) (bvar 2)].
Example C166_case :
  length (generate_single_bdd_operators_fl (round_float 53) (id_mgr 3) two_of_three [POSITIVE_COFACTOR; ROUND]) = 12
  /\ length (generate_multi_bdd_operators_fl (round_float 53) (id_mgr 3) two_of_three [POSITIVE_COFACTOR; ROUND]) = 6
  /\ match generate_random_operators_fl (round_float 53) (id_mgr 3) [4; 7; 3; 2] two_of_three [POSITIVE_COFACTOR; SUBSET_LIGHT; NEGATIVE_COFACTOR] 2 with
     | Ok [g1; g2] => (bind (g1 two_of_three) (fun f => Ok (map (fun b => nodeCount [b]) f)), g2 two_of_three)
     | _ => (UB, UB)
     end = (Ok [3; 3], Ok [cofactor (id_mgr 3) (nth 0 two_of_three bone) 2 true; cofactor (id_mgr 3) (nth 1 two_of_three bone) 2 true])
  /\ generate_random_operators_fl (round_float 53) (id_mgr 3) [5; 7] two_of_three [] 1 = UB
  /\ bucket_minimize_helper_fl (round_float 53) (id_mgr 3) 20 two_of_three [SimpleDim ERROR_RATE (1 # 2 ^ 63) 8] MULTI_BDD [POSITIVE_COFACTOR] [] 0 true = Some UB
  /\ dimension_index_fl (round_float 53) 3 (Fin (9007199254740993 # 9007199254740992)) (1 # 2 ^ 61) = Ok (3 * 2 ^ 61 + 2 ^ 10)%Z
  /\ dimension_index 3 (Fin (9007199254740993 # 9007199254740992)) (1 # 2 ^ 61) = Ok (3 * 2 ^ 61 + 3 * 2 ^ 8)%Z.
Proof. vm_compute. repeat split. Qed.
