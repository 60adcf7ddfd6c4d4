(** Properties C137-C138: which operators the bucket search gives up, and which failures the error metrics can have. *)
From Coq Require Import List Bool Arith ZArith QArith Lia.
From Verif Require Import Res Cudd Spec Helpers Counting Metrics RelMetrics Operators Minimize SpecMinimize MinimizeFacts12 Benchmark FailureFacts.
Import ListNotations.
Open Scope nat_scope.

(** C137: a bucket that became smaller in a round gives up the operator it comes from and the operators given up by the explored
    bucket. Of the others it gives up those whose result has more than 3/2 of the nodes of the explored bucket, and those whose result
    is small enough but reaches the bound of the first metric; and it gives up an operator for no other reason than too many nodes or
    a metric that reaches its bound. All other buckets keep their operators *)
Theorem C137_given_up_operators :
  forall (function : list bdd) (metrics : list MetricDimension) (operators : list OperatorFunction) (pop_all : bool),
  Forall (fun m => (0 < grid_size m)%Z) metrics -> (volume (map grid_size metrics) < 2 ^ 64)%Z ->
  forall k buckets first rest buckets' test', rounds function metrics operators pop_all k buckets (first :: rest) ->
  explore function metrics operators pop_all buckets first rest = Ok (buckets', test') ->
  exists pos b b_end, next_position (first :: rest) pos
  /\ nth_error buckets (Z.to_nat (row_major (map grid_size metrics) pos)) = Some b
  /\ nth_error buckets' (Z.to_nat (row_major (map grid_size metrics) pos)) = Some b_end
  /\ forall i c b', nth_error buckets i = Some c -> nth_error buckets' i = Some b' ->
     (bdd_size b' = bdd_size c -> possible_operators b' = possible_operators c)
     /\ (bdd_size b' < bdd_size c -> exists o op, nth_error operators o = Some op /\ op (b_function b) = Ok (b_function b')
         /\ nth_error (possible_operators b) o = Some true /\ nth_error (possible_operators b') o = Some false
         /\ length (possible_operators b') = length (possible_operators b)
         /\ forall j, j < length operators -> j <> o ->
            (nth_error (possible_operators b) j = Some false -> nth_error (possible_operators b') j = Some false)
            /\ (nth_error (possible_operators b) j = Some true -> exists op' g, nth_error operators j = Some op' /\ op' (b_function b) = Ok g
                /\ (bdd_size b * 3 / 2 < nodeCount g -> nth_error (possible_operators b') j = Some false)
                /\ (nodeCount g < bdd_size b_end -> first_bad function metrics g -> nth_error (possible_operators b') j = Some false)
                /\ (nth_error (possible_operators b') j = Some false -> bdd_size b_end * 3 / 2 < nodeCount g \/ too_bad function metrics g))).
Proof. exact search_operators. Qed.
Print Assumptions C137_given_up_operators.
(** three variables with a bound of 1/2 on the error rate: the first operator gives a larger function of 8 nodes, the second one is wrong on
    5/8 of the inputs, the third one (a constant 0 for the last output) is taken *)
Definition c137_M : mgr := id_mgr 3.
Definition c137_f : list bdd := [bvar 0; band c137_M (bvar 1) (bvar 2)].
Definition c137_ops : list OperatorFunction :=
  [fun f => Ok [bor c137_M (band c137_M (bvar 1) (bvar 2)) (band c137_M (bnot (bvar 0)) (bor c137_M (bvar 1) (bvar 2)));
                bor c137_M (band c137_M (bvar 0) (bxor c137_M (bvar 1) (bvar 2))) (band c137_M (bnot (bvar 0)) (band c137_M (bvar 1) (bnot (bvar 2))))];
   fun f => Ok [bone; bvar 1]; fun f => Ok [bvar 0; bzero]; fun f => Ok f].
Example C137_case :
  match explore c137_f [Dim 2 (fun f g => q <- error_rate c137_M f g ;; Ok (Fin q)) (1 # 2)] c137_ops true
          (repeat (Bkt c137_f 4 [0%Q] [true; true; true; true] true) 2) [0%Z] [] with
  | Ok (buckets, test) => map (fun b => (bdd_size b, possible_operators b)) buckets = [(4, [true; true; true; true]); (2, [false; false; false; true])]
                          /\ test = [[1%Z]]
  | _ => False
  end.
Proof. vm_compute. auto. Qed.

(** C138: whatever the functions, no metric throws an exception; an assertion fails exactly for vectors of different length, in the bit
    flip metrics, approximate_worst_case_error and the sampling *)
Theorem C138_metric_failures :
  forall (M : mgr) (clog2 : Z -> nat) (rand_max : Z) (draws : nat -> Z) (f g : list bdd) (metric : Metric) (fuel : nat) (r : res num) (e : failure),
  compute_error_metric M clog2 rand_max draws f g metric fuel = Some r -> fails e r ->
  e = Undefined \/ (e = FailedAssert /\ length f <> length g
    /\ (metric = AVERAGE_BIT_FLIP_ \/ metric = WORST_CASE_BIT_FLIP_ \/ metric = APPROXIMATE_WORST_CASE_5)).
Proof. exact metrics_fail. Qed.
Print Assumptions C138_metric_failures.
Theorem C138_failed_assertions :
  forall (M : mgr) (clog2 : Z -> nat) (rand_max : Z) (draws : nat -> Z) (f g : list bdd) (metric : Metric) (fuel : nat),
  length f <> length g -> metric = AVERAGE_BIT_FLIP_ \/ metric = WORST_CASE_BIT_FLIP_ \/ metric = APPROXIMATE_WORST_CASE_5 ->
  compute_error_metric M clog2 rand_max draws f g metric fuel = Some Abort.
Proof. exact metrics_abort. Qed.
Print Assumptions C138_failed_assertions.
Theorem C138_other_metrics :
  forall (M : mgr) (sort : list (nat * Q) -> list (nat * Q)) (rand_max : Z) (draws : nat -> Z) (f g : list bdd)
    (r : NumberRepresentation) (extra : nat) (samples : Z),
  only_undefined (error_rate_add M f g) /\ only_undefined (average_bit_flip_error_add M f g) /\ only_undefined (worst_case_bit_flip_error_add M f g)
  /\ only_undefined (worst_case_error_add M f g r) /\ only_undefined (average_case_error_add M f g r) /\ only_undefined (mean_squared_error_add M f g r)
  /\ only_undefined (worst_case_error_percent M f g r)
  /\ only_undefined (wcre_symbolic_division M f g extra r) /\ only_undefined (acre_symbolic_division M f g extra r)
  /\ (length f = length g -> only_undefined (error_rate_sampling M draws f g samples)
       /\ only_undefined (error_rate_efficient_sampling M sort rand_max draws f g samples))
  /\ (length f <> length g -> error_rate_sampling M draws f g samples = Abort
       /\ error_rate_efficient_sampling M sort rand_max draws f g samples = Abort).
Proof. exact other_metrics_fail. Qed.
Print Assumptions C138_other_metrics.
(** also with any number of bits, but not less than one *)
Theorem C138_approximate :
  forall (M : mgr) (f g : list bdd) (n : Z) (r : NumberRepresentation),
  (length f = length g -> (1 <= n)%Z -> only_undefined (approximate_worst_case_error M f g n r))
  /\ (length f <> length g \/ (n < 1)%Z -> approximate_worst_case_error M f g n r = Abort).
Proof. exact approximate_fails. Qed.
Print Assumptions C138_approximate.
Example C138_case : let compute := compute_error_metric (id_mgr 1) (fun z => Z.to_nat (Z.log2_up z)) 7 (fun _ => 3%Z) in
  compute [bvar 0] [bvar 0; bone] WORST_CASE_BIT_FLIP_ 9 = Some Abort /\ compute [bvar 0; bone] [bvar 0] ERROR_RATE_ 9 = Some UB
  /\ compute [] [] WORST_CASE_RELATIVE_ADD 9 = Some (Ok (Fin 0))
  /\ map (fun n => approximate_worst_case_error (id_mgr 1) [bvar 0] [bone] n BaseTwo) [0; 1]%Z = [Abort; Ok 1%Z].
Proof. vm_compute. auto. Qed.
