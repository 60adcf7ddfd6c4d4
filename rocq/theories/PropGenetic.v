(** Properties C80-C85: the genetic minimisation (experiments/minimization/nsga2). *)
From Coq Require Import List Bool Arith ZArith QArith Sorted.
From Verif Require Import Res Cudd Spec Helpers Metrics Benchmark Genetic SpecFloat SpecGenetic GeneticFacts GeneticFacts2 GeneticFacts3 GeneticFacts4 MinimizeFacts6.
Import ListNotations.
Open Scope nat_scope.

Definition ex_mgr : mgr := id_mgr 3.
(** x0 & x1 and x1 xor x2 *)
Definition ex_f : list bdd := [band ex_mgr (bvar 0) (bvar 1); bxor ex_mgr (bvar 1) (bvar 2)].

(** C80: the positions are the pairs of an output and a variable it depends on, ordered; every entry
    of an individual lies between 0 and 2 *)
Theorem C80_positions : forall (M : mgr) (f : list bdd), Forall (wf M) f ->
  StronglySorted before (compute_support_positions f)
  /\ forall i v, In (i, v) (compute_support_positions f) <->
     i < length f /\ exists a, ev (nth i f bzero) (upd a v true) <> ev (nth i f bzero) (upd a v false).
Proof. exact positions_full. Qed.
Print Assumptions C80_positions.
Example C80_case : compute_support_positions ex_f = [(0, 0); (0, 1); (1, 1); (1, 2)]
  /\ get_bounds (make_problem ex_f (1 # 10) false 0) = ([0; 0; 0; 0], [2; 2; 2; 2])%Q.
Proof. vm_compute. auto. Qed.

(** C81: an individual replaces variables of outputs by constants *)
Theorem C81_function_from_individuum :
  forall (M : mgr) (f : list bdd) (max_er : Q) (both : bool) (max_ace : Q) (params : individuum), Forall (wf M) f ->
  let P := make_problem f max_er both max_ace in
  let positions := compute_support_positions f in
  (length positions <= length params -> exists g, function_from_individuum M P params = Ok g /\ Forall (wf M) g /\ length g = length f
     /\ (forall o a b, o < length f -> chosen_input positions params o a b -> ev (nth o g bzero) a = ev (nth o f bzero) b)
     /\ (forall n, below n f -> below n g))
  /\ (length params < length positions -> function_from_individuum M P params = UB).
Proof. exact function_from_full. Qed.
Print Assumptions C81_function_from_individuum.
Example C81_case : (* x0 := 1 in the first output, x2 := 0 in the second one *)
  let P := make_problem ex_f (1 # 10) false 0 in
  function_from_individuum ex_mgr P [2; 1 # 2; 0; 3 # 2]%Q = Ok [bvar 1; bvar 1]
  /\ chosen_input (compute_support_positions ex_f) [2; 1 # 2; 0; 3 # 2]%Q 1 (fun _ => true) (fun v => negb (v =? 2))
  /\ function_from_individuum ex_mgr P [2; 1 # 2; 0]%Q = UB.
Proof.
  cbn zeta. split; [vm_compute; reflexivity|]. split; [|vm_compute; reflexivity].
  assert (E : compute_support_positions ex_f = [(0, 0); (0, 1); (1, 1); (1, 2)]) by (vm_compute; reflexivity). rewrite E. split.
  - intros [|[|[|[|k]]]] v H; cbn [nth_error] in H; try discriminate H; try (destruct k; discriminate H); injection H as <-; cbn [nth Nat.eqb negb];
      (split; [|split]); intro K; try reflexivity; try (exfalso; destruct K as [K _]; revert K; vm_compute; discriminate); exfalso; revert K; vm_compute; (discriminate || congruence).
  - intros v H. destruct (Nat.eqb_spec v 2) as [->|]; [|reflexivity]. exfalso. apply H. cbn. auto.
Qed.

(** C82: the fitness consists of node count, error rate and average case error; functions that are not
    smaller than the original (including itself) or exceed a limit (rounded to float) are penalised *)
Theorem C82_fitness :
  forall (M : mgr) (n : nat) (f : list bdd) (max_er : Q) (both : bool) (max_ace : Q) (params : individuum),
  Forall (wf M) f -> below n f -> (both = true -> length f + n < 256) -> length (compute_support_positions f) <= length params ->
  let P := make_problem f max_er both max_ace in
  exists g v, function_from_individuum M P params = Ok g /\ fitness M P params = Ok v
  /\ (nodeCount f <= nodeCount g -> v = [inject_Z (Z.of_nat (nodeCount g)) * 5; 100]%Q ++ (if both then [to_float max_ace * 2]%Q else []))
  /\ (nodeCount g < nodeCount f -> exists c er ace, v = [c; er] ++ (if both then [ace] else [])
       /\ (er == rate n f g)%Q /\ (ace == if both then average_distance n f g else 0)%Q
       /\ ((er <= to_float max_er)%Q -> (ace <= to_float max_ace)%Q -> c = inject_Z (Z.of_nat (nodeCount g)))
       /\ ((to_float max_er < er)%Q -> (ace <= to_float max_ace)%Q -> (c == inject_Z (Z.of_nat (nodeCount g)) * (10000 * er + 50))%Q)
       /\ ((er <= to_float max_er)%Q -> (to_float max_ace < ace)%Q -> (c == inject_Z (Z.of_nat (nodeCount g)) * (100 + ace))%Q)
       /\ ((to_float max_er < er)%Q -> (to_float max_ace < ace)%Q ->
             (c == inject_Z (Z.of_nat (nodeCount g)) * (10000 * er + 50) * (100 + ace))%Q))
  /\ ((forall k p, nth_error params k = Some p -> (p <= 1 # 2)%Q) -> g = f).
Proof. exact fitness_full. Qed.
Print Assumptions C82_fitness.
Example C82_case : (* the original, x1 := 0 in both outputs, x0 := 1 in the first one *)
  let P := make_problem ex_f (1 # 4) true 2 in
  match fitness ex_mgr P [0; 0; 0; 0]%Q, fitness ex_mgr P [0; 1; 1; 0]%Q, fitness ex_mgr P [2; 0; 0; 0]%Q with
  | Ok u, Ok v, Ok w => map Qred u = [25; 100; 4]%Q /\ map Qred v = [10100; 1 # 2; 1]%Q /\ map Qred w = [4; 1 # 4; 1 # 4]%Q
  | _, _, _ => False
  end.
Proof. vm_compute. auto. Qed.

(** the limits are rounded to the nearest number with 24 significant bits, which can
    be larger than the limit *)
Theorem C82_limit_rounding : forall q : Q,
  float_number 24 (to_float q) /\ nearest_float 24 q (to_float q).
Proof. exact to_float_nearest. Qed.
Print Assumptions C82_limit_rounding.
Example C82_limit_case : (Qred (to_float (1 # 10)) = 13421773 # 134217728)%Q /\ (1 # 10 < to_float (1 # 10))%Q.
Proof. vm_compute. auto. Qed.

(** C83 *)
Theorem C83_make_population : forall (P : problem) (size count : nat) (draws : nat -> Z),
  (0 < length (support_positions P) -> exists pop, make_population P size count draws = Ok pop /\ length pop = size
     /\ Forall (fun d => length d = length (support_positions P) /\ Forall digit d /\ changes d <= count) pop)
  /\ (support_positions P = [] -> 0 < size -> 0 < count -> make_population P size count draws = UB).
Proof. exact make_population_full. Qed.
Print Assumptions C83_make_population.
(** the bounds given to the optimiser are met by every possible individual, and by nothing else if it is integral *)
Theorem C83_bounds : forall (P : problem) (d : individuum),
  (length d = length (support_positions P) /\ Forall digit d -> Forall2 Qle (fst (get_bounds P)) d /\ Forall2 Qle d (snd (get_bounds P)))
  /\ (Forall2 Qle (fst (get_bounds P)) d -> Forall2 Qle d (snd (get_bounds P)) ->
      Forall (fun q => exists z, q = inject_Z z) d -> length d = length (support_positions P) /\ Forall digit d).
Proof. exact bounds_full. Qed.
Print Assumptions C83_bounds.
Example C83_case : get_bounds (make_problem ex_f (1 # 10) false 0) = ([0; 0; 0; 0], [2; 2; 2; 2])%Q /\ make_population (make_problem ex_f (1 # 10) false 0) 2 3 (fun i => nth i [0; 6; 1; 3; 3; 2; 4; 1; 5; 1; 7; 1]%Z 0%Z) = Ok [[0; 0; 2; 2]; [0; 2; 0; 0]]%Q
  /\ make_population (make_problem [bone] (1 # 10) false 0) 1 1 (fun _ => 0%Z) = UB.
Proof. vm_compute. auto. Qed.

(** C84: the result describes a smallest acceptable function that was found. Wrong: because of the
    rounded limits, a penalised size may be reported; here [n] = 28 and more than 2000 times the size of
    the original, although a smaller acceptable function is found in every generation *)
Theorem C84_run_refuted : exists (M : mgr) (n : nat) (f : list bdd) (max_er : Q) (evolve : nat -> list individuum -> list individuum),
  Forall (wf M) f /\ below n f /\ length f + n < 256 /\ (max_er <= 1)%Q /\ compute_support_positions f <> []
  /\ (forall k pop, Forall (fun d => length d = length (compute_support_positions f)) (evolve k pop))
  /\ (forall k start, exists g, found M n f max_er 0 false (generation evolve start (S k)) g)
  /\ forall draws fuel, 2 <= fuel -> exists r, run_genetic_minimization M f max_er 0 false draws evolve fuel = Some (Ok r)
       /\ (Z.of_nat (nodeCount f) * 2000 < node_count r < 2 ^ 20)%Z.
Proof. exact run_bad. Qed.
Print Assumptions C84_run_refuted.
(** it holds if the errors are floats (at most 24 variables, or variables and outputs if both are limited)
    or the limits are not rounded down *)
Theorem C84_run_partial :
  forall (M : mgr) (n : nat) (f : list bdd) (max_er max_ace : Q) (both : bool) (draws : nat -> Z)
    (evolve : nat -> list individuum -> list individuum) (fuel : nat),
  Forall (wf M) f -> below n f -> (n <= 24 \/ (max_er <= to_float max_er)%Q) ->
  (both = true -> n + length f <= 24 \/ (max_ace <= to_float max_ace)%Q) -> (both = true -> length f + n < 256) ->
  (max_er <= 100)%Q -> (0 <= max_ace)%Q -> (Z.of_nat (nodeCount f) < 2 ^ 64)%Z -> nodeCount f + 1 <= fuel ->
  (forall k pop, Forall (fun d => length d = length (compute_support_positions f)) pop ->
     Forall (fun d => length d = length (compute_support_positions f)) (evolve k pop)) ->
  compute_support_positions f <> [] ->
  exists start K r, make_population (make_problem f max_er both max_ace) 100 3 draws = Ok start
  /\ run_genetic_minimization M f max_er max_ace both draws evolve fuel = Some (Ok r)
  /\ 0 < K <= nodeCount f + 1
  /\ ((r = no_result /\ forall j g, 0 < j <= K -> ~ found M n f max_er max_ace both (generation evolve start j) g)
      \/ (exists j g, 0 < j <= K /\ found M n f max_er max_ace both (generation evolve start j) g /\ describes n f both r g))
  /\ (forall j g, 0 < j <= K -> found M n f max_er max_ace both (generation evolve start j) g -> (node_count r <= Z.of_nat (nodeCount g))%Z)
  /\ (both = false -> average_case_error_ r = 0%Q).
Proof. exact run_full. Qed.
Print Assumptions C84_run_partial.
(** for any limits: the errors of the result are those of a function that was found, and its node count is the counted size of that
    function, without fractions: the real size if the errors are within the limits rounded to float, multiplied by 10000 rate + 50
    and 100 + average distance otherwise. No function found has a smaller counted size *)
Theorem C84_run_any_limits_partial :
  forall (M : mgr) (n : nat) (f : list bdd) (max_er max_ace : Q) (both : bool) (draws : nat -> Z)
    (evolve : nat -> list individuum -> list individuum) (fuel : nat) (o : res MinimizationResult_),
  Forall (wf M) f -> below n f -> (both = true -> length f + n < 256) -> (max_er <= 100)%Q -> (0 <= max_ace)%Q ->
  (forall k pop, Forall (fun d => length d = length (compute_support_positions f)) pop ->
     Forall (fun d => length d = length (compute_support_positions f)) (evolve k pop)) ->
  compute_support_positions f <> [] ->
  run_genetic_minimization M f max_er max_ace both draws evolve fuel = Some o ->
  let size := counted n f (to_float max_er) (to_float max_ace) both in
  exists start K r, make_population (make_problem f max_er both max_ace) 100 3 draws = Ok start
  /\ o = Ok r /\ 0 < K
  /\ (r = no_result
      \/ exists j g, 0 < j <= K /\ found M n f max_er max_ace both (generation evolve start j) g
           /\ (inject_Z (node_count r) <= size g < inject_Z (node_count r) + 1)%Q /\ (error_rate_ r == rate n f g)%Q
           /\ (both = true -> (average_case_error_ r == average_distance n f g)%Q))
  /\ (forall j g, 0 < j <= K -> found M n f max_er max_ace both (generation evolve start j) g -> (inject_Z (node_count r) <= size g)%Q)
  /\ (both = false -> average_case_error_ r = 0%Q).
Proof. exact run_any. Qed.
Print Assumptions C84_run_any_limits_partial.
Example C84_any_limits : (* 1/4 + 2^-27 is rounded to 1/4; 28 nodes with the error rate 1/4 + 2^-28 are counted as 71400 *)
  match run_genetic_minimization (id_mgr 28) wide_f wide_limit 0 false (fun _ => 0%Z) (fun _ _ => [wide_ind]) 2 with
  | Some (Ok r) => nodeCount wide_g = 28 /\ node_count r = 71400%Z /\ (error_rate_ r == (1 # 4) + (1 # 2 ^ 28))%Q
  | _ => False
  end.
Proof. vm_compute. auto. Qed.
Example C84_case : (* the first generation has an individual of 4 nodes, the second one of 2, the third one nothing better *)
  let evolve k (pop : list individuum) := nth k [[[2; 0; 0; 0]]; [[0; 0; 0; 0]; [0; 1; 0; 1]]]%Q [[0; 0; 2; 0]%Q] in
  match run_genetic_minimization ex_mgr ex_f (3 # 4) 2 true (fun _ => 0%Z) evolve 10 with
  | Some (Ok r) => node_count r = 2%Z /\ Qred (error_rate_ r) = (5 # 8)%Q /\ Qred (average_case_error_ r) = 1%Q
  | _ => False
  end.
Proof. vm_compute. auto. Qed.

(** C85: the search ends for every genetic algorithm and every limit *)
Theorem C85_run_ends :
  forall (M : mgr) (f : list bdd) (max_er max_ace : Q) (both : bool) (draws : nat -> Z)
    (evolve : nat -> list individuum -> list individuum) (fuel : nat),
  (2 ^ 64 <= Z.of_nat fuel)%Z -> run_genetic_minimization M f max_er max_ace both draws evolve fuel <> None.
Proof. exact run_ends. Qed.
Print Assumptions C85_run_ends.
Example C85_case : run_genetic_minimization ex_mgr ex_f (1 # 2) 2 true (fun _ => 0%Z) (fun _ _ => []) 1 = Some (Ok no_result)
  /\ run_genetic_minimization ex_mgr [bone] (1 # 2) 2 true (fun _ => 0%Z) (fun _ _ => []) 1 = Some Throw
  /\ run_genetic_minimization ex_mgr ex_f (1 # 2) 2 true (fun _ => 0%Z) (fun _ _ => [[1%Q]]) 1 = Some UB.
Proof. vm_compute. auto. Qed.
