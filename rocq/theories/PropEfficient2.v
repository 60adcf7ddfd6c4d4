(** Property C161: error_rate_efficient_sampling (src/error_metrics/error_rate.cpp:66-141) with doubles of limited range:
    under the hypotheses of C136 nothing overflows, underflows or becomes a NaN. *)
From Coq Require Import List Bool Arith ZArith QArith Permutation Sorted.
From Verif Require Import Res Cudd CuddFacts Spec Float Helpers Counting Metrics RelMetrics Rounded SpecSampling SpecFloat Ieee Ieee2 SpecEfficient IeeeFacts9.
Import ListNotations.
Open Scope nat_scope.

(** C161: with at least one variable and m * 2^n <= 2^53 for n variables and m outputs the result lies between the largest
    rate of an output and the sum of the rates; the function is undefined exactly if there are several outputs and at most
    one of them is ever wrong, or none *)
Theorem C161_efficient_sampling : forall (count : bdd -> Z -> dbl) (M : mgr) (sort : list (nat * dbl) -> list (nat * dbl)) (rand_max : Z)
    (draws : nat -> Z) (f g : list bdd) (samples : Z),
  counts_exactly M count -> sorts_doubles sort -> Forall (wf M) f -> Forall (wf M) g ->
  below (read_size M) f -> below (read_size M) g -> length f = length g ->
  let n := read_size M in
  1 <= n -> (Z.of_nat (length f) * 2 ^ Z.of_nat n <= 2 ^ 53)%Z -> (1 <= samples < 2 ^ 31)%Z ->
  (0 < rand_max <= 2 ^ 53)%Z -> (forall i, 0 <= draws i <= rand_max)%Z ->
  (length f = 1 -> exists q, error_rate_efficient_sampling_d count M sort rand_max draws f g samples = Ok (DFin q) /\ (q == output_rate n f g 0)%Q)
  /\ ((exists i j, i < length f /\ j < length f /\ i <> j /\ (exists a, wrong f g i a = true) /\ (exists a, wrong f g j a = true)) ->
      exists q, error_rate_efficient_sampling_d count M sort rand_max draws f g samples = Ok (DFin q)
        /\ (forall i, i < length f -> (output_rate n f g i <= q)%Q) /\ (q <= 1)%Q
        /\ (q <= sumQ (map (output_rate n f g) (seq 0 (length f))))%Q)
  /\ (length f <> 1 -> ~ (exists i j, i < length f /\ j < length f /\ i <> j /\ (exists a, wrong f g i a = true) /\ (exists a, wrong f g j a = true)) ->
      error_rate_efficient_sampling_d count M sort rand_max draws f g samples = UB).
Proof. exact efficient_range_d. Qed.
Print Assumptions C161_efficient_sampling.
(** and it is exact in the cases of C45 *)
Theorem C161_efficient_sampling_exact : forall (count : bdd -> Z -> dbl) (M : mgr) (sort : list (nat * dbl) -> list (nat * dbl)) (rand_max : Z)
    (draws : nat -> Z) (f g : list bdd) (samples : Z),
  counts_exactly M count -> sorts_doubles sort -> index_order M -> Forall (wf M) f -> Forall (wf M) g ->
  below (read_size M) f -> below (read_size M) g -> length f = length g ->
  let n := read_size M in
  1 <= n -> (Z.of_nat (length f) * 2 ^ Z.of_nat n <= 2 ^ 53)%Z -> (1 <= samples < 2 ^ 31)%Z ->
  (rand_max <= 2 ^ 53)%Z -> (forall i, 0 < draws i <= rand_max)%Z ->
  (exists i j, i < length f /\ j < length f /\ i <> j /\ (exists a, wrong f g i a = true) /\ (exists a, wrong f g j a = true)) ->
  ((exists j, j < length f /\ forall i a, i < length f -> wrong f g i a = true -> wrong f g j a = true)
   \/ ((forall i j a, i < length f -> j < length f -> i <> j -> wrong f g i a = true -> wrong f g j a = false)
       /\ forall i, i < length f -> (output_rate n f g i == 0)%Q
            \/ (sumQ (map (output_rate n f g) (seq 0 (length f))) <= inject_Z samples * output_rate n f g i)%Q)) ->
  exists q, error_rate_efficient_sampling_d count M sort rand_max draws f g samples = Ok (DFin q)
    /\ (q == average n (fun a => b2q (differ f g a)))%Q.
Proof. exact efficient_exact_d. Qed.
Print Assumptions C161_efficient_sampling_exact.
(** Cudd_CountMinterm counts exactly up to 53 variables although it rounds after every operation *)
Theorem C161_counts : forall (M : mgr), 1 <= read_size M <= 53 ->
  counts_exactly M (fun b k => DFin (CountMinterm_fl (round_float 53) b (Z.to_nat k))).
Proof. exact rounded_counts_exactly. Qed.
Print Assumptions C161_counts.
Example C161_case :
  let count := fun (b : bdd) k => DFin (CountMinterm_fl (round_float 53) b (Z.to_nat k)) in
  let M := id_mgr 2 in let f := [bvar 0; band M (bvar 0) (bvar 1)] in let g := [bzero; bzero] in
  sorts_doubles insertion_down /\ counts_exactly M count
  /\ insertion_down [(0, DFin (1 # 4)); (1, DFin (1 # 2)); (2, DFin (1 # 3))] = [(1, DFin (1 # 2)); (2, DFin (1 # 3)); (0, DFin (1 # 4))]
  /\ (Z.of_nat (length f) * 2 ^ Z.of_nat (read_size M) <= 2 ^ 53)%Z
  /\ (forall i a, i < length f -> wrong f g i a = true -> wrong f g 0 a = true)
  /\ match error_rate_efficient_sampling_d count M insertion_down 7 (fun i => nth i [1; 1; 2; 6]%Z 1%Z) f g 2 with
     | Ok (DFin q) => Qeq_bool q (1 # 2) && Qeq_bool (average 2 (fun a => b2q (differ f g a))) (1 # 2) | _ => false end = true.
Proof.
  split; [exact insertion_sorts|]. split; [apply rounded_counts_exactly; cbn; Lia.lia|].
  split; [reflexivity|]. split; [discriminate|]. split; [|vm_compute; reflexivity].
  intros [|[|i]] a Hi; [auto| |cbn in Hi; Lia.lia]. cbv. destruct (a 0), (a 1); auto.
Qed.
