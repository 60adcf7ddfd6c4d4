(** Properties C102-C104: the computations of the experiments (experiments/runtime, experiments/misc).
    [error_rate_of], [average_error_of] and [worst_error_of] are the closed forms of C94-C96. *)
From Coq Require Import String List Bool Arith ZArith QArith Lia.
From Verif Require Import Res Cudd CuddFacts Spec SpecFacts SpecAdder SpecExperiments Helpers Counting Metrics Operators Examples FromPapers Benchmark
  SpecBenchmark Experiments ExperimentsFacts ExperimentsFacts2.
Import ListNotations.
Open Scope nat_scope.

(** C102 *)
Theorem C102_operators : forall (M : mgr) (n : nat) (op : RoundingOperation) (level : nat) (f : list bdd),
  Forall (wf M) f -> below n f ->
  exists g, benchmark_operators M op level f = Ok g /\ Forall (wf M) g /\ List.length g = List.length f /\ below n g
  /\ (op = SUPERSET_HEAVY \/ op = SUPERSET_LIGHT -> forall a, (uval f a <= uval g a)%Z)
  /\ (op = SUBSET_LIGHT \/ op = SUBSET_HEAVY -> forall a, (uval g a <= uval f a)%Z)
  /\ (op = ROUND_FULL -> index_order M -> below level g)
  /\ (op = COFACTOR_POSITIVE -> forall a, uval g a = uval f (upd a level true))
  /\ (op = COFACTOR_NEGATIVE -> forall a, uval g a = uval f (upd a level false)).
Proof. exact operators_ok. Qed.
Print Assumptions C102_operators.
Theorem C102_iscas85 : forall (M : mgr) (n : nat) (op : IscasRounding) (level : nat) (f : list bdd),
  Forall (wf M) f -> below n f ->
  exists g, iscas_rounded M op level f = Ok g /\ Forall (wf M) g /\ List.length g = List.length f /\ below n g
  /\ (op = ROUND_UP_ -> forall a, (uval f a <= uval g a)%Z)
  /\ (op = ROUND_DOWN_ -> forall a, (uval g a <= uval f a)%Z)
  /\ (op = ROUND_FULL_ -> index_order M -> below level g).
Proof. exact iscas_ok. Qed.
Print Assumptions C102_iscas85.
Theorem C102_iscas85_error : forall (M : mgr) (n : nat) (op : IscasRounding) (level : nat) (f : list bdd) (metric : Metric),
  Forall (wf M) f -> below n f -> List.length f + n < 256 ->
  metric = ERROR_RATE_ \/ metric = WORST_CASE_ \/ metric = AVERAGE_CASE_ ->
  exists g q, iscas_rounded M op level f = Ok g /\ benchmark_iscas85 M op level metric f = Ok (Fin q) /\ metric_of n f g metric q.
Proof. exact iscas_error. Qed.
Print Assumptions C102_iscas85_error.
Definition values (l : list bdd) : list Z :=
  map (fun k => uval l (fun i => Nat.testbit k (3 - i))) (seq 0 16).
Definition values_of (r : res (list bdd)) : list Z := match r with Ok l => values l | _ => [] end.
Example C102_case : let M := id_mgr 4 in let f := example1a M in
  values f = [0; 2; 2; 4; 1; 3; 3; 5; 1; 3; 3; 5; 2; 4; 4; 6]%Z
  /\ values_of (benchmark_operators M SUPERSET_HEAVY 2 f) = [2; 2; 6; 4; 3; 3; 7; 5; 3; 3; 7; 5; 2; 6; 4; 6]%Z
  /\ values_of (benchmark_operators M SUBSET_LIGHT 2 f) = [0; 2; 0; 4; 1; 3; 1; 5; 1; 3; 1; 5; 2; 0; 4; 4]%Z
  /\ values_of (benchmark_operators M COFACTOR_POSITIVE 0 f) = [1; 3; 3; 5; 2; 4; 4; 6; 1; 3; 3; 5; 2; 4; 4; 6]%Z
  /\ values_of (iscas_rounded M ROUND_FULL_ 2 f) = [0; 0; 0; 0; 1; 1; 1; 1; 1; 1; 1; 1; 4; 4; 4; 4]%Z.
Proof. vm_compute. auto 10. Qed.
Definition iscas_errors (M : mgr) (f : list bdd) : list Q :=
  map (fun m => match benchmark_iscas85 M ROUND_FULL_ 2 m f with Ok (Fin q) => Qred q | _ => (-1)%Q end) [ERROR_RATE_; WORST_CASE_; AVERAGE_CASE_].
Example C102_error_case : iscas_errors (id_mgr 4) (example1a (id_mgr 4)) = [11 # 16; 4 # 1; 7 # 4]%Q.
Proof. vm_compute. reflexivity. Qed.

(** C103 *)
Theorem C103_average_case_error : forall (M : mgr) (n : nat) (up : bool) (level : nat) (f : list bdd),
  Forall (wf M) f -> below n f -> List.length f + n < 256 ->
  exists g q, ace_rounded M up level f = Ok g /\ benchmark_ace M up level f = Ok (Fin q)
  /\ (q == average n (fun a => inject_Z (dist (uval f a) (uval g a))))%Q
  /\ (q == (if up then 1 else - (1)) * sumQ (map (fun i => inject_Z (2 ^ Z.of_nat i)
             * (density n (nth i g bzero) - density n (nth i f bzero))) (seq 0 (List.length f))))%Q.
Proof. exact benchmark_ace_ok. Qed.
Print Assumptions C103_average_case_error.
Theorem C103_ace_steps : forall (M : mgr) (n level : nat) (f : list bdd),
  Forall (wf M) f -> below n f -> List.length f + n < 256 ->
  exists g d q q', iscas_rounded M ROUND_UP_ level f = Ok g /\ benchmark_ace_steps M level f = Ok (d, Fin q)
  /\ (forall a, uval d a = dist (uval f a) (uval g a))
  /\ (q == average n (fun a => inject_Z (dist (uval f a) (uval g a))))%Q
  /\ average_case_error M f g BaseTwo = Ok (Fin q') /\ (q == q')%Q.
Proof. exact benchmark_ace_steps_ok. Qed.
Print Assumptions C103_ace_steps.
Definition shown (r : res num) : option Q := match r with Ok (Fin q) => Some (Qred q) | _ => None end.
Example C103_case : let M := id_mgr 4 in let f := example1a M in
  (shown (benchmark_ace M true 2 f), shown (benchmark_ace M false 2 f), shown (benchmark_ace M true 9 f)) = (Some (7#2), Some (3#4), Some 0)%Q
  /\ match benchmark_ace_steps M 2 f with Ok (d, Fin q) => (values d, Qred q) = ([2; 0; 4; 0; 2; 0; 4; 0; 2; 0; 4; 0; 0; 2; 0; 0]%Z, 5#4)%Q | _ => False end.
Proof. vm_compute. auto. Qed.

(** C104 *)
Theorem C104_generate_adders : forall (M : mgr) (adder : ApproximateAdder) (N p1 p2 : nat),
  exists_for adder N p1 p2 -> 3 * N + 1 < 256 ->
  exists er ace wc, generate_adders M adder N p1 p2
    = Ok (approximate_adder_name adder (N.of_nat N) (N.of_nat p1) (N.of_nat p2), Fin er, Fin ace, Fin wc)
  /\ (er == error_rate_of adder N p1 p2)%Q /\ (ace == average_error_of adder N p1 p2)%Q
  /\ (wc == inject_Z (worst_error_of adder N p1 p2))%Q.
Proof. exact generate_ok. Qed.
Print Assumptions C104_generate_adders.
(** the values for all configurations of the experiments *)
Theorem C104_benchmark_adders : forall (M : mgr),
  Forall (fun '(adder, (N, p1, p2), (er, ace, wc)) => exists er' ace' wc',
    generate_adders M adder N p1 p2
    = Ok (approximate_adder_name adder (N.of_nat N) (N.of_nat p1) (N.of_nat p2), Fin er', Fin ace', Fin wc')
    /\ (er' == er)%Q /\ (ace' == ace)%Q /\ (wc' == inject_Z wc)%Q) benchmark_adders.
Proof. exact benchmark_table. Qed.
Print Assumptions C104_benchmark_adders.
Example C104_case :
  match generate_adders (id_mgr 5) GEAR 4 1 1 with
  | Ok (name, Fin er, Fin ace, Fin wc) =>
      (name, Qred er, Qred ace, Qred wc) = ("GeAr_N4_R1_P1"%string, 1 # 4, 3 # 2, 8 # 1)%Q
  | _ => False
  end /\ exists_for GEAR 4 1 1 /\ shown (small_example (id_mgr 3)) = Some (1 # 8)%Q.
Proof. vm_compute. split; [auto|]. split; [lia|auto]. Qed.
