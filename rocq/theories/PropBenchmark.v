(** Properties C65 and C75-C79: the benchmark helpers (experiments/util/benchmark_util.cpp), the input and output
    helpers of the minimisation (src/minimization/minimization_helper.cpp) and C strings (src/util/string_helpers.cpp). *)
From Coq Require Import Ascii String List Bool Arith NArith ZArith QArith Lia.
From Verif Require Import Res Cudd Spec Helpers HelpersFacts2 Metrics RelMetrics Examples FromPapers Parsing SpecParsing
  Benchmark SpecBenchmark BenchmarkFacts BenchmarkFacts2 BenchmarkFacts4 BenchmarkFacts3 ParsingCases.
Import ListNotations.
Open Scope string_scope.
Open Scope nat_scope.

(** C65. Wrong: the two average relative metrics are computed with the arguments swapped *)
Theorem C65_compute_error_metric_refuted : exists (M : mgr) (f g : list bdd),
  Forall (wf M) f /\ Forall (wf M) g /\ List.length f = List.length g
  /\ below (read_size M) f /\ below (read_size M) g
  /\ forall (m : Metric) (clog2 : Z -> nat) (rand_max : Z) (draws : nat -> Z) (fuel : nat),
     m = AVERAGE_RELATIVE_APPROX \/ m = AVERAGE_RELATIVE_ADD ->
     exists q, compute_error_metric M clog2 rand_max draws f g m fuel = Some (Ok (Fin q))
       /\ ~ metric_of (read_size M) f g m q.
Proof. exact compute_bad. Qed.
Print Assumptions C65_compute_error_metric_refuted.
(** all others but the mean squared error (C38: a lower bound) and the binary search (C43) are the
    metric of the approximation with respect to the original; the two are those of the swapped functions *)
Theorem C65_compute_error_metric_partial :
  forall (M : mgr) (clog2 : Z -> nat) (rand_max : Z) (draws : nat -> Z) (f g : list bdd) (fuel : nat),
  clog2_ok clog2 -> index_order M ->
  Forall (wf M) f -> Forall (wf M) g -> below (read_size M) f -> below (read_size M) g ->
  List.length f = List.length g -> 1 <= List.length f <= 62 -> read_size M <= 63 ->
  (forall i, 0 < draws i <= rand_max)%Z -> 142 <= fuel -> (pow2 (read_size M) < Z.of_nat fuel)%Z ->
  let compute := compute_error_metric M clog2 rand_max draws f g in
  let n := read_size M in
  (forall m, m <> WORST_CASE_RELATIVE_BINARY_SEARCH -> m <> MEAN_SQUARED_ ->
     exists q, compute m fuel = Some (Ok (Fin q))
       /\ (m <> AVERAGE_RELATIVE_APPROX -> m <> AVERAGE_RELATIVE_ADD -> metric_of n f g m q)
       /\ (m = AVERAGE_RELATIVE_APPROX \/ m = AVERAGE_RELATIVE_ADD -> metric_of n g f m q))
  /\ (exists q, compute MEAN_SQUARED_ fuel = Some (Ok (Fin q))
       /\ (q <= average n (fun a => inject_Z (absolute f g a * absolute f g a)))%Q)
  /\ (exists x, is_maxQ (relative f g) x
       /\ ((x == 0)%Q -> compute WORST_CASE_RELATIVE_BINARY_SEARCH fuel = Some (Ok (Fin 0)))
       /\ ((0 < x < 1)%Q -> compute WORST_CASE_RELATIVE_BINARY_SEARCH fuel = Some UB)
       /\ ((1 <= x)%Q -> exists q, compute WORST_CASE_RELATIVE_BINARY_SEARCH fuel = Some (Ok (Fin q))
             /\ (x - (1 # 20000) <= q < (3 # 2) * x)%Q)).
Proof. exact compute_full. Qed.
Print Assumptions C65_compute_error_metric_partial.
(** the functions of the paper: the worst case error is 6; the average relative error is 13/48 (C39), but 1 is computed *)
Example C65_case :
  let M := id_mgr 4 in
  let compute := compute_error_metric M (fun z => Z.to_nat (Z.log2_up z)) 7 (fun _ => 3%Z) (example1a M) (example1b M) in
  match compute WORST_CASE_ 142, compute AVERAGE_RELATIVE_ADD 142, acre_add M (example1a M) (example1b M) BaseTwo with
  | Some (Ok (Fin p)), Some (Ok (Fin q)), Ok (Fin r) => Qred p = 6%Q /\ Qred q = 1%Q /\ Qred r = (13 # 48)%Q
  | _, _, _ => False
  end.
Proof. vm_compute. auto. Qed.

(** C75: the names tell metrics, files and adder configurations apart *)
Theorem C75_names :
  (forall m m', error_metric_name m = error_metric_name m' -> m = m')
  /\ (forall i, (i < 11 -> exists s, iscas_85_filepath_by_id i = Ok s) /\ (11 <= i -> iscas_85_filepath_by_id i = Throw))
  /\ (forall i j s, iscas_85_filepath_by_id i = Ok s -> iscas_85_filepath_by_id j = Ok s -> i = j)
  /\ (forall i, (i < 10 -> exists s, epfl_filepath_by_id i = Ok s) /\ (10 <= i -> epfl_filepath_by_id i = Throw))
  /\ (forall i j s, epfl_filepath_by_id i = Ok s -> epfl_filepath_by_id j = Ok s -> i = j).
Proof. exact names_full. Qed.
Print Assumptions C75_names.
Theorem C75_adder_names : forall (a b : ApproximateAdder) (n n' p p' q q' : N),
  approximate_adder_name a n p q = approximate_adder_name b n' p' q' ->
  a = b /\ n = n' /\ p = p' /\ (uses_par2 a = true -> q = q').
Proof. exact adder_name_inj. Qed.
Print Assumptions C75_adder_names.
Example C75_case : approximate_adder_name GDA 16 4 12 = "GDA_St_N16_M4_P12"
  /\ approximate_adder_name GDA 16 41 2 = "GDA_St_N16_M41_P2"
  /\ iscas_85_filepath_by_id 10 = Ok "./iscas85/c7552.aig" /\ epfl_filepath_by_id 10 = Throw.
Proof. vm_compute. auto. Qed.
Example C75_tables : (* all names; the numbers are those of the enumerations in benchmark_util.hpp 10-100 *)
  map error_metric_name [WORST_CASE_; WORST_CASE_RELATIVE_APPROX; WORST_CASE_RELATIVE_BINARY_SEARCH; WORST_CASE_RELATIVE_RANDOMIZED;
      WORST_CASE_RELATIVE_ADD; WORST_CASE_RELATIVE_SYMBOLIC; APPROXIMATE_WORST_CASE_5; AVERAGE_CASE_; AVERAGE_RELATIVE_APPROX;
      AVERAGE_RELATIVE_ADD; MEAN_SQUARED_; ERROR_RATE_; AVERAGE_BIT_FLIP_; WORST_CASE_BIT_FLIP_]
    = ["worst case"; "worst case relative"; "wcr binary search"; "wcr randomized"; "wcr ADD"; "wcr symbolic";
       "approximate worst case - 5 bit"; "average case"; "acr approx"; "acr add"; "mean squared"; "error rate"; "average bit flip";
       "worst case bit flip"]
  /\ map iscas_85_filepath_by_id (seq 0 12)
    = [Ok "./iscas85/c17.aig"; Ok "./iscas85/c432.aig"; Ok "./iscas85/c499.aig"; Ok "./iscas85/c880.aig"; Ok "./iscas85/c1355.aig";
       Ok "./iscas85/c1908.aig"; Ok "./iscas85/c2670.aig"; Ok "./iscas85/c3540.aig"; Ok "./iscas85/c5315.aig"; Ok "./iscas85/c6288.aig";
       Ok "./iscas85/c7552.aig"; Throw]
  /\ map epfl_filepath_by_id (seq 0 11)
    = [Ok "./epfl/adder.aig"; Ok "./epfl/bar.aig"; Ok "./epfl/div.aig"; Ok "./epfl/hyp.aig"; Ok "./epfl/log2.aig"; Ok "./epfl/max.aig";
       Ok "./epfl/multiplier.aig"; Ok "./epfl/sin.aig"; Ok "./epfl/sqrt.aig"; Ok "./epfl/square.aig"; Throw]
  /\ (approximate_adder_name ACA1 8 4 0, approximate_adder_name ACA2 8 4 0, approximate_adder_name GEAR 8 2 4)
    = ("ACA_1_N8_Q4", "ACA_2_N8_Q4", "GeAr_N8_R2_P4").
Proof. vm_compute. auto. Qed.

(** C76: the adder of a configuration *)
Theorem C76_get_approximate_adder : forall (M : mgr) (a : ApproximateAdder) (N p1 p2 : nat),
  (admissible a N p1 p2 -> exists r, get_approximate_adder M a N p1 p2 = Ok r /\ Forall (wf M) r /\ underestimates N r)
  /\ (~ admissible a N p1 p2 -> forall r, get_approximate_adder M a N p1 p2 <> Ok r).
Proof. exact get_adder_full. Qed.
Print Assumptions C76_get_approximate_adder.
Example C76_case : admissible GEAR 4 2 1 /\ admissible ACA2 4 2 0 /\ ~ admissible ACA2 4 1 0
  /\ match get_approximate_adder (id_mgr 9) GEAR 4 2 1 with Ok r => List.length r = 5 | _ => False end.
Proof.
  cbn [admissible]. split; [lia|]. split; [lia|]. split; [lia|]. vm_compute. reflexivity.
Qed.

(** C77: the named adders are exact adders in a manager with one more variable than they need *)
Theorem C77_load_adder : forall bits, (Z.of_nat bits < 2 ^ 31)%Z ->
  exists M r, load_adder bits = Ok (M, r) /\ index_order M /\ read_size M = 2 * bits + 1
    /\ Forall (wf M) r /\ List.length r = bits + 1 /\ below (2 * bits) r
    /\ forall a, uval r a = (number bits (op1 a) + number bits (op2 a))%Z.
Proof. exact load_adder_full. Qed.
Print Assumptions C77_load_adder.
Theorem C77_load_input_adder : forall (files : file_system) (M0 : mgr) (input : string) (bits : nat),
  In (input, bits) adder_names -> load_input files M0 input = load_adder bits /\ (Z.of_nat bits < 2 ^ 31)%Z.
Proof. exact load_input_adder. Qed.
Print Assumptions C77_load_input_adder.
(** anything else is a file: an exception if it cannot be parsed, otherwise the functions of its graph *)
Theorem C77_load_input_file : forall (files : file_system) (M : mgr) (input : string),
  (forall bits, ~ In (input, bits) adder_names) ->
  (files input = None -> load_input files M input = Throw)
  /\ (forall m i o evs, files input = Some (m, i, o, evs) -> ok_file m i o evs ->
      exists outs, load_input files M input = Ok (M, outs) /\ List.length outs = N.to_nat o
        /\ forall j, (j < o)%N -> exists f lit, nth_error outs (N.to_nat j) = Some f /\ wf M f /\ output_literal evs j lit
             /\ forall a b, lit_value evs a lit b <-> ev f a = b).
Proof. exact load_input_file. Qed.
Print Assumptions C77_load_input_file.
Example C77_case : let files := fun s => if String.eqb s "x.aig" then Some (5%N, 2%N, 2%N, ex_aig) else None in
  load_input files (id_mgr 40) "adder9" = Throw
  /\ match load_input files (id_mgr 40) "x.aig", load_input files (id_mgr 40) "adder8" with
     | Ok (_, r), Ok (M, r') => List.length r = 2 /\ read_size M = 17 /\ List.length r' = 9
     | _, _ => False
     end.
Proof. vm_compute. auto. Qed.

(** C78: the unit is chosen by the size, the number is cut off, and only times that fit are defined *)
Theorem C78_format_time :
  (forall ms, (0 <= ms < inject_Z (60000 * 2 ^ 31))%Q -> exists z text unit len,
     format_time (Fin ms) = Ok (text ++ " " ++ unit) /\ integer_text text z /\ time_unit ms unit len
     /\ (inject_Z (z * len) <= ms < inject_Z ((z + 1) * len))%Q)
  /\ (forall ms, (inject_Z (- 2 ^ 31 - 1) < ms < 0)%Q -> exists z text,
       format_time (Fin ms) = Ok (text ++ " ms") /\ integer_text text z /\ (inject_Z (z - 1) < ms <= inject_Z z)%Q)
  /\ (forall ms, (inject_Z (60000 * 2 ^ 31) <= ms \/ ms <= inject_Z (- 2 ^ 31 - 1))%Q -> format_time (Fin ms) = UB)
  /\ format_time NonFin = UB.
Proof. exact format_time_text. Qed.
Print Assumptions C78_format_time.
(** a text stands for one number only *)
Theorem C78_integer_text : forall s z z', integer_text s z -> integer_text s z' -> z = z'.
Proof. exact integer_text_unique. Qed.
Print Assumptions C78_integer_text.
Example C78_case : format_time (Fin (1999 # 2)) = Ok "999 ms" /\ format_time (Fin 1000) = Ok "1 s"
  /\ format_time (Fin (599999 # 2)) = Ok "299 s" /\ format_time (Fin 300000) = Ok "5 m" /\ format_time (Fin (- (3 # 2))) = Ok "-1 ms".
Proof. vm_compute. auto. Qed.

(** C79: copies of all strings in new blocks, and all of them are given back *)
Theorem C79_vec_to_arr : forall (vec : list (list ascii)) (s : store), exists s' arr qs,
  vec_to_arr vec s = Ok (s', arr)
  /\ lookup s arr = None /\ lookup s' arr = Some (Ptrs (map Some qs)) /\ List.length qs = List.length vec
  /\ NoDup (arr :: qs) /\ (forall q, In q qs -> lookup s q = None)
  /\ (forall k q str, nth_error qs k = Some q -> nth_error vec k = Some str ->
        exists c, lookup s' q = Some (Chars c) /\ List.length c = List.length str + 1
          /\ read_c_string c = Some (c_str str) /\ (~ In zero str -> read_c_string c = Some str))
  /\ (forall p, lookup s p <> None -> lookup s' p = lookup s p)
  /\ (exists s'', del_arr arr (List.length vec) s' = Ok s'' /\ forall p, lookup s'' p = lookup s p)
  /\ (forall n, n < List.length vec -> exists s'', del_arr arr n s' = Ok s''
        /\ forall k q, n <= k -> nth_error qs k = Some q -> lookup s'' q <> None)
  /\ (forall n, List.length vec < n -> del_arr arr n s' = UB).
Proof. exact vec_to_arr_full. Qed.
Print Assumptions C79_vec_to_arr.
Example C79_case :
  match vec_to_arr [ch "ab"; ch ""] [(3, Ptrs [])] with
  | Ok (s', arr) => map (fun e => fst e) s' = [6; 4; 5; 3] /\ lookup s' 5 = Some (Chars [Some "a"%char; Some "b"%char; Some zero])
      /\ del_arr arr 2 s' = Ok [(3, Ptrs [])] /\ del_arr arr 3 s' = UB
  | _ => False
  end.
Proof. vm_compute. auto. Qed.
