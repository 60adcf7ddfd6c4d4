(** Properties C114-C117: the size of the adders and the minimisation experiments (experiments/minimization,
    experiments/util/benchmark_util.cpp). *)
From Coq Require Import String List Bool Arith NArith ZArith QArith Lia.
From Verif Require Import Res Cudd Spec Float SpecFloat Helpers Examples AdderSize Parsing SpecParsing Benchmark SpecBenchmark Genetic SpecGenetic
  Minimize MinimizeMains SpecMains MainsFacts MainsFacts2 MainsCases.
Import ListNotations.
Open Scope nat_scope.

(** C114: the size of the exact adder *)
Theorem C114_adder_size : forall (M : mgr) (N : nat) (r : list bdd), index_order M -> 0 < N -> regular_adder M N = Ok r ->
  2 * nodeCount r = N * (3 * N + 5).
Proof. exact regular_size. Qed.
Print Assumptions C114_adder_size.
(** and of every vector that computes the sum *)
Theorem C114_sum_size : forall (M : mgr) (N : nat) (r : list bdd), index_order M -> 0 < N -> Forall (wf M) r ->
  List.length r = N + 1 -> (forall a, uval r a = (number N (op1 a) + number N (op2 a))%Z) ->
  2 * nodeCount r = N * (3 * N + 5).
Proof. exact sum_size. Qed.
Print Assumptions C114_sum_size.
Example C114_case : map (fun N => match regular_adder (id_mgr (2 * N)) N with Ok r => nodeCount r | _ => 0 end) [1; 2; 3; 4] = [4; 11; 21; 34].
Proof. vm_compute. reflexivity. Qed.

(** C115: the tables of the genetic algorithm. The limit is the double closest to 5% *)
Theorem C115_limit : float_number 53 limit_005 /\ nearest_float 53 (1 # 20) limit_005.
Proof. exact limit_nearest. Qed.
Print Assumptions C115_limit.
Theorem C115_adders : forall (draws : nat -> Z) (evolve : nat -> nat -> list individuum -> list individuum), keeps_lengths evolve ->
  exists limit, forall fuel, limit <= fuel -> exists rows,
  nsga2_minimize_adders draws evolve fuel = (rows, Some (Ok tt)) /\ List.length rows = 3
  /\ forall k entry row, nth_error adder_table k = Some entry -> nth_error rows k = Some row -> genetic_adder_row evolve k entry row.
Proof. exact adders_ok. Qed.
Print Assumptions C115_adders.
(** what a row says about the function found *)
Theorem C115_row : forall (M : mgr) (n : nat) (f : list bdd) (max_er max_ace : Q) (both : bool)
    (evolve : nat -> list individuum -> list individuum) (start : list individuum) (r : MinimizationResult_),
  Forall (wf M) f -> below n f -> reports M n f max_er max_ace both evolve start r ->
  r = Result (2 ^ 64 - 1) 0 0
  \/ exists g, Forall (wf M) g /\ below n g /\ List.length g = List.length f /\ node_count r = Z.of_nat (nodeCount g) /\ nodeCount g < nodeCount f
     /\ (error_rate_ r == rate n f g)%Q /\ (error_rate_ r < max_er)%Q
     /\ (both = true -> (average_case_error_ r == average_distance n f g)%Q /\ (average_case_error_ r < max_ace)%Q).
Proof. exact reports_acceptable. Qed.
Print Assumptions C115_row.
(** the circuits: a row for every file up to the first one that is missing or constant *)
Theorem C115_circuits : forall (draws : nat -> Z) (evolve : nat -> nat -> list individuum -> list individuum) (files : aiger_files)
    (managers : string -> mgr) (table : list (string * string))
    (main : (nat -> Z) -> (nat -> nat -> list individuum -> list individuum) -> nat -> aiger_files -> (string -> mgr) -> list genetic_row * option (res unit)),
  keeps_lengths evolve ->
  In (main, table) [(nsga2_minimize_iscas, genetic_iscas_table); (nsga2_minimize_epfl, epfl_table)] ->
  forall pre rest, table = (pre ++ rest)%list ->
  (forall name path, In (name, path) pre -> exists i o evs, holds files path i o evs /\ varying o evs /\ small_circuit (managers path) o evs) ->
  exists limit, forall fuel, limit <= fuel -> exists rows rows' outcome,
    main draws evolve fuel files managers = ((rows ++ rows')%list, outcome)
    /\ List.length rows = List.length pre
    /\ (forall k name path row, nth_error pre k = Some (name, path) -> nth_error rows k = Some row ->
          exists i o evs, holds files path i o evs /\ genetic_file_row managers evolve k name path i o evs row)
    /\ (rest = [] -> rows' = [] /\ outcome = Some (Ok tt))
    /\ (forall name path rest', rest = (name, path) :: rest' ->
          files path = None \/ (exists i o evs, holds files path i o evs /\ ~ varying o evs) -> rows' = [] /\ outcome = Some Throw).
Proof. exact nsga2_files. Qed.
Print Assumptions C115_circuits.
Definition one_file (path : string) : aiger_files := fun p => if String.eqb p path then Some (11, 6, 2, and6, true)%N else None.
Example C115_case : let files := one_file "./iscas85/c432.aig" in
  holds files "./iscas85/c432.aig" 6 2 and6 /\ varying 2 and6 /\ small_circuit (id_mgr 6) 2 and6
  /\ keeps_lengths (fun _ _ pop => firstn 4 pop)
  /\ nsga2_minimize_iscas (fun k => (Z.of_nat k * Z.of_nat k + Z.of_nat k / 3)%Z) (fun _ _ pop => firstn 4 pop) 30 files (fun _ => id_mgr 6)
     = ([GeneticRow "c432" 8 (Result 2 (2048 # 131072) 0)], Some Throw).
Proof.
  cbn zeta. split; [exists 11%N, true; split; [reflexivity|exact and6_ok]|]. split; [exact and6_varying|]. split; [exact and6_small|].
  split; [intros k i len pop H; apply Forall_forall; intros d I; rewrite Forall_forall in H; apply H; rewrite <- (firstn_skipn 4 pop); apply in_or_app; left; exact I|]. vm_compute. reflexivity.
Qed.

(** C116: a file that cannot be read is an error. Wrong: the loader of the EPFL benchmark ignores the return code *)
Theorem C116_epfl_loader_refuted : exists (files : aiger_files) (id id' : nat) (path path' : string),
  epfl_filepath_by_id id = Ok path /\ files path = None
  /\ epfl_filepath_by_id id' = Ok path' /\ files path' = Some (11, 6, 2, [], false)%N
  /\ forall M, load_epfl_benchmark_file files M id = Ok [] /\ load_epfl_benchmark_file files M id' = Ok [bzero; bzero].
Proof.
  exists (fun p => if String.eqb p "./epfl/sin.aig" then Some (11, 6, 2, [], false)%N else None), 0, 7, "./epfl/adder.aig"%string, "./epfl/sin.aig"%string.
  vm_compute. repeat split; reflexivity.
Qed.
Print Assumptions C116_epfl_loader_refuted.
(** what it does with files that are missing, end after the header, or are correct *)
Theorem C116_epfl_loader_partial : forall (files : aiger_files) (M : mgr) (id : nat) (path : string), epfl_filepath_by_id id = Ok path ->
  (files path = None -> load_epfl_benchmark_file files M id = Ok [])
  /\ (forall m i o, (m < 2 ^ 62)%N -> files path = Some (m, i, o, [], false) -> load_epfl_benchmark_file files M id = Ok (repeat bzero (N.to_nat o)))
  /\ (forall i o evs, holds files path i o evs ->
        exists f, load_epfl_benchmark_file files M id = Ok f /\ Forall (wf M) f /\ circuit o evs f /\ below (N.to_nat i) f).
Proof. exact epfl_cases. Qed.
Print Assumptions C116_epfl_loader_partial.
Theorem C116_iscas_loader : forall (files : aiger_files) (M : mgr) (id : nat) (path : string), iscas_85_filepath_by_id id = Ok path ->
  (forall f, load_iscas_85_file files M id = Ok f -> exists m i o evs, files path = Some (m, i, o, evs, true))
  /\ (files path = None -> load_iscas_85_file files M id = Throw)
  /\ (forall i o evs, holds_complete files path i o evs ->
        exists f, load_iscas_85_file files M id = Ok f /\ Forall (wf M) f /\ circuit o evs f /\ below (N.to_nat i) f).
Proof. exact iscas_loader. Qed.
Print Assumptions C116_iscas_loader.
Example C116_case : holds_complete (one_file "./iscas85/c17.aig") "./iscas85/c17.aig" 6 2 and6
  /\ match load_iscas_85_file (one_file "./iscas85/c17.aig") (id_mgr 6) 0 with
     | Ok f => map (fun b => map (ev b) [fun _ => true; fun v => v <? 5]) f = [[true; false]; [true; true]]
     | _ => False
     end
  /\ load_iscas_85_file (one_file "./iscas85/c17.aig") (id_mgr 6) 1 = Throw.
Proof. split; [exists 11%N; split; [reflexivity|exact and6_ok]|]. vm_compute. split; reflexivity. Qed.

(** C117: the tables of the bucket minimisation *)
Theorem C117_adder_rows : forall (files : aiger_files) (managers : string -> mgr) (bits size : nat) (max_ace : Q),
  In ("adder" ++ to_string (N.of_nat bits), bits)%string adder_names ->
  0 < bits -> 3 * bits + 1 < 256 -> (0 < max_ace)%Q -> (20 * inject_Z (2 ^ Z.of_nat (bits + 1)) / max_ace < inject_Z (2 ^ 64))%Q ->
  2 * size = bits * (3 * bits + 5) -> forall fuel, 400 * size + 1 <= fuel ->
  exists row, adder_row_of fuel files managers bits max_ace = Some (Ok row) /\ bucket_adder_row bits size max_ace row.
Proof. exact adder_row_ok. Qed.
Print Assumptions C117_adder_rows.
Theorem C117_adders : forall (files : aiger_files) (managers : string -> mgr) (fuel : nat), 400 * 116 + 1 <= fuel ->
  exists row, minimize_adders fuel files managers = ([row], Some (Ok tt)) /\ bucket_adder_row 8 116 7 row.
Proof. exact minimize_adders_ok. Qed.
Print Assumptions C117_adders.
Theorem C117_circuits : forall (files : aiger_files) (managers : string -> mgr) (table : list (string * string))
    (main : nat -> aiger_files -> (string -> mgr) -> list file_row * option (res unit)),
  In (main, table) [(minimize_iscas, bucket_iscas_table); (minimize_epfl, epfl_table)] ->
  forall pre rest, table = (pre ++ rest)%list ->
  (forall name path, In (name, path) pre -> exists i o evs, holds_complete files path i o evs) ->
  exists limit, forall fuel, limit <= fuel -> exists rows rows' outcome,
    main fuel files managers = ((rows ++ rows')%list, outcome)
    /\ List.length rows = List.length pre
    /\ (forall k name path row, nth_error pre k = Some (name, path) -> nth_error rows k = Some row ->
          exists i o evs, holds_complete files path i o evs /\ bucket_file_row managers name path i o evs row)
    /\ (rest = [] -> rows' = [] /\ outcome = Some (Ok tt))
    /\ (forall name path rest', rest = (name, path) :: rest' ->
          (forall m i o evs, files path <> Some (m, i, o, evs, true)) -> rows' = [] /\ outcome = Some Throw).
Proof. exact minimize_files. Qed.
Print Assumptions C117_circuits.
Example C117_case : holds_complete (one_file "./epfl/log2.aig") "./epfl/log2.aig" 6 2 and6
  /\ minimize_epfl 81 (one_file "./epfl/log2.aig") (fun _ => id_mgr 6) = ([FileRow "log2.aig" 8 2 (2048 # 131072)], Some Throw)
  /\ In ("adder" ++ to_string 16, 16)%string adder_names /\ (20 * inject_Z (2 ^ Z.of_nat (16 + 1)) / 35 < inject_Z (2 ^ 64))%Q.
Proof. split; [exists 11%N; split; [reflexivity|exact and6_ok]|]. split; [vm_compute; reflexivity|]. split; [right; left; reflexivity|vm_compute; reflexivity]. Qed.
