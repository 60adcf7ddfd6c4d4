(** Properties C157-C158: how reading an and-inverter graph ends (src/parsing/aig_parser.cpp), and how the programs that read
    several files end (experiments/minimization/{bucket,nsga2}, experiments/util/benchmark_util.cpp). *)
From Coq Require Import Ascii String List Bool Arith NArith ZArith QArith Lia.
From Verif Require Import Res Cudd Spec Helpers Parsing SpecParsing SpecMinimize Minimize Benchmark SpecBenchmark Genetic SpecGenetic MinimizeMains SpecMains
  MainsCases SpecReading ReadingFacts ReadingFacts2.
Import ListNotations.
Open Scope list_scope.
Open Scope nat_scope.

(** C157: the outcome of reading a file with any content. The reader stops at the first line it does not accept, or at an output that has not been declared *)
Theorem C157_reading : forall (M : mgr) (m i o : N) (evs : list aig_event), (m < 2 ^ 62)%N ->
  (forall index l r, In (And index l r) evs -> (index < 2 ^ 31)%N) ->
  (forall e, fails e (aig_file M m i o evs) <-> reading_fails e m i o evs)
  /\ ((exists outs, aig_file M m i o evs = Ok outs)
      <-> accepts_all m i o evs /\ forall j lit, (j < o)%N -> output_literal evs j lit -> declared evs lit).
Proof. exact file_outcome. Qed.
Print Assumptions C157_reading.
Example C157_case :
  aig_file (id_mgr 2) 5 2 1 [Input 0 2; And 3 2 4; Unsupported] = Throw (* operand 4 is not declared *)
  /\ aig_file (id_mgr 2) 5 2 1 [Input 0 2; And 6 2 4] = UB (* gate m + 1 *)
  /\ aig_file (id_mgr 2) 5 2 1 [Input 0 2; And 1 2 2] = Abort (* literal 2 has a value *)
  /\ aig_file (id_mgr 2) 5 2 1 [Input 0 2; OutputName 1 []; Input 7 2] = UB
  /\ aig_file (id_mgr 2) 5 2 1 [Input 0 2; Output 0 11] = Throw
  /\ reading_fails Exception 5 2 1 [Input 0 2; And 3 2 4; Unsupported]
  /\ reading_fails Exception 5 2 1 [Input 0 2; Output 0 11].
Proof.
  repeat (split; [vm_compute; reflexivity|]).
  assert (A1 : accepts_all 5 2 1 [Input 0 2]).
  { intros [|x [|y pre]] line post E; [injection E as <- _; cbn; lia|discriminate E|discriminate E]. }
  assert (D : forall evs lit, (2 <= lit)%N -> ~ In lit (flat_map (fun e => match e with Input _ l => [l] | And k _ _ => [2 * k]%N | _ => [] end) evs) -> ~ defined evs lit).
  { intros evs lit L H [->|[->|[(k & I)|(k & l & r & I & ->)]]]; try lia; apply H; apply in_flat_map; eexists; (split; [exact I|]); left; reflexivity. }
  split.
  - left. exists [Input 0 2], (And 3 2 4), [Unsupported]. split; [reflexivity|]. split; [exact A1|]. right. right. right.
    split; [reflexivity|]. split; [lia|]. split; [apply D; [lia|cbn; lia]|]. intros [_ [H|[H _]]]; [|discriminate H]. revert H. apply D; [lia|cbn; lia].
  - right. split; [reflexivity|]. split.
    + intros [|x [|y [|z pre]]] line post E; try discriminate E; injection E; intros; subst; cbn; lia.
    + exists 0%N, 11%N. split; [lia|]. split; [left; exists [Input 0 2], []; split; [reflexivity|intros l []]|].
      intros [H|[_ H]]; revert H; apply D; cbn; lia.
Qed.

(** C158: a program ends at the first file that cannot be read, in the way the reading ends; the rows of the files before it have been printed *)
Theorem C158_genetic : forall (draws : nat -> Z) (evolve : nat -> nat -> list individuum -> list individuum) (files : aiger_files)
    (managers : string -> mgr) (table : list (string * string))
    (main : (nat -> Z) -> (nat -> nat -> list individuum -> list individuum) -> nat -> aiger_files -> (string -> mgr) -> list genetic_row * option (res unit)),
  keeps_lengths evolve ->
  In (main, table) [(nsga2_minimize_iscas, genetic_iscas_table); (nsga2_minimize_epfl, epfl_table)] ->
  forall (pre : list (string * string)) (name path : string) (rest : list (string * string)) (m i o : N) (evs : list aig_event) (b : bool) (e : failure),
  table = (pre ++ (name, path) :: rest)%list ->
  (forall name path, In (name, path) pre -> exists i o evs, holds files path i o evs /\ varying o evs /\ small_circuit (managers path) o evs) ->
  files path = Some (m, i, o, evs, b) -> (m < 2 ^ 62)%N -> (forall index l r, In (And index l r) evs -> (index < 2 ^ 31)%N) ->
  reading_fails e m i o evs ->
  exists limit, forall fuel, limit <= fuel -> exists rows outcome,
    main draws evolve fuel files managers = (rows, Some outcome) /\ List.length rows = List.length pre /\ fails e outcome.
Proof. exact nsga2_stop. Qed.
Print Assumptions C158_genetic.
Theorem C158_bucket : forall (files : aiger_files) (managers : string -> mgr) (table : list (string * string))
    (main : nat -> aiger_files -> (string -> mgr) -> list file_row * option (res unit)),
  In (main, table) [(minimize_iscas, bucket_iscas_table); (minimize_epfl, epfl_table)] ->
  forall (pre : list (string * string)) (name path : string) (rest : list (string * string)) (m i o : N) (evs : list aig_event) (e : failure),
  table = (pre ++ (name, path) :: rest)%list ->
  (forall name path, In (name, path) pre -> exists i o evs, holds_complete files path i o evs) ->
  files path = Some (m, i, o, evs, true) -> (m < 2 ^ 62)%N -> (forall index l r, In (And index l r) evs -> (index < 2 ^ 31)%N) ->
  reading_fails e m i o evs ->
  exists limit, forall fuel, limit <= fuel -> exists rows outcome,
    main fuel files managers = (rows, Some outcome) /\ List.length rows = List.length pre /\ fails e outcome.
Proof. exact minimize_stop. Qed.
Print Assumptions C158_bucket.
Theorem C158_loaders : forall (files : aiger_files) (M : mgr) (id : nat) (path : string) (m i o : N) (evs : list aig_event) (e : failure),
  (m < 2 ^ 62)%N -> (forall index l r, In (And index l r) evs -> (index < 2 ^ 31)%N) -> reading_fails e m i o evs ->
  (epfl_filepath_by_id id = Ok path -> forall b, files path = Some (m, i, o, evs, b) -> fails e (load_epfl_benchmark_file files M id))
  /\ (iscas_85_filepath_by_id id = Ok path -> files path = Some (m, i, o, evs, true) -> fails e (load_iscas_85_file files M id)).
Proof. exact loaders_fail. Qed.
Print Assumptions C158_loaders.
(** log2.aig is a correct file, the next one of the EPFL files has a name for an output too many *)
Definition c158_files : aiger_files := fun p =>
  if String.eqb p "./epfl/log2.aig" then Some (11, 6, 2, and6, true)%N
  else if String.eqb p "./epfl/adder.aig" then Some (11, 6, 2, [OutputName 2 []], true)%N else None.
Example C158_case : nth_error epfl_table 0 = Some ("log2.aig", "./epfl/log2.aig")%string
  /\ nth_error epfl_table 1 = Some ("adder.aig", "./epfl/adder.aig")%string
  /\ holds_complete c158_files "./epfl/log2.aig" 6 2 and6
  /\ reading_fails Undefined 11 6 2 [OutputName 2 []]
  /\ minimize_epfl 81 c158_files (fun _ => id_mgr 6) = ([FileRow "log2.aig" 8 2 (2048 # 131072)], Some UB)
  /\ nsga2_minimize_epfl (fun k => (Z.of_nat k * Z.of_nat k + Z.of_nat k / 3)%Z) (fun _ _ pop => firstn 4 pop) 30 c158_files (fun _ => id_mgr 6)
     = ([GeneticRow "log2.aig" 8 (Result 2 (2048 # 131072) 0)], Some UB).
Proof.
  split; [reflexivity|]. split; [reflexivity|]. split; [exists 11%N; split; [reflexivity|exact and6_ok]|]. split.
  - left. exists [], (OutputName 2 []), []. split; [reflexivity|]. split; [intros [|? ?] ? ? E; discriminate E|left; auto].
  - vm_compute. split; reflexivity.
Qed.
