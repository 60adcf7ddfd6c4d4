(** Property C165: the text printed by the programs *)
From Coq Require Import Ascii String List Bool Arith NArith ZArith QArith.
From Verif Require Import Res Cudd Spec Float Metrics Benchmark SpecBenchmark Genetic SpecGenetic Experiments MinimizeMains SpecMains Printing SpecPrinting SpecTables MainText
  TextFacts TextFacts2 TextFacts3 MainsFacts2 MainsCases.
Import ListNotations.
Open Scope nat_scope.
Open Scope string_scope.

(** C165: the text of minimize_iscas and minimize_epfl is a table with the given columns and the rows of C117 *)
Theorem C165_bucket_circuits : forall (main : nat -> aiger_files -> (string -> mgr) -> list file_row * option (res unit))
    (text : nat -> aiger_files -> (string -> mgr) -> (nat -> string) -> string),
  In (main, text) [(minimize_iscas, minimize_iscas_text); (minimize_epfl, minimize_epfl_text)] ->
  forall (fuel : nat) (files : aiger_files) (managers : string -> mgr) (times : nat -> string), (forall k, printed_time (times k)) ->
  exists body, table "," (text fuel files managers times)
    = Some (["Function name"; "original size"; "smallest size found"; "corresponding error rate"; "runtime"] :: body)
  /\ rows_show bucket_file_cells times (fst (main fuel files managers)) body.
Proof. exact bucket_circuits_text. Qed.
Print Assumptions C165_bucket_circuits.
(** the two tables of minimize_adders, with the row of C117 *)
Theorem C165_bucket_adders : forall (fuel : nat) (files : aiger_files) (managers : string -> mgr) (times : nat -> string),
  400 * 116 + 1 <= fuel -> (forall k, printed_time (times k)) ->
  exists row cells buckets, minimize_adders fuel files managers = ([row], Some (Ok tt)) /\ bucket_adder_row 8 116 7 row
  /\ table ";" (minimize_adders_text fuel files managers times)
     = Some (["size f"; "size fhat"; "error rate"; "average case error"; "runtime"] :: cells :: [""] :: ["Buckets:"] :: buckets ++ [[""]])%list
  /\ bucket_adder_cells row (times 0) cells /\ Forall2 bucket_cells (a_buckets row) buckets.
Proof. exact bucket_adders_text. Qed.
Print Assumptions C165_bucket_adders.
(** the tables of the genetic minimisation, with the rows of C115 *)
Theorem C165_genetic_circuits : forall
    (main : (nat -> Z) -> (nat -> nat -> list individuum -> list individuum) -> nat -> aiger_files -> (string -> mgr) -> list genetic_row * option (res unit))
    (text : (nat -> Z) -> (nat -> nat -> list individuum -> list individuum) -> nat -> aiger_files -> (string -> mgr) -> (nat -> string) -> string),
  In (main, text) [(nsga2_minimize_iscas, nsga2_minimize_iscas_text); (nsga2_minimize_epfl, nsga2_minimize_epfl_text)] ->
  forall draws evolve fuel files managers (times : nat -> string), (forall k, printed_time (times k)) ->
  exists body, table "," (text draws evolve fuel files managers times) = Some (["File"; "Orig. Size"; "Approx. Size"; "ER"; "Time"] :: body)
  /\ rows_show genetic_file_cells times (fst (main draws evolve fuel files managers)) body.
Proof. exact genetic_circuits_text. Qed.
Print Assumptions C165_genetic_circuits.
Theorem C165_genetic_adders : forall draws evolve fuel (times : nat -> string), (forall k, printed_time (times k)) ->
  exists body, table "," (nsga2_minimize_adders_text draws evolve fuel times) = Some (["Bits"; "Orig. Size"; "Approx. Size"; "ER"; "ACR"; "Time"] :: body)
  /\ rows_show genetic_adder_cells times (fst (nsga2_minimize_adders draws evolve fuel)) body.
Proof. exact genetic_adders_text. Qed.
Print Assumptions C165_genetic_adders.
(** a printed error rate is at most 0.05, although the limit is the double above it *)
Theorem C165_bucket_limit : forall managers name path i o evs row (s : string) (r : Q),
  bucket_file_row managers name path i o evs row -> shows s (f_rate row) -> reads_as s r -> (r <= 1 # 20)%Q.
Proof. exact bucket_limit. Qed.
Print Assumptions C165_bucket_limit.
Theorem C165_genetic_limit : forall M n f max_ace both evolve start r (s : string) (x : Q), Forall (wf M) f -> below n f ->
  reports M n f limit_005 max_ace both evolve start r -> shows s (error_rate_ r) -> reads_as s x -> (x <= 1 # 20)%Q.
Proof. exact genetic_limit. Qed.
Print Assumptions C165_genetic_limit.
(** er_ace_adder_comparison always prints the same text *)
Theorem C165_adder_comparison : forall managers : nat -> mgr, exists text, er_ace_adder_comparison managers = Ok text
  /\ split_at newline text
     = ["GeAr_N16_R6_P4;0.0307617;31.5;1024"; "GeAr_N16_R4_P4;0.0585938;127.5;4096"; "GeAr_N16_R4_P8;0.00183105;7.5;4096";
        "GeAr_N16_R2_P4;0.11554;511.5;16640"; "0.125"; ""].
Proof. exact er_ace_text. Qed.
Print Assumptions C165_adder_comparison.
Example C165_case : let files := fun p => if String.eqb p "./epfl/log2.aig" then Some (11, 6, 2, and6, true)%N else None in
  minimize_epfl_text 81 files (fun _ => id_mgr 6) (fun _ => "12 ms")
  = "Function name, original size, smallest size found, corresponding error rate, runtime" ++ end_line ++ "log2.aig, 8, 2, 0.015625, 12 ms" ++ end_line
  /\ printed_time "12 ms"
  /\ table "," (minimize_epfl_text 81 files (fun _ => id_mgr 6) (fun _ => "12 ms"))
     = Some [["Function name"; "original size"; "smallest size found"; "corresponding error rate"; "runtime"]; ["log2.aig"; "8"; "2"; "0.015625"; "12 ms"]].
Proof.
  cbn zeta. split; [vm_compute; reflexivity|]. split; [exists 12%Q; split; [discriminate|vm_compute; reflexivity]|vm_compute; reflexivity].
Qed.
