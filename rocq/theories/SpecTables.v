(** The cells of the tables printed by the programs *)
From Coq Require Import Ascii String List Bool Arith ZArith QArith.
From Verif Require Import Res Metrics Benchmark SpecBenchmark Genetic MinimizeMains SpecPrinting.
Import ListNotations.
Open Scope string_scope.

Definition shows_size (s : string) (n : nat) : Prop := decimal s (Z.of_nat n).
(** a text of [format_time] for some time that is not negative *)
Definition printed_time (s : string) : Prop := exists ms, (0 <= ms)%Q /\ format_time (Fin ms) = Ok s.

Definition bucket_file_cells (row : file_row) (time : string) (cells : list string) : Prop :=
  exists a b c, cells = [f_name row; a; b; c; time]
  /\ shows_size a (f_original row) /\ shows_size b (f_smallest row) /\ shows c (f_rate row).
Definition genetic_file_cells (row : genetic_row) (time : string) (cells : list string) : Prop :=
  exists a b c, cells = [g_name row; a; b; c; time]
  /\ shows_size a (g_original row) /\ decimal b (node_count (g_result row)) /\ shows c (error_rate_ (g_result row)).
Definition genetic_adder_cells (row : genetic_row) (time : string) (cells : list string) : Prop :=
  exists a b c d, cells = [g_name row; a; b; c; d; time]
  /\ shows_size a (g_original row) /\ decimal b (node_count (g_result row)) /\ shows c (error_rate_ (g_result row))
  /\ shows d (average_case_error_ (g_result row)).
Definition bucket_adder_cells (row : adder_row) (time : string) (cells : list string) : Prop :=
  exists a b c d, cells = [a; b; c; d; time]
  /\ shows_size a (a_original row) /\ shows_size b (fst (fst (a_smallest row))) /\ shows c (snd (fst (a_smallest row))) /\ shows d (snd (a_smallest row)).
Definition bucket_cells (b : list Z * option (nat * Q * Q)) (cells : list string) : Prop :=
  exists idxs cells', cells = (idxs ++ cells')%list /\ Forall2 decimal idxs (fst b)
  /\ match snd b with
     | None => cells' = ["NaN"; "NaN"; "NaN"]
     | Some (size, er, ace) => exists s e a, cells' = [s; e; a] /\ shows_size s size /\ shows e er /\ shows a ace
     end.
(** every row of the table belongs to the row of the result with the same number *)
Definition rows_show {A} (cells_of : A -> string -> list string -> Prop) (times : nat -> string) (rows : list A) (cells : list (list string)) : Prop :=
  List.length cells = List.length rows
  /\ forall k row, nth_error rows k = Some row -> exists c, nth_error cells k = Some c /\ cells_of row (times k) c.
