(** The text printed by the programs of /repo/experiments/minimization and
    /repo/experiments/misc/er_ace_adder_comparison.cpp. [times k] is the result of [format_time] for the
    k-th run. *)
From Coq Require Import Ascii String List Bool Arith ZArith QArith.
From Verif Require Import Res Cudd Metrics Genetic Benchmark Experiments MinimizeMains Printing.
Import ListNotations.
Open Scope string_scope.

Definition put_size (n : nat) : string := to_string (N.of_nat n).
Definition put_size_t (n : Z) : string := to_string (Z.to_N n).
Definition end_line : string := String "010" "".

(** the lines of the rows [k], [k + 1], ... *)
Fixpoint put_rows {A} (line : A -> string -> string) (times : nat -> string) (k : nat) (rows : list A) : string :=
  match rows with
  | [] => ""
  | row :: rows' => line row (times k) ++ put_rows line times (S k) rows'
  end.

(** minimize_iscas.cpp 13-15, 32-34; minimize_epfl.cpp 13-15, 32-34 *)
Definition bucket_file_header : string :=
  "Function name, original size, smallest size found, corresponding error rate, runtime" ++ end_line.
Definition bucket_file_line (row : file_row) (time : string) : string :=
  f_name row ++ ", " ++ put_size (f_original row) ++ ", " ++ put_size (f_smallest row) ++ ", "
  ++ put_double (f_rate row) ++ ", " ++ time ++ end_line.

(** nsga2_minimize_iscas.cpp 14, 32-34; nsga2_minimize_epfl.cpp 17, 34-36 *)
Definition genetic_file_header : string := "File, Orig. Size, Approx. Size, ER, Time" ++ end_line.
Definition genetic_file_line (row : genetic_row) (time : string) : string :=
  g_name row ++ ", " ++ put_size (g_original row) ++ ", " ++ put_size_t (node_count (g_result row)) ++ ", "
  ++ put_double (error_rate_ (g_result row)) ++ ", " ++ time ++ end_line.
(** nsga2_minimize_adders.cpp 14, 24-26 *)
Definition genetic_adder_header : string := "Bits, Orig. Size, Approx. Size, ER, ACR, Time" ++ end_line.
Definition genetic_adder_line (row : genetic_row) (time : string) : string :=
  g_name row ++ ", " ++ put_size (g_original row) ++ ", " ++ put_size_t (node_count (g_result row)) ++ ", "
  ++ put_double (error_rate_ (g_result row)) ++ ", " ++ put_double (average_case_error_ (g_result row)) ++ ", " ++ time ++ end_line.

(** minimize_adders.cpp 12, 33-60 *)
Definition bucket_adder_header : string := "size f;size fhat;error rate;average case error;runtime" ++ end_line.
Definition put_indices (idxs : list Z) : string := String.concat "" (map (fun j => put_size_t j ++ ";") idxs).
Definition bucket_line (b : list Z * option (nat * Q * Q)) : string :=
  put_indices (fst b)
  ++ match snd b with
     | None => "NaN;NaN;NaN" ++ end_line
     | Some (size, er, ace) => put_size size ++ ";" ++ put_double er ++ ";" ++ put_double ace ++ end_line
     end.
Definition bucket_adder_text (row : adder_row) (time : string) : string :=
  let '(size, er, ace) := a_smallest row in
  put_size (a_original row) ++ ";" ++ put_size size ++ ";" ++ put_double er ++ ";" ++ put_double ace ++ ";" ++ time ++ end_line
  ++ end_line ++ "Buckets:" ++ end_line ++ String.concat "" (map bucket_line (a_buckets row)) ++ end_line.

(** the programs *)
Definition minimize_iscas_text fuel files managers times : string :=
  bucket_file_header ++ put_rows bucket_file_line times 0 (fst (minimize_iscas fuel files managers)).
Definition minimize_epfl_text fuel files managers times : string :=
  bucket_file_header ++ put_rows bucket_file_line times 0 (fst (minimize_epfl fuel files managers)).
Definition minimize_adders_text fuel files managers times : string :=
  bucket_adder_header ++ put_rows bucket_adder_text times 0 (fst (minimize_adders fuel files managers)).
Definition nsga2_minimize_iscas_text draws evolve fuel files managers times : string :=
  genetic_file_header ++ put_rows genetic_file_line times 0 (fst (nsga2_minimize_iscas draws evolve fuel files managers)).
Definition nsga2_minimize_epfl_text draws evolve fuel files managers times : string :=
  genetic_file_header ++ put_rows genetic_file_line times 0 (fst (nsga2_minimize_epfl draws evolve fuel files managers)).
Definition nsga2_minimize_adders_text draws evolve fuel times : string :=
  genetic_adder_header ++ put_rows genetic_adder_line times 0 (fst (nsga2_minimize_adders draws evolve fuel)).

(** ** er_ace_adder_comparison.cpp *)
Definition put_num (x : num) : string := match x with Fin q => put_double q | NonFin => "nan" end.
(** lines 10-25 *)
Definition adder_comparison_line (M : mgr) (adder : ApproximateAdder) (n_bits param1 param2 : nat) : res string :=
  '(name, er, ace, wc) <- generate_adders M adder n_bits param1 param2 ;;
  Ok (name ++ ";" ++ put_num er ++ ";" ++ put_num ace ++ ";" ++ put_num wc ++ end_line).
(** lines 27-57; [managers k] is the k-th manager, with [n_bits + 1] or three variables at first *)
Definition er_ace_adder_comparison (managers : nat -> mgr) : res string :=
  a <- adder_comparison_line (managers 0%nat) GEAR 16 6 4 ;;
  b <- adder_comparison_line (managers 1%nat) GEAR 16 4 4 ;;
  c <- adder_comparison_line (managers 2%nat) GEAR 16 4 8 ;;
  d <- adder_comparison_line (managers 3%nat) GEAR 16 2 4 ;;
  e <- small_example (managers 4%nat) ;;
  Ok (a ++ b ++ c ++ d ++ put_num e ++ end_line).
