(** Model of the output of /repo/experiments/testing.cpp and /repo/experiments/misc/improved_sampling.cpp. [addr] is the text
    printed for a pointer, [opens] tells which files can be opened for writing. *)
From Coq Require Import Ascii String List Bool Arith ZArith QArith.
From Verif Require Import Res Cudd Metrics RelMetrics Operators FromPapers Helpers Experiments Benchmark Printing MinimizeMains MainText DotText.
Import ListNotations.
Open Scope string_scope.

(** dump_dot.cpp 345-363: the file written, if it can be opened *)
Definition dump_dot_to_file (opens : string -> bool) (addr : bdd -> string) (bdds : list bdd) (filename : string) : res (list (string * string)) :=
  if opens filename then text <- dump_dot_text default_config addr bdds [] [] true None ;; Ok [(filename, text)] else Ok [].
(** testing.cpp 11-31: what goes to standard output, and the files. [bddVar(2)] adds a third variable to the manager *)
Definition testing (opens : string -> bool) (addr : bdd -> string) : res (string * list (string * string)) :=
  let mgr := id_mgr 3 in
  let f := running_example mgr in
  rounded_up <- testing_rounded mgr ;;
  file1 <- dump_dot_to_file opens addr rounded_up "rounded.dot" ;;
  out1 <- dump_dot_text default_config addr rounded_up [] [] true None ;;
  file2 <- dump_dot_to_file opens addr f "running.dot" ;;
  out2 <- dump_dot_text default_config addr f [] [] true None ;;
  Ok (out1 ++ out2, (file1 ++ file2)%list).

(** improved_sampling.cpp 34-37. [draws1] and [draws2] are what rand() returns during the two calls *)
Definition improved_sampling_row (M : mgr) (sort : list (nat * Q) -> list (nat * Q)) (rand_max : Z) (draws1 draws2 : nat -> Z)
    (original rounded : list bdd) (n : Z) : res string :=
  naive_sampling <- error_rate_sampling M draws1 original rounded n ;;
  improved_sampling <- error_rate_efficient_sampling M sort rand_max draws2 original rounded n ;;
  Ok (put_size_t n ++ ";" ++ put_num naive_sampling ++ ";" ++ put_double improved_sampling ++ end_line).
(** improved_sampling.cpp 17-38, with the functions of the file C880 as [original]; the first level is 52 and the last one 10000000.
    [draws k] is what rand() returns during the k-th call of a sampling function *)
Definition improved_sampling_text (M : mgr) (sort : list (nat * Q) -> list (nat * Q)) (rand_max : Z) (draws : nat -> nat -> Z)
    (first last : nat) (original : list bdd) : res string :=
  rounded <- mapM (fun orig => subset_light_child M orig first last) original ;;
  rate <- error_rate M original rounded ;;
  rows <- mapM (fun k => improved_sampling_row M sort rand_max (draws (2 * k)%nat) (draws (2 * k + 1)%nat) original rounded (Z.of_nat (100 * (k + 1))%nat))
               (seq 0 200) ;;
  Ok ("Read file: " ++ put_size (List.length original) ++ " outputs" ++ end_line ++ "Approximated the function" ++ end_line
      ++ "error rate: " ++ put_double rate ++ end_line ++ String.concat "" rows).
(** the program; the file is number 3 of the enumeration *)
Definition improved_sampling_main (files : aiger_files) (M : mgr) (sort : list (nat * Q) -> list (nat * Q)) (rand_max : Z) (draws : nat -> nat -> Z)
    (first last : nat) : res string :=
  original <- load_iscas_85_file files M 3 ;; improved_sampling_text M sort rand_max draws first last original.
