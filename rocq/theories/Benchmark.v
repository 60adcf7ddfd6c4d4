(** Model of /repo/experiments/util/benchmark_util.cpp and of the input and output helpers of
    /repo/src/minimization/minimization_helper.cpp and /repo/src/util/string_helpers.cpp.

    [double] is an exact rational as in Metrics.v; the searches get fuel and run out of it as [None]. *)
From Coq Require Import Ascii String List Bool Arith ZArith QArith DecimalString.
From Verif Require Import Res Cudd Helpers Counting Metrics RelMetrics Examples Parsing.
Import ListNotations.
Open Scope string_scope.
Open Scope nat_scope.

(** [std::to_string] of an unsigned and of a signed integer *)
Definition to_string (n : N) : string := NilEmpty.string_of_uint (N.to_uint n).
Definition to_string_int (z : Z) : string :=
  match z with Zneg p => "-" ++ to_string (Npos p) | _ => to_string (Z.to_N z) end.

(** ** benchmark_util.hpp 9-26 *)
Inductive Metric :=
| WORST_CASE_
| WORST_CASE_RELATIVE_APPROX
| WORST_CASE_RELATIVE_BINARY_SEARCH
| WORST_CASE_RELATIVE_RANDOMIZED
| WORST_CASE_RELATIVE_ADD
| WORST_CASE_RELATIVE_SYMBOLIC
| APPROXIMATE_WORST_CASE_5
| AVERAGE_CASE_
| AVERAGE_RELATIVE_APPROX
| AVERAGE_RELATIVE_ADD
| MEAN_SQUARED_
| ERROR_RATE_
| AVERAGE_BIT_FLIP_
| WORST_CASE_BIT_FLIP_.

(** benchmark_util.cpp 16-38 *)
Definition error_metric_name (metric : Metric) : string :=
  match metric with
  | WORST_CASE_ => "worst case"
  | WORST_CASE_RELATIVE_APPROX => "worst case relative"
  | WORST_CASE_RELATIVE_BINARY_SEARCH => "wcr binary search"
  | WORST_CASE_RELATIVE_RANDOMIZED => "wcr randomized"
  | WORST_CASE_RELATIVE_ADD => "wcr ADD"
  | WORST_CASE_RELATIVE_SYMBOLIC => "wcr symbolic"
  | AVERAGE_CASE_ => "average case"
  | MEAN_SQUARED_ => "mean squared"
  | ERROR_RATE_ => "error rate"
  | AVERAGE_BIT_FLIP_ => "average bit flip"
  | WORST_CASE_BIT_FLIP_ => "worst case bit flip"
  | APPROXIMATE_WORST_CASE_5 => "approximate worst case - 5 bit"
  | AVERAGE_RELATIVE_ADD => "acr add"
  | AVERAGE_RELATIVE_APPROX => "acr approx"
  end.

Definition fin (x : res Q) : res num := q <- x ;; Ok (Fin q).
Definition fin_z (x : res Z) : res num := z <- x ;; Ok (Fin (inject_Z z)).
(** [(bounds.first + bounds.second) / 2.0] *)
Definition middle (x y : num) : num := nscale (nplus x y) 2.

(** benchmark_util.cpp 40-84 with the default arguments of worst_case_relative_error.hpp 84-132
    (16 extra bits, precision 0.0001, one sample, unsigned numbers). [clog2], [rand_max] and
    [draws] as in RelMetrics.v. The last two cases pass the approximation first (lines 77, 79). *)
Definition compute_error_metric (M : mgr) (clog2 : Z -> nat) (rand_max : Z) (draws : nat -> Z)
    (original approx : list bdd) (metric : Metric) (fuel : nat) : option (res num) :=
  match metric with
  | WORST_CASE_ => Some (fin_z (worst_case_error M original approx BaseTwo))
  | WORST_CASE_RELATIVE_APPROX =>
      Some ('(lo, hi) <- wcre_bounds M original approx BaseTwo ;; Ok (middle (Fin lo) (Fin hi)))
  | WORST_CASE_RELATIVE_BINARY_SEARCH =>
      option_map fin (wcre_search M clog2 original approx 16 (1 # 10000) BaseTwo fuel)
  | WORST_CASE_RELATIVE_RANDOMIZED =>
      option_map (fun r => '(first, second) <- r ;; Ok (fdiv (inject_Z first) (inject_Z second)))
        (wcre_randomized_search M clog2 rand_max draws original approx 1 BaseTwo fuel)
  | WORST_CASE_RELATIVE_ADD => Some (fin (wcre_add M original approx BaseTwo))
  | WORST_CASE_RELATIVE_SYMBOLIC => Some (fin (wcre_symbolic_division M original approx 16 BaseTwo))
  | AVERAGE_CASE_ => Some (average_case_error M original approx BaseTwo)
  | MEAN_SQUARED_ => Some (mean_squared_error M original approx BaseTwo)
  | ERROR_RATE_ => Some (fin (error_rate M original approx))
  | AVERAGE_BIT_FLIP_ => Some (fin (average_bit_flip_error M original approx))
  | WORST_CASE_BIT_FLIP_ => Some (fin_z (worst_case_bit_flip_error M original approx))
  | APPROXIMATE_WORST_CASE_5 => Some (fin_z (approximate_worst_case_error M original approx 5 BaseTwo))
  | AVERAGE_RELATIVE_ADD => Some (acre_add M approx original BaseTwo)
  | AVERAGE_RELATIVE_APPROX =>
      Some ('(lo, hi) <- acre_bounds M approx original BaseTwo ;; Ok (middle lo hi))
  end.

(** benchmark_util.cpp 86-99, 101-104 and 124-137, 139-142; the argument is the underlying integer *)
Definition iscas_85_files : list string :=
  ["c17.aig"; "c432.aig"; "c499.aig"; "c880.aig"; "c1355.aig"; "c1908.aig"; "c2670.aig"; "c3540.aig";
   "c5315.aig"; "c6288.aig"; "c7552.aig"]%string.
Definition epfl_files : list string :=
  ["adder.aig"; "bar.aig"; "div.aig"; "hyp.aig"; "log2.aig"; "max.aig"; "multiplier.aig"; "sin.aig";
   "sqrt.aig"; "square.aig"]%string.
Definition by_id (files : list string) (file_id : nat) : res string :=
  if List.length files <=? file_id then Throw else vget files file_id.
Definition iscas_85_filepath_by_id (file_id : nat) : res string :=
  name <- by_id iscas_85_files file_id ;; Ok ("./iscas85/" ++ name).
Definition epfl_filepath_by_id (file_id : nat) : res string :=
  name <- by_id epfl_files file_id ;; Ok ("./epfl/" ++ name).

(** benchmark_util.hpp 112-118 *)
Inductive ApproximateAdder := ACA1 | ACA2 | GDA | GEAR.

(** benchmark_util.cpp 155-173 *)
Definition approximate_adder_name (adder : ApproximateAdder) (bits par1 par2 : N) : string :=
  match adder with
  | ACA1 => "ACA_1_N" ++ to_string bits ++ "_Q" ++ to_string par1
  | ACA2 => "ACA_2_N" ++ to_string bits ++ "_Q" ++ to_string par1
  | GDA => "GDA_St_N" ++ to_string bits ++ "_M" ++ to_string par1 ++ "_P" ++ to_string par2
  | GEAR => "GeAr_N" ++ to_string bits ++ "_R" ++ to_string par1 ++ "_P" ++ to_string par2
  end.

(** benchmark_util.cpp 175-189 *)
Definition get_approximate_adder (M : mgr) (adder : ApproximateAdder) (bits par1 par2 : nat) : res (list bdd) :=
  match adder with
  | ACA1 => almost_correct_adder_1 M bits par1
  | ACA2 => almost_correct_adder_2 M bits par1
  | GDA => gracefully_degrading_adder M bits par1 par2
  | GEAR => generic_accuracy_reconfigurable_adder M bits par1 par2
  end.

(** ** minimization_helper.cpp *)
(** lines 11-15; the manager is created with [2 * bits + 1] variables (unsigned) *)
Definition load_adder (bits : nat) : res (mgr * list bdd) :=
  let M := id_mgr (Z.to_nat (u32 (2 * Z.of_nat bits + 1))) in
  r <- regular_adder M bits ;; Ok (M, r).

(** lines 17-37. The file system: the callbacks lorina makes for a file it can parse. [M] is the
    manager after reading (40 variables at first; reordering may have changed the order). *)
Definition file_system := string -> option (N * N * N * list aig_event).
Definition load_file (files : file_system) (M : mgr) (file : string) : res (mgr * list bdd) :=
  match files file with
  | None => Throw
  | Some (m, i, o, evs) => r <- aig_file M m i o evs ;; Ok (M, r)
  end.

(** lines 39-57 *)
Definition load_input (files : file_system) (M : mgr) (input : string) : res (mgr * list bdd) :=
  if String.eqb input "adder8" then load_adder 8
  else if String.eqb input "adder16" then load_adder 16
  else if String.eqb input "adder32" then load_adder 32
  else load_file files M input.

(** lines 107-121: casting a double outside the range of [int] is undefined *)
Definition to_int (q : Q) : res Z :=
  let z := Z.quot (Qnum q) (Zpos (Qden q)) in
  if (- 2 ^ 31 <=? z)%Z && (z <? 2 ^ 31)%Z then Ok z else UB.
Definition qlt (p q : Q) : bool := negb (Qle_bool q p).
Definition format_time (milliseconds : num) : res string :=
  match milliseconds with
  | NonFin => UB
  | Fin ms =>
      if qlt ms 1000 then z <- to_int ms ;; Ok (to_string_int z ++ " ms")
      else if qlt ms 300000 then z <- to_int (ms / 1000) ;; Ok (to_string_int z ++ " s")
      else z <- to_int (ms / 60000) ;; Ok (to_string_int z ++ " m")
  end.

(** ** string_helpers.cpp *)
(** The free store: allocated blocks by address; a block of characters or of pointers.
    Characters that were never written are [None]. *)
Inductive block := Chars (c : list (option ascii)) | Ptrs (p : list (option nat)).
Definition store := list (nat * block).
Definition lookup (s : store) (p : nat) : option block :=
  match find (fun e => Nat.eqb (fst e) p) s with Some e => Some (snd e) | None => None end.
Definition remove (s : store) (p : nat) : store := filter (fun e => negb (Nat.eqb (fst e) p)) s.
Definition put (s : store) (p : nat) (b : block) : store := (p, b) :: remove s p.
(** [new T[n]]: any address that is not in use; here the next free one *)
Definition fresh (s : store) : nat := S (list_max0 (map fst s)).
(** [delete[] p]: the block must be allocated *)
Definition delete (s : store) (p : nat) : res store :=
  match lookup s p with Some _ => Ok (remove s p) | None => UB end.

(** the characters before the first zero *)
Fixpoint c_str (s : list ascii) : list ascii :=
  match s with
  | [] => []
  | c :: s' => if Ascii.eqb c zero then [] else c :: c_str s'
  end.
(** [strncpy(dst, src, n)] into a block of [n] characters: the string, padded with zeros *)
Definition strncpy (src : list ascii) (n : nat) : list (option ascii) :=
  let l := firstn n (c_str src) in
  map Some (l ++ repeat zero (n - List.length l))%list.

(** lines 7-21 *)
Fixpoint vec_loop (vec : list (list ascii)) (i : nat) (arr : nat) (s : store) : res store :=
  match vec with
  | [] => Ok s
  | str :: vec' =>
      let n := List.length str + 1 in
      let p := fresh s in
      let s := put s p (Chars (repeat None n)) in
      match lookup s arr with
      | Some (Ptrs ps) =>
          ps <- vset ps i (Some p) ;;
          let s := put s arr (Ptrs ps) in
          vec_loop vec' (S i) arr (put s p (Chars (strncpy str n)))
      | _ => UB
      end
  end.
Definition vec_to_arr (vec : list (list ascii)) (s : store) : res (store * nat) :=
  let arr := fresh s in
  s <- vec_loop vec 0 arr (put s arr (Ptrs (repeat None (List.length vec)))) ;;
  Ok (s, arr).

(** lines 23-30 *)
Fixpoint del_loop (k i : nat) (arr : nat) (s : store) : res store :=
  match k with
  | O => Ok s
  | S k' =>
      match lookup s arr with
      | Some (Ptrs ps) =>
          p <- vget ps i ;;
          match p with
          | Some p => s <- delete s p ;; del_loop k' (S i) arr s
          | None => UB
          end
      | _ => UB
      end
  end.
Definition del_arr (arr n : nat) (s : store) : res store :=
  s <- del_loop n 0 arr s ;;
  match lookup s arr with Some (Ptrs _) => delete s arr | _ => UB end.
