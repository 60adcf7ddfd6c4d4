(** Continuation of Ieee.v: error_rate_efficient_sampling with doubles of limited range and [ReadSize() - 1] in
    [unsigned int], so that managers without variables and with very many variables are covered. [count] is
    [Cudd_CountMinterm] with its [int] number of variables; it may be any function. *)
From Coq Require Import List Bool Arith ZArith QArith.
From Verif Require Import Res Cudd Helpers Counting Metrics RelMetrics Ieee.
Import ListNotations.
Open Scope nat_scope.

(** [terminal_level - 1] in [unsigned int], and the same number as an [int] argument (error_rate.cpp 88-92) *)
Definition levels_minus_one (T : nat) : Z := (Z.of_nat T - 1) mod 2 ^ 32.
Definition as_int (z : Z) : Z := if (z <? 2 ^ 31)%Z then z else (z - 2 ^ 32)%Z.
(** error_rate.cpp 82-96 *)
Definition activations_d (count : bdd -> Z -> dbl) (difference : list bdd) (T : nat) : list (nat * dbl) :=
  map (fun p => (fst p, ddiv (count (snd p) (as_int (levels_minus_one T))) (dpow2 (levels_minus_one T))))
      (combine (seq 0 (length difference)) difference).
Definition random_sampler_d (rand_max : Z) (T : nat) : sampler :=
  fun f draws => random_satisfying_input_d rand_max f (count_minterms_d f) T draws.
(** error_rate.cpp 103-138 *)
Fixpoint efficient_loop_d (rand_max : Z) (draws : nat -> Z) (difference : list bdd) (T : nat) (samples : Z)
         (first maximum_rate : dbl) (rest : list (nat * dbl)) (previous : list bdd) (pos : nat) (actual_rate : dbl)
  : res dbl :=
  match rest with
  | [] => Ok actual_rate
  | (k, rate) :: rest' =>
      diff <- vget difference k ;;
      match ddiv (dmul (to_double (inject_Z samples)) rate) (dsub maximum_rate first) with
      | DInf _ | DNaN => UB (* conversion of an infinity or NaN to long *)
      | DFin q =>
          let index_samples := Z.quot (Qnum q) (Zpos (Qden q)) in
          _ <- require_ ((- 2 ^ 63 <=? index_samples)%Z && (index_samples <? 2 ^ 63)%Z) ;;
          if (index_samples =? 0)%Z
          then efficient_loop_d rand_max draws difference T samples first maximum_rate rest' (previous ++ [diff]) pos actual_rate
          else
            _ <- require_ (index_samples <? 2 ^ 31)%Z ;; (* the loop counter is an int *)
            good_samples <- good_loop (random_sampler_d rand_max T) draws diff previous T (Z.to_nat index_samples) pos 0 ;;
            let good_fraction := ddiv (to_double (inject_Z good_samples)) (to_double (inject_Z index_samples)) in
            efficient_loop_d rand_max draws difference T samples first maximum_rate rest' (previous ++ [diff])
              (pos + Z.to_nat index_samples * T) (dadd actual_rate (dmul rate good_fraction))
      end
  end.
(** error_rate.cpp 66-141; [std::min(1.0, x)] is [x < 1.0 ? x : 1.0] *)
Definition error_rate_efficient_sampling_d (count : bdd -> Z -> dbl) (M : mgr) (sort : list (nat * dbl) -> list (nat * dbl))
           (rand_max : Z) (draws : nat -> Z) (f f_hat : list bdd) (samples : Z) : res dbl :=
  difference <- differences M f f_hat ;;
  let T := read_size M in
  let unsorted := activations_d count difference T in
  let maximum_rate := fold_left (fun s p => dadd s (snd p)) unsorted (DFin 0) in
  match sort unsorted with
  | [] => UB (* activations[0] *)
  | (k, first) :: rest =>
      d0 <- vget difference k ;;
      actual_rate <- efficient_loop_d rand_max draws difference T samples first maximum_rate rest [d0] 0 first ;;
      Ok (if dgtb (DFin 1) actual_rate then actual_rate else DFin 1)
  end.
