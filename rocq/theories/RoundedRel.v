(** Fifth part of the model with rounding: the relative error metrics and the sampling functions. [rnd] rounds the
    result of every operation on doubles, [dec] that of every operation on cpp_dec_float_100. Conversions to
    cpp_dec_float_100 are exact: the integers are below 2^256 and have at most 78 digits, the doubles are powers of
    two and powers of two minus one below 2^256. *)
From Coq Require Import List Bool Arith ZArith QArith.
From Verif Require Import Res Cudd Helpers Counting Metrics RelMetrics Operators Rounded RoundedAdd RoundedMinimize.
Import ListNotations.
Open Scope nat_scope.

Section RoundedRel.
Variable rnd : Q -> Q.

(** ** random_satisfying_input *)
(** cudd_helpers.cpp 197-198; the integers are exact as doubles *)
Definition le_ratio_fl (d rand_max : Z) (then_weight else_weight : Q) : bool :=
  let sum := rnd (then_weight + else_weight)%Q in
  if Qeq_bool sum 0 then false
  else Qle_bool (rnd (inject_Z d / inject_Z rand_max)) (rnd (then_weight / sum)).
(** cudd_helpers.cpp 177-210 *)
Fixpoint rsi_loop_fl (rand_max : Z) (minterm_count : bmap Q) (max_level : nat) (n level : nat)
         (c : bool) (nd : node) (draws : list Z) : res (list Z) :=
  match n, draws with
  | O, _ => Ok []
  | S n', d :: draws' =>
      let nl := node_level nd max_level in
      if level <? nl then
        l <- rsi_loop_fl rand_max minterm_count max_level n' (S level) c nd draws' ;;
        Ok ((d mod 2)%Z :: l)
      else
        match nd with
        | One => Abort
        | Nd _ t c' e =>
            then_weight <- bmap_at minterm_count (c, t) ;;
            else_weight <- bmap_at minterm_count (xorb c c', e) ;;
            if le_ratio_fl d rand_max then_weight else_weight then
              l <- rsi_loop_fl rand_max minterm_count max_level n' (S level) c t draws' ;;
              Ok (1%Z :: l)
            else
              l <- rsi_loop_fl rand_max minterm_count max_level n' (S level) (xorb c c') e draws' ;;
              Ok (0%Z :: l)
        end
  | S _, [] => Abort
  end.
(** cudd_helpers.cpp 169-213 *)
Definition random_satisfying_input_fl (rand_max : Z) (f : bdd) (minterm_count : bmap Q)
           (max_level : nat) (draws : list Z) : res (list Z) :=
  rsi_loop_fl rand_max minterm_count max_level max_level 0 (fst f) (snd f) draws.
Definition random_sampler_fl (rand_max : Z) (T : nat) : sampler :=
  fun f draws => random_satisfying_input_fl rand_max f (count_minterms_fl rnd f) T draws.

(** worst_case_relative_error.cpp 42-146: doubles occur in the sampling only *)
Definition wcre_randomized_search_fl (M : mgr) (clog2 : Z -> nat) (rand_max : Z) (draws : nat -> Z)
           (f f_hat : list bdd) (samples : nat) (num_rep : NumberRepresentation) (fuel : nat)
  : option (res (Z * Z)) :=
  match rs_start M clog2 f f_hat num_rep with
  | Ok (inl p) => Some (Ok p)
  | Ok (inr (d, f_, last_greater, counter, denominator)) =>
      rs_loop M clog2 (random_sampler_fl rand_max (read_size M)) draws d f_ last_greater samples fuel 0 counter denominator
  | UB => Some UB
  | Throw => Some Throw
  | Abort => Some Abort
  end.

(** ** wcre_search *)
(** worst_case_relative_error.cpp 191-215. The powers of two before the loop are exact, and so are fmod and the
    product with a power of two in bdd_multiply_constant. *)
Fixpoint ws_bisect_fl (M : mgr) (clog2 : Z -> nat) (d f_ : list bdd) (precision : Q) (fuel : nat)
         (min max : Q) (last_greater : bdd) : option (res Q) :=
  if Qle_bool (rnd (max - min)) precision then Some (Ok (rnd (rnd (min + max) / 2)))%Q
  else
    match fuel with
    | O => None
    | S fuel' =>
        let middle := rnd (rnd (min + max) / 2)%Q in
        let reduced_f := mask M f_ last_greater in
        let reduced_absdiff := mask M d last_greater in
        match bdd_multiply_constant_double M clog2 reduced_f middle 16 with
        | Ok multiplied =>
            let ge := exists_greater_equals M reduced_absdiff multiplied in
            if snd ge then Some (Ok middle)
            else if fst ge then
              ws_bisect_fl M clog2 d f_ precision fuel' middle max (greater_than M reduced_absdiff multiplied)
            else ws_bisect_fl M clog2 d f_ precision fuel' min middle last_greater
        | UB => Some UB
        | Throw => Some Throw
        | Abort => Some Abort
        end
    end.
(** worst_case_relative_error.cpp 148-216 *)
Definition wcre_search_fl (M : mgr) (clog2 : Z -> nat) (f f_hat : list bdd) (num_extra_bits : nat)
           (precision : Q) (num_rep : NumberRepresentation) (fuel : nat) : option (res Q) :=
  match ws_start M clog2 f f_hat num_extra_bits num_rep with
  | Ok (inl q) => Some (Ok q)
  | Ok (inr (d, f_, min, max, last_greater)) => ws_bisect_fl M clog2 d f_ precision fuel min max last_greater
  | UB => Some UB
  | Throw => Some Throw
  | Abort => Some Abort
  end.

(** ** Sampling the error rate *)
(** error_rate.cpp 31-64 *)
Definition error_rate_sampling_fl (M : mgr) (draws : nat -> Z) (f f_hat : list bdd) (samples : Z) : res num :=
  difference <- differences M f f_hat ;;
  _ <- require_ (samples <? 2 ^ 31)%Z ;;
  error_samples <- sampling_loop difference draws (read_size M) (Z.to_nat samples) 0 0 ;;
  Ok (fdiv_fl rnd (inject_Z error_samples) (inject_Z samples)).
(** error_rate.cpp 85-94 *)
Definition activations_fl (difference : list bdd) (T : nat) : list (nat * Q) :=
  map (fun p => (fst p, rnd (CountMinterm_fl rnd (snd p) (T - 1) / inject_Z (pow2 (T - 1))))%Q)
      (combine (seq 0 (length difference)) difference).
(** error_rate.cpp 102-138; [samples] is exact as a double *)
Fixpoint efficient_loop_fl (rand_max : Z) (draws : nat -> Z) (difference : list bdd) (T : nat) (samples : Z)
         (first maximum_rate : Q) (rest : list (nat * Q)) (previous : list bdd) (pos : nat) (actual_rate : Q)
  : res Q :=
  match rest with
  | [] => Ok actual_rate
  | (k, rate) :: rest' =>
      diff <- vget difference k ;;
      match fdiv_fl rnd (rnd (inject_Z samples * rate)) (rnd (maximum_rate - first)) with
      | NonFin => UB
      | Fin q =>
          let index_samples := Z.quot (Qnum q) (Zpos (Qden q)) in
          _ <- require_ ((- 2 ^ 63 <=? index_samples)%Z && (index_samples <? 2 ^ 63)%Z) ;;
          if (index_samples =? 0)%Z
          then efficient_loop_fl rand_max draws difference T samples first maximum_rate rest' (previous ++ [diff]) pos actual_rate
          else
            _ <- require_ (index_samples <? 2 ^ 31)%Z ;;
            good_samples <- good_loop (random_sampler_fl rand_max T) draws diff previous T (Z.to_nat index_samples) pos 0 ;;
            let good_fraction := rnd (inject_Z good_samples / inject_Z index_samples)%Q in
            efficient_loop_fl rand_max draws difference T samples first maximum_rate rest' (previous ++ [diff])
              (pos + Z.to_nat index_samples * T) (rnd (actual_rate + rnd (rate * good_fraction)))%Q
      end
  end.
(** error_rate.cpp 66-141 *)
Definition error_rate_efficient_sampling_fl (M : mgr) (sort : list (nat * Q) -> list (nat * Q)) (rand_max : Z)
           (draws : nat -> Z) (f f_hat : list bdd) (samples : Z) : res Q :=
  difference <- differences M f f_hat ;;
  let T := read_size M in
  let unsorted := activations_fl difference T in
  let maximum_rate := fold_left (fun s p => rnd (s + snd p))%Q unsorted 0%Q in
  match sort unsorted with
  | [] => UB
  | (k, first) :: rest =>
      d0 <- vget difference k ;;
      actual_rate <- efficient_loop_fl rand_max draws difference T samples first maximum_rate rest [d0] 0 first ;;
      Ok (if Qle_bool 1 actual_rate then 1%Q else actual_rate)
  end.

(** ** Metrics in cpp_dec_float_100 *)
Section Decimal.
Variable dec : Q -> Q.
Definition nround (x : num) : num := match x with Fin q => Fin (dec q) | NonFin => NonFin end.

(** worst_case_relative_error.cpp 218-234 *)
Definition wcre_symbolic_division_fl (M : mgr) (f f_hat : list bdd) (num_extra_bits : nat)
           (num_rep : NumberRepresentation) : res Q :=
  d <- divided M f f_hat num_extra_bits num_rep ;;
  Ok (dec (inject_Z (get_max_value M d) / inject_Z (pow2 num_extra_bits)))%Q.
(** average_case_error.cpp 12-33 *)
Definition average_value_dec (f : list bdd) : num := nround (average_value_fl rnd f).
(** average_case_relative_error.cpp 80-98 *)
Definition acre_symbolic_division_fl (M : mgr) (f f_hat : list bdd) (num_extra_bits : nat)
           (num_rep : NumberRepresentation) : res num :=
  d <- divided M f f_hat num_extra_bits num_rep ;;
  Ok (nround (nscale (average_value_dec d) (inject_Z (pow2 num_extra_bits)))).

(** worst_case_relative_error.cpp 246-263 *)
Fixpoint wcre_bounds_loop_fl (M : mgr) (f l : list bdd) (zero_so_far : bdd) (min_error max_error : Q) : Q * Q :=
  match l with
  | [] => (min_error, max_error)
  | b :: l' =>
      let modifier := band M zero_so_far b in
      let max_val := inject_Z (get_max_value M (mask M f modifier)) in
      wcre_bounds_loop_fl M f l' (band M zero_so_far (bnot b))
        (qmax min_error (dec (max_val / pow_minus_one (length l' + 1))))
        (qmax max_error (dec (max_val / inject_Z (pow2 (length l')))))
  end.
(** worst_case_relative_error.cpp 236-281 *)
Definition maximum_relative_value_bounds_fl (M : mgr) (f g : list bdd) : res (Q * Q) :=
  max_one <- bdd_max_one M g ;;
  Ok (wcre_bounds_loop_fl M f (rev max_one) bone 0 0).
Definition wcre_bounds_fl (M : mgr) (f f_hat : list bdd) (num_rep : NumberRepresentation) : res (Q * Q) :=
  absolute_difference <- bdd_absolute_difference M f f_hat num_rep ;;
  f_abs <- bdd_abs M f num_rep ;;
  abs_max_one <- bdd_max_one M f_abs ;;
  maximum_relative_value_bounds_fl M absolute_difference abs_max_one.

(** average_case_relative_error.cpp 23-37 *)
Fixpoint acre_bounds_loop_fl (M : mgr) (f l : list bdd) (zero_so_far : bdd) (min_result max_result : num) : num * num :=
  match l with
  | [] => (min_result, max_result)
  | b :: l' =>
      let modifier := band M zero_so_far b in
      let average := average_value_dec (mask M f modifier) in
      acre_bounds_loop_fl M f l' (band M zero_so_far (bnot b))
        (nround (nplus min_result (nround (nscale average (pow_minus_one (length l' + 1))))))
        (nround (nplus max_result (nround (nscale average (inject_Z (pow2 (length l')))))))
  end.
(** average_case_relative_error.cpp 12-52 *)
Definition average_relative_value_fl (M : mgr) (f g : list bdd) : res (num * num) :=
  max_one <- bdd_max_one M g ;;
  Ok (acre_bounds_loop_fl M f (rev max_one) bone (Fin 0) (Fin 0)).
Definition acre_bounds_fl (M : mgr) (f f_hat : list bdd) (num_rep : NumberRepresentation) : res (num * num) :=
  absolute_difference <- bdd_absolute_difference M f f_hat num_rep ;;
  f_absolute <- bdd_abs M f num_rep ;;
  average_relative_value_fl M absolute_difference f_absolute.
End Decimal.
End RoundedRel.
