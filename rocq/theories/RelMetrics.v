(** Model of the relative error metrics (src/error_metrics/worst_case_relative_error.cpp,
    average_case_relative_error.cpp) and of the sampling functions of error_rate.cpp.

    [double], [float] and [cpp_dec_float_100] are exact rationals as in Metrics.v. rand() is a
    sequence [draws : nat -> Z]. Loops without a static bound take [fuel]: those that are shown
    to end within a computed number of iterations report running out of it as UB, the two
    others ([rs_loop], [ws_bisect]) return [None] while they are still running. *)
From Coq Require Import List Bool Arith ZArith QArith Qround Lia.
From Verif Require Import Res Cudd Helpers Counting Metrics.
Import ListNotations.
Open Scope nat_scope.

(** [std::max(a, b)], also the operator of [ADD::Maximum] *)
Definition qmax (p q : Q) : Q := if Qle_bool q p then p else q.
Definition amaximum (M : mgr) := apply M qmax.

(** the ADD |f - f_hat| / max(1, |f|): worst_case_relative_error.cpp 17-20 and
    average_case_relative_error.cpp 61-64 *)
Definition relative_add (M : mgr) (f f_hat : list bdd) (num_rep : NumberRepresentation) : res add :=
  diff <- absolute_difference_add M f f_hat num_rep ;;
  f_abs <- bdd_abs M f num_rep ;;
  d <- bdd_forest_to_add M f_abs BaseTwo ;;
  Ok (adiv M diff (amaximum M d (aconst 1))).

(** worst_case_relative_error.cpp 12-30 *)
Definition wcre_add (M : mgr) (f f_hat : list bdd) (num_rep : NumberRepresentation) : res Q :=
  respective_diff <- relative_add M f f_hat num_rep ;;
  terminal_values <- add_terminal_values respective_diff ;;
  Ok (fold_left (fun largest p => qmax largest (fst p)) terminal_values 0%Q).

(** ** wcre_randomized_search *)
(** worst_case_relative_error.cpp 32-40 *)
Definition has_greater_equal_both (M : mgr) (clog2 : Z -> nat) (f g : list bdd)
           (counter denominator : Z) : res (bool * bool) :=
  bdd_denom <- bdd_multiply_constant_u256 M clog2 f denominator ;;
  bdd_counter <- bdd_multiply_constant_u256 M clog2 g counter ;;
  Ok (exists_greater_equals M bdd_denom bdd_counter).

(** how the two doubling loops end: with the exact value or with a lower bound *)
Inductive bracket := Exact (counter denominator : Z) | Lower (counter denominator : Z).

(** lines 78-88 *)
Fixpoint grow_counter (M : mgr) (clog2 : Z -> nat) (d f_ : list bdd) (fuel : nat) (counter : Z) : res bracket :=
  match fuel with
  | O => UB
  | S fuel' =>
      let counter := u256 (counter * 2) in
      ge <- has_greater_equal_both M clog2 d f_ counter 1 ;;
      if snd ge : bool then Ok (Exact counter 1)
      else if negb (fst ge) then Ok (Lower (counter / 2) 1)
      else grow_counter M clog2 d f_ fuel' counter
  end.

(** lines 90-99 *)
Fixpoint grow_denominator (M : mgr) (clog2 : Z -> nat) (d f_ : list bdd) (fuel : nat) (denominator : Z) : res bracket :=
  match fuel with
  | O => UB
  | S fuel' =>
      let denominator := u256 (denominator * 2) in
      ge <- has_greater_equal_both M clog2 d f_ 1 denominator ;;
      if snd ge : bool then Ok (Exact 1 denominator)
      else if fst ge : bool then Ok (Lower 1 denominator)
      else grow_denominator M clog2 d f_ fuel' denominator
  end.

(** [long(x)] of a uint256_t; values that do not fit are not modelled *)
Definition to_long (z : Z) : res Z := if (z <? 2 ^ 63)%Z then Ok z else UB.
Definition long_pair (c d : Z) : res (Z * Z) := c <- to_long c ;; d <- to_long d ;; Ok (c, d).

(** [random_satisfying_input(f, count_minterms(f), T)] as a function of [f] and the results of rand(). The loops
    below take it as an argument, because RoundedRel.v uses them with rounded counts. The code counts once per
    function. *)
Definition sampler := bdd -> list Z -> res (list Z).
Definition random_sampler (rand_max : Z) (T : nat) : sampler :=
  fun f draws => random_satisfying_input rand_max f (count_minterms f) T draws.

(** lines 135-143; [T] is the terminal level, [pos] the number of rand() calls so far *)
Fixpoint rs_samples (pick : sampler) (draws : nat -> Z) (d f_ : list bdd) (greater : bdd)
         (T samples pos : nat) (counter denominator : Z) : res (Z * Z) :=
  match samples with
  | O => Ok (counter, denominator)
  | S samples' =>
      next_input <- pick greater (map draws (seq pos T)) ;;
      test_counter <- eval d next_input ;;
      test_denominator <- eval f_ next_input ;;
      if (u256 (counter * test_denominator) <? u256 (test_counter * denominator))%Z
      then rs_samples pick draws d f_ greater T samples' (pos + T)
             (u256 test_counter) (u256 test_denominator)
      else rs_samples pick draws d f_ greater T samples' (pos + T) counter denominator
  end.

Definition mask (M : mgr) (f : list bdd) (m : bdd) : list bdd := map (fun b => band M b m) f.

(** lines 108-145; [std::__gcd] is the greatest common divisor *)
Fixpoint rs_loop (M : mgr) (clog2 : Z -> nat) (pick : sampler) (draws : nat -> Z) (d f_ : list bdd)
         (last_greater : bdd) (samples : nat) (fuel pos : nat) (counter denominator : Z)
  : option (res (Z * Z)) :=
  match fuel with
  | O => None
  | S fuel' =>
      let common := Z.gcd counter denominator in
      let counter := (counter / common)%Z in
      let denominator := (denominator / common)%Z in
      let absGr := mask M d last_greater in
      let fGr := mask M f_ last_greater in
      match (bdd_denom <- bdd_multiply_constant_u256 M clog2 absGr denominator ;;
             bdd_counter <- bdd_multiply_constant_u256 M clog2 fGr counter ;;
             Ok (greater_than M bdd_denom bdd_counter)) with
      | Ok greater =>
          if is_zero greater then Some (long_pair counter denominator)
          else
            match rs_samples pick draws d f_ greater (read_size M) samples pos counter denominator with
            | Ok (counter, denominator) =>
                rs_loop M clog2 pick draws d f_ last_greater samples fuel'
                  (pos + samples * read_size M) counter denominator
            | UB => Some UB
            | Throw => Some Throw
            | Abort => Some Abort
            end
      | UB => Some UB
      | Throw => Some Throw
      | Abort => Some Abort
      end
  end.

(** lines 46-106: everything before the randomized loop. [inl] is an early return, [inr] the
    absolute difference, max(1,|f|), last_greater, counter and denominator. *)
Definition rs_start (M : mgr) (clog2 : Z -> nat) (f f_hat : list bdd) (num_rep : NumberRepresentation)
  : res (Z * Z + list bdd * list bdd * bdd * Z * Z) :=
  f_abs <- bdd_abs M f num_rep ;;
  f_ <- bdd_max_one M f_abs ;;
  d <- bdd_absolute_difference M f f_hat num_rep ;;
  if forallb is_zero d then Ok (inl (0%Z, 1%Z))
  else
    ge_one <- has_greater_equal_both M clog2 d f_ 1 1 ;;
    if snd ge_one : bool then Ok (inl (1%Z, 1%Z))
    else
      b <- (if fst ge_one : bool then grow_counter M clog2 d f_ (S (length d)) 1
            else grow_denominator M clog2 d f_ (S (length f_)) 1) ;;
      match b with
      | Exact c e => p <- long_pair c e ;; Ok (inl p)
      | Lower counter denominator =>
          bdd_denom <- bdd_multiply_constant_u256 M clog2 d denominator ;;
          bdd_counter <- bdd_multiply_constant_u256 M clog2 f_ counter ;;
          Ok (inr (d, f_, greater_than M bdd_denom bdd_counter, counter, denominator))
      end.

(** worst_case_relative_error.cpp 42-146. The support computed in lines 59-67 is not used. *)
Definition wcre_randomized_search (M : mgr) (clog2 : Z -> nat) (rand_max : Z) (draws : nat -> Z)
           (f f_hat : list bdd) (samples : nat) (num_rep : NumberRepresentation) (fuel : nat)
  : option (res (Z * Z)) :=
  match rs_start M clog2 f f_hat num_rep with
  | Ok (inl p) => Some (Ok p)
  | Ok (inr (d, f_, last_greater, counter, denominator)) =>
      rs_loop M clog2 (random_sampler rand_max (read_size M)) draws d f_ last_greater samples fuel 0 counter denominator
  | UB => Some UB
  | Throw => Some Throw
  | Abort => Some Abort
  end.

(** ** wcre_search *)
(** lines 172-190. [inl factor]: early return; [inr (min, max, last_greater)]. The factor is a
    float: doubling 2^127 gives infinity, whose logarithm does not fit into size_t. *)
Fixpoint ws_double (M : mgr) (clog2 : Z -> nat) (d f_ : list bdd) (fuel : nat) (factor : Z)
  : res (Q + Q * Q * bdd) :=
  match fuel with
  | O => UB
  | S fuel' =>
      _ <- require_ (factor <? 2 ^ 128)%Z ;;
      multiplied <- bdd_multiply_constant_double M clog2 f_ (inject_Z factor) 16 ;;
      let ge := exists_greater_equals M d multiplied in
      if snd ge : bool then Ok (inl (inject_Z factor))
      else if negb (fst ge) then
        if (factor =? 1)%Z then Ok (inr (0%Q, 1%Q, bone))
        else
          multiplied <- bdd_multiply_constant_double M clog2 f_ (inject_Z factor / 2) 16 ;;
          Ok (inr ((inject_Z factor / 2)%Q, inject_Z factor, greater_than M d multiplied))
      else ws_double M clog2 d f_ fuel' (factor * 2)
  end.

(** lines 191-215 *)
Fixpoint ws_bisect (M : mgr) (clog2 : Z -> nat) (d f_ : list bdd) (precision : Q) (fuel : nat)
         (min max : Q) (last_greater : bdd) : option (res Q) :=
  if Qle_bool (max - min) precision then Some (Ok ((min + max) / 2)%Q)
  else
    match fuel with
    | O => None
    | S fuel' =>
        let middle := ((min + max) / 2)%Q in
        let reduced_f := mask M f_ last_greater in
        let reduced_absdiff := mask M d last_greater in
        match bdd_multiply_constant_double M clog2 reduced_f middle 16 with
        | Ok multiplied =>
            let ge := exists_greater_equals M reduced_absdiff multiplied in
            if snd ge then Some (Ok middle)
            else if fst ge then
              ws_bisect M clog2 d f_ precision fuel' middle max (greater_than M reduced_absdiff multiplied)
            else ws_bisect M clog2 d f_ precision fuel' min middle last_greater
        | UB => Some UB
        | Throw => Some Throw
        | Abort => Some Abort
        end
    end.

(** lines 153-190: up to the bisection. [inl] is an early return. *)
Definition ws_start (M : mgr) (clog2 : Z -> nat) (f f_hat : list bdd) (num_extra_bits : nat)
           (num_rep : NumberRepresentation) : res (Q + list bdd * list bdd * Q * Q * bdd) :=
  f_abs <- bdd_abs M f num_rep ;;
  f_ <- bdd_max_one M f_abs ;;
  d <- bdd_absolute_difference M f f_hat num_rep ;;
  if forallb is_zero d then Ok (inl 0%Q)
  else
    let d' := repeat bzero num_extra_bits ++ d in
    let f_' := repeat bzero num_extra_bits ++ f_ in
    r <- ws_double M clog2 d' f_' (S (length d)) 1 ;;
    match r with
    | inl q => Ok (inl q)
    | inr (min, max, last_greater) => Ok (inr (d', f_', min, max, last_greater))
    end.

(** worst_case_relative_error.cpp 148-216 *)
Definition wcre_search (M : mgr) (clog2 : Z -> nat) (f f_hat : list bdd) (num_extra_bits : nat)
           (precision : Q) (num_rep : NumberRepresentation) (fuel : nat) : option (res Q) :=
  match ws_start M clog2 f f_hat num_extra_bits num_rep with
  | Ok (inl q) => Some (Ok q)
  | Ok (inr (d, f_, min, max, last_greater)) => ws_bisect M clog2 d f_ precision fuel min max last_greater
  | UB => Some UB
  | Throw => Some Throw
  | Abort => Some Abort
  end.

(** ** Symbolic division *)
(** worst_case_relative_error.cpp 223-229 and average_case_relative_error.cpp 88-95 *)
Definition divided (M : mgr) (f f_hat : list bdd) (num_extra_bits : nat) (num_rep : NumberRepresentation)
  : res (list bdd) :=
  absolute_difference <- bdd_absolute_difference M f f_hat num_rep ;;
  f_abs <- bdd_abs M f num_rep ;;
  no_zero <- bdd_max_one M f_abs ;;
  bdd_divide M absolute_difference no_zero num_extra_bits.

(** worst_case_relative_error.cpp 218-234 *)
Definition wcre_symbolic_division (M : mgr) (f f_hat : list bdd) (num_extra_bits : nat)
           (num_rep : NumberRepresentation) : res Q :=
  d <- divided M f f_hat num_extra_bits num_rep ;;
  Ok (inject_Z (get_max_value M d) / inject_Z (pow2 num_extra_bits))%Q.

(** arithmetic on floating point numbers with a finite divisor or factor *)
Definition nscale (x : num) (q : Q) : num := match x with Fin p => Fin (p / q) | NonFin => NonFin end.
Definition nplus (x y : num) : num :=
  match x, y with Fin p, Fin q => Fin (p + q) | _, _ => NonFin end.

(** average_case_relative_error.cpp 80-98 *)
Definition acre_symbolic_division (M : mgr) (f f_hat : list bdd) (num_extra_bits : nat)
           (num_rep : NumberRepresentation) : res num :=
  d <- divided M f f_hat num_extra_bits num_rep ;;
  Ok (nscale (average_value d) (inject_Z (pow2 num_extra_bits))).

(** ** Bounds *)
(** loop of maximum_relative_value_bounds, lines 246-263, over the reversed vector [max_one]:
    the index of the head is the length of the tail *)
Fixpoint wcre_bounds_loop (M : mgr) (f l : list bdd) (zero_so_far : bdd) (min_error max_error : Q) : Q * Q :=
  match l with
  | [] => (min_error, max_error)
  | b :: l' =>
      let modifier := band M zero_so_far b in
      let max_val := inject_Z (get_max_value M (mask M f modifier)) in
      wcre_bounds_loop M f l' (band M zero_so_far (bnot b))
        (qmax min_error (max_val / pow_minus_one (length l' + 1)))
        (qmax max_error (max_val / inject_Z (pow2 (length l'))))
  end.

(** worst_case_relative_error.cpp 236-266 *)
Definition maximum_relative_value_bounds (M : mgr) (f g : list bdd) : res (Q * Q) :=
  max_one <- bdd_max_one M g ;;
  Ok (wcre_bounds_loop M f (rev max_one) bone 0 0).

(** worst_case_relative_error.cpp 268-281 *)
Definition wcre_bounds (M : mgr) (f f_hat : list bdd) (num_rep : NumberRepresentation) : res (Q * Q) :=
  absolute_difference <- bdd_absolute_difference M f f_hat num_rep ;;
  f_abs <- bdd_abs M f num_rep ;;
  abs_max_one <- bdd_max_one M f_abs ;;
  maximum_relative_value_bounds M absolute_difference abs_max_one.

(** loop of average_relative_value, average_case_relative_error.cpp 23-37 *)
Fixpoint acre_bounds_loop (M : mgr) (f l : list bdd) (zero_so_far : bdd) (min_result max_result : num) : num * num :=
  match l with
  | [] => (min_result, max_result)
  | b :: l' =>
      let modifier := band M zero_so_far b in
      let average := average_value (mask M f modifier) in
      acre_bounds_loop M f l' (band M zero_so_far (bnot b))
        (nplus min_result (nscale average (pow_minus_one (length l' + 1))))
        (nplus max_result (nscale average (inject_Z (pow2 (length l')))))
  end.

(** average_case_relative_error.cpp 12-40 *)
Definition average_relative_value (M : mgr) (f g : list bdd) : res (num * num) :=
  max_one <- bdd_max_one M g ;;
  Ok (acre_bounds_loop M f (rev max_one) bone (Fin 0) (Fin 0)).

(** average_case_relative_error.cpp 42-52 *)
Definition acre_bounds (M : mgr) (f f_hat : list bdd) (num_rep : NumberRepresentation) : res (num * num) :=
  absolute_difference <- bdd_absolute_difference M f f_hat num_rep ;;
  f_absolute <- bdd_abs M f num_rep ;;
  average_relative_value M absolute_difference f_absolute.

(** average_case_relative_error.cpp 68-75; [path_sum] is a uint256_t *)
Fixpoint decimal_sums (tv : list (Q * Z)) (sum : Q) (path_sum : Z) : Q * Z :=
  match tv with
  | [] => (sum, path_sum)
  | (v, c) :: tv' => decimal_sums tv' (sum + v * inject_Z c) (u256 (path_sum + c))
  end.

(** average_case_relative_error.cpp 54-78 *)
Definition acre_add (M : mgr) (f f_hat : list bdd) (num_rep : NumberRepresentation) : res num :=
  respective_diff <- relative_add M f f_hat num_rep ;;
  terminal_values <- add_terminal_values respective_diff ;;
  let '(sum, path_sum) := decimal_sums terminal_values 0 0 in
  Ok (fdiv sum (inject_Z path_sum)).

(** ** Sampling the error rate *)
(** [difference] of error_rate.cpp 37-43 and 72-78; after the assertion the sizes agree *)
Definition differences (M : mgr) (f f_hat : list bdd) : res (list bdd) :=
  _ <- assert_ (length f =? length f_hat) ;;
  xor_vec M f f_hat.

(** lines 54-61 and 121-129: does some function evaluate to one? *)
Fixpoint any_one (l : list bdd) (input : list Z) : res bool :=
  match l with
  | [] => Ok false
  | b :: l' => x <- Eval b input ;; if is_one x then Ok true else any_one l' input
  end.

(** lines 49-62, [n] iterations left *)
Fixpoint sampling_loop (difference : list bdd) (draws : nat -> Z) (T n pos : nat) (error_samples : Z) : res Z :=
  match n with
  | O => Ok error_samples
  | S n' =>
      e <- any_one difference (map (fun i => Z.rem (draws i) 2) (seq pos T)) ;;
      sampling_loop difference draws T n' (pos + T) (if e : bool then error_samples + 1 else error_samples)%Z
  end.

(** error_rate.cpp 31-64. The loop counter is an [int]: more than 2^31 - 1 samples overflow it. *)
Definition error_rate_sampling (M : mgr) (draws : nat -> Z) (f f_hat : list bdd) (samples : Z) : res num :=
  difference <- differences M f f_hat ;;
  _ <- require_ (samples <? 2 ^ 31)%Z ;;
  error_samples <- sampling_loop difference draws (read_size M) (Z.to_nat samples) 0 0 ;;
  Ok (fdiv (inject_Z error_samples) (inject_Z samples)).

(** lines 85-94 *)
Definition activations_of (difference : list bdd) (T : nat) : list (nat * Q) :=
  map (fun p => (fst p, CountMinterm (snd p) (T - 1) / inject_Z (pow2 (T - 1)))%Q)
      (combine (seq 0 (length difference)) difference).

(** lines 115-134, [n] iterations left; [previous] are the functions with a larger rate *)
Fixpoint good_loop (pick : sampler) (draws : nat -> Z) (diff : bdd) (previous : list bdd)
         (T n pos : nat) (good_samples : Z) : res Z :=
  match n with
  | O => Ok good_samples
  | S n' =>
      input <- pick diff (map draws (seq pos T)) ;;
      found <- any_one previous input ;;
      good_loop pick draws diff previous T n' (pos + T)
        (if found : bool then good_samples else good_samples + 1)%Z
  end.

(** lines 102-138 over the remaining activations; [first] and [maximum_rate] are fixed *)
Fixpoint efficient_loop (rand_max : Z) (draws : nat -> Z) (difference : list bdd) (T : nat) (samples : Z)
         (first maximum_rate : Q) (rest : list (nat * Q)) (previous : list bdd) (pos : nat) (actual_rate : Q)
  : res Q :=
  match rest with
  | [] => Ok actual_rate
  | (k, rate) :: rest' =>
      diff <- vget difference k ;;
      match fdiv (inject_Z samples * rate) (maximum_rate - first) with
      | NonFin => UB (* conversion of an infinity or NaN to long *)
      | Fin q =>
          let index_samples := Z.quot (Qnum q) (Zpos (Qden q)) in
          _ <- require_ ((- 2 ^ 63 <=? index_samples)%Z && (index_samples <? 2 ^ 63)%Z) ;;
          if (index_samples =? 0)%Z
          then efficient_loop rand_max draws difference T samples first maximum_rate rest' (previous ++ [diff]) pos actual_rate
          else
            _ <- require_ (index_samples <? 2 ^ 31)%Z ;; (* the loop counter is an int *)
            good_samples <- good_loop (random_sampler rand_max T) draws diff previous T (Z.to_nat index_samples) pos 0 ;;
            let good_fraction := (inject_Z good_samples / inject_Z index_samples)%Q in
            efficient_loop rand_max draws difference T samples first maximum_rate rest' (previous ++ [diff])
              (pos + Z.to_nat index_samples * T) (actual_rate + rate * good_fraction)%Q
      end
  end.

(** error_rate.cpp 66-141. [sort] is std::sort with the comparison of lines 95-99, which
    leaves the order of equal rates open. *)
Definition error_rate_efficient_sampling (M : mgr) (sort : list (nat * Q) -> list (nat * Q)) (rand_max : Z)
           (draws : nat -> Z) (f f_hat : list bdd) (samples : Z) : res Q :=
  difference <- differences M f f_hat ;;
  let T := read_size M in
  let unsorted := activations_of difference T in
  let maximum_rate := fold_left (fun s p => s + snd p)%Q unsorted 0%Q in
  match sort unsorted with
  | [] => UB (* activations[0] *)
  | (k, first) :: rest =>
      d0 <- vget difference k ;;
      actual_rate <- efficient_loop rand_max draws difference T samples first maximum_rate rest [d0] 0 first ;;
      Ok (if Qle_bool 1 actual_rate then 1%Q else actual_rate)
  end.
