(** Model of the absolute error metrics in /repo/src/error_metrics: error_rate.cpp,
    average_bit_flip_error.cpp, worst_case_bit_flip_error.cpp, worst_case_error.cpp and
    average_case_error.cpp.

    [double] and [cpp_dec_float_100] are exact rationals (simplification: no rounding),
    except for [pow(2, k) - 1] whose rounding is modelled. [uint256_t] and [unsigned long]
    are integers with explicit wrap-around. *)
From Coq Require Import List Bool Arith ZArith QArith Lia.
From Verif Require Import Res Cudd Helpers Counting.
Import ListNotations.
Open Scope nat_scope.

(** floating point results: a number, or an infinity or NaN *)
Inductive num := Fin (q : Q) | NonFin.
Definition fdiv (p q : Q) : num := if Qeq_bool q 0 then NonFin else Fin (p / q).

Definition u256 (z : Z) : Z := (z mod 2 ^ 256)%Z.
Definition u64 (z : Z) : Z := (z mod 2 ^ 64)%Z.
Definition u32 (z : Z) : Z := (z mod 2 ^ 32)%Z.
(** [one << e] *)
Definition shl256 (e : nat) : Z := u256 (2 ^ Z.of_nat e).
(** [uint256_t(d)] of a non-negative double: truncation *)
Definition to_u256 (q : Q) : Z := u256 (Z.quot (Qnum q) (Zpos (Qden q))).
(** [std::pow(2.0, k) - 1]: 2^k - 1 is not representable for k > 53 and rounds to 2^k *)
Definition pow_minus_one (k : nat) : Q :=
  inject_Z (if k <=? 53 then 2 ^ Z.of_nat k - 1 else 2 ^ Z.of_nat k).

(** ** error_rate.cpp *)
(** loop of error_rate, lines 19-22 *)
Fixpoint miter (M : mgr) (f f_hat : list bdd) (miter_bdd : bdd) : res bdd :=
  match f with
  | [] => Ok miter_bdd
  | x :: f' =>
      match f_hat with
      | [] => UB
      | y :: g' => miter M f' g' (bor M miter_bdd (bxor M x y))
      end
  end.

(** error_rate.cpp 10-29. For two empty vectors the code computes with 2^32 - 1 variables
    instead of 0; the quotient is 0 in both cases. *)
Definition error_rate (M : mgr) (f f_hat : list bdd) : res Q :=
  miter_bdd <- miter M f f_hat bzero ;;
  let num_variables := terminal_level [f; f_hat] - 1 in
  let minterms := CountMinterm miter_bdd num_variables in
  Ok (minterms / inject_Z (pow2 num_variables))%Q.

(** error_rate.cpp 163-170 *)
Definition error_rate_single (M : mgr) (f f_hat : bdd) : res Q := error_rate M [f] [f_hat].

(** sums of lines 150-159; [terminal_values] as returned by add_terminal_values *)
Fixpoint nonzero_sums (tv : list (Q * Z)) (non_zero total : Z) : Z * Z :=
  match tv with
  | [] => (non_zero, total)
  | (value, path_count) :: tv' =>
      nonzero_sums tv' (if Qeq_bool value 0 then non_zero else u64 (non_zero + path_count))
                   (u64 (total + path_count))
  end.

(** error_rate.cpp 143-161 *)
Definition error_rate_add (M : mgr) (f f_hat : list bdd) : res num :=
  diff <- xor_difference_add M f f_hat ;;
  terminal_values <- add_terminal_values diff ;;
  let '(non_zero, total) := nonzero_sums terminal_values 0 0 in
  Ok (fdiv (inject_Z non_zero) (inject_Z total)).

(** ** average_bit_flip_error.cpp *)
(** lines 14-22: also used in average_case_error.cpp 18-22 *)
Definition max_support (f : list bdd) (m : nat) : nat :=
  fold_left (fun m b => Nat.max m (support_size b)) f m.

Fixpoint flip_sum (M : mgr) (f f_hat : list bdd) (s : nat) (result : Q) : res Q :=
  match f with
  | [] => Ok result
  | x :: f' =>
      match f_hat with
      | [] => UB
      | y :: g' => flip_sum M f' g' s (result + CountMinterm (bxor M x y) s)%Q
      end
  end.

(** average_bit_flip_error.cpp 9-32 *)
Definition average_bit_flip_error (M : mgr) (f f_hat : list bdd) : res Q :=
  _ <- assert_ (length f =? length f_hat) ;;
  let max_support_size := max_support f_hat (max_support f 0) in
  result <- flip_sum M f f_hat max_support_size 0 ;;
  Ok (result / inject_Z (pow2 max_support_size))%Q.

(** [__builtin_popcountll(d)]: the conversion of the double is undefined from 2^64 on *)
Fixpoint pos_popcount (p : positive) : Z :=
  match p with xH => 1 | xO p' => pos_popcount p' | xI p' => 1 + pos_popcount p' end%Z.
Definition popcount (z : Z) : Z := match z with Zpos p => pos_popcount p | _ => 0%Z end.
Definition popcountll (q : Q) : res Z :=
  let z := Z.quot (Qnum q) (Zpos (Qden q)) in
  if (-1 <? z)%Z && (z <? 2 ^ 64)%Z then Ok (popcount z) else UB.

Fixpoint popcount_sums (tv : list (Q * Z)) (bit_count_sum total : Z) : res (Z * Z) :=
  match tv with
  | [] => Ok (bit_count_sum, total)
  | (value, path_count) :: tv' =>
      bitcount <- popcountll value ;;
      popcount_sums tv' (u64 (bit_count_sum + bitcount * path_count)) (u64 (total + path_count))
  end.

(** average_bit_flip_error.cpp 34-51 *)
Definition average_bit_flip_error_add (M : mgr) (f f_hat : list bdd) : res num :=
  diff <- xor_difference_add M f f_hat ;;
  terminal_values <- add_terminal_values diff ;;
  '(bit_count_sum, total) <- popcount_sums terminal_values 0 0 ;;
  Ok (fdiv (inject_Z bit_count_sum) (inject_Z total)).

(** ** worst_case_bit_flip_error.cpp *)
Fixpoint flip_add (M : mgr) (f f_hat : list bdd) (bit_error_sum : add) : res add :=
  match f with
  | [] => Ok bit_error_sum
  | x :: f' =>
      match f_hat with
      | [] => UB
      | y :: g' => flip_add M f' g' (aadd M bit_error_sum (to_add (bxor M x y)))
      end
  end.

(** worst_case_bit_flip_error.cpp 7-20; [FindMax] returns a constant ADD *)
Definition worst_case_bit_flip_error (M : mgr) (f f_hat : list bdd) : res Z :=
  _ <- assert_ (length f =? length f_hat) ;;
  bit_error_sum <- flip_add M f f_hat (aconst 0) ;;
  const_ADD_value (aconst (amax bit_error_sum)).

Fixpoint max_popcount (tv : list (Q * Z)) (m : Z) : res Z :=
  match tv with
  | [] => Ok m
  | (value, _) :: tv' =>
      bitcount <- popcountll value ;;
      max_popcount tv' (Z.max (u32 bitcount) m)
  end.

(** worst_case_bit_flip_error.cpp 22-37 *)
Definition worst_case_bit_flip_error_add (M : mgr) (f f_hat : list bdd) : res Z :=
  diff <- xor_difference_add M f f_hat ;;
  terminal_values <- add_terminal_values diff ;;
  max_popcount terminal_values 0.

(** ** worst_case_error.cpp *)
(** loop of get_max_value, lines 34-43, on the reversed vector; the exponent of the head is the
    number of remaining elements *)
Fixpoint max_value_loop (M : mgr) (l : list bdd) (sigma : bdd) (error : Z) : Z :=
  match l with
  | [] => error
  | b :: l' =>
      let mask := band M sigma b in
      if negb (is_zero mask) then max_value_loop M l' mask (u256 (error + shl256 (length l')))
      else max_value_loop M l' sigma error
  end.

(** worst_case_error.cpp 14-46 *)
Definition get_max_value (M : mgr) (f : list bdd) : Z := max_value_loop M (rev f) bone 0.

(** worst_case_error.cpp 48-57 *)
Definition worst_case_error (M : mgr) (f f_hat : list bdd) (num_rep : NumberRepresentation) : res Z :=
  absolute_difference <- bdd_absolute_difference M f f_hat num_rep ;;
  Ok (get_max_value M absolute_difference).

(** worst_case_error.cpp 59-66 *)
Definition worst_case_error_percent (M : mgr) (f f_hat : list bdd) (num_rep : NumberRepresentation)
  : res num :=
  wce <- worst_case_error M f f_hat num_rep ;;
  Ok (fdiv (inject_Z wce) (pow_minus_one (length f))).

(** worst_case_error.cpp 68-84 *)
Definition worst_case_error_add (M : mgr) (f f_hat : list bdd) (num_rep : NumberRepresentation) : res Z :=
  diff <- absolute_difference_add M f f_hat num_rep ;;
  terminal_values <- add_terminal_values diff ;;
  Ok (fold_left (fun max_value p => Z.max (to_u256 (fst p)) max_value) terminal_values 0%Z).

(** loop of approximate_worst_case_error, lines 99-112. The list holds the bit pairs from the
    most significant considered bit down, so the index of the head is the length of the tail.
    Returns (f_, f_hat_) in pushing order, bit_start and bit_end. *)
Fixpoint awce_loop (l : list (bdd * bdd)) (n : Z) (bit_start : Z) (f_ f_hat_ : list bdd)
  : list bdd * list bdd * Z * Z :=
  match l with
  | [] => (f_, f_hat_, bit_start, (-1)%Z)
  | (x, y) :: l' =>
      let i := Z.of_nat (length l') in
      let bit_start := if (bit_start =? -1)%Z && negb (bdd_eqb x y) then i else bit_start in
      if (0 <=? bit_start)%Z && (n <=? bit_start - i)%Z then (f_, f_hat_, bit_start, i)
      else awce_loop l' n bit_start (f_ ++ [x]) (f_hat_ ++ [y])
  end.

(** worst_case_error.cpp 86-133 *)
Definition approximate_worst_case_error (M : mgr) (f f_hat : list bdd) (n : Z)
           (num_rep : NumberRepresentation) : res Z :=
  _ <- assert_ ((length f =? length f_hat) && (1 <=? n)%Z) ;;
  let pairs := rev (combine f f_hat) in
  let considered := match num_rep with BaseTwo => pairs | TwosComplement => tl pairs end in
  let '(f_, f_hat_, bit_start, bit_end) := awce_loop considered n (-1)%Z [] [] in
  if (bit_start =? -1)%Z then Ok 0%Z
  else
    let f_ := rev f_ in
    let f_hat_ := rev f_hat_ in
    '(f_, f_hat_) <- match num_rep with
                     | BaseTwo => Ok (f_, f_hat_)
                     | TwosComplement =>
                         s <- vback f ;; s_hat <- vback f_hat ;; Ok (f_ ++ [s], f_hat_ ++ [s_hat])
                     end ;;
    absolute_difference <- bdd_absolute_difference M f_ f_hat_ num_rep ;;
    let shift := Z.to_nat (bit_end + 1) in
    Ok (u256 (u256 (u256 (get_max_value M absolute_difference + 1) * shl256 shift) - 1)).

(** ** average_case_error.cpp *)
(** loop of average_value, lines 24-29; [i] is the index of the head *)
Fixpoint average_sum (f : list bdd) (i s : nat) (sum : Z) : Z :=
  match f with
  | [] => sum
  | b :: f' =>
      average_sum f' (S i) s (u256 (sum + u256 (shl256 i * to_u256 (CountMinterm b s))))
  end.

(** average_case_error.cpp 12-33 *)
Definition average_value (f : list bdd) : num :=
  let max_support_size := max_support f 0 in
  fdiv (inject_Z (average_sum f 0 max_support_size 0)) (inject_Z (shl256 max_support_size)).

(** inner loop of mean_squared_value, lines 49-58, over the tail of the vector from bit [b];
    [x] is bit [i] *)
Fixpoint square_row (M : mgr) (x : bdd) (i : nat) (l : list bdd) (b s : nat) (sum : Z) : Z :=
  match l with
  | [] => sum
  | y :: l' =>
      let both := band M x y in
      let doubling_factor := if i =? b then 1%Z else 2%Z in
      square_row M x i l' (S b) s
        (u256 (sum + u256 (u256 (u256 (shl256 i * shl256 b) * to_u256 (CountMinterm both s)) * doubling_factor)))
  end.
(** outer loop, lines 47-59 *)
Fixpoint square_sum (M : mgr) (l : list bdd) (i s : nat) (sum : Z) : Z :=
  match l with
  | [] => sum
  | x :: l' => square_sum M l' (S i) s (square_row M x i l i s sum)
  end.

(** average_case_error.cpp 35-63 *)
Definition mean_squared_value (M : mgr) (f : list bdd) : num :=
  let max_support_size := max_support f 0 in
  fdiv (inject_Z (square_sum M f 0 max_support_size 0)) (inject_Z (shl256 max_support_size)).

(** average_case_error.cpp 65-74 *)
Definition average_case_error (M : mgr) (f f_hat : list bdd) (num_rep : NumberRepresentation) : res num :=
  absolute_difference <- bdd_absolute_difference M f f_hat num_rep ;;
  Ok (average_value absolute_difference).

(** average_case_error.cpp 76-85 *)
Definition mean_squared_error (M : mgr) (f f_hat : list bdd) (num_rep : NumberRepresentation) : res num :=
  absolute_difference <- bdd_absolute_difference M f f_hat num_rep ;;
  Ok (mean_squared_value M absolute_difference).

(** lines 97-103 and 118-125: [g] is the identity or the square *)
Fixpoint weighted_sums (g : Z -> Z) (tv : list (Q * Z)) (sum path_sum : Z) : Z * Z :=
  match tv with
  | [] => (sum, path_sum)
  | (value, path_count) :: tv' =>
      weighted_sums g tv' (u256 (sum + u256 (g (to_u256 value) * path_count))) (u256 (path_sum + path_count))
  end.

(** average_case_error.cpp 87-106 *)
Definition average_case_error_add (M : mgr) (f f_hat : list bdd) (num_rep : NumberRepresentation) : res num :=
  diff <- absolute_difference_add M f f_hat num_rep ;;
  terminal_values <- add_terminal_values diff ;;
  let '(sum, path_sum) := weighted_sums (fun v => v) terminal_values 0 0 in
  Ok (fdiv (inject_Z sum) (inject_Z path_sum)).

(** average_case_error.cpp 108-128 *)
Definition mean_squared_error_add (M : mgr) (f f_hat : list bdd) (num_rep : NumberRepresentation) : res num :=
  diff <- absolute_difference_add M f f_hat num_rep ;;
  terminal_values <- add_terminal_values diff ;;
  let '(sum, path_sum) := weighted_sums (fun v => u256 (v * v)) terminal_values 0 0 in
  Ok (fdiv (inject_Z sum) (inject_Z path_sum)).
