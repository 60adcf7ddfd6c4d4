(** Third part of the model with rounding: ADDs. Every leaf operation of an ADD operator and every
    operation on doubles in the metrics that use ADDs is rounded by [rnd]. The conversions of counts to
    double are rounded as well. uint256_t and cpp_dec_float_100 stay exact. CUDD's identification of
    leaves that differ by less than epsilon is modelled at the end, for the quotients. *)
From Coq Require Import List Bool Arith ZArith QArith.
From Verif Require Import Res Cudd Helpers Counting Metrics RelMetrics.
Import ListNotations.
Open Scope nat_scope.

Section RoundedAdd.
Variable rnd : Q -> Q.

(** division of two doubles *)
Definition fdiv_fl (p q : Q) : num := match fdiv p q with Fin x => Fin (rnd x) | NonFin => NonFin end.

(** ADD operators (external): the operation on the values of two leaves is a double operation *)
Definition aadd_fl (M : mgr) := apply M (fun p q => rnd (p + q))%Q.
Definition asub_fl (M : mgr) := apply M (fun p q => rnd (p - q))%Q.
Definition amul_fl (M : mgr) := apply M (fun p q => rnd (p * q))%Q.
Definition adiv_fl (M : mgr) := apply M (fun p q => rnd (p / q))%Q.

(** cudd_helpers.cpp 346-351 *)
Fixpoint forest_loop_fl (M : mgr) (l : list bdd) (result signBitPower : add) : add * add :=
  match l with
  | [] => (result, signBitPower)
  | b :: l' =>
      let two := aadd_fl M (aconst 1) (aconst 1) in
      let result := amul_fl M result two in
      let signBitPower := amul_fl M signBitPower two in
      let result := aadd_fl M result (to_add b) in
      forest_loop_fl M l' result signBitPower
  end.

(** cudd_helpers.cpp 332-356 *)
Definition bdd_forest_to_add_fl (M : mgr) (bdds : list bdd) (num_rep : NumberRepresentation) : res add :=
  let bdds_ := match num_rep with BaseTwo => bdds ++ [bzero] | TwosComplement => bdds end in
  match rev bdds_ with
  | [] => UB
  | sign :: rest =>
      let '(result, signBitPower) := forest_loop_fl M rest (aconst 0) (aconst 1) in
      Ok (asub_fl M result (amul_fl M (to_add sign) signBitPower))
  end.

(** cudd_helpers.cpp 358-369 *)
Definition xor_difference_add_fl (M : mgr) (f f_hat : list bdd) : res add :=
  diff <- xor_vec M f f_hat ;;
  bdd_forest_to_add_fl M diff BaseTwo.

(** cudd_helpers.cpp 371-403; the absolute value of a double is exact *)
Definition absolute_difference_add_fl (M : mgr) (f f_hat : list bdd) (num_rep : NumberRepresentation)
  : res add :=
  a <- bdd_forest_to_add_fl M f num_rep ;;
  b <- bdd_forest_to_add_fl M f_hat num_rep ;;
  Ok (apply M (fun p q => Qabs.Qabs (rnd (p - q)))%Q a b).

(** error_rate.cpp 143-161 *)
Definition error_rate_add_fl (M : mgr) (f f_hat : list bdd) : res num :=
  diff <- xor_difference_add_fl M f f_hat ;;
  terminal_values <- add_terminal_values diff ;;
  let '(non_zero, total) := nonzero_sums terminal_values 0 0 in
  Ok (fdiv_fl (rnd (inject_Z non_zero)) (rnd (inject_Z total))).

(** average_bit_flip_error.cpp 34-51 *)
Definition average_bit_flip_error_add_fl (M : mgr) (f f_hat : list bdd) : res num :=
  diff <- xor_difference_add_fl M f f_hat ;;
  terminal_values <- add_terminal_values diff ;;
  '(bit_count_sum, total) <- popcount_sums terminal_values 0 0 ;;
  Ok (fdiv_fl (rnd (inject_Z bit_count_sum)) (rnd (inject_Z total))).

(** worst_case_bit_flip_error.cpp 13-17 *)
Fixpoint flip_add_fl (M : mgr) (f f_hat : list bdd) (bit_error_sum : add) : res add :=
  match f with
  | [] => Ok bit_error_sum
  | x :: f' =>
      match f_hat with
      | [] => UB
      | y :: g' => flip_add_fl M f' g' (aadd_fl M bit_error_sum (to_add (bxor M x y)))
      end
  end.

(** worst_case_bit_flip_error.cpp 7-20 *)
Definition worst_case_bit_flip_error_fl (M : mgr) (f f_hat : list bdd) : res Z :=
  _ <- assert_ (length f =? length f_hat) ;;
  bit_error_sum <- flip_add_fl M f f_hat (aconst 0) ;;
  const_ADD_value (aconst (amax bit_error_sum)).

(** worst_case_bit_flip_error.cpp 22-37 *)
Definition worst_case_bit_flip_error_add_fl (M : mgr) (f f_hat : list bdd) : res Z :=
  diff <- xor_difference_add_fl M f f_hat ;;
  terminal_values <- add_terminal_values diff ;;
  max_popcount terminal_values 0.

(** worst_case_error.cpp 68-84 *)
Definition worst_case_error_add_fl (M : mgr) (f f_hat : list bdd) (num_rep : NumberRepresentation) : res Z :=
  diff <- absolute_difference_add_fl M f f_hat num_rep ;;
  terminal_values <- add_terminal_values diff ;;
  Ok (fold_left (fun max_value p => Z.max (to_u256 (fst p)) max_value) terminal_values 0%Z).

(** average_case_error.cpp 87-106 *)
Definition average_case_error_add_fl (M : mgr) (f f_hat : list bdd) (num_rep : NumberRepresentation) : res num :=
  diff <- absolute_difference_add_fl M f f_hat num_rep ;;
  terminal_values <- add_terminal_values diff ;;
  let '(sum, path_sum) := weighted_sums (fun v => v) terminal_values 0 0 in
  Ok (fdiv (inject_Z sum) (inject_Z path_sum)).

(** average_case_error.cpp 108-128 *)
Definition mean_squared_error_add_fl (M : mgr) (f f_hat : list bdd) (num_rep : NumberRepresentation) : res num :=
  diff <- absolute_difference_add_fl M f f_hat num_rep ;;
  terminal_values <- add_terminal_values diff ;;
  let '(sum, path_sum) := weighted_sums (fun v => u256 (v * v)) terminal_values 0 0 in
  Ok (fdiv (inject_Z sum) (inject_Z path_sum)).

(** worst_case_relative_error.cpp 17-20 and average_case_relative_error.cpp 61-64 *)
Definition relative_add_fl (M : mgr) (f f_hat : list bdd) (num_rep : NumberRepresentation) : res add :=
  diff <- absolute_difference_add_fl M f f_hat num_rep ;;
  f_abs <- bdd_abs M f num_rep ;;
  d <- bdd_forest_to_add_fl M f_abs BaseTwo ;;
  Ok (adiv_fl M diff (amaximum M d (aconst 1))).

(** worst_case_relative_error.cpp 12-30 *)
Definition wcre_add_fl (M : mgr) (f f_hat : list bdd) (num_rep : NumberRepresentation) : res Q :=
  respective_diff <- relative_add_fl M f f_hat num_rep ;;
  terminal_values <- add_terminal_values respective_diff ;;
  Ok (fold_left (fun largest p => qmax largest (fst p)) terminal_values 0%Q).

(** average_case_relative_error.cpp 54-78 *)
Definition acre_add_fl (M : mgr) (f f_hat : list bdd) (num_rep : NumberRepresentation) : res num :=
  respective_diff <- relative_add_fl M f f_hat num_rep ;;
  terminal_values <- add_terminal_values respective_diff ;;
  let '(sum, path_sum) := decimal_sums terminal_values 0 0 in
  Ok (fdiv sum (inject_Z path_sum)).
End RoundedAdd.

(** Identification of leaves (external). Before CUDD makes a leaf it looks in one chain of a hash table for a
    leaf that differs by less than epsilon (ddEqualVal in cuddUniqueConst) and takes that one. [table p q]
    are the leaves that exist when the quotient of [p] and [q] is made; any list. The operations before the
    division give integers and are left as they are above. *)
Section Merged.
Variable rnd : Q -> Q.
Variable hash : Q -> Z.
Variable epsilon : Q.
Variable table : Q -> Q -> list Q.

Fixpoint unique_const (leaves : list Q) (value : Q) : Q :=
  match leaves with
  | [] => value
  | looking :: leaves' =>
      if ((hash looking =? hash value)%Z && negb (Qle_bool epsilon (Qabs.Qabs (looking - value))))%bool
      then looking else unique_const leaves' value
  end.

Definition adiv_merged (M : mgr) := apply M (fun p q => unique_const (table p q) (rnd (p / q)))%Q.

(** worst_case_relative_error.cpp 17-20 and average_case_relative_error.cpp 61-64 *)
Definition relative_add_merged (M : mgr) (f f_hat : list bdd) (num_rep : NumberRepresentation) : res add :=
  diff <- absolute_difference_add_fl rnd M f f_hat num_rep ;;
  f_abs <- bdd_abs M f num_rep ;;
  d <- bdd_forest_to_add_fl rnd M f_abs BaseTwo ;;
  Ok (adiv_merged M diff (amaximum M d (aconst 1))).

(** worst_case_relative_error.cpp 12-30 *)
Definition wcre_add_merged (M : mgr) (f f_hat : list bdd) (num_rep : NumberRepresentation) : res Q :=
  respective_diff <- relative_add_merged M f f_hat num_rep ;;
  terminal_values <- add_terminal_values respective_diff ;;
  Ok (fold_left (fun largest p => qmax largest (fst p)) terminal_values 0%Q).

(** average_case_relative_error.cpp 54-78 *)
Definition acre_add_merged (M : mgr) (f f_hat : list bdd) (num_rep : NumberRepresentation) : res num :=
  respective_diff <- relative_add_merged M f f_hat num_rep ;;
  terminal_values <- add_terminal_values respective_diff ;;
  let '(sum, path_sum) := decimal_sums terminal_values 0 0 in
  Ok (fdiv sum (inject_Z path_sum)).
End Merged.
